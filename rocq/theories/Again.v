(** Proving a statement again. *)
From Coq Require Import String.
From Verif Require Import Base World Val Expr Utils Stmt Prove Verify Spec Shapes Claims Clauses Lib DictProofs Keeps Tree
  Build Process Ktruth Provers Honest Supply Complete Total Total4 RangeC Leak Sound3 Runs.
Open Scope Z_scope.
Open Scope list_scope.

Section A.
Context {W : World}.

Lemma dset_known e (d : dict Z) s v x : known d x -> known (dset e d s v) x.
Proof.
  intros (k & u & I & N). induction d as [|[k1 u1] d IH]; [destruct I|]. simpl. destruct I as [I|I].
  - injection I as <- <-. destruct (sec_eqb e k1 s); [exists k1, v|exists k1, u1]; simpl; auto.
  - destruct (sec_eqb e k1 s); [exists k, u; simpl; auto|]. destruct (IH I) as (k2 & u2 & I2 & N2). exists k2, u2. simpl; auto.
Qed.
Lemma dupdate_known e (d' d : dict Z) x : known d x -> known (dupdate e d d') x.
Proof. unfold dupdate. revert d. induction d' as [|[k v] d' IH]; intros d H; simpl; auto. apply IH, dset_known, H. Qed.

(** statement before and after *)
Inductive After (sd : dict Z) : stmt -> stmt -> Prop :=
| AfDL d d' e : dl_lhs d' = dl_lhs d -> dl_bases d' = dl_bases d -> dl_secs d' = dl_secs d ->
    dl_vals d' = dupdate e (dl_vals d) sd -> After sd (SDL d) (SDL d')
| AfAnd subs subs' b : Forall2 (After sd) subs subs' -> After sd (SAnd subs b) (SAnd subs' b)
| AfExt k b pre con pre' con' : After sd (SExt k b pre con) (SExt k b pre' con').

Lemma get_prover_after sd s : orfree s -> forall a o s' a', get_prover s sd a = Ok ((o, s'), a') ->
  (exists p, o = Some p) -> After sd s s'.
Proof.
  induction s as [d|subs b IH|subs b ch IH|k b q|k b q con IH] using stmt_ind'; intros OF a o s' a' H (p & ->);
    cbn [get_prover] in H.
  - apply bind_ok in H as ([o d'] & s1 & E & H). apply ret_ok in H as [H _]. cbn [fst snd] in H. injection H as -> <-.
    unfold get_prover_dl in E. apply bind_ok in E as (e & s2 & _ & E). cbv zeta in E.
    destruct (empty_dict _ || existsb _ _); apply ret_ok in E as [E _]; [discriminate|]. injection E as _ <-.
    econstructor; reflexivity.
  - apply bind_ok in H as ([] & s1 & _ & H). destruct b; [discriminate|].
    apply bind_ok in H as (l & s2 & E & H). destruct (forallb _ l) eqn:F; [|discriminate].
    apply ret_ok in H as [H _]. injection H as <- <-. constructor. assert (Forall orfree subs) by (inversion OF; auto). clear OF. rename H into OF.
    revert s1 s2 l E F. induction subs as [|x subs IHs]; intros s1 s2 l E F; cbn [mapM] in E.
    + minvs. constructor.
    + apply bind_ok in E as ([o x'] & s3 & E1 & E). apply bind_ok in E as (l1 & s4 & E2 & E). apply ret_ok in E as [<- _].
      cbn [forallb fst] in F. apply andb_true_iff in F as [F1 F]. destruct o as [p|]; [|discriminate].
      inversion IH; subst. inversion OF; subst. simpl. constructor; eauto.
  - inversion OF.
  - minvs. constructor.
  - minvs. constructor.
Qed.
Lemma After_precommit U L D w sd s : forall s1 p, After sd s s1 -> Built U L D w s1 p -> forall a pre p2 s2 a2,
  precommit s1 p a = Ok ((pre, p2, s2), a2) -> After sd s s2.
Proof.
  induction s as [d|subs b IH|subs b ch IH|k b q|k b q con IH] using stmt_ind'; intros s1 p AF BT a pre p2 s2 a2 H;
    inversion AF; subst; inversion BT; subst; cbn [precommit] in H.
  - minvs. econstructor; eauto.
  - apply bind_ok in H as (l & s1 & E & H). apply ret_ok in H as [H _]. injection H as <- <- <-. constructor.
    clear AF BT. match goal with B : Forall2 (Built _ _ _ _) _ _ |- _ => revert ps B a s1 l E end. match goal with F : Forall2 (After sd) _ _ |- _ => induction F as [|x y l1 l2 Hxy F IHF] end; intros ps B a s1 l E; inversion B; subst; cbn [zipM] in E.
    + minvs. constructor.
    + apply bind_ok in E as (r & s3 & E1 & E). apply bind_ok in E as (l3 & s4 & E2 & E). apply ret_ok in E as [<- _].
      inversion IH; subst. destruct r as [[pr p'] s']. cbn [map snd]. constructor; [eapply H2; eauto|]. eapply IHF; eauto.
  - apply bind_ok in H as (p & s3 & E1 & H). apply bind_ok in H as (c & s4 & E2 & H). apply bind_ok in H as (r & s5 & E3 & H).
    apply ret_ok in H as [H _]. injection H as <- <- <-. constructor.
  - apply bind_ok in H as (p & s3 & E1 & H). apply bind_ok in H as (c & s4 & E2 & H). apply bind_ok in H as (r & s5 & E3 & H).
    apply ret_ok in H as [H _]. injection H as <- <- <-. constructor.
Qed.

Ltac dlr := repeat match goal with
  | E : dl_lhs _ = dl_lhs _ |- _ => rewrite E in *; clear E | E : dl_bases _ = dl_bases _ |- _ => rewrite E in *; clear E
  | E : dl_secs _ = dl_secs _ |- _ => rewrite E in *; clear E | E : dl_vals _ = _ |- _ => rewrite E in *; clear E end.
Ltac af_ind s := induction s as [d|subs b IH|subs b ch IH|k b q|k b q con IH] using stmt_ind'.
Lemma After_list (P Q : stmt -> Prop) sd l l' : Forall2 (After sd) l l' ->
  Forall (fun s => forall s', After sd s s' -> P s -> Q s') l -> Forall P l -> Forall Q l'.
Proof. induction 1; intros F G; inversion F; inversion G; subst; constructor; auto. Qed.

Lemma After_orfree sd s : forall s', After sd s s' -> orfree s -> orfree s'.
Proof.
  af_ind s; intros s' H O; inversion H; inversion O; subst; constructor. eapply After_list; eauto.
Qed.
Lemma After_pstrip sd s : forall s', After sd s s' -> pstrip s' = pstrip s.
Proof.
  af_ind s; intros s' H; inversion H; subst; cbn [pstrip]; try congruence.
  f_equal. clear H. match goal with F : Forall2 (After sd) _ _ |- _ => induction F end; auto. inversion IH; subst. cbn [map]. f_equal; auto.
Qed.
Lemma After_Tru sd w s : forall s', After sd s s' -> Tru sd w s -> Tru sd w s'.
Proof.
  af_ind s; intros s' H T; inversion H; inversion T; subst; constructor; auto.
  - unfold dl_true, dl_holds in *. dlr.  auto.
  - eapply After_list; eauto.
Qed.
Lemma After_Vals sd U w s : entries_ok U w sd -> forall s', After sd s s' -> Vals U w s -> Vals U w s'.
Proof.
  intros ES. af_ind s; intros s' H T; inversion H; inversion T; subst; constructor; auto.
  - dlr. apply entries_ok_update; auto.
  - eapply After_list; eauto.
Qed.
Lemma After_Supplied sd U w e e' s : (forall x, In x U -> e (sid x) <> None -> e' (sid x) <> None) ->
  forall s', After sd s s' -> Sok U s /\ Supplied sd w e s -> Supplied sd w e' s'.
Proof.
  intros M. af_ind s; intros s' H [SO T]; inversion H; inversion T; inversion SO; subst; try constructor; auto.
  - dlr. intros x Hx. match goal with K : forall y, In y (dl_secs d) -> _ |- _ => destruct (K x Hx); auto end. left. now apply dupdate_known.
  - eapply (After_list (fun s => Sok U s /\ Supplied sd w e s)); [eassumption|exact IH|]. rewrite Forall_forall in *. auto.
  - intros x Hx. match goal with K : forall y, In y (kuser k) -> _ |- _ => destruct (K x Hx); auto end.
  - intros x Hx. match goal with K : forall y, In y (kuser k) -> _ |- _ => destruct (K x Hx); auto end.
Qed.
Lemma After_Sok sd U s : forall s', After sd s s' -> Sok U s -> Sok U s'.
Proof.
  af_ind s; intros s' H T; inversion H; inversion T; subst; constructor; dlr; auto.
  eapply After_list; eauto.
Qed.
Lemma After_Shape sd s : forall s', After sd s s' -> Shape s -> Shape s'.
Proof.
  af_ind s; intros s' H T; inversion H; inversion T; subst; constructor; auto.
  - unfold dl_shape in *. dlr.  auto.
  - eapply After_list; eauto.
Qed.
Lemma After_Ords sd ord s : forall s', After sd s s' -> Ords ord s -> Ords ord s'.
Proof.
  af_ind s; intros s' H T; inversion H; inversion T; subst; constructor; auto.
  - dlr. auto.
  - eapply After_list; eauto.
Qed.
Lemma orfree_clause f s pre o post : clause f s pre o post -> orfree s -> False.
Proof.
  induction 1; intros O; inversion O; subst; auto. apply IHclause. rewrite Forall_app in H1. destruct H1 as [_ H1].
  now inversion H1.
Qed.
Lemma orfree_Apart s : orfree s -> Apart s.
Proof.
  af_ind s; intros H; inversion H; subst; constructor.
  - rewrite Forall_forall in *. auto.
  - intros. exfalso. eapply orfree_clause; eauto.
Qed.

Lemma prove_again U w s sd msg a z s' a' : honest U w s sd (env a) -> orfree s ->
  prove s sd msg a = Ok ((z, s'), a') -> After sd s s' /\ honest U w s' sd (env a') /\
  forall i, env a i <> None -> env a' i <> None \/ In i (map sid (kints s)).
Proof.
  intros H OF HP. unfold prove in HP.
  apply bind_ok in HP as ([[p|] s1] & st1 & GP & HP); [|discriminate].
  apply bind_ok in HP as ([[z' p'] s'']  & st2 & GN & HP). apply ret_ok in HP as [HP ->]. injection HP as -> ->.
  unfold get_nizk_proof in GN.
  apply bind_ok in GN as ([[pre p2] s2] & st3 & PC & GN).
  apply bind_ok in GN as ([com p3] & st4 & IC & GN).
  apply bind_ok in GN as (h & st5 & Hh & GN). apply lift_ok in Hh as [Hh ->].
  apply bind_ok in GN as (c & st5 & Hc & GN). apply lift_ok in Hc as [Hc ->].
  apply bind_ok in GN as (r & st5 & Hr & GN). apply ret_ok in GN as [GN ->]. injection GN as _ _ ->.
  assert (AF := get_prover_after sd s OF _ _ _ _ GP (ex_intro _ p eq_refl)).
  destruct H as [OK NM NI DJ TR VA DI EN].
  assert (IU : incl U (U ++ kints s)) by (intros x Hx; apply in_or_app; auto).
  destruct (get_prover_built U (U ++ kints s) U w s sd a (Some p) s1 st1) as (PS & ES & BT); auto using incl_refl.
  { apply Sok_Swf; auto. intros x Hx. apply in_or_app. auto. }
  specialize (BT p eq_refl).
  assert (FS := precommit_fstep _ _ _ _ _ _ _ _ _ _ _ BT PC).
  assert (KS : kints s1 = kints s) by (unfold kints; now rewrite (kinds_same _ _ PS)).
  rewrite KS in FS.
  assert (AF2 := After_precommit _ _ _ _ _ _ _ _ AF BT _ _ _ _ _ PC).
  assert (K4 := keeps_internal_commit _ _ _ _ _ _ IC). assert (K5 := keeps_response _ _ _ _ _ _ Hr).
  assert (EQ : env st5 = env st3) by congruence. split; auto.
  assert (WU : wfL U) by (eapply wfL_incl; eauto).
  assert (KS2 : kints s' = kints s).
  { unfold kints. rewrite (kinds_same s' s); auto. now apply After_pstrip with sd. }
  split.
  - constructor; rewrite ?KS2; auto.
    + eapply After_Sok; eauto.
    + eapply After_Tru; eauto.
    + eapply After_Vals; eauto.
    + rewrite EQ. eapply fstep_agree; eauto using incl_refl. eapply estep_agree; eauto using incl_refl.
  - intros i Hi. destruct (in_dec Nat.eq_dec i (map sid (kints s))) as [|N]; auto. left. rewrite EQ.
    destruct (FS i N) as [->|(x & _ & _ & ->)]; [|discriminate].
    destruct (ES i) as [->|(x & _ & _ & ->)]; [auto|discriminate].
Qed.

Lemma history_ok U w sd ord : forall s a s' a', history sd s a s' a' ->
  honest U w s sd (env a) -> orfree s -> Shape s -> Supplied sd w (env a) s -> Ords ord s -> 
  honest U w s' sd (env a') /\ orfree s' /\ Shape s' /\ Supplied sd w (env a') s' /\ Ords ord s'.
Proof.
  induction 1 as [|s a msg z s1 a1 s2 a2 E _ IH]; intros HH OF SH SU OR; auto.
  destruct (prove_again _ _ _ _ _ _ _ _ _ HH OF E) as (AF & HH1 & M).
  apply IH; auto.
  - eapply After_orfree; eauto.
  - eapply After_Shape; eauto.
  - eapply After_Supplied; [|exact AF|split; [exact (ho_ok _ _ _ _ _ HH)|exact SU]].
    intros x Hx Nx. destruct (M _ Nx) as [|I]; auto. apply in_map_iff in I as (y & Ey & Hy).
    destruct (ho_disjoint _ _ _ _ _ HH y x Hy Hx Ey).
  - eapply After_Ords; eauto.
Qed.
Lemma again_total U w sd ord s a s' a' msg : history sd s a s' a' ->
  honest U w s sd (env a) -> orfree s -> Shape s -> Supplied sd w (env a) s -> Ords ord s ->
  (exists z s2 a2, prove s' sd msg a' = Ok ((z, s2), a2)) \/ oversized s' sd a'.
Proof.
  intros H HH OF SH SU OR. destruct (history_ok _ _ _ _ _ _ _ _ H HH OF SH SU OR) as (HH' & OF' & SH' & SU' & OR').
  apply (prove_total U w s' sd ord msg a'); auto. now apply orfree_Apart.
Qed.

(** ** Disjunctions of representations *)

(** flags are only ever set *)
Definition flags_up (l m : list stmt) : Prop :=
  Forall2 (fun x y => is_dl y /\ (simulated x = true -> simulated y = true)) l m.
Lemma flags_up_refl l : Forall is_dl l -> flags_up l l.
Proof. induction 1; constructor; auto. Qed.
Lemma flags_up_trans l m n : flags_up l m -> flags_up m n -> flags_up l n.
Proof.
  intros F. revert n. induction F as [|x y l m [H1 H2] F IH]; intros n G; inversion G; subst; constructor.
  - destruct H3. auto.
  - apply IH; auto.
Qed.
Lemma flags_up_replace l i d : Forall is_dl l -> dl_sim d = true -> flags_up l (replace i (SDL d) l).
Proof.
  intros F S. revert i. induction F as [|x l Hx F IH]; intros i; [destruct i; constructor|].
  destruct i; simpl; constructor; auto.
  - split; [eexists; eauto|simpl; auto].
  - now apply flags_up_refl.
  - apply IH.
Qed.
Lemma flags_up_dl l m : flags_up l m -> Forall is_dl m.
Proof. induction 1; constructor; auto. tauto. Qed.
Lemma live_up l m : flags_up l m -> (live m <= live l)%nat /\
  forall i x y, nth_error l i = Some x -> nth_error m i = Some y -> simulated x = false -> simulated y = true -> (live m < live l)%nat.
Proof.
  unfold live. induction 1 as [|x y l m [D H] F [IH1 IH2]]; [split; auto; intros [|i]; discriminate|].
  split.
  - simpl. destruct (simulated x) eqn:E; [rewrite H by auto; auto|]. destruct (simulated y); simpl; lia.
  - intros [|i] u v N1 N2 S1 S2; simpl in N1, N2.
    + injection N1 as <-. injection N2 as <-. simpl. rewrite S1, S2. simpl. lia.
    + specialize (IH2 i u v N1 N2 S1 S2). simpl. destruct (simulated x) eqn:E; [rewrite H by auto; auto|].
      destruct (simulated y); simpl; lia.
Qed.

Lemma or_loop_flags sd subs : Forall is_dl subs -> forall fuel possible cur a r cur' a',
  or_loop fuel (map (fun s => get_prover s sd) subs) possible cur a = Ok ((r, cur'), a') ->
  Forall is_dl cur -> List.length cur = List.length subs -> flags_up cur cur' /\
  forall i p, r = Some (i, p) -> exists y, nth_error cur' i = Some y /\ simulated y = true.
Proof.
  intros DS. induction fuel as [|fuel IH]; intros possible cur a r cur' a' H DC LC.
  - simpl in H. minvs. split; [now apply flags_up_refl|discriminate].
  - cbn [or_loop] in H. apply bind_ok in H as (n & s1 & _ & H).
    destruct (nth_error possible (Z.to_nat n)) as [i|] eqn:Ni; [|discriminate].
    destruct (nth_error (map _ subs) i) as [m|] eqn:Nm; [|discriminate].
    apply bind_ok in H as ([o s'] & s2 & Em & H). cbn [fst snd] in H.
    rewrite nth_error_map in Nm. destruct (nth_error subs i) as [x|] eqn:Nx; [|discriminate]. injection Nm as <-.
    rewrite Forall_forall in DS. destruct (DS x (nth_error_In _ _ Nx)) as (d & ->). rewrite <- Forall_forall in DS.
    assert (exists d', s' = SDL d' /\ dl_sim d' = true) as (d' & -> & Sd).
    { simpl in Em. apply bind_ok in Em as ([o1 d1] & s3 & E & Em). apply ret_ok in Em as [Em _]. injection Em as _ <-.
      unfold get_prover_dl in E. apply bind_ok in E as (e & s4 & _ & E). cbv zeta in E.
      destruct (empty_dict _ || existsb _ _); apply ret_ok in E as [E _]; injection E as _ <-; eexists; split; reflexivity. }
    assert (Li : (i < List.length cur)%nat) by (rewrite LC; apply nth_error_Some; congruence).
    assert (FU := flags_up_replace cur i d' DC Sd).
    destruct o as [p|].
    + apply ret_ok in H as [H _]. injection H as <- <-. split; auto. intros j q E. injection E as <- <-.
      exists (SDL d'). split; auto. now apply nth_error_replace_same.
    + destruct (empty_dict _) eqn:EE.
      * apply ret_ok in H as [H _]. injection H as <- <-. split; [auto|discriminate].
      * apply IH in H as [FU2 R]; [|now apply flags_up_dl in FU|now rewrite replace_length].
        split; auto. eapply flags_up_trans; eauto.
Qed.
Lemma setup_dl idx l : Forall is_dl l -> forall i a l' ts a', setup_loop idx i l a = Ok ((l', ts), a') -> l' = l.
Proof.
  induction 1 as [|x l (d & ->) F IH]; intros i a l' ts a' H; simpl in H.
  - minvs. auto.
  - destruct (Nat.eqb i idx).
    + apply bind_ok in H as ([l1 t1] & s1 & E & H). apply ret_ok in H as [H _]. injection H as <- <-.
      simpl. f_equal. eapply IH; eauto.
    + apply bind_ok in H as (x' & s1 & E1 & H). apply ret_ok in E1 as [<- _]. apply bind_ok in H as (t & s2 & E2 & H).
      apply bind_ok in H as ([l1 t1] & s3 & E3 & H). apply ret_ok in H as [H _]. injection H as <- <-.
      simpl. f_equal. eapply IH; eauto.
Qed.

(** Each proof uses up a branch. *)
Lemma or_uses_up subs b ch sd msg a z s' a' : Forall is_dl subs -> prove (SOr subs b ch) sd msg a = Ok ((z, s'), a') ->
  exists subs' ch', s' = SOr subs' b ch' /\ Forall is_dl subs' /\ (live subs' < live subs)%nat.
Proof.
  intros DS H. unfold prove in H. apply bind_ok in H as ([[p|] s1] & st1 & GP & H); [|discriminate].
  apply bind_ok in H as ([[z0 p0] s0] & st2 & GN & H). apply ret_ok in H as [H _]. injection H as <- <-.
  assert (B := GP). apply get_prover_or_inv in B as (-> & i & q & sims & subs' & x & x' & sta & stb & -> & -> & Nx & Sx & _ & F & L).
  cbn [get_prover] in GP. apply bind_ok in GP as ([] & st3 & _ & GP). cbv zeta in GP.
  destruct (empty_dict _); [discriminate|].
  apply bind_ok in GP as ([r cur] & st4 & E & GP). cbn [fst snd] in GP. destruct r as [[i' q']|]; [|discriminate].
  apply bind_ok in GP as ([subs1 sims1] & st5 & ES & GP). apply ret_ok in GP as [GP _]. injection GP as -> -> -> ->.
  apply or_loop_flags in E as [FU R]; auto. specialize (R i q eq_refl) as (y & Ny & Sy).
  rewrite setup_simulations_eq in ES. apply setup_dl in ES; [|now apply flags_up_dl in FU]. subst subs'.
  unfold get_nizk_proof in GN. apply bind_ok in GN as ([[pre p1] s1] & st6 & PC & GN).
  rewrite precommit_or in PC. apply bind_ok in PC as ([[v q'] l] & s7 & E & PC). cbv zeta in PC.
  apply ret_ok in PC as [PC _]. cbn [fst snd] in PC. injection PC as <- <- <-.
  apply or_pre_loop_ok in E as (x0 & x1 & N & E & ->). rewrite Ny in N. injection N as <-.
  assert (DC := flags_up_dl _ _ FU). rewrite Forall_forall in DC. destruct (DC y (nth_error_In _ _ Ny)) as (d & ->).
  rewrite <- Forall_forall in DC. assert (x1 = SDL d) as -> by (simpl in E; destruct q; minvs; auto).
  assert (RE : replace i (SDL d) cur = cur).
  { clear - Ny. revert i Ny. induction cur as [|c cur IH]; intros [|i] N; try discriminate; simpl in *.
    - now injection N as ->.
    - f_equal. auto. }
  rewrite RE in GN. clear E.
  apply bind_ok in GN as ([com p2] & st8 & IC & GN). apply bind_ok in GN as (hh & st9 & _ & GN).
  apply bind_ok in GN as (c & st10 & _ & GN). apply bind_ok in GN as (resp & st11 & _ & GN).
  apply ret_ok in GN as [GN _]. injection GN as _ _ <-. exists cur, (Some i). split; auto. split; auto.
  eapply live_up; eauto.
Qed.

Lemma or_calls n s s' : proved n s s' ->
  forall subs b ch, s = SOr subs b ch -> Forall is_dl subs -> (n <= live subs)%nat.
Proof.
  induction 1 as [|n s sd msg a z s1 a1 s2 E C IH]; intros subs b ch -> DS; [lia|].
  apply or_uses_up in E as (subs' & ch' & -> & DS' & L); auto. specialize (IH _ _ _ eq_refl DS'). lia.
Qed.
End A.

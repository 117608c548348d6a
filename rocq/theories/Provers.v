(** Prover construction and precommitment: what an honest prover holds when it commits. *)
From Coq Require Import String.
From Verif Require Import Base World Val Expr Utils Stmt Prove Verify Spec Shapes Claims Lib Lin DictProofs Keeps Tree Sigma
  Validate Commit ArithProofs Build Process Ktruth.
Open Scope Z_scope.
Open Scope list_scope.

Section P.
Context {W : World}.

(** [U]: secrets the user knows about; [L]: all secrets. *)
Inductive Swf (U L : list secret) : stmt -> Prop :=
| SwDL d : incl (dl_secs d) U -> List.length (dl_secs d) = List.length (dl_bases d) ->
    dl_bases d <> [] -> Swf U L (SDL d)
| SwAnd subs b : Forall (Swf U L) subs -> Swf U L (SAnd subs b)
| SwOr subs b c : Forall (Swf U L) subs -> Forall notcustom (List.concat (map kinds subs)) ->
    Swf U L (SOr subs b c)
| SwExt k b pre con : incl (kuser k) U -> incl (kint k) L -> kdisj k -> Swf U L (SExt k b pre con).

(** every validation succeeds, except that a DLNotEqual precommitment may be neutral *)
Inductive VOK : stmt -> Prop :=
| VOK_DL d : VOK (SDL d)
| VOK_And subs b : Forall VOK subs -> VOK (SAnd subs b)
| VOK_Or subs b c : Forall VOK subs -> VOK (SOr subs b c)
| VOK_Ext k b pre con : kvalidate k pre = Ok tt \/ neq_neutral k pre -> VOK (SExt k b pre con).
(** no DLNotEqual precommitment is the neutral element *)
Lemma VOK_valid s : VOK s -> nonneutral s -> full_validate s = Ok tt.
Proof.
  assert (G : forall subs, Forall (fun s => VOK s -> nonneutral s -> full_validate s = Ok tt) subs ->
    Forall VOK subs -> fold_right (fun x P => nonneutral x /\ P) True subs ->
    rmap full_validate subs = Ok (map (fun _ => tt) subs)).
  { clear s. induction 1 as [|x l Hx F IH]; intros V N; simpl; auto. inversion V; subst. destruct N as [N1 N2].
    rewrite Hx by auto. cbn [rbind]. rewrite IH by auto. reflexivity. }
  induction s as [d|subs b IH|subs b ch IH|k b q|k b q con IH] using stmt_ind'; intros V N;
    inversion V; subst; simpl in *; auto; try (rewrite G by auto; reflexivity);
    destruct H0; tauto.
Qed.
Inductive TP : stmt -> Prop :=
| TP_DL d : TP (SDL d)
| TP_And subs b : Forall TP subs -> TP (SAnd subs b)
| TP_Or subs b c : Forall TP subs -> TP (SOr subs b c)
| TP_Ext k b pre con : truthy pre = true -> TP (SExt k b pre con).
Lemma PreRel_falsy s pre : PreRel s pre -> TP s -> truthy pre = false -> noext s.
Proof.
  intros H T F. inversion H; subst.
  - constructor.
  - constructor; auto.
  - destruct ps; [|discriminate F]. inversion H0; subst. constructor; auto.
  - constructor; auto.
  - destruct ps; [|discriminate F]. inversion H0; subst. constructor; auto.
  - inversion T; subst. congruence.
Qed.

(** A prepared branch. *)
Definition Prep (L : list secret) (s : stmt) : Prop :=
  wfs s /\ built s /\ ConOK s /\ prenn s /\ VOK s /\ TP s /\ incl (svars s) L.
Definition Simd (L : list secret) (s : stmt) (t : sim) : Prop := Prep L s /\ SimOK s t.

Lemma noext_VOK s : noext s -> VOK s.
Proof.
  induction s as [d|subs b IH|subs b ch IH|k b q|k b q con IH] using stmt_ind'; intros H;
    inversion H; subst; constructor; rewrite Forall_forall in *; auto.
Qed.
Lemma noext_TP s : noext s -> TP s.
Proof.
  induction s as [d|subs b IH|subs b ch IH|k b q|k b q con IH] using stmt_ind'; intros H;
    inversion H; subst; constructor; rewrite Forall_forall in *; auto.
Qed.
Lemma noext_kinds s : noext s -> kinds s = [].
Proof.
  assert (G : forall subs, Forall (fun s => noext s -> kinds s = []) subs -> Forall noext subs ->
    List.concat (map kinds subs) = []).
  { clear s. induction 1 as [|x l Hx F IH]; intros N; simpl; auto. inversion N; subst. now rewrite Hx, IH. }
  induction s as [d|subs b IH|subs b ch IH|k b q|k b q con IH] using stmt_ind'; intros H; inversion H; subst; simpl; auto.
Qed.

Lemma Prep_and L subs b : Forall (Prep L) subs -> Prep L (SAnd subs b).
Proof.
  intros F. unfold Prep in *. repeat split.
  all: try (constructor; eapply Forall_impl; [|exact F]; simpl; tauto).
  simpl. intros y Hy. apply in_concat in Hy as (l & Hl & Hy). apply in_map_iff in Hl as (x & <- & Hx).
  rewrite Forall_forall in F. apply F in Hx. apply Hx. auto.
Qed.
Lemma Prep_or L subs b c : Forall (Prep L) subs -> Prep L (SOr subs b c).
Proof.
  intros F. unfold Prep in *. repeat split.
  all: try (constructor; eapply Forall_impl; [|exact F]; simpl; tauto).
  simpl. intros y Hy. apply in_concat in Hy as (l & Hl & Hy). apply in_map_iff in Hl as (x & <- & Hx).
  rewrite Forall_forall in F. apply F in Hx. apply Hx. auto.
Qed.
Lemma map_eq_F2 {A B} (f : A -> B) l m : Forall2 (fun x y => f y = f x) l m -> map f m = map f l.
Proof. induction 1; simpl; congruence. Qed.
Lemma Forall2_Forall_r {A B} (R : A -> B -> Prop) (P : B -> Prop) l m :
  Forall2 R l m -> (forall a b, R a b -> P b) -> Forall P m.
Proof. induction 1; intros K; constructor; eauto. Qed.

Lemma prepare_ext U L k b q con st s' st' : Swf U L (SExt k b q con) -> incl U L ->
  prepare_sim (SExt k b q con) st = Ok (s', st') -> Prep L s' /\ pstrip s' = pstrip (SExt k b q con).
Proof.
  intros HS HU H. inversion HS; subst.
  simpl in H. apply bind_ok in H as (pre & s1 & E & H). unfold full_construct in H.
  apply bind_ok in H as (c & s2 & C & H). apply ret_ok in H as [<- ->].
  destruct (ksim_valid _ _ _ _ _ _ E C) as (N & T & V).
  destruct (construct_leafy _ _ _ _ _ C) as (-> & Lf).
  assert (NE := leafy_noext _ _ Lf).
  split; [|reflexivity]. unfold Prep. repeat split.
  - constructor. eapply leafy_wfs; eauto.
  - constructor. now apply noext_built.
  - econstructor; eauto.
  - constructor; auto. now apply noext_prenn.
  - constructor; auto.
  - constructor; auto.
  - simpl. eapply incl_tran; [eapply leafy_svars; eauto|]. apply incl_app; auto. eapply incl_tran; eauto.
Qed.
Lemma prepare_ok U L s : forall st s' st', Swf U L s -> incl U L ->
  prepare_sim s st = Ok (s', st') -> Prep L s' /\ pstrip s' = pstrip s.
Proof.
  induction s as [d|subs b IH|subs b ch IH|k b q|k b q con IH] using stmt_ind'; intros st s' st' HS HU H.
  - inversion HS; subst.
    simpl in H. apply ret_ok in H as [<- ->]. split; auto. unfold Prep. repeat split; try constructor; auto.
    simpl. eapply incl_tran; eauto.
  - inversion HS; subst. simpl in H. apply bind_ok in H as (l & s1 & E & H). apply ret_ok in H as [<- ->].
    edestruct (mapM_inv prepare_sim (fun _ => True) (fun x y => Prep L y /\ pstrip y = pstrip x)) as [_ F]; eauto.
    { intros x a y c Hx _ Hc. split; auto. rewrite Forall_forall in *. eapply IH; eauto. }
    split.
    + apply Prep_and. eapply Forall2_Forall_r; eauto. simpl. tauto.
    + simpl. f_equal. apply map_eq_F2. eapply Forall2_impl; [|exact F]. simpl. tauto.
  - inversion HS; subst. simpl in H. apply bind_ok in H as (l & s1 & E & H). apply ret_ok in H as [<- ->].
    edestruct (mapM_inv prepare_sim (fun _ => True) (fun x y => Prep L y /\ pstrip y = pstrip x)) as [_ F]; eauto.
    { intros x a y c Hx _ Hc. split; auto. rewrite Forall_forall in *. eapply IH; eauto. }
    split.
    + apply Prep_or. eapply Forall2_Forall_r; eauto. simpl. tauto.
    + simpl. f_equal. apply map_eq_F2. eapply Forall2_impl; [|exact F]. simpl. tauto.
  - eapply prepare_ext; eauto.
  - eapply prepare_ext; eauto.
Qed.

Lemma simulate_simd L s c st t st' : Prep L s -> wfL L -> simulate_proof s None c st = Ok (t, st') -> Simd L s t.
Proof.
  intros P HL H. split; auto. destruct P as (P1 & P2 & P3 & P4 & P5 & P6 & P7).
  destruct (simulate_ok s None c st t st') as (A & _ & _ & B & C); auto.
  - apply wfL_coh. eapply wfL_incl; eauto.
  - discriminate.
  - unfold SimOK. auto.
Qed.

Lemma setup_ok U L idx l : forall i st l' ts st', Forall (Swf U L) l -> incl U L -> wfL L ->
  setup_loop idx i l st = Ok ((l', ts), st') ->
  map pstrip l' = map pstrip l /\
  ((idx < i)%nat -> Forall2 (Simd L) l' ts) /\
  ((i <= idx)%nat -> forall x, nth_error l (idx - i) = Some x ->
     exists l1 l2 t1 t2, l' = l1 ++ x :: l2 /\ ts = t1 ++ t2 /\ List.length l1 = (idx - i)%nat /\
       Forall2 (Simd L) l1 t1 /\ Forall2 (Simd L) l2 t2).
Proof.
  induction l as [|s l IH]; intros i st l' ts st' HS HU HL H; simpl in H.
  - apply ret_ok in H as [H ->]. injection H as <- <-. split; auto. split; [constructor|].
    intros Hi x N. destruct (idx - i)%nat; discriminate.
  - inversion HS as [|? ? S1 S2]; subst. destruct (Nat.eqb i idx) eqn:E.
    + apply Nat.eqb_eq in E. subst i.
      apply bind_ok in H as ([r1 r2] & s1 & E1 & H). apply ret_ok in H as [H ->]. injection H as <- <-.
      apply IH in E1 as (A & B & _); auto. simpl. split; [congruence|]. split; [lia|].
      intros _ x N. rewrite Nat.sub_diag in N. injection N as <-.
      exists [], r1, [], r2. rewrite Nat.sub_diag. repeat split; auto.
    + apply Nat.eqb_neq in E.
      apply bind_ok in H as (s' & s1 & E1 & H). apply bind_ok in H as (t & s2 & E2 & H).
      apply bind_ok in H as ([r1 r2] & s3 & E3 & H). apply ret_ok in H as [H ->]. injection H as <- <-.
      destruct (prepare_ok _ _ _ _ _ _ S1 HU E1) as [P Q].
      assert (SD := simulate_simd _ _ _ _ _ _ P HL E2).
      apply IH in E3 as (A & B & C); auto. simpl. split; [congruence|]. split.
      * intros Hi. constructor; auto.
      * intros Hi x N. destruct (idx - i)%nat as [|m] eqn:Em; [lia|]. simpl in N.
        destruct (C ltac:(lia) x) as (l1 & l2 & t1 & t2 & -> & -> & Ll & F1 & F2).
        { now replace (idx - S i)%nat with m by lia. }
        exists (s' :: l1), l2, (t :: t1), t2. simpl. repeat split; auto. f_equal. lia.
Qed.

(** Environment changes made by update_secret_values. *)
Definition estep (w : bytes -> Z) (D : list secret) (e e' : nat -> option Z) : Prop :=
  forall i, e' i = e i \/ exists x, In x D /\ sid x = i /\ e' i = Some (w (sname x)).
Lemma estep_refl w D e : estep w D e e.
Proof. intros i. auto. Qed.
Lemma estep_eq w D e e' : e' = e -> estep w D e e'.
Proof. intros -> i. auto. Qed.
Lemma estep_trans w D a b c : estep w D a b -> estep w D b c -> estep w D a c.
Proof. intros H K i. destruct (K i) as [E|E]; auto. rewrite E. apply H. Qed.
Lemma estep_update w D sd st u st' : entries_ok D w sd -> update_secret_values sd st = Ok (u, st') ->
  estep w D (env st) (env st').
Proof.
  intros H E. unfold update_secret_values in E. injection E as _ <-. simpl.
  generalize (env st). revert H. induction sd as [|[k v] sd IH]; intros H e; simpl; [apply estep_refl|].
  eapply estep_trans; [|apply IH; intros k' v' K; apply H; now right].
  destruct (H k v) as [Hk ->]; [now left|].
  intros i. unfold upd. destruct (Nat.eqb i (sid k)) eqn:Ei; auto.
  apply Nat.eqb_eq in Ei. right. exists k. auto.
Qed.
Lemma estep_agree w D U e e' : wfL U -> incl D U -> estep w D e e' -> agree w e U -> agree w e' U.
Proof.
  intros HU I H A x v Hx E. destruct (H (sid x)) as [K|(y & Hy & Ey & K)].
  - apply A; congruence.
  - rewrite K in E. injection E as <-. f_equal. apply HU; auto.
Qed.

(** ** Provers before precommit *)
Inductive Built (U L D : list secret) (w : bytes -> Z) : stmt -> prover -> Prop :=
| BtDL d o g : dl_ok w g d -> incl (dl_secs d) U -> Built U L D w (SDL d) (PDL o)
| BtAnd subs b ps : Forall2 (Built U L D w) subs ps -> Built U L D w (SAnd subs b) (PAnd ps)
| BtOr l1 x l2 b ch sp t1 t2 :
    Forall2 (Simd L) l1 t1 -> Forall2 (Simd L) l2 t2 -> Built U L D w x sp -> Forall notcustom (kinds x) ->
    Built U L D w (SOr (l1 ++ x :: l2) b ch) (POr (List.length l1) sp (t1 ++ t2))
| BtExt k b pre con sv : entries_ok D w sv -> KTrue w k -> incl (kuser k) U -> incl (kint k) L -> kdisj k ->
    Built U L D w (SExt k b pre con) (PExt sv None).

Lemma dl_built U L D w d sd st o d' st' :
  incl (dl_secs d) U -> List.length (dl_secs d) = List.length (dl_bases d) -> dl_bases d <> [] ->
  entries_ok U w (dl_vals d) -> dl_true w d -> entries_ok D w sd -> incl D U -> wfL U ->
  get_prover_dl d sd st = Ok ((o, d'), st') ->
  pstrip (SDL d') = pstrip (SDL d) /\ env st' = env st /\ forall p, o = Some p -> Built U L D w (SDL d') p.
Proof.
  intros I Le Ne Ev (Tg & Th) Es ID HU H. unfold get_prover_dl in H.
  apply bind_ok in H as (e & s1 & E & H). unfold get_env in E. injection E as <- <-. cbv zeta in H.
  set (vals := dupdate (env st) (dl_vals d) sd) in *.
  assert (EV : entries_ok U w vals).
  { apply entries_ok_update; auto. eapply entries_ok_incl; eauto. }
  destruct (empty_dict vals || existsb (fun s => negb (dmem (env st) vals s)) (dl_secs d)) eqn:B.
  - apply ret_ok in H as [H ->]. injection H as <- <-. split; [reflexivity|]. split; auto. discriminate.
  - apply ret_ok in H as [H ->]. injection H as <- <-. split; [reflexivity|]. split; auto.
    intros p X. injection X as <-. apply orb_false_iff in B as [_ B].
    econstructor; [|exact I]. unfold dl_ok. cbn [dl_bases dl_lhs dl_secs dl_vals].
    split; [exact Tg|]. split; auto. split; auto. split; [exact Th|].
    intros x Hx e.
    assert (M : dmem (env st) vals x = true).
    { destruct (dmem (env st) vals x) eqn:M; auto. exfalso.
      assert (X : existsb (fun s => negb (dmem (env st) vals s)) (dl_secs d) = true).
      { apply existsb_exists. exists x. rewrite M. auto. }
      congruence. }
    rewrite (dmem_env U (env st) e vals x) in M; auto.
    2:{ intros k v K. apply EV in K. tauto. }
    unfold dmem in M. destruct (dget e vals x) as [v|] eqn:G; [|discriminate].
    f_equal. eapply entries_ok_get; eauto.
Qed.

Lemma nth_error_replace_same {A} (x : A) l : forall i, (i < List.length l)%nat -> nth_error (replace i x l) i = Some x.
Proof. induction l as [|y l IH]; intros [|i] H; simpl in *; try lia; auto. apply IH. lia. Qed.
Lemma map_replace {A B} (f : A -> B) x l : forall i y, nth_error l i = Some y -> f x = f y -> map f (replace i x l) = map f l.
Proof.
  induction l as [|z l IH]; intros [|i] y N E; simpl in *; try discriminate.
  - injection N as ->. congruence.
  - f_equal. eauto.
Qed.
Lemma replace_length {A} (x : A) l : forall i, List.length (replace i x l) = List.length l.
Proof. induction l; intros [|i]; simpl; auto. Qed.
Lemma map_eq_nth {A B} (f : A -> B) l m i x : map f l = map f m -> nth_error m i = Some x ->
  exists y, nth_error l i = Some y /\ f y = f x.
Proof.
  intros E N. assert (K : nth_error (map f l) i = Some (f x)) by (rewrite E, nth_error_map, N; auto).
  rewrite nth_error_map in K. destruct (nth_error l i) as [y|]; [|discriminate]. exists y. split; auto. simpl in K. congruence.
Qed.

Lemma or_loop_ok U L D w sd subs : (forall i x st o s' st', nth_error subs i = Some x -> simulated x = false ->
    get_prover x sd st = Ok ((o, s'), st') ->
    pstrip s' = pstrip x /\ estep w D (env st) (env st') /\ (forall p, o = Some p -> Built U L D w s' p)) ->
  forall fuel possible cur st r cur' st',
  (forall i, In i possible -> exists x, nth_error subs i = Some x /\ simulated x = false) ->
  map pstrip cur = map pstrip subs ->
  or_loop fuel (map (fun s => get_prover s sd) subs) possible cur st = Ok ((r, cur'), st') ->
  map pstrip cur' = map pstrip subs /\ estep w D (env st) (env st') /\
  (forall i p, r = Some (i, p) -> exists x, nth_error cur' i = Some x /\ Built U L D w x p).
Proof.
  intros HG. induction fuel as [|fuel IH]; intros possible cur st r cur' st' HP HC H; simpl in H.
  - apply ret_ok in H as [H ->]. injection H as <- <-. split; auto. split; [apply estep_refl|]. discriminate.
  - apply bind_ok in H as (z & s1 & E & H). apply keeps_draw in E.
    destruct (nth_error possible (Z.to_nat z)) as [i|] eqn:Ni; [|discriminate].
    apply nth_error_In in Ni. destruct (HP i Ni) as (x & Nx & Sx).
    rewrite nth_error_map, Nx in H. simpl in H.
    apply bind_ok in H as ([o s'] & s2 & E2 & H).
    destruct (HG _ _ _ _ _ _ Nx Sx E2) as (P1 & P2 & P3). cbn [fst snd] in H.
    destruct (map_eq_nth pstrip cur subs i x HC Nx) as (y & Ny & Py).
    assert (HC' : map pstrip (replace i s' cur) = map pstrip subs).
    { rewrite (map_replace pstrip s' cur i y); auto. congruence. }
    rewrite E in P2.
    destruct o as [p|].
    + apply ret_ok in H as [H ->]. injection H as <- <-. split; auto. split; auto.
      intros j q X. injection X as <- <-. exists s'. split; auto.
      apply nth_error_replace_same. apply nth_error_Some. congruence.
    + destruct (empty_dict _).
      * apply ret_ok in H as [H ->]. injection H as <- <-. split; auto. split; auto. discriminate.
      * apply IH in H as (A & B & C); auto.
        -- split; auto. split; auto. eapply estep_trans; eauto.
        -- intros j Hj. apply HP. apply in_remove in Hj. tauto.
Qed.

Lemma Swf_pstrip U L s : Swf U L (pstrip s) <-> Swf U L s.
Proof.
  induction s as [d|subs b IH|subs b ch IH|k b q|k b q con IH] using stmt_ind'; simpl.
  - split; intros H; inversion H; subst; constructor; auto.
  - split; intros H; inversion H; subst; constructor; rewrite Forall_forall in *.
    + intros x Hx. apply IH; auto. apply H1. now apply in_map.
    + intros x Hx. apply in_map_iff in Hx as (y & <- & Hy). apply IH; auto.
  - split; intros H; inversion H as [| |? ? ? Ha Hb|]; subst; constructor; rewrite ?Forall_forall in *.
    + intros x Hx. apply IH; auto. apply Ha. now apply in_map.
    + intros x Hx. apply Hb. rewrite map_map. erewrite map_ext; [exact Hx|]. apply kinds_pstrip.
    + intros x Hx. apply in_map_iff in Hx as (y & <- & Hy). apply IH; auto.
    + intros x Hx. apply Hb. rewrite map_map in Hx. erewrite map_ext; [exact Hx|]. intros; symmetry; apply kinds_pstrip.
  - split; intros H; inversion H; subst; constructor; auto.
  - split; intros H; inversion H; subst; constructor; auto.
Qed.
Lemma Swf_same U L a b : pstrip a = pstrip b -> Swf U L a -> Swf U L b.
Proof. intros E H. apply Swf_pstrip. rewrite <- E. now apply Swf_pstrip. Qed.
Lemma Swf_same_list U L a b : map pstrip a = map pstrip b -> Forall (Swf U L) a -> Forall (Swf U L) b.
Proof.
  revert b. induction a as [|x a IH]; intros [|y b] E H; simpl in E; try discriminate; auto.
  injection E as E1 E2. inversion H; subst. constructor; auto. eapply Swf_same; eauto.
Qed.
Lemma kinds_same a b : pstrip a = pstrip b -> kinds a = kinds b.
Proof. intros E. rewrite <- (kinds_pstrip a), E. apply kinds_pstrip. Qed.

Lemma flat_some (l : list (option prover * stmt)) : forallb (fun r => is_some (fst r)) l = true ->
  map (fun r => match fst r with Some p => p | None => PDL None end) l =
  flat_map (fun r => match fst r with Some p => [p] | None => [] end) l.
Proof.
  induction l as [|[[p|] s] l IH]; simpl; auto; [|discriminate]. intros H. now rewrite IH.
Qed.

Lemma prepare_pstrip s : forall st s' st', prepare_sim s st = Ok (s', st') -> pstrip s' = pstrip s.
Proof.
  induction s as [d|subs b IH|subs b ch IH|k b q|k b q con IH] using stmt_ind'; intros st s' st' H.
  - simpl in H. apply ret_ok in H as [<- ->]. auto.
  - simpl in H. apply bind_ok in H as (l & s1 & E & H). apply ret_ok in H as [<- ->].
    edestruct (mapM_inv prepare_sim (fun _ => True) (fun x y => pstrip y = pstrip x)) as [_ F]; eauto.
    { intros x a y c Hx _ Hc. split; auto. rewrite Forall_forall in *. eapply IH; eauto. }
    simpl. f_equal. apply map_eq_F2. exact F.
  - simpl in H. apply bind_ok in H as (l & s1 & E & H). apply ret_ok in H as [<- ->].
    edestruct (mapM_inv prepare_sim (fun _ => True) (fun x y => pstrip y = pstrip x)) as [_ F]; eauto.
    { intros x a y c Hx _ Hc. split; auto. rewrite Forall_forall in *. eapply IH; eauto. }
    simpl. f_equal. apply map_eq_F2. exact F.
  - cbn [prepare_sim] in H. apply bind_ok in H as (p & s1 & E & H). unfold full_construct in H.
    apply bind_ok in H as (c & s2 & E2 & H). apply ret_ok in H as [<- ->]. reflexivity.
  - cbn [prepare_sim] in H. apply bind_ok in H as (p & s1 & E & H). unfold full_construct in H.
    apply bind_ok in H as (c & s2 & E2 & H). apply ret_ok in H as [<- ->]. reflexivity.
Qed.
Lemma setup_pstrip idx l : forall i st l' ts st', setup_loop idx i l st = Ok ((l', ts), st') ->
  map pstrip l' = map pstrip l.
Proof.
  induction l as [|s l IH]; intros i st l' ts st' H; simpl in H.
  - apply ret_ok in H as [H ->]. injection H as <- <-. auto.
  - destruct (Nat.eqb i idx).
    + apply bind_ok in H as ([l1 t1] & s1 & E & H). apply ret_ok in H as [H ->]. injection H as <- <-.
      simpl. f_equal. eauto.
    + apply bind_ok in H as (s0 & s1 & E & H). apply prepare_pstrip in E.
      apply bind_ok in H as (t0 & s2 & E2 & H).
      apply bind_ok in H as ([l1 t1] & s3 & E3 & H). apply ret_ok in H as [H ->]. injection H as <- <-.
      simpl. f_equal; eauto.
Qed.
Lemma or_loop_pstrip sd subs : (forall x, In x subs -> forall st o s' st',
    get_prover x sd st = Ok ((o, s'), st') -> pstrip s' = pstrip x) ->
  forall fuel possible cur st r cur' st', map pstrip cur = map pstrip subs ->
  or_loop fuel (map (fun s => get_prover s sd) subs) possible cur st = Ok ((r, cur'), st') ->
  map pstrip cur' = map pstrip subs.
Proof.
  intros HG. induction fuel as [|fuel IH]; intros possible cur st r cur' st' HC H; simpl in H.
  - apply ret_ok in H as [H ->]. injection H as <- <-. auto.
  - apply bind_ok in H as (z & s1 & E & H).
    destruct (nth_error possible (Z.to_nat z)) as [i|] eqn:Ni; [|discriminate].
    rewrite nth_error_map in H. destruct (nth_error subs i) as [x|] eqn:Nx; [|discriminate]. simpl in H.
    apply bind_ok in H as ([o s'] & s2 & E2 & H). cbn [fst snd] in H.
    apply HG in E2; [|eapply nth_error_In; eauto].
    destruct (map_eq_nth pstrip cur subs i x HC Nx) as (y & Ny & Py).
    assert (HC' : map pstrip (replace i s' cur) = map pstrip subs).
    { rewrite (map_replace pstrip s' cur i y); auto. congruence. }
    destruct o as [p|].
    + apply ret_ok in H as [H ->]. injection H as <- <-. auto.
    + destruct (empty_dict _).
      * apply ret_ok in H as [H ->]. injection H as <- <-. auto.
      * eapply IH; eauto.
Qed.
(** get_prover does not change the public content of a statement. *)
Lemma get_prover_pstrip s : forall sd st o s' st',
  get_prover s sd st = Ok ((o, s'), st') -> pstrip s' = pstrip s.
Proof.
  assert (EXT : forall k b q con sd st o s' st',
    get_prover (SExt k b q con) sd st = Ok ((o, s'), st') -> pstrip s' = pstrip (SExt k b q con)).
  { clear s. intros k b q con sd st o s' st' H. simpl in H.
    apply bind_ok in H as (u & s1 & E & H).
    apply bind_ok in H as (e & s2 & E2 & H). unfold get_env in E2. injection E2 as <- <-.
    apply ret_ok in H as [H ->]. injection H as <- <-. auto. }
  induction s as [d|subs b IH|subs b ch IH|k b q|k b q con IH] using stmt_ind'; intros sd st o s' st' H.
  - simpl in H. apply bind_ok in H as ([o' d'] & s1 & E & H). apply ret_ok in H as [H ->]. injection H as <- <-.
    unfold get_prover_dl in E. apply bind_ok in E as (e & s2 & E2 & E). unfold get_env in E2. injection E2 as <- <-.
    cbv zeta in E. destruct (_ || _) in E; apply ret_ok in E as [E ->]; injection E as <- <-; auto.
  - cbn [get_prover] in H. apply bind_ok in H as (u & s1 & E & H).
    destruct b; [apply ret_ok in H as [H ->]; injection H as <- <-; auto|].
    apply bind_ok in H as (l & s2 & E2 & H). rewrite Forall_forall in IH.
    edestruct (mapM_inv (fun s => get_prover s sd) (fun x => True) (fun x r => pstrip (snd r) = pstrip x)) as [I F]; eauto.
    { intros x a [o1 x1] c Hx Ha Hc. split; auto. eapply IH in Hc; eauto. }
    destruct (forallb _ l) eqn:FB; [|discriminate]. apply ret_ok in H as [H ->]. injection H as <- <-.
    simpl. f_equal. rewrite map_map. clear -F. induction F; simpl; congruence.
  - cbn [get_prover] in H. apply bind_ok in H as (u & s1 & E & H).
    destruct b; [apply ret_ok in H as [H ->]; injection H as <- <-; auto|]. cbv zeta in H.
    destruct (empty_dict _) in H; [apply ret_ok in H as [H ->]; injection H as <- <-; auto|].
    apply bind_ok in H as ([r cur] & s2 & E2 & H). rewrite Forall_forall in IH.
    apply or_loop_pstrip in E2; auto; [|intros; eapply IH; eauto].
    cbn [fst snd] in H. destruct r as [[i p]|].
    + apply bind_ok in H as ([l2 ts] & s3 & E3 & H). apply ret_ok in H as [H ->]. injection H as <- <-.
      rewrite setup_simulations_eq in E3. apply setup_pstrip in E3. cbn [fst snd pstrip]. congruence.
    + apply ret_ok in H as [H ->]. injection H as <- <-. cbn [pstrip]. congruence.
  - eapply EXT; eauto.
  - eapply EXT; eauto.
Qed.

Lemma dmem_known e (d d' : dict Z) x : dmem e (dupdate e d d') x = true -> known d x \/ known d' x.
Proof.
  unfold dupdate. intros H. apply dmem_fold in H as [H|(k & v & H & E)].
  - unfold dmem in H. destruct (dget e d x) as [v|] eqn:D; [|discriminate].
    apply dget_in in D as (k & K & E). apply sec_eqb_iff in E as [E _]. left. exists k, v. auto.
  - apply sec_eqb_iff in E as [E _]. right. exists k, v. auto.
Qed.
Lemma or_loop_none {A} (gps : list (M (option A * stmt))) possible : forall fuel cur st r cur' st',
  (forall i m st o s' st', In i possible -> nth_error gps i = Some m -> m st = Ok ((o, s'), st') -> o = None) ->
  or_loop fuel gps possible cur st = Ok ((r, cur'), st') -> r = None.
Proof.
  intros fuel. revert possible. induction fuel as [|fuel IH]; intros possible cur st r cur' st' HG H; simpl in H.
  - apply ret_ok in H as [H ->]. now injection H.
  - apply bind_ok in H as (z & s1 & E & H).
    destruct (nth_error possible (Z.to_nat z)) as [i|] eqn:Ni; [|discriminate]. apply nth_error_In in Ni.
    destruct (nth_error gps i) as [m|] eqn:Nx; [|discriminate].
    apply bind_ok in H as ([o s'] & s2 & E2 & H). cbn [fst snd] in H.
    rewrite (HG _ _ _ _ _ _ Ni Nx E2) in H. destruct (empty_dict _).
    + apply ret_ok in H as [H ->]. now injection H.
    + eapply IH; [|exact H]. intros j m' a o' b b' Hj. apply HG. apply in_remove in Hj. tauto.
Qed.
Lemma cands_in subs i : In i (map fst (filter (fun p : nat * stmt => negb (simulated (snd p)))
    (combine (seq 0 (List.length subs)) subs))) <-> exists x, nth_error subs i = Some x /\ simulated x = false.
Proof.
  split.
  - intros Hi. apply in_map_iff in Hi as ([j x] & Ej & Hf). simpl in Ej. subst j.
    apply filter_In in Hf as [Hc Hn]. apply In_nth_error in Hc as (n & Hn').
    apply nth_error_combine in Hn' as [N1 N2]. exists x.
    assert (i = n).
    { assert (Ln : (n < List.length subs)%nat) by (apply nth_error_Some; congruence).
      apply (nth_error_nth _ _ 0%nat) in N1. rewrite seq_nth in N1 by auto. simpl in N1. congruence. }
    subst. split; auto. simpl in Hn. now apply negb_true_iff in Hn.
  - intros (x & N & S). apply in_map_iff. exists (i, x). split; auto. apply filter_In.
    split; [|simpl; now rewrite S]. apply (nth_error_In _ i). apply nth_error_combine. split; auto.
    assert (Ln : (i < List.length subs)%nat) by (apply nth_error_Some; congruence).
    rewrite (nth_error_nth' _ 0%nat) by (now rewrite seq_length). now rewrite seq_nth.
Qed.
Lemma refuses_none s : forall sd st o s' st', Refuses sd s ->
  get_prover s sd st = Ok ((o, s'), st') -> o = None.
Proof.
  induction s as [d|subs b IH|subs b ch IH|k b q|k b q con IH] using stmt_ind'; intros sd st o s' st' R H;
    inversion R; subst; clear R.
  - simpl in H. apply bind_ok in H as ([o' d'] & s1 & E & H). apply ret_ok in H as [H ->]. injection H as <- <-.
    unfold get_prover_dl in E. apply bind_ok in E as (e & s2 & E2 & E). unfold get_env in E2. injection E2 as <- <-.
    cbv zeta in E.
    destruct (existsb (fun s => negb (dmem (env st) (dupdate (env st) (dl_vals d) sd) s)) (dl_secs d)) eqn:X.
    + rewrite orb_true_r in E. apply ret_ok in E as [E ->]. now injection E.
    + exfalso. assert (dmem (env st) (dupdate (env st) (dl_vals d) sd) x = true) as M.
      { destruct (dmem (env st) (dupdate (env st) (dl_vals d) sd) x) eqn:M; auto.
        rewrite <- X. apply existsb_exists. exists x. rewrite M. auto. }
      apply dmem_known in M. tauto.
  - cbn [get_prover] in H. apply bind_ok in H as (u & s1 & E & H).
    apply ret_ok in H as [H ->]. now injection H.
  - cbn [get_prover] in H. apply bind_ok in H as (u & s1 & E & H).
    apply ret_ok in H as [H ->]. now injection H.
  - cbn [get_prover] in H. apply bind_ok in H as (u & s1 & E & H). cbv zeta in H.
    destruct (empty_dict _) in H; [apply ret_ok in H as [H ->]; now injection H|].
    apply bind_ok in H as ([r cur] & s2 & E2 & H).
    apply or_loop_none in E2.
    + subst r. cbn [fst snd] in H. apply ret_ok in H as [H ->]. now injection H.
    + intros i m a o1 x1 a' Hi Nm Hm. apply cands_in in Hi as (x & Nx & Sx).
      rewrite nth_error_map, Nx in Nm. simpl in Nm. injection Nm as <-. rewrite Forall_forall in IH.
      assert (Hx := nth_error_In _ _ Nx). eapply IH; eauto.
Qed.

Lemma or_loop_estep w D sd subs : (forall i x st o s' st', nth_error subs i = Some x ->
    get_prover x sd st = Ok ((o, s'), st') -> estep w D (env st) (env st')) ->
  forall fuel possible cur st r cur' st',
  or_loop fuel (map (fun s => get_prover s sd) subs) possible cur st = Ok ((r, cur'), st') ->
  estep w D (env st) (env st').
Proof.
  intros HG. induction fuel as [|fuel IH]; intros possible cur st r cur' st' H; simpl in H.
  - apply ret_ok in H as [H ->]. apply estep_refl.
  - apply bind_ok in H as (z & s1 & E & H). apply keeps_draw in E.
    destruct (nth_error possible (Z.to_nat z)) as [i|] eqn:Ni; [|discriminate].
    rewrite nth_error_map in H. destruct (nth_error subs i) as [x|] eqn:Nx; [|discriminate]. simpl in H.
    apply bind_ok in H as ([o s'] & s2 & E2 & H).
    apply (HG _ _ _ _ _ _ Nx) in E2. rewrite E in E2. cbn [fst snd] in H. destruct o as [p|].
    + apply ret_ok in H as [H ->]. auto.
    + destruct (empty_dict _).
      * apply ret_ok in H as [H ->]. auto.
      * apply IH in H. eapply estep_trans; eauto.
Qed.
Lemma get_prover_estep w D s : forall sd st o s' st', entries_ok D w sd ->
  get_prover s sd st = Ok ((o, s'), st') -> estep w D (env st) (env st').
Proof.
  assert (EXT : forall k b q con sd st o s' st', entries_ok D w sd ->
    get_prover (SExt k b q con) sd st = Ok ((o, s'), st') -> estep w D (env st) (env st')).
  { clear s. intros k b q con sd st o s' st' ED H. simpl in H.
    apply bind_ok in H as (u & s1 & E & H). eapply estep_update in E; eauto.
    apply bind_ok in H as (e & s2 & E2 & H). unfold get_env in E2. injection E2 as <- <-.
    apply ret_ok in H as [H ->]. auto. }
  induction s as [d|subs b IH|subs b ch IH|k b q|k b q con IH] using stmt_ind'; intros sd st o s' st' ED H.
  - apply estep_eq. simpl in H. apply bind_ok in H as ([o' d'] & s1 & E & H). apply ret_ok in H as [H ->].
    unfold get_prover_dl in E. apply bind_ok in E as (e & s2 & E2 & E). unfold get_env in E2. injection E2 as <- <-.
    cbv zeta in E. destruct (_ || _) in E; apply ret_ok in E as [_ ->]; auto.
  - cbn [get_prover] in H. apply bind_ok in H as (u & s1 & E & H). eapply estep_update in E; eauto.
    destruct b; [apply ret_ok in H as [H ->]; auto|].
    apply bind_ok in H as (l & s2 & E2 & H). rewrite Forall_forall in IH.
    edestruct (mapM_inv (fun s => get_prover s sd) (fun x => estep w D (env st) (env x)) (fun _ _ => True)) as [I F]; eauto.
    { intros x a [o1 x1] c Hx Ha Hc. split; auto. eapply IH in Hc; eauto. eapply estep_trans; eauto. }
    destruct (forallb _ l) eqn:FB; [|discriminate]. apply ret_ok in H as [H ->]. auto.
  - cbn [get_prover] in H. apply bind_ok in H as (u & s1 & E & H). eapply estep_update in E; eauto.
    destruct b; [apply ret_ok in H as [H ->]; auto|]. cbv zeta in H.
    destruct (empty_dict _) in H; [apply ret_ok in H as [H ->]; auto|].
    apply bind_ok in H as ([r cur] & s2 & E2 & H).
    apply (or_loop_estep w D) in E2.
    2:{ intros i x a o1 x1 a' Nx Hc. rewrite Forall_forall in IH. eapply IH; eauto. eapply nth_error_In; eauto. }
    cbn [fst snd] in H. destruct r as [[i p]|].
    + apply bind_ok in H as ([l2 ts] & s3 & E3 & H). apply ret_ok in H as [H ->].
      rewrite setup_simulations_eq in E3. apply keeps_setup in E3. rewrite E3. eapply estep_trans; eauto.
    + apply ret_ok in H as [H ->]. eapply estep_trans; eauto.
  - eapply EXT; eauto.
  - eapply EXT; eauto.
Qed.

Lemma get_prover_built U L D w s : forall sd st o s' st',
  Swf U L s -> Vals U w s -> Tru sd w s -> entries_ok D w sd -> incl D U -> incl U L -> wfL L ->
  get_prover s sd st = Ok ((o, s'), st') ->
  pstrip s' = pstrip s /\ estep w D (env st) (env st') /\ (forall p, o = Some p -> Built U L D w s' p).
Proof.
  assert (EXT : forall k b q con sd st o s' st', Swf U L (SExt k b q con) -> Tru sd w (SExt k b q con) ->
    entries_ok D w sd -> get_prover (SExt k b q con) sd st = Ok ((o, s'), st') ->
    pstrip s' = pstrip (SExt k b q con) /\ estep w D (env st) (env st') /\ (forall p, o = Some p -> Built U L D w s' p)).
  { clear s. intros k b q con sd st o s' st' HS HT ED H. simpl in H.
    apply bind_ok in H as (u & s1 & E & H). eapply estep_update in E; eauto.
    apply bind_ok in H as (e & s2 & E2 & H). unfold get_env in E2. injection E2 as <- <-.
    apply ret_ok in H as [H ->]. injection H as <- <-. split; auto. split; auto.
    intros p X. injection X as <-. inversion HS; inversion HT; subst. constructor; auto.
    apply entries_ok_update; auto. apply entries_ok_nil. }
  induction s as [d|subs b IH|subs b ch IH|k b q|k b q con IH] using stmt_ind';
    intros sd st o s' st' HS HV HT ED ID IU HL H.
  - simpl in H. apply bind_ok in H as ([o' d'] & s1 & E & H). apply ret_ok in H as [H ->].
    injection H as <- <-. inversion HS; inversion HV; inversion HT; subst.
    eapply dl_built in E as (A & B & C); eauto.
    + split; auto. split; auto. now apply estep_eq.
    + eapply wfL_incl; eauto.
  - cbn [get_prover] in H. apply bind_ok in H as (u & s1 & E & H). eapply estep_update in E; eauto.
    destruct b.
    { apply ret_ok in H as [H ->]. injection H as <- <-. split; auto. split; auto. discriminate. }
    apply bind_ok in H as (l & s2 & E2 & H).
    inversion HS; inversion HV; inversion HT; subst. rewrite Forall_forall in *.
    edestruct (mapM_inv (fun s => get_prover s sd) (fun x => estep w D (env st) (env x))
      (fun x r => pstrip (snd r) = pstrip x /\ forall p, fst r = Some p -> Built U L D w (snd r) p)) as [I F]; eauto.
    { intros x a [o1 x1] c Hx Ha Hc. eapply IH in Hc as (A & B & C); eauto.
      split; auto. eapply estep_trans; eauto. }
    destruct (forallb _ l) eqn:FB; [|discriminate].
    apply ret_ok in H as [H ->]. injection H as <- <-. split; [|split; auto].
    + simpl. f_equal. rewrite map_map.
      clear -F. induction F; simpl; auto. f_equal; auto. apply H.
    + intros p X. injection X as <-. constructor. rewrite <- flat_some by auto.
      rewrite Forall2_map_l, Forall2_map_r. clear -F FB.
      induction F as [|x r l m [A B] F IHF]; auto. simpl in FB. apply andb_true_iff in FB as [F1 F2].
      constructor; auto. destruct (fst r) eqn:Er; [auto|discriminate].
  - cbn [get_prover] in H. apply bind_ok in H as (u & s1 & E & H). eapply estep_update in E; eauto.
    destruct b.
    { apply ret_ok in H as [H ->]. injection H as <- <-. split; auto. split; auto. discriminate. }
    cbv zeta in H.
    set (cands := map fst (filter (fun p : nat * stmt => negb (simulated (snd p))) (combine (seq 0 (List.length subs)) subs))) in *.
    destruct (empty_dict cands).
    { apply ret_ok in H as [H ->]. injection H as <- <-. split; auto. split; auto. discriminate. }
    apply bind_ok in H as ([r cur] & s2 & E2 & H).
    inversion HS; inversion HV; inversion HT; subst.
    match goal with X : Forall notcustom _ |- _ => rename X into NC end.
    match goal with X : forall x, In x subs -> _ -> _ \/ Tru sd w x |- _ => rename X into HTr end.
    rewrite Forall_forall in IH.
    match goal with X : Forall (Swf U L) subs |- _ => rename X into HSs end.
    match goal with X : Forall (Vals U w) subs |- _ => rename X into HVs end.
    eapply or_loop_ok in E2 as (A & B & C).
    2:{ intros i x a o1 x1 a' Nx Sx Hc. assert (Hx := nth_error_In _ _ Nx).
        rewrite Forall_forall in HSs, HVs. destruct (HTr x Hx Sx) as [Rf|Tx]; [|eapply IH; eauto].
        split; [eapply get_prover_pstrip; eauto|]. split; [eapply get_prover_estep; eauto|].
        rewrite (refuses_none _ _ _ _ _ _ Rf Hc). discriminate. }
    2:{ intros i Hi. now apply cands_in. }
    2:{ reflexivity. }
    cbn [fst snd] in H. destruct r as [[i p]|].
    + apply bind_ok in H as ([l2 ts] & s3 & E3 & H). apply ret_ok in H as [H ->]. injection H as <- <-.
      destruct (C i p eq_refl) as (x & Nx & Bx). rewrite setup_simulations_eq in E3.
      assert (K3 := keeps_setup _ _ _ _ _ _ E3).
      eapply setup_ok in E3 as (A3 & _ & C3); eauto.
      2:{ eapply Swf_same_list; [symmetry; exact A|auto]. }
      destruct (C3 ltac:(lia) x) as (l1 & l3 & t1 & t2 & -> & -> & Ll & F1 & F2).
      { now rewrite Nat.sub_0_r. }
      rewrite Nat.sub_0_r in Ll. split.
      { simpl. f_equal. congruence. }
      split.
      { eapply estep_trans; eauto. rewrite K3. auto. }
      intros q X. injection X as <-. rewrite <- Ll. constructor; auto.
      destruct (map_eq_nth pstrip subs cur i x (eq_sym A) Nx) as (y & Ny & Py).
      rewrite <- (kinds_same _ _ Py). apply nth_error_In in Ny.
      apply Forall_forall. intros k Hk. rewrite Forall_forall in NC. apply NC.
      eapply kinds_sub; eauto.
    + apply ret_ok in H as [H ->]. injection H as <- <-. split; [simpl; f_equal; auto|]. split; [|discriminate].
      eapply estep_trans; eauto.
  - inversion HS; inversion HV; inversion HT; subst. eapply EXT; eauto.
  - inversion HS; inversion HV; inversion HT; subst. eapply EXT; eauto.
Qed.

Lemma NoDup_app_inv {A} (a b : list A) : NoDup (a ++ b) -> NoDup a /\ NoDup b /\ forall x, In x a -> In x b -> False.
Proof.
  induction a as [|x a IH]; simpl; intros H.
  - split; [constructor|]. split; auto.
  - apply NoDup_cons_iff in H as [H1 H2]. apply IH in H2 as (I1 & I2 & I3).
    split; [constructor; auto; intros K; apply H1; apply in_app_iff; now left|]. split; auto.
    intros y [->|Hy] Hb; [apply H1; apply in_app_iff; now right|eauto].
Qed.
Lemma replace_middle {A} (a : list A) x y b : replace (List.length a) y (a ++ x :: b) = a ++ y :: b.
Proof. induction a; simpl; congruence. Qed.
Lemma svars_pstrip s : noext s -> svars (pstrip s) = svars s.
Proof.
  induction s as [d|subs b IH|subs b ch IH|k b q|k b q con IH] using stmt_ind'; intros H;
    inversion H; subst; simpl; auto; rewrite map_map; f_equal; apply map_ext_Forall; rewrite Forall_forall in *; auto.
Qed.
Lemma svars_same a b : noext a -> noext b -> pstrip a = pstrip b -> svars a = svars b.
Proof. intros N M E. rewrite <- (svars_pstrip a), E by auto. now apply svars_pstrip. Qed.
Lemma wfs_pstrip s : noext s -> (wfs (pstrip s) <-> wfs s).
Proof.
  induction s as [d|subs b IH|subs b ch IH|k b q|k b q con IH] using stmt_ind'; intros N; inversion N; subst; simpl.
  - split; intros H; inversion H; subst; constructor; auto.
  - assert (G : Forall wfs (map pstrip subs) <-> Forall wfs subs).
    { rewrite !Forall_forall in *. split; intros K x Hx.
      - apply IH; auto. apply K. now apply in_map.
      - apply in_map_iff in Hx as (y & <- & Hy). apply IH; auto. }
    split; intros K; inversion K; subst; constructor; tauto.
  - assert (G : Forall wfs (map pstrip subs) <-> Forall wfs subs).
    { rewrite !Forall_forall in *. split; intros K x Hx.
      - apply IH; auto. apply K. now apply in_map.
      - apply in_map_iff in Hx as (y & <- & Hy). apply IH; auto. }
    split; intros K; inversion K; subst; constructor; tauto.
Qed.
Lemma wfs_same a b : noext a -> noext b -> pstrip a = pstrip b -> wfs b -> wfs a.
Proof. intros N M E H. apply wfs_pstrip; auto. rewrite E. now apply wfs_pstrip. Qed.

(** ** Environments *)
(** changes by precommit: internal secrets, and updates with the prover's values *)
Definition fstep (w : bytes -> Z) (D : list secret) (ks : list secret) (e e' : nat -> option Z) : Prop :=
  forall i, ~ In i (map sid ks) -> e' i = e i \/ exists x, In x D /\ sid x = i /\ e' i = Some (w (sname x)).
Lemma fstep_weak w D a b e e' : incl a b -> fstep w D a e e' -> fstep w D b e e'.
Proof.
  intros I H i Hi. apply H. intros K. apply Hi. apply in_map_iff in K as (x & <- & K). apply in_map. auto.
Qed.
Lemma fstep_trans w D a e e' e'' : fstep w D a e e' -> fstep w D a e' e'' -> fstep w D a e e''.
Proof. intros H K i Hi. destruct (K i Hi) as [E|E]; auto. rewrite E. apply H; auto. Qed.
Lemma fstep_refl w D a e : fstep w D a e e.
Proof. intros i _. auto. Qed.
Lemma precommit_fstep U L D w s : forall p st pre p1 s1 st1,
  Built U L D w s p -> precommit s p st = Ok ((pre, p1, s1), st1) -> fstep w D (kints s) (env st) (env st1).
Proof.
  induction s as [d|subs b IH|subs b ch IH|k b q|k b q con IH] using stmt_ind'; intros p st pre p1 s1 st1 HB H;
    inversion HB; subst.
  - simpl in H. apply ret_ok in H as [H ->]. apply fstep_refl.
  - match goal with X : Forall2 (Built _ _ _ _) subs ps |- _ => rename X into F end.
    cbn [precommit] in H. apply bind_ok in H as (l & s2 & E & H). apply ret_ok in H as [H ->].
    edestruct (zipM_F3 precommit (fun x => fstep w D (kints (SAnd subs b)) (env st) (env x)) (fun _ _ _ => True) subs ps) as [I _]; eauto.
    + eapply Forall2_len; eauto.
    + apply fstep_refl.
    + intros i x y a [[z1 z2] z3] a' N1 N2 Ha Hc. split; auto.
      assert (Hx := nth_error_In _ _ N1). rewrite Forall_forall in IH.
      eapply IH in Hc; eauto.
      2:{ clear -F N1 N2. revert i N1 N2. induction F; intros [|i] N1 N2; simpl in *; try discriminate; eauto. congruence. }
      eapply fstep_trans; eauto. eapply fstep_weak; [|exact Hc].
      intros y0 Hy. unfold kints in *. apply in_concat in Hy as (kl & Hk & Hy). apply in_map_iff in Hk as (k & <- & Hk).
      apply in_concat. exists (kint k). split; auto. apply in_map. simpl. eapply kinds_sub; eauto.
  - rewrite precommit_or in H. apply bind_ok in H as ([[v p'] l'] & s2 & E & H).
    apply ret_ok in H as [H ->]. apply or_pre_loop_ok in E as (y & y' & N & E & ->).
    rewrite nth_middle' in N. injection N as <-.
    assert (Hx : In x (l1 ++ x :: l2)) by (apply in_app_iff; right; left; auto).
    rewrite Forall_forall in IH. eapply IH in E; eauto.
    eapply fstep_weak; [|exact E].
    intros y0 Hy. unfold kints in *. apply in_concat in Hy as (kl & Hk & Hy). apply in_map_iff in Hk as (k & <- & Hk).
    apply in_concat. exists (kint k). split; auto. apply in_map. simpl. eapply kinds_sub; eauto.
  - cbn [precommit] in H. apply bind_ok in H as (pr & s2 & E & H). apply bind_ok in H as (c & s3 & C & H).
    apply bind_ok in H as ([o c'] & s4 & G & H). apply ret_ok in H as [H ->].
    eapply get_prover_estep in G; eauto.
    assert (K := kprecommit_frame _ _ _ _ E). apply keeps_construct in C. rewrite C in G.
    intros i Hi. unfold kints in Hi. simpl in Hi. rewrite app_nil_r in Hi. specialize (K i Hi). rewrite <- K. apply G.
  - cbn [precommit] in H. apply bind_ok in H as (pr & s2 & E & H). apply bind_ok in H as (c & s3 & C & H).
    apply bind_ok in H as ([o c'] & s4 & G & H). apply ret_ok in H as [H ->].
    eapply get_prover_estep in G; eauto.
    assert (K := kprecommit_frame _ _ _ _ E). apply keeps_construct in C. rewrite C in G.
    intros i Hi. unfold kints in Hi. simpl in Hi. rewrite app_nil_r in Hi. specialize (K i Hi). rewrite <- K. apply G.
Qed.

Lemma fstep_agree w D U ks e e' : wfL U -> incl D U -> (forall x y, In x ks -> In y U -> sid x <> sid y) ->
  fstep w D ks e e' -> agree w e U -> agree w e' U.
Proof.
  intros HU I Dj H A x v Hx E. destruct (H (sid x)) as [K|(y & Hy & Ey & K)].
  - intros K. apply in_map_iff in K as (y & Ey & Hy). apply (Dj y x); auto.
  - apply A; congruence.
  - rewrite K in E. injection E as <-. f_equal. apply HU; auto.
Qed.
(** values of internal secrets are not touched by others *)
Lemma fstep_back w D U ks ks' e e' : incl D U -> (forall x y, In x ks' -> In y U -> sid x <> sid y) ->
  (forall x y, In x ks -> In y ks' -> sid x <> sid y) ->
  fstep w D ks e e' -> agree w e' ks' -> agree w e ks'.
Proof.
  intros I Dj Dk H A x v Hx E. apply A; auto. destruct (H (sid x)) as [K|(y & Hy & Ey & K)].
  - intros K. apply in_map_iff in K as (y & Ey & Hy). apply (Dk y x); auto.
  - congruence.
  - destruct (Dj x y); auto.
Qed.

Lemma noext_Ready U L D w s : forall p, Built U L D w s p -> noext s -> Ready w s p.
Proof.
  induction s as [d|subs b IH|subs b ch IH|k b q|k b q con IH] using stmt_ind'; intros p HB N;
    inversion HB; inversion N; subst.
  - econstructor; eauto.
  - constructor. match goal with X : Forall2 _ _ _ |- _ => rename X into F end.
    match goal with X : Forall noext _ |- _ => rename X into FN end.
    clear -IH F FN. induction F as [|x p subs ps Hx F IHF]; constructor;
      inversion IH; inversion FN; subst; auto.
  - match goal with X : Forall noext _ |- _ => rename X into FN end. rewrite Forall_forall in IH, FN. constructor.
    + eapply Forall2_impl; [|eassumption]. unfold Simd. tauto.
    + eapply Forall2_impl; [|eassumption]. unfold Simd. tauto.
    + apply IH; auto; [|apply FN]; apply in_app_iff; right; left; auto.
Qed.
Lemma leafy_Swf e l s : leafy (fresh_leaf e l) s -> Swf l l s.
Proof.
  induction s as [d|subs b IH|subs b ch IH|k b q|k b q con IH] using stmt_ind'; intros H;
    assert (N := leafy_noext _ _ H); inversion H; subst.
  - match goal with X : fresh_leaf _ _ _ |- _ => destruct X as (_ & X1 & X2 & X3 & _) end. constructor; auto.
  - constructor. rewrite Forall_forall in *. auto.
  - constructor; [rewrite Forall_forall in *; auto|]. apply noext_kinds in N. simpl in N. rewrite N. constructor.
Qed.
Lemma Swf_incl U L U' L' s : incl U U' -> incl L L' -> Swf U L s -> Swf U' L' s.
Proof.
  intros I J. induction s as [d|subs b IH|subs b ch IH|k b q|k b q con IH] using stmt_ind'; intros H;
    inversion H; subst; constructor; auto; try (eapply incl_tran; eauto; fail); rewrite ?Forall_forall in *; auto.
Qed.
Lemma leafy_Vals w e l s : leafy (fresh_leaf e l) s -> agree w e l -> Vals l w s.
Proof.
  intros H A. induction s as [d|subs b IH|subs b ch IH|k b q|k b q con IH] using stmt_ind';
    inversion H; subst; constructor; try (rewrite Forall_forall in *; auto; fail).
  match goal with X : fresh_leaf _ _ _ |- _ => destruct X as (X0 & X1 & _) end.
  intros k v K. rewrite X0 in K. apply snapshot_in in K as [K1 K2]. split; auto.
Qed.
Lemma Vals_incl U U' w s : incl U U' -> Vals U w s -> Vals U' w s.
Proof.
  intros I. induction s as [d|subs b IH|subs b ch IH|k b q|k b q con IH] using stmt_ind'; intros H;
    inversion H; subst; constructor; try (rewrite Forall_forall in *; auto; fail).
  eapply entries_ok_incl; eauto.
Qed.

Definition Post (L : list secret) (s : stmt) (pre : val) : Prop :=
  PreRel s pre /\ wfs s /\ built s /\ ConOK s /\ prenn s /\ VOK s /\ incl (svars s) L /\
  (Forall notcustom (kinds s) -> TP s).
(** every ExtendedProver has an inner prover *)
Inductive Full : prover -> Prop :=
| FuDL o : Full (PDL o)
| FuAnd ps : Forall Full ps -> Full (PAnd ps)
| FuOr i sp ts : Full sp -> Full (POr i sp ts)
| FuExt sv q : Full (PExt sv (Some (Some q))).
Definition CReady (w : bytes -> Z) (s : stmt) (p : prover) : Prop :=
  (exists rd sta r, internal_commit s p rd sta = Ok r) \/ Full p -> Ready w s p.

Lemma Post_and_list L subs pres : Forall2 (Post L) subs pres ->
  Forall2 PreRel subs pres /\ Forall wfs subs /\ Forall built subs /\ Forall ConOK subs /\ Forall prenn subs /\
  Forall VOK subs /\ incl (List.concat (map svars subs)) L /\
  (Forall notcustom (List.concat (map kinds subs)) -> Forall TP subs).
Proof.
  induction 1 as [|x p subs pres (P1 & P2 & P3 & P4 & P5 & P6 & P7 & P8) F IH].
  - repeat split; auto. intros x [].
  - destruct IH as (I1 & I2 & I3 & I4 & I5 & I6 & I7 & I8). repeat split; auto.
    + simpl. apply incl_app; auto.
    + simpl. intros N. apply Forall_app in N as [N1 N2]. constructor; auto.
Qed.
Lemma none_noext subs pres : Forall2 PreRel subs pres -> forallb is_none pres = true -> Forall noext subs.
Proof.
  induction 1; intros N; constructor; simpl in N; apply andb_true_iff in N as [N1 N2]; auto.
  apply PreRel_none. destruct y; try discriminate. auto.
Qed.
Lemma falsy_noext subs pres : Forall2 PreRel subs pres -> Forall TP subs -> existsb truthy pres = false -> Forall noext subs.
Proof.
  induction 1; intros T N; constructor; simpl in N; apply orb_false_iff in N as [N1 N2]; inversion T; subst; auto.
  eapply PreRel_falsy; eauto.
Qed.
Lemma Simd_pre L l t : Forall2 (Simd L) l t -> Forall2 PreRel l (map t_pre t).
Proof. intros F. rewrite Forall2_map_r. eapply Forall2_impl; [|exact F]. unfold Simd, SimOK. intros a b H. apply H. Qed.
Lemma Simd_prep L l t : Forall2 (Simd L) l t -> Forall (Prep L) l.
Proof. induction 1; constructor; auto. apply H. Qed.

Lemma precommit_ok U L D w s : forall p st pre p1 s1 st1,
  wfL L -> incl D U -> incl U L ->
  Built U L D w s p -> precommit s p st = Ok ((pre, p1, s1), st1) ->
  agree w (env st) U -> NoDup (map sid (kints s)) -> (forall x y, In x (kints s) -> In y U -> sid x <> sid y) ->
  agree w (env st1) (kints s) ->
  pstrip s1 = pstrip s /\ Post L s1 pre /\ CReady w s1 p1.
Proof.
  assert (EXT : forall k b q con sv st pre p1 s1 st1, wfL L -> incl D U -> incl U L ->
    entries_ok D w sv -> KTrue w k -> incl (kuser k) U -> incl (kint k) L -> kdisj k ->
    precommit (SExt k b q con) (PExt sv None) st = Ok ((pre, p1, s1), st1) ->
    agree w (env st) U -> NoDup (map sid (kint k)) -> (forall x y, In x (kint k) -> In y U -> sid x <> sid y) ->
    agree w (env st1) (kint k) ->
    pstrip s1 = pstrip (SExt k b q con) /\ Post L s1 pre /\ CReady w s1 p1).
  { clear s. intros k b q con sv st pre p1 s1 st1 HL ID IU ED KT IKu IKi KD H AU ND DJ AI.
    cbn [precommit] in H. apply bind_ok in H as (pr & s2 & E & H). apply bind_ok in H as (c & s3 & C & H).
    apply bind_ok in H as ([o c'] & s4 & G & H). apply ret_ok in H as [H ->]. cbn [fst snd] in H.
    injection H as <- <- <-.
    destruct (construct_leafy _ _ _ _ _ C) as (-> & Lf).
    assert (ES := get_prover_estep _ _ _ _ _ _ _ _ ED G).
    assert (KF := kprecommit_frame _ _ _ _ E).
    assert (AI2 : agree w (env s2) (kint k)).
    { apply (fstep_back w D U [] (kint k) (env s2) (env s4)); auto. intros i _. apply ES. }
    assert (AU2 : agree w (env s2) U).
    { intros x v Hx Ev. apply AU; auto. rewrite <- KF; auto. intros K. apply in_map_iff in K as (y & Ey & Hy).
      apply (DJ y x); auto. }
    assert (NE := leafy_noext _ _ Lf).
    destruct (ktrue_construct sv w st k pr s2 c s2 E C KT KD) as (T & N & TR & V).
    { intros x v Hx. apply AU. auto. }
    { auto. }
    assert (IL : incl (kuser k ++ kint k) L) by (apply incl_app; auto; eapply incl_tran; eauto).
    destruct (get_prover_built L L D w c sv s2 o c' s4) as (P1 & _ & P3); auto.
    { eapply Swf_incl; [| |eapply leafy_Swf; eauto]; auto. }
    { eapply Vals_incl; [exact IL|]. eapply leafy_Vals; eauto.
      intros x v Hx. apply in_app_iff in Hx as [Hx|Hx]; auto. }
    { eapply incl_tran; eauto. }
    { apply incl_refl. }
    assert (NE' : noext c') by (apply noext_pstrip; rewrite P1; now apply noext_pstrip).
    split; [reflexivity|]. split.
    - unfold Post. repeat split.
      + constructor; auto.
      + constructor. assert (Wc := leafy_wfs _ _ _ Lf). apply (wfs_same c' c); auto.
      + constructor. now apply noext_built.
      + econstructor; eauto. now rewrite !noext_strip by auto.
      + constructor; auto. now apply noext_prenn.
      + constructor; auto.
      + simpl. rewrite (svars_same c' c) by auto. eapply incl_tran; [eapply leafy_svars; eauto|auto].
      + intros NC. constructor. destruct TR as [(cls & rows & ->)|TR]; auto.
        simpl in NC. inversion NC; subst. contradiction.
    - intros IC. destruct o as [q0|].
      2:{ destruct IC as [(rd & sta & r & IC)|IC]; [simpl in IC; discriminate|inversion IC]. }
      constructor. eapply noext_Ready; eauto. }
  induction s as [d|subs b IH|subs b ch IH|k b q|k b q con IH] using stmt_ind';
    intros p st pre p1 s1 st1 HL ID IU HB H AU ND DJ AI; inversion HB; subst.
  - simpl in H. apply ret_ok in H as [H ->]. injection H as <- <- <-.
    split; auto. split.
    + match goal with X : dl_ok _ _ _ |- _ => destruct X as (_ & _ & X & _) end.
      unfold Post. repeat split; try (constructor; auto). simpl. eapply incl_tran; eauto.
    + intros _. econstructor; eauto.
  - match goal with X : Forall2 (Built _ _ _ _) subs ps |- _ => rename X into F end.
    cbn [precommit] in H. apply bind_ok in H as (l & s2 & E & H). apply ret_ok in H as [H ->]. injection H as <- <- <-.
    assert (G : Forall3 (fun s p r => pstrip (snd r) = pstrip s /\ Post L (snd r) (fst (fst r)) /\ CReady w (snd r) (snd (fst r))) subs ps l).
    { unfold kints in ND, DJ, AI. simpl in ND, DJ, AI. clear HB. revert ps l st E F AU.
      induction subs as [|x subs IHs]; intros ps l st E F AU; inversion F; subst; simpl in E.
      - apply ret_ok in E as [<- ->]. constructor.
      - apply bind_ok in E as ([[v0 p0] x0] & sa & E0 & E). apply bind_ok in E as (l0 & sb & E1 & E).
        apply ret_ok in E as [<- ->].
        simpl in ND, DJ, AI. rewrite map_app, concat_app in ND, DJ, AI. rewrite map_app in ND.
        apply NoDup_app_inv in ND as (ND1 & ND2 & ND3).
        assert (Bx : Built U L D w x y) by auto.
        assert (FS : fstep w D (kints x) (env st) (env sa)) by (eapply precommit_fstep; eauto).
        assert (FT : fstep w D (List.concat (map kint (List.concat (map kinds subs)))) (env sa) (env sb)).
        { eapply (precommit_fstep U L D w (SAnd subs b) (PAnd l')).
          - constructor; auto.
          - cbn [precommit]. unfold bind. rewrite E1. reflexivity. }
        assert (AU' : agree w (env sa) U).
        { apply (fstep_agree w D U (kints x) (env st) (env sa)); auto; [apply (wfL_incl L); auto|].
          intros a c Ha Hc. apply DJ; auto. apply in_app_iff. now left. }
        inversion IH as [|? ? IH1 IH2]; subst.
        constructor.
        + cbn [fst snd]. eapply IH1; eauto.
          * intros a c Ha Hc. apply DJ; auto. apply in_app_iff. now left.
          * eapply (fstep_back w D U); eauto.
            -- intros a c Ha Hc. apply DJ; auto. apply in_app_iff. now left.
            -- intros a c Ha Hc Es. apply (ND3 (sid a)); [rewrite Es|]; now apply in_map.
            -- intros a v Ha. apply AI. apply in_app_iff. now left.
        + eapply IHs; eauto.
          * intros a c Ha Hc. apply DJ; auto. apply in_app_iff. now right.
          * intros a v Ha. apply AI. apply in_app_iff. now right. }
    assert (FP : Forall2 (Post L) (map snd l) (map (fun r => fst (fst r)) l)).
    { clear -G. induction G; simpl; constructor; auto. apply H. }
    destruct (Post_and_list _ _ _ FP) as (I1 & I2 & I3 & I4 & I5 & I6 & I7 & I8).
    split.
    { simpl. f_equal. clear -G. induction G; simpl; auto. f_equal; auto. apply H. }
    split.
    + unfold Post. repeat split; try (constructor; auto; fail); auto.
      * destruct (forallb is_none _) eqn:FN; [constructor; eapply none_noext; eauto|constructor; auto].
    + intros [(rd & sta & r & IC)|FU]; constructor.
      2:{ inversion FU as [|? FL| |]; subst. clear -G FL. induction G as [|x q [[v0 p0] x0] xs qs rs (_ & _ & CR) G IHG];
            simpl in *; constructor; inversion FL; subst; auto. }
      rewrite internal_commit_and in IC.
      apply bind_ok in IC as (e0 & sx & X1 & IC). apply bind_ok in IC as (u0 & sy & X2 & IC).
      apply bind_ok in IC as (rd' & sz & X3 & IC). apply bind_ok in IC as (ll & sw & X4 & IC).
      clear -G X4. revert sz ll sw X4. induction G as [|x q [[v0 p0] x0] xs qs rs (_ & _ & CR) G IHG];
        intros sz ll sw X4; simpl in *; constructor.
      * apply bind_ok in X4 as (a & s1 & E1 & X4). apply CR. left. eauto.
      * apply bind_ok in X4 as (a & s1 & E1 & X4). apply bind_ok in X4 as (a' & s2 & E2 & X4). eapply IHG; eauto.
  - rewrite precommit_or in H. apply bind_ok in H as ([[v p'] l'] & s2 & E & H).
    apply ret_ok in H as [H ->]. cbn [fst snd] in H. injection H as <- <- <-.
    apply or_pre_loop_ok in E as (y & y' & N & E & ->).
    rewrite nth_middle' in N. injection N as <-.
    match goal with X : Forall2 (Simd L) l1 t1 |- _ => rename X into F1 end.
    match goal with X : Forall2 (Simd L) l2 t2 |- _ => rename X into F2 end.
    match goal with X : Forall notcustom (kinds x) |- _ => rename X into NC end.
    assert (KE : exists ka kc, kints (SOr (l1 ++ x :: l2) b ch) = ka ++ kints x ++ kc).
    { unfold kints. simpl. rewrite map_app, concat_app. simpl. rewrite !map_app, !concat_app. eauto. }
    destruct KE as (ka & kc & KE). rewrite KE in ND, DJ, AI. rewrite !map_app in ND.
    apply NoDup_app_inv in ND as (_ & ND & _). apply NoDup_app_inv in ND as (ND & _ & _).
    assert (Hx : In x (l1 ++ x :: l2)) by (apply in_app_iff; right; left; auto).
    rewrite Forall_forall in IH. destruct (IH x Hx sp st v p' y' s2) as (A & B & C); auto.
    { intros a c Ha Hc. apply DJ; auto. apply in_app_iff. right. apply in_app_iff. now left. }
    { intros a c Ha. apply AI. apply in_app_iff. right. apply in_app_iff. now left. }
    rewrite replace_middle.
    assert (L1 : List.length t1 = List.length l1) by (symmetry; eapply Forall2_len; eauto).
    rewrite map_app, insert_at_split by (now rewrite map_length).
    destruct B as (P1 & P2 & P3 & P4 & P5 & P6 & P7 & P8).
    assert (TPy : TP y') by (apply P8; now rewrite (kinds_same _ _ A)).
    assert (PP : Forall (Prep L) (l1 ++ y' :: l2)).
    { apply Forall_app. split; [eapply Simd_prep; eauto|]. constructor; [|eapply Simd_prep; eauto].
      unfold Prep. auto 10. }
    assert (PR : Forall2 PreRel (l1 ++ y' :: l2) (map t_pre t1 ++ v :: map t_pre t2)).
    { apply Forall2_app'; [eapply Simd_pre; eauto|]. constructor; auto. eapply Simd_pre; eauto. }
    destruct (Prep_or L _ b ch PP) as (Q1 & Q2 & Q3 & Q4 & Q5 & Q6 & Q7).
    split.
    { simpl. f_equal. rewrite !map_app. simpl. congruence. }
    split.
    + unfold Post. split; [|auto 10].
      destruct (existsb truthy _) eqn:ET; [constructor; auto|]. constructor. inversion Q6; subst. eapply falsy_noext; eauto.
    + intros IC. constructor.
      * eapply Forall2_impl; [|exact F1]. unfold Simd. tauto.
      * eapply Forall2_impl; [|exact F2]. unfold Simd. tauto.
      * destruct IC as [(rd & sta & r & IC)|FU]; [|apply C; right; now inversion FU].
        rewrite internal_commit_or in IC.
        apply bind_ok in IC as (e0 & sx & X1 & IC). apply bind_ok in IC as (u0 & sy & X2 & IC).
        apply bind_ok in IC as (rr & sz & X3 & IC). rewrite sel_loop_eq, nth_middle' in X3.
        apply C. left. eauto.
  - unfold kints in ND, DJ, AI. simpl in ND, DJ, AI. rewrite app_nil_r in ND, DJ, AI. eapply EXT; eauto.
  - unfold kints in ND, DJ, AI. simpl in ND, DJ, AI. rewrite app_nil_r in ND, DJ, AI. eapply EXT; eauto.
Qed.
End P.

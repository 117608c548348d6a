(** Renaming of secrets; what the hash input determines; the wire; other accepted responses. *)
From Coq Require Import String Znumtheory.
From Verif Require Import Base World Val Expr Utils Stmt Prove Verify Spec Claims Shapes Honest Clauses Supply Extract Ident
  Lib DictProofs Keeps Tree Sigma Validate Commit ArithProofs Build Process Ktruth Provers Complete Sound Wire IdProofs IdProofs2.
Open Scope Z_scope.
Open Scope list_scope.

Section I.
Context {W : World}.

(** ** Renaming (C17) *)

(** Renamed statements, seen through the verifier object: parts for which a precommitment has been
    processed have the same precommitment and renamed inner statements. *)
Inductive MSim (f g : bytes -> bytes) : verifier -> stmt -> stmt -> Prop :=
| MsDL d d' : dl_lhs d = dl_lhs d' -> dl_bases d = dl_bases d' ->
    Forall2 (ren f g) (dl_secs d) (dl_secs d') -> MSim f g RDL (SDL d) (SDL d')
| MsAnd vs l l' b b' : Forall3 (MSim f g) vs l l' -> MSim f g (RAnd vs) (SAnd l b) (SAnd l' b')
| MsOr vs l l' b b' c c' : Forall3 (MSim f g) vs l l' -> MSim f g (ROr vs) (SOr l b c) (SOr l' b' c')
| MsNone k k' b b' p p' c c' : KSim f g k k' -> MSim f g (RExt None) (SExt k b p c) (SExt k' b' p' c')
| MsExt v k k' b b' p c c' : KSim f g k k' -> v = fverifier c -> Sim f g c c' ->
    MSim f g (RExt (Some v)) (SExt k b p (Some c)) (SExt k' b' p (Some c')).

Lemma Sim_verifier f g s : forall s', Sim f g s s' -> get_verifier s' = get_verifier s.
Proof.
  induction s as [d|subs b IH|subs b ch IH|k b q|k b q con IH] using stmt_ind'; intros s' H; inversion H; subst; auto.
  - simpl. f_equal. clear H. match goal with X : Forall2 _ _ _ |- _ => induction X end; auto. inversion IH; subst. simpl. f_equal; auto.
  - simpl. f_equal. clear H. match goal with X : Forall2 _ _ _ |- _ => induction X end; auto. inversion IH; subst. simpl. f_equal; auto.
Qed.
Lemma Pat_MSim f g s : forall s', Pat f g s s' -> MSim f g (get_verifier s) s s'.
Proof.
  induction s as [d|subs b IH|subs b ch IH|k b q|k b q con IH] using stmt_ind'; intros s' H; inversion H; subst.
  - now constructor.
  - constructor. clear H. match goal with X : Forall2 _ _ _ |- _ => induction X end; simpl; constructor; inversion IH; subst; auto.
  - constructor. clear H. match goal with X : Forall2 _ _ _ |- _ => induction X end; simpl; constructor; inversion IH; subst; auto.
  - now constructor.
  - now constructor.
Qed.
Lemma Pat_verifier f g s : forall s', Pat f g s s' -> get_verifier s' = get_verifier s.
Proof.
  induction s as [d|subs b IH|subs b ch IH|k b q|k b q con IH] using stmt_ind'; intros s' H; inversion H; subst; auto.
  - simpl. f_equal. clear H. match goal with X : Forall2 _ _ _ |- _ => induction X end; auto. inversion IH; subst. simpl. f_equal; auto.
  - simpl. f_equal. clear H. match goal with X : Forall2 _ _ _ |- _ => induction X end; auto. inversion IH; subst. simpl. f_equal; auto.
Qed.

Lemma pp_sim f g pre st stv : forall l vs i l' rs st1,
  (forall x, In x l -> forall v p x' r st1, Pat f g x x' -> v = get_verifier x -> Forall (vkOK (env stv)) (kinds x') ->
     process_pre x v p st = Ok (r, st1) -> st1 = st /\ exists y, process_pre x' v p stv = Ok ((fst r, y), stv) /\ MSim f g (fst r) (snd r) y) ->
  Forall2 (Pat f g) l l' -> vs = map get_verifier l -> Forall (vkOK (env stv)) (List.concat (map kinds l')) ->
  pp_loop process_pre pre i l vs st = Ok (rs, st1) ->
  st1 = st /\ exists rs', pp_loop process_pre pre i l' vs stv = Ok (rs', stv) /\ map fst rs' = map fst rs /\
    Forall3 (MSim f g) (map fst rs) (map snd rs) (map snd rs').
Proof.
  induction l as [|x l IH]; intros vs i l' rs st1 H F EV VK E; inversion F as [|? x' ? l'' P F']; subst.
  - apply ret_ok in E as [<- <-]. split; auto. exists []. split; [reflexivity|]. split; [reflexivity|constructor].
  - simpl in E. apply bind_ok in E as (p & s1 & E1 & E). apply lift_ok in E1 as [E1 ->].
    apply bind_ok in E as (r & s2 & E2 & E). apply bind_ok in E as (rs' & s3 & E3 & E). apply ret_ok in E as [<- ->].
    simpl in VK. apply Forall_app in VK as [V1 V2].
    destruct (H x (or_introl eq_refl) _ _ x' _ _ P eq_refl V1 E2) as [-> (y & Ey & My)].
    destruct (IH _ (S i) l'' _ _ (fun z Hz => H z (or_intror Hz)) F' eq_refl V2 E3) as [-> (rs2 & Er & Ef & Mr)].
    split; auto. exists ((fst r, y) :: rs2). split; [|split].
    + simpl. rewrite E1, bind_lift_ok. unfold bind at 1. rewrite Ey. unfold bind at 1. rewrite Er. reflexivity.
    + simpl. now rewrite Ef.
    + simpl. constructor; auto.
Qed.

Lemma construct_noext k pre st c st' : construct k pre st = Ok (c, st') -> noext c.
Proof. intros H. apply construct_leafy in H as [_ H]. eapply leafy_noext; eauto. Qed.

Lemma process_sim f g s : forall v pre st r st1 s' stv, Pat f g s s' -> v = get_verifier s -> Forall (vkOK (env stv)) (kinds s') ->
  process_pre s v pre st = Ok (r, st1) -> st1 = st /\ exists y, process_pre s' v pre stv = Ok ((fst r, y), stv) /\ MSim f g (fst r) (snd r) y.
Proof.
  assert (EX : forall k k' b b' q q' c c' pre st r st1 stv, KSim f g k k' -> Forall (vkOK (env stv)) [k'] ->
    process_pre (SExt k b q c) (RExt None) pre st = Ok (r, st1) ->
    st1 = st /\ exists y, process_pre (SExt k' b' q' c') (RExt None) pre stv = Ok ((fst r, y), stv) /\ MSim f g (fst r) (snd r) y).
  { intros k k' b b' q q' c c' pre st r st1 stv K V E. cbn [process_pre] in E. apply bind_ok in E as (c0 & s1 & E1 & E).
    apply ret_ok in E as [<- ->]. assert (E2 := construct_leafy _ _ _ _ _ E1). destruct E2 as [-> _]. split; auto.
    inversion V; subst. destruct (construct_sim f g _ _ _ _ _ _ stv K E1 ltac:(assumption)) as (c1 & E3 & S3).
    exists (SExt k' b' pre (Some c1)). cbn [process_pre]. unfold bind. rewrite E3. unfold ret. rewrite (Sim_verifier f g _ _ S3).
    split; [reflexivity|]. simpl. constructor; auto. symmetry. now apply noext_verifier, (construct_noext _ _ _ _ _ E1). }
  induction s as [d|subs b IH|subs b ch IH|k b q|k b q con IH] using stmt_ind'; intros v pre st r st1 s' stv P EV VK E; subst v;
    pose proof (Pat_MSim f g _ _ P) as PM; inversion P; subst.
  - apply ret_ok in E as [<- <-]. split; auto. eexists. split; [reflexivity|]. exact PM.
  - cbn [get_verifier] in *. rewrite process_pre_and in E |- *. destruct (is_none pre).
    + apply ret_ok in E as [<- <-]. split; auto. eexists. split; [reflexivity|]. exact PM.
    + apply bind_ok in E as (rs & s1 & E1 & E). apply ret_ok in E as [<- ->].
      rewrite Forall_forall in IH. destruct (pp_sim f g pre st stv subs _ _ l' _ _ ltac:(intros; eapply IH; eauto) ltac:(eassumption) eq_refl ltac:(exact VK) E1) as [-> (rs' & Er & Ef & M)].
      split; auto. exists (SAnd (map snd rs') b'). unfold bind. rewrite Er. simpl. rewrite Ef. split; [reflexivity|]. now constructor.
  - cbn [get_verifier] in *. rewrite process_pre_or in E |- *. destruct (is_none pre).
    + apply ret_ok in E as [<- <-]. split; auto. eexists. split; [reflexivity|]. exact PM.
    + apply bind_ok in E as (rs & s1 & E1 & E). apply ret_ok in E as [<- ->].
      rewrite Forall_forall in IH. destruct (pp_sim f g pre st stv subs _ _ l' _ _ ltac:(intros; eapply IH; eauto) ltac:(eassumption) eq_refl ltac:(exact VK) E1) as [-> (rs' & Er & Ef & M)].
      split; auto. exists (SOr (map snd rs') b' c'). unfold bind. rewrite Er. simpl. rewrite Ef. split; [reflexivity|]. now constructor.
  - eapply EX; eauto.
  - eapply EX; eauto.
Qed.

Lemma MSim_ready f g v : forall s s', MSim f g v s s' -> vready v -> Sim f g s s' /\ v = fverifier s /\ v = fverifier s'.
Proof.
  assert (GS : forall s s', Sim f g s s' -> fverifier s' = fverifier s).
  { induction s as [d|subs b IH|subs b ch IH|k b q|k b q con IH] using stmt_ind'; intros s' H; inversion H; subst; auto.
    - simpl. f_equal. clear H. match goal with X : Forall2 _ _ _ |- _ => induction X end; auto. inversion IH; subst. simpl. f_equal; auto.
    - simpl. f_equal. clear H. match goal with X : Forall2 _ _ _ |- _ => induction X end; auto. inversion IH; subst. simpl. f_equal; auto.
    - simpl. do 2 f_equal. auto. }
  intros s. revert v. induction s as [d|subs b IH|subs b ch IH|k b q|k b q con IH] using stmt_ind'; intros v s' H R; inversion H; subst; inversion R; subst.
  - split; [now constructor|auto].
  - match goal with X : Forall3 _ _ _ _, Y : Forall vready _ |- _ => rename X into F; rename Y into RV end.
    assert (K : Forall2 (Sim f g) subs l' /\ vs = map fverifier subs /\ vs = map fverifier l').
    { clear H R. induction F; [repeat split; constructor|]. inversion IH; inversion RV; subst.
      destruct IHF as (A & B & C); auto. destruct (H2 _ _ H ltac:(assumption)) as (A' & B' & C'). split; [|split]; simpl; [constructor; auto| |]; congruence. }
    destruct K as (K1 & K2 & K3). split; [now constructor|]. simpl. split; congruence.
  - match goal with X : Forall3 _ _ _ _, Y : Forall vready _ |- _ => rename X into F; rename Y into RV end.
    assert (K : Forall2 (Sim f g) subs l' /\ vs = map fverifier subs /\ vs = map fverifier l').
    { clear H R. induction F; [repeat split; constructor|]. inversion IH; inversion RV; subst.
      destruct IHF as (A & B & C); auto. destruct (H2 _ _ H ltac:(assumption)) as (A' & B' & C'). split; [|split]; simpl; [constructor; auto| |]; congruence. }
    destruct K as (K1 & K2 & K3). split; [now constructor|]. simpl. split; congruence.
  - split; [now constructor|]. simpl. split; auto. do 2 f_equal. symmetry. now apply GS.
Qed.

(** dictionaries of responses with renamed keys *)
Definition drel (f g : bytes -> bytes) (L L' : list secret) (d d' : dict val) : Prop :=
  Forall2 (fun a b : secret * val => In (fst a) L /\ In (fst b) L' /\ ren f g (fst a) (fst b) /\ snd a = snd b) d d'.
Lemma ren_eqb f g e e' L L' x y x' y' : coh e L -> coh e' L' -> In x L -> In y L -> In x' L' -> In y' L' ->
  ren f g x x' -> ren f g y y' -> sec_eqb e x y = sec_eqb e' x' y'.
Proof.
  intros C C' X Y X' Y' [R1 R2] [R3 R4]. apply eq_true_iff_eq. rewrite (coh_eqb e L x y), (coh_eqb e' L' x' y') by auto.
  split; congruence.
Qed.
Lemma dget_rel f g e e' L L' d d' x x' : coh e L -> coh e' L' -> drel f g L L' d d' -> In x L -> In x' L' -> ren f g x x' ->
  dget e d x = dget e' d' x'.
Proof.
  intros C C' D X X' R. induction D as [|[k v] [k' v'] d d' (K1 & K2 & K3 & K4) D IH]; auto. simpl in *.
  rewrite (ren_eqb f g e e' L L' k x k' x') by auto. now rewrite K4, IH.
Qed.
Lemma dset_rel f g e e' L L' d d' x x' v : coh e L -> coh e' L' -> drel f g L L' d d' -> In x L -> In x' L' -> ren f g x x' ->
  drel f g L L' (dset e d x v) (dset e' d' x' v).
Proof.
  intros C C' D X X' R. induction D as [|[k u] [k' u'] d d' (K1 & K2 & K3 & K4) D IH]; simpl in *.
  - constructor; [simpl; auto|constructor].
  - rewrite (ren_eqb f g e e' L L' k x k' x') by auto. destruct (sec_eqb e' k' x'); constructor; simpl; auto.
Qed.

Definition orel f g L L' (o o' : option (dict val)) : Prop :=
  match o, o' with Some d, Some d' => drel f g L L' d d' | None, None => True | _, _ => False end.
Definition rrel f g L L' (o o' : res (option (dict val))) : Prop :=
  match o, o' with Ok d, Ok d' => orel f g L L' d d' | Err a, Err b => a = b | _, _ => False end.

Lemma cdl_rel f g e e' L L' r : coh e L -> coh e' L' -> forall ss ss' i d d', Forall2 (ren f g) ss ss' -> incl ss L -> incl ss' L' ->
  drel f g L L' d d' -> rrel f g L L' (cdl_loop e r i ss d) (cdl_loop e' r i ss' d').
Proof.
  intros C C' ss ss' i d d' F. revert i d d'. induction F as [|x x' ss ss' R F IH]; intros i d d' I I' D; [exact D|].
  assert (X : In x L) by (apply I; now left). assert (X' : In x' L') by (apply I'; now left).
  assert (I1 : incl ss L) by (intros z Hz; apply I; now right). assert (I2 : incl ss' L') by (intros z Hz; apply I'; now right).
  simpl. rewrite (dget_rel f g e e' L L' d d' x x') by auto.
  destruct (dget e' d' x') as [v|]; destruct (index r i) as [ri|er]; simpl; auto.
  - destruct (val_eqb ri v); simpl; auto.
  - apply IH; auto. now apply dset_rel.
Qed.
Lemma consistent_rel f g e e' L L' s : coh e L -> coh e' L' -> forall s' r d d', Sim f g s s' -> incl (svars s) L -> incl (svars s') L' ->
  drel f g L L' d d' -> rrel f g L L' (consistent e s (fverifier s) r d) (consistent e' s' (fverifier s') r d').
Proof.
  intros C C'. induction s as [d0|subs b IH|subs b ch IH|k b q|k b q con IH] using stmt_ind'; intros s' r d d' S I I' D; inversion S; subst.
  - simpl in *. apply (cdl_rel f g e e' L L' r C C' (dl_secs d0) (dl_secs d'0) 0); auto.
  - cbn [fverifier]. rewrite !consistent_and. match goal with X : Forall2 _ _ _ |- _ => rename X into F end. clear S.
    simpl in I, I'. generalize 0%nat as i. revert d d' D. induction F as [|x x' l l' Sx F IHF]; intros d d' D i; [exact D|].
    inversion IH as [|? ? Ix IHl]; subst. simpl in I, I'. simpl. destruct (index r i) as [ri|er]; simpl; auto.
    assert (Q := Ix x' ri d d' Sx ltac:(intros z Hz; apply I, in_or_app; now left) ltac:(intros z Hz; apply I', in_or_app; now left) D).
    destruct (consistent e x (fverifier x) ri d) as [[o|]|], (consistent e' x' (fverifier x') ri d') as [[o'|]|]; simpl in *; try tauto.
    apply IHF; auto; intros z Hz; [apply I|apply I']; apply in_or_app; now right.
  - cbn [fverifier]. rewrite !consistent_or. match goal with X : Forall2 _ _ _ |- _ => rename X into F end. clear S.
    simpl in I, I'. generalize 0%nat as i. induction F as [|x x' l l' Sx F IHF]; intros i; [exact D|].
    inversion IH as [|? ? Ix IHl]; subst. simpl in I, I'. simpl. destruct (index r 1) as [rs|er]; simpl; auto.
    destruct (index rs i) as [ri|er]; simpl; auto.
    assert (Q := Ix x' ri [] [] Sx ltac:(intros z Hz; apply I, in_or_app; now left) ltac:(intros z Hz; apply I', in_or_app; now left) ltac:(constructor)).
    destruct (consistent e x (fverifier x) ri []) as [[o|]|], (consistent e' x' (fverifier x') ri []) as [[o'|]|]; simpl in *; try tauto.
    apply IHF; auto; intros z Hz; [apply I|apply I']; apply in_or_app; now right.
  - cbn [fverifier consistent]. apply IH; auto.
Qed.

Lemma consistent_ready e s : forall v r d d', vmatch s v -> consistent e s v r d = Ok (Some d') -> vready v.
Proof.
  induction s as [d0|subs b IH|subs b ch IH|k b q|k b q con IH] using stmt_ind'; intros v r d d' V E; inversion V; subst.
  - constructor.
  - rewrite consistent_and in E. constructor. match goal with X : Forall2 _ _ _ |- _ => rename X into F end. clear V.
    revert d E. generalize 0%nat as i. induction F as [|x w l vs Vx F IHF]; intros i d E; [constructor|]. inversion IH; subst.
    simpl in E. destruct (index r i) as [ri|]; [|discriminate]. cbn [rbind] in E.
    destruct (consistent e x w ri d) as [[o|]|] eqn:E1; try discriminate. constructor; [eauto|eapply IHF; eauto].
  - rewrite consistent_or in E. constructor. match goal with X : Forall2 _ _ _ |- _ => rename X into F end. clear V.
    revert E. generalize 0%nat as i. induction F as [|x w l vs Vx F IHF]; intros i E; [constructor|]. inversion IH; subst.
    simpl in E. destruct (index r 1) as [rs|]; [|discriminate]. cbn [rbind] in E. destruct (index rs i) as [ri|]; [|discriminate]. cbn [rbind] in E.
    destruct (consistent e x w ri []) as [[o|]|] eqn:E1; try discriminate. constructor; [eauto|eapply IHF; eauto].
  - discriminate E.
  - discriminate E.
  - cbn [consistent] in E. constructor. eauto.
Qed.

(** secrets of what has been processed *)
Lemma pp_secrets pre : forall l vs i st rs st1,
  (forall x, In x l -> forall p st r st1, process_pre x (get_verifier x) p st = Ok (r, st1) -> vready (fst r) -> incl (svars (snd r)) (secrets x)) ->
  vs = map get_verifier l -> pp_loop process_pre pre i l vs st = Ok (rs, st1) -> Forall vready (map fst rs) ->
  incl (List.concat (map svars (map snd rs))) (List.concat (map secrets l)).
Proof.
  induction l as [|x l IH]; intros vs i st rs st1 H -> E V.
  - apply ret_ok in E as [<- _]. apply incl_refl.
  - simpl in E. apply bind_ok in E as (p & s1 & E1 & E). apply bind_ok in E as (r & s2 & E2 & E).
    apply bind_ok in E as (rs' & s3 & E3 & E). apply ret_ok in E as [<- ->]. simpl in *. inversion V; subst.
    apply incl_app_app; [eapply (H x); eauto|eapply IH; eauto].
Qed.
Lemma noext_secrets s : vready (get_verifier s) -> svars s = secrets s.
Proof.
  induction s as [d|subs b IH|subs b ch IH|k b q|k b q con IH] using stmt_ind'; intros R; inversion R; subst; auto.
  - simpl. f_equal. clear R. induction subs; auto. inversion IH; subst. simpl in H0. inversion H0; subst. simpl. f_equal; auto.
  - simpl. f_equal. clear R. induction subs; auto. inversion IH; subst. simpl in H0. inversion H0; subst. simpl. f_equal; auto.
Qed.
Lemma process_secrets s : forall pre st r st1, process_pre s (get_verifier s) pre st = Ok (r, st1) -> vready (fst r) -> incl (svars (snd r)) (secrets s).
Proof.
  assert (EX : forall k b q c pre st r st1, process_pre (SExt k b q c) (RExt None) pre st = Ok (r, st1) -> incl (svars (snd r)) (kuser k ++ kint k)).
  { intros k b q c pre st r st1 E. cbn [process_pre] in E. apply bind_ok in E as (c0 & s1 & E1 & E). apply ret_ok in E as [<- ->].
    simpl. apply construct_leafy in E1 as [_ E1]. eapply leafy_svars; eauto. }
  induction s as [d|subs b IH|subs b ch IH|k b q|k b q con IH] using stmt_ind'; intros pre st r st1 E V.
  - apply ret_ok in E as [<- _]. apply incl_refl.
  - cbn [get_verifier] in E. rewrite process_pre_and in E. destruct (is_none pre).
    + apply ret_ok in E as [<- _]. change (RAnd (map get_verifier subs)) with (get_verifier (SAnd subs b)) in V. cbn [fst snd] in *.
      rewrite (noext_secrets _ V). apply incl_refl.
    + apply bind_ok in E as (rs & s1 & E1 & E). apply ret_ok in E as [<- ->]. simpl in V. inversion V; subst.
      rewrite Forall_forall in IH. simpl. eapply pp_secrets; eauto.
  - cbn [get_verifier] in E. rewrite process_pre_or in E. destruct (is_none pre).
    + apply ret_ok in E as [<- _]. change (ROr (map get_verifier subs)) with (get_verifier (SOr subs b ch)) in V. cbn [fst snd] in *.
      rewrite (noext_secrets _ V). apply incl_refl.
    + apply bind_ok in E as (rs & s1 & E1 & E). apply ret_ok in E as [<- ->]. simpl in V. inversion V; subst.
      rewrite Forall_forall in IH. simpl. eapply pp_secrets; eauto.
  - eapply EX; eauto.
  - eapply EX; eauto.
Qed.

Lemma processed_match s pre st v s1 st1 : processed s pre st = Ok ((v, s1), st1) -> vmatch s1 v.
Proof.
  unfold processed. destruct (is_none pre); intros H; [|eapply process_match; eauto].
  apply ret_ok in H as [H _]. injection H as <- <-. apply vmatch_get.
Qed.
Lemma processed_secrets s pre st v s1 st1 : processed s pre st = Ok ((v, s1), st1) -> vready v -> incl (svars s1) (secrets s).
Proof.
  unfold processed. destruct (is_none pre); intros H R; [|apply (process_secrets _ _ _ _ _ H R)].
  apply ret_ok in H as [H _]. injection H as <- <-. rewrite (noext_secrets _ R). apply incl_refl.
Qed.
Lemma processed_sim f g s s' pre st v s1 st1 stv : processed s pre st = Ok ((v, s1), st1) -> Pat f g s s' -> Forall (vkOK (env stv)) (kinds s') ->
  st1 = st /\ exists s1', processed s' pre stv = Ok ((v, s1'), stv) /\ MSim f g v s1 s1'.
Proof.
  unfold processed. intros H P V. rewrite (Pat_verifier f g s s' P). destruct (is_none pre).
  - apply ret_ok in H as [H <-]. injection H as <- <-. split; auto. exists s'. split; [reflexivity|]. now apply Pat_MSim.
  - destruct (process_sim f g s _ _ _ _ _ s' stv P eq_refl V H) as [-> (y & E & M)]. split; auto. exists y. auto.
Qed.

Lemma renamed_verify f g s s' z msg st stv b s1 st1 : Pat f g s s' ->
  coh (env st) (secrets s) -> coh (env stv) (secrets s') -> Forall (vkOK (env stv)) (kinds s') ->
  verify s z msg st = Ok ((b, s1), st1) -> exists s1', verify s' z msg stv = Ok ((b, s1'), stv) /\ prehash_input s1' = prehash_input s1.
Proof.
  intros P C C' VK H. apply verify_inv in H as (v & h & com & i & E1 & E2 & E3 & E4 & E5 & E6 & ->).
  destruct (processed_sim f g s s' _ _ _ _ _ stv E1 P VK) as [-> (s1' & E1' & M)].
  unfold pre_validation in E4. apply rbind_ok in E4 as (u & EV & E4). destruct u. apply rbind_ok in E4 as ([d|] & EC & E4); [|discriminate].
  assert (R : vready v) by (eapply consistent_ready; [eapply processed_match; exact E1|exact EC]).
  destruct (MSim_ready f g v s1 s1' M R) as (S & V1 & V2). exists s1'. split; [|now rewrite <- (Sim_prehash f g s1 s1' S)].
  apply (verify_run s' z msg stv v s1' stv h com i); auto.
  - now rewrite <- (Sim_prehash f g s1 s1' S).
  - unfold pre_validation. rewrite <- (Sim_validate f g s1 s1' S), EV. cbn [rbind].
    assert (Q := consistent_rel f g (env st) (env stv) (secrets s) (secrets s') s1 C C' s1' (n_resp z) [] [] S
      (processed_secrets _ _ _ _ _ _ E1 R) (processed_secrets _ _ _ _ _ _ E1' R) ltac:(constructor)).
    rewrite <- V1, EC, <- V2 in Q. destruct (consistent (env stv) s1' v (n_resp z) []) as [[d'|]|]; try contradiction. reflexivity.
  - now rewrite <- (Sim_recompute f g s1 s1' _ _ S).
Qed.

(** ** The renaming function *)
Definition back (f : bytes -> bytes) (l : list bytes) (n : bytes) : bytes :=
  match find (fun m => bytes_eqb (f m) n) l with Some m => m | None => n end.
Lemma back_ok f l n : inj f -> In n l -> back f l (f n) = n.
Proof.
  intros I H. unfold back. destruct (find _ l) as [m|] eqn:E.
  - apply find_some in E as [_ E]. apply bytes_eqb_eq in E. now apply I.
  - assert (X := find_none _ _ E n H). simpl in X. rewrite (proj2 (bytes_eqb_eq _ _) eq_refl) in X. discriminate.
Qed.
Lemma rsec_ren f j L x : inj f -> In x L -> ren f (back f (map sname L)) x (rsec f j x).
Proof. intros I H. split; [reflexivity|]. simpl. rewrite back_ok; auto. now apply in_map. Qed.
Lemma rsecs_ren f j L ss : inj f -> incl ss L -> Forall2 (ren f (back f (map sname L))) ss (map (rsec f j) ss).
Proof.
  intros I. induction ss as [|x ss IH]; intros H; simpl; constructor.
  - apply rsec_ren; auto. apply H. now left.
  - apply IH. intros y Hy. apply H. now right.
Qed.
Lemma rkind_ren f j L k : inj f -> incl (kuser k ++ kint k) L -> KSim f (back f (map sname L)) k (rkind f j k).
Proof.
  intros I H. destruct k as [H0 g H1 h x al be bnd|com g h n isp x r rs|pk sig bs sv r1 r2 d1 d2|cls rows]; simpl in *.
  - constructor; apply rsec_ren; auto; apply H; simpl; auto.
  - constructor. apply rsecs_ren; auto. intros y Hy. apply H. simpl. auto.
  - constructor; [apply rsecs_ren; auto; intros y Hy; apply H, in_or_app; auto|..];
      apply rsec_ren; auto; apply H, in_or_app; simpl; auto 6.
  - constructor. rewrite app_nil_r in H. induction rows as [|row rows IH]; simpl; constructor.
    + simpl. split; auto. simpl in H. assert (I1 : incl (map fst (snd row)) L) by (intros y Hy; apply H, in_or_app; now left).
      clear -I I1. induction (snd row) as [|t ts IHt]; simpl; constructor.
      * simpl. split; auto. apply rsec_ren; auto. apply I1. now left.
      * apply IHt. intros y Hy. apply I1. now right.
    + apply IH. intros y Hy. apply H, in_or_app. now right.
Qed.
Lemma rename_Pat f j L s : inj f -> incl (secrets s) L -> Pat f (back f (map sname L)) s (rename f j s).
Proof.
  intros I. induction s as [d|subs b IH|subs b ch IH|k b q|k b q con IH] using stmt_ind'; intros H; simpl in *.
  - constructor; auto. simpl. now apply rsecs_ren.
  - constructor. induction subs as [|x l IHl]; simpl; constructor; inversion IH; subst; simpl in H.
    + apply H2. intros y Hy. apply H, in_or_app. now left.
    + apply IHl; auto. intros y Hy. apply H, in_or_app. now right.
  - constructor. induction subs as [|x l IHl]; simpl; constructor; inversion IH; subst; simpl in H.
    + apply H2. intros y Hy. apply H, in_or_app. now left.
    + apply IHl; auto. intros y Hy. apply H, in_or_app. now right.
  - constructor. now apply rkind_ren.
  - constructor. now apply rkind_ren.
Qed.
Lemma ren_sym f g x y : ren f g x y -> ren g f y x. Proof. intros [A B]. split; auto. Qed.
Lemma F2ren_sym f g l l' : Forall2 (ren f g) l l' -> Forall2 (ren g f) l' l.
Proof. induction 1; constructor; auto. now apply ren_sym. Qed.
Lemma KSim_sym f g k k' : KSim f g k k' -> KSim g f k' k.
Proof.
  intros H. destruct H as [? ? ? ? ? ? ? ? ? ? ? A B C|? ? ? ? ? ? ? ? ? ? ? ? F|? ? ? ? ? ? ? ? ? ? ? ? ? ? F A B C D|? rows rows' F].
  - constructor; now apply ren_sym.
  - constructor. now apply F2ren_sym.
  - constructor; try (now apply ren_sym). now apply F2ren_sym.
  - constructor. induction F as [|a b l m [E1 E2] F IH]; constructor; auto. split; [auto|].
    clear -E2. induction E2 as [|t u l m [R E] F IH]; constructor; auto. split; [now apply ren_sym|auto].
Qed.
Lemma Pat_sym f g s : forall s', Pat f g s s' -> Pat g f s' s.
Proof.
  induction s as [d|subs b IH|subs b ch IH|k b q|k b q con IH] using stmt_ind'; intros s' H; inversion H; subst.
  - constructor; auto. now apply F2ren_sym.
  - constructor. clear H. match goal with X : Forall2 _ _ _ |- _ => induction X end; constructor; inversion IH; subst; auto.
  - constructor. clear H. match goal with X : Forall2 _ _ _ |- _ => induction X end; constructor; inversion IH; subst; auto.
  - constructor. now apply KSim_sym.
  - constructor. now apply KSim_sym.
Qed.
Lemma renamed_same f j s z msg st stv b : inj f -> let s' := rename f j s in
  coh (env st) (secrets s) -> coh (env stv) (secrets s') -> Forall (vkOK (env st)) (kinds s) -> Forall (vkOK (env stv)) (kinds s') ->
  ((exists s1 st1, verify s z msg st = Ok ((b, s1), st1)) <-> (exists s1 st1, verify s' z msg stv = Ok ((b, s1), st1))).
Proof.
  intros I s' C C' V V'. assert (P := rename_Pat f j (secrets s) s I (incl_refl _)). split; intros (s1 & st1 & H).
  - destruct (renamed_verify _ _ _ _ _ _ _ _ _ _ _ P C C' V' H) as (s2 & E & _). eauto.
  - destruct (renamed_verify _ _ _ _ _ _ _ _ _ _ _ (Pat_sym _ _ _ _ P) C' C V H) as (s2 & E & _). eauto.
Qed.

Fixpoint alls (s : stmt) : list secret :=
  match s with
  | SDL d => dl_secs d
  | SAnd subs _ | SOr subs _ _ => List.concat (map alls subs)
  | SExt k _ _ c => (kuser k ++ kint k) ++ match c with Some c => alls c | None => [] end
  end.
Lemma id_built s : forall m i, get_proof_id s m = Ok i -> built s.
Proof.
  induction s as [d|subs b IH|subs b ch IH|k b q|k b q con IH] using stmt_ind'; intros m i H.
  - constructor.
  - constructor. cbn [get_proof_id] in H. apply rbind_ok in H as (ss & _ & H). apply rbind_ok in H as (bs & _ & H). apply rbind_ok in H as (l & H & _).
    apply rmap_ok in H. clear -IH H. induction H; constructor; inversion IH; subst; eauto.
  - constructor. cbn [get_proof_id] in H. apply rbind_ok in H as (ss & _ & H). apply rbind_ok in H as (bs & _ & H). apply rbind_ok in H as (l & H & _).
    apply rmap_ok in H. clear -IH H. induction H; constructor; inversion IH; subst; eauto.
  - discriminate H.
  - cbn [get_proof_id] in H. apply rbind_ok in H as (j & H & _). constructor. eauto.
Qed.
Lemma rename_Sim f j L s : inj f -> built s -> incl (alls s) L -> Sim f (back f (map sname L)) s (rename f j s).
Proof.
  intros I. induction s as [d|subs b IH|subs b ch IH|k b q|k b q con IH] using stmt_ind'; intros B H; inversion B; subst; simpl in *.
  - constructor; auto. simpl. now apply rsecs_ren.
  - constructor. clear B. induction subs as [|x l IHl]; simpl; constructor; inversion IH; inversion H1; subst; simpl in H.
    + apply H3; auto. intros y Hy. apply H, in_or_app. now left.
    + apply IHl; auto. intros y Hy. apply H, in_or_app. now right.
  - constructor. clear B. induction subs as [|x l IHl]; simpl; constructor; inversion IH; inversion H1; subst; simpl in H.
    + apply H3; auto. intros y Hy. apply H, in_or_app. now left.
    + apply IHl; auto. intros y Hy. apply H, in_or_app. now right.
  - constructor; [apply rkind_ren; auto|apply IH; auto]; intros y Hy; apply H, in_or_app; auto.
Qed.
Lemma renamed_id f j s h : inj f -> prehash_input s = Ok h -> prehash_input (rename f j s) = Ok h.
Proof.
  intros I H. assert (B : built s).
  { unfold prehash_input in H. apply rbind_ok in H as (i & H & _). eapply id_built; eauto. }
  rewrite <- (Sim_prehash _ _ _ _ (rename_Sim f j (alls s) s I B (incl_refl _))). exact H.
Qed.
End I.

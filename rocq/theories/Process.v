(** Verifier side: processing precommitments, checking an honestly made transcript. *)
From Coq Require Import String.
From Verif Require Import Base World Val Expr Utils Stmt Prove Verify Spec Shapes Lib DictProofs Keeps Tree Sigma
  Validate Commit ArithProofs Build.
Open Scope Z_scope.
Open Scope list_scope.

Section P.
Context {W : World}.

Lemma kinds_sub x subs : In x subs -> incl (kinds x) (List.concat (map kinds subs)).
Proof. intros H k Hk. apply in_concat. exists (kinds x). split; auto. now apply in_map. Qed.

Lemma map_ext_Forall {A B} (f g : A -> B) l : Forall (fun a => f a = g a) l -> map f l = map g l.
Proof. induction 1; simpl; congruence. Qed.
Lemma kinds_pstrip s : kinds (pstrip s) = kinds s.
Proof.
  induction s as [d|subs b IH|subs b ch IH|k b q|k b q con IH] using stmt_ind'; simpl; auto.
  - rewrite map_map. f_equal. now apply map_ext_Forall.
  - rewrite map_map. f_equal. now apply map_ext_Forall.
Qed.
Lemma pstrip_idem s : pstrip (pstrip s) = pstrip s.
Proof.
  induction s as [d|subs b IH|subs b ch IH|k b q|k b q con IH] using stmt_ind'; simpl; auto.
  - rewrite map_map. f_equal. now apply map_ext_Forall.
  - rewrite map_map. f_equal. now apply map_ext_Forall.
Qed.
Lemma Pat_pstrip f g s : forall s', Pat f g (pstrip s) s' <-> Pat f g s s'.
Proof.
  induction s as [d|subs b IH|subs b ch IH|k b q|k b q con IH] using stmt_ind'; intros s'; simpl.
  - split; intros H; inversion H; subst; constructor; auto.
  - split; intros H; inversion H; subst; constructor.
    + nameF. rewrite Forall2_map_l in HF. eapply Forall2_Forall_l; eauto. simpl. intros a a' X. apply X.
    + rewrite Forall2_map_l. eapply Forall2_Forall_l; eauto. simpl. intros a a' X. apply X.
  - split; intros H; inversion H; subst; constructor.
    + nameF. rewrite Forall2_map_l in HF. eapply Forall2_Forall_l; eauto. simpl. intros a a' X. apply X.
    + rewrite Forall2_map_l. eapply Forall2_Forall_l; eauto. simpl. intros a a' X. apply X.
  - split; intros H; inversion H; subst; constructor; auto.
  - split; intros H; inversion H; subst; constructor; auto.
Qed.
Lemma Pat_same f g a b s : pstrip a = pstrip b -> Pat f g a s -> Pat f g b s.
Proof. intros E H. apply Pat_pstrip. rewrite <- E. now apply Pat_pstrip. Qed.
Lemma noext_strip s : noext s -> strip s = pstrip s.
Proof.
  induction s as [d|subs b IH|subs b ch IH|k b q|k b q con IH] using stmt_ind'; intros H;
    inversion H; subst; simpl; auto; f_equal; apply map_ext_Forall; rewrite Forall_forall in *; auto.
Qed.
Lemma noext_pstrip s : noext (pstrip s) <-> noext s.
Proof.
  induction s as [d|subs b IH|subs b ch IH|k b q|k b q con IH] using stmt_ind'; simpl.
  - split; constructor.
  - split; intros H; inversion H; subst; constructor; rewrite Forall_forall in *.
    + intros x Hx. apply IH; auto. apply H1. now apply in_map.
    + intros x Hx. apply in_map_iff in Hx as (y & <- & Hy). apply IH; auto.
  - split; intros H; inversion H; subst; constructor; rewrite Forall_forall in *.
    + intros x Hx. apply IH; auto. apply H1. now apply in_map.
    + intros x Hx. apply in_map_iff in Hx as (y & <- & Hy). apply IH; auto.
  - split; intros H; inversion H.
  - split; intros H; inversion H.
Qed.

(** The inner statements are those made from the precommitments. *)
Inductive ConOK : stmt -> Prop :=
| COK_DL d : ConOK (SDL d)
| COK_And subs b : Forall ConOK subs -> ConOK (SAnd subs b)
| COK_Or subs b c : Forall ConOK subs -> ConOK (SOr subs b c)
| COK_Ext k b pre con st c st' : construct k pre st = Ok (c, st') -> strip con = strip c ->
    ConOK (SExt k b pre (Some con)).
Lemma noext_ConOK s : noext s -> ConOK s.
Proof.
  induction s as [d|subs b IH|subs b ch IH|k b q|k b q con IH] using stmt_ind'; intros H;
    inversion H; subst; constructor; rewrite Forall_forall in *; auto.
Qed.

Lemma pp_loop_ok (f : stmt -> verifier -> val -> M (verifier * stmt)) R pre l : forall i ps svs st,
  (forall j p, nth_error ps j = Some p -> index pre (i + j) = Ok p) ->
  Forall3 (fun (s : stmt) sv p => exists sv', f sv (get_verifier sv) p st = Ok ((fverifier sv', sv'), st) /\ R s sv') l svs ps ->
  exists svs', pp_loop f pre i svs (map get_verifier svs) st = Ok (map (fun s => (fverifier s, s)) svs', st) /\
    Forall2 R l svs'.
Proof.
  intros i ps svs st HI H. revert i HI. induction H as [|s sv p l svs ps (sv' & E & HR) H IH]; intros i HI.
  - exists []. split; auto.
  - destruct (IH (S i)) as (svs' & E' & F).
    { intros j p' N. specialize (HI (S j) p' N). now replace (S i + j)%nat with (i + S j)%nat by lia. }
    exists (sv' :: svs'). split; [|constructor; auto].
    simpl. unfold bind at 1. specialize (HI 0%nat p eq_refl). rewrite Nat.add_0_r in HI. rewrite HI. simpl lift.
    unfold lift. unfold bind at 1. rewrite E. unfold bind. rewrite E'. reflexivity.
Qed.

Lemma process_ok f g s : forall sv pre st,
  PreRel s pre -> ConOK s -> Pat f g s sv -> Forall (vkOK (env st)) (kinds sv) ->
  exists sv', process_pre sv (get_verifier sv) pre st = Ok ((fverifier sv', sv'), st) /\ Sim f g s sv'.
Proof.
  assert (G : forall subs svs ps st,
    Forall (fun s0 => forall sv pre st, PreRel s0 pre -> ConOK s0 -> Pat f g s0 sv -> Forall (vkOK (env st)) (kinds sv) ->
      exists sv', process_pre sv (get_verifier sv) pre st = Ok ((fverifier sv', sv'), st) /\ Sim f g s0 sv') subs ->
    Forall2 PreRel subs ps -> Forall ConOK subs -> Forall2 (Pat f g) subs svs ->
    Forall (vkOK (env st)) (List.concat (map kinds svs)) ->
    Forall3 (fun s sv p => exists sv', process_pre sv (get_verifier sv) p st = Ok ((fverifier sv', sv'), st) /\ Sim f g s sv') subs svs ps).
  { clear s. intros subs svs ps st IH HP. revert svs. induction HP as [|s p subs ps Hp HP IHP]; intros svs HC HF HV.
    - inversion HF. constructor.
    - inversion HF as [|? sv ? svs' P F]; inversion IH as [|? ? I1 I2]; inversion HC as [|? ? C1 C2]; subst.
      simpl in HV. apply Forall_app in HV as [V1 V2]. constructor; auto. }
  induction s as [d|subs b IH|subs b ch IH|k b q|k b q con IH] using stmt_ind';
    intros sv pre st HP HC HPat HV.
  - inversion HPat; inversion HP; subst. exists (SDL d'). split; [reflexivity|constructor; auto].
  - inversion HPat; subst. inversion HP; subst.
    + destruct (Pat_noext_Sim f g (SAnd subs b) (SAnd l' b')) as [S N]; [constructor; auto|auto|].
      exists (SAnd l' b'). split; [|exact S]. rewrite (noext_verifier _ N). reflexivity.
    + simpl get_verifier. rewrite process_pre_and. inversion HC; subst.
      edestruct (pp_loop_ok process_pre (Sim f g) (VList ps) subs 0 ps l' st) as (svs' & E & F).
      { intros j p N. now apply index_list. }
      { apply G; auto. }
      exists (SAnd svs' b'). split; [|constructor; auto]. cbn [is_none]. unfold bind. rewrite E.
      simpl. rewrite !map_map. simpl. rewrite map_id. reflexivity.
  - inversion HPat; subst. inversion HP; subst.
    + destruct (Pat_noext_Sim f g (SOr subs b ch) (SOr l' b' c')) as [S N]; [constructor; auto|auto|].
      exists (SOr l' b' c'). split; [|exact S]. rewrite (noext_verifier _ N). reflexivity.
    + simpl get_verifier. rewrite process_pre_or. inversion HC; subst.
      edestruct (pp_loop_ok process_pre (Sim f g) (VList ps) subs 0 ps l' st) as (svs' & E & F).
      { intros j p N. now apply index_list. }
      { apply G; auto. }
      exists (SOr svs' b' c'). split; [|constructor; auto]. cbn [is_none]. unfold bind. rewrite E.
      simpl. rewrite !map_map. simpl. rewrite map_id. reflexivity.
  - inversion HP.
  - inversion HP; subst. inversion HC; subst. inversion HPat; subst.
    simpl in HV. inversion HV; subst.
    match goal with X : construct _ _ _ = _ |- _ => rename X into EC end.
    destruct (construct_sim f g _ _ _ _ _ _ st ltac:(eassumption) EC ltac:(assumption)) as (c1 & E1 & S1).
    assert (N1 : noext c1) by (apply construct_leafy in E1 as [_ E1]; eapply leafy_noext; eauto).
    exists (SExt k' b' pre (Some c1)). split.
    + simpl. unfold bind. rewrite E1. unfold ret. rewrite (noext_verifier _ N1). reflexivity.
    + constructor; auto. eapply Sim_same; [|eassumption]. auto.
Qed.

Lemma PreRel_none s : PreRel s VNone -> noext s.
Proof. intros H. inversion H; subst; try constructor; auto. congruence. Qed.

(** What the verifier needs to accept: see [accept_ok]. *)
Lemma pre_validation_ok e f g R s sv r : Sim f g s sv -> full_validate s = Ok tt -> Cons R s r ->
  pre_validation e sv (fverifier sv) r = Ok tt.
Proof.
  intros S V C. unfold pre_validation. rewrite <- (Sim_validate f g s sv S), V. cbn [rbind].
  apply (Sim_Cons f g _ _ _ _ S) in C.
  destruct (consistent_ok e sv _ _ [] C) as (rd & E & _); [intros k x []|]. now rewrite E.
Qed.

Lemma accept_nizk f g s sv pre c r com R st h msg :
  PreRel s pre -> ConOK s -> Pat f g s sv -> Forall (vkOK (env st)) (kinds sv) ->
  full_validate s = Ok tt -> Cons R s r -> recompute s c r = Ok com ->
  prehash_input s = Ok h -> fs_challenge h [pre; com] msg = Ok c ->
  exists sv', verify sv (mkNizk c r pre (VBytes (sha256 h))) msg st = Ok ((true, sv'), st).
Proof.
  intros HP HC HPat HV V C HR Hh Hc.
  destruct (process_ok f g s sv pre st HP HC HPat HV) as (sv' & E & S).
  exists sv'. unfold verify, verify_nizk. cbn [n_pre n_hash n_chal n_resp].
  assert (E0 : (if is_none pre then ret (get_verifier sv, sv) else process_pre sv (get_verifier sv) pre) st =
     Ok ((fverifier sv', sv'), st)).
  { destruct (is_none pre) eqn:EN; [|exact E]. destruct pre; try discriminate EN.
    assert (N := PreRel_none s HP). destruct (Pat_noext_Sim f g s sv N HPat) as [S0 N0].
    destruct sv; simpl in E; inversion HPat; subst; inversion N0; subst; simpl in *; unfold ret in *; congruence. }
  unfold bind at 1. rewrite E0. unfold check_statement.
  rewrite <- (Sim_prehash f g s sv' S), Hh. cbn [rbind]. rewrite val_eqb_refl.
  rewrite bind_lift_ok. unfold bind at 1, get_env.
  rewrite (pre_validation_ok _ f g R s sv' r S V C). rewrite bind_lift_ok.
  rewrite <- (Sim_recompute f g s sv' _ _ S), HR, bind_lift_ok, Hc, bind_lift_ok.
  rewrite Z.eqb_refl. reflexivity.
Qed.

Lemma accept_resp f g s sv' e c r com R :
  Sim f g s sv' -> full_validate s = Ok tt -> Cons R s r -> recompute s c r = Ok com ->
  verify_resp e sv' (fverifier sv') com c r = Ok true.
Proof.
  intros S V C HR. unfold verify_resp. rewrite (pre_validation_ok _ f g R s sv' r S V C). cbn [rbind].
  rewrite <- (Sim_recompute f g s sv' _ _ S), HR. cbn [rbind]. now rewrite val_eqb_refl.
Qed.
End P.

(** Completeness together with success; whole runs of the interactive protocol. *)
From Coq Require Import String.
From Verif Require Import Base World Val Expr Utils Stmt Prove Verify Spec Shapes Claims Lib Lin DictProofs Keeps Tree Sigma
  Validate Commit ArithProofs Build Process Ktruth Provers Honest Complete Clauses Compose Supply Total Total2 Total3 Total4.
Open Scope Z_scope.
Open Scope list_scope.

Section C.
Context {W : World}.

Lemma noext_nonneutral s : noext s -> nonneutral s.
Proof.
  induction s as [d|subs b IH|subs b ch IH|k b q|k b q con IH] using stmt_ind'; intros H; inversion H; subst; simpl; auto.
  - induction IH; simpl; auto. inversion H1; subst. split; auto. apply IHIH; auto. now constructor.
  - induction IH; simpl; auto. inversion H1; subst. split; auto. apply IHIH; auto. now constructor.
Qed.

Lemma construct_and k pre st c st' : construct k pre st = Ok (c, st') ->
  match k with KCustom _ rows => List.length rows <> 1%nat | _ => True end -> exists l, c = SAnd l false.
Proof.
  destruct k as [H0 g H1 h x al be bnd|com g h n isp x r rs|pk sg bs sv r1 r2 d1 d2|cls rows]; cbn [construct]; intros H R.
  - apply construct_neq_inv in H as (_ & P & _ & _ & _ & ->). eauto.
  - apply construct_range_inv in H as (_ & bits & subs & _ & -> & _). eauto.
  - unfold construct_bbs in H. apply bind_ok in H as (A1 & s1 & _ & H). apply bind_ok in H as (A2 & s2 & _ & H).
    destruct bs as [|g0 [|g1 [|g2 bs]]]; try discriminate. destruct sv as [|e svs]; try discriminate.
    apply bind_ok in H as (? & ? & _ & H). apply bind_ok in H as (? & ? & _ & H). apply bind_ok in H as (? & ? & _ & H).
    destruct (pk_genpairs pk) as [|gp0 [|gp1 [|gp2 gps]]]; try discriminate;
      do 3 (apply bind_ok in H as (? & ? & _ & H)); try discriminate.
    cbv zeta in H. do 2 (apply bind_ok in H as (? & ? & _ & H)). apply lift_ok in H as [H _].
    apply mk_and_ok in H as [-> _]. eauto.
  - apply construct_custom_inv in H as (_ & _ & H). cbv zeta in H.
    destruct rows as [|a [|b rows]]; simpl in *; [destruct H; eauto|now destruct R|destruct H; eauto].
Qed.

Lemma strip_and c l : strip c = SAnd l false -> exists l' b, c = SAnd l' b.
Proof. destruct c as [| | |k b q []]; simpl; try discriminate. eauto. Qed.

Lemma send_total f g s sv' h hb com st : ConOK s -> built s -> Sim f g s sv' -> root_ok s ->
  check_statement sv' h = Ok hb -> exists c st', send_challenge sv' (fverifier sv') h com st = Ok (c, st').
Proof.
  intros HC HB S R CH. unfold send_challenge. rewrite CH, bind_lift_ok.
  assert (G : exists c st', get_random_num challenge_length st = Ok (c, st')) by (unfold get_random_num, draw; simpl; eauto).
  inversion S; subst; simpl fverifier; auto.
  inversion HC; subst. destruct (construct_and _ _ _ _ _ ltac:(eassumption)) as (l & ->).
  { destruct k; auto. }
  match goal with X : strip _ = strip _ |- _ => simpl in X; apply strip_and in X as (l' & b0 & ->) end.
  inversion H0; subst. simpl. exact G.
Qed.

(** The whole interactive protocol between an honest prover and an independent verifier. *)
Lemma run_complete U w s sd ord st f g sv :
  honest U w s sd (env st) -> Shape s -> Supplied sd w (env st) s -> Ords ord s -> Apart s -> root_ok s ->
  Pat f g s sv -> (forall e, Forall (vkOK e) (kinds sv)) ->
  exists p s1 st1 pre p2 s2 st2 i,
    get_prover s sd st = Ok ((Some p, s1), st1) /\ precommit s1 p st1 = Ok ((pre, p2, s2), st2) /\
    get_proof_id s2 None = Ok i /\
    (nonneutral s2 -> ~ Big (VStr (pystr i)) -> exists st3, run_interactive s1 p sv st1 = Ok (true, st3)) /\
    (noext s -> nonneutral s2 /\ get_proof_id s None = Ok i).
Proof.
  intros HH HS SU HO HA HR HP VK.
  destruct (commit_ready U w s sd ord st HH HS SU HO HA)
    as (p & s1 & st1 & pre & p2 & s2 & st2 & com & p3 & st3 & GP & PC & IC & BT & RS).
  destruct (proof_id_total s2 BT) as ((i & EI) & _).
  destruct (honest_ready _ _ _ _ _ _ _ _ _ _ _ _ HH GP PC) as (w' & L & HL & _ & PS & PO & RD).
  exists p, s1, st1, pre, p2, s2, st2, i. repeat split; auto.
  - intros NN NB. destruct (encode (VStr (pystr i))) as [h|] eqn:EH.
    2:{ exfalso. apply NB. eapply encode_big; eauto. }
    assert (DG : stmt_digest s2 = Ok (sha256 h)).
    { unfold stmt_digest, prehash_input. rewrite EI. cbn [rbind]. now rewrite EH. }
    assert (CM : commit s2 p2 st2 = Ok ((VBytes (sha256 h), com, p3), st3)).
    { unfold commit. rewrite DG, bind_lift_ok. unfold bind. rewrite IC. reflexivity. }
    destruct PO as (P1 & P2 & P3 & P4 & P5 & P6 & P7 & P8).
    destruct (process_ok f g s2 sv pre st2) as (sv' & PR & SM); auto.
    { eapply Pat_same; [symmetry; exact PS|]. exact HP. }
    assert (RO : root_ok s2).
    { destruct s, s2; simpl in PS; try discriminate; simpl; auto. injection PS as -> . exact HR. }
    destruct (honest_done w' L s2 pre p2 None st2 com p3 st3 HL (conj P1 (conj P2 (conj P3 (conj P4 (conj P5 (conj P6 (conj P7 P8))))))) RD eq_refl IC) as (K & od & D).
    assert (CH : exists hb, check_statement sv' (VBytes (sha256 h)) = Ok hb).
    { unfold check_statement. rewrite <- (Sim_prehash f g s2 sv' SM). unfold prehash_input. rewrite EI. cbn [rbind].
      rewrite EH. cbn [rbind]. rewrite val_eqb_refl. eauto. }
    destruct CH as (hb & CH).
    destruct (send_total f g s2 sv' _ _ com st3 P4 BT SM RO CH) as (c & st4 & SC).
    destruct (respond_ok _ _ _ _ _ _ D c st4) as (r & CR & RC & CO).
    exists st4. unfold run_interactive. unfold bind at 1. rewrite PC. unfold bind at 1. rewrite PR.
    unfold bind at 1. rewrite CM. unfold bind at 1. rewrite SC. unfold bind at 1. rewrite CR.
    unfold bind at 1, get_env. unfold lift. erewrite accept_resp; eauto. now apply VOK_valid.
  - apply noext_nonneutral. apply noext_pstrip. rewrite PS. now apply noext_pstrip.
  - assert (N2 : noext s2) by (apply noext_pstrip; rewrite PS; now apply noext_pstrip).
    assert (Pat (fun n => n) (fun n => n) s s2 -> get_proof_id s None = Ok i) as G.
    { intros Q. destruct (Pat_noext_Sim _ _ _ _ H Q) as [SM _]. destruct (Sim_proof_id _ _ _ _ SM) as [E _]. congruence. }
    apply G. apply (Pat_same _ _ s2 s); auto. 
    clear -N2. induction s2 as [d|subs b IH|subs b ch IH|k b q|k b q con IH] using stmt_ind'; inversion N2; subst.
    + constructor; auto. induction (dl_secs d); constructor; auto. split; auto.
    + constructor. induction IH; constructor; inversion H0; subst; auto. apply IHIH; auto. now constructor.
    + constructor. induction IH; constructor; inversion H0; subst; auto. apply IHIH; auto. now constructor.
Qed.

(** Every challenge. *)
Lemma challenge_complete U w s sd ord st f g sv :
  honest U w s sd (env st) -> Shape s -> Supplied sd w (env st) s -> Ords ord s -> Apart s ->
  Pat f g s sv ->
  exists p s1 st1 pre p2 s2 st2 com p3 st3,
    get_prover s sd st = Ok ((Some p, s1), st1) /\ precommit s1 p st1 = Ok ((pre, p2, s2), st2) /\
    internal_commit s2 p2 None st2 = Ok ((com, p3), st3) /\
    (nonneutral s2 -> forall stv, Forall (vkOK (env stv)) (kinds sv) ->
       exists v sv', process_pre sv (get_verifier sv) pre stv = Ok ((v, sv'), stv) /\
       forall c e st4, exists r, compute_response s2 p3 c st4 = Ok (r, st4) /\ verify_resp e sv' v com c r = Ok true) /\
    (noext s -> nonneutral s2).
Proof.
  intros HH HS SU HO HA HP.
  destruct (commit_ready U w s sd ord st HH HS SU HO HA)
    as (p & s1 & st1 & pre & p2 & s2 & st2 & com & p3 & st3 & GP & PC & IC & BT & RS).
  destruct (honest_ready _ _ _ _ _ _ _ _ _ _ _ _ HH GP PC) as (w' & L & HL & _ & PS & PO & RD).
  exists p, s1, st1, pre, p2, s2, st2, com, p3, st3. repeat split; auto.
  - intros NN stv VK.
    destruct (honest_done w' L s2 pre p2 None st2 com p3 st3 HL PO RD eq_refl IC) as (K & od & D).
    destruct PO as (P1 & P2 & P3 & P4 & P5 & P6 & P7 & P8).
    destruct (process_ok f g s2 sv pre stv) as (sv' & PR & SM); auto.
    { eapply Pat_same; [symmetry; exact PS|]. exact HP. }
    exists (fverifier sv'), sv'. split; auto. intros c e st5. destruct (respond_ok _ _ _ _ _ _ D c st5) as (r & CR & RC & CO).
    exists r. split; auto. eapply accept_resp; eauto. now apply VOK_valid.
  - intros N. apply noext_nonneutral. apply noext_pstrip. rewrite PS. now apply noext_pstrip.
Qed.

(** Non-interactive: success and acceptance. *)
Lemma nizk_complete U w s sd ord msg st :
  honest U w s sd (env st) -> Shape s -> Supplied sd w (env st) s -> Ords ord s -> Apart s ->
  (exists z s' st', prove s sd msg st = Ok ((z, s'), st') /\
     (nonneutral s' -> forall f g sv stv, Pat f g s sv -> Forall (vkOK (env stv)) (kinds sv) ->
      exists sv', verify sv z msg stv = Ok ((true, sv'), stv))) \/
  exists p s1 st1 pre p2 s2 st2 com p3 st3 i,
    get_prover s sd st = Ok ((Some p, s1), st1) /\ precommit s1 p st1 = Ok ((pre, p2, s2), st2) /\
    internal_commit s2 p2 None st2 = Ok ((com, p3), st3) /\ get_proof_id s2 None = Ok i /\
    (Big (VStr (pystr i)) \/ Big pre \/ Big com).
Proof.
  intros HH HS SU HO HA. destruct (prove_total U w s sd ord msg st HH HS SU HO HA) as [(z & s' & st' & E)|H]; auto.
  left. exists z, s', st'. split; auto. intros NN f g sv stv HP VK. eapply prove_complete; eauto.
Qed.

(** Simulation succeeds. *)
Lemma simulate_succeeds U s c st : Sok U s -> wfL (U ++ kints s) -> NoDup (map sid (kints s)) ->
  (forall x y, In x (kints s) -> In y U -> sid x <> sid y) -> Shape s -> Forall notcustom (kinds s) ->
  Forall (vkOK (env st)) (kinds s) ->
  exists s1 i, (exists st1, prepare_sim (set_simulated true s) st = Ok (s1, st1)) /\ get_proof_id s1 None = Ok i /\
   (Big (VStr (pystr i)) \/ exists t h st', simulate s c st = Ok ((t, h, s1), st')).
Proof.
  intros HS HL HN HD SH NC VK.
  assert (PE := set_simulated_pstrip true s).
  assert (SW : Swf U (U ++ kints s) (set_simulated true s)).
  { eapply Swf_same; [symmetry; exact PE|]. apply Sok_Swf; auto. apply incl_appr, incl_refl. }
  assert (KE : kinds (set_simulated true s) = kinds s) by (now apply kinds_same).
  destruct (prepare_total (set_simulated true s) st) as (s1 & st1 & E1 & EE & T1); rewrite ?KE; auto.
  { apply Shape_pstrip. rewrite PE. now apply Shape_pstrip. }
  destruct (prepare_ok _ _ _ _ _ _ SW ltac:(apply incl_appl, incl_refl) E1) as [PP PS].
  destruct PP as (P1 & P2 & P3 & P4 & P5 & P6 & P7).
  destruct (simulate_total s1 None c st1) as (t & st2 & E2); auto.
  { rewrite EE. apply wfL_coh. eapply wfL_incl; eauto. }
  { discriminate. }
  destruct (proof_id_total s1 P2) as ((i & EI) & _).
  exists s1, i. split; [eauto|]. split; auto.
  destruct (encode (VStr (pystr i))) as [h|] eqn:EH.
  2:{ left. eapply encode_big; eauto. }
  right. exists t, (VBytes (sha256 h)), st2. unfold simulate. cbv zeta. unfold bind at 1. rewrite E1.
  unfold bind at 1. rewrite E2. unfold stmt_digest, prehash_input. rewrite EI. cbn [rbind]. rewrite EH. reflexivity.
Qed.

Lemma tree_complete U w s sd ord st f g sv i :
  noext s -> honest U w s sd (env st) -> Shape s -> Supplied sd w (env st) s -> Ords ord s -> Apart s ->
  Pat f g s sv -> get_proof_id s None = Ok i -> ~ Big (VStr (pystr i)) ->
  exists p s1 st1 st2, get_prover s sd st = Ok ((Some p, s1), st1) /\
    run_interactive s1 p sv st1 = Ok (true, st2).
Proof.
  intros N HH HS SU HO HA HP EI NB.
  destruct (run_complete U w s sd ord st f g sv HH HS SU HO HA) as (p & s1 & st1 & pre & p2 & s2 & st2 & j & GP & PC & E & R & Q); auto.
  { destruct N; exact I. }
  { intros e. destruct (Pat_noext_Sim f g s sv N HP) as [_ N']. rewrite (noext_kinds _ N'). constructor. }
  destruct (Q N) as [NN EJ]. assert (i = j) by congruence. subst j.
  destruct (R NN NB) as (st3 & E3). exists p, s1, st1, st3. auto.
Qed.

Lemma dlrep_complete U w d sd st f g d' :
  honest U w (SDL d) sd (env st) -> dl_shape d ->
  (forall x, In x (dl_secs d) -> known (dl_vals d) x \/ known sd x) ->
  Pat f g (SDL d) (SDL d') ->
  exists p d1 st1 com p1 st2,
    get_prover (SDL d) sd st = Ok ((Some p, SDL d1), st1) /\
    internal_commit (SDL d1) p None st1 = Ok ((com, p1), st2) /\
    forall c e st3, exists r, compute_response (SDL d1) p1 c st3 = Ok (r, st3) /\
      verify_resp e (SDL d') (get_verifier (SDL d')) com c r = Ok true.
Proof.
  intros HH HS SU HP.
  destruct (get_prover_total U U U [] w (SDL d) sd st) as (p & s1 & st1 & GP & _).
  { now constructor. }
  { destruct HH as [O _ _ _ _ _ _ _]. inversion O; subst. now constructor. }
  { destruct HH as [_ _ _ _ _ V _ _]. now apply (Vals_Keys U w). }
  { apply incl_refl. }
  { destruct HH as [_ V _ _ _ _ _ _]. unfold kints in V. simpl in V. now rewrite app_nil_r in V. }
  { apply HH. }
  { apply incl_refl. }
  { intros x []. }
  { intros k []. }
  { intros k []. }
  { intros x v []. }
  { now constructor. }
  assert (PS := get_prover_pstrip _ _ _ _ _ _ GP).
  destruct s1 as [d1| | |]; try discriminate PS.
  assert (exists p2, precommit (SDL d1) p st1 = Ok ((VNone, p2, SDL d1), st1) /\ p2 = p) as (p2 & PC & ->).
  { cbn [get_prover] in GP. apply bind_ok in GP as (r & s2 & E & GP). apply ret_ok in GP as [GP ->]. injection GP as GP _.
    unfold get_prover_dl in E. apply bind_ok in E as (e & s3 & _ & E). cbv zeta in E.
    destruct (_ || _) in E; apply ret_ok in E as [<- ->]; simpl in GP; [discriminate|]. injection GP as <-.
    exists (PDL None). split; reflexivity. }
  assert (BT := honest_ready _ _ _ _ _ _ _ _ _ _ _ _ HH GP PC). destruct BT as (w' & L & HL & _ & _ & PO & RD).
  destruct (commit_total w' (SDL d1) p None st1) as (com & p3 & st3 & IC); auto.
  { apply RD. right. cbn [precommit] in PC. destruct p; try discriminate. constructor. }
  { apply PO. }
  { apply PO. }
  { apply wfL_coh. eapply wfL_incl; [|exact HL]. apply PO. }
  { constructor. }
  { discriminate. }
  exists p, d1, st1, com, p3, st3. repeat split; auto. intros c e st5.
  destruct (honest_done w' L (SDL d1) VNone p None st1 com p3 st3 HL PO RD eq_refl IC) as (K & od & D).
  destruct (respond_ok _ _ _ _ _ _ D c st5) as (r & CR & RC & CO).
  exists r. split; auto. change (get_verifier (SDL d')) with (fverifier (SDL d')). eapply (accept_resp f g (SDL d1)); eauto.
  apply (Pat_noext_Sim f g (SDL d1) (SDL d')); [constructor|]. eapply Pat_same; [symmetry; exact PS|exact HP].
Qed.
End C.

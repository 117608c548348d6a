(** Primitives defined by users. *)
From Coq Require Import String Znumtheory.
From Verif Require Import Base World Val Expr Utils Stmt Prove Verify Spec Shapes Claims Honest Clauses Supply Extract Lib DictProofs Keeps Sigma Tree Process
  Provers Commit Total4 Complete Complete2 Checks2 IdProofs3 History AnswerProofs Sound4 WiProofs Custom.
Open Scope Z_scope.
Open Scope list_scope.

Section C.
Context {W : World}.

(** ** The inner loop does nothing to statements without primitives *)
Lemma pre_same s p : pfit s p -> forall a, exists v, precommit s p a = Ok ((v, p, s), a).
Proof.
  revert s p. apply (pfit_ind' (fun s p => forall a, exists v, precommit s p a = Ok ((v, p, s), a))).
  - intros d k a. exists VNone. reflexivity.
  - intros subs b ps F a. cbn [precommit]. unfold bind.
    assert (G : exists l, zipM precommit subs ps a = Ok (l, a) /\ map (fun r => snd (fst r)) l = ps /\ map snd l = subs).
    { clear b. induction F as [|x p subs ps [_ H] F (l & E & A & B)]; [exists []; auto|].
      destruct (H a) as [v E1]. exists ((v, p, x) :: l). cbn [zipM]. unfold bind. rewrite E1, E. cbn [map fst snd]. rewrite A, B. auto. }
    destruct G as (l & -> & -> & ->). unfold ret. eauto.
  - intros subs b c i x sp sims N _ H a. rewrite precommit_or. unfold bind.
    assert (G : exists v, or_pre_loop (fun x => precommit x sp) i subs a = Ok ((v, sp, subs), a)).
    { revert i N. induction subs as [|y subs IH]; intros [|i] N; try discriminate N; cbn [or_pre_loop]; unfold bind.
      - injection N as ->. destruct (H a) as [v ->]. exists v. reflexivity.
      - destruct (IH i N) as [v E]. unfold or_pre_loop in E |- *. rewrite E. exists v. reflexivity. }
    destruct G as [v ->]. unfold ret. eauto.
Qed.
Lemma inner_same c q a : (forall p, q = Some p -> pfit c p) -> inner_precommit c q a = Ok ((q, c), a).
Proof.
  intros H. destruct c as [d|subs b|subs b ch|k b q0 con], q as [p|]; try reflexivity. destruct p as [k|ps|i sp sims|sv con]; try reflexivity.
  cbn [inner_precommit]. specialize (H _ eq_refl). inversion H as [|s0 b0 ps0 F|]; subst.
  assert (G : inner_loop subs ps a = Ok (ps, subs, a)); [|rewrite G; reflexivity].
  clear H. induction F as [|x p subs ps P F IH]; [reflexivity|]. cbn [inner_loop]. destruct (pre_same x p P a) as [v ->]. rewrite IH. reflexivity.
Qed.

(** ** The primitives of the library *)
Theorem link_prove k b q con sd msg a :
  cprove (class_of k) sd msg a = match prove (SExt k b q con) sd msg a with Ok ((z, _), a') => Ok (z, a') | Err e => Err e end.
Proof.
  unfold cprove, copen, prove, get_nizk_proof. cbn [get_prover class_of c_pre c_con]. unfold bind. unfold update_secret_values, get_env, ret.
  cbn [precommit]. unfold bind, ret.
  destruct (kprecommit k _) as [[pre a1]|]; [|reflexivity].
  destruct (construct k pre a1) as [[c a2]|] eqn:C; [|reflexivity].
  destruct (get_prover c _ a2) as [[[o c'] a3]|] eqn:G; [|reflexivity]. cbn [fst snd].
  rewrite inner_same.
  2:{ intros p ->. apply construct_noext in C. exact (get_prover_fit c C _ _ _ _ G p eq_refl). }
  destruct o as [p|]; cbn [ccommit internal_commit fst snd]; [|reflexivity]. unfold bind, ret.
  destruct (internal_commit c' p None a3) as [[[com p3] a4]|]; [|reflexivity]. cbn [fst snd].
  unfold cprehash, prehash_input. cbn [get_proof_id class_of c_name]. unfold lift.
  destruct (get_proof_id c' None) as [i|]; cbn [rbind]; [|reflexivity].
  destruct (encode _) as [h|]; [|reflexivity]. destruct (fs_challenge _ _ _) as [ch|]; [|reflexivity].
  unfold ret. cbn [compute_response]. destruct (compute_response c' p3 ch a4) as [[r a5]|]; reflexivity.
Qed.
Theorem link_verify k b q z msg a :
  cverify (class_of k) z msg a = match verify (SExt k b q None) z msg a with Ok ((r, _), a') => Ok (r, a') | Err e => Err e end.
Proof.
  unfold cverify, verify, verify_nizk. cbn [get_verifier]. destruct (is_none (n_pre z)); [reflexivity|].
  cbn [process_pre class_of c_con]. unfold bind, lift, get_env. destruct (construct k (n_pre z) a) as [[c a1]|]; [|reflexivity]. unfold ret.
  unfold ccheck, cprehash, check_statement, prehash_input. cbn [get_proof_id class_of c_name].
  destruct (get_proof_id c None) as [i|]; cbn [rbind]; [|reflexivity]. destruct (encode _) as [h|]; cbn [rbind]; [|reflexivity].
  destruct (val_eqb _ _); [|reflexivity]. unfold cpre_validation, pre_validation. cbn [full_validate consistent class_of c_val].
  destruct (kvalidate k (n_pre z)); cbn [rbind]; [|reflexivity]. destruct (consistent _ c _ _ _) as [[rd|]|]; cbn [rbind]; try reflexivity.
  cbn [recompute]. destruct (recompute c _ _); [|reflexivity]. destruct (fs_challenge _ _ _); reflexivity.
Qed.
Theorem link_simulate k b q con ch a :
  csimulate (class_of k) ch a = match simulate (SExt k b q con) ch a with Ok ((t, h, _), a') => Ok ((t, h), a') | Err e => Err e end.
Proof.
  unfold csimulate, simulate. cbn [set_simulated prepare_sim class_of c_sim c_con]. unfold full_construct, bind, lift, ret.
  destruct (ksim_precommit k a) as [[pre a1]|]; [|reflexivity]. destruct (construct k pre a1) as [[c a2]|]; [|reflexivity].
  cbn [simulate_proof]. unfold bind, ret. destruct (simulate_proof c None ch a2) as [[t a3]|]; [|reflexivity].
  unfold stmt_digest, cprehash, prehash_input. cbn [get_proof_id c_name]. destruct (get_proof_id c None) as [i|]; cbn [rbind]; [|reflexivity].
  destruct (encode _); reflexivity.
Qed.

(** ** Completeness *)
Lemma noext_precommit c p a v p2 c2 a2 : noext c -> pfit c p -> precommit c p a = Ok ((v, p2, c2), a2) -> p2 = p /\ c2 = c /\ a2 = a.
Proof. intros N F E. destruct (pre_same c p F a) as [v' E']. rewrite E in E'. injection E' as -> -> -> ->. auto. Qed.
Lemma noext_fverifier s : noext s -> fverifier s = get_verifier s.
Proof.
  induction s as [d|subs b IH|subs b ch IH|k b q|k b q con IH] using stmt_ind'; intros N; inversion N; subst; auto; cbn [fverifier get_verifier]; f_equal;
    apply map_ext_in; intros x I; rewrite Forall_forall in *; auto.
Qed.

Theorem custom_complete K U w sd ord msg a a0 pre a1 c a2 :
  update_secret_values sd a = Ok (tt, a0) -> c_pre K a0 = Ok (pre, a1) -> c_con K pre a1 = Ok (c, a2) ->
  let sv := dupdate (env a0) [] sd in
  noext c -> honest U w c sv (env a2) -> Shape c -> Supplied sv w (env a2) c -> Ords ord c -> Apart c ->
  pre <> VNone -> (forall b, pre <> VStr b) ->
  (exists z a', cprove K sd msg a = Ok (z, a') /\
     forall KV f g stv cv stv', c_name KV = c_name K -> c_con KV pre stv = Ok (cv, stv') -> Pat f g c cv -> c_val KV pre = Ok tt ->
     cverify KV z msg stv = Ok (true, stv')) \/
  exists q c1 com p3 a3 a4 i, copen K sd a = Ok ((pre, q, c1), a3) /\ ccommit c1 q a3 = Ok ((com, p3), a4) /\ get_proof_id c1 None = Ok i /\
    (Big (VStr (pystr (VList [VStr (c_name K); pre; i]))) \/ Big pre \/ Big com).
Proof.
  intros UP PR CO sv N HH HS SU HO HA NN NS.
  destruct (commit_ready U w c sv ord a2 HH HS SU HO HA) as (p & s1 & st1 & pre' & p2 & s2 & st2 & com & p3 & st3 & GP & PC & IC & BT & RS).
  assert (FIT := get_prover_fit c N _ _ _ _ GP p eq_refl). cbn [snd] in FIT.
  destruct (honest_ready _ _ _ _ _ _ _ _ _ _ _ _ HH GP PC) as (w' & L & HL & _ & PS & PO & RD).
  destruct (honest_done w' L s2 pre' p2 None st2 com p3 st3 HL PO RD eq_refl IC) as (K' & od & D).
  destruct (pre_same s1 p FIT st1) as [v' PC']. rewrite PC in PC'. injection PC' as -> -> -> ->.
  destruct PO as (P1 & P2 & P3 & P4 & P5 & P6 & P7 & P8).
  assert (CP : copen K sd a = Ok ((pre, Some p, s1), st1)).
  { unfold copen, bind. rewrite UP. unfold get_env. rewrite PR, CO. fold sv. rewrite GP. cbn [fst snd].
    rewrite inner_same by (intros q [= <-]; exact FIT). reflexivity. }
  assert (CM : ccommit s1 (Some p) st1 = Ok ((com, p3), st3)) by exact IC.
  destruct (proof_id_total s1 BT) as ((i & EI) & _).
  destruct (encode (VStr (pystr (VList [VStr (c_name K); pre; i])))) as [h|] eqn:EH.
  2:{ right. exists (Some p), s1, com, p3, st1, st3, i. repeat split; auto. left. eapply encode_big; eauto. }
  assert (FA : forall v, (exists b, fs_arg v = Ok b) \/ (exists e, encode v = Err e) \/ exists b, v = VStr b).
  { intros v. assert (G : (exists b, encode v = Ok b) \/ exists e, encode v = Err e) by (destruct (encode v); eauto).
    destruct v; cbn [fs_arg]; eauto; destruct G as [G|G]; eauto. }
  destruct (FA pre) as [(b1 & F1)|[(e & F1)|(b & F1)]].
  2:{ right. exists (Some p), s1, com, p3, st1, st3, i. repeat split; auto. right; left. eapply encode_big; eauto. }
  2:{ now apply NS in F1. }
  destruct (FA com) as [(b2 & F2)|[(e & F2)|(b & F2)]].
  2:{ right. exists (Some p), s1, com, p3, st1, st3, i. repeat split; auto. right; right. eapply encode_big; eauto. }
  2:{ exfalso. subst com. eapply commit_nstr; eauto. }
  left. set (ch := be_int (sha256 (h ++ List.concat [b1; b2] ++ msg))).
  destruct (respond_ok _ _ _ _ _ _ D ch st3) as (r & CR & RC & CS).
  assert (FC : forall K2, c_name K2 = c_name K -> forall c2, get_proof_id c2 None = Ok i -> cprehash K2 pre c2 = Ok h /\ fs_challenge h [pre; com] msg = Ok ch).
  { intros K2 E2 c2 I2. unfold cprehash. rewrite I2, E2. cbn [rbind]. split; [exact EH|].
    unfold fs_challenge, fs_input. cbn [rmap]. rewrite F1, F2. reflexivity. }
  exists (mkNizk ch r pre (VBytes (sha256 h))), st3. split.
  - destruct (FC K eq_refl s1 EI) as [H1 H2]. unfold cprove, bind, lift. rewrite CP, CM, H1, H2, CR. reflexivity.
  - intros KV f g stv cv stv' EN CV PT VA.
    assert (N1 : noext s1) by (apply noext_pstrip; rewrite PS; now apply noext_pstrip).
    destruct (Pat_noext_Sim f g s1 cv N1) as [SM NV]; [eapply Pat_same; [symmetry; exact PS|exact PT]|].
    assert (IV : get_proof_id cv None = Ok i) by (rewrite <- (proj1 (Sim_proof_id f g s1 cv SM)); exact EI).
    destruct (FC KV EN cv IV) as [H1 H2].
    assert (V := pre_validation_ok (env stv') f g _ s1 cv r SM (VOK_valid s1 P6 (noext_nonneutral s1 N1)) CS).
    unfold cverify. cbn [n_pre n_hash n_chal n_resp]. destruct pre; try congruence; cbn [is_none]; try congruence;
    unfold bind, lift; rewrite CV; unfold ccheck; rewrite H1; cbn [rbind]; rewrite val_eqb_refl; unfold get_env;
    unfold cpre_validation; rewrite VA; cbn [rbind];
    unfold pre_validation in V; rewrite (noext_valid' cv NV) in V; cbn [rbind] in V; rewrite (noext_fverifier cv NV) in V;
    destruct (consistent _ cv _ _ _) as [[rd|]|]; try discriminate V; cbn [rbind];
    rewrite <- (Sim_recompute f g s1 cv _ _ SM), RC, H2; unfold ret; rewrite Z.eqb_refl; reflexivity.
Qed.

(** ** Simulation *)
Theorem custom_simulation K U ch a pre a1 c a2 t h a' :
  c_sim K a = Ok (pre, a1) -> c_con K pre a1 = Ok (c, a2) -> noext c -> Sok U c -> wfL U ->
  csimulate K ch a = Ok ((t, h), a') -> t_pre t = pre /\ (forall x, ch = Some x -> t_chal t = x) /\
  forall KV f g stv cv stv', c_name KV = c_name K -> c_con KV pre stv = Ok (cv, stv') -> Pat f g c cv -> c_val KV pre = Ok tt ->
  cverify_simulation KV t h stv = Ok (true, stv').
Proof.
  intros CS CO N OK WL H. unfold csimulate, bind in H. rewrite CS, CO in H.
  destruct (simulate_proof c None ch a2) as [[t0 a3]|] eqn:S; [|discriminate]. unfold lift, ret in H.
  destruct (cprehash K pre c) as [b|] eqn:PH; [|discriminate]. injection H as <- <- <-. cbn [t_com t_chal t_resp t_pre].
  assert (Wf := Sok_wfs U c OK N).
  destruct (simulate_ok c None ch a2 t0 a3) as (A & B & _ & (R & CC) & _); auto using noext_prenn, Tree.noext_built.
  { apply wfL_coh. eapply wfL_incl; [|exact WL]. clear - OK N. revert OK N.
    induction c as [d|subs b IH|subs b ch IH|k b q|k b q con IH] using stmt_ind'; intros OK N; inversion OK; inversion N; subst; cbn [svars]; auto;
      intros x I; apply in_concat in I as (l & I1 & I2); apply in_map_iff in I1 as (y & <- & I1); rewrite Forall_forall in *; eapply IH; eauto. }
  { discriminate. }
  split; auto. split; auto. intros KV f g stv cv stv' EN CV PT VA.
  destruct (Pat_noext_Sim f g c cv N PT) as [SM NV].
  assert (V := pre_validation_ok (env stv') f g _ c cv (t_resp t0) SM (noext_valid' c N) CC).
  unfold cverify_simulation, bind, lift. cbn [t_com t_chal t_resp t_pre]. rewrite CV. unfold ccheck, cprehash.
  rewrite EN, <- (proj1 (Sim_proof_id f g c cv SM)). unfold cprehash in PH.
  destruct (get_proof_id c None) as [i|]; [|discriminate]. cbn [rbind] in *. rewrite PH. cbn [rbind]. rewrite val_eqb_refl.
  unfold get_env, cverify_resp, cpre_validation. rewrite VA. cbn [rbind].
  unfold pre_validation in V. rewrite (noext_valid' cv NV) in V. cbn [rbind] in V. rewrite (noext_fverifier cv NV) in V.
  destruct (consistent _ cv _ _ _) as [[rd|]|]; try discriminate V. cbn [rbind].
  rewrite <- (Sim_recompute f g c cv _ _ SM), A. cbn [rbind]. now rewrite val_eqb_refl.
Qed.

(** ** Soundness *)
Lemma cverify_inner K e pre c com ch r : noext c -> cverify_resp K e pre c com ch r = Ok true ->
  c_val K pre = Ok tt /\ verify_resp e c (get_verifier c) com ch r = Ok true.
Proof.
  intros N H. unfold cverify_resp, cpre_validation in H. destruct (c_val K pre) as [[]|]; [|discriminate]. cbn [rbind] in H. split; auto.
  unfold verify_resp, pre_validation. rewrite (noext_valid' c N). cbn [rbind]. exact H.
Qed.
Theorem custom_sound K e pre stv c stv' com ch ch' r r' :
  c_con K pre stv = Ok (c, stv') -> noext c -> wfs c -> coh e (svars c) -> noor c ->
  orders_in (fun q => prime q /\ ~ (q | ch - ch')) c ->
  cverify_resp K e pre c com ch r = Ok true -> cverify_resp K e pre c com ch' r' = Ok true ->
  c_val K pre = Ok tt /\ exists w, Extr w c ch ch' r r' /\ Sat w c.
Proof.
  intros _ N Wf C NO O A A'. destruct (cverify_inner _ _ _ _ _ _ _ N A) as [V B]. destruct (cverify_inner _ _ _ _ _ _ _ N A') as [_ B'].
  split; auto. eapply (soundness c VNone stv (get_verifier c) c stv); eauto. now apply noext_process.
Qed.

Theorem custom_sound_or K e pre stv c stv' com ch ch' r r' :
  c_con K pre stv = Ok (c, stv') -> noext c -> wfs c -> coh e (svars c) ->
  orders_in (fun q => prime q /\ ~ (q | ch - ch') /\ 2 ^ 129 <= q) c -> canonical c r -> canonical c r' -> ~ (2 ^ 128 | ch - ch') ->
  cverify_resp K e pre c com ch r = Ok true -> cverify_resp K e pre c com ch' r' = Ok true ->
  c_val K pre = Ok tt /\ exists w, Extr w c ch ch' r r' /\ Sat w c.
Proof.
  intros _ N Wf C O CA CA' D A A'. destruct (cverify_inner _ _ _ _ _ _ _ N A) as [V B]. destruct (cverify_inner _ _ _ _ _ _ _ N A') as [_ B'].
  split; auto. eapply (or_soundness c VNone stv (get_verifier c) c stv); eauto. now apply noext_process.
Qed.

(** ** Primitives made of primitives *)
Lemma unbuilt_ind' (P : stmt -> Prop) : (forall k b pre, P (SExt k b pre None)) -> (forall k b pre c, P c -> P (SExt k b pre (Some c))) ->
  (forall subs b x, In x subs -> P x -> P (SAnd subs b)) -> (forall subs b ch x, In x subs -> P x -> P (SOr subs b ch)) -> forall s, unbuilt s -> P s.
Proof. intros H1 H2 H3 H4. fix IH 2. intros s []; [apply H1|apply H2|eapply H3|eapply H4]; eauto. Qed.
Lemma unbuilt_vars s : unbuilt s -> exists e, get_secret_vars s = Err e.
Proof.
  assert (G : forall subs (x : stmt), In x subs -> (exists e, get_secret_vars x = Err e) -> exists e, rmap get_secret_vars subs = Err e).
  { intros subs x I [e E]. induction subs as [|y subs IH]; [destruct I|]. cbn [rmap]. destruct I as [->|I]; [rewrite E; cbn; eauto|].
    destruct (get_secret_vars y); cbn [rbind]; [|eauto]. destruct (IH I) as [e' ->]. cbn. eauto. }
  revert s. apply unbuilt_ind'; cbn [get_secret_vars]; eauto.
  - intros subs b x I H. destruct (G subs x I H) as [e ->]. cbn. eauto.
  - intros subs b ch x I H. destruct (G subs x I H) as [e ->]. cbn. eauto.
Qed.
Lemma unbuilt_id s : unbuilt s -> exists e, get_proof_id s None = Err e.
Proof.
  induction 1 as [k b pre|k b pre c U [e E]|subs b x I U _|subs b ch x I U _].
  - cbn [get_proof_id]. eauto.
  - cbn [get_proof_id]. rewrite E. cbn. eauto.
  - destruct (unbuilt_vars (SAnd subs b)) as [e E]; [econstructor; eauto|]. cbn [get_proof_id]. rewrite E. cbn. eauto.
  - destruct (unbuilt_vars (SOr subs b ch)) as [e E]; [econstructor; eauto|]. cbn [get_proof_id]. rewrite E. cbn. eauto.
Qed.
Theorem nested_never K z msg a c a1 : c_con K (n_pre z) a = Ok (c, a1) -> unbuilt c -> forall r, cverify K z msg a <> Ok r.
Proof.
  intros C U r H. destruct (unbuilt_id c U) as [e E]. unfold cverify, bind in H. destruct (is_none (n_pre z)); [discriminate|].
  rewrite C in H. unfold lift, ccheck, cprehash in H. rewrite E in H. discriminate H.
Qed.
Theorem nested_refused K h a c a1 pre : c_con K pre a = Ok (c, a1) -> unbuilt c -> exists e, ccheck K pre c h = Err e.
Proof. intros _ U. destruct (unbuilt_id c U) as [e E]. unfold ccheck, cprehash. rewrite E. cbn. eauto. Qed.
Theorem nested_no_simulation K ch a pre a1 c a2 : c_sim K a = Ok (pre, a1) -> c_con K pre a1 = Ok (c, a2) -> unbuilt c ->
  forall r, csimulate K ch a <> Ok r.
Proof.
  intros S C U r H. destruct (unbuilt_id c U) as [e E]. unfold csimulate, bind in H. rewrite S, C in H.
  destruct (simulate_proof c None ch a2) as [[t a3]|]; [|discriminate]. unfold lift, cprehash in H. rewrite E in H. discriminate H.
Qed.
End C.

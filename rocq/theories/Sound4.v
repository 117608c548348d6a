(** The soundness theorems in the form stated in PropSound.v. *)
From Coq Require Import String Znumtheory.
From Verif Require Import Base World Val Expr Utils Stmt Prove Verify Spec Shapes Clauses Extract Lib DictProofs Keeps Tree
  Sigma ArithProofs Build Sound.
Open Scope Z_scope.
Open Scope list_scope.

Section S.
Context {W : World}.

Lemma soundness s0 pre st v s st1 e com c c' r r' :
  process_pre s0 (get_verifier s0) pre st = Ok ((v, s), st1) -> wfs s0 -> coh e (svars s) -> noor s ->
  orders_in (fun q => prime q /\ ~ (q | c - c')) s ->
  verify_resp e s v com c r = Ok true -> verify_resp e s v com c' r' = Ok true ->
  exists w, Extr w s c c' r r' /\ Sat w s.
Proof.
  intros P Wf C N O A A'. destruct (extract_resp e s v com c c' r r') as [w Hw]; auto.
  - eapply process_match; eauto.
  - apply process_wfs in P; auto.
  - eapply orders_impl; [|exact O]; cbv beta; tauto.
  - eapply orders_impl; [|exact O]; cbv beta; tauto.
  - now left.
  - exists w. split; auto. eapply Extr_Sat; eauto.
Qed.

Lemma soundness_one s0 pre st v s st1 e com c c' r r' q :
  process_pre s0 (get_verifier s0) pre st = Ok ((v, s), st1) -> wfs s0 -> coh e (svars s) -> noor s ->
  prime q -> ~ (q | c - c') -> orders_in (eq q) s ->
  verify_resp e s v com c r = Ok true -> verify_resp e s v com c' r' = Ok true ->
  exists w : bytes -> Z, Extr (fun _ => w) s c c' r r' /\ Sat (fun _ => w) s.
Proof.
  intros P Wf C N Q D O A A'. destruct (soundness s0 pre st v s st1 e com c c' r r') as (w & H & _); auto.
  - eapply orders_impl; [|exact O]. intros ? <-. auto.
  - exists (w q). assert (E : Extr (fun _ => w q) s c c' r r') by (eapply Extr_const; eauto). split; auto. eapply Extr_Sat; eauto.
Qed.

Lemma or_soundness s0 pre st v s st1 e com c c' r r' :
  process_pre s0 (get_verifier s0) pre st = Ok ((v, s), st1) -> wfs s0 -> coh e (svars s) ->
  orders_in (fun q => prime q /\ ~ (q | c - c') /\ 2 ^ 129 <= q) s ->
  canonical s r -> canonical s r' -> ~ (2 ^ 128 | c - c') ->
  verify_resp e s v com c r = Ok true -> verify_resp e s v com c' r' = Ok true ->
  exists w, Extr w s c c' r r' /\ Sat w s.
Proof.
  intros P Wf C O K K' D A A'. destruct (extract_resp e s v com c c' r r') as [w Hw]; auto.
  - eapply process_match; eauto.
  - apply process_wfs in P; auto.
  - eapply orders_impl; [|exact O]; cbv beta; tauto.
  - eapply orders_impl; [|exact O]; cbv beta; tauto.
  - right. split; [eapply orders_impl; [|exact O]; change (2 ^ (challenge_length + 1)) with (2 ^ 129); cbv beta; tauto|]. auto.
  - exists w. split; auto. eapply Extr_Sat; eauto.
Qed.

Lemma accepted_one s0 pre st v s st1 e com c r b : process_pre s0 (get_verifier s0) pre st = Ok ((v, s), st1) ->
  verify_resp e s v com c r = Ok b -> forall s' r', scope s r s' r' -> one_response e s' r'.
Proof. intros P A. eapply accept_one; eauto. eapply process_match; eauto. Qed.
Lemma clash_rejected s0 pre st v s st1 e com c r s' r' x y a b :
  process_pre s0 (get_verifier s0) pre st = Ok ((v, s), st1) -> vready v -> full_validate s = Ok tt -> Rshape s r ->
  scope s r s' r' -> Occ s' r' x a -> Occ s' r' y b -> same_secret e x y -> a <> b ->
  verify_resp e s v com c r = Err EValidation.
Proof. intros P. apply process_match in P. revert P. apply clash_refused. Qed.

Lemma nd_small q a : 0 < Z.abs a < q -> ~ (q | a).
Proof. intros H [k K]. assert (k = 0 \/ Z.abs k >= 1) as [E|E] by lia; [subst; lia|]. rewrite K, Z.abs_mul in H. nia. Qed.
End S.

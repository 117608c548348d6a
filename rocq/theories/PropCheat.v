(** Property C66: the verifier of a false statement is convinced by at most one of 2^128 challenges. *)
From Coq Require Import String Znumtheory.
From Verif Require Import Base World Val Expr Utils Stmt Prove Verify Spec Shapes Claims Honest Extract Prims Cheat CheatProofs
  ZqWorld ZqFacts Ex ExTree Proth PropSound.
Open Scope Z_scope.
Open Scope list_scope.

(** Statements without disjunctions, whatever precommitment and commitment the prover has sent: if no integers satisfy the
    statement, two conversations in which the verifier accepts have the same challenge. The verifier has 2^128 of them. *)
Theorem C66_one_challenge : forall (W : World) s0 pre st v s st1,
  process_pre s0 (get_verifier s0) pre st = Ok ((v, s), st1) -> wfs s0 -> noor s ->
  orders_in (fun q => prime q /\ 2 ^ 128 <= q) s -> (forall w, ~ Sat w s) ->
  forall h h' com f f' a a' b b', env a = env a' -> coh (env a) (svars s) ->
  examine s v h com f a = Ok (true, b) -> examine s v h' com f' a' = Ok (true, b') -> next_challenge a = next_challenge a'.
Proof. exact @one_challenge. Qed.
Print Assumptions C66_one_challenge.
(** In smaller groups the challenges are congruent. *)
Theorem C66_small_groups : forall (W : World) s0 pre st v s st1 q,
  process_pre s0 (get_verifier s0) pre st = Ok ((v, s), st1) -> wfs s0 -> noor s -> prime q -> orders_in (eq q) s -> (forall w, ~ Sat w s) ->
  forall h h' com f f' a a' b b', env a = env a' -> coh (env a) (svars s) ->
  examine s v h com f a = Ok (true, b) -> examine s v h' com f' a' = Ok (true, b') -> (q | next_challenge a - next_challenge a').
Proof. exact @congruent_challenges. Qed.
Print Assumptions C66_small_groups.
(** Inequality: the logarithms are equal. *)
Theorem C66_inequality : forall (W : World) H0 g H1 h x al be bnd sim pre st v s st1,
  let s0 := mk_neq H0 g H1 h x al be bnd sim in let q := order (grp g) in
  process_pre s0 (get_verifier s0) pre st = Ok ((v, s), st1) -> prime q -> 2 ^ 128 <= q -> grp h = grp g -> g <> inf (grp g) ->
  (forall y, H0 = pmul y g -> H1 = pmul y h) ->
  forall k k' com f f' a a' b b', env a = env a' -> coh (env a) (svars s) ->
  examine s v k com f a = Ok (true, b) -> examine s v k' com f' a' = Ok (true, b') -> next_challenge a = next_challenge a'.
Proof. exact @one_challenge_neq. Qed.
Print Assumptions C66_inequality.
(** Disjunctions, for provers that send as many sub-challenges as there are branches, of the right size (without this the
    claim is false: C11_or_forgery_refuted). *)
Theorem C66_or_partial : forall (W : World) s0 pre st v s st1,
  process_pre s0 (get_verifier s0) pre st = Ok ((v, s), st1) -> wfs s0 ->
  orders_in (fun q => prime q /\ 2 ^ 129 <= q) s -> (forall w, ~ Sat w s) ->
  forall h h' com f f' a a' b b', env a = env a' -> coh (env a) (svars s) ->
  (forall c, canonical s (f c)) -> (forall c, canonical s (f' c)) ->
  examine s v h com f a = Ok (true, b) -> examine s v h' com f' a' = Ok (true, b') -> next_challenge a = next_challenge a'.
Proof. exact @one_challenge_or. Qed.
Print Assumptions C66_or_partial.

(** x*3 = 12 and x*5 = 7 in a group of order 5*2^127+1. The prover has guessed the challenge 9: response 20, commitments
    60 - 9*12 and 100 - 9*7. *)
Definition exC := SAnd [SDL (mkDL (Bp 12) [Bp 3] [sx] [] false); SDL (mkDL (Bp 7) [Bp 5] [sx] [] false)] false.
Definition exCcom : val := VList [VPt (Bp (-48)); VPt (Bp 37)].
Definition exCr (c : Z) : val := VList [VList [VInt 20]; VList [VInt 20]].
Definition exCh : val := match prehash_input exC with Ok b => VBytes (sha256 b) | Err _ => VNone end.
Definition stc (c : Z) : st := mkSt (env st0) (fun _ => c) 0.
Lemma lc_one (g : @gid Zq) x (p : @pt Zq) : grp p = g -> lincomb g [x] [p] = pmul x p.
Proof. intros <-. cbn [lincomb]. rewrite <- (grp_mul x p). apply add_inf_r. Qed.
Lemma exC_false : forall w, ~ Sat w exC.
Proof.
  intros w H. inversion H as [|subs b F| |]; subst. inversion F as [|x l H1 F1]; subst. inversion F1 as [|y l' H2 F2]; subst.
  inversion H1 as [d I1 D1| | |]; subst. inversion H2 as [d I2 D2| | |]; subst. clear - D1 D2.
  set (x := w (order (grp (Bp 12))) (sname sx)).
  assert (E1 : Bp 12 = pmul x (Bp 3)).
  { change (dl_holds (w (order (grp (Bp 12)))) (mkDL (Bp 12) [Bp 3] [sx] [] false)) in D1.
    unfold dl_holds in D1. cbn [dl_lhs dl_secs dl_bases map] in D1. exact (eq_trans D1 (lc_one _ _ _ eq_refl)). }
  assert (E2 : Bp 7 = pmul x (Bp 5)).
  { change (dl_holds (w (order (grp (Bp 12)))) (mkDL (Bp 7) [Bp 5] [sx] [] false)) in D2.
    unfold dl_holds in D2. cbn [dl_lhs dl_secs dl_bases map] in D2. exact (eq_trans D2 (lc_one _ _ _ eq_refl)). }
  assert (K : pmul 5 (Bp 12) = pmul 3 (Bp 7)).
  { rewrite E1, E2, !mul_mul. replace (Bp 3) with (pmul 3 (Bp 1)) by (apply zpt_eq; vm_compute; reflexivity).
    replace (Bp 5) with (pmul 5 (Bp 1)) by (apply zpt_eq; vm_compute; reflexivity). rewrite !mul_mul. f_equal. lia. }
  apply (f_equal (@zv)) in K. vm_compute in K. discriminate K.
Qed.
Example C66_ex :
  run (process_pre exC (get_verifier exC) VNone) st0 = Ok (get_verifier exC, exC) /\ wfs exC /\ noor exC /\
  orders_in (fun q => prime q /\ 2 ^ 128 <= q) exC /\ (forall w, ~ Sat w exC) /\ coh (env (stc 9)) (svars exC) /\
  run (examine exC (get_verifier exC) exCh exCcom exCr) (stc 9) = Ok true /\
  run (examine exC (get_verifier exC) exCh exCcom exCr) (stc (9 + 2 ^ 128)) = Ok true /\
  run (examine exC (get_verifier exC) exCh exCcom exCr) (stc 10) = Ok false.
Proof.
  assert (Q : prime bigp /\ 2 ^ 128 <= bigp).
  { split; [exact prime_bigp|]. vm_compute. discriminate. }
  split; [reflexivity|]. split; [repeat constructor|]. split; [repeat constructor|].
  split; [repeat (apply OiAnd || apply Forall_cons || apply Forall_nil || (apply OiDL; exact Q))|].
  split; [exact exC_false|]. split; [intros x y _ _ _; reflexivity|]. split; [|split]; vm_compute; reflexivity.
Qed.

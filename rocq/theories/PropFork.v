(** Properties C76 and C77: two proofs with the same first messages. *)
From Coq Require Import String Znumtheory.
From Verif Require Import Base World Val Expr Utils Stmt Prove Verify Spec Shapes Claims Honest Extract Places Runs Fork Reuse
  ZqWorld ZqFacts Ex ExTree.
Open Scope Z_scope.
Open Scope list_scope.

(** C76. Two proofs which a verifier accepts for one statement object, for any two messages, with the same precommitment, and
    whose commitments (as the verifier recomputes them) are the same: the secrets are computed from the two proofs, if no group
    order divides the difference of the challenges. [Extr] says how: (r - r') / (c - c'). *)
Theorem C76_extract : forall (W : World) s0 z z' msg msg' a s a1 s' a1' com,
  wfs s0 -> verify s0 z msg a = Ok ((true, s), a1) -> verify s0 z' msg' a = Ok ((true, s'), a1') -> n_pre z = n_pre z' ->
  recompute s (n_chal z) (n_resp z) = Ok com -> recompute s (n_chal z') (n_resp z') = Ok com ->
  coh (env a1) (svars s) -> noor s -> orders_in (fun q => prime q /\ ~ (q | n_chal z - n_chal z')) s ->
  exists w, Extr w s (n_chal z) (n_chal z') (n_resp z) (n_resp z') /\ Sat w s.
Proof. exact @fork_sound. Qed.
Print Assumptions C76_extract.
(** With disjunctions, under the conditions of C11. *)
Theorem C76_extract_or_partial : forall (W : World) s0 z z' msg msg' a s a1 s' a1' com,
  wfs s0 -> verify s0 z msg a = Ok ((true, s), a1) -> verify s0 z' msg' a = Ok ((true, s'), a1') -> n_pre z = n_pre z' ->
  recompute s (n_chal z) (n_resp z) = Ok com -> recompute s (n_chal z') (n_resp z') = Ok com ->
  coh (env a1) (svars s) -> orders_in (fun q => prime q /\ ~ (q | n_chal z - n_chal z') /\ 2 ^ 129 <= q) s ->
  canonical s (n_resp z) -> canonical s (n_resp z') -> ~ (2 ^ 128 | n_chal z - n_chal z') ->
  exists w, Extr w s (n_chal z) (n_chal z') (n_resp z) (n_resp z') /\ Sat w s.
Proof. exact @fork_sound_or. Qed.
Print Assumptions C76_extract_or_partial.
(** A false statement: the hashes of all messages for which a proof with given first messages is accepted are congruent modulo the
    group order. *)
Theorem C76_false_statement : forall (W : World) s0 z z' msg msg' a s a1 s' a1' com q,
  wfs s0 -> verify s0 z msg a = Ok ((true, s), a1) -> verify s0 z' msg' a = Ok ((true, s'), a1') -> n_pre z = n_pre z' ->
  recompute s (n_chal z) (n_resp z) = Ok com -> recompute s (n_chal z') (n_resp z') = Ok com ->
  coh (env a1) (svars s) -> noor s -> prime q -> orders_in (eq q) s -> (forall w, ~ Sat w s) ->
  exists h i i', prehash_input s = Ok h /\ fs_input h [n_pre z; com] msg = Ok i /\ fs_input h [n_pre z; com] msg' = Ok i' /\
    be_int (sha256 i) mod q = be_int (sha256 i') mod q.
Proof. exact @fork_false. Qed.
Print Assumptions C76_false_statement.

(** C77. A prover which uses the random numbers twice: two calls of prove from the same state of the process (a copy of the process,
    a virtual machine set back) with different messages. One function computes all secrets from the two proofs: at every place of the
    statement with different challenges the responses reveal the secrets. (In a disjunction the challenges are equal in the branches
    which were simulated.) *)
Theorem C77_reused_randomness_reveals : forall W : World, exists reveal : Z -> Z -> Z -> Z -> Z -> Z,
  forall s sd msg msg' st z s1 st1 z' s1' st1' path d d' a a' u u',
  prove s sd msg st = Ok ((z, s1), st1) -> prove s sd msg' st = Ok ((z', s1'), st1') ->
  place s1 (n_chal z) (n_resp z) path d a u -> place s1' (n_chal z') (n_resp z') path d' a' u' ->
  s1' = s1 /\ n_pre z' = n_pre z /\ d' = d /\
  (a <> a' -> forall i x, nth_error (dl_secs d) i = Some x -> exists b0 bs v y y', dl_bases d = b0 :: bs /\
    dget (env st1) (dl_vals d) x = Some v /\ index u i = Ok (VInt y) /\ index u' i = Ok (VInt y') /\
    let q := order (grp b0) in prime q -> ~ (q | a - a') -> v mod q = reveal q a a' y y').
Proof. exact @reused. Qed.
Print Assumptions C77_reused_randomness_reveals.

(** ** Examples *)
(** x*3 = 12 and x*5 = 20; the proofs for the messages "one" and "two" were made from the same state. *)
Definition exT := SAnd [SDL (mkDL (Pt 12) [Pt 3] [sx] [] false); SDL (mkDL (Pt 20) [Pt 5] [sx] [] false)] false.
Definition nz (msg : bytes) : nizk := match prove exT [(sx, 4)] msg st0 with Ok ((z, _), _) => z | Err _ => mkNizk 0 VNone VNone VNone end.
Definition exTz (c r : Z) := mkNizk c (VList [VList [VInt r]; VList [VInt r]]) VNone
  (match prehash_input exT with Ok b => VBytes (sha256 b) | Err _ => VNone end).
Definition accepts s z msg : bool := match verify s z msg st0 with Ok ((b, _), _) => b | Err _ => false end.
Definition same_com s z z' : bool := match recompute s (n_chal z) (n_resp z), recompute s (n_chal z') (n_resp z') with
  | Ok c, Ok c' => val_eqb c c' | _, _ => false end.
Example C76_ex :
  n_chal (nz (lit "one")) = 24201 /\ val_eqb (n_resp (nz (lit "one"))) (n_resp (exTz 24201 69)) = true /\
  n_chal (nz (lit "two")) = 29164 /\ val_eqb (n_resp (nz (lit "two"))) (n_resp (exTz 29164 24)) = true /\
  wfs exT /\ noor exT /\ orders_in (fun q => prime q /\ ~ (q | 24201 - 29164)) exT /\ coh (env st0) (svars exT) /\
  accepts exT (exTz 24201 69) (lit "one") = true /\ accepts exT (exTz 29164 24) (lit "two") = true /\
  accepts exT (exTz 24201 69) (lit "two") = false /\ same_com exT (exTz 24201 69) (exTz 29164 24) = true /\
  (69 - 24 - 4 * (24201 - 29164)) mod 101 = 0. (* the secret is 4 *)
Proof.
  assert (Q : prime (@order Zq (grp (Pt 12))) /\ ~ (@order Zq (grp (Pt 12)) | 24201 - 29164)).
  { split; [exact prime101|]. intros D. apply Zdivide_mod in D. vm_compute in D. discriminate D. }
  do 4 (split; [vm_compute; reflexivity|]). split; [repeat constructor|]. split; [repeat constructor|].
  split; [repeat (apply OiAnd || apply Forall_cons || apply Forall_nil || (apply OiDL; exact Q))|].
  split; [intros x y _ _ _; reflexivity|]. repeat split; vm_compute; reflexivity.
Qed.

(** x*3 = 12 and x*5 = 7 in the group of order 101. The commitments fit challenges which are 9 modulo 101; there are messages with
    such hashes. *)
Definition exF := SAnd [SDL (mkDL (Pt 12) [Pt 3] [sx] [] false); SDL (mkDL (Pt 7) [Pt 5] [sx] [] false)] false.
Definition exFcom : val := VList [VPt (Pt (60 - 9 * 12)); VPt (Pt (100 - 9 * 7))].
Definition exFz (msg : bytes) : nizk :=
  match prehash_input exF with
  | Ok h => mkNizk (match fs_challenge h [VNone; exFcom] msg with Ok c => c | Err _ => 0 end) (VList [VList [VInt 20]; VList [VInt 20]]) VNone
      (VBytes (sha256 h))
  | Err _ => mkNizk 0 VNone VNone VNone
  end.
Lemma lc_one (g : @gid Zq) x (p : @pt Zq) : grp p = g -> lincomb g [x] [p] = pmul x p.
Proof. intros <-. cbn [lincomb]. rewrite <- (grp_mul x p). apply add_inf_r. Qed.
Lemma exF_false : forall w, ~ Sat w exF.
Proof.
  intros w H. inversion H as [|subs b F| |]; subst. inversion F as [|x l H1 F1]; subst. inversion F1 as [|y l' H2 F2]; subst.
  inversion H1 as [d I1 D1| | |]; subst. inversion H2 as [d I2 D2| | |]; subst. clear - D1 D2.
  set (x := w (order (grp (Pt 12))) (sname sx)).
  assert (E1 : Pt 12 = pmul x (Pt 3)).
  { change (dl_holds (w (order (grp (Pt 12)))) (mkDL (Pt 12) [Pt 3] [sx] [] false)) in D1.
    unfold dl_holds in D1. cbn [dl_lhs dl_secs dl_bases map] in D1. exact (eq_trans D1 (lc_one _ _ _ eq_refl)). }
  assert (E2 : Pt 7 = pmul x (Pt 5)).
  { change (dl_holds (w (order (grp (Pt 12)))) (mkDL (Pt 7) [Pt 5] [sx] [] false)) in D2.
    unfold dl_holds in D2. cbn [dl_lhs dl_secs dl_bases map] in D2. exact (eq_trans D2 (lc_one _ _ _ eq_refl)). }
  assert (K : pmul 5 (Pt 12) = pmul 3 (Pt 7)).
  { rewrite E1, E2, !mul_mul. replace (Pt 3) with (pmul 3 (Pt 1)) by (apply zpt_eq; vm_compute; reflexivity).
    replace (Pt 5) with (pmul 5 (Pt 1)) by (apply zpt_eq; vm_compute; reflexivity). rewrite !mul_mul. f_equal. lia. }
  apply (f_equal (@zv)) in K. vm_compute in K. discriminate K.
Qed.
Example C76_false_ex :
  (forall w, ~ Sat w exF) /\ wfs exF /\ noor exF /\ orders_in (eq 101) exF /\ coh (env st0) (svars exF) /\
  accepts exF (exFz (lit "cw")) (lit "cw") = true /\ accepts exF (exFz (lit "en")) (lit "en") = true /\
  accepts exF (exFz (lit "ge")) (lit "ge") = true /\ accepts exF (exFz (lit "one")) (lit "one") = false /\
  same_com exF (exFz (lit "cw")) (exFz (lit "en")) = true /\
  n_chal (exFz (lit "cw")) <> n_chal (exFz (lit "en")) /\ n_chal (exFz (lit "cw")) mod 101 = n_chal (exFz (lit "en")) mod 101.
Proof.
  split; [exact exF_false|]. split; [repeat constructor|]. split; [repeat constructor|].
  split; [repeat (apply OiAnd || apply Forall_cons || apply Forall_nil || (apply OiDL; reflexivity))|].
  split; [intros x y _ _ _; reflexivity|]. repeat split; vm_compute; try reflexivity. discriminate.
Qed.

(** x*3 = 12, and y*5 = 30 or u*7 = 1. The secrets used are x = 4 and y = 6. *)
Definition exU2 := SAnd [SDL (mkDL (Pt 12) [Pt 3] [sx] [] false);
  SOr [SDL (mkDL (Pt 30) [Pt 5] [sy] [] false); SDL (mkDL (Pt 1) [Pt 7] [su] [] false)] false None] false.
Definition uz (msg : bytes) : val := match prove exU2 [(sx, 4); (sy, 6)] msg st0 with Ok ((z, _), _) => VTuple [VInt (n_chal z); n_resp z] | Err _ => VNone end.
Definition answer (x : Z) (cs rs : Z * Z) : val :=
  VList [VList [VInt x]; VTuple [VList [VInt (fst cs); VInt (snd cs)]; VList [VList [VInt (fst rs)]; VList [VInt (snd rs)]]]].
Example C77_ex :
  val_eqb (uz (lit "one")) (VTuple [VInt 23073; answer 51 (-60543, 83616) (51, 86)]) = true /\
  val_eqb (uz (lit "two")) (VTuple [VInt 28036; answer 6 (-55580, 83616) (34, 86)]) = true /\
  (51 - 6 - 4 * (23073 - 28036)) mod 101 = 0 /\ (51 - 34 - 6 * (-60543 + 55580)) mod 101 = 0 /\
  (23073 - 28036) mod 101 <> 0 /\ (-60543 + 55580) mod 101 <> 0 /\
  forall c x cs rs, (* the three places of the statement *)
    place exU2 c (answer x cs rs) [0%nat] (mkDL (Pt 12) [Pt 3] [sx] [] false) c (VList [VInt x]) /\
    place exU2 c (answer x cs rs) [1%nat; 0%nat] (mkDL (Pt 30) [Pt 5] [sy] [] false) (fst cs) (VList [VInt (fst rs)]) /\
    place exU2 c (answer x cs rs) [1%nat; 1%nat] (mkDL (Pt 1) [Pt 7] [su] [] false) (snd cs) (VList [VInt (snd rs)]).
Proof.
  do 2 (split; [vm_compute; reflexivity|]). do 2 (split; [reflexivity|]). do 2 (split; [vm_compute; discriminate|]).
  intros c x cs rs. split; [|split].
  - eapply PlAnd; [reflexivity|reflexivity|constructor].
  - eapply PlAnd; [reflexivity|reflexivity|]. eapply PlOr; [reflexivity|reflexivity|reflexivity|reflexivity|reflexivity|constructor].
  - eapply PlAnd; [reflexivity|reflexivity|]. eapply PlOr; [reflexivity|reflexivity|reflexivity|reflexivity|reflexivity|constructor].
Qed.

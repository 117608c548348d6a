(** Two proofs for one verifier object. *)
From Coq Require Import String.
From Verif Require Import Base World Val Expr Utils Stmt Prove Verify Session ZqWorld Ex ExTree.
Open Scope Z_scope.
Open Scope list_scope.

(** Two proofs of the inequality by one prover with one precommitment: the first is an ordinary one, the second says that it
    has no precommitment. *)
Definition exN := SExt exNeqK false VNone None.
Definition exTwice : M (nizk * nizk) :=
  let! (o, s) := get_prover exN exsd in
  match o with
  | None => raise EException
  | Some p =>
    let! (pre, p, s) := precommit s p in
    let! (com, p1) := internal_commit s p None in
    let! h := lift (prehash_input s) in
    let! c := lift (fs_challenge h [pre; com] (lit "msg")) in
    let! r := compute_response s p1 c in
    let! (com', p2) := internal_commit s p None in
    let! c' := lift (fs_challenge h [VNone; com'] (lit "msg")) in
    let! r' := compute_response s p2 c' in
    ret (mkNizk c r pre (VBytes (sha256 h)), mkNizk c' r' VNone (VBytes (sha256 h)))
  end.
Definition exNV := SExt (KNeq (Pt 21) (Pt 3) (Pt 36) (Pt 5) (T 23 "u") (T 30 "alpha") (T 31 "beta") true) false VNone None.
(** Is [z2] accepted after [z1], but refused with ValueError by a new verifier? *)
Definition exStale (z1 z2 : nizk) : bool :=
  match verify_again exNV (get_verifier exNV) z1 (lit "msg") st0 with
  | Ok ((b1, v1, s1), a1) =>
      match verify_again s1 v1 z2 (lit "msg") a1 with
      | Ok ((b2, _, _), _) => b1 && b2 && match verify exNV z2 (lit "msg") a1 with Err EValueErr => true | _ => false end
      | Err _ => false end
  | Err _ => false end.
Lemma stale_none : exists (s : @stmt Zq) z1 z2 msg a v1 s1 a1 v2 s2 a2,
  verify_again s (get_verifier s) z1 msg a = Ok ((true, v1, s1), a1) /\
  verify_again s1 v1 z2 msg a1 = Ok ((true, v2, s2), a2) /\ verify s z2 msg a1 = Err EValueErr.
Proof.
  assert (B : match exTwice st0 with Ok ((z1, z2), _) => exStale z1 z2 | Err _ => false end = true) by (vm_compute; reflexivity).
  destruct (exTwice st0) as [[[z1 z2] a0]|]; [|discriminate]. unfold exStale in B.
  destruct (verify_again exNV (get_verifier exNV) z1 (lit "msg") st0) as [[[[b1 v1] s1] a1]|] eqn:E1; [|discriminate].
  destruct (verify_again s1 v1 z2 (lit "msg") a1) as [[[[b2 v2] s2] a2]|] eqn:E2; [|discriminate].
  apply andb_true_iff in B as [B E3]. apply andb_true_iff in B as [-> ->].
  exists exNV, z1, z2, (lit "msg"), st0, v1, s1, a1, v2, s2, a2. split; [exact E1|]. split; [exact E2|].
  destruct (verify exNV z2 (lit "msg") a1) as [|er]; [discriminate|]. destruct er; try discriminate. reflexivity.
Qed.

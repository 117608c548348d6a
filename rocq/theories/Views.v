(** Vocabulary: runs of the proof of a conjunction as functions of the random numbers. *)
From Coq Require Import String.
From Verif Require Import Base World Val Expr Utils Stmt Prove Verify Spec.
Open Scope Z_scope.
Open Scope list_scope.

Section V.
Context {W : World}.

(** commit() of the prover object [p] of [s], then compute_response(c): commitment and response. *)
Definition honest_view (s : stmt) (p : prover) (c : Z) : M (val * val) :=
  let! cp := internal_commit s p None in
  let! r := compute_response s (snd cp) c in ret (fst cp, r).
(** simulate_proof(challenge=c): commitment and response. *)
Definition sim_view (s : stmt) (c : Z) : M (val * val) :=
  let! t := simulate_proof s None (Some c) in ret (t_com t, t_resp t).
End V.

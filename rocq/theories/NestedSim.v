(** Simulation of nested compositions with primitives defined by users. *)
From Verif Require Import Base World Val Expr Utils Stmt Prove Verify Spec Shapes Supply Custom Nested.
Open Scope Z_scope.
Open Scope list_scope.

Section N.
Context {W : World}.

(** simulate(): composition.py:300-308 *)
Definition tsimulate (t : mtree) (c : option Z) : M (sim * val) :=
  let! s := tprep t (set_simulated true (tshell t)) in
  let! x := simulate_proof s None c in
  let! h := lift (stmt_digest s) in
  ret (x, VBytes h).
(** verify_simulation_consistency: composition.py:310-328 *)
Definition tverify_simulation (t : mtree) (x : sim) (h : val) : M bool :=
  let! (v, s) := tproc t (t_pre x) in
  let! _ := lift (check_statement s h) in
  let! e := get_env in
  lift (tverify_resp e t s v (t_com x) (t_chal x) (t_resp x)).

(** ** Specification *)
(** The identifier of the simulated statement is too large for the binary format. *)
Definition tsim_oversized (t : mtree) (a : st) : Prop :=
  exists s a1 i, tprep t (set_simulated true (tshell t)) a = Ok (s, a1) /\ get_proof_id s None = Ok i /\ Big (VStr (pystr i)).
End N.

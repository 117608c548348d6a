(** Vocabulary: whole conversations about conjunctions with primitives defined by users, and their simulations. *)
From Verif Require Import Base World Val Expr Utils Stmt Prove Verify Spec Shapes Extract Runs Distrib Supply Custom Mixed MixedOr Nested.
Open Scope Z_scope.
Open Scope list_scope.

Section T.
Context {W : World}.

(** An honest run of get_prover(sd), precommit(), commit() and compute_response(c): precommitment, commitment, response. *)
Definition tconv (T : mtree) (sd : dict Z) (c : Z) : M (val * val * val) :=
  let! (pre, p, s) := topen T sd in
  let! cp := internal_commit s p None in
  let! r := compute_response s (snd cp) c in
  ret (pre, fst cp, r).
(** A simulation's precommitment in the form in which the AndProver sends it (composition.py:847-865): None if all are. *)
Definition tsents (f : mtree -> val -> val) : list mtree -> list val -> list val :=
  fix go l vs := match l, vs with t :: l, v :: vs => f t v :: go l vs | _, _ => [] end.
Fixpoint tsent (T : mtree) (v : val) : val :=
  match T, v with
  | TS _, _ => VNone
  | TA l _, VList vs => pre_list (tsents tsent l vs)
  | _, _ => v
  end.
(** prepare_simulate_proof() and simulate_proof(challenge=c): the same three; no secret is supplied. *)
Definition tsimconv (T : mtree) (c : Z) : M (val * val * val) :=
  let! s := tprep T (set_simulated true (tshell T)) in
  let! x := simulate_proof s None (Some c) in
  ret (tsent T (t_pre x), t_com x, t_resp x).

(** A bijection, with its inverse, between sequences of [n] random numbers, the j-th one modulo [q j]. *)
Definition bijection (n : nat) (q : nat -> Z) (to of : (nat -> Z) -> nat -> Z) : Prop :=
  (forall j, (j < n)%nat -> 1 < q j) /\
  (forall t t', congr n q t t' -> congr n q (to t) (to t')) /\ (forall t t', congr n q t t' -> congr n q (of t) (of t')) /\
  (forall t, congr n q (of (to t)) t) /\ (forall t, congr n q (to (of t)) t).
(** The random numbers from the [a]-th on. *)
Definition from (a : nat) (t : nat -> Z) : nat -> Z := fun i => t (a + i)%nat.
(** The precommitments of the class say nothing about the values [w] of the secrets [V]: precommit(), with these values, and
    simulate_precommit(), with any or none, take [n] random numbers each; a bijection between these random numbers leads to the same
    precommitment. Of this construct_stmt makes, without random numbers, the same statement about the secrets [X] (but for captured
    values), without disjunctions. *)
Definition hiding (V : list secret) (w : bytes -> Z) (K : cls) : Prop :=
  exists n q to of X, bijection n q to of /\
  forall e t a u b, (forall x, In x V -> e (sid x) = Some (w (sname x))) -> congr n q (from b u) (to (from a t)) ->
  exists pre c e1 e2,
    (forall t', congr n q (from a t) (from a t') ->
       c_pre K (mkSt e t' a) = Ok (pre, mkSt e1 t' (a + n)) /\ c_con K pre (mkSt e1 t' (a + n)) = Ok (c, mkSt e2 t' (a + n))) /\
    (forall x, In x V -> e2 (sid x) = Some (w (sname x))) /\ svars c = X /\ noor c /\
    forall e0, c_sim K (mkSt e0 u b) = Ok (pre, mkSt e0 u (b + n)) /\
      exists c', c_con K pre (mkSt e0 u (b + n)) = Ok (c', mkSt e0 u (b + n)) /\ pstrip c' = pstrip c.
(** Conjunctions of statements without disjunctions and objects of classes [P]. *)
Inductive conjs (P : cls -> Prop) : mtree -> Prop :=
| CjK K b : P K -> conjs P (TK K b)
| CjS s : noext s -> noor s -> conjs P (TS s)
| CjA l b : Forall (conjs P) l -> conjs P (TA l b).
End T.

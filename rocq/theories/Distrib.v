(** Vocabulary: experiments with the same distribution of outcomes; whole runs of a proof, precommitment included. *)
From Coq Require Import String Znumtheory.
From Verif Require Import Base World Val Expr Utils Stmt Prove Verify Spec.
Open Scope Z_scope.
Open Scope list_scope.

(** The first [n] random numbers agree, the j-th one modulo [q j]. *)
Definition congr (n : nat) (q : nat -> Z) (t t' : nat -> Z) : Prop := forall j, (j < n)%nat -> (q j | t j - t' j).

(** [f] and [g] depend on [n] random numbers, uniform below [q 0], [q 1], ..., and a bijection between these random
    numbers takes one to the other: every outcome has the same probability for both. *)
Definition same_distribution {A} (f g : (nat -> Z) -> A) : Prop :=
  exists (n : nat) (q : nat -> Z) (to of : (nat -> Z) -> nat -> Z),
    (forall j, (j < n)%nat -> 1 < q j) /\
    (forall t t', congr n q t t' -> f t = f t') /\ (forall t t', congr n q t t' -> g t = g t') /\
    (forall t t', congr n q t t' -> congr n q (to t) (to t')) /\
    (forall t t', congr n q t t' -> congr n q (of t) (of t')) /\
    (forall t, congr n q (of (to t)) t) /\ (forall t, congr n q (to (of t)) t) /\
    forall t, f t = g (to t).

Section D.
Context {W : World}.

(** A list of precommitments in the form in which an AndProver sends it (composition.py:847-865): None if all are. *)
Fixpoint sent (v : val) : val :=
  match v with
  | VList l => if forallb is_none (map sent l) then VNone else VList (map sent l)
  | _ => v
  end.

(** An honest run of prover [get_prover(sd)] with the challenge [c]: precommitment, commitment, response. *)
Definition whole_run (s : stmt) (sd : dict Z) (c : Z) : M (val * val * val) :=
  let! ps := get_prover s sd in
  match fst ps with
  | None => raise EValueErr
  | Some p =>
      let! r := precommit (snd ps) p in
      let! cp := internal_commit (snd r) (snd (fst r)) None in
      let! x := compute_response (snd r) (snd cp) c in
      ret (fst (fst r), fst cp, x)
  end.
(** The same of a simulation; no secret is supplied. *)
Definition whole_sim (s : stmt) (c : Z) : M (val * val * val) :=
  let! s := prepare_sim s in
  let! t := simulate_proof s None (Some c) in
  ret (sent (t_pre t), t_com t, t_resp t).

Definition generated (g : gid) : Prop := forall p, grp p = g -> exists k, p = pmul k (gen g).

(** Primitives whose precommitment is random: inequalities that hold, signatures with a proper base for the blinding. *)
Definition blinded (w : bytes -> Z) (k : kind) : Prop :=
  match k with
  | KNeq _ g H1 h x _ _ _ => prime (order (grp g)) /\ generated (grp g) /\ H1 <> pmul (w (sname x)) h
  | KBBS _ _ (b0 :: _ :: b2 :: _) _ _ _ _ _ => prime (order (grp b0)) /\ generated (grp b0) /\ b2 <> inf (grp b0)
  | _ => False
  end.
(** Conjunctions of representations and such primitives. *)
Inductive conj_of (P : kind -> Prop) : stmt -> Prop :=
| CoDL d : conj_of P (SDL d)
| CoAnd subs b : Forall (conj_of P) subs -> conj_of P (SAnd subs b)
| CoExt k b pre con : P k -> conj_of P (SExt k b pre con).
End D.

(** Vocabulary: two provers of one composition with primitives defined by users. *)
From Verif Require Import Base World Val Expr Utils Stmt Prove Verify Spec Shapes Custom Mixed MixedOr Nested.
Open Scope Z_scope.
Open Scope list_scope.

Section T.
Context {W : World}.

(** What a prover object has decided: the branches chosen in disjunctions and the simulated transcripts of the others, without the
    values of secrets that the object holds. *)
Fixpoint choices (p : prover) : prover :=
  match p with
  | PDL _ => PDL None
  | PAnd ps => PAnd (map choices ps)
  | POr i sp sims => POr i (choices sp) sims
  | PExt _ (Some (Some q)) => PExt [] (Some (Some (choices q)))
  | PExt _ o => PExt [] o
  end.
(** prove() after precommit(): [pre], [p] and [s] are the precommitment, the prover and the statement (base.py:144-166). *)
Definition rest (pre : val) (p : prover) (s : stmt) (msg : bytes) : M nizk :=
  let! (com, p) := internal_commit s p None in
  let! h := lift (prehash_input s) in
  let! ch := lift (fs_challenge h [pre; com] msg) in
  let! r := compute_response s p ch in
  ret (mkNizk ch r pre (VBytes (sha256 h))).
(** The objects of two provers for the same claim: of the same precommitment the classes construct the same statement, but for the
    values captured in it. *)
Inductive tpair : mtree -> mtree -> Prop :=
| PaK K K' b b' : c_name K = c_name K' -> (forall pre c c', made K pre c -> made K' pre c' -> pstrip c = pstrip c') -> tpair (TK K b) (TK K' b')
| PaS s s' : pstrip s = pstrip s' -> tpair (TS s) (TS s')
| PaA l l' b b' : Forall2 tpair l l' -> tpair (TA l b) (TA l' b')
| PaO l l' b b' : Forall2 tpair l l' -> tpair (TO l b) (TO l' b').
(** An honest prover: as in C84. *)
Definition thonest (U : list secret) (w : bytes -> Z) (T : mtree) (sd : dict Z) (a : st) : Prop :=
  entries_ok U w sd /\ agree w (env a) U /\ tok U w sd (env a) T /\
  forall p s a1, tget T sd a = Ok ((Some p, s), a1) -> tsincere U w T s p a1.
End T.

(** Vocabulary: the randomizers that a prover object has stored, and dictionaries as Python makes them. *)
From Coq Require Import String.
From Verif Require Import Base World Val Expr Utils Stmt Prove.
Open Scope Z_scope.
Open Scope list_scope.

Section O.
Context {W : World}.

(** [stored s p x k]: at some place outside of disjunctions, the prover object [p] of [s] has committed to the secret
    [x] with the randomizer [k]. *)
Inductive stored : stmt -> prover -> secret -> Z -> Prop :=
| StDL d ks i x k : nth_error (dl_secs d) i = Some x -> nth_error ks i = Some k -> stored (SDL d) (PDL (Some ks)) x k
| StAnd subs b ps i s p x k : nth_error subs i = Some s -> nth_error ps i = Some p -> stored s p x k ->
    stored (SAnd subs b) (PAnd ps) x k
| StExt k0 b pre con sv q x k : stored con q x k -> stored (SExt k0 b pre (Some con)) (PExt sv (Some (Some q))) x k.

(** No two keys of the dictionary are equal. *)
Fixpoint keys_apart {A} (e : nat -> option Z) (d : dict A) : Prop :=
  match d with
  | [] => True
  | kv :: d => (forall kv', In kv' d -> sec_eqb e (fst kv) (fst kv') = false) /\ keys_apart e d
  end.

(** A representation (outside of extended statements) has its left-hand side in another group than one of its bases. *)
Inductive foreign : stmt -> Prop :=
| FoDL d b : In b (dl_bases d) -> grp b <> grp (dl_lhs d) -> foreign (SDL d)
| FoAnd subs f s : In s subs -> foreign s -> foreign (SAnd subs f)
| FoOr subs f c s : In s subs -> foreign s -> foreign (SOr subs f c).
End O.

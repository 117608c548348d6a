(** Vocabulary of C30 and C54: what two responses to a range proof show. *)
From Coq Require Import String.
From Verif Require Import Base World Val Expr Utils Stmt.
Open Scope Z_scope.
Open Scope list_scope.

Section O.
Context {W : World}.
(** Two responses to the proof that a commitment is to a bit (rangeproof.py:97-118: an or-proof, whose first branch is
    about 0 and whose second branch is about 1): the bit is the number of a branch whose sub-challenges differ, and the
    opening [t] is the difference of the responses there divided by the difference of the sub-challenges. *)
Inductive bit_from (q : Z) (r r' : val) : Z -> Z -> Prop :=
| BitFrom i cs cs' rs rs' ci ci' v v' z z' t : (i < 2)%nat ->
    index r 0 = Ok cs -> index r' 0 = Ok cs' -> index r 1 = Ok rs -> index r' 1 = Ok rs' ->
    index cs i = Ok (VInt ci) -> index cs' i = Ok (VInt ci') -> index rs i = Ok v -> index rs' i = Ok v' ->
    index v 0 = Ok (VInt z) -> index v' 0 = Ok (VInt z') ->
    ~ (2 ^ challenge_length | ci - ci') -> (q | t * (ci - ci') - (z - z')) -> bit_from q r r' (Z.of_nat i) t.
Fixpoint value2 (l : list Z) : Z := match l with [] => 0 | b :: l => b + 2 * value2 l end.
(** The number [u] of [n] bits and the opening [t] are computed from the responses [a], [a'] to one precommitment. *)
Definition opening (q : Z) (pre a a' : val) (n : nat) (u t : Z) : Prop := exists bs ts rand,
  List.length bs = n /\ List.length ts = n /\
  (forall j b s, nth_error bs j = Some b -> nth_error ts j = Some s ->
     exists r r', index a j = Ok r /\ index a' j = Ok r' /\ bit_from q r r' b s) /\
  getitem pre (lit "rand") = Ok (VInt rand) /\ u = value2 bs /\ t = value2 ts - rand.
End O.

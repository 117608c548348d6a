(** Vocabulary of C66: what is left of an interactive proof after the precommitment, seen by the verifier. *)
From Verif Require Import Base World Val Expr Utils Stmt Prove Verify.
Open Scope Z_scope.

Section C.
Context {W : World}.
(** The prover sends a statement hash and a commitment and answers every challenge as they like ([answer]); the verifier
    draws a challenge with their own random source. *)
Definition examine (s : stmt) (v : verifier) (h com : val) (answer : Z -> val) : M bool :=
  let! c := send_challenge s v h com in
  let! e := get_env in
  lift (verify_resp e s v com c (answer c)).
(** the challenge that the verifier's random source holds *)
Definition next_challenge (a : st) : Z := tape a (pos a) mod 2 ^ challenge_length.
End C.

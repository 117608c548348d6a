(** Vocabulary: the non-interactive proof that stmt.prove() returns. *)
From Coq Require Import String.
From Verif Require Import Base World Val Expr Utils Stmt Prove Verify.
Open Scope Z_scope.
Open Scope list_scope.

Section U.
Context {W : World}.
(** stmt.prove(sd, msg); what it leaves in the statement object is forgotten. *)
Definition proof_of (s : stmt) (sd : dict Z) (msg : bytes) : M nizk :=
  let! r := prove s sd msg in ret (fst r).
End U.

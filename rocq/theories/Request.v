(** Words of C80: what a user sends to an issuer. *)
From Verif Require Import Base World Val Expr Utils Stmt Prove Verify Bbs.
Open Scope Z_scope.
Open Scope list_scope.

Section R.
Context {W : World}.
(** creator.commit(ms, zkp=True) of a creator whose attribute s1 is [s1]: the message for the issuer. [ss]: the Secret objects that
    commit() makes. *)
Definition request (pk : bbs_pk) (s1 : option Z) (ms : list Z) (ss : list secret) : M Bbs.blinded :=
  let! r := commit_messages pk s1 ms true ss in ret (fst r).
(** [ss] are [n] new objects in [e]: names of their own, no values *)
Definition new_secrets (n : nat) (ss : list secret) (e : nat -> option Z) : Prop :=
  List.length ss = n /\ NoDup (map sname ss) /\ forall x, In x ss -> e (sid x) = None.
End R.

(** Words of property C78. *)
From Verif Require Import Base World Val Expr Stmt Prove Verify Spec Shapes Claims Honest Claims.
Open Scope Z_scope.
Open Scope list_scope.

Section T.
Context {W : World}.

(** the two equations of the plaintext proof, c1 = r*g and c2 = r*h + m*g *)
Definition elgamal_rows (c1 c2 g h : pt) (m r : secret) : list (pt * list (secret * pt)) := [(c1, [(r, g)]); (c2, [(r, h); (m, g)])].
(** the two secrets get these values, from their objects or from the dictionary *)
Definition given2 (m r : secret) (mv rv : Z) (sd : dict Z) (e : nat -> option Z) : Prop :=
  (forall k u, In (k, u) sd -> k = m /\ u = mv \/ k = r /\ u = rv) /\
  (forall u, e (sid m) = Some u -> u = mv) /\ (forall u, e (sid r) = Some u -> u = rv) /\
  (known sd m \/ e (sid m) <> None) /\ (known sd r \/ e (sid r) <> None).
End T.

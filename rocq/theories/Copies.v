(** Specification: composing statements copies the parts. *)
From Verif Require Import Base World Val Expr Utils Stmt Prove Verify Objects Sharing.
Open Scope Z_scope.
Open Scope list_scope.

Section C.
Context {W : World}.

(** [o] has been composed of the statements [l], with AndProof(...), OrProof(...), & or |. *)
Definition composed (l : list obj) (o : obj) (h h' : store) : Prop :=
  o_and l h = Ok (o, h') \/ o_or l h = Ok (o, h') \/
  exists a b, l = [a; b] /\ (o_and_op a b h = Ok (o, h') \/ o_or_op a b h = Ok (o, h')).

(** Attributes of one object have been assigned: the mark "simulated", the chosen challenge, the precommitment and the
    statement that has been constructed from it. *)
Definition assigned (i : nat) (h g : store) : Prop :=
  (forall j, j <> i -> marks g j = marks h j /\ picks g j = picks h j /\ exts g j = exts h j) /\
  forall d, dicts g d = dicts h d.

(** zksk/composition.py 285-292, on objects *)
Definition o_set_simulated (o : obj) (b : bool) (h : store) : store := set_mark h (oid o) b.

(** A statement without parts. *)
Definition primitive (o : obj) : Prop := match o with ODL _ _ _ _ _ | OExt _ _ => True | _ => False end.
End C.

(** Vocabulary: values with the same binary form, and the parts of a conjunction. *)
From Coq Require Import String.
From Verif Require Import Base World Val Expr Utils Stmt.
Open Scope Z_scope.
Open Scope list_scope.

Section A.
Context {W : World}.

(** The values are the same up to tuples in place of lists and points with the same binary form. *)
Inductive wire_alike : val -> val -> Prop :=
| WaNone : wire_alike VNone VNone
| WaInt z : wire_alike (VInt z) (VInt z)
| WaPt p q : export_pt p = export_pt q -> wire_alike (VPt p) (VPt q)
| WaStr s : wire_alike (VStr s) (VStr s)
| WaBytes s : wire_alike (VBytes s) (VBytes s)
| WaSeq v w l m : v = VList l \/ v = VTuple l -> w = VList m \/ w = VTuple m -> Forall2 wire_alike l m -> wire_alike v w
| WaDict d d' : Forall2 (fun a b : bytes * val => fst a = fst b /\ wire_alike (snd a) (snd b)) d d' ->
    wire_alike (VDict d) (VDict d').

(** Points of the group are told apart by their binary form. *)
Definition distinguished (g : gid) : Prop := forall p q, grp p = g -> grp q = g -> export_pt p = export_pt q -> p = q.

(** [conjunct s path d]: the representation [d] is found in [s] by following [path], the numbers of
    the parts, through conjunctions only. *)
Inductive conjunct : stmt -> list nat -> dlrep -> Prop :=
| CjHere d : conjunct (SDL d) [] d
| CjAnd subs b i s path d : nth_error subs i = Some s -> conjunct s path d -> conjunct (SAnd subs b) (i :: path) d.
End A.

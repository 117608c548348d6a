(** Vocabulary: the representations in a statement tree, with the challenges and responses that belong to them. *)
From Coq Require Import String.
From Verif Require Import Base World Val Expr Utils Stmt.
Open Scope Z_scope.
Open Scope list_scope.

Section P.
Context {W : World}.

(** [leaf s path d]: the representation [d] is found in [s] by following [path], the numbers of the parts, through
    conjunctions, disjunctions and primitives. *)
Inductive leaf : stmt -> list nat -> dlrep -> Prop :=
| LfHere d : leaf (SDL d) [] d
| LfAnd subs b i s path d : nth_error subs i = Some s -> leaf s path d -> leaf (SAnd subs b) (i :: path) d
| LfOr subs b ch i s path d : nth_error subs i = Some s -> leaf s path d -> leaf (SOr subs b ch) (i :: path) d
| LfExt k b pre con path d : leaf con path d -> leaf (SExt k b pre (Some con)) path d.

(** [place s c r path d a u]: as before, and if [r] is the response for [s] to the challenge [c], then [u] is the
    response for [d] to the challenge [a], which differs from [c] inside of disjunctions: there it is part of [r]. *)
Inductive place : stmt -> Z -> val -> list nat -> dlrep -> Z -> val -> Prop :=
| PlHere d c r : place (SDL d) c r [] d c r
| PlAnd subs b c r i s ri path d a u : nth_error subs i = Some s -> index r i = Ok ri -> place s c ri path d a u ->
    place (SAnd subs b) c r (i :: path) d a u
| PlOr subs b ch c r i s cs rs ci ri path d a u : nth_error subs i = Some s -> index r 0 = Ok cs -> index r 1 = Ok rs ->
    index cs i = Ok (VInt ci) -> index rs i = Ok ri -> place s ci ri path d a u ->
    place (SOr subs b ch) c r (i :: path) d a u
| PlExt k b pre con c r path d a u : place con c r path d a u -> place (SExt k b pre (Some con)) c r path d a u.
End P.

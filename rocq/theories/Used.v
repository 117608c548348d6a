(** Objects with primitives that have been used before: by calls of prove() that succeeded or failed at any point, and by calls of
    verify(). *)
From Verif Require Import Base World Val Expr Utils Stmt Prove Failed Session.
Open Scope Z_scope.
Open Scope list_scope.

Section R.
Context {W : World}.

(** ** Specification *)

(** The keys of the dictionary are among the secrets [U]. *)
Definition keyed_by (U : list secret) (d : dict Z) : Prop := forall k v, In (k, v) d -> In k U.
(** A life of the object [s]: get_prover() with dictionaries over [U] in any states, whether it succeeds or not; and calls that leave
    anything in the primitives of the statement and do not change the rest. The latter are the steps of prove() after get_prover(),
    and verify(), completed (C72_prove_is_use, C72_verify_is_use) or interrupted by an exception. *)
Inductive uses (U : list secret) : stmt -> stmt -> Prop :=
| UsNone s : uses U s s
| UsGet s sd a r s1 a1 s2 : keyed_by U sd -> attempt s sd a = (r, s1, a1) -> uses U s1 s2 -> uses U s s2
| UsIn s s1 s2 : bare s1 = bare s -> uses U s1 s2 -> uses U s s2.
(** The secrets of the representations outside of primitives, and the keys of their dictionaries, are among [U]. *)
Inductive over (U : list secret) : stmt -> Prop :=
| OvDL d : incl (dl_secs d) U -> keyed_by U (dl_vals d) -> over U (SDL d)
| OvAnd subs b : Forall (over U) subs -> over U (SAnd subs b)
| OvOr subs b ch : Forall (over U) subs -> over U (SOr subs b ch)
| OvExt k b pre con : over U (SExt k b pre con).
(** The dictionary has values for the secrets of the representations outside of primitives. *)
Inductive gives (sd : dict Z) : stmt -> Prop :=
| GiDL d : (forall x, In x (dl_secs d) -> exists v, In (x, v) sd) -> gives sd (SDL d)
| GiAnd subs b : Forall (gives sd) subs -> gives sd (SAnd subs b)
| GiOr subs b ch : Forall (gives sd) subs -> gives sd (SOr subs b ch)
| GiExt k b pre con : gives sd (SExt k b pre con).
End R.

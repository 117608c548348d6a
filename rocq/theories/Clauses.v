(** Occurrences of secrets in a composed statement, independently of the validation code. *)
From Coq Require Import String.
From Verif Require Import Base World Val Expr Utils Stmt Prove Shapes.
Open Scope list_scope.

Section C.
Context {W : World}.

(** [clause V s pre o post]: [o] is an or-clause of the conjunction [s] (conjunctions may be
    nested); [pre] and [post] are the secrets of [s] before and after [o], [V] giving the secrets
    of a statement. *)
Inductive clause (V : stmt -> list secret) : stmt -> list secret -> stmt -> list secret -> Prop :=
| ClHere subs b c : clause V (SOr subs b c) [] (SOr subs b c) []
| ClAnd l1 s l2 b pre o post : clause V s pre o post ->
    clause V (SAnd (l1 ++ s :: l2) b) (List.concat (map V l1) ++ pre) o
             (post ++ List.concat (map V l2)).

(** The values of the Secret objects after the dictionary [sd] has been supplied. *)
Definition after_giving (sd : dict Z) (e : nat -> option Z) (i : nat) : option Z :=
  fold_left (fun v (kv : secret * Z) => if Nat.eqb (sid (fst kv)) i then Some (snd kv) else v) sd (e i).

(** Two Secret objects are the same secret for Python: same name and same value. *)
Definition same_secret (e : nat -> option Z) (x y : secret) : Prop :=
  sname x = sname y /\ e (sid x) = e (sid y).

(** Some secret occurs in an or-clause and also outside of that clause. *)
Definition inside_and_outside (e : nat -> option Z) (s : stmt) : Prop :=
  exists pre o post x y, clause svars s pre o post /\ In x (svars o) /\ In y (pre ++ post) /\ same_secret e x y.

(** Positions of the secrets and of their bases run in parallel. One secret is used with bases
    of groups of different orders. *)
Definition order_clash (e : nat -> option Z) (ss : list secret) (bs : list pt) : Prop :=
  exists x b y c, In (x, b) (combine ss bs) /\ In (y, c) (combine ss bs) /\ same_secret e x y /\
    order (grp b) <> order (grp c).
Definition order_clash_in (e : nat -> option Z) (s : stmt) : Prop :=
  exists bs, get_bases s = Ok bs /\ order_clash e (svars s) bs.

Definition composed (s : stmt) : Prop := match s with SAnd _ _ | SOr _ _ _ => True | _ => False end.

(** Which of the two offences a statement commits by itself: a conjunction must not have a secret
    inside and outside of an or-clause, neither kind of composition may mix group orders. *)
Definition bad_secrets (e : nat -> option Z) (s : stmt) : Prop :=
  match s with SAnd _ _ => inside_and_outside e s | _ => False end.
Definition bad_orders (e : nat -> option Z) (s : stmt) : Prop :=
  match s with SAnd _ _ | SOr _ _ _ => order_clash_in e s | _ => False end.

(** [really s p s']: the prover [p] of [s] proves [s'] honestly (does not simulate it) as a part of
    its work: all parts of a conjunction, the chosen branch of a disjunction, the statement that an
    extended statement was turned into. *)
Inductive really : stmt -> prover -> stmt -> Prop :=
| ReHere s p : really s p s
| ReAnd subs b ps i s p s' : nth_error subs i = Some s -> nth_error ps i = Some p ->
    really s p s' -> really (SAnd subs b) (PAnd ps) s'
| ReOr subs b ch i sp sims s s' : nth_error subs i = Some s -> really s sp s' ->
    really (SOr subs b ch) (POr i sp sims) s'
| ReExt k b pre c sv q s' : really c q s' ->
    really (SExt k b pre (Some c)) (PExt sv (Some (Some q))) s'.

(** [part s sd st e s']: get_prover (with the values [sd]) and precommit turn the statement [s] into one
    with inner statements and a prover for it; [s'] is a part of it that is really proved; [e] are
    the values of the secrets at that time. *)
Definition part (s : stmt) (sd : dict Z) (a : st) (e : nat -> option Z) (s' : stmt) : Prop :=
  exists p s1 a1 pre p2 s2 a2, get_prover s sd a = Ok ((Some p, s1), a1) /\
    precommit s1 p a1 = Ok ((pre, p2, s2), a2) /\ e = env a2 /\ really s2 p2 s'.

(** The operands of a chain of & or of |. *)
Definition ands (s : stmt) : list stmt := match s with SAnd l _ => l | _ => [s] end.
Definition ors (s : stmt) : list stmt := match s with SOr l _ _ => l | _ => [s] end.
(** Conjunctions and disjunctions have at least two parts (the constructors refuse anything else). *)
Definition sized (s : stmt) : Prop :=
  match s with SAnd l _ => (2 <= List.length l)%nat | SOr l _ _ => (2 <= List.length l)%nat | _ => True end.
Definition is_and (s : stmt) : Prop := exists l b, s = SAnd l b.
Definition is_or (s : stmt) : Prop := exists l b c, s = SOr l b c.
Definition flat_and (s : stmt) : Prop := forall x, In x (ands s) -> ~ is_and x.
Definition flat_or (s : stmt) : Prop := forall x, In x (ors s) -> ~ is_or x.
End C.

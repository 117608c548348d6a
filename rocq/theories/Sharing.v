(** Specification: which objects a statement object consists of, and what building a statement means if statements were
    values. *)
From Coq Require Import String.
From Verif Require Import Base World Val Expr Utils Stmt Prove Verify Objects.
Open Scope Z_scope.
Open Scope list_scope.

Section S.
Context {W : World}.

(** The identities of an object and of all objects below it, with repetitions; those below it; the dictionaries. *)
Fixpoint ids (o : obj) : list nat :=
  match o with
  | ODL i _ _ _ _ => [i]
  | OAnd i subs | OOr i subs => i :: List.concat (map ids subs)
  | OExt i _ => [i]
  end.
Definition inner (o : obj) : list nat := tl (ids o).
Fixpoint dids (o : obj) : list nat :=
  match o with
  | ODL _ _ _ _ di => [di]
  | OAnd _ subs | OOr _ subs => List.concat (map dids subs)
  | OExt _ _ => []
  end.
(** No object occurs twice. (A dictionary may.) *)
Definition unshared (o : obj) : Prop := NoDup (ids o).
(** The object exists. *)
Definition exists_in (h : store) (o : obj) : Prop := Forall (fun i => (i < nxt h)%nat) (ids o ++ dids o).
(** Two statement objects without a common object, and without a common dictionary. *)
Definition apart (a b : obj) : Prop := forall i, In i (ids a) -> ~ In i (ids b).
Definition dicts_apart (a b : obj) : Prop := forall i, In i (dids a) -> ~ In i (dids b).

(** No statement with precommitments. *)
Fixpoint plain (o : obj) : Prop :=
  match o with
  | ODL _ _ _ _ _ => True
  | OAnd _ subs | OOr _ subs => (fix go l := match l with [] => True | x :: l => plain x /\ go l end) subs
  | OExt _ _ => False
  end.

(** Results without the final store and statement. *)
Definition outcome {A B} (r : res ((A * B) * st)) : res (A * st) :=
  match r with Ok ((a, _), s) => Ok (a, s) | Err e => Err e end.

(** What the expression means if statements were values: [vals] are the variables. *)
Fixpoint meant (e : sexp) (vals : list stmt) : M stmt :=
  match e with
  | BVar i => match nth_error vals i with Some s => ret s | None => raise ENameErr end
  | BDL lhs x sim => lift2 (mk_dlrep lhs x sim)
  | BExt k sim => ret (SExt k sim VNone None)
  | BAnd l => let! l := mapM (fun x => meant x vals) l in lift (mk_and l)
  | BOr l => let! l := mapM (fun x => meant x vals) l in lift (mk_or l)
  | BConj a b => let! x := meant a vals in let! y := meant b vals in lift (and_op x y)
  | BDisj a b => let! x := meant a vals in let! y := meant b vals in lift (or_op x y)
  end.
(** The variables of an expression, with repetitions. *)
Fixpoint bvars (e : sexp) : list nat :=
  match e with
  | BVar i => [i]
  | BDL _ _ _ | BExt _ _ => []
  | BAnd l | BOr l => List.concat (map bvars l)
  | BConj a b | BDisj a b => bvars a ++ bvars b
  end.
(** The objects below the variables of an expression. *)
Definition below (vars : list obj) (e : sexp) : list nat :=
  List.concat (map (fun i => match nth_error vars i with Some o => inner o | None => [] end) (bvars e)).
End S.

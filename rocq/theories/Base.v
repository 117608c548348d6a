(** Python-level infrastructure shared by every model file: results with exceptions, the state
    (values of [Secret] objects, randomness), and the small monad used to write the code of /repo
    as total Gallina functions. *)
From Coq Require Export ZArith List Bool Ascii Lia.
Export ListNotations.
Open Scope Z_scope.

(** Exceptions that can be raised by the modelled code.  The first group is
    /repo/zksk/exceptions.py:1-44 ; the second group are Python built-in exceptions raised by the
    expressions of the modelled functions; [EGroupOp] stands for the error raised by petlib/bplib
    when two points of different groups are added or paired. *)
Inductive exn :=
| EValidation | EStatementSpec | EStatementMismatch | EInvalidSecrets | EGroupMismatch
| EInvalidExpression | EIncompleteValues | EInconsistentChallenge
| EValueErr | EIndexErr | ETypeErr | EAttributeErr | EKeyErr | EException | ENameErr | EGroupOp.

Inductive res (A : Type) := Ok (a : A) | Err (e : exn).
Arguments Ok {A} a.
Arguments Err {A} e.

Definition rbind {A B} (r : res A) (f : A -> res B) : res B :=
  match r with Ok a => f a | Err e => Err e end.

Notation "'let?' x ':=' r 'in' k" := (rbind r (fun x => k))
  (at level 200, x pattern, right associativity).

Definition rmap {A B} (f : A -> res B) : list A -> res (list B) :=
  fix go l := match l with
              | [] => Ok []
              | x :: l => let? y := f x in let? ys := go l in Ok (y :: ys)
              end.

(** Machine state of one Python process as far as the modelled code is concerned.
    - [env]: the [value] attribute of every [Secret] object (None = Python None);
      object identities are natural numbers;
    - [tape], [pos]: the random source. Every call of [Bn.random] / [SystemRandom.choice] consumes
      one cell; theorems quantify over all tapes. *)
Record st := mkSt { env : nat -> option Z; tape : nat -> Z; pos : nat }.

(** Computations. On an exception the state is dropped: the model does not describe what a caller
    sees who catches an exception of the library and goes on with the half-updated objects. *)
Definition M (A : Type) := st -> res (A * st).

Definition ret {A} (a : A) : M A := fun s => Ok (a, s).
Definition raise {A} (e : exn) : M A := fun _ => Err e.
Definition bind {A B} (m : M A) (f : A -> M B) : M B :=
  fun s => match m s with Ok (a, s') => f a s' | Err e => Err e end.
Definition lift {A} (r : res A) : M A :=
  fun s => match r with Ok a => Ok (a, s) | Err e => Err e end.
Definition get_st : M st := fun s => Ok (s, s).
Definition get_env : M (nat -> option Z) := fun s => Ok (env s, s).

Notation "'let!' x ':=' m 'in' k" := (bind m (fun x => k))
  (at level 200, x pattern, right associativity).
Notation "m ';;' k" := (bind m (fun _ => k)) (at level 199, right associativity).

(** [Secret.value = v] for the object [i] (attribute assignment). *)
Definition upd {A} (f : nat -> A) (i : nat) (v : A) : nat -> A :=
  fun j => if Nat.eqb j i then v else f j.
Definition set_value (i : nat) (v : Z) : M unit :=
  fun s => Ok (tt, mkSt (upd (env s) i (Some v)) (tape s) (pos s)).

(** petlib [Bn.random]: [n.random()] is a number in [0, n). SystemRandom.choice over a list of
    length n is modelled the same way (index of the chosen element). *)
Definition draw (n : Z) : M Z :=
  fun s => Ok (tape s (pos s) mod n, mkSt (env s) (tape s) (S (pos s))).

Definition mapM {A B} (f : A -> M B) : list A -> M (list B) :=
  fix go l := match l with
              | [] => ret []
              | x :: l => let! y := f x in let! ys := go l in ret (y :: ys)
              end.

(** Parallel traversal of two lists; the shorter one decides (Python zip). *)
Definition zipM {A B C} (f : A -> B -> M C) : list A -> list B -> M (list C) :=
  fix go l m := match l, m with
                | x :: l, y :: m => let! z := f x y in let! zs := go l m in ret (z :: zs)
                | _, _ => ret []
                end.

(** Traversal with the index ([enumerate]). *)
Definition imapM {A B} (f : nat -> A -> M B) : nat -> list A -> M (list B) :=
  fix go i l := match l with
                | [] => ret []
                | x :: l => let! y := f i x in let! ys := go (S i) l in ret (y :: ys)
                end%nat.

Definition rimap {A B} (f : nat -> A -> res B) : nat -> list A -> res (list B) :=
  fix go i l := match l with
                | [] => Ok []
                | x :: l => let? y := f i x in let? ys := go (S i) l in Ok (y :: ys)
                end.

(** Byte strings and (ASCII) text. *)
Definition bytes := list ascii.
Definition bytes_eqb (a b : bytes) : bool := if list_eq_dec ascii_dec a b then true else false.
Lemma bytes_eqb_eq a b : bytes_eqb a b = true <-> a = b.
Proof. unfold bytes_eqb. destruct (list_eq_dec ascii_dec a b); split; congruence. Qed.

Definition is_some {A} (o : option A) : bool := match o with Some _ => true | None => false end.

(** Replace the element at position [i]. *)
Fixpoint replace {A} (i : nat) (a : A) (l : list A) : list A :=
  match l, i with
  | [], _ => []
  | _ :: l, O => a :: l
  | x :: l, S i => x :: replace i a l
  end.

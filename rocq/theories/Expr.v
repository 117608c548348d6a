(** Secrets, dictionaries keyed by secrets, expressions (/repo/zksk/expr.py). *)
From Verif Require Import Base World.

Section E.
Context {W : World}.

(** expr.py:95-115. A Secret object: its identity [sid] and its name. The [value] attribute is
    [env st (sid s)]. The automatically generated name (expr.py:113-115) is modelled in
    [Names]; here a Secret is created with some name. *)
Record secret := mkSecret { sid : nat; sname : bytes }.

Definition oz_eqb (a b : option Z) : bool :=
  match a, b with Some x, Some y => x =? y | None, None => true | _, _ => false end.

(** expr.py:141-145: [__hash__] depends on the name; [__eq__] compares hash and value.
    (A collision of Python's hash() on two names is not modelled.) *)
Definition sec_eqb (e : nat -> option Z) (s t : secret) : bool :=
  bytes_eqb (sname s) (sname t) && oz_eqb (e (sid s)) (e (sid t)).

(** Python dictionaries keyed by Secret objects, in insertion order. A lookup compares hash, then
    identity or [==]; identical objects are equal under [sec_eqb]. The values of the keys may change
    after insertion, so every operation takes the current environment. *)
Definition dict (A : Type) := list (secret * A).

Fixpoint dget {A} (e : nat -> option Z) (d : dict A) (s : secret) : option A :=
  match d with
  | [] => None
  | (k, v) :: d => if sec_eqb e k s then Some v else dget e d s
  end.
Definition dmem {A} e (d : dict A) s : bool := is_some (dget e d s).
(** d[s] = v: an existing equal key is kept, its value replaced. *)
Fixpoint dset {A} (e : nat -> option Z) (d : dict A) (s : secret) (v : A) : dict A :=
  match d with
  | [] => [(s, v)]
  | (k, w) :: d => if sec_eqb e k s then (k, v) :: d else (k, w) :: dset e d s v
  end.
(** d.update(d') *)
Definition dupdate {A} e (d d' : dict A) : dict A :=
  fold_left (fun d kv => dset e d (fst kv) (snd kv)) d' d.

(** set(l), in order of first occurrence. (The iteration order of a Python set is unspecified; it
    only matters for which random number goes to which secret.) *)
Fixpoint sec_mem e (s : secret) (l : list secret) : bool :=
  match l with [] => false | t :: l => sec_eqb e t s || sec_mem e s l end.
Definition sec_set e (l : list secret) : list secret :=
  fold_left (fun acc s => if sec_mem e s acc then acc else acc ++ [s]) l [].
(** l.count(s) *)
Definition sec_count e (s : secret) (l : list secret) : nat :=
  List.length (filter (fun t => sec_eqb e t s) l).

(** expr.py:177-193 update_secret_values *)
Definition update_secret_values (d : dict Z) : M unit :=
  fun s => Ok (tt, mkSt (fold_left (fun e (kv : secret * Z) => upd e (sid (fst kv)) (Some (snd kv))) d (env s))
                        (tape s) (pos s)).

(** expr.py:20-43. Expressions as values (the in-place update of [__add__] is in Heap.v). *)
Record expr := mkExpr { e_secs : list secret; e_bases : list pt }.
(** Secret.__mul__, expr.py:117-129 *)
Definition emul (s : secret) (b : pt) : expr := mkExpr [s] [b].
(** the value of [__add__], expr.py:45-61 *)
Definition eadd (a b : expr) : expr := mkExpr (e_secs a ++ e_secs b) (e_bases a ++ e_bases b).

(** expr.py:148-174 *)
Definition wsum_secrets (ss : list secret) (bs : list pt) : res expr :=
  if Nat.eqb (length ss) (length bs) then
    match ss, bs with
    | s :: ss, b :: bs =>
        Ok (fold_left (fun acc sb => eadd acc (emul (fst sb) (snd sb))) (combine ss bs) (emul s b))
    | _, _ => Err EIndexErr
    end
  else Err EValueErr.

(** expr.py:71-86: all values are checked first, then the sum is accumulated from the left. *)
Definition eval (x : expr) : M pt :=
  let! e := get_env in
  let! vs := mapM (fun s => match e (sid s) with
                            | Some v => ret v
                            | None => raise EIncompleteValues end) (e_secs x) in
  match combine vs (e_bases x) with
  | (v, b) :: r =>
      lift (fold_left (fun acc vb => let? a := acc in padd_chk a (pmul (fst vb) (snd vb))) r
                      (Ok (pmul v b)))
  | [] => raise EIndexErr
  end.
End E.

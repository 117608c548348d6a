(** Expression objects of /repo/zksk/expr.py: [__add__] works in place. Everywhere else in the model expressions are
    values; HeapProofs.v says when that makes no difference. *)
From Coq Require Import String.
From Verif Require Import Base World Val Expr.
Open Scope Z_scope.
Open Scope list_scope.

Section H.
Context {W : World}.

(** The Expression objects made so far, by number. An object owns its lists [_secrets] and [_bases] (expr.py:42-43);
    nothing else refers to them: the properties secrets and bases return copies (expr.py:63-69). *)
Definition heap := list expr.
Fixpoint hset (h : heap) (i : nat) (x : expr) : heap :=
  match h, i with
  | [], _ => []
  | _ :: h, O => x :: h
  | y :: h, S i => y :: hset h i x
  end.

(** Secret.__mul__ and Expression.__init__, expr.py:35-43, 117-129: a new object *)
Definition h_mul (s : secret) (b : pt) (h : heap) : nat * heap := (List.length h, h ++ [emul s b]).
(** Expression.__add__, expr.py:45-61: [list.extend] in the left operand, which is the result. The right operand is
    read before (extend with the list itself doubles it). *)
Definition h_add (i j : nat) (h : heap) : res (nat * heap) :=
  match nth_error h i, nth_error h j with
  | Some x, Some y => Ok (i, hset h i (eadd x y))
  | _, _ => Err ENameErr
  end.

(** Python expressions made of products, variables holding expression objects, and sums. *)
Inductive term :=
| TMul (s : secret) (b : pt)
| TVar (i : nat)
| TAdd (a b : term).
Fixpoint h_run (t : term) (h : heap) : res (nat * heap) :=
  match t with
  | TMul s b => Ok (h_mul s b h)
  | TVar i => match nth_error h i with Some _ => Ok (i, h) | None => Err ENameErr end
  | TAdd a b =>
    let? (i, h) := h_run a h in
    let? (j, h) := h_run b h in
    h_add i j h
  end.

(** expr.py:148-174 wsum_secrets *)
Definition h_wsum (ss : list secret) (bs : list pt) (h : heap) : res (nat * heap) :=
  if Nat.eqb (List.length ss) (List.length bs) then
    match ss, bs with
    | s :: ss, b :: bs =>
        fold_left (fun acc sb => let? (i, h) := acc in let (j, h) := h_mul (fst sb) (snd sb) h in h_add i j h)
                  (combine ss bs) (Ok (h_mul s b h))
    | _, _ => Err EIndexErr
    end
  else Err EValueErr.

(** ** What is expected *)
(** States that programs can reach. *)
Inductive reached : heap -> Prop :=
| RNil : reached []
| RRun t h i h' : reached h -> h_run t h = Ok (i, h') -> reached h'
| RSum ss bs h i h' : reached h -> h_wsum ss bs h = Ok (i, h') -> reached h'.
(** The value of a term if expressions were values. *)
Fixpoint meaning (t : term) (h : heap) : res expr :=
  match t with
  | TMul s b => Ok (emul s b)
  | TVar i => match nth_error h i with Some x => Ok x | None => Err ENameErr end
  | TAdd a b => let? x := meaning a h in let? y := meaning b h in Ok (eadd x y)
  end.
(** The variables of a term, and those at the left end of a sum. *)
Fixpoint tvars (t : term) : list nat :=
  match t with TMul _ _ => [] | TVar i => [i] | TAdd a b => tvars a ++ tvars b end.
Fixpoint head (t : term) : list nat :=
  match t with TMul _ _ => [] | TVar i => [i] | TAdd a _ => head a end.
Fixpoint heads (t : term) : list nat :=
  match t with TAdd a b => head a ++ heads a ++ heads b | _ => [] end.
End H.

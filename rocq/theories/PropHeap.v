(** C02: additions of expression objects. [h_add i j] is the Python addition of the objects number i and j of a heap. *)
From Coq Require Import String.
From Verif Require Import Base World Val Expr Heap HeapProofs ZqWorld Ex.
Open Scope Z_scope.
Open Scope list_scope.

(** The value is right (the terms of the left operand, then those of the right one); every object except the left operand
    keeps its value, so also the right one if it is another object. *)
Theorem C02_sum_partial : forall (W : World) i j h x y,
  nth_error h i = Some x -> nth_error h j = Some y ->
  exists h', h_add i j h = Ok (i, h') /\
    nth_error h' i = Some (mkExpr (e_secs x ++ e_secs y) (e_bases x ++ e_bases y)) /\
    (forall k, k <> i -> nth_error h' k = nth_error h k).
Proof. exact @add_right_kept. Qed.
Print Assumptions C02_sum_partial.

(** The left operand is changed by every addition, in every state that programs reach. *)
Theorem C02_left_operand_refuted : forall (W : World) h i j x,
  reached h -> nth_error h i = Some x -> nth_error h j <> None ->
  exists h' x', h_add i j h = Ok (i, h') /\ nth_error h' i = Some x' /\ x' <> x.
Proof. exact @left_changed. Qed.
Print Assumptions C02_left_operand_refuted.

(** A sub-expression reused: with c = e + a and d = e + b, d also has the terms of a. *)
Theorem C02_reuse_refuted : forall (W : World) i a b h x y z,
  nth_error h i = Some x -> nth_error h a = Some y -> nth_error h b = Some z -> a <> i -> b <> i ->
  exists h1 h2, h_add i a h = Ok (i, h1) /\ h_add i b h1 = Ok (i, h2) /\ nth_error h2 i = Some (eadd (eadd x y) z).
Proof. exact @reuse. Qed.
Print Assumptions C02_reuse_refuted.

(** Programs in which no variable is used twice compute what they would with values; only variables at the left end of a sum
    change. *)
Theorem C02_linear_use_partial : forall (W : World) t h,
  (forall i, In i (tvars t) -> (i < List.length h)%nat) -> NoDup (tvars t) ->
  exists i h' x, h_run t h = Ok (i, h') /\ meaning t h = Ok x /\ nth_error h' i = Some x /\
    (In i (head t) \/ head t = [] /\ (List.length h <= i)%nat) /\ (List.length h <= List.length h')%nat /\ (i < List.length h')%nat /\
    (forall k, (k < List.length h)%nat -> ~ In k (heads t) -> nth_error h' k = nth_error h k).
Proof. exact @run_spec. Qed.
Print Assumptions C02_linear_use_partial.

(** wsum_secrets returns a new object with the right value and changes no other. *)
Theorem C02_wsum_secrets_pure : forall (W : World) ss bs h, match wsum_secrets ss bs, h_wsum ss bs h with
  | Ok x, Ok (i, h') => i = List.length h /\ nth_error h' i = Some x /\ forall k, (k < List.length h)%nat -> nth_error h' k = nth_error h k
  | Err e, Err e' => e = e'
  | _, _ => False
  end.
Proof. exact @h_wsum_spec. Qed.
Print Assumptions C02_wsum_secrets_pure.

(** e = x*G; c = e + y*H; d = e + z*H *)
Definition exHeap : heap := [emul (X 0 "x") (Pt 3); emul (X 1 "y") (Pt 5); emul (X 2 "z") (Pt 5)].
Example C02_ex :
  reached exHeap /\
  match h_run (TAdd (TVar 0) (TVar 1)) exHeap with
  | Ok (i, h) => match h_run (TAdd (TVar 0) (TVar 2)) h with
      | Ok (j, h') => i = 0%nat /\ j = 0%nat /\ option_map e_secs (nth_error h' 0) = Some [X 0 "x"; X 1 "y"; X 2 "z"] | _ => False end
  | _ => False end /\
  NoDup (tvars (TAdd (TAdd (TMul (X 3 "u") (Pt 7)) (TVar 1)) (TVar 2) : term)) /\
  heads (TAdd (TAdd (TMul (X 3 "u") (Pt 7)) (TVar 1)) (TVar 2) : term) = [] /\
  match h_wsum [X 0 "x"; X 1 "y"] [Pt 3; Pt 5] exHeap with Ok (i, h') => i = 3%nat /\ List.length h' = 5%nat | _ => False end.
Proof.
  split.
  { apply (RRun (TMul (X 2 "z") (Pt 5)) [emul (X 0 "x") (Pt 3); emul (X 1 "y") (Pt 5)] 2); [|reflexivity].
    apply (RRun (TMul (X 1 "y") (Pt 5)) [emul (X 0 "x") (Pt 3)] 1); [|reflexivity].
    apply (RRun (TMul (X 0 "x") (Pt 3)) [] 0); [constructor|reflexivity]. }
  split; [repeat split|]. split; [repeat constructor; simpl; lia|]. split; [reflexivity|]. split; reflexivity.
Qed.

(** Vocabulary: how many sequences of random numbers lead to an event. *)
From Verif Require Import Base Oracle.
Open Scope Z_scope.
Open Scope list_scope.

(** All sequences of [n] numbers, the j-th one below [q j]. *)
Fixpoint box (n : nat) (q : nat -> Z) : list (list Z) :=
  match n with O => [[]] | S n => flat_map (fun l => map (fun v => l ++ [Z.of_nat v]) (seq 0 (Z.to_nat (q n)))) (box n q) end.
(** The random numbers of such a sequence; the numbers after them are not used. *)
Definition vec (l : list Z) : nat -> Z := fun j => nth j l 0.
(** How many of these sequences lead to the event [E]. *)
Definition chances {A} (n : nat) (q : nat -> Z) (E : A -> bool) (f : (nat -> Z) -> A) : Z := count (fun l => E (f (vec l))) (box n q).

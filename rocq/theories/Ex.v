(** Concrete objects used in the examples: a group of prime order 101, its points, secrets,
    states. *)
From Coq Require Import String Znumtheory.
From Verif Require Import Base World Val Expr Utils Stmt Prove Verify ZqWorld.
Open Scope Z_scope.
Open Scope list_scope.

Definition G101 : zgid := (0%N, 99%N).
Definition Pt (v : Z) : @pt Zq := zmk G101 v.
Definition X (i : nat) (n : string) : secret := mkSecret i (lit n).
Definition st0 : st :=
  mkSt (fun _ => None) (fun i => 7919 * Z.of_nat i * Z.of_nat i + 12345) 0.
Definition with_vals (l : list (nat * Z)) : st :=
  mkSt (fold_left (fun e p => upd e (fst p) (Some (snd p))) l (fun _ => None)) (tape st0) 0.
Definition run {A} (m : M A) (s : st) : res A :=
  match m s with Ok (a, _) => Ok a | Err e => Err e end.

(** trial division *)
Definition no_divisor (p : Z) : bool :=
  forallb (fun d => negb (p mod d =? 0)) (map (fun i => Z.of_nat i + 2) (seq 0 (Z.to_nat p - 2))).
Lemma prime_check p : 1 < p -> no_divisor p = true -> prime p.
Proof.
  intros H C. apply prime_intro; auto. intros n Hn.
  apply Zgcd_1_rel_prime. assert (G := Z.gcd_nonneg n p).
  destruct (Z.gcd_divide_l n p) as [a Ha], (Z.gcd_divide_r n p) as [b Hb].
  destruct (Z.eq_dec (Z.gcd n p) 1) as [|N]; auto. exfalso.
  assert (Z.gcd n p <> 0) by (intros K; rewrite K in Ha; lia).
  assert (Z.gcd n p <= n) by (apply Z.divide_pos_le; [lia|exists a; auto]).
  unfold no_divisor in C. rewrite forallb_forall in C.
  assert (K : negb (p mod Z.gcd n p =? 0) = true).
  { apply C, in_map_iff. exists (Z.to_nat (Z.gcd n p - 2)).
    split; [rewrite Z2Nat.id; lia|]. apply in_seq. lia. }
  rewrite (Znumtheory.Zdivide_mod p (Z.gcd n p)) in K by (exists b; auto). discriminate.
Qed.
Lemma prime101 : prime 101.
Proof. apply prime_check; [lia|vm_compute; reflexivity]. Qed.
Lemma prime_G101 : prime (@order Zq G101).
Proof. exact prime101. Qed.

(** A large prime, for examples with groups of realistic order: Proth's criterion. *)
From Coq Require Import ZArith List Znumtheory Zpow_facts Lia.
Import ListNotations.
Open Scope Z_scope.

(** a^(2^n) mod m *)
Fixpoint sqn (n : nat) (a m : Z) : Z := match n with O => a mod m | S n => sqn n (a * a mod m) m end.
Lemma sqn_ok n : forall a m, 0 < m -> sqn n a m = a ^ (2 ^ Z.of_nat n) mod m.
Proof.
  induction n as [|n IH]; intros a m H.
  - cbn [sqn]. change (2 ^ Z.of_nat 0) with 1. now rewrite Z.pow_1_r.
  - cbn [sqn]. rewrite IH by auto. rewrite Zpower_mod by lia. rewrite Z.mod_mod by lia. rewrite <- Zpower_mod by lia.
    f_equal. rewrite Nat2Z.inj_succ, Z.pow_succ_r by lia. rewrite Z.pow_mul_r by (try lia; apply Z.pow_nonneg; lia).
    now rewrite Z.pow_2_r.
Qed.

Lemma NoDup_map_in {A B} (f : A -> B) l : (forall x y, In x l -> In y l -> f x = f y -> x = y) -> NoDup l -> NoDup (map f l).
Proof.
  intros I N. induction N as [|x l Hx N IH]; simpl; constructor.
  - intros H. apply in_map_iff in H as (y & E & Hy). apply Hx. rewrite (I x y); auto; [now left|now right].
  - apply IH. intros; apply I; auto; now right.
Qed.
Lemma odd_part (n : nat) : forall t, 0 < t <= Z.of_nat n -> exists s u, 0 <= s /\ t = 2 ^ s * (2 * u + 1) /\ 0 <= u.
Proof.
  induction n as [|n IH]; intros t H; [lia|]. destruct (Z.Even_or_Odd t) as [[k K]|[k K]].
  - destruct (IH k) as (s & u & S & E & U); [lia|]. exists (s + 1), u. rewrite Z.pow_add_r by lia. change (2 ^ 1) with 2. lia.
  - exists 0, k. change (2 ^ 0) with 1. lia.
Qed.

Section P.
Variables (b d : Z) (m : nat).
Hypothesis Hd : 2 < d.
Hypothesis Hm : (0 < m)%nat.
Hypothesis Hb : (d | b ^ (2 ^ Z.of_nat (m - 1)) + 1).

Lemma cong_pow x y k : 0 <= k -> (d | x - y) -> (d | x ^ k - y ^ k).
Proof.
  intros K [q E]. replace x with (y + q * d) by lia. apply Zmod_divide; [lia|].
  rewrite Zminus_mod, (Zpower_mod (y + q * d)) by lia. rewrite Z_mod_plus_full, <- Zpower_mod by lia.
  now rewrite Z.sub_diag, Z.mod_0_l by lia.
Qed.
Lemma m1_pow u : 0 <= u -> (-1) ^ (2 * u + 1) = -1.
Proof. intros U. rewrite Z.pow_add_r, Z.pow_mul_r by lia. change ((-1) ^ 2) with 1. rewrite Z.pow_1_l by lia. reflexivity. Qed.

(** no power of b below 2^m is 1 *)
Lemma no_one t : 0 < t < 2 ^ Z.of_nat m -> ~ (d | b ^ t - 1).
Proof.
  intros T D. destruct (odd_part (Z.to_nat t) t) as (s & u & S & E & U); [lia|].
  assert (Ls : s < Z.of_nat m). { apply (Z.pow_lt_mono_r_iff 2); try lia; nia. }
  assert (D1 : (d | b ^ (2 ^ Z.of_nat (m - 1) * (2 * u + 1)) - 1)).
  { replace (2 ^ Z.of_nat (m - 1) * (2 * u + 1)) with (t * 2 ^ (Z.of_nat (m - 1) - s)).
    - rewrite Z.pow_mul_r by (try lia; apply Z.pow_nonneg; lia).
      rewrite <- (Z.pow_1_l (2 ^ (Z.of_nat (m - 1) - s))) by (apply Z.pow_nonneg; lia).
      apply cong_pow; auto. apply Z.pow_nonneg; lia.
    - rewrite E. replace (Z.of_nat (m - 1)) with (s + (Z.of_nat (m - 1) - s)) at 2 by lia. rewrite Z.pow_add_r by lia. ring. }
  assert (D2 : (d | b ^ (2 ^ Z.of_nat (m - 1) * (2 * u + 1)) - -1)).
  { rewrite Z.pow_mul_r by (try lia; apply Z.pow_nonneg; lia). rewrite <- (m1_pow u) by lia. apply cong_pow; [lia|].
    replace (_ - -1) with (b ^ 2 ^ Z.of_nat (m - 1) + 1) by lia. exact Hb. }
  assert (D3 : (d | 2)). { replace 2 with (b ^ (2 ^ Z.of_nat (m - 1) * (2 * u + 1)) - -1 - (b ^ (2 ^ Z.of_nat (m - 1) * (2 * u + 1)) - 1)) by lia.
    now apply Z.divide_sub_r. }
  apply Z.divide_pos_le in D3; lia.
Qed.

Lemma inv_b : exists b', (d | b * b' - 1).
Proof.
  assert (0 < 2 ^ Z.of_nat (m - 1)) by (apply Z.pow_pos_nonneg; lia).
  exists (- b ^ (2 ^ Z.of_nat (m - 1) - 1)).
  replace (b * - b ^ (2 ^ Z.of_nat (m - 1) - 1) - 1) with (- (b ^ 2 ^ Z.of_nat (m - 1) + 1)).
  - now apply Z.divide_opp_r.
  - replace (2 ^ Z.of_nat (m - 1)) with (1 + (2 ^ Z.of_nat (m - 1) - 1)) at 1 by lia. rewrite Z.pow_add_r by lia. lia.
Qed.
Lemma cancel_pow i x : 0 <= i -> (d | b ^ i * x) -> (d | x).
Proof.
  intros I D. destruct inv_b as [b' B].
  assert (B1 := cong_pow (b * b') 1 i I B). rewrite Z.pow_1_l, Z.pow_mul_l in B1 by lia.
  replace x with (b' ^ i * (b ^ i * x) - (b ^ i * b' ^ i - 1) * x) by ring.
  apply Z.divide_sub_r; [now apply Z.divide_mul_r|now apply Z.divide_mul_l].
Qed.

Lemma divisor_big : 2 ^ Z.of_nat m < d.
Proof.
  set (n := Z.to_nat (2 ^ Z.of_nat m)). assert (0 < 2 ^ Z.of_nat m) by (apply Z.pow_pos_nonneg; lia).
  set (l := map (fun i => b ^ Z.of_nat i mod d) (seq 0 n)).
  assert (ND : NoDup l).
  { apply NoDup_map_in; [|apply seq_NoDup].
    intros i j Hi Hj E. apply in_seq in Hi, Hj.
    assert (G : forall i j, (i < j < n)%nat -> b ^ Z.of_nat i mod d <> b ^ Z.of_nat j mod d).
    { clear i j Hi Hj E. intros i j L E. apply (no_one (Z.of_nat (j - i))); [lia|]. apply (cancel_pow (Z.of_nat i)); [lia|].
      rewrite Z.mul_sub_distr_l, Z.mul_1_r, <- Z.pow_add_r by lia. replace (Z.of_nat i + Z.of_nat (j - i)) with (Z.of_nat j) by lia.
      apply Zmod_divide; [lia|]. rewrite Zminus_mod, E, Z.sub_diag. apply Z.mod_0_l. lia. }
    destruct (Nat.lt_total i j) as [L|[L|L]]; auto; exfalso; [apply (G i j)|apply (G j i)]; auto; lia. }
  assert (IN : incl l (map Z.of_nat (seq 1 (Z.to_nat d - 1)))).
  { intros x Hx. apply in_map_iff in Hx as (i & <- & Hi). apply in_map_iff.
    assert (B := Z.mod_pos_bound (b ^ Z.of_nat i) d ltac:(lia)).
    assert (NZ : b ^ Z.of_nat i mod d <> 0). { intros Z0. apply Zmod_divide in Z0; [|lia].
      rewrite <- (Z.mul_1_r (b ^ Z.of_nat i)) in Z0. apply cancel_pow in Z0; [|lia]. apply Z.divide_pos_le in Z0; lia. }
    exists (Z.to_nat (b ^ Z.of_nat i mod d)). rewrite Z2Nat.id by lia. split; auto. apply in_seq. lia. }
  assert (L := NoDup_incl_length ND IN). unfold l in L. rewrite !map_length, !seq_length in L. unfold n in L. lia.
Qed.
End P.

(** N = k 2^m + 1 with k < 2^m is prime if a^((N-1)/2) = -1 modulo N for some a. *)
Lemma proth k (m : nat) a : (0 < m)%nat -> 0 < k < 2 ^ Z.of_nat m -> let N := k * 2 ^ Z.of_nat m + 1 in
  (sqn (m - 1) (a ^ k) N + 1) mod N = 0 -> prime N.
Proof.
  intros Hm Hk N H. assert (P : 2 <= 2 ^ Z.of_nat m).
  { change 2 with (2 ^ 1) at 1. apply Z.pow_le_mono_r; lia. }
  assert (N2 : 2 < N) by (unfold N; nia).
  rewrite sqn_ok, Zplus_mod_idemp_l in H by lia. apply Zmod_divide in H; [|lia].
  assert (B : forall d, 1 < d -> (d | N) -> 2 ^ Z.of_nat m < d).
  { intros d D1 DN. apply (divisor_big (a ^ k)); auto.
    - destruct (Z.eq_dec d 2) as [->|]; [|lia]. destruct DN as [q Q]. unfold N in Q.
      replace (Z.of_nat m) with (1 + (Z.of_nat m - 1)) in Q by lia. rewrite Z.pow_add_r in Q by lia. change (2 ^ 1) with 2 in Q. lia.
    - eapply Z.divide_trans; eauto. }
  destruct (prime_dec N) as [|NP]; auto. exfalso.
  destruct (not_prime_divide N ltac:(lia) NP) as (d & D & DN). assert (DN' := DN). destruct DN' as [e E].
  assert (1 < e) by nia. assert (B1 := B d ltac:(lia) DN). assert (B2 := B e ltac:(lia) ltac:(exists d; lia)).
  unfold N in E. nia.
Qed.

Definition bigp : Z := 5 * 2 ^ 127 + 1.
Lemma prime_bigp : prime bigp.
Proof. apply (proth 5 127 3); [lia|vm_compute; auto|vm_compute; reflexivity]. Qed.
Lemma bigp_size : 2 ^ 129 <= bigp.
Proof. vm_compute. discriminate. Qed.

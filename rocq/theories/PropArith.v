(** Properties C01, C03, C04, C05, C32 (arithmetic part), C40, C41 (random numbers). *)
From Coq Require Import String.
From Verif Require Import Base World Val Expr Utils Stmt Spec Shapes Lib ArithProofs GenProofs ZqWorld Ex.
Open Scope Z_scope.
Open Scope list_scope.

(** C01. [expr_of_terms] is the expression x0*g0 + x1*g1 + ... ; [wsum_secrets] builds the same
    expression; evaluation is the linear combination of the current values, or IncompleteValues,
    or (bases of different groups) the error of the group operation; nothing is modified. *)
Theorem C01_expression_eval : forall (W : World) (t : secret * pt) (ts : list (secret * pt)) (s : st),
  let x := expr_of_terms t ts in
  let g := grp (snd t) in
  (forall vs, Forall2 (fun t v => env s (sid (fst t)) = Some v) (t :: ts) vs ->
     in_group g (map snd ts) -> eval x s = Ok (lincomb g vs (map snd (t :: ts)), s)) /\
  (Exists (fun t => env s (sid (fst t)) = None) (t :: ts) -> eval x s = Err EIncompleteValues) /\
  (Forall (fun t => env s (sid (fst t)) <> None) (t :: ts) ->
   Exists (fun t => grp (snd t) <> g) ts -> eval x s = Err EGroupOp).
Proof. exact @expr_eval_l. Qed.
Print Assumptions C01_expression_eval.

Theorem C01_wsum_secrets : forall (W : World) (t : secret * pt) (ts : list (secret * pt)),
  wsum_secrets (map fst (t :: ts)) (map snd (t :: ts)) = Ok (expr_of_terms t ts).
Proof. exact @wsum_secrets_terms. Qed.
Print Assumptions C01_wsum_secrets.

Theorem C01_wsum_secrets_lengths : forall (W : World) (ss : list secret) (bs : list pt),
  length ss <> length bs -> wsum_secrets ss bs = Err EValueErr.
Proof. exact @wsum_secrets_len. Qed.
Print Assumptions C01_wsum_secrets_lengths.

Example C01_ex :
  run (eval (expr_of_terms (X 0 "x", Pt 3) [(X 1 "y", Pt 5); (X 0 "x", Pt 7)])) (with_vals [(0%nat, 4); (1%nat, -2)])
  = Ok (Pt (4*3 - 2*5 + 4*7)).
Proof. vm_compute. reflexivity. Qed.
Example C01_ex_missing :
  run (eval (expr_of_terms (X 0 "x", Pt 3) [(X 1 "y", Pt 5)])) (with_vals [(0%nat, 4)]) = Err EIncompleteValues.
Proof. vm_compute. reflexivity. Qed.

(** C03 *)
Theorem C03_modular_sum : forall arr m, 0 < m ->
  0 <= sum_bn_array arr m < m /\ (m | sum_bn_array arr m - zsum arr) /\
  (forall r, 0 <= r < m -> (m | r - zsum arr) -> r = sum_bn_array arr m).
Proof. exact sum_bn_array_spec_l. Qed.
Print Assumptions C03_modular_sum.
Example C03_ex : sum_bn_array [5; 7; -30] 10 = 2.
Proof. reflexivity. Qed.

(** C04. The last conjunct is the fact behind C12: the residual challenge is never positive. *)
Theorem C04_residual_challenge : forall subs c bits, 0 <= bits ->
  let r := find_residual subs c bits in
  (2 ^ bits | zsum subs + r - c) /\ (r = 0 <-> (2 ^ bits | zsum subs - c)) /\ - 2 ^ bits < r <= 0.
Proof. exact find_residual_spec_l. Qed.
Print Assumptions C04_residual_challenge.
Example C04_ex : find_residual [200; 100] 5 8 = -39 /\ find_residual [200; 61] 5 8 = 0.
Proof. split; reflexivity. Qed.

(** C05 *)
Theorem C05_bit_decomposition : forall v n,
  (0 <= v < 2 ^ Z.of_nat n ->
     exists bits, decompose v n = Ok bits /\ length bits = n /\
       Forall (fun b => b = 0 \/ b = 1) bits /\ binval bits = v) /\
  (~ 0 <= v < 2 ^ Z.of_nat n -> exists e, decompose v n = Err e).
Proof. exact decompose_spec_l. Qed.
Print Assumptions C05_bit_decomposition.
(** such a list of bits is unique *)
Theorem C05_bits_unique : forall a b,
  Forall (fun x => x = 0 \/ x = 1) a -> Forall (fun x => x = 0 \/ x = 1) b ->
  length a = length b -> binval a = binval b -> a = b.
Proof. exact binval_bits_inj. Qed.
Print Assumptions C05_bits_unique.
Example C05_ex : decompose 6 5 = Ok [0; 1; 1; 0; 0] /\ decompose 32 5 = Err EException.
Proof. split; reflexivity. Qed.

(** C32, arithmetic part, for all integers a, b, x (also b <= a). *)
Theorem C32_range_reduction : forall a b x,
  let n := Z.of_nat (num_bits (b - a - 1)) in let offset := 2 ^ n - (b - a) in
  (a <= x < b <-> (0 <= x - a < 2 ^ n /\ 0 <= x - a + offset < 2 ^ n)).
Proof. exact range_reduction_l. Qed.
Print Assumptions C32_range_reduction.
Example C32_ex : num_bits (14 - 8 - 1) = 3%nat /\ num_bits (3 - 8 - 1) = 3%nat /\ num_bits (-1) = 1%nat.
Proof. repeat split; reflexivity. Qed.

(** C40: determined by seed and count, consuming no randomness; a prefix for smaller counts. *)
Theorem C40_generators_deterministic_partial :
  forall (W : World) g bits seed n m s1 s2, (n <= m)%nat ->
  exists l, make_generators m g bits (Some seed) s1 = Ok (l, s1) /\
            make_generators n g bits (Some seed) s2 = Ok (firstn n l, s2) /\
            length l = m /\ in_group g l.
Proof. exact @make_generators_det_l. Qed.
Print Assumptions C40_generators_deterministic_partial.
(** The last part of C40 is false: seeds that differ by one give lists that overlap in all but one
    element, for every group, seed and count. *)
Theorem C40_distinct_seeds_refuted :
  forall (W : World) g bits seed n s,
  exists p l q, make_generators (S n) g bits (Some seed) s = Ok (p :: l, s) /\
                make_generators (S n) g bits (Some (seed + 1)) s = Ok (l ++ [q], s).
Proof. exact @make_generators_overlap_l. Qed.
Print Assumptions C40_distinct_seeds_refuted.
(** Without a seed: every generator is the hash of fresh random bytes, as many as asked for, all of which count. *)
Theorem C40_unseeded_fresh : forall (W : World) g bits, let k := Z.to_nat ((bits + 7) / 8) in
  exists inp : Z -> bytes, (forall r, List.length (inp r) = k) /\
    (forall a b, 0 <= a < 256 ^ Z.of_nat k -> 0 <= b < 256 ^ Z.of_nat k -> inp a = inp b -> a = b) /\
    forall num e t p, make_generators num g bits None (mkSt e t p) =
      Ok (map (fun i => hash_to_point g (inp (t (p + i)%nat mod 256 ^ Z.of_nat k))) (seq 0 num), mkSt e t (p + num)).
Proof. exact @generators_unseeded. Qed.
Print Assumptions C40_unseeded_fresh.
Example C40_ex : exists l, run (make_generators 3 G101 256 (Some 42)) st0 = Ok l /\ length l = 3%nat /\ NoDup l.
Proof.
  eexists. split; [vm_compute; reflexivity|]. split; [reflexivity|].
  repeat constructor; simpl; intros H; decompose [or] H; try discriminate; auto.
Qed.

(** C41, first part *)
Theorem C41_random_num_range : forall bits s r s',
  0 <= bits -> get_random_num bits s = Ok (r, s') -> 0 <= r < 2 ^ bits.
Proof. exact get_random_num_range_l. Qed.
Print Assumptions C41_random_num_range.
Example C41_ex : run (get_random_num 6) st0 = Ok 57.
Proof. vm_compute. reflexivity. Qed.

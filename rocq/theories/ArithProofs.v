(** Arithmetic helpers: modular sums, residual challenges, bit decomposition, ranges, generators,
    evaluation of expressions. *)
From Coq Require Import String.
From Verif Require Import Base World Val Expr Utils Stmt Spec Shapes Lib.
Open Scope Z_scope.
Open Scope list_scope.

Lemma zsum_app a b : zsum (a ++ b) = zsum a + zsum b.
Proof. induction a; simpl; lia. Qed.

Lemma sum_bn_acc m arr : 0 < m -> forall a,
  fold_left (fun r x => (r + x) mod m) arr (a mod m) = (a + zsum arr) mod m.
Proof.
  intros Hm. induction arr as [|x arr IH]; intros a; simpl.
  - now rewrite Z.add_0_r.
  - rewrite Zplus_mod_idemp_l, IH. f_equal. lia.
Qed.

Lemma sum_bn_array_mod arr m : 0 < m -> sum_bn_array arr m = zsum arr mod m.
Proof.
  intros Hm. unfold sum_bn_array. rewrite <- (Z.mod_0_l m) by lia.
  rewrite sum_bn_acc by auto. f_equal.
Qed.

Lemma sum_bn_array_spec_l arr m : 0 < m ->
  0 <= sum_bn_array arr m < m /\ (m | sum_bn_array arr m - zsum arr) /\
  (forall r, 0 <= r < m -> (m | r - zsum arr) -> r = sum_bn_array arr m).
Proof.
  intros Hm. rewrite sum_bn_array_mod by auto.
  split; [apply Z.mod_pos_bound; auto|]. split.
  - exists (- (zsum arr / m)). rewrite (Z.div_mod (zsum arr) m) at 2 by lia. lia.
  - intros r Hr [k Hk]. replace (zsum arr) with (r + (-k) * m) by lia.
    rewrite Z.mod_add by lia. symmetry. now apply Z.mod_small.
Qed.

Lemma pow2_pos b : 0 <= b -> 0 < 2 ^ b.
Proof. intros. apply Z.pow_pos_nonneg; lia. Qed.

Lemma find_residual_mod subs c bits : 0 <= bits ->
  find_residual subs c bits = - ((zsum subs - c) mod 2 ^ bits).
Proof.
  intros Hb. unfold find_residual. rewrite sum_bn_array_mod by now apply pow2_pos.
  do 2 f_equal. rewrite zsum_app. simpl. lia.
Qed.

Lemma find_residual_spec_l subs c bits : 0 <= bits ->
  let r := find_residual subs c bits in
  (2 ^ bits | zsum subs + r - c) /\ (r = 0 <-> (2 ^ bits | zsum subs - c)) /\ - 2 ^ bits < r <= 0.
Proof.
  intros Hb r. subst r. rewrite find_residual_mod by auto.
  assert (P := pow2_pos bits Hb). assert (B := Z.mod_pos_bound (zsum subs - c) (2 ^ bits) P).
  split; [|split; [split|lia]].
  - exists ((zsum subs - c) / 2 ^ bits).
    assert (D := Z.div_mod (zsum subs - c) (2 ^ bits) ltac:(lia)). lia.
  - intros H. apply Z.mod_divide; lia.
  - intros H. apply Z.mod_divide in H; lia.
Qed.

(** Bits *)
Lemma binval_app a b : binval (a ++ b) = binval a + 2 ^ Z.of_nat (List.length a) * binval b.
Proof.
  induction a as [|x a IH]; [change (binval b = 0 + 1 * binval b); lia|].
  cbn [binval fold_right app List.length]. fold (binval (a ++ b)). rewrite IH.
  fold (binval a). rewrite Nat2Z.inj_succ, Z.pow_succ_r by lia. lia.
Qed.
Lemma binval_zeros n : binval (repeat 0 n) = 0.
Proof. induction n; auto. change (0 + 2 * binval (repeat 0 n) = 0). lia. Qed.

Definition bitlist (v : Z) (n : nat) : list Z :=
  map (fun b => if Z.testbit v (Z.of_nat b) then 1 else 0) (seq 0 n).

Lemma bitlist_val n : forall v, binval (bitlist v n) = v mod 2 ^ Z.of_nat n.
Proof.
  induction n as [|n IH]; intros v.
  - simpl. rewrite Z.mod_1_r. reflexivity.
  - unfold bitlist. rewrite seq_S, map_app, binval_app, map_length, seq_length.
    fold (bitlist v n). rewrite IH. cbn [map Nat.add].
    replace (binval [if Z.testbit v (Z.of_nat n) then 1 else 0])
      with (if Z.testbit v (Z.of_nat n) then 1 else 0) by (destruct (Z.testbit _ _); reflexivity).
    rewrite Nat2Z.inj_succ, Z.pow_succ_r by lia.
    assert (P := pow2_pos (Z.of_nat n) ltac:(lia)).
    rewrite (Z.mul_comm 2). rewrite Z.rem_mul_r by lia.
    rewrite Z.testbit_odd, Z.shiftr_div_pow2 by lia.
    rewrite Zmod_odd. destruct (Z.odd (v / 2 ^ Z.of_nat n)); lia.
Qed.

Lemma num_bits_bound v : 0 <= v -> 0 <= v < 2 ^ Z.of_nat (num_bits v).
Proof.
  intros H. unfold num_bits. destruct (v =? 0) eqn:E.
  - apply Z.eqb_eq in E. subst. simpl. lia.
  - apply Z.eqb_neq in E. rewrite Z.abs_eq by lia.
    assert (L := Z.log2_spec v ltac:(lia)). assert (N := Z.log2_nonneg v).
    rewrite Nat2Z.inj_succ, Z2Nat.id by lia. lia.
Qed.
Lemma num_bits_least v n : 0 <= v < 2 ^ Z.of_nat n -> (num_bits v <= n)%nat.
Proof.
  intros H. unfold num_bits. destruct (v =? 0) eqn:E; [lia|].
  apply Z.eqb_neq in E. rewrite Z.abs_eq by lia.
  assert (Z.log2 v < Z.of_nat n) by (apply Z.log2_lt_pow2; lia).
  assert (N := Z.log2_nonneg v). lia.
Qed.
Lemma num_bits_abs v : Z.abs v < 2 ^ Z.of_nat (num_bits v).
Proof.
  unfold num_bits. destruct (v =? 0) eqn:E.
  - apply Z.eqb_eq in E. subst. simpl. lia.
  - apply Z.eqb_neq in E.
    assert (L := Z.log2_spec (Z.abs v) ltac:(lia)). assert (N := Z.log2_nonneg (Z.abs v)).
    rewrite Nat2Z.inj_succ, Z2Nat.id by lia. lia.
Qed.

Lemma decompose_eq v n bits : decompose v n = Ok bits ->
  0 <= v < 2 ^ Z.of_nat n /\ List.length bits = n /\ Forall (fun b => b = 0 \/ b = 1) bits /\
  binval bits = v.
Proof.
  unfold decompose. destruct (v <? 0) eqn:E; [discriminate|]. apply Z.ltb_ge in E.
  destruct (n <? num_bits v)%nat eqn:L; [discriminate|]. apply Nat.ltb_ge in L.
  intros H. injection H as <-. fold (bitlist v (num_bits v)).
  assert (B := num_bits_bound v E).
  assert (2 ^ Z.of_nat (num_bits v) <= 2 ^ Z.of_nat n) by (apply Z.pow_le_mono_r; lia).
  split; [lia|]. split; [|split].
  - unfold bitlist. rewrite app_length, map_length, seq_length, repeat_length. lia.
  - apply Forall_app; split; apply Forall_forall; intros b Hb.
    + unfold bitlist in Hb. apply in_map_iff in Hb as (i & <- & _). destruct (Z.testbit _ _); auto.
    + apply repeat_spec in Hb. auto.
  - rewrite binval_app, binval_zeros, bitlist_val, Z.mod_small by lia. lia.
Qed.

Lemma decompose_total v n : 0 <= v < 2 ^ Z.of_nat n -> exists bits, decompose v n = Ok bits.
Proof.
  intros H. unfold decompose. replace (v <? 0) with false by (symmetry; apply Z.ltb_ge; lia).
  replace (n <? num_bits v)%nat with false by (symmetry; apply Nat.ltb_ge; now apply num_bits_least).
  eauto.
Qed.

Lemma decompose_err v n : ~ 0 <= v < 2 ^ Z.of_nat n -> decompose v n = Err EException.
Proof.
  intros H. destruct (decompose v n) as [bits|e] eqn:E.
  - apply decompose_eq in E. tauto.
  - revert E. unfold decompose. destruct (v <? 0); [congruence|].
    destruct (n <? num_bits v)%nat; congruence.
Qed.

Lemma binval_bits_inj a : forall b,
  Forall (fun x => x = 0 \/ x = 1) a -> Forall (fun x => x = 0 \/ x = 1) b ->
  List.length a = List.length b -> binval a = binval b -> a = b.
Proof.
  induction a as [|x a IH]; intros [|y b] Ha Hb L E; simpl in L; try discriminate; auto.
  inversion Ha; inversion Hb; subst.
  change (x + 2 * binval a = y + 2 * binval b) in E.
  assert (x = y) by lia. subst. f_equal. apply IH; auto; lia.
Qed.

Lemma decompose_spec_l v n :
  (0 <= v < 2 ^ Z.of_nat n ->
     exists bits, decompose v n = Ok bits /\ List.length bits = n /\
       Forall (fun b => b = 0 \/ b = 1) bits /\ binval bits = v) /\
  (~ 0 <= v < 2 ^ Z.of_nat n -> exists e, decompose v n = Err e).
Proof.
  split.
  - intros H. destruct (decompose_total v n H) as [bits E]. exists bits.
    split; auto. now apply decompose_eq in E.
  - intros H. eexists. now apply decompose_err.
Qed.

(** Ranges *)
Lemma range_reduction_l a b x :
  let n := Z.of_nat (num_bits (b - a - 1)) in let offset := 2 ^ n - (b - a) in
  (a <= x < b <-> (0 <= x - a < 2 ^ n /\ 0 <= x - a + offset < 2 ^ n)).
Proof.
  intros n offset. subst offset.
  assert (B := num_bits_abs (b - a - 1)). fold n in B. lia.
Qed.

(** Generators *)
Section G.
Context {W : World}.

Lemma make_generators_val num g bits seed s :
  make_generators num g bits (Some seed) s =
  Ok (map (fun i => hash_to_point g (firstn (Z.to_nat ((bits + 7) / 8)) (sha512 (dec (seed + Z.of_nat i)))))
          (seq 0 num), s).
Proof.
  unfold make_generators. generalize 0%nat at 1 2. induction num as [|num IH]; intros k; simpl; auto.
  unfold bind at 1. simpl. unfold bind. rewrite IH. reflexivity.
Qed.

(** Expressions *)
Lemma eval_values_ok (e : nat -> option Z) ss s :
  Forall (fun x => e (sid x) <> None) ss ->
  mapM (fun x => match e (sid x) with Some v => ret v | None => raise EIncompleteValues end) ss s =
  Ok (map (fun x => match e (sid x) with Some v => v | None => 0 end) ss, s).
Proof.
  induction 1 as [|x ss Hx H IH]; simpl; auto.
  unfold bind at 1. destruct (e (sid x)); [|congruence]. simpl. unfold bind. now rewrite IH.
Qed.
Lemma eval_values_err (e : nat -> option Z) ss s :
  Exists (fun x => e (sid x) = None) ss ->
  mapM (fun x => match e (sid x) with Some v => ret v | None => raise EIncompleteValues end) ss s =
  Err EIncompleteValues.
Proof.
  induction 1 as [x ss Hx|x ss H IH]; simpl; unfold bind at 1.
  - now rewrite Hx.
  - destruct (e (sid x)); simpl; auto. unfold bind. now rewrite IH.
Qed.

Lemma eval_spec_l g ss ps s :
  List.length ss = List.length ps -> ss <> [] -> in_group g ps ->
  (forall vs, Forall2 (fun x v => env s (sid x) = Some v) ss vs ->
     eval (mkExpr ss ps) s = Ok (lincomb g vs ps, s)) /\
  (Exists (fun x => env s (sid x) = None) ss -> eval (mkExpr ss ps) s = Err EIncompleteValues).
Proof.
  intros L NE G. split.
  - intros vs H. unfold eval, get_env. simpl. unfold bind at 1.
    unfold bind at 1. rewrite eval_values_ok.
    2:{ clear -H. induction H; constructor; congruence. }
    replace (map _ ss) with vs.
    2:{ clear -H. induction H; simpl; auto. rewrite H. congruence. }
    assert (L' := Forall2_len _ _ _ H).
    destruct vs as [|v vs]; [destruct ss; [congruence|discriminate]|].
    destruct ps as [|p ps]; [destruct ss; [congruence|discriminate]|].
    simpl. inversion G; subst. unfold lift.
    rewrite (wsum_acc vs ps (grp p)) by (auto; now rewrite grp_mul). reflexivity.
  - intros H. unfold eval, get_env. simpl. unfold bind. now rewrite eval_values_err.
Qed.

Lemma wsum_mixed ws : forall ps g a,
  List.length ws = List.length ps -> grp a = g -> Exists (fun p => grp p <> g) ps ->
  fold_left (fun acc wp => let? a := acc in padd_chk a (pmul (fst wp) (snd wp)))
            (combine ws ps) (Ok a) = Err EGroupOp.
Proof.
  induction ws as [|w ws IH]; intros [|p ps] g a L Ha H; simpl in *; try discriminate.
  - inversion H.
  - unfold padd_chk at 2. rewrite grp_mul. destruct (gid_eqb (grp a) (grp p)) eqn:E.
    + apply gid_eqb_spec in E. inversion H; subst; [congruence|].
      apply (IH ps (grp a)); auto. rewrite grp_add; auto. now rewrite grp_mul.
    + apply fold_padd_err.
Qed.

Lemma eval_mixed_l ss p ps s :
  List.length ss = S (List.length ps) ->
  Forall (fun x => env s (sid x) <> None) ss ->
  Exists (fun q => grp q <> grp p) ps ->
  eval (mkExpr ss (p :: ps)) s = Err EGroupOp.
Proof.
  intros L H X. unfold eval, get_env. simpl. unfold bind at 1. unfold bind at 1.
  rewrite eval_values_ok by auto.
  destruct ss as [|x ss]; [discriminate|]. simpl. unfold lift.
  rewrite (wsum_mixed _ ps (grp p)); auto.
  - rewrite map_length. simpl in L. congruence.
  - apply grp_mul.
Qed.

Lemma wsum_secrets_val ss bs :
  List.length ss = List.length bs -> ss <> [] -> wsum_secrets ss bs = Ok (mkExpr ss bs).
Proof.
  intros L NE. unfold wsum_secrets. rewrite L, Nat.eqb_refl.
  destruct ss as [|s ss]; [congruence|]. destruct bs as [|b bs]; [discriminate|].
  assert (K : forall x, fold_left (fun acc sb => eadd acc (emul (fst sb) (snd sb))) (combine ss bs) x
            = mkExpr (e_secs x ++ ss) (e_bases x ++ bs)).
  { simpl in L. injection L as L. clear NE s b. revert bs L.
    induction ss as [|s ss IH]; intros [|b bs] L [es eb]; simpl in *; try discriminate.
    - now rewrite !app_nil_r.
    - rewrite IH by congruence. unfold eadd, emul. simpl. now rewrite <- !app_assoc. }
  rewrite K. reflexivity.
Qed.
(** the expression x0*g0 + x1*g1 + ... written with the operators *)
Lemma expr_of_terms_val t ts :
  expr_of_terms t ts = mkExpr (map fst (t :: ts)) (map snd (t :: ts)).
Proof.
  unfold expr_of_terms.
  assert (K : forall x, fold_left (fun acc t => eadd acc (emul (fst t) (snd t))) ts x
            = mkExpr (e_secs x ++ map fst ts) (e_bases x ++ map snd ts)).
  { induction ts as [|u ts IH]; intros [es eb]; simpl in *.
    - now rewrite !app_nil_r.
    - rewrite IH. unfold eadd, emul. simpl. now rewrite <- !app_assoc. }
  rewrite K. reflexivity.
Qed.

Lemma wsum_secrets_terms t ts :
  wsum_secrets (map fst (t :: ts)) (map snd (t :: ts)) = Ok (expr_of_terms t ts).
Proof.
  rewrite expr_of_terms_val. apply wsum_secrets_val; [now rewrite !map_length|discriminate].
Qed.

Lemma wsum_secrets_len ss bs :
  List.length ss <> List.length bs -> wsum_secrets ss bs = Err EValueErr.
Proof.
  intros L. unfold wsum_secrets. now rewrite (proj2 (Nat.eqb_neq _ _) L).
Qed.

Lemma expr_eval_l t ts s :
  let x := expr_of_terms t ts in
  let g := grp (snd t) in
  (forall vs, Forall2 (fun t v => env s (sid (fst t)) = Some v) (t :: ts) vs ->
     in_group g (map snd ts) -> eval x s = Ok (lincomb g vs (map snd (t :: ts)), s)) /\
  (Exists (fun t => env s (sid (fst t)) = None) (t :: ts) -> eval x s = Err EIncompleteValues) /\
  (Forall (fun t => env s (sid (fst t)) <> None) (t :: ts) ->
   Exists (fun t => grp (snd t) <> g) ts -> eval x s = Err EGroupOp).
Proof.
  intros x g. subst x. rewrite expr_of_terms_val.
  assert (L : List.length (map fst (t :: ts)) = List.length (map snd (t :: ts)))
    by now rewrite !map_length.
  assert (N : map fst (t :: ts) <> []) by discriminate.
  split; [|split].
  - intros vs H G. assert (G' : in_group g (map snd (t :: ts))) by (constructor; auto).
    apply (proj1 (eval_spec_l g _ _ s L N G')).
    revert H. generalize (t :: ts). intros l H. induction H; simpl; constructor; auto.
  - intros H. unfold eval, get_env. cbn [e_secs e_bases]. unfold bind.
    rewrite eval_values_err; auto.
    revert H. generalize (t :: ts). intros l H. induction H; simpl; [left|right]; auto.
  - intros H X. change (map snd (t :: ts)) with (snd t :: map snd ts). apply eval_mixed_l.
    + cbn [map List.length]. now rewrite !map_length.
    + revert H. generalize (t :: ts). intros l H. induction H; simpl; constructor; auto.
    + revert X. generalize ts. intros l X. induction X; simpl; [left|right]; auto.
Qed.

Lemma get_random_num_range_l bits s r s' :
  0 <= bits -> get_random_num bits s = Ok (r, s') -> 0 <= r < 2 ^ bits.
Proof.
  unfold get_random_num, draw. intros Hb H. injection H as <- _.
  apply Z.mod_pos_bound, pow2_pos; auto.
Qed.

Lemma make_generators_det_l g bits seed n m s1 s2 : (n <= m)%nat ->
  exists l, make_generators m g bits (Some seed) s1 = Ok (l, s1) /\
            make_generators n g bits (Some seed) s2 = Ok (firstn n l, s2) /\
            List.length l = m /\ in_group g l.
Proof.
  intros L. rewrite !make_generators_val. eexists. split; [reflexivity|]. split; [|split].
  - do 2 f_equal. rewrite firstn_map. f_equal.
    replace m with (n + (m - n))%nat by lia. rewrite seq_app, firstn_app, seq_length, Nat.sub_diag.
    rewrite firstn_all2 by (rewrite seq_length; lia). simpl. now rewrite app_nil_r.
  - now rewrite map_length, seq_length.
  - apply Forall_forall. intros p Hp. apply in_map_iff in Hp as (i & <- & _). apply grp_hash.
Qed.

(** consecutive seeds: the generators of one are those of the other shifted by one *)
Lemma make_generators_overlap_l g bits seed n s :
  exists p l q, make_generators (S n) g bits (Some seed) s = Ok (p :: l, s) /\
                make_generators (S n) g bits (Some (seed + 1)) s = Ok (l ++ [q], s).
Proof.
  rewrite !make_generators_val.
  set (f := fun i => hash_to_point g (firstn (Z.to_nat ((bits + 7) / 8)) (sha512 (dec (seed + Z.of_nat i))))).
  exists (f O), (map f (seq 1 n)), (f (S n)). split; [reflexivity|].
  do 2 f_equal. change [f (S n)] with (map f [S n]). rewrite <- map_app.
  change [S n] with [(1 + n)%nat]. rewrite <- seq_S, <- seq_shift, map_map.
  apply map_ext. intros i. unfold f. do 4 f_equal. lia.
Qed.
End G.

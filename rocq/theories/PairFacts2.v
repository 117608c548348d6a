(** Theorems about the wrappers of pairings.py, stated in [PropPair]. *)
From Coq Require Import String Eqdep_dec.
From Verif Require Import Base World Utils Pairings PairFacts.
Open Scope Z_scope.
Open Scope list_scope.

Section P.
Context {B : Bp}.

Lemma bpgp_ok b : po_bpgp b = true -> bpgp b = Ok tt.
Proof. unfold bpgp. now intros ->. Qed.
Lemma infinite_ok k b : po_bpgp b = true -> g_infinite (k, b) = Ok (Pnt k (rzero k) b).
Proof.
  intros H. apply bpgp_ok in H. unfold g_infinite, g_generator. destruct k; simpl; rewrite H; simpl; auto.
Qed.
Lemma p_add_eq k x b y b' : p_add (Pnt k x b) (Pnt k y b') = Ok (Pnt k (radd k x y) b).
Proof. simpl. now rewrite same_eq. Qed.

Lemma p_add_ne k x b k' y b' : k' <> k -> p_add (Pnt k x b) (Pnt k' y b') = Err ETypeErr.
Proof. intros N. simpl. now rewrite same_ne. Qed.
Local Arguments p_mul : simpl never.
Local Arguments mul : simpl never.

Lemma mul_combine i j p : p_add (p_mul i p) (p_mul j p) = Ok (p_mul (i + j) p).
Proof. destruct p as [k x b]. rewrite !p_mul_eq, p_add_eq. now rewrite mul_plus. Qed.
Lemma mul_nest i j p : p_mul i (p_mul j p) = p_mul (i * j) p.
Proof. destruct p as [k x b]. rewrite !p_mul_eq. now rewrite mul_times. Qed.
Lemma mul_of_sum n p q r : p_add p q = Ok r -> p_add (p_mul n p) (p_mul n q) = Ok (p_mul n r).
Proof.
  destruct p as [k x b], q as [k' y b']. destruct (side_eq_dec k' k) as [->|N]; [|now rewrite p_add_ne].
  rewrite p_add_eq. intros [= <-]. rewrite !p_mul_eq, p_add_eq. now rewrite mul_dist.
Qed.
Lemma mul_order_inf p : po_bpgp (p_obj p) = true ->
  exists n, g_order (p_group p) = Ok n /\ g_infinite (p_group p) = Ok (p_mul n p) /\ forall m, p_mul (m mod n) p = p_mul m p.
Proof.
  destruct p as [k x b]. simpl. intros H. exists bp_order. unfold g_order, p_group. simpl.
  rewrite infinite_ok, bpgp_ok by auto. split; [auto|]. rewrite p_mul_eq, mul_bp_order. split; [auto|].
  intros m. assert (O := bp_order_gt1). rewrite !p_mul_eq. f_equal.
  rewrite (Z.div_mod m bp_order) at 2 by lia. rewrite mul_plus.
  rewrite Z.mul_comm, <- mul_times, mul_bp_order, mul_of_zero. now rewrite radd_zero.
Qed.

Lemma sum_repeat k x b : forall n a, 
  fold_left (fun acc p => let? a := acc in p_add a p) (repeat (Pnt k x b) n) (Ok (Pnt k a b)) = Ok (Pnt k (radd k a (mul k (Z.of_nat n) x)) b).
Proof.
  induction n as [|n I]; intros a.
  - simpl. now rewrite mul_zero, radd_zero_r.
  - cbn [repeat fold_left rbind]. rewrite p_add_eq, I. rewrite <- radd_assoc. do 3 f_equal.
    rewrite Nat2Z.inj_succ. unfold Z.succ. rewrite Z.add_comm, mul_plus. now rewrite mul_one.
Qed.
Lemma multiples p n : po_bpgp (p_obj p) = true -> g_sum (p_group p) (repeat p n) = Ok (p_mul (Z.of_nat n) p).
Proof.
  destruct p as [k x b]. intros H. unfold g_sum, p_group. simpl p_side. simpl p_obj. rewrite infinite_ok by auto. cbn [rbind].
  rewrite sum_repeat, radd_zero. now rewrite p_mul_eq.
Qed.

Lemma p_pair_eq x o y o' : po_bpgp o = true -> p_pair (Pnt G1 x o) (Pnt G2 y o') = Ok (Pnt GT (rpair x y) o).
Proof. intros H. simpl. rewrite bpgp_ok by auto. simpl. now rewrite same_eq. Qed.
Lemma p_pair_inv p q r : p_pair p q = Ok r -> exists x o y o', p = Pnt G1 x o /\ q = Pnt G2 y o' /\ po_bpgp o = true /\ r = Pnt GT (rpair x y) o.
Proof.
  destruct p as [[] x o], q as [k y o']; simpl p_pair; try discriminate.
  unfold bpgp. destruct (po_bpgp o) eqn:H; simpl; [|discriminate].
  destruct (side_eq_dec k G2) as [->|N]; [|now rewrite same_ne].
  rewrite same_eq. intros [= <-]. eauto 10.
Qed.
Lemma pairing_mul a b p q r : p_pair p q = Ok r -> p_pair (p_mul a p) (p_mul b q) = Ok (p_mul (a * b) r).
Proof.
  intros H. apply p_pair_inv in H as (x & o & y & o' & -> & -> & H & ->).
  rewrite !p_mul_eq, p_pair_eq by auto. now rewrite pair_mul_l, pair_mul_r, mul_times.
Qed.
Lemma pairing_add p p' s q r r' : p_add p p' = Ok s -> p_pair p q = Ok r -> p_pair p' q = Ok r' ->
  exists t, p_add r r' = Ok t /\ p_pair s q = Ok t.
Proof.
  intros A H H'. apply p_pair_inv in H as (x & o & y & o' & -> & -> & H & ->).
  apply p_pair_inv in H' as (x2 & o2 & y2 & o2' & -> & E & H' & ->). 
  assert (Y : y2 = y) by (inversion E as [[E1 E2]]; now apply inj_pair2_eq_dec in E1; [|apply side_eq_dec]). subst y2.
  rewrite p_add_eq in A. injection A as <-. rewrite p_add_eq, p_pair_eq, rpair_add_l by auto. eauto.
Qed.
Lemma pairing_add' p q q' s r r' : p_add q q' = Ok s -> p_pair p q = Ok r -> p_pair p q' = Ok r' ->
  exists t, p_add r r' = Ok t /\ p_pair p s = Ok t.
Proof.
  intros A H H'. apply p_pair_inv in H as (x & o & y & o' & -> & -> & H & ->).
  apply p_pair_inv in H' as (x2 & o2 & y2 & o2' & E & -> & H' & ->). 
  assert (Y : x2 = x) by (inversion E as [[E1 E2]]; now apply inj_pair2_eq_dec in E1; [|apply side_eq_dec]). subst x2.
  rewrite p_add_eq in A. injection A as <-. rewrite p_add_eq, p_pair_eq, rpair_add_r by auto. eauto.
Qed.

(** ** agreement with the [World] *)
Section Agree.
Variables (b : pairobj) (text : wpt -> bytes) (ex : wpt -> bytes) (im : bytes -> option wpt) (h h' : bytes -> bytes).
Hypothesis Hb : po_bpgp b = true.
Let W := wrapped text ex im h h'.
Existing Instance W.
Definition emb (p : wpt) : point := match p with WP k x => Pnt k x b end.
Definition same_res {A A'} (f : A -> A') (r : res A) (r' : res A') : Prop :=
  match r with Ok a => r' = Ok (f a) | Err _ => exists e, r' = Err e end.

Lemma emb_add (p q : wpt) : same_res emb (padd_chk p q) (p_add (emb p) (emb q)).
Proof.
  destruct p as [k x], q as [k' y]. unfold same_res, padd_chk. simpl. unfold side_eqb.
  destruct (side_eq_dec k k') as [->|N]; simpl.
  - now rewrite !same_eq.
  - rewrite same_ne by congruence. eauto.
Qed.
Lemma emb_mul n (p : wpt) : p_mul n (emb p) = emb (pmul n p).
Proof. destruct p as [k x]. simpl emb. now rewrite p_mul_eq. Qed.
Lemma emb_sub (p q : wpt) : same_res emb (psub_chk p q) (p_sub (emb p) (emb q)).
Proof.
  unfold psub_chk, p_sub. destruct p as [k x]. destruct k; simpl has_sub; unfold side_eqb; simpl negb; cbn iota.
  - rewrite emb_mul. exact (emb_add (WP G1 x) (pneg q)).
  - rewrite emb_mul. exact (emb_add (WP G2 x) (pneg q)).
  - simpl. eauto.
Qed.
Lemma emb_pair (p q : wpt) : same_res emb (pairing_chk p q) (p_pair (emb p) (emb q)).
Proof.
  unfold pairing_chk. destruct p as [k x], q as [k' y]. simpl. 
  destruct k, k'; simpl; rewrite ?(bpgp_ok b Hb); simpl; rewrite ?same_eq; eauto; rewrite same_ne by congruence; eauto.
Qed.
Lemma emb_eq (p q : wpt) : grp p = grp q -> p_eq (emb p) (emb q) = Ok (pt_eqb p q).
Proof. destruct p as [k x], q as [k' y]. simpl. intros <-. now rewrite !same_eq. Qed.
Lemma emb_group (p : wpt) : p_group (emb p) = (grp p, b).
Proof. now destruct p. Qed.
Lemma emb_all p : p_obj p = b -> exists x : wpt, p = emb x.
Proof. destruct p as [k x b']. simpl. intros ->. now exists (WP k x). Qed.
Lemma emb_inf k : g_infinite (k, b) = Ok (emb (inf k)).
Proof. now rewrite infinite_ok. Qed.
Lemma emb_gen k : g_generator (k, b) = Ok (emb (gen k)).
Proof. destruct k; simpl; rewrite (bpgp_ok b Hb); simpl; auto. Qed.
Lemma emb_order k : g_order (k, b) = Ok (order k).
Proof. unfold g_order. simpl. now rewrite bpgp_ok. Qed.
Lemma emb_geq k k' : g_eq (k, b) (k', b) = Ok (gid_eqb k k').
Proof. destruct k, k'; unfold g_eq; simpl; rewrite ?(bpgp_ok b Hb), ?Nat.eqb_refl; reflexivity. Qed.
Lemma emb_hash s : g_hash (G1, b) s = Ok (emb (hash_to_point G1 s)).
Proof. unfold g_hash. simpl. now rewrite bpgp_ok. Qed.
Lemma emb_wsum k ws (ps : list wpt) : same_res emb (wsum k ws ps) (g_wsum (k, b) ws (map emb ps)).
Proof.
  unfold wsum, g_wsum. rewrite emb_inf. cbn [rbind].
  assert (E : forall ps ws r r', same_res emb r r' ->
    same_res emb (fold_left (fun acc wp => let? a := acc in padd_chk a (pmul (fst wp) (snd wp))) (combine ws ps) r)
     (fold_left (fun acc wp => let? a := acc in p_add a (p_mul (fst wp) (snd wp))) (combine ws (map emb ps)) r')).
  { clear ps ws. induction ps as [|p ps I]; intros [|w ws] r r' R; auto.
    cbn [map combine fold_left]. apply I. destruct r as [a|e]; simpl in R.
    - rewrite R. cbn [rbind fst snd]. rewrite emb_mul. apply emb_add.
    - destruct R as [e' ->]. simpl. eauto. }
  apply E. reflexivity.
Qed.
End Agree.

(** ** points that are sent; the theorems in one *)
Lemma action p i j :
  p_add (p_mul i p) (p_mul j p) = Ok (p_mul (i + j) p) /\ p_mul i (p_mul j p) = p_mul (i * j) p /\
  (forall q r, p_add p q = Ok r -> p_add (p_mul i p) (p_mul i q) = Ok (p_mul i r)) /\
  (po_bpgp (p_obj p) = true -> exists n, g_order (p_group p) = Ok n /\ g_infinite (p_group p) = Ok (p_mul n p) /\
     p_mul (i mod n) p = p_mul i p).
Proof.
  split; [apply mul_combine|]. split; [apply mul_nest|]. split; [intros q r; apply mul_of_sum|].
  intros H. destruct (mul_order_inf p H) as (n & N & I & M). exists n. auto.
Qed.
Lemma bilinear p q r : p_pair p q = Ok r ->
  (forall a b, p_pair (p_mul a p) (p_mul b q) = Ok (p_mul (a * b) r)) /\
  (forall p' s r', p_add p p' = Ok s -> p_pair p' q = Ok r' -> exists t, p_add r r' = Ok t /\ p_pair s q = Ok t) /\
  (forall q' s r', p_add q q' = Ok s -> p_pair p q' = Ok r' -> exists t, p_add r r' = Ok t /\ p_pair p s = Ok t).
Proof.
  intros H. split; [intros; now apply pairing_mul|]. split; intros x s r' A H'.
  - apply (pairing_add p x s q r r'); auto.
  - apply (pairing_add' p q x s r r'); auto.
Qed.
Definition unemb (p : point) : wpt := match p with Pnt k x _ => WP k x end.
Lemma is_world b : po_bpgp b = true -> forall text ex im h h', exists (W : World) (e : pt -> point) (k : gid -> side),
  (forall p, p_obj p = b <-> exists x, p = e x) /\
  (forall x y, e x = e y -> x = y) /\
  (forall x, p_group (e x) = (k (grp x), b)) /\
  (forall g, g_infinite (k g, b) = Ok (e (inf g)) /\ g_generator (k g, b) = Ok (e (gen g)) /\ g_order (k g, b) = Ok (order g)) /\
  (forall g g', g_eq (k g, b) (k g', b) = Ok (gid_eqb g g')) /\
  (forall n x, p_mul n (e x) = e (pmul n x)) /\
  (forall x y, grp x = grp y -> p_eq (e x) (e y) = Ok (pt_eqb x y)) /\
  (forall x y, same_res e (padd_chk x y) (p_add (e x) (e y))) /\
  (forall x y, same_res e (psub_chk x y) (p_sub (e x) (e y))) /\
  (forall x y, same_res e (pairing_chk x y) (p_pair (e x) (e y))) /\
  (forall g ws xs, same_res e (wsum g ws xs) (g_wsum (k g, b) ws (map e xs))) /\
  (forall g s, k g = G1 -> g_hash (k g, b) s = Ok (e (hash_to_point g s))) /\
  (forall x, repr_pt x = text (e x)) /\ (forall x, export_pt x = ex (e x)) /\
  (forall s p, im s = Some p -> p_obj p = b -> exists x, import_pt s = Some x /\ p = e x) /\ sha256 = h /\ sha512 = h'.
Proof.
  intros Hb text ex im h h'.
  set (T := fun p => text (emb b p)). set (X := fun p => ex (emb b p)). set (I := fun s : bytes => option_map unemb (im s)).
  exists (wrapped T X I h h'), (emb b), (fun g => g).
  split; [intros p; split; [apply emb_all|intros [[k x] ->]; reflexivity]|].
  split. { intros [k x] [k' y] E. apply (f_equal unemb) in E. exact E. }
  split; [exact (emb_group b T X I h h')|].
  split. { intros g. split; [now apply (emb_inf b T X I h h')|]. split; [now apply (emb_gen b T X I h h')|now apply (emb_order b T X I h h')]. }
  split; [now apply (emb_geq b T X I h h')|].
  split; [exact (emb_mul b T X I h h')|].
  split; [exact (emb_eq b T X I h h')|].
  split; [exact (emb_add b T X I h h')|].
  split; [exact (emb_sub b T X I h h')|].
  split; [now apply (emb_pair b T X I h h')|].
  split; [now apply (emb_wsum b T X I h h')|].
  split. { intros g s ->. now apply (emb_hash b T X I h h'). }
  split; [reflexivity|]. split; [reflexivity|]. split; [|auto].
  intros s [k x b'] E O. simpl in O. subst b'. exists (WP k x). split; [|reflexivity]. simpl. unfold I. now rewrite E.
Qed.

Lemma sent_point k x b id : po_bpgp b = true -> rimport k (rexport k x) = Some x ->
  exists d p, pt_enc (Pnt k x b) = Ok d /\ pt_dec id d = Ok p /\ p_eq p (Pnt k x b) = Ok true /\
    p_group p = (k, pair_init id None) /\ (forall n, p_eq (p_mul n p) (p_mul n (Pnt k x b)) = Ok true) /\
    (k = G1 -> g_eq (p_group p) (k, b) = Ok true /\
      forall q r, p_pair (Pnt k x b) q = Ok r -> exists r', p_pair p q = Ok r' /\ p_eq r' r = Ok true).
Proof.
  intros H R. exists (k, rexport k x), (Pnt k x (pair_init id None)).
  unfold pt_enc. rewrite bpgp_ok by auto. unfold pt_dec. simpl fst. simpl snd. rewrite R.
  assert (Q : forall k (y : raw k) b b', p_eq (Pnt k y b) (Pnt k y b') = Ok true).
  { intros k' y b1 b2. simpl. now rewrite same_eq, (proj2 (raw_eqb_spec k' y y) eq_refl). }
  split; [reflexivity|]. split; [reflexivity|]. split; [apply Q|]. split; [reflexivity|]. split; [intros n; rewrite !p_mul_eq; apply Q|].
  intros ->. split. { unfold g_eq. simpl. now rewrite bpgp_ok. }
  intros q r P. apply p_pair_inv in P as (x2 & o & y & o' & E & -> & O & ->).
  assert (Y : x2 = x) by (inversion E as [[E1 E2]]; now apply inj_pair2_eq_dec in E1; [|apply side_eq_dec]). subst x2.
  eexists. split; [apply p_pair_eq; reflexivity|apply Q].
Qed.
Lemma sent_group k x b id : po_bpgp b = true -> rimport k (rexport k x) = Some x -> id <> po_id b ->
  exists d p, pt_enc (Pnt k x b) = Ok d /\ pt_dec id d = Ok p /\ p_eq p (Pnt k x b) = Ok true /\
    (k <> G1 -> g_eq (p_group p) (k, b) = Ok false) /\
    (k = G1 -> forall q r r', p_pair (Pnt k x b) q = Ok r -> p_pair p q = Ok r' -> p_eq r' r = Ok true /\ g_eq (p_group r') (p_group r) = Ok false).
Proof.
  intros H R N. destruct (sent_point k x b id H R) as (d & p & D & P & E & G & _ & F). exists d, p.
  split; [auto|]. split; [auto|]. split; [auto|]. apply Nat.eqb_neq in N. split.
  - intros K. rewrite G. unfold g_eq. simpl. destruct k; [congruence| |]; simpl; now rewrite N.
  - intros K q r r' A A'. destruct (F K) as [_ F']. destruct (F' q r A) as (r2 & A2 & E2). rewrite A2 in A'. injection A' as <-.
    split; [auto|]. apply p_pair_inv in A as (x1 & o1 & y1 & o1' & E1 & -> & O1 & ->).
    apply p_pair_inv in A2 as (x2 & o2 & y2 & o2' & -> & _ & O2 & ->).
    apply (f_equal p_obj) in E1. simpl in E1. subst o1. apply (f_equal snd) in G. simpl in G. subst o2. unfold g_eq. simpl. now rewrite N.
Qed.
Lemma given_group id g k : let b := pair_init id (Some g) in
  g_generator (k, b) = Err EAttributeErr /\ g_infinite (k, b) = Err EAttributeErr /\ g_order (k, b) = Err EAttributeErr /\
  (forall ps, g_sum (k, b) ps = Err EAttributeErr) /\ (forall ws ps, g_wsum (k, b) ws ps = Err EAttributeErr) /\
  (forall s, g_hash (k, b) s = Err EAttributeErr) /\ (forall x, pt_enc (Pnt k x b) = Err EAttributeErr).
Proof. simpl. destruct k; repeat split. Qed.
End P.

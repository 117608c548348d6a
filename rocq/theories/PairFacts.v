(** The wrappers of pairings.py on top of bplib: their operations satisfy the laws that [World] asks for. *)
From Coq Require Import String Eqdep_dec.
From Verif Require Import Base World Pairings.
Open Scope Z_scope.
Open Scope list_scope.

Section P.
Context {B : Bp}.

Lemma same_eq A k (y : raw k) (f : raw k -> A) : with_same k k y f = Ok (f y).
Proof. unfold with_same. destruct (side_eq_dec k k) as [E|N]; [|congruence]. now rewrite (UIP_dec side_eq_dec E eq_refl). Qed.
Lemma same_ne A k k' (y : raw k') (f : raw k -> A) : k' <> k -> with_same k k' y f = Err ETypeErr.
Proof. intros N. unfold with_same. now destruct (side_eq_dec k' k). Qed.

(** the multiple of an element, as the wrappers compute it *)
Definition mul (k : side) (n : Z) (x : raw k) : raw k :=
  match k return raw k -> raw k with
  | GT => fun x => if n =? 0 then rdiv x x else rmul GT x n
  | k => fun x => rmul k x n
  end x.
Lemma p_mul_eq n k x b : p_mul n (Pnt k x b) = Pnt k (mul k n x) b.
Proof. destruct k; simpl; auto. now destruct (n =? 0). Qed.
Lemma mul_zero k x : mul k 0 x = rzero k.
Proof. destruct k; simpl; [apply rmul_0; discriminate|apply rmul_0; discriminate|apply rdiv_self]. Qed.
Lemma mul_expo k n x : expo k n -> mul k n x = rmul k x n.
Proof. destruct k; simpl; auto. intros E. destruct (n =? 0) eqn:Z0; auto. apply Z.eqb_eq in Z0. now elim (E eq_refl). Qed.
Lemma expo_nz k n : n <> 0 -> expo k n.
Proof. now intros N _. Qed.
Lemma mul_one k x : mul k 1 x = x.
Proof. rewrite mul_expo by (apply expo_nz; lia). apply rmul_1. Qed.
Lemma radd_zero_r k (x : raw k) : radd k x (rzero k) = x.
Proof. rewrite radd_comm. apply radd_zero. Qed.

(** every element has an inverse: its multiple by order - 1 *)
Lemma radd_inv k (x : raw k) : exists y, radd k x y = rzero k.
Proof.
  assert (O := bp_order_gt1). exists (rmul k x (bp_order - 1)).
  rewrite <- (rmul_1 k x) at 1. rewrite <- rmul_add by (apply expo_nz; lia).
  replace (1 + (bp_order - 1)) with bp_order by lia. apply rmul_order.
Qed.
Lemma radd_cancel k (a b c : raw k) : radd k a b = radd k a c -> b = c.
Proof.
  intros H. destruct (radd_inv k a) as [y Y]. rewrite radd_comm in Y.
  rewrite <- (radd_zero k b), <- (radd_zero k c), <- Y, <- !radd_assoc. now rewrite H.
Qed.
Lemma rmul_zero k n : expo k n -> rmul k (rzero k) n = rzero k.
Proof.
  intros E. apply (radd_cancel k (rmul k (rzero k) n)). rewrite <- rmul_dist by auto. now rewrite radd_zero, radd_zero_r.
Qed.
Lemma rmul_opp k (x : raw k) n : n <> 0 -> radd k (rmul k x n) (rmul k x (- n)) = rzero k.
Proof.
  (* n + (-n) = 0 is an exponent the library does not support in GT: go through multiples of the order *)
  intros N. assert (O := bp_order_gt1).
  set (m := Z.abs n * bp_order + bp_order).
  assert (M : rmul k x m = rzero k).
  { unfold m. replace (Z.abs n * bp_order + bp_order) with ((Z.abs n + 1) * bp_order) by ring.
    rewrite <- rmul_mul by (apply expo_nz; lia). rewrite rmul_order. apply rmul_zero, expo_nz. lia. }
  assert (P : Z.abs n < m) by (unfold m; nia).
  rewrite <- (radd_zero_r k (rmul k x (- n))), <- M.
  rewrite <- rmul_add by (apply expo_nz; lia). rewrite <- rmul_add by (apply expo_nz; lia).
  now replace (n + (- n + m)) with m by lia.
Qed.
Lemma mul_plus k i j x : mul k (i + j) x = radd k (mul k i x) (mul k j x).
Proof.
  destruct (Z.eq_dec i 0) as [->|I]; [now rewrite mul_zero, radd_zero|].
  destruct (Z.eq_dec j 0) as [->|J]; [now rewrite mul_zero, radd_zero_r, Z.add_0_r|].
  rewrite (mul_expo k i), (mul_expo k j) by (now apply expo_nz).
  destruct (Z.eq_dec (i + j) 0) as [E|N].
  - rewrite E, mul_zero. replace j with (- i) by lia. symmetry. now apply rmul_opp.
  - rewrite mul_expo by (now apply expo_nz). apply rmul_add; now apply expo_nz.
Qed.
Lemma mul_of_zero k n : mul k n (rzero k) = rzero k.
Proof. destruct (Z.eq_dec n 0) as [->|N]; [apply mul_zero|]. rewrite mul_expo by (now apply expo_nz). now apply rmul_zero, expo_nz. Qed.
Lemma mul_times k i j x : mul k i (mul k j x) = mul k (i * j) x.
Proof.
  destruct (Z.eq_dec i 0) as [->|I]; [now rewrite Z.mul_0_l, !mul_zero|].
  destruct (Z.eq_dec j 0) as [->|J]; [now rewrite Z.mul_0_r, !mul_zero, mul_of_zero|].
  rewrite !mul_expo by (apply expo_nz; nia). apply rmul_mul; now apply expo_nz.
Qed.
Lemma mul_dist k n x y : mul k n (radd k x y) = radd k (mul k n x) (mul k n y).
Proof.
  destruct (Z.eq_dec n 0) as [->|N]; [now rewrite !mul_zero, radd_zero|].
  rewrite !mul_expo by (now apply expo_nz). apply rmul_dist. now apply expo_nz.
Qed.
Lemma mul_bp_order k x : mul k bp_order x = rzero k.
Proof. assert (O := bp_order_gt1). rewrite mul_expo by (apply expo_nz; lia). apply rmul_order. Qed.
Lemma rpair_zero_l y : rpair (rzero G1) y = rzero GT.
Proof. apply (radd_cancel GT (rpair (rzero G1) y)). rewrite <- rpair_add_l. now rewrite radd_zero, radd_zero_r. Qed.
Lemma rpair_zero_r x : rpair x (rzero G2) = rzero GT.
Proof. apply (radd_cancel GT (rpair x (rzero G2))). rewrite <- rpair_add_r. now rewrite radd_zero, radd_zero_r. Qed.
Lemma pair_mul_l n x y : rpair (mul G1 n x) y = mul GT n (rpair x y).
Proof.
  destruct (Z.eq_dec n 0) as [->|N]; [rewrite !mul_zero; apply rpair_zero_l|].
  rewrite !mul_expo by (now apply expo_nz). now apply rpair_mul_l.
Qed.
Lemma pair_mul_r n x y : rpair x (mul G2 n y) = mul GT n (rpair x y).
Proof.
  destruct (Z.eq_dec n 0) as [->|N]; [rewrite !mul_zero; apply rpair_zero_r|].
  rewrite !mul_expo by (now apply expo_nz). now apply rpair_mul_r.
Qed.

(** ** The wrapped points of one pair object as a [World] *)
Inductive wpt := WP (k : side) (x : raw k).
Lemma wp_inj k x y : WP k x = WP k y -> x = y.
Proof. intros H. inversion H. now apply inj_pair2_eq_dec in H1; [|apply side_eq_dec]. Qed.
Definition w_grp (p : wpt) : side := match p with WP k _ => k end.
Definition side_eqb (a b : side) : bool := if side_eq_dec a b then true else false.
Lemma side_eqb_spec a b : side_eqb a b = true <-> a = b.
Proof. unfold side_eqb. destruct (side_eq_dec a b); split; congruence. Qed.
Definition w_eqb (p q : wpt) : bool :=
  match p, q with WP k x, WP k' y => match with_same k k' y (raw_eqb k x) with Ok b => b | Err _ => false end end.
Lemma w_eqb_spec p q : w_eqb p q = true <-> p = q.
Proof.
  destruct p as [k x], q as [k' y]. simpl. destruct (side_eq_dec k' k) as [->|N].
  - rewrite same_eq, raw_eqb_spec. split; [now intros ->|apply wp_inj].
  - rewrite same_ne by auto. split; [discriminate|]. intros H. inversion H. congruence.
Qed.
Definition w_add (p q : wpt) : wpt :=
  match p, q with WP k x, WP k' y => match with_same k k' y (radd k x) with Ok z => WP k z | Err _ => WP k x end end.
Definition w_mul (n : Z) (p : wpt) : wpt := match p with WP k x => WP k (mul k n x) end.
Definition w_pair (p q : wpt) : wpt :=
  match p, q with WP G1 x, WP G2 y => WP GT (rpair x y) | _, _ => WP GT (rzero GT) end.
Definition w_pairs (a b : side) : option side := match a, b with G1, G2 => Some GT | _, _ => None end.
Definition w_gen (k : side) : wpt :=
  match k with G1 => WP G1 rgen1 | G2 => WP G2 rgen2 | GT => WP GT (rpair rgen1 rgen2) end.
Definition w_hash (k : side) (s : bytes) : wpt :=
  match k with G1 => WP G1 (rhash1 s) | k => WP k (rzero k) end.

Ltac same := repeat (progress (simpl in *; subst; rewrite ?same_eq)).
Definition wrapped (text : wpt -> bytes) (ex : wpt -> bytes) (im : bytes -> option wpt) (h h' : bytes -> bytes) : World.
Proof.
  refine {| gid := side; gid_eqb := side_eqb; gid_eqb_spec := side_eqb_spec; order := fun _ => bp_order; order_gt1 := fun _ => bp_order_gt1;
    pt := wpt; grp := w_grp; pt_eqb := w_eqb; pt_eqb_spec := w_eqb_spec; inf := fun k => WP k (rzero k); gen := w_gen;
    padd := w_add; pmul := w_mul; has_sub := fun k => negb (side_eqb k GT); pairs := w_pairs; pairing := w_pair;
    hash_to_point := w_hash; repr_pt := text; export_pt := ex; import_pt := im; sha256 := h; sha512 := h' |}.
  - reflexivity.
  - now destruct g.
  - intros [k x] [k' y] E. now same.
  - now intros n [k x].
  - intros [k x] [k' y] E. same. now rewrite radd_comm.
  - intros [k x] [k' y] [k'' z] E E'. same. now rewrite radd_assoc.
  - intros [k x]. same. now rewrite radd_zero.
  - intros [k x]. simpl. now rewrite mul_zero.
  - intros [k x]. simpl. now rewrite mul_one.
  - intros i j [k x]. same. now rewrite mul_plus.
  - intros i j [k x]. simpl. now rewrite mul_times.
  - intros n [k x] [k' y] E. same. now rewrite mul_dist.
  - intros [k x]. simpl. now rewrite mul_bp_order.
  - intros [k x] [k' y] t. now destruct k, k'; simpl; intros E; inversion E.
  - intros a b t. now destruct a, b; simpl; intros E; inversion E.
  - intros [k x] [k'' x'] [k' y] t. destruct k, k'; simpl; intros E; inversion E. intros E'. same. now rewrite rpair_add_l.
  - intros [k x] [k' y] [k'' y'] t. destruct k, k'; simpl; intros E; inversion E. intros E'. same. now rewrite rpair_add_r.
  - intros n [k x] [k' y] t. destruct k, k'; simpl; intros E; inversion E. f_equal. exact (pair_mul_l n x y).
  - intros n [k x] [k' y] t. destruct k, k'; simpl; intros E; inversion E. f_equal. exact (pair_mul_r n x y).
  - now destruct g.
Defined.

End P.

(** The algebra the library is parameterised with: groups of points (petlib [EcGroup]/[EcPt], the
    wrappers of /repo/zksk/pairings.py), the hash function and the textual/binary forms of points.
    Every theorem quantifies over all worlds; the laws below are the assumptions made on petlib,
    bplib, OpenSSL (they are hypotheses of theorems, not axioms: [ZqWorld] is an instance). *)
From Verif Require Import Base.
From Coq Require Import Znumtheory.

Class World := {
  (* groups are compared with [==] in DLRep.__init__ (dlrep.py:94); a [gid] is the result of that
     comparison, see pairings.py:228 for G1 and the absence of [__eq__] for GT *)
  gid : Type;
  gid_eqb : gid -> gid -> bool;
  gid_eqb_spec : forall a b, gid_eqb a b = true <-> a = b;
  order : gid -> Z;                                   (* group.order() *)
  order_gt1 : forall g, 1 < order g;

  pt : Type;
  grp : pt -> gid;                                    (* p.group *)
  pt_eqb : pt -> pt -> bool;                          (* p == q *)
  pt_eqb_spec : forall a b, pt_eqb a b = true <-> a = b;
  inf : gid -> pt;                                    (* group.infinite() *)
  gen : gid -> pt;                                    (* group.generator() *)
  padd : pt -> pt -> pt;                              (* p + q, meaningful inside one group *)
  pmul : Z -> pt -> pt;                               (* k * p *)
  (* whether the class of the points defines [__sub__]: AdditivePoint, the points of GT, does not (pairings.py:80-120) *)
  has_sub : gid -> bool;
  grp_inf : forall g, grp (inf g) = g;
  grp_gen : forall g, grp (gen g) = g;
  grp_add : forall a b, grp a = grp b -> grp (padd a b) = grp a;
  grp_mul : forall k a, grp (pmul k a) = grp a;
  add_comm : forall a b, grp a = grp b -> padd a b = padd b a;
  add_assoc : forall a b c, grp a = grp b -> grp b = grp c ->
      padd a (padd b c) = padd (padd a b) c;
  add_inf_l : forall a, padd (inf (grp a)) a = a;
  mul_0 : forall a, pmul 0 a = inf (grp a);
  mul_1 : forall a, pmul 1 a = a;
  mul_add : forall j k a, pmul (j + k) a = padd (pmul j a) (pmul k a);
  mul_mul : forall j k a, pmul j (pmul k a) = pmul (j * k) a;
  mul_distr : forall k a b, grp a = grp b -> pmul k (padd a b) = padd (pmul k a) (pmul k b);
  mul_order : forall a, pmul (order (grp a)) a = inf (grp a);

  (* bilinear pairs: [pairs a b = Some t] when elements of a can be paired with elements of b *)
  pairs : gid -> gid -> option gid;
  pairing : pt -> pt -> pt;                           (* p.pair(q) *)
  grp_pairing : forall a b t, pairs (grp a) (grp b) = Some t -> grp (pairing a b) = t;
  order_pairs : forall a b t, pairs a b = Some t -> order a = order t /\ order b = order t;
  pairing_add_l : forall a a' b t, pairs (grp a) (grp b) = Some t -> grp a' = grp a ->
      pairing (padd a a') b = padd (pairing a b) (pairing a' b);
  pairing_add_r : forall a b b' t, pairs (grp a) (grp b) = Some t -> grp b' = grp b ->
      pairing a (padd b b') = padd (pairing a b) (pairing a b');
  pairing_mul_l : forall k a b t, pairs (grp a) (grp b) = Some t ->
      pairing (pmul k a) b = pmul k (pairing a b);
  pairing_mul_r : forall k a b t, pairs (grp a) (grp b) = Some t ->
      pairing a (pmul k b) = pmul k (pairing a b);

  hash_to_point : gid -> bytes -> pt;                 (* group.hash_to_point(b) *)
  grp_hash : forall g b, grp (hash_to_point g b) = g;

  repr_pt : pt -> bytes;                              (* repr(p) *)
  export_pt : pt -> bytes;                            (* payload of petlib.pack.encode(p) *)
  import_pt : bytes -> option pt;                     (* and its decoder *)
  sha256 : bytes -> bytes;                            (* sha256(b).digest() *)
  sha512 : bytes -> bytes                             (* sha512(b).digest() *)
}.

Section W.
Context {W : World}.

(** p + q as petlib/bplib do it: an error across groups. *)
Definition padd_chk (a b : pt) : res pt :=
  if gid_eqb (grp a) (grp b) then Ok (padd a b) else Err EGroupOp.
Definition pneg (a : pt) : pt := pmul (-1) a.
(** p - q, pairings.py:143-144, 184-185 and petlib *)
Definition psub_chk (a b : pt) : res pt := if has_sub (grp a) then padd_chk a (pneg b) else Err ETypeErr.
Lemma psub_chk_eq a b : has_sub (grp a) = true -> psub_chk a b = padd_chk a (pneg b).
Proof. unfold psub_chk. now intros ->. Qed.
(** p.pair(q), pairings.py:157 *)
Definition pairing_chk (a b : pt) : res pt :=
  match pairs (grp a) (grp b) with Some _ => Ok (pairing a b) | None => Err EGroupOp end.

Lemma gid_eqb_refl g : gid_eqb g g = true.
Proof. now apply gid_eqb_spec. Qed.
Lemma pt_eqb_refl p : pt_eqb p p = true.
Proof. now apply pt_eqb_spec. Qed.

Lemma padd_chk_ok a b c : padd_chk a b = Ok c -> grp a = grp b /\ c = padd a b.
Proof.
  unfold padd_chk. destruct (gid_eqb (grp a) (grp b)) eqn:E; [|discriminate].
  apply gid_eqb_spec in E. intros H; inversion H; auto.
Qed.
Lemma psub_chk_ok a b c : psub_chk a b = Ok c -> grp a = grp (pneg b) /\ c = padd a (pneg b).
Proof. unfold psub_chk. destruct (has_sub (grp a)); [apply padd_chk_ok|discriminate]. Qed.
Lemma psub_has a b c : psub_chk a b = Ok c -> has_sub (grp a) = true.
Proof. unfold psub_chk. destruct (has_sub (grp a)); [auto|discriminate]. Qed.
Lemma padd_chk_same a b : grp a = grp b -> padd_chk a b = Ok (padd a b).
Proof. intros E. unfold padd_chk. now rewrite (proj2 (gid_eqb_spec _ _) E). Qed.

Lemma add_inf_r a : padd a (inf (grp a)) = a.
Proof. rewrite add_comm; [apply add_inf_l | now rewrite grp_inf]. Qed.
Lemma add_inf_l' g a : grp a = g -> padd (inf g) a = a.
Proof. intros <-. apply add_inf_l. Qed.
Lemma add_inf_r' g a : grp a = g -> padd a (inf g) = a.
Proof. intros <-. apply add_inf_r. Qed.
Lemma grp_neg a : grp (pneg a) = grp a.
Proof. apply grp_mul. Qed.
Lemma add_neg_r a : padd a (pneg a) = inf (grp a).
Proof.
  unfold pneg. rewrite <- (mul_1 a) at 1. rewrite <- mul_add. simpl. apply mul_0.
Qed.
Lemma add_neg_l a : padd (pneg a) a = inf (grp a).
Proof. rewrite add_comm by apply grp_neg. apply add_neg_r. Qed.

Lemma mul_inf k g : pmul k (inf g) = inf g.
Proof.
  rewrite <- (grp_inf g) at 1. rewrite <- (mul_0 (inf g)), mul_mul, Z.mul_0_r.
  now rewrite mul_0, grp_inf.
Qed.

Lemma add_cancel_l a b c :
  grp a = grp b -> grp a = grp c -> padd a b = padd a c -> b = c.
Proof.
  intros E1 E2 H.
  assert (K : padd (pneg a) (padd a b) = padd (pneg a) (padd a c)) by now rewrite H.
  assert (En := grp_neg a).
  rewrite (add_assoc (pneg a) a b), (add_assoc (pneg a) a c) in K by congruence.
  rewrite add_neg_l in K. now rewrite !add_inf_l' in K by auto.
Qed.
Lemma add_cancel_r a b c :
  grp a = grp b -> grp a = grp c -> padd b a = padd c a -> b = c.
Proof.
  intros E1 E2 H. apply (add_cancel_l a); auto.
  rewrite (add_comm a b), (add_comm a c); auto.
Qed.

Lemma mul_mod k a : pmul (k mod order (grp a)) a = pmul k a.
Proof.
  assert (O := order_gt1 (grp a)).
  rewrite (Z.div_mod k (order (grp a))) at 2 by lia.
  rewrite mul_add, Z.mul_comm, <- mul_mul, mul_order, mul_inf.
  now rewrite add_inf_l' by (now rewrite grp_mul).
Qed.
Lemma mul_mod_eq j k a :
  j mod order (grp a) = k mod order (grp a) -> pmul j a = pmul k a.
Proof. intros H. rewrite <- (mul_mod j), <- (mul_mod k). now rewrite H. Qed.

Lemma mul_neg k a : pmul (- k) a = pneg (pmul k a).
Proof. unfold pneg. rewrite mul_mul. replace (-1 * k) with (- k) by lia. reflexivity. Qed.

Lemma add_swap a b c d :
  grp a = grp b -> grp a = grp c -> grp a = grp d ->
  padd (padd a b) (padd c d) = padd (padd a c) (padd b d).
Proof.
  intros E1 E2 E3.
  assert (Hcd : grp (padd c d) = grp a) by (rewrite grp_add; congruence).
  assert (Hbd : grp (padd b d) = grp a) by (rewrite grp_add; congruence).
  rewrite <- (add_assoc a b (padd c d)) by congruence.
  rewrite <- (add_assoc a c (padd b d)) by congruence.
  f_equal. rewrite (add_assoc b c d), (add_assoc c b d) by congruence.
  f_equal. apply add_comm. congruence.
Qed.

(** In a group of prime order, k*a = inf with k not a multiple of the order forces a = inf. *)
Lemma prime_mul_inf k a :
  prime (order (grp a)) -> pmul k a = inf (grp a) -> ~ (order (grp a) | k) -> a = inf (grp a).
Proof.
  intros P H N.
  assert (R : rel_prime (order (grp a)) k) by now apply prime_rel_prime.
  destruct (rel_prime_bezout _ _ R) as [u v E].
  rewrite <- (mul_1 a) at 1. rewrite <- E, mul_add.
  rewrite <- (mul_mul u), <- (mul_mul v), mul_order, H, !mul_inf.
  now rewrite add_inf_l' by (apply grp_inf).
Qed.
End W.

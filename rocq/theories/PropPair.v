(** The wrappers of bilinear groups, pairings.py: properties C63, C64. *)
From Coq Require Import String.
From Verif Require Import Base World Utils Pairings PairFacts PairFacts2 ExPair.
Open Scope Z_scope.
Open Scope list_scope.

(** C63: in all three groups n * p is p added n times, n = 0 included, although bplib's power in the third group is
    unusable at 0 *)
Theorem C63_multiples : forall (B : Bp) p n, po_bpgp (p_obj p) = true ->
  g_sum (p_group p) (repeat p n) = Ok (p_mul (Z.of_nat n) p).
Proof. exact @multiples. Qed.
Print Assumptions C63_multiples.
(** integers act as they should, negative ones and multiples of the order included *)
Theorem C63_action : forall (B : Bp) p i j,
  p_add (p_mul i p) (p_mul j p) = Ok (p_mul (i + j) p) /\ p_mul i (p_mul j p) = p_mul (i * j) p /\
  (forall q r, p_add p q = Ok r -> p_add (p_mul i p) (p_mul i q) = Ok (p_mul i r)) /\
  (po_bpgp (p_obj p) = true -> exists n, g_order (p_group p) = Ok n /\ g_infinite (p_group p) = Ok (p_mul n p) /\
     p_mul (i mod n) p = p_mul i p).
Proof. exact @action. Qed.
Print Assumptions C63_action.
(** pairing is bilinear in the wrappers' notation *)
Theorem C63_pairing : forall (B : Bp) p q r, p_pair p q = Ok r ->
  (forall a b, p_pair (p_mul a p) (p_mul b q) = Ok (p_mul (a * b) r)) /\
  (forall p' s r', p_add p p' = Ok s -> p_pair p' q = Ok r' -> exists t, p_add r r' = Ok t /\ p_pair s q = Ok t) /\
  (forall q' s r', p_add q q' = Ok s -> p_pair p q' = Ok r' -> exists t, p_add r r' = Ok t /\ p_pair p s = Ok t).
Proof. exact @bilinear. Qed.
Print Assumptions C63_pairing.
(** the points of one pair object are a [World]: every theorem of this development applies to them *)
Theorem C63_world : forall (B : Bp) b, po_bpgp b = true -> forall text ex im h h', exists (W : World) (e : pt -> point) (k : gid -> side),
  (forall p, p_obj p = b <-> exists x, p = e x) /\
  (forall x y, e x = e y -> x = y) /\
  (forall x, p_group (e x) = (k (grp x), b)) /\
  (forall g, g_infinite (k g, b) = Ok (e (inf g)) /\ g_generator (k g, b) = Ok (e (gen g)) /\ g_order (k g, b) = Ok (order g)) /\
  (forall g g', g_eq (k g, b) (k g', b) = Ok (gid_eqb g g')) /\
  (forall n x, p_mul n (e x) = e (pmul n x)) /\
  (forall x y, grp x = grp y -> p_eq (e x) (e y) = Ok (pt_eqb x y)) /\
  (forall x y, same_res e (padd_chk x y) (p_add (e x) (e y))) /\
  (forall x y, same_res e (psub_chk x y) (p_sub (e x) (e y))) /\
  (forall x y, same_res e (pairing_chk x y) (p_pair (e x) (e y))) /\
  (forall g ws xs, same_res e (wsum g ws xs) (g_wsum (k g, b) ws (map e xs))) /\
  (forall g s, k g = G1 -> g_hash (k g, b) s = Ok (e (hash_to_point g s))) /\
  (forall x, repr_pt x = text (e x)) /\ (forall x, export_pt x = ex (e x)) /\
  (forall s p, im s = Some p -> p_obj p = b -> exists x, import_pt s = Some x /\ p = e x) /\ sha256 = h /\ sha512 = h'.
Proof. exact @is_world. Qed.
Print Assumptions C63_world.

(** BilinearGroupPair() of the instance modulo 7, its generators, and numbers of them *)
Definition bp0 : pairobj := pair_init 0 None.
Definition pval (r : res (@point El)) : option (side * Z * nat) :=
  match r with Ok (Pnt k x b) => Some (k, ev x, po_id b) | Err _ => None end.
Example C63_ex : po_bpgp bp0 = true /\
  match @g_generator El (G1, bp0), @g_generator El (G2, bp0), @g_generator El (GT, bp0) with
  | Ok p, Ok q, Ok t =>
      (pval (g_sum (GT, bp0) [t; t; t]), pval (Ok (p_mul 3 t)), pval (Ok (p_mul 0 t)), pval (g_infinite (GT, bp0)),
       pval (p_pair (p_mul 5 p) (p_mul 4 q)), pval (p_pair (p_mul 0 p) q), pval (g_wsum (G1, bp0) [2; -3; 0] [p; p; p]), pval (p_sub t t))
      = (Some (GT, 3, 0%nat), Some (GT, 3, 0%nat), Some (GT, 0, 0%nat), Some (GT, 0, 0%nat),
         Some (GT, 6, 0%nat), Some (GT, 0, 0%nat), Some (G1, 6, 0%nat), None)
  | _, _, _ => False end.
Proof. split; vm_compute; reflexivity. Qed.

(** C64: a point that is encoded and decoded is equal to the original and so are its multiples; what is computed
    with it belongs to the pair object that the decoder made *)
Theorem C64_sent : forall (B : Bp) k x b id, po_bpgp b = true -> rimport k (rexport k x) = Some x ->
  exists d p, pt_enc (Pnt k x b) = Ok d /\ pt_dec id d = Ok p /\ p_eq p (Pnt k x b) = Ok true /\
    p_group p = (k, pair_init id None) /\ (forall n, p_eq (p_mul n p) (p_mul n (Pnt k x b)) = Ok true) /\
    (k = G1 -> g_eq (p_group p) (k, b) = Ok true /\
      forall q r, p_pair (Pnt k x b) q = Ok r -> exists r', p_pair p q = Ok r' /\ p_eq r' r = Ok true).
Proof. exact @sent_point. Qed.
Print Assumptions C64_sent.
(** "a decoded point is in the group of the original" is false in G2 and GT, and in G1 "its pairings are in the group
    of the original's pairings" is false: the objects are compared *)
Theorem C64_group_refuted : forall (B : Bp) k x b id, po_bpgp b = true -> rimport k (rexport k x) = Some x -> id <> po_id b ->
  exists d p, pt_enc (Pnt k x b) = Ok d /\ pt_dec id d = Ok p /\ p_eq p (Pnt k x b) = Ok true /\
    (k <> G1 -> g_eq (p_group p) (k, b) = Ok false) /\
    (k = G1 -> forall q r r', p_pair (Pnt k x b) q = Ok r -> p_pair p q = Ok r' -> p_eq r' r = Ok true /\ g_eq (p_group r') (p_group r) = Ok false).
Proof. exact @sent_group. Qed.
Print Assumptions C64_group_refuted.
(** "BilinearGroupPair(g) is a group pair over g" is false: the object has no group, every use of its groups fails *)
Theorem C64_given_refuted : forall (B : Bp) id g k, let b := pair_init id (Some g) in
  g_generator (k, b) = Err EAttributeErr /\ g_infinite (k, b) = Err EAttributeErr /\ g_order (k, b) = Err EAttributeErr /\
  (forall ps, g_sum (k, b) ps = Err EAttributeErr) /\ (forall ws ps, g_wsum (k, b) ws ps = Err EAttributeErr) /\
  (forall s, g_hash (k, b) s = Err EAttributeErr) /\ (forall x, pt_enc (Pnt k x b) = Err EAttributeErr).
Proof. exact @given_group. Qed.
Print Assumptions C64_given_refuted.

Example C64_ex : po_bpgp bp0 = true /\ (forall k x, @rimport El k (@rexport El k x) = Some x) /\ 1%nat <> po_id bp0 /\
  match @g_generator El (G1, bp0), @g_generator El (G2, bp0) with
  | Ok p, Ok q =>
      match (let? d := pt_enc (p_mul 3 p) in pt_dec 1 d) with
      | Ok p' => (p_eq p' (p_mul 3 p), g_eq (p_group p') (p_group p), pval (p_pair p' q), pval (p_pair (p_mul 3 p) q))
                 = (Ok true, Ok true, Some (GT, 3, 1%nat), Some (GT, 3, 0%nat))
      | _ => False end
  | _, _ => False end.
Proof. split; [reflexivity|]. split; [exact el_sent|]. split; [discriminate|]. vm_compute; reflexivity. Qed.

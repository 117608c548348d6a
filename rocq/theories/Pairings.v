(** Model of /repo/zksk/pairings.py: the wrappers of bplib's bilinear groups. Everything else in the development takes groups
    from a [World]; here the wrappers themselves are modelled on top of what is assumed of bplib. *)
From Coq Require Import String Eqdep_dec.
From Verif Require Import Base.
Open Scope Z_scope.
Open Scope list_scope.

(** The three classes G1Point, G2Point and AdditivePoint (and the corresponding groups). *)
Inductive side := G1 | G2 | GT.
Definition side_eq_dec (a b : side) : {a = b} + {a <> b}.
Proof. decide equality. Defined.

(** What is assumed of bplib (compiled code, not in the repository): the elements of the three groups of BpGroup() with their
    operations. For G1Elem and G2Elem [radd] is [+] and [rmul] is [*], for GTElem they are [*] and [**]. Nothing is
    assumed of [** 0], see the comment in pairings.py:101-102. Elements of different classes cannot be combined. *)
Definition expo (k : side) (n : Z) : Prop := k = GT -> n <> 0.
Class Bp := {
  raw : side -> Type;
  raw_eqb : forall k, raw k -> raw k -> bool;
  raw_eqb_spec : forall k (a b : raw k), raw_eqb k a b = true <-> a = b;
  bp_order : Z;
  bp_order_gt1 : 1 < bp_order;
  radd : forall k, raw k -> raw k -> raw k;
  rmul : forall k, raw k -> Z -> raw k;
  rzero : forall k, raw k;                        (* G1Elem.inf, G2Elem.inf, GTElem.one *)
  rgen1 : raw G1;
  rgen2 : raw G2;
  rdiv : raw GT -> raw GT -> raw GT;
  rpair : raw G1 -> raw G2 -> raw GT;
  rhash1 : bytes -> raw G1;
  rexport : forall k, raw k -> bytes;
  rimport : forall k, bytes -> option (raw k);     (* from_bytes; None: an exception *)
  radd_comm : forall k (a b : raw k), radd k a b = radd k b a;
  radd_assoc : forall k (a b c : raw k), radd k a (radd k b c) = radd k (radd k a b) c;
  radd_zero : forall k (a : raw k), radd k (rzero k) a = a;
  rmul_0 : forall k (a : raw k), k <> GT -> rmul k a 0 = rzero k;
  rmul_1 : forall k (a : raw k), rmul k a 1 = a;
  rmul_add : forall k (a : raw k) i j, expo k i -> expo k j -> expo k (i + j) -> rmul k a (i + j) = radd k (rmul k a i) (rmul k a j);
  rmul_mul : forall k (a : raw k) i j, expo k i -> expo k j -> rmul k (rmul k a j) i = rmul k a (i * j);
  rmul_dist : forall k (a b : raw k) i, expo k i -> rmul k (radd k a b) i = radd k (rmul k a i) (rmul k b i);
  rmul_order : forall k (a : raw k), rmul k a bp_order = rzero k;
  rdiv_self : forall a, rdiv a a = rzero GT;
  rpair_add_l : forall a a' b, rpair (radd G1 a a') b = radd GT (rpair a b) (rpair a' b);
  rpair_add_r : forall a b b', rpair a (radd G2 b b') = radd GT (rpair a b) (rpair a b');
  rpair_mul_l : forall n a b, n <> 0 -> rpair (rmul G1 a n) b = rmul GT (rpair a b) n;
  rpair_mul_r : forall n a b, n <> 0 -> rpair a (rmul G2 b n) = rmul GT (rpair a b) n
}.

Section P.
Context {B : Bp}.

(** BilinearGroupPair objects, pairings.py:21-26: identity, and whether the attribute bpgp exists. As written, the
    attribute is set only if no group is given. (BpGroup() always has the default curve, so two such are equal.) *)
Record pairobj := mkPair { po_id : nat; po_bpgp : bool }.
Definition pair_init (id : nat) (bp_group : option unit) : pairobj :=
  mkPair id (match bp_group with None => true | Some _ => false end).
(** self.bp.bpgp *)
Definition bpgp (b : pairobj) : res unit := if po_bpgp b then Ok tt else Err EAttributeErr.

(** G1Point, G2Point, AdditivePoint: pairings.py:132-135, 173-176, 89-92 *)
Inductive point := Pnt (k : side) (x : raw k) (b : pairobj).
Definition p_side (p : point) : side := match p with Pnt k _ _ => k end.
Definition p_obj (p : point) : pairobj := match p with Pnt _ _ b => b end.
(** p.group. The group objects are attributes of the pair object (pairings.py:24-26). *)
Definition group := (side * pairobj)%type.
Definition p_group (p : point) : group := (p_side p, p_obj p).

(** a combination of elements of one class; of different classes: refused by bplib *)
Definition with_same {A} (k k' : side) (y : raw k') (f : raw k -> A) : res A :=
  match side_eq_dec k' k with
  | left E => Ok (f (eq_rect k' raw y k E))
  | right _ => Err ETypeErr
  end.

(** __mul__ / __rmul__: pairings.py:97-106 (GT, with its special case), 146-147, 187-188 *)
Definition p_mul (n : Z) (p : point) : point :=
  match p with
  | Pnt GT x b => if n =? 0 then Pnt GT (rdiv x x) b else Pnt GT (rmul GT x n) b
  | Pnt k x b => Pnt k (rmul k x n) b
  end.
(** __add__: pairings.py:111-115, 140-141, 181-182; the result belongs to the pair object of the left operand *)
Definition p_add (p q : point) : res point :=
  match p, q with Pnt k x b, Pnt k' y _ => with_same k k' y (fun y => Pnt k (radd k x y) b) end.
(** __sub__: pairings.py:143-144, 184-185; AdditivePoint has none *)
Definition p_sub (p q : point) : res point :=
  match p with Pnt GT _ _ => Err ETypeErr | _ => p_add p (p_mul (-1) q) end.
(** __eq__: pairings.py:108-109, 152-153, 193-194. (Comparing elements of different classes: refused by bplib.) *)
Definition p_eq (p q : point) : res bool :=
  match p, q with Pnt k x _, Pnt k' y _ => with_same k k' y (fun y => raw_eqb k x y) end.
(** pair: pairings.py:157-158; only G1Point has the method *)
Definition p_pair (p q : point) : res point :=
  match p with
  | Pnt G1 x b => let? _ := bpgp b in
      match q with Pnt k y _ => with_same G2 k y (fun y => Pnt GT (rpair x y) b) end
  | _ => Err EAttributeErr
  end.

(** generator(): pairings.py:61-64, 215-218, 263-266 (the attribute gen is a cache) *)
Definition g_generator (g : group) : res point :=
  let (k, b) := g in
  match k with
  | G1 => let? _ := bpgp b in Ok (Pnt G1 rgen1 b)
  | G2 => let? _ := bpgp b in Ok (Pnt G2 rgen2 b)
  | GT => let? _ := bpgp b in p_pair (Pnt G1 rgen1 b) (Pnt G2 rgen2 b)
  end.
(** infinite(): pairings.py:53-56, 220-223, 268-271 *)
Definition g_infinite (g : group) : res point :=
  let? _ := g_generator g in let? _ := bpgp (snd g) in Ok (Pnt (fst g) (rzero (fst g)) (snd g)).
(** order(): pairings.py:58-59, 225-226, 273-274 *)
Definition g_order (g : group) : res Z := let? _ := bpgp (snd g) in Ok bp_order.
(** group == group: G1Group.__eq__, pairings.py:228-229; G2Group and GTGroup have none, so that objects are compared *)
Definition g_eq (g h : group) : res bool :=
  match fst g with
  | G1 => let? _ := bpgp (snd g) in let? _ := bpgp (snd h) in Ok (if side_eq_dec (fst h) G1 then true else false)
  | k => Ok ((if side_eq_dec (fst h) k then true else false) && Nat.eqb (po_id (snd g)) (po_id (snd h)))
  end.
(** hash_to_point: pairings.py:231-232; only G1Group has it *)
Definition g_hash (g : group) (s : bytes) : res point :=
  match fst g with G1 => let? _ := bpgp (snd g) in Ok (Pnt G1 (rhash1 s) (snd g)) | _ => Err EAttributeErr end.
(** sum: pairings.py:66-70, 235-239, 277-281 *)
Definition g_sum (g : group) (ps : list point) : res point :=
  let? z := g_infinite g in fold_left (fun acc p => let? a := acc in p_add a p) ps (Ok z).
(** wsum: pairings.py:72-76, 242-246, 283-287 *)
Definition g_wsum (g : group) (ws : list Z) (ps : list point) : res point :=
  let? z := g_infinite g in fold_left (fun acc wp => let? a := acc in p_add a (p_mul (fst wp) (snd wp))) (combine ws ps) (Ok z).

(** pt_enc, pt_dec: pairings.py:290-313. The code of the class (111, 112, 113) stands as a [side]; the curve number
    that is packed beside the data is not used by the decoder and left out. [id]: identity of the pair object that
    the decoder makes. *)
Definition pt_enc (p : point) : res (side * bytes) :=
  match p with Pnt k x b => let? _ := bpgp b in Ok (k, rexport k x) end.
Definition pt_dec (id : nat) (d : side * bytes) : res point :=
  match rimport (fst d) (snd d) with
  | Some x => Ok (Pnt (fst d) x (pair_init id None))
  | None => Err EValueErr
  end.
End P.

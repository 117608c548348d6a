(** Serialization and malleability: properties C36, C39. *)
From Coq Require Import String Znumtheory.
From Verif Require Import Base World Val Expr Utils Stmt Prove Verify Spec Shapes Claims Extract Honest Clauses Supply Ident
  Alike Places Wire2 IdProofs4 IdProofs5 IdProofs6 Second ZqWorld ZqFacts Ex ExTree PropSound PropId.
Open Scope Z_scope.
Open Scope list_scope.

(** C36: a proof of prove() whose points are encoded faithfully comes back with the same challenge,
    precommitment and hash and the same responses (tuples have become lists), and every verifier
    gives the same verdict on both. *)
Theorem C36_wire : forall (W : World) sp sd msg0 st0 z sp1 st1 b,
  prove sp sd msg0 st0 = Ok ((z, sp1), st1) -> serialize z = Ok b -> Forall faithful (points (n_resp z) ++ points (n_pre z)) ->
  exists z', deserialize b = Ok z' /\ n_chal z' = n_chal z /\ n_resp z' = norm (n_resp z) /\ n_pre z' = n_pre z /\ n_hash z' = n_hash z /\
    forall s msg st x, wfs s -> (verify s z msg st = Ok x <-> verify s z' msg st = Ok x).
Proof. exact @wire_proved. Qed.
Print Assumptions C36_wire.

(** a proof with a disjunction, an inequality and a range proof goes over the wire *)
Definition over_the_wire {W : World} (z : nizk) : res nizk := let? b := serialize z in deserialize b.
Example C36_ex : (forall p : @pt Zq, faithful p) /\
  match prove exS exsd (lit "msg") st0 with
  | Ok ((z, _), _) => match over_the_wire z with
     | Ok z' => match verify exV z' (lit "msg") st0 with Ok ((b, _), _) => b | Err _ => false end
     | Err _ => false end
  | Err _ => false end = true.
Proof. split; [exact zq_faithful|vm_compute; reflexivity]. Qed.

(** bytes after a proof are not ignored, and no proper beginning of a proof is a proof *)
Theorem C36_exact : forall (W : World) b z c, deserialize b = Ok z -> c <> [] -> deserialize (b ++ c) = Err EValueErr.
Proof. exact @deserialize_more. Qed.
Print Assumptions C36_exact.
Example C36_exact_ex :
  match prove exS exsd (lit "msg") st0 with
  | Ok ((z, _), _) => match serialize z with
     | Ok b => match deserialize b, deserialize (b ++ lit "x"), deserialize (removelast b) with Ok _, Err EValueErr, Err EValueErr => true | _, _, _ => false end
     | Err _ => false end
  | Err _ => false end = true.
Proof. vm_compute. reflexivity. Qed.

(** Points of pairing groups are decoded into a new group object (pairings.py:298-307), which is not
    the group of the key (in the library the test that fails compares groups GT, see C64): no proof of knowledge of a signature is verified after it has been sent. *)
Theorem C36_signature_refuted : forall (W : World) pk sig g0 g1 g2 gs es svs r1 r2 d1 d2 sim p0 c0 z msg st A1 A2,
  let s := SExt (KBBS pk sig (g0 :: g1 :: g2 :: gs) (es :: svs) r1 r2 d1 d2) sim p0 c0 in
  grp g1 = grp g2 -> n_pre z = VDict [(lit "A1", VPt A1); (lit "A2", VPt A2)] -> grp A1 <> grp g1 ->
  verify s z msg st = Err EInvalidExpression.
Proof. exact @foreign_bbs. Qed.
Print Assumptions C36_signature_refuted.

(** a world in which decoded points of the pairing groups are in new groups *)
Definition with_import (W : World) (f : bytes -> option (@pt W)) : World := {|
  gid := gid; gid_eqb := gid_eqb; gid_eqb_spec := gid_eqb_spec; order := order; order_gt1 := order_gt1;
  pt := pt; grp := grp; pt_eqb := pt_eqb; pt_eqb_spec := pt_eqb_spec; inf := inf; gen := gen; padd := padd; pmul := pmul; has_sub := has_sub;
  grp_inf := grp_inf; grp_gen := grp_gen; grp_add := grp_add; grp_mul := grp_mul; add_comm := add_comm; add_assoc := add_assoc;
  add_inf_l := add_inf_l; mul_0 := mul_0; mul_1 := mul_1; mul_add := mul_add; mul_mul := mul_mul; mul_distr := mul_distr;
  mul_order := mul_order; pairs := pairs; pairing := pairing; grp_pairing := grp_pairing; order_pairs := order_pairs;
  pairing_add_l := pairing_add_l; pairing_add_r := pairing_add_r; pairing_mul_l := pairing_mul_l; pairing_mul_r := pairing_mul_r;
  hash_to_point := hash_to_point; grp_hash := grp_hash; repr_pt := repr_pt; export_pt := export_pt; import_pt := f;
  sha256 := sha256; sha512 := sha512 |}.
Definition moved (p : zpt) : zpt :=
  if ((0 <? fst (zg p)) && (fst (zg p) <? 4))%N then zmk ((fst (zg p) + 3)%N, snd (zg p)) (zv p) else p.
Definition Zm : World := with_import Zq (fun b => option_map moved (zimport b)).

Definition mPk : @bbs_pk Zm := @mkPk Zm (B2 10) (B2 1) (pk_gens exPk) (pk_genpairs exPk).
Definition mSig : @bbs_sig Zm := @mkSig Zm (B1 16) 4 6.
Definition mBB (sg : option (@bbs_sig Zm)) : @stmt Zm :=
  SExt (KBBS mPk sg (pk_gens mPk) exBs (X 34 "r1") (X 35 "r2") (X 36 "d1") (X 37 "d2")) false VNone None.
Example C36_signature_ex :
  match @prove Zm (mBB (Some mSig)) exBsd (lit "msg") stB with
  | Ok ((z, _), _) => match @over_the_wire Zm z with
     | Ok z' => match @verify Zm (mBB None) z (lit "msg") st0, @verify Zm (mBB None) z' (lit "msg") st0 with
                | Ok ((b, _), _), Err EInvalidExpression => b | _, _ => false end
     | Err _ => false end
  | Err _ => false end = true.
Proof. vm_compute. reflexivity. Qed.

(** C39: responses are not checked to be reduced: adding a multiple of the group order to the
    responses of an accepted proof gives another accepted proof. *)
Theorem C39_reduced_refuted : forall (W : World) d z msg st b s1 st1 zs k,
  verify (SDL d) z msg st = Ok ((b, s1), st1) -> n_resp z = VList (map VInt zs) ->
  verify (SDL d) (mkNizk (n_chal z) (VList (map (fun x => VInt (x + k * order (grp (dl_lhs d)))) zs)) (n_pre z) (n_hash z)) msg st = Ok ((b, s1), st1).
Proof. exact @bumped. Qed.
Print Assumptions C39_reduced_refuted.

(** Two accepted proofs with one challenge, of statements of any form: a collision of the hash function, or the same
    message, precommitments with one binary form, the same statement hash and statements with one identifier (alike by
    C16_same_identifier), and at every place with the same equation, the responses differ by a relation between the bases
    and the left-hand side: its coefficient is the difference of the sub-challenges, 0 outside of disjunctions. *)
Theorem C39_same_challenge : forall (W : World) s s' z z' msg msg' st st' s1 st1 s1' st1',
  (exists n, forall b, List.length (sha256 b) = n) ->
  verify s z msg st = Ok ((true, s1), st1) -> verify s' z' msg' st' = Ok ((true, s1'), st1') ->
  n_chal z = n_chal z' -> framed (n_pre z) -> framed (n_pre z') ->
  (exists h com i h' com' i', prehash_input s1 = Ok h /\ prehash_input s1' = Ok h' /\
     recompute s1 (n_chal z) (n_resp z) = Ok com /\ recompute s1' (n_chal z') (n_resp z') = Ok com' /\
     fs_input h [n_pre z; com] msg = Ok i /\ fs_input h' [n_pre z'; com'] msg' = Ok i' /\ i <> i' /\ sha256 i = sha256 i') \/
  (msg = msg' /\ wire_alike (n_pre z) (n_pre z') /\ n_hash z = n_hash z' /\
   (exists h, prehash_input s1 = Ok h /\ prehash_input s1' = Ok h) /\
   forall path d a u d' a' u' zs zs',
     place s1 (n_chal z) (n_resp z) path d a u -> place s1' (n_chal z') (n_resp z') path d' a' u' ->
     distinguished (grp (dl_lhs d)) -> dl_lhs d' = dl_lhs d -> dl_bases d' = dl_bases d ->
     u = VList (map VInt zs) -> u' = VList (map VInt zs') -> List.length zs = List.length (dl_bases d) -> List.length zs' = List.length (dl_bases d) ->
     lincomb (grp (dl_lhs d)) (zdiff zs zs') (dl_bases d) = pmul (a - a') (dl_lhs d)).
Proof. exact @second_proof. Qed.
Print Assumptions C39_same_challenge.

(** Every representation of the statement has such a place in an accepted proof ... *)
Theorem C39_places : forall (W : World) s z msg st b s1 st1 path d,
  verify s z msg st = Ok ((b, s1), st1) -> leaf s1 path d -> exists a u, place s1 (n_chal z) (n_resp z) path d a u.
Proof. exact @verify_places. Qed.
Print Assumptions C39_places.

(** ... whose challenge is that of the proof if there are no disjunctions. *)
Theorem C39_one_challenge : forall (W : World) s c r path d a u, place s c r path d a u -> noor s -> a = c.
Proof. exact @place_noor. Qed.
Print Assumptions C39_one_challenge.

(** In a group of prime order, the holder of two proofs with different sub-challenges at a place knows a solution of
    the equation there: the quotients of the differences. *)
Theorem C39_other_subchallenge : forall (W : World) d a a' ds, in_group (grp (dl_lhs d)) (dl_bases d) ->
  prime (order (grp (dl_lhs d))) -> ~ (order (grp (dl_lhs d)) | a - a') ->
  lincomb (grp (dl_lhs d)) ds (dl_bases d) = pmul (a - a') (dl_lhs d) ->
  exists ws, Forall2 (fun w z => (order (grp (dl_lhs d)) | w * (a - a') - z)) ws ds /\ dl_lhs d = lincomb (grp (dl_lhs d)) ws (dl_bases d).
Proof. exact @other_challenge. Qed.
Print Assumptions C39_other_subchallenge.

(** With one base, not the neutral element, in a group of prime order, and one sub-challenge: the same response modulo
    the order. *)
Theorem C39_one_response : forall (W : World) d p x x', dl_bases d = [p] -> grp p = grp (dl_lhs d) ->
  prime (order (grp p)) -> p <> inf (grp p) ->
  lincomb (grp (dl_lhs d)) (zdiff [x] [x']) (dl_bases d) = inf (grp (dl_lhs d)) -> x mod order (grp p) = x' mod order (grp p).
Proof. exact @one_response. Qed.
Print Assumptions C39_one_response.

(** the proof of a representation and a changed one, both accepted *)
Definition bump_resp (k : Z) (v : @val Zq) : val :=
  match v with VList l => VList (map (fun x => match x with VInt z => VInt (z + k) | _ => x end) l) | _ => v end.
Example C39_ex :
  (exists n, forall b, List.length (@sha256 Zq b) = n) /\ (forall p : @pt Zq, faithful p) /\
  match prove exDL exsd (lit "msg") st0 with
  | Ok ((z, _), _) =>
     match run (verify exDLV z (lit "msg")) st0,
           run (verify exDLV (mkNizk (n_chal z) (bump_resp 101 (n_resp z)) (n_pre z) (n_hash z)) (lit "msg")) st0,
           run (verify exDLV (mkNizk (n_chal z) (bump_resp 1 (n_resp z)) (n_pre z) (n_hash z)) (lit "msg")) st0 with
     | Ok (a, _), Ok (b, _), Ok (c, _) => a && b && negb c | _, _, _ => false end
  | Err _ => false end = true.
Proof. split; [exact zq_digest|]. split; [exact zq_faithful|vm_compute; reflexivity]. Qed.

(** A conjunction with a disjunction. The proof is changed in three ways: the response at place [0] grows by the order of
    the group; the sub-challenge of the proven branch grows by 2^128 and its response by 7 * 2^128, 7 being the
    solution; the sub-challenge of the other branch grows by 2^128 and its response by 7 * 2^128, not a solution there. *)
Definition exMal : stmt := SAnd [SDL (mkDL (Pt 12) [Pt 3] [sx] [] false);
  SOr [SDL (mkDL (Pt 50) [Pt 3] [sz] [] false); SDL (mkDL (Pt 21) [Pt 3] [su] [] false)] false None] false.
Fixpoint at_place (path : list nat) (f : val -> @val Zq) (v : @val Zq) : val :=
  match path with
  | [] => f v
  | i :: path => match v with
                 | VList l => VList (replace i (at_place path f (nth i l VNone)) l)
                 | VTuple l => VTuple (replace i (at_place path f (nth i l VNone)) l)
                 | _ => v
                 end
  end.
Definition plus (k : Z) (v : @val Zq) : val := match v with VInt z => VInt (z + k) | _ => v end.
Definition changed (f : @val Zq -> val) : res bool :=
  match prove exMal exsd (lit "m") st0 with
  | Ok ((z, _), _) => run (let! r := verify exMal (mkNizk (n_chal z) (f (n_resp z)) (n_pre z) (n_hash z)) (lit "m") in ret (fst r)) st0
  | Err e => Err e
  end.
Definition shift (i : nat) (r : @val Zq) : val :=
  at_place [1; 1; i; 0]%nat (plus (7 * 2 ^ 128)) (at_place [1; 0; i]%nat (plus (2 ^ 128)) r).
Example C39_ex_tree :
  (forall g, @distinguished Zq g) /\ leaf exMal [1; 1]%nat (mkDL (Pt 21) [Pt 3] [su] [] false) /\
  changed (fun r => r) = Ok true /\ changed (at_place [0; 0]%nat (plus 101)) = Ok true /\
  changed (shift 1) = Ok true /\ changed (shift 0) = Ok false.
Proof.
  split. { intros g p q _ _ E. pose proof (zq_faithful p) as F. unfold faithful in F. rewrite E, (zq_faithful q) in F. congruence. }
  split. { eapply LfAnd; [reflexivity|]. eapply LfOr; [reflexivity|]. constructor. }
  repeat split; vm_compute; reflexivity.
Qed.

(** The bytes of [5, 'a', None] with a petlib number: an array of three, an extension of two bytes (code 0, sign and magnitude), a
    text of one byte, nil. And of 300 bytes: a 16-bit header. *)
Example C36_ex_format :
  encode (W := Zq) (VList [VInt 5; VStr (lit "a"); VNone]) = Ok (map byte_of [147; 213; 0; 43; 5; 161; 97; 192]) /\
  match encode (W := Zq) (VBytes (repeat "z"%char 300)) with Ok b => firstn 4 b = map byte_of [197; 1; 44; 122] | Err _ => False end /\
  match decode (W := Zq) (map byte_of [146; 127; 204; 200]) with Ok v => val_eqb v (VList [VInt 127; VInt 200]) | Err _ => false end = true.
Proof. split; [vm_compute; reflexivity|]. split; vm_compute; reflexivity. Qed.

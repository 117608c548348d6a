(** Property C96: which byte strings are read as which proofs. *)
From Coq Require Import String.
From Verif Require Import Base World Val Expr Utils Stmt Prove Verify Spec Wire MsgSpec MsgProofs ZqWorld ZqFacts Ex ExTree PropWire.
Open Scope Z_scope.
Open Scope list_scope.

(** C96: NIZK.deserialize reads a byte string as a proof if and only if it is one in msgpack (all formats, see [MsgSpec.v]); everything else is an error. *)
Theorem C96_deserialize : forall (W : World) b z, deserialize b = Ok z <-> sent z b.
Proof. exact @deserializes. Qed.
Print Assumptions C96_deserialize.

(** One byte string is one proof ... *)
Theorem C96_unambiguous : forall (W : World) z z' b, sent z b -> sent z' b -> z = z'.
Proof. exact @sent_once. Qed.
Print Assumptions C96_unambiguous.

(** ... no value has a beginning that is a value: values that follow each other can be told apart ... *)
Theorem C96_prefix_free : forall (W : World) v v' b b' r r', msg v b -> msg v' b' -> b ++ r = b' ++ r' -> v = v' /\ b = b' /\ r = r'.
Proof. exact @prefix_free. Qed.
Print Assumptions C96_prefix_free.

(** ... but one proof is never only one byte string: whoever sees the bytes of a proof can make other bytes that are read as the same proof. *)
Theorem C96_unique_bytes_refuted : forall (W : World) b z, deserialize b = Ok z -> exists b', b' <> b /\ deserialize b' = Ok z.
Proof. exact @received_twice. Qed.
Print Assumptions C96_unique_bytes_refuted.

(** ** Example: a proof of z*3 = 50. The array with a header of three bytes, and the response s as the signed number s - 101, in one byte. *)
Definition bin8 (b : bytes) : bytes := byte_of 196 :: byte_of (len b) :: b.
Definition resent (z : @nizk Zq) : bytes :=
  match encode (VInt (n_chal z)), n_resp z, encode (n_hash z) with
  | Ok c, VList [VInt s], Ok h =>
      [byte_of 220; byte_of 0; byte_of 4] ++ bin8 c ++ bin8 [byte_of 145; byte_of 208; byte_of (s - 101)] ++ bin8 [byte_of 192] ++ bin8 h
  | _, _, _ => [] end.
Example C96_ex :
  match prove exZ [(sz, 84)] (lit "msg") st0 with
  | Ok ((z, _), _) => match n_resp z, deserialize (resent z) with
     | VList [VInt s], Ok z' => match n_resp z', verify exZ z' (lit "msg") st0 with
         | VList [VInt s'], Ok ((b, _), _) => b && (s' =? s - 101) && (s' <? 0) | _, _ => false end
     | _, _ => false end
  | Err _ => false end = true.
Proof. vm_compute. reflexivity. Qed.
(** The first parts of a proof are no proof, and neither is an array of five. *)
Example C96_error_ex :
  match prove exZ [(sz, 84)] (lit "msg") st0 with
  | Ok ((z, _), _) => match deserialize (removelast (resent z)), deserialize (byte_of 149 :: skipn 3 (resent z) ++ bin8 [byte_of 192]) with
     | Err EValueErr, Err ETypeErr => true | _, _ => false end
  | Err _ => false end = true.
Proof. vm_compute. reflexivity. Qed.
(** The relation [sent] itself: challenge 5, response -3, each in the shortest form *)
Example C96_sent_ex : @sent Zq (mkNizk 5 (VInt (-3)) VNone VNone)
  [byte_of 146; byte_of 196; byte_of 1; byte_of 5; byte_of 196; byte_of 1; byte_of 253].
Proof.
  apply Sent2 with [byte_of 5] [byte_of 253].
  - apply MSmall; [reflexivity|]. now apply int_byte.
  - apply MNeg; [split; [discriminate|reflexivity]|]. now apply int_byte.
  - apply (MArray _ [byte_of 146] [byte_of 196; byte_of 1; byte_of 5; byte_of 196; byte_of 1; byte_of 253]).
    { apply HArray; [reflexivity|now apply int_byte|discriminate]. }
    apply (MsCons _ [byte_of 196; byte_of 1; byte_of 5] _ [byte_of 196; byte_of 1; byte_of 253]);
      [|apply (MsCons _ [byte_of 196; byte_of 1; byte_of 253] _ []); [|constructor]].
    + apply (MBinary _ [byte_of 196; byte_of 1]). apply (HSized Binary 196 1 _ [byte_of 1]); [now left|now apply int_byte|reflexivity].
    + apply (MBinary _ [byte_of 196; byte_of 1]). apply (HSized Binary 196 1 _ [byte_of 1]); [now left|now apply int_byte|reflexivity].
Qed.

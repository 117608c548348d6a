(** Completeness of trees with user-defined primitives in the random oracle model. *)
From Coq Require Import String Znumtheory.
From Verif Require Import Base World Val Expr Utils Stmt Prove Verify Spec Shapes Claims Honest Clauses Supply Extract Lib DictProofs Keeps Sigma Tree Build Process
  Provers Commit Total Total2 Total4 Complete Complete2 Checks2 IdProofs3 History AnswerProofs Sound4 WiProofs Custom CustomProofs Mixed MixedProofs MixedProofs2 MixedOr
  MixedOrProofs MixedOrProofs2 Nested NestedProofs NestedProofs2 NestedProofs3 Oracle OracleTree.
Open Scope Z_scope.
Open Scope list_scope.

Section O.
Context {W : World}.

Lemma tprove_ro_fun t sd msg a : with_fun sha256 (tprove_ro t sd msg a) = tprove t sd msg a.
Proof.
  unfold tprove_ro, tprove, bind. destruct (topen t sd a) as [[[[pre p] s] a1]|e]; [|reflexivity]. destruct (internal_commit s p None a1) as [[[com p1] a2]|e]; [|reflexivity].
  unfold ret, lift. destruct (prehash_input s) as [h|e]; [|reflexivity]. unfold fs_challenge. cbn [with_fun]. destruct (fs_input h [pre; com] msg) as [i|e]; [|reflexivity].
  cbn [with_fun rbind]. destruct (compute_response s p1 (be_int (sha256 i)) a2) as [[r a3]|e]; reflexivity.
Qed.

Theorem trom_complete (H : bytes -> bytes) U w ord sd t msg a : wfL U -> entries_ok U w sd -> agree w (env a) U -> tok U w sd (env a) t -> heard t ->
  (forall c, fill t c -> Ords ord c /\ Apart c) ->
  (forall p s a1, tget t sd a = Ok ((Some p, s), a1) -> tsincere U w t s p a1) ->
  match t with TA _ _ | TO _ _ => True | _ => False end ->
  (exists z a', with_fun H (tprove_ro t sd msg a) = Ok (z, a') /\ tpres t (n_pre z) /\
     forall f g tv stv, tmeets f g t (n_pre z) tv -> exists stv', with_fun H (tverify_ro tv z msg stv) = Ok (true, stv')) \/ toversized t sd a.
Proof.
  intros WF EN AG TO HE FI SI NT.
  destruct (topen_ok U w t sd a WF EN AG TO HE SI) as (pre & p & S & c & a2 & UO & B & PR & RD).
  destruct (tb_good U t c S B) as (N & I2 & I3 & BT & I5 & I6 & I7 & I8 & FU & _).
  assert (NP : exists vs, pre = VList vs).
  { assert (TP := tb_pres U t c S pre B PR HE). destruct t; try destruct NT; inversion TP; subst; eauto. }
  destruct (tcommit U w ord t c S p a2 WF B RD FI) as (com & p2 & a3 & Kz & od & IC & D).
  destruct (proof_id_total S BT) as ((n & EI) & _).
  destruct (encode (VStr (pystr n))) as [h|] eqn:EH.
  2:{ right. exists pre, p, S, a2, com, p2, a3, n. do 3 (split; [assumption|]). left. eapply encode_big; eauto. }
  assert (FP : (exists b, fs_arg pre = Ok b) \/ exists e, encode pre = Err e).
  { assert (Q : (exists b, encode pre = Ok b) \/ exists e, encode pre = Err e) by (destruct (encode pre); eauto).
    destruct NP as [vs ->]. exact Q. }
  destruct FP as [(b1 & F1)|(e & F1)].
  2:{ right. exists pre, p, S, a2, com, p2, a3, n. do 3 (split; [assumption|]). right; left. eapply encode_big; eauto. }
  assert (FA : (exists b, fs_arg com = Ok b) \/ (exists e, encode com = Err e) \/ exists b, com = VStr b).
  { assert (Q : (exists b, encode com = Ok b) \/ exists e, encode com = Err e) by (destruct (encode com); eauto).
    destruct com; cbn [fs_arg]; eauto; destruct Q as [Q|Q]; eauto. }
  destruct FA as [(b2 & F2)|[(e & F2)|(b' & F2)]].
  2:{ right. exists pre, p, S, a2, com, p2, a3, n. do 3 (split; [assumption|]). right; right. eapply encode_big; eauto. }
  2:{ exfalso. subst com. eapply commit_nstr; eauto. }
  left. set (i := h ++ List.concat [b1; b2] ++ msg); set (ch := be_int (H i)).
  destruct (respond_ok _ _ _ _ _ _ D ch a3) as (r & CR & RC & CS).
  assert (PH : prehash_input S = Ok h) by (unfold prehash_input; rewrite EI; cbn [rbind]; exact EH).
  assert (FC : fs_input h [pre; com] msg = Ok i).
  { unfold fs_input. cbn [rmap]. rewrite F1, F2. reflexivity. }
  exists (mkNizk ch r pre (VBytes (H h))), a3. split; [|split; [exact (tb_pres U t c S pre B PR HE)|]].
  - unfold tprove_ro, bind, ret. rewrite UO, IC, PH. cbn [with_fun]. rewrite FC. cbn [with_fun]. fold ch. rewrite CR. reflexivity.
  - cbn [n_pre]. intros f g tv stv MT.
    destruct (tproc_ok U f g t c S pre tv B PR HE MT stv) as (sv & stv' & E & SS & VL).
    exists stv'.
    assert (V := pre_validation_ok (env stv') f g _ S _ r SS FU CS).
    unfold tverify_ro. cbn [n_pre n_hash n_chal n_resp]. replace (is_none pre) with false by (destruct NP as [vs ->]; reflexivity).
    rewrite E, <- (Sim_prehash f g _ _ SS), PH. cbn [with_fun]. rewrite val_eqb_refl.
    unfold tpre_validation. rewrite VL. cbn [rbind].
    unfold pre_validation in V. destruct (full_validate sv) as [[]|]; [|discriminate V]. cbn [rbind] in V.
    destruct (consistent _ _ _ _ _) as [[rd|]|]; try discriminate V. cbn [rbind].
    rewrite <- (Sim_recompute f g _ _ _ _ SS), RC, FC. cbn [with_fun]. unfold ch. rewrite Z.eqb_refl. reflexivity.
Qed.
End O.

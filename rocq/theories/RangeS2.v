(** Soundness of generic ranges. *)
From Coq Require Import String Znumtheory.
From Verif Require Import Base World Val Expr Utils Stmt Prove Verify Spec Shapes Claims Clauses Extract Lib Lin DictProofs Keeps Tree
  Sigma ArithProofs Build Process Ktruth Supply Total Total2 Total3 Sound Sound2 Sound4 Forge RangeC RangeS.
Open Scope Z_scope.
Open Scope list_scope.

Section R.
Context {W : World}.

(** a constructed power-of-two range with as many commitments as bits *)
Lemma range_parts com g h n isp x r rs sim pre st con cs (P : Z -> Prop) :
  construct (KRange com g h n isp x r rs) pre st = Ok (con, st) -> kvalidate (KRange com g h n isp x r rs) pre = Ok tt ->
  List.length rs = n -> grp h = grp g -> getitem pre (lit "Cs") = Ok (VList cs) -> List.length cs = n -> P (order (grp g)) ->
  let s := SExt (KRange com g h n isp x r rs) sim pre (Some con) in
  orders_in P s /\ forall w, Sat w s -> exists u t, 0 <= u < 2 ^ Z.of_nat n /\ com = padd (pmul u g) (pmul t h).
Proof.
  intros CN V Lr Gh EC Lc HP s.
  apply validate_range_inv in V as (Cs & rand & E1 & E2 & l & E3 & IG & Gc & EQ).
  rewrite EC in E1. injection E1 as <-. injection E3 as ->. rewrite map_length in Lc.
  cbn [construct] in CN. apply construct_range_inv in CN as (_ & bits & subs & KB & -> & L2 & LS & F).
  assert (LB := krange_bits_len _ _ _ _ _ KB).
  assert (LN : List.length subs = n) by (rewrite LS, combine_length; lia).
  assert (BIT : forall j C, nth_error l j = Some C -> exists C1 r0 b, nth_error subs j = Some (bitx (env st) h C C1 r0 b) /\
     C1 = padd C (pneg g) /\ grp C = grp g).
  { intros j C HC. assert (Lj : (j < n)%nat) by (rewrite <- Lc; apply nth_error_Some; congruence).
    destruct (nth_error (combine rs bits) j) as [[r0 b]|] eqn:Ej; [|apply nth_error_None in Ej; rewrite combine_length in Ej; lia].
    destruct (F j r0 b Ej) as (C' & C1 & GC & PS & N). unfold get_C in GC. rewrite EC in GC. cbn [rbind] in GC.
    unfold index in GC. cbn in GC. rewrite (map_nth_error VPt _ _ HC) in GC. cbn in GC. injection GC as <-.
    apply psub_chk_ok in PS as [_ ->]. exists (padd C (pneg g)), r0, b. split; auto. split; auto.
    unfold in_group in IG. rewrite Forall_forall in IG. apply IG. eapply nth_error_In; eauto. }
  split.
  - constructor. constructor. apply Forall_forall. intros y Hy. apply In_nth_error in Hy as (j & Nj).
    destruct (nth_error l j) as [C|] eqn:El.
    2:{ apply nth_error_None in El. assert (j < List.length subs)%nat by (apply nth_error_Some; congruence). lia. }
    destruct (BIT j C El) as (C1 & r0 & b & N & -> & GC). rewrite N in Nj. injection Nj as <-.
    constructor. constructor; [|constructor; [|constructor]]; apply OiDL; cbn [dl_lhs].
    + rewrite GC. auto.
    + rewrite grp_add; [rewrite GC; auto|]. rewrite grp_neg. congruence.
  - intros w S. inversion S as [| | |k0 b0 p0 con0 SC]; subst k0 b0 p0 con0. inversion SC as [|subs0 b0 FS| |]; subst subs0 b0.
    destruct (psum_bits (grp g) g h l eq_refl Gh) with (k := 1) as (u & t & Hu & E).
    { intros C HC. apply In_nth_error in HC as (j & Nj). destruct (BIT j C Nj) as (C1 & r0 & b & N & -> & GC).
      rewrite Forall_forall in FS. specialize (FS _ (nth_error_In _ _ N)). apply bit_sat in FS as (t & [T|T]).
      - exists 0, t. split; auto. rewrite T. glin (grp g).
      - exists 1, t. split; auto. apply (add_cancel_r (pneg g)); rewrite ?grp_neg, ?grp_add, ?grp_mul; try congruence.
        { rewrite !grp_mul; congruence. } rewrite T. unfold pneg. glin (grp g). }
    exists u, (t - rand). rewrite Lc in Hu. split; auto. rewrite E, Z.mul_1_l in EQ.
    assert (Gv : grp (padd (pmul u g) (pmul (t - rand) h)) = grp g) by (rewrite grp_add; rewrite ?grp_mul; congruence).
    apply (add_cancel_r (pmul rand h)); [rewrite grp_mul; congruence|rewrite grp_mul; congruence|].
    rewrite <- EQ. glin (grp g).
Qed.

Lemma three_processed d k1 k2 pre st v s st1 :
  let s0 := SAnd [SDL d; SExt k1 false VNone None; SExt k2 false VNone None] false in
  process_pre s0 (get_verifier s0) pre st = Ok ((v, s), st1) -> is_none pre = false ->
  exists p1 p2 c1 c2, index pre 1 = Ok p1 /\ index pre 2 = Ok p2 /\ construct k1 p1 st = Ok (c1, st) /\ construct k2 p2 st = Ok (c2, st) /\
    st1 = st /\ s = SAnd [SDL d; SExt k1 false p1 (Some c1); SExt k2 false p2 (Some c2)] false.
Proof.
  intros s0 H N. unfold s0 in H. cbn [get_verifier map] in H. rewrite process_pre_and, N in H.
  cbn [pp_loop] in H. minvs. cbn [process_pre] in *. minvs.
  repeat match goal with A : construct _ _ _ = Ok (_, ?t) |- _ => let B := fresh in assert (B := A); apply construct_leafy in B as [B _]; subst t; revert A end.
  intros. cbn [snd]. do 4 eexists. repeat split; eauto.
Qed.

Lemma three_process d k1 k2 p1 p2 c1 c2 st : construct k1 p1 st = Ok (c1, st) -> construct k2 p2 st = Ok (c2, st) ->
  let s0 := SAnd [SDL d; SExt k1 false VNone None; SExt k2 false VNone None] false in
  process_pre s0 (get_verifier s0) (VList [VNone; p1; p2]) st =
  Ok ((RAnd [RDL; RExt (Some (get_verifier c1)); RExt (Some (get_verifier c2))],
       SAnd [SDL d; SExt k1 false p1 (Some c1); SExt k2 false p2 (Some c2)] false), st).
Proof.
  intros C1 C2 s0. unfold s0. cbn [get_verifier map]. rewrite process_pre_and. cbn [is_none pp_loop process_pre]. unfold bind, ret, lift.
  cbn [index nth_error]. rewrite C1. cbn [index nth_error]. rewrite C2. reflexivity.
Qed.

(** ** A proof for a value outside of the range, by somebody who knows the value *)
Lemma guarded_Cons R R' s r : guarded s -> Cons R s r -> Cons R' s r.
Proof.
  intros G. revert r. induction s as [d|subs f IH|subs f ch IH|k f q|k f q con IH] using stmt_ind'; intros r C; inversion G; subst; inversion C; subst.
  - constructor. match goal with A : Forall2 _ subs _, B : Forall guarded subs |- _ => clear -IH A B; revert B IH; induction A; intros B IH; inversion B; inversion IH; subst; constructor; auto end.
  - now constructor.
  - constructor. auto.
Qed.
Lemma range_answers com g h n x r rs st : has_sub (grp g) = true -> grp com = grp g -> grp h = grp g -> (2 <= n)%nat -> List.length rs = n ->
  exists pre con, let s := SExt (KRange com g h n false x r rs) false pre (Some con) in
    construct (KRange com g h n false x r rs) pre st = Ok (con, st) /\ fverifier con = get_verifier con /\ full_validate s = Ok tt /\
    forall R c, exists a, recompute s c a = Ok (neutral_com s) /\ Cons R s a.
Proof.
  intros HS Gc Gh Ln Lr.
  set (cs := com :: map (fun _ : nat => inf (grp g)) (seq 0 (n - 1))).
  assert (IG : in_group (grp g) cs) by (constructor; [auto|apply infs_group]).
  assert (LC : List.length cs = n) by (unfold cs; simpl; rewrite map_length, seq_length; lia).
  destruct (range_built com g h n x r rs cs 0 st) as (subs & PP & L & B & V); auto; [lia| |].
  { unfold cs. cbn [psum]. rewrite psum_infs. glin (grp g). }
  exists (rpre cs 0), (SAnd subs false). cbv zeta.
  assert (SB : forall y, In y subs -> exists C C1 r b, y = bitx (env st) h C C1 r b /\ grp C = grp h /\ grp C1 = grp h).
  { intros y Hy. apply In_nth_error in Hy as (j & Nj). assert (Lj : (j < List.length subs)%nat) by (apply nth_error_Some; congruence).
    destruct (nth_error cs j) as [C|] eqn:EC; [|apply nth_error_None in EC; lia].
    destruct (B j C ltac:(lia) EC) as (r0 & N). rewrite N in Nj. injection Nj as <-.
    assert (grp C = grp g) by (unfold in_group in IG; rewrite Forall_forall in IG; apply IG; eapply nth_error_In; eauto).
    exists C, (padd C (pneg g)), r0, None. split; auto. split; [congruence|]. rewrite grp_add; rewrite ?grp_neg; congruence. }
  destruct (con_range_ready (env st) h subs SB) as (G1 & G2 & G3).
  split; [|split; [|split; [exact V|]]].
  - apply process_ext in PP as (con & CN & _ & E & _). injection E as <-. exact CN.
  - cbn [fverifier get_verifier]. f_equal. apply map_ext_in. intros y Hy. destruct (SB y Hy) as (C & C1 & r0 & b & -> & _). reflexivity.
  - intros R c. destruct (extra_answer (SExt (KRange com g h n false x r rs) false (rpre cs 0) (Some (SAnd subs false)))) with (c := c) as (a & A1 & A2).
    + constructor. auto.
    + apply groups_orders. constructor. auto.
    + constructor. auto.
    + exists a. split; auto. eapply guarded_Cons; [|exact A2]. constructor. auto.
Qed.

Lemma range_forgery_all com g h a b x r x1 x2 rs1 rs2 sb s0 st u t :
  let n := num_bits (b - a - 1) in
  mk_range com g h a b x r x1 x2 rs1 rs2 sb = Ok (s0, st) -> has_sub (grp g) = true -> grp h = grp g -> com = padd (pmul u g) (pmul t h) ->
  (2 <= n)%nat -> List.length rs1 = n -> List.length rs2 = n -> sname x <> sname r ->
  env sb (sid x) = None -> env sb (sid x1) = None -> env sb (sid x2) = None ->
  exists pre v s, process_pre s0 (get_verifier s0) pre st = Ok ((v, s), st) /\
    exists c0, forall e c, exists z, verify_resp e s v c0 c z = Ok true.
Proof.
  intros n MK HS Gh EC Ln L1 L2 NX X0 X1 X2.
  assert (Gc : grp com = grp g) by (rewrite EC, grp_add; rewrite ?grp_mul; congruence).
  apply mk_range_inv in MK as (com1 & com2 & S1 & S2 & EV & ->). fold n in S2 |- *. cbv zeta. set (o := 2 ^ Z.of_nat n - (b - a)) in *.
  rewrite X0 in EV. rewrite EV, X1, X2. cbn [is_some andb].
  apply psub_chk_ok in S1 as [S1 Ec1]. rewrite grp_neg, grp_mul in S1. apply padd_chk_ok in S2 as [S2 Ec2]. rewrite grp_mul in S2.
  assert (Gc2 : grp com2 = grp g) by (rewrite Ec2, grp_add; rewrite ?grp_mul; congruence).
  destruct (range_answers com1 g h n x1 r rs1 st) as (p1 & k1 & C1 & F1 & V1 & A1); auto.
  destruct (range_answers com2 g h n x2 r rs2 st) as (p2 & k2 & C2 & F2 & V2 & A2); auto. cbv zeta in V1, A1, V2, A2.
  set (D := SDL (mkDL com [g; h] [x; r] (snapshot (env sb) [x; r]) false)).
  set (T1 := SExt (KRange com1 g h n false x1 r rs1) false p1 (Some k1)) in *.
  set (T2 := SExt (KRange com2 g h n false x2 r rs2) false p2 (Some k2)) in *.
  exists (VList [VNone; p1; p2]), (fverifier (SAnd [D; T1; T2] false)), (SAnd [D; T1; T2] false). split.
  - cbn [fverifier map]. unfold D, T1, T2. cbn [fverifier]. rewrite F1, F2. now apply three_process.
  - exists (VList [VPt (inf (grp com)); neutral_com T1; neutral_com T2]). intros e c.
    set (R := fun m => if bytes_eqb m (sname x) then c * u else c * t).
    destruct (A1 R c) as (a1 & R1 & K1). destruct (A2 R c) as (a2 & R2 & K2).
    exists (VList [VList [VInt (c * u); VInt (c * t)]; a1; a2]).
    assert (CO : Cons R (SAnd [D; T1; T2] false) (VList [VList [VInt (c * u); VInt (c * t)]; a1; a2])).
    { constructor. constructor; [|constructor; [exact K1|constructor; [exact K2|constructor]]].
      replace (VList [VInt (c * u); VInt (c * t)]) with (VList (map (fun s => @VInt W (R (sname s))) [x; r])); [apply (CoDL R (mkDL com [g; h] [x; r] (snapshot (env sb) [x; r]) false))|].
      simpl. unfold R. rewrite (proj2 (bytes_eqb_eq _ _) eq_refl). destruct (bytes_eqb (sname r) (sname x)) eqn:E; auto.
      apply bytes_eqb_eq in E. congruence. }
    unfold verify_resp, pre_validation. 
    assert (FV : full_validate (SAnd [D; T1; T2] false) = Ok tt).
    { cbn [full_validate]. cbn [rmap]. unfold D at 1. cbn [full_validate]. rewrite V1, V2. reflexivity. }
    rewrite FV. cbn [rbind].
    destruct (consistent_ok e _ R _ [] CO) as (rd & -> & _); [intros ? ? []|]. cbn [rbind].
    rewrite (recompute_and_ok [D; T1; T2] false c _ [VPt (inf (grp com)); neutral_com T1; neutral_com T2]); auto.
    + cbn [rbind]. now rewrite val_eqb_refl.
    + constructor; [|constructor; [exact R1|constructor; [exact R2|constructor]]]. cbn [fst snd].
      change (recompute_dl (mkDL com [g; h] [x; r] (snapshot (env sb) [x; r]) false) c (VList (map VInt [c * u; c * t])) = Ok (VPt (inf (grp com)))).
      assert (IG : in_group (grp com) [g; h]) by (repeat constructor; congruence).
      unfold recompute_dl. cbv [as_iter]. cbn [dl_lhs dl_bases]. simpl rbind.
      change [@VInt W (c * u); VInt (c * t)] with (map (@VInt W) [c * u; c * t]).
      rewrite wsum_v_ints, (wsum_lincomb _ _ _ IG). cbn [rbind].
      rewrite padd_chk_same by (rewrite grp_lincomb, grp_mul; auto). cbn [rbind lincomb]. do 2 f_equal. rewrite EC at 2. rewrite Gc.
      glin (grp g).
Qed.
End R.

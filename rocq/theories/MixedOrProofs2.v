(** Disjunctions with primitives defined by users: completeness. *)
From Coq Require Import String Znumtheory Lia.
From Verif Require Import Base World Val Expr Utils Stmt Prove Verify Spec Shapes Claims Honest Clauses Supply Extract Lib DictProofs Keeps Sigma Tree Build Process
  Provers Commit Total Total2 Total4 Complete Complete2 Checks2 IdProofs3 History AnswerProofs Sound4 WiProofs Custom CustomProofs Mixed MixedProofs MixedProofs2 MixedOr MixedOrProofs.
Open Scope Z_scope.
Open Scope list_scope.

Section M.
Context {W : World}.
Context (U : list secret) (w : bytes -> Z) (ord : bytes -> Z).

Lemma opre1 sd e u s p a : able U w sd e ord (u, false) -> chosen U w sd u s p ->
  (forall K sv, u = UK K -> p = PExt sv None -> exists w pre a2 c a3, c_pre K a = Ok (pre, a2) /\ c_con K pre a2 = Ok (c, a3) /\ hon U w c sv (env a3)) ->
  exists w v p' s' c a', upre1 u s p a = Ok ((v, p', s'), a') /\ br U ord (u, false) c v s' /\ Ready w s' p'.
Proof.
  intros AB CH PV. destruct u as [K|s0]; cbn [able chosen upre1] in *.
  - destruct CH as [e0 ->]. destruct AB as (_ & MD).
    destruct (PV K _ eq_refl eq_refl) as (w' & pre & a1 & c & a2 & CP & CC & (N & H & SH & SU)).
    assert (MA : made K pre c) by (exists a, a1, a2; auto). destruct (MD pre c MA) as (NN & OR & AP).
    destruct (leaf_ready U w' c (dupdate e0 [] sd) a2 N H SH SU) as (q & c1 & a3 & v & E & A & R).
    unfold bind. rewrite CP, CC, E. cbn [fst snd]. rewrite inner_same by (intros ? [= <-]; apply R). cbn [fst snd ret]. unfold ret.
    destruct R as (R1 & R2 & R3 & R4 & R5 & R6 & R7 & R8 & R9).
    exists w'. do 3 eexists. exists c1. eexists. split; [reflexivity|]. split; [|constructor; exact R7]. unfold br. cbn [fst].
    split; [apply noext_pstrip; rewrite R2; now apply noext_pstrip|]. split; [exact R3|]. split; [exact R6|].
    split; [eapply Ords_same; [symmetry; exact R2|auto]|]. split; [eapply Apart_same; [symmetry; exact R2|auto]|].
    split; [now constructor|]. split; [eauto|]. split; auto. exists false. reflexivity.
  - destruct CH as [v R]. destruct AB as (N & OK & SH & OR & AP & _). destruct R as (R1 & R2 & R3 & R4 & R5 & R6 & R7 & R8 & R9).
    exists w. do 3 eexists. exists s. eexists. split; [apply R8|]. split; auto. unfold br. cbn [fst].
    split; [apply noext_pstrip; rewrite R2; now apply noext_pstrip|]. split; [exact R3|]. split; [exact R6|].
    split; [eapply Ords_same; [symmetry; exact R2|auto]|]. split; [eapply Apart_same; [symmetry; exact R2|auto]|].
    split; auto.
Qed.

Lemma replace_mid {A} (x y : A) l m : replace (List.length l) x (l ++ y :: m) = l ++ x :: m.
Proof. induction l as [|z l IH]; cbn; [reflexivity|]. now rewrite IH. Qed.
Lemma sims_length l cs ss ts : sims U ord l cs ss ts -> List.length ss = List.length l /\ List.length ts = List.length l.
Proof. induction 1 as [|? ? ? ? ? ? ? ? ? ? [A B]]; cbn; split; congruence. Qed.

Lemma oopen_ok sd e l a : wfL U -> entries_ok U w sd -> agree w (env a) U -> Forall (able U w sd e ord) l -> (exists u, In (u, false) l) -> provable U l sd a ->
  exists w vs cs ss i p a', oopen l sd a = Ok ((pre_any vs, p, SOr ss false (Some i)), a') /\ brs U ord l cs vs ss /\ Ready w (SOr ss false (Some i)) p.
Proof.
  intros WF EN AG AB EX PV.
  destruct (oget_ok U w ord sd e l a WF EN AG AB EX) as (la & u & lb & p & s & sa & sb & ta & tb & ca & cb & a1 & -> & G & A1 & S1 & S2 & CH).
  apply Forall_app in AB as [AB1 AB2]. inversion AB2 as [|? ? AB0 AB3]; subst.
  destruct (opre1 sd e u s p a1 AB0 CH) as (w' & v & p' & s' & c & a2 & E & B & R).
  { intros K sv -> ->. eapply PV; [exact G|apply nth_middle']. }
  destruct (sims_brs _ _ _ _ _ _ S1) as [B1 F1]. destruct (sims_brs _ _ _ _ _ _ S2) as [B2 F2].
  destruct (sims_length _ _ _ _ S1) as [L1 L2].
  exists w', (map t_pre ta ++ v :: map t_pre tb), (ca ++ c :: cb), (sa ++ s' :: sb), (List.length la), (POr (List.length la) p' (ta ++ tb)), a2.
  split; [|split].
  - unfold oopen, bind. rewrite G. rewrite nth_middle'. rewrite <- L1, nth_middle'. cbn [fst]. rewrite E. unfold ret. cbn [fst snd].
    rewrite map_app, replace_mid, insert_at_split by (rewrite map_length; congruence). reflexivity.
  - apply brs_app; auto. constructor; auto.
  - rewrite <- L1. apply RyOr; auto.
Qed.

Lemma br_facts u c v s : br U ord u c v s -> alike s c /\ wfs s /\ built s /\ ConOK c /\ built c /\ incl (svars s) U /\ full_validate s = Ok tt /\ (forall e, Checked e c -> Checked e s).
Proof.
  intros (N & WF & IN & OR & AP & PR & M). assert (B := Tree.noext_built c N). assert (C := noext_ConOK c N).
  destruct (fst u) as [K|s0].
  - destruct M as (_ & NN & b & ->). unfold obj_of. cbn [set_simulated].
    split; [repeat split; auto|]. split; [now constructor|]. split; [now constructor|]. do 2 (split; auto). split; [exact IN|]. split; [reflexivity|]. intros e0. now constructor.
  - destruct M as [_ ->]. split; [repeat split; auto|]. split; auto. split; auto. do 2 (split; auto). split; auto. split; [now apply noext_valid'|auto].
Qed.
Lemma brs_facts l cs vs ss : brs U ord l cs vs ss -> Forall2 alike ss cs /\ Forall wfs ss /\ Forall built ss /\ incl (List.concat (map svars ss)) U /\
  (exists y, rmap full_validate ss = Ok y) /\ (forall e, Forall (Checked e) cs -> Forall (Checked e) ss) /\
  Forall noext cs /\ Forall wfs cs /\ Forall (Ords ord) cs /\ Forall Apart cs.
Proof.
  induction 1 as [|u l c cs v vs s ss B H (I1 & I2 & I3 & I4 & [y I5] & I6 & I7 & I8 & I9 & I10)].
  - repeat split; try constructor; try (intros ? []). exists []. reflexivity.
  - destruct (br_facts u c v s B) as (B1 & B2 & B3 & B4 & B5 & B6 & B7 & B8). destruct B as (N & WF & IN & OR & AP & _).
    cbn [map List.concat]. split; [constructor; auto|]. split; [constructor; auto|]. split; [constructor; auto|]. split; [apply incl_app; auto|].
    split; [cbn [rmap]; rewrite B7, I5; cbn; eauto|]. split; [intros e F; inversion F; subst; constructor; auto|].
    repeat split; constructor; auto.
Qed.
Lemma alike_checked_or e subs fs b ch b' ch' : Forall2 alike subs fs -> Forall (Checked e) subs -> Checked e (SOr fs b ch) -> Checked e (SOr subs b' ch').
Proof.
  intros F CK H. inversion H as [| |? ? ? V C|]; subst. constructor; auto. destruct (alike_rmap subs fs F) as [A B].
  unfold validate_or, validate_group_orders in *. cbn [get_bases get_secret_vars] in *. rewrite B, A. exact V.
Qed.

Lemma ocommit (w' : bytes -> Z) l cs vs ss i p a : brs U ord l cs vs ss -> wfL U -> Ready w' (SOr ss false i) p ->
  built (SOr ss false i) /\ exists com p' a' K od, internal_commit (SOr ss false i) p None a = Ok ((com, p'), a') /\ Done w' K od (SOr ss false i) p' com.
Proof.
  intros B WF RD. destruct (brs_facts l cs vs ss B) as (I1 & I2 & I3 & I4 & I5 & I6 & I7 & I8 & I9 & I10).
  assert (N0 : noext (SOr cs false None)) by now constructor.
  assert (C0 : Checked (env a) (SOr cs false None)).
  { apply (Apart_checked ord); try (now constructor).
    - now apply Tree.noext_built.
    - now apply noext_ConOK.
    - rewrite (noext_kinds _ N0). constructor. }
  assert (C1 : Checked (env a) (SOr ss false i)).
  { eapply alike_checked_or; [exact I1| |exact C0]. apply I6. inversion C0; auto. }
  assert (CO : coh (env a) (svars (SOr ss false i))) by (apply wfL_coh; eapply wfL_incl; [|exact WF]; exact I4).
  assert (BT : built (SOr ss false i)) by now constructor. assert (WT : wfs (SOr ss false i)) by now constructor. split; auto.
  destruct (commit_total w' _ p None a RD WT BT CO C1) as (com & p' & a' & E); [discriminate|].
  destruct (commit_ok w' _ _ _ _ _ _ _ RD WT BT CO E) as [_ D]. destruct (D eq_refl) as (K & od & DD). eauto 8.
Qed.

(** ** The verifier *)
Lemma oproc_ok f g l cs vs ss : brs U ord l cs vs ss -> forall lv, Forall2 (meets f g) (combine l vs) lv ->
  forall pre i st, (forall j v, nth_error vs j = Some v -> index pre (i + j) = Ok v) ->
  exists r st', uproc i lv pre st = Ok (r, st') /\ Forall2 (Sim f g) ss (map snd r) /\ map fst r = map fverifier (map snd r) /\
    rmap uvalid1 (combine lv (map snd r)) = Ok (map (fun _ => tt) lv).
Proof.
  induction 1 as [|u l c cs v vs s ss B H IH]; intros lv M pre i st X; cbn [combine] in M; inversion M as [|? x ? lv' M1 M2]; subst.
  - exists [], st. repeat split; constructor.
  - destruct (br_facts u c v s B) as (B1 & B2 & B3 & B4 & B5 & B6 & B7 & B8). destruct B as (N & WF & IN & OR & AP & PR & MT).
    assert (X' : forall j v1, nth_error vs j = Some v1 -> index pre (S i + j) = Ok v1).
    { intros j v1 Q. replace (S i + j)%nat with (i + S j)%nat by lia. apply X. exact Q. }
    assert (X0 := X 0%nat v eq_refl). rewrite Nat.add_0_r in X0. unfold meets in M1. cbn [fst snd] in M1.
    destruct u as [[K|s0] b]; cbn [fst] in MT, M1; destruct x as [KV|sv]; try (now destruct M1).
    + destruct MT as ((c0 & MA & PS) & NN & b' & ->). destruct M1 as (EN & VA & MV). destruct (MV c0 MA st) as (cv & st1 & CV' & PT).
      destruct (Pat_noext_Sim f g c cv N) as [S1 NV]; [eapply Pat_same; [symmetry; exact PS|exact PT]|].
      destruct (IH lv' M2 pre (S i) st1 X') as (r & st' & E & SM & FV & VL).
      exists ((RExt (Some (get_verifier cv)), obj_of KV v (Some cv)) :: r), st'. split; [|split; [|split]].
      * cbn [uproc uproc1]. unfold bind, lift. rewrite X0. unfold ret at 1. rewrite CV'. unfold ret at 1. rewrite E. reflexivity.
      * cbn [map snd]. constructor; auto. unfold obj_of. cbn [set_simulated]. rewrite EN. constructor; auto. apply (KSCustom f g). constructor.
      * cbn [map fst snd fverifier obj_of]. rewrite FV, (noext_fverifier cv NV). reflexivity.
      * cbn [map snd combine rmap uvalid1 obj_of]. rewrite VA. cbn [rbind]. rewrite VL. reflexivity.
    + destruct MT as [PS ->]. assert (PT : Pat f g c sv) by (eapply Pat_same; [symmetry; exact PS|exact M1]).
      destruct (Pat_noext_Sim f g c sv N PT) as [_ NV].
      destruct (process_ok f g c sv v st PR B4 PT) as (sv' & PQ & S1); [rewrite (noext_kinds sv NV); constructor|].
      destruct (IH lv' M2 pre (S i) st X') as (r & st' & E & SM & FV & VL).
      exists ((fverifier sv', sv') :: r), st'. split; [|split; [|split]].
      * cbn [uproc uproc1]. unfold bind, lift. rewrite X0. unfold ret at 1. rewrite PQ, E. reflexivity.
      * cbn [map snd]. constructor; auto.
      * cbn [map fst snd]. now rewrite FV.
      * cbn [map snd combine rmap uvalid1]. rewrite <- (Sim_validate f g c sv' S1), B7. cbn [rbind]. rewrite VL. reflexivity.
Qed.
Lemma brs_loud l cs vs ss K b : brs U ord l cs vs ss -> In (UK K, b) l -> (forall pre c, made K pre c -> truthy pre = true) -> existsb truthy vs = true.
Proof.
  induction 1 as [|u l c cs v vs s ss B H IH]; intros I T; [destruct I|]. cbn [existsb]. destruct I as [->|I].
  - destruct B as (_ & _ & _ & _ & _ & _ & M). cbn [fst] in M. destruct M as ((c0 & MA & _) & _). now rewrite (T v c0 MA).
  - rewrite (IH I T). apply orb_true_r.
Qed.

Lemma brs_length l cs vs ss : brs U ord l cs vs ss -> List.length l = List.length vs.
Proof. induction 1; cbn; congruence. Qed.

Theorem mixed_or_complete sd l msg a K b : wfL U -> entries_ok U w sd -> agree w (env a) U -> Forall (able U w sd (env a) ord) l ->
  (exists u, In (u, false) l) -> provable U l sd a ->
  In (UK K, b) l -> (forall pre c, made K pre c -> truthy pre = true) ->
  (exists z a' vs, oprove l sd msg a = Ok (z, a') /\ n_pre z = VList vs /\ List.length vs = List.length l /\
     forall f g lv stv, Forall2 (meets f g) (combine l vs) lv -> exists stv', overify lv z msg stv = Ok (true, stv')) \/ ooversized l sd a.
Proof.
  intros WF EN AG AB EX PV IK LD.
  destruct (oopen_ok sd (env a) l a WF EN AG AB EX PV) as (w' & vs & cs & ss & i & p & a2 & UO & B & RD).
  assert (PA : pre_any vs = VList vs) by (unfold pre_any; now rewrite (brs_loud _ _ _ _ _ _ B IK LD)). rewrite PA in UO.
  set (S := SOr ss false (Some i)) in *. set (pre := VList vs) in *.
  destruct (ocommit w' l cs vs ss (Some i) p a2 B WF RD) as (BT & com & p2 & a3 & Kz & od & IC & D). fold S in BT, IC, D.
  destruct (proof_id_total S BT) as ((n & EI) & _).
  destruct (encode (VStr (pystr n))) as [h|] eqn:EH.
  2:{ right. exists pre, p, S, a2, com, p2, a3, n. do 3 (split; [assumption|]). left. eapply encode_big; eauto. }
  destruct (encode pre) as [b1|] eqn:F1.
  2:{ right. exists pre, p, S, a2, com, p2, a3, n. do 3 (split; [assumption|]). right; left. eapply encode_big; eauto. }
  assert (FA : (exists b, fs_arg com = Ok b) \/ (exists e, encode com = Err e) \/ exists b, com = VStr b).
  { assert (Q : (exists b, encode com = Ok b) \/ exists e, encode com = Err e) by (destruct (encode com); eauto).
    destruct com; cbn [fs_arg]; eauto; destruct Q as [Q|Q]; eauto. }
  destruct FA as [(b2 & F2)|[(e & F2)|(b' & F2)]].
  2:{ right. exists pre, p, S, a2, com, p2, a3, n. do 3 (split; [assumption|]). right; right. eapply encode_big; eauto. }
  2:{ exfalso. subst com. eapply commit_nstr; eauto. }
  left. set (ch := be_int (sha256 (h ++ List.concat [b1; b2] ++ msg))).
  destruct (respond_ok _ _ _ _ _ _ D ch a3) as (r & CR & RC & CS).
  assert (PH : prehash_input S = Ok h) by (unfold prehash_input; rewrite EI; cbn [rbind]; exact EH).
  assert (FC : fs_challenge h [pre; com] msg = Ok ch).
  { unfold fs_challenge, fs_input. cbn [rmap]. change (fs_arg pre) with (encode pre). rewrite F1, F2. reflexivity. }
  exists (mkNizk ch r pre (VBytes (sha256 h))), a3, vs. split; [|split; [reflexivity|split; [now rewrite (brs_length _ _ _ _ B)|]]].
  - unfold oprove, bind, lift. rewrite UO, IC, PH, FC, CR. reflexivity.
  - intros f g lv stv MT.
    destruct (oproc_ok f g l cs vs ss B lv MT pre 0 stv) as (q & stv' & E & SM & FV & VL).
    { intros j v H. cbn [index pre plus]. unfold pre, index. rewrite H. reflexivity. }
    exists stv'. assert (SS : Sim f g S (SOr (map snd q) false None)) by (now constructor).
    assert (FU : full_validate S = Ok tt).
    { destruct (brs_facts l cs vs ss B) as (_ & _ & _ & _ & [y Y] & _). unfold S. cbn [full_validate]. rewrite Y. reflexivity. }
    assert (V := pre_validation_ok (env stv') f g _ S _ r SS FU CS).
    unfold overify. cbn [n_pre n_hash n_chal n_resp]. unfold oprocess. change (is_none pre) with false. cbv iota.
    unfold bind. rewrite E. unfold ret at 1. unfold lift at 1.
    unfold check_statement. rewrite <- (Sim_prehash f g _ _ SS), PH. cbn [rbind]. rewrite val_eqb_refl. unfold get_env.
    unfold opre_validation, ovalidate. rewrite VL. cbn [rbind]. unfold lift. rewrite FV.
    unfold pre_validation in V. destruct (full_validate (SOr (map snd q) false None)) as [[]|]; [|discriminate V]. cbn [rbind fverifier] in V.
    destruct (consistent _ _ _ _ _) as [[rd|]|]; try discriminate V. cbn [rbind].
    rewrite <- (Sim_recompute f g _ _ _ _ SS), RC, FC. unfold ret. rewrite Z.eqb_refl. reflexivity.
Qed.
End M.

(** User-defined primitives in nested compositions: completeness. *)
From Coq Require Import String Znumtheory Lia.
From Verif Require Import Base World Val Expr Utils Stmt Prove Verify Spec Shapes Claims Honest Clauses Supply Extract Lib DictProofs Keeps Sigma Tree Build Process
  Provers Commit Total Total2 Total4 Complete Complete2 Checks2 IdProofs3 History AnswerProofs Sound4 WiProofs Custom CustomProofs Mixed MixedProofs MixedProofs2 MixedOr MixedOrProofs MixedOrProofs2 Nested NestedProofs NestedProofs2.
Open Scope Z_scope.
Open Scope list_scope.

Section N.
Context {W : World}.
Context (U : list secret) (w : bytes -> Z) (ord : bytes -> Z).

Lemma topen_ok t sd a : wfL U -> entries_ok U w sd -> agree w (env a) U -> tok U w sd (env a) t -> heard t ->
  (forall p s a1, tget t sd a = Ok ((Some p, s), a1) -> tsincere U w t s p a1) ->
  exists v p s c a', topen t sd a = Ok ((v, p, s), a') /\ tb U t c s /\ PreRel s v /\ Ready w s p.
Proof.
  intros WF EN AG TO HE SI. destruct (tget_ok U w t sd (env a) WF EN TO HE a AG) as (p & s & a1 & E & A1 & T).
  destruct (tpre_ok U w t HE s p a1 T (SI _ _ _ E)) as (v & p' & s' & c & a2 & E2 & B & P & R).
  exists v, p', s', c, a2. split; auto. unfold topen, bind. rewrite E. exact E2.
Qed.
Lemma tcommit t c s p a : wfL U -> tb U t c s -> Ready w s p -> (forall c, fill t c -> Ords ord c /\ Apart c) ->
  exists com p' a' K od, internal_commit s p None a = Ok ((com, p'), a') /\ Done w K od s p' com.
Proof.
  intros WF B RD FI. destruct (tb_good U t c s B) as (N & I2 & I3 & I4 & I5 & I6 & I7 & I8 & I9 & c0 & F & PS). destruct (FI c0 F) as [OR AP].
  assert (C0 : Checked (env a) c).
  { apply (Apart_checked ord); auto using Tree.noext_built, noext_ConOK; try (rewrite (noext_kinds _ N); constructor).
    - eapply Ords_same; [symmetry; exact PS|auto].
    - eapply Apart_same; [symmetry; exact PS|auto]. }
  assert (CO : coh (env a) (svars s)) by (apply wfL_coh; eapply wfL_incl; [|exact WF]; exact I6).
  destruct (commit_total w s p None a RD I3 I4 CO (I8 _ C0)) as (com & p' & a' & E); [discriminate|].
  destruct (commit_ok w _ _ _ _ _ _ _ RD I3 I4 CO E) as [_ D]. destruct (D eq_refl) as (K & od & DD). eauto 8.
Qed.

(** ** The verifier *)
Lemma vzip_ok l : forall ss, List.length ss = List.length l -> (forall i t s, nth_error l i = Some t -> nth_error ss i = Some s -> tvalid t s = Ok tt) -> vzip tvalid l ss = Ok tt.
Proof.
  induction l as [|t l IH]; intros [|s ss] L H; try discriminate L; [reflexivity|]. cbn [vzip]. rewrite (H 0%nat t s eq_refl eq_refl). cbn [rbind].
  apply IH; [cbn in L; congruence|]. intros i t' s' A B. exact (H (S i) t' s' A B).
Qed.
Lemma tproc_ok f g t : forall c s v tv, tb U t c s -> PreRel s v -> heard t -> tmeets f g t v tv -> forall st,
  exists sv st', tproc tv v st = Ok ((fverifier sv, sv), st') /\ Sim f g s sv /\ tvalid tv sv = Ok tt.
Proof.
  assert (G : forall l, Forall (fun t => forall c s v tv, tb U t c s -> PreRel s v -> heard t -> tmeets f g t v tv -> forall st,
      exists sv st', tproc tv v st = Ok ((fverifier sv, sv), st') /\ Sim f g s sv /\ tvalid tv sv = Ok tt) l ->
    forall cs ss vs lv, Forall3 (tb U) l cs ss -> Forall2 PreRel ss vs -> Forall heard l -> tmeetsl f g l vs lv ->
    forall pre i st, (forall j v, nth_error vs j = Some v -> index pre (i + j) = Ok v) ->
    exists svs st', tloop tproc pre i lv st = Ok (map (fun s => (fverifier s, s)) svs, st') /\ Forall2 (Sim f g) ss svs /\ vzip tvalid lv svs = Ok tt).
  { intros l IH cs ss vs lv F. revert vs lv. induction F as [|t0 c s l cs ss B F IHF]; intros vs lv P HE M pre i st X; inversion P as [|? v ? vs' P1 P2]; subst; inversion M as [|? ? ? ? tv lv' M1 M2]; subst.
    - exists [], st. repeat split; constructor.
    - inversion IH as [|? ? IH1 IH2]; inversion HE as [|? ? HE1 HE2]; subst. assert (X0 := X 0%nat v eq_refl). rewrite Nat.add_0_r in X0.
      destruct (IH1 c s v tv B P1 HE1 M1 st) as (sv & st1 & E1 & S1 & V1).
      destruct (IHF IH2 vs' lv' P2 HE2 M2 pre (S i) st1) as (svs & st2 & E2 & S2 & V2).
      { intros j v1 Q. replace (S i + j)%nat with (i + S j)%nat by lia. apply X. exact Q. }
      exists (sv :: svs), st2. split; [|split; [now constructor|]].
      + cbn [tloop map]. unfold bind, lift. rewrite X0. unfold ret at 1. rewrite E1, E2. reflexivity.
      + cbn [vzip]. rewrite V1. exact V2. }
  induction t as [K b|s0|l b IH|l b IH] using mtree_ind'; intros c s v tv B P HE M st; inversion B as [? ? ? cc ? b' MA PS NN N WF IN|? ? PS N WF IN|? ? cs ss b' F|? ? cs ss b' ch F]; subst.
  - unfold obj_of in P. cbn [set_simulated] in P. inversion P; subst. inversion M as [? ? ? KV bv EN VA MV| | |]; subst.
    destruct (MV cc MA st) as (cv & st1 & CV' & PT).
    destruct (Pat_noext_Sim f g c cv N) as [S1 NV]; [eapply Pat_same; [symmetry; exact PS|exact PT]|].
    exists (set_simulated bv (obj_of KV v (Some cv))), st1. cbn [tproc]. unfold bind. rewrite CV'. unfold ret. split; [|split].
    + unfold obj_of. cbn [set_simulated fverifier]. now rewrite (noext_fverifier cv NV).
    + unfold obj_of. cbn [set_simulated]. rewrite EN. constructor; auto. apply (KSCustom f g). constructor.
    + exact VA.
  - inversion M as [|? ? sv PT| |]; subst. assert (PT' : Pat f g s sv) by (eapply Pat_same; [symmetry; exact PS|exact PT]).
    destruct (Pat_noext_Sim f g s sv N PT') as [_ NV].
    destruct (process_ok f g s sv v st P (noext_ConOK s N) PT') as (sv' & PQ & S1); [rewrite (noext_kinds sv NV); constructor|].
    exists sv', st. cbn [tproc]. split; [exact PQ|]. split; auto. cbn [tvalid]. rewrite <- (Sim_validate f g s sv' S1). now apply noext_valid'.
  - assert (HE' := HE). inversion HE as [| |? ? HF _|]; subst. destruct (pre_and U l b cs ss b' v F HE' P) as (vs & -> & PF). inversion M as [| |? ? ? lv bv ML|]; subst.
    destruct (G l IH cs ss vs lv F PF HF ML (VList vs) 0%nat st) as (svs & st1 & E & S1 & V1).
    { intros j v H. cbn [index plus]. now rewrite H. }
    exists (SAnd svs bv), st1. cbn [tproc is_none]. unfold bind. rewrite E. unfold ret. rewrite !map_map. cbn [fst snd]. rewrite map_id. split; [reflexivity|].
    split; [now constructor|exact V1].
  - assert (HE' := HE). inversion HE as [| | |? ? HF _]; subst. destruct (pre_or U l b cs ss b' ch v F HE' P) as (vs & -> & PF). inversion M as [| | |? ? ? lv bv ML]; subst.
    destruct (G l IH cs ss vs lv F PF HF ML (VList vs) 0%nat st) as (svs & st1 & E & S1 & V1).
    { intros j v H. cbn [index plus]. now rewrite H. }
    exists (SOr svs bv None), st1. cbn [tproc is_none]. unfold bind. rewrite E. unfold ret. rewrite !map_map. cbn [fst snd]. rewrite map_id. split; [reflexivity|].
    split; [now constructor|exact V1].
Qed.
Lemma tb_pres t : forall c s v, tb U t c s -> PreRel s v -> heard t -> tpres t v.
Proof.
  assert (G : forall l, Forall (fun t => forall c s v, tb U t c s -> PreRel s v -> heard t -> tpres t v) l ->
    forall cs ss vs, Forall3 (tb U) l cs ss -> Forall2 PreRel ss vs -> Forall heard l -> Forall2 tpres l vs).
  { intros l IH cs ss vs F. revert vs. induction F as [|t0 c s l cs ss B F IHF]; intros vs P HE; inversion P; subst; inversion IH; inversion HE; subst; constructor; eauto. }
  induction t as [K b|s0|l b IH|l b IH] using mtree_ind'; intros c s v B P HE; inversion B as [? ? ? cc ? b' MA PS NN N WF IN|? ? PS N WF IN|? ? cs ss b' F|? ? cs ss b' ch F]; subst.
  - unfold obj_of in P. cbn [set_simulated] in P. inversion P; subst. econstructor; eauto.
  - constructor.
  - assert (HE' := HE). inversion HE as [| |? ? HF _|]; subst. destruct (pre_and U l b cs ss b' v F HE' P) as (vs & -> & PF). constructor. eauto.
  - assert (HE' := HE). inversion HE as [| | |? ? HF _]; subst. destruct (pre_or U l b cs ss b' ch v F HE' P) as (vs & -> & PF). constructor. eauto.
Qed.

Theorem nested_complete sd t msg a : wfL U -> entries_ok U w sd -> agree w (env a) U -> tok U w sd (env a) t -> heard t ->
  (forall c, fill t c -> Ords ord c /\ Apart c) ->
  (forall p s a1, tget t sd a = Ok ((Some p, s), a1) -> tsincere U w t s p a1) ->
  match t with TA _ _ | TO _ _ => True | _ => False end ->
  (exists z a', tprove t sd msg a = Ok (z, a') /\ tpres t (n_pre z) /\
     forall f g tv stv, tmeets f g t (n_pre z) tv -> exists stv', tverify tv z msg stv = Ok (true, stv')) \/ toversized t sd a.
Proof.
  intros WF EN AG TO HE FI SI NT.
  destruct (topen_ok t sd a WF EN AG TO HE SI) as (pre & p & S & c & a2 & UO & B & PR & RD).
  destruct (tb_good U t c S B) as (N & I2 & I3 & BT & I5 & I6 & I7 & I8 & FU & _).
  assert (NP : exists vs, pre = VList vs).
  { assert (TP := tb_pres t c S pre B PR HE). destruct t; try destruct NT; inversion TP; subst; eauto. }
  destruct (tcommit t c S p a2 WF B RD FI) as (com & p2 & a3 & Kz & od & IC & D).
  destruct (proof_id_total S BT) as ((n & EI) & _).
  destruct (encode (VStr (pystr n))) as [h|] eqn:EH.
  2:{ right. exists pre, p, S, a2, com, p2, a3, n. do 3 (split; [assumption|]). left. eapply encode_big; eauto. }
  assert (FP : (exists b, fs_arg pre = Ok b) \/ exists e, encode pre = Err e).
  { assert (Q : (exists b, encode pre = Ok b) \/ exists e, encode pre = Err e) by (destruct (encode pre); eauto).
    destruct NP as [vs ->]. exact Q. }
  destruct FP as [(b1 & F1)|(e & F1)].
  2:{ right. exists pre, p, S, a2, com, p2, a3, n. do 3 (split; [assumption|]). right; left. eapply encode_big; eauto. }
  assert (FA : (exists b, fs_arg com = Ok b) \/ (exists e, encode com = Err e) \/ exists b, com = VStr b).
  { assert (Q : (exists b, encode com = Ok b) \/ exists e, encode com = Err e) by (destruct (encode com); eauto).
    destruct com; cbn [fs_arg]; eauto; destruct Q as [Q|Q]; eauto. }
  destruct FA as [(b2 & F2)|[(e & F2)|(b' & F2)]].
  2:{ right. exists pre, p, S, a2, com, p2, a3, n. do 3 (split; [assumption|]). right; right. eapply encode_big; eauto. }
  2:{ exfalso. subst com. eapply commit_nstr; eauto. }
  left. set (ch := be_int (sha256 (h ++ List.concat [b1; b2] ++ msg))).
  destruct (respond_ok _ _ _ _ _ _ D ch a3) as (r & CR & RC & CS).
  assert (PH : prehash_input S = Ok h) by (unfold prehash_input; rewrite EI; cbn [rbind]; exact EH).
  assert (FC : fs_challenge h [pre; com] msg = Ok ch).
  { unfold fs_challenge, fs_input. cbn [rmap]. rewrite F1, F2. reflexivity. }
  exists (mkNizk ch r pre (VBytes (sha256 h))), a3. split; [|split; [exact (tb_pres t c S pre B PR HE)|]].
  - unfold tprove, bind, lift. rewrite UO, IC, PH, FC, CR. reflexivity.
  - cbn [n_pre]. intros f g tv stv MT.
    destruct (tproc_ok f g t c S pre tv B PR HE MT stv) as (sv & stv' & E & SS & VL).
    exists stv'.
    assert (V := pre_validation_ok (env stv') f g _ S _ r SS FU CS).
    unfold tverify. cbn [n_pre n_hash n_chal n_resp]. replace (is_none pre) with false by (destruct NP as [vs ->]; reflexivity).
    unfold bind. rewrite E. unfold lift at 1.
    unfold check_statement. rewrite <- (Sim_prehash f g _ _ SS), PH. cbn [rbind]. rewrite val_eqb_refl. unfold get_env.
    unfold tpre_validation. rewrite VL. cbn [rbind]. unfold lift.
    unfold pre_validation in V. destruct (full_validate sv) as [[]|]; [|discriminate V]. cbn [rbind] in V.
    destruct (consistent _ _ _ _ _) as [[rd|]|]; try discriminate V. cbn [rbind].
    rewrite <- (Sim_recompute f g _ _ _ _ SS), RC, FC. unfold ret. rewrite Z.eqb_refl. reflexivity.
Qed.

(** The interactive protocol *)
Theorem nested_interactive sd t a f g tv : wfL U -> entries_ok U w sd -> agree w (env a) U -> tok U w sd (env a) t -> heard t ->
  (forall c, fill t c -> Ords ord c /\ Apart c) ->
  (forall p s a1, tget t sd a = Ok ((Some p, s), a1) -> tsincere U w t s p a1) ->
  match t with TA _ _ | TO _ _ => True | _ => False end ->
  (exists pre p s a1, topen t sd a = Ok ((pre, p, s), a1) /\ tpres t pre /\ (tmeets f g t pre tv -> exists a', trun t sd tv a = Ok (true, a'))) \/ toversized t sd a.
Proof.
  intros WF EN AG TO HE FI SI NT.
  destruct (topen_ok t sd a WF EN AG TO HE SI) as (pre & p & S & c & a2 & UO & B & PR & RD).
  destruct (tb_good U t c S B) as (N & I2 & I3 & BT & I5 & I6 & I7 & I8 & FU & _).
  destruct (proof_id_total S BT) as ((n & EI) & _).
  destruct (encode (VStr (pystr n))) as [h|] eqn:EH.
  2:{ destruct (tcommit t c S p a2 WF B RD FI) as (com & p2 & a3 & Kz & od & IC & D).
      right. exists pre, p, S, a2, com, p2, a3, n. do 3 (split; [assumption|]). left. eapply encode_big; eauto. }
  assert (PH : prehash_input S = Ok h) by (unfold prehash_input; rewrite EI; cbn [rbind]; exact EH).
  left. exists pre, p, S, a2. split; auto. split; [exact (tb_pres t c S pre B PR HE)|]. intros MT.
  destruct (tproc_ok f g t c S pre tv B PR HE MT a2) as (sv & a3 & E & SS & VL).
  destruct (tcommit t c S p a3 WF B RD FI) as (com & p2 & a4 & Kz & od & IC & D).
  unfold trun. unfold bind at 1. rewrite UO. unfold bind at 1. rewrite E. unfold commit. unfold bind at 1 2. unfold lift at 1. unfold stmt_digest. rewrite PH. cbn [rbind].
  unfold bind at 1. rewrite IC. unfold ret at 1.
  assert (SC : exists ch a5, send_challenge sv (fverifier sv) (VBytes (sha256 h)) com a4 = Ok (ch, a5)).
  { unfold send_challenge. unfold bind at 1. unfold lift at 1. unfold check_statement. rewrite <- (Sim_prehash f g _ _ SS), PH. cbn [rbind]. rewrite val_eqb_refl.
    assert (Q : match fverifier sv with RExt _ => False | _ => True end).
    { destruct t; try destruct NT; inversion B; subst; inversion SS; subst; exact Logic.I. }
    destruct (fverifier sv); try destruct Q; unfold get_random_num, draw; unfold bind, ret; eauto. }
  destruct SC as (ch & a5 & SC). unfold bind at 1. rewrite SC. destruct (respond_ok _ _ _ _ _ _ D ch a5) as (r & CR & RC & CS).
  unfold bind at 1. rewrite CR. unfold bind, get_env. exists a5.
  assert (V := pre_validation_ok (env a5) f g _ S _ r SS FU CS).
  unfold tverify_resp, tpre_validation. rewrite VL. cbn [rbind]. unfold lift.
  unfold pre_validation in V. destruct (full_validate sv) as [[]|]; [|discriminate V]. cbn [rbind] in V.
  destruct (consistent _ _ _ _ _) as [[rd|]|]; try discriminate V. cbn [rbind].
  rewrite <- (Sim_recompute f g _ _ _ _ SS), RC. cbn [rbind]. rewrite val_eqb_refl. reflexivity.
Qed.
End N.

(** Conjunctions with primitives defined by users: completeness. *)
From Coq Require Import String Znumtheory Lia.
From Verif Require Import Base World Val Expr Utils Stmt Prove Verify Spec Shapes Claims Honest Clauses Supply Extract Lib DictProofs Keeps Sigma Tree Build Process
  Provers Commit Total Total2 Total4 Complete Complete2 Checks2 IdProofs3 History AnswerProofs Sound4 WiProofs Custom CustomProofs Mixed MixedProofs.
Open Scope Z_scope.
Open Scope list_scope.

Section M.
Context {W : World}.

Definition prs (t : list (val * prover * stmt)) : list prover := map (fun r => snd (fst r)) t.
Definition pvs (t : list (val * prover * stmt)) : list val := map (fun r => fst (fst r)) t.

(** same secrets and bases *)
Definition alike (s c : stmt) : Prop := get_secret_vars s = get_secret_vars c /\ get_bases s = get_bases c /\
  forall e f, validate_reoccurence e c (Some f) = Ok tt -> validate_reoccurence e s (Some f) = Ok tt.
Lemma opens_alike U w l cs pres fs t : opens U w l cs pres fs t -> Forall2 alike (map snd t) fs.
Proof. induction 1; cbn [map snd]; constructor; auto; repeat split; auto. Qed.
Lemma alike_rmap subs fs : Forall2 alike subs fs -> rmap get_secret_vars subs = rmap get_secret_vars fs /\ rmap get_bases subs = rmap get_bases fs.
Proof.
  induction 1 as [|s c subs fs (A & B & _) F [IH1 IH2]]; [auto|]. cbn [rmap]. rewrite A, B, IH1, IH2. auto.
Qed.
Lemma alike_checked e subs fs b : Forall2 alike subs fs -> Forall (Checked e) subs -> Checked e (SAnd fs b) -> Checked e (SAnd subs b).
Proof.
  intros F CK H. inversion H as [|? ? V C| |]; subst. constructor; auto. destruct (alike_rmap subs fs F) as [A B].
  unfold validate_and in *. unfold validate_group_orders in *. cbn [get_bases get_secret_vars validate_reoccurence] in *.
  rewrite B, A. destruct (rmap get_bases fs) as [bs|]; [|discriminate V]. cbn [rbind] in *.
  destruct (rmap get_secret_vars fs) as [ss|]; [|discriminate V]. cbn [rbind] in *.
  destruct (rmap _ _) as [u|]; [|discriminate V]. cbn [rbind] in *. clear - F V.
  assert (G : exists y, rmap (fun p => validate_reoccurence e p (Some (List.concat ss))) fs = Ok y).
  { destruct (rmap _ fs); [eauto|discriminate V]. }
  clear V. assert (H : exists y, rmap (fun p => validate_reoccurence e p (Some (List.concat ss))) subs = Ok y); [|destruct H as [y ->]; reflexivity].
  induction F as [|s c subs fs (_ & _ & X) F IH]; [exists []; reflexivity|]. cbn [rmap] in *. destruct G as [y G].
  destruct (validate_reoccurence e c _) as [[]|] eqn:E; [|discriminate G]. rewrite (X _ _ E). cbn [rbind] in *.
  destruct (rmap _ fs) as [ys|]; [|discriminate G]. destruct IH as [z ->]; eauto. cbn. eauto.
Qed.

Lemma opens_ready U w l cs pres fs t : opens U w l cs pres fs t ->
  Forall2 (Ready w) (map snd t) (prs t) /\ Forall wfs (map snd t) /\ Forall built (map snd t) /\ incl (List.concat (map svars (map snd t))) U /\
  map pstrip fs = map pstrip cs /\ Forall wfs fs /\ Forall built fs /\ Forall ConOK fs /\ Forall noext fs.
Proof.
  unfold prs. induction 1 as [|K l c cs pre pres c1 fs sv q v t R N O IH|l c cs pres c1 fs p v t R N O IH]; cbn [map snd fst List.concat].
  - repeat split; try constructor. intros ? [].
  - destruct R as (R1 & R2 & R3 & R4 & R5 & R6 & R7 & R8 & R9). destruct IH as (I1 & I2 & I3 & I4 & I5 & I6 & I7 & I8 & I9).
    assert (N1 : noext c1) by (apply noext_pstrip; rewrite R2; now apply noext_pstrip).
    split; [constructor; auto; now constructor|]. split; [constructor; auto; now constructor|]. split; [constructor; auto; now constructor|].
    split; [apply incl_app; auto|]. split; [congruence|]. auto.
  - destruct R as (R1 & R2 & R3 & R4 & R5 & R6 & R7 & R8 & R9). destruct IH as (I1 & I2 & I3 & I4 & I5 & I6 & I7 & I8 & I9).
    assert (N1 : noext c1) by (apply noext_pstrip; rewrite R2; now apply noext_pstrip).
    split; [constructor; auto|]. split; [constructor; auto|]. split; [constructor; auto|].
    split; [apply incl_app; auto|]. split; [congruence|]. auto.
Qed.
Lemma opens_checked U w l cs pres fs t e : opens U w l cs pres fs t -> Forall (Checked e) fs -> Forall (Checked e) (map snd t).
Proof. induction 1; intros F; inversion F; subst; cbn [map snd]; constructor; auto. now constructor. Qed.

(** The commitment and the responses. *)
Lemma ucommit U w ord l cs pres fs t a : opens U w l cs pres fs t -> wfL U -> Ords ord (SAnd cs false) -> Apart (SAnd cs false) ->
  built (SAnd (map snd t) false) /\
  exists com p a' K od, internal_commit (SAnd (map snd t) false) (PAnd (prs t)) None a = Ok ((com, p), a') /\
    Done w K od (SAnd (map snd t) false) p com.
Proof.
  intros O WF HO HA. destruct (opens_ready U w l cs pres fs t O) as (I1 & I2 & I3 & I4 & I5 & I6 & I7 & I8 & I9).
  assert (PS : pstrip (SAnd fs false) = pstrip (SAnd cs false)) by (cbn [pstrip]; now rewrite I5).
  assert (N0 : noext (SAnd fs false)) by now constructor.
  assert (C0 : Checked (env a) (SAnd fs false)).
  { apply (Apart_checked ord); try (now constructor).
    - eapply Ords_same; [symmetry; exact PS|auto].
    - eapply Apart_same; [symmetry; exact PS|auto].
    - rewrite (noext_kinds _ N0). constructor. }
  assert (C1 : Checked (env a) (SAnd (map snd t) false)).
  { eapply alike_checked; [eapply opens_alike; eauto| |exact C0]. eapply opens_checked; eauto. inversion C0; auto. }
  assert (CO : coh (env a) (svars (SAnd (map snd t) false))).
  { apply wfL_coh. eapply wfL_incl; [|exact WF]. exact I4. }
  assert (RD : Ready w (SAnd (map snd t) false) (PAnd (prs t))) by now constructor.
  split; [now constructor|].
  destruct (commit_total w (SAnd (map snd t) false) (PAnd (prs t)) None a RD) as (com & p & a' & E); try (now constructor); auto.
  { discriminate. }
  destruct (commit_ok w _ _ _ _ _ _ _ RD (WFAnd _ _ I2) (BAnd _ _ I3) CO E) as [_ D]. destruct (D eq_refl) as (K & od & DD).
  exists com, p, a', K, od. auto.
Qed.

(** ** The verifier *)
Lemma uproc_ok U w f g l : forall cs pres fs t lv cvs st st' pre i, opens U w l cs pres fs t -> receives l lv pres cvs st st' ->
  Forall2 (Pat f g) cs cvs -> (forall j v, nth_error (pvs t) j = Some v -> index pre (i + j) = Ok v) ->
  exists r, uproc i lv pre st = Ok (r, st') /\ Forall2 (Sim f g) (map snd t) (map snd r) /\ map fst r = map fverifier (map snd r) /\
    rmap uvalid1 (combine lv (map snd r)) = Ok (map (fun _ => tt) lv).
Proof.
  induction l as [|u l IH]; intros cs pres fs t lv cvs st st' pre i O R P X; inversion O; subst.
  - destruct lv; [|destruct R]. destruct cvs; [|destruct R]. cbn [receives] in R. subst st'. exists []. repeat split; constructor.
  - destruct lv as [|[KV|svr] lv]; try (now destruct R). destruct cvs as [|cv cvs]; [destruct R|]. cbn [receives] in R.
    destruct R as (pre1 & rest & a1 & Epre & EN & VA & CV & R). injection Epre as <- <-. inversion P as [|? ? ? ? P1 P2]; subst.
    match goal with Y : ready _ _ _ _ _ _ |- _ => destruct Y as (R1 & R2 & R3 & R4 & R5 & R6 & R7 & R8 & R9) end.
    match goal with Y : opens _ _ l _ _ _ _ |- _ => destruct (IH _ _ _ _ lv cvs a1 st' pre (S i) Y R P2) as (r & E & SM & FV & VL) end.
    { intros j v1 H. replace (S i + j)%nat with (i + S j)%nat by lia. apply X. exact H. }
    assert (N1 : noext c1) by (apply noext_pstrip; rewrite R2; now apply noext_pstrip).
    destruct (Pat_noext_Sim f g c1 cv N1) as [S1 NV]; [eapply Pat_same; [symmetry; exact R2|exact P1]|].
    exists ((RExt (Some (get_verifier cv)), obj_of KV pre0 (Some cv)) :: r). split; [|split; [|split]].
    + cbn [uproc uproc1]. unfold bind, lift. rewrite <- (Nat.add_0_r i), (X 0%nat pre0 eq_refl), (Nat.add_0_r i). unfold ret at 1. rewrite CV. unfold ret at 1. rewrite E. reflexivity.
    + cbn [map snd]. constructor; auto. unfold obj_of. rewrite EN. constructor; auto. apply (KSCustom f g). constructor.
    + cbn [map fst snd fverifier obj_of]. rewrite FV, (noext_fverifier cv NV). reflexivity.
    + cbn [map snd combine rmap uvalid1 obj_of]. rewrite VA. cbn [rbind]. rewrite VL. reflexivity.
  - destruct lv as [|[KV|svr] lv]; try (now destruct R). destruct cvs as [|cv cvs]; [destruct R|]. cbn [receives] in R.
    destruct R as [-> R]. inversion P as [|? ? ? ? P1 P2]; subst.
    match goal with Y : ready _ _ _ _ _ _ |- _ => destruct Y as (R1 & R2 & R3 & R4 & R5 & R6 & R7 & R8 & R9) end.
    match goal with Y : opens _ _ l _ _ _ _ |- _ => destruct (IH _ _ _ _ lv cvs st st' pre (S i) Y R P2) as (r & E & SM & FV & VL) end.
    { intros j v1 H. replace (S i + j)%nat with (i + S j)%nat by lia. apply X. exact H. }
    assert (N1 : noext c1) by (apply noext_pstrip; rewrite R2; now apply noext_pstrip).
    assert (PT : Pat f g c1 svr) by (eapply Pat_same; [symmetry; exact R2|exact P1]).
    destruct (Pat_noext_Sim f g c1 svr N1 PT) as [_ NV].
    destruct (process_ok f g c1 svr v st R9 R5 PT) as (svr' & PR & S1); [rewrite (noext_kinds svr NV); constructor|].
    exists ((fverifier svr', svr') :: r). split; [|split; [|split]].
    + cbn [uproc uproc1]. unfold bind, lift. rewrite <- (Nat.add_0_r i), (X 0%nat v eq_refl), (Nat.add_0_r i). unfold ret at 1. rewrite PR, E. reflexivity.
    + cbn [map snd]. constructor; auto.
    + cbn [map fst snd]. now rewrite FV.
    + cbn [map snd combine rmap uvalid1]. rewrite <- (Sim_validate f g c1 svr' S1), (noext_valid' c1 N1). cbn [rbind]. rewrite VL. reflexivity.
Qed.

Lemma opens_full U w l cs pres fs t : opens U w l cs pres fs t -> full_validate (SAnd (map snd t) false) = Ok tt.
Proof.
  intros O. cbn [full_validate]. assert (H : exists y, rmap full_validate (map snd t) = Ok y); [|destruct H as [y ->]; reflexivity].
  destruct (opens_ready U w l cs pres fs t O) as (_ & _ & _ & _ & _ & _ & _ & _ & N).
  revert N. induction O as [|K l c cs pre pres c1 fs sv q v t R N0 O IH|l c cs pres c1 fs p v t R N0 O IH]; intros N; [exists []; reflexivity| |];
    inversion N; subst; destruct IH as [y IH]; auto; cbn [map snd rmap].
  - cbn [full_validate obj_of kvalidate rbind]. unfold obj_of. cbn [full_validate kvalidate rbind]. rewrite IH. cbn. eauto.
  - rewrite (noext_valid' c1) by auto. cbn [rbind]. rewrite IH. cbn. eauto.
Qed.
Lemma opens_pres U w l cs pres fs t : opens U w l cs pres fs t -> incl pres (pvs t).
Proof. unfold pvs. induction 1; cbn [map fst]; intros x I; [auto|destruct I as [<-|I]; [now left|right; auto]|right; auto]. Qed.

Theorem mixed_complete U w ord l sd msg a pres cs : wfL U -> entries_ok U w sd -> agree w (env a) U ->
  (forall s, In (US s) l -> hon U w s sd (env a)) ->
  (forall ps subs a1, uget l sd a = Ok ((Some (PAnd ps), SAnd subs false), a1) -> sincere (hon U w) l ps a1 pres cs) ->
  Ords ord (SAnd cs false) -> Apart (SAnd cs false) -> (exists pre, In pre pres /\ pre <> VNone) ->
  (exists z a', uprove l sd msg a = Ok (z, a') /\
     forall f g lv cvs stv stv', receives l lv pres cvs stv stv' -> Forall2 (Pat f g) cs cvs ->
     uverify lv z msg stv = Ok (true, stv')) \/ uoversized l sd a.
Proof.
  intros WF EN AG HU SI HO HA (pre0 & IP & NP).
  destruct (uget_ok U w sd l a WF EN AG HU) as (subs & ps & a1 & UG & G3).
  destruct (upre_ok U w l subs ps a1 pres cs G3 (fun s I => proj1 (HU s I)) (SI _ _ _ UG)) as (t & fs & a2 & UP & O).
  set (S := SAnd (map snd t) false). set (pre := VList (pvs t)).
  assert (UO : uopen l sd a = Ok ((pre, PAnd (prs t), S), a2)).
  { unfold uopen, bind. rewrite UG, UP. unfold ret, pre_list. fold (pvs t). fold (prs t).
    replace (forallb is_none (pvs t)) with false; [reflexivity|]. symmetry. apply not_true_iff_false. intros H.
    rewrite forallb_forall in H. specialize (H pre0 (opens_pres _ _ _ _ _ _ _ O _ IP)). destruct pre0; try discriminate H. now apply NP. }
  destruct (ucommit U w ord l cs pres fs t a2 O WF HO HA) as (BT & com & p & a3 & K & od & IC & D). fold S in BT, IC, D.
  destruct (proof_id_total S BT) as ((i & EI) & _).
  destruct (encode (VStr (pystr i))) as [h|] eqn:EH.
  2:{ right. exists pre, (PAnd (prs t)), S, a2, com, p, a3, i. do 3 (split; [assumption|]). left. eapply encode_big; eauto. }
  destruct (encode pre) as [b1|] eqn:F1.
  2:{ right. exists pre, (PAnd (prs t)), S, a2, com, p, a3, i. do 3 (split; [assumption|]). right; left. eapply encode_big; eauto. }
  assert (FA : (exists b, fs_arg com = Ok b) \/ (exists e, encode com = Err e) \/ exists b, com = VStr b).
  { assert (Q : (exists b, encode com = Ok b) \/ exists e, encode com = Err e) by (destruct (encode com); eauto).
    destruct com; cbn [fs_arg]; eauto; destruct Q as [Q|Q]; eauto. }
  destruct FA as [(b2 & F2)|[(e & F2)|(b & F2)]].
  2:{ right. exists pre, (PAnd (prs t)), S, a2, com, p, a3, i. do 3 (split; [assumption|]). right; right. eapply encode_big; eauto. }
  2:{ exfalso. subst com. eapply commit_nstr; eauto. }
  left. set (ch := be_int (sha256 (h ++ List.concat [b1; b2] ++ msg))).
  destruct (respond_ok _ _ _ _ _ _ D ch a3) as (r & CR & RC & CS).
  assert (PH : prehash_input S = Ok h) by (unfold prehash_input; rewrite EI; cbn [rbind]; exact EH).
  assert (FC : fs_challenge h [pre; com] msg = Ok ch).
  { unfold fs_challenge, fs_input. fold pre. cbn [rmap]. change (fs_arg pre) with (encode pre). rewrite F1, F2. reflexivity. }
  exists (mkNizk ch r pre (VBytes (sha256 h))), a3. split.
  - unfold uprove, bind, lift. rewrite UO, IC, PH, FC, CR. reflexivity.
  - intros f g lv cvs stv stv' RV PT.
    destruct (uproc_ok U w f g l cs pres fs t lv cvs stv stv' pre 0 O RV PT) as (q & E & SM & FV & VL).
    { intros j v H. cbn [index pre plus]. unfold pre, index. rewrite H. reflexivity. }
    assert (SS : Sim f g S (SAnd (map snd q) false)) by (now constructor).
    assert (V := pre_validation_ok (env stv') f g _ S _ r SS (opens_full _ _ _ _ _ _ _ O) CS).
    unfold uverify. cbn [n_pre n_hash n_chal n_resp]. unfold uprocess. change (is_none pre) with false. cbv iota.
    unfold bind. rewrite E. unfold ret at 1. unfold lift at 1.
    unfold check_statement. rewrite <- (Sim_prehash f g _ _ SS), PH. cbn [rbind]. rewrite val_eqb_refl. unfold get_env.
    unfold upre_validation, uvalidate. rewrite VL. cbn [rbind]. unfold lift. rewrite FV.
    unfold pre_validation in V. destruct (full_validate _) as [[]|]; [|discriminate V]. cbn [rbind fverifier] in V.
    destruct (consistent _ _ _ _ _) as [[rd|]|]; try discriminate V. cbn [rbind].
    rewrite <- (Sim_recompute f g _ _ _ _ SS), RC, FC. unfold ret. rewrite Z.eqb_refl. reflexivity.
Qed.
End M.

(** Two provers of one composition with primitives defined by users: a shift of the random numbers takes one conversation to the other. *)
From Coq Require Import String Znumtheory Lia.
From Verif Require Import Base World Val Expr Utils Stmt Prove Verify Spec Claims Shapes Honest Clauses Supply Extract Runs Views Blank Distrib
  Lib DictProofs Keeps Tree ArithProofs Sigma Validate Commit Build Process Lin Ktruth Provers Complete Compose Total Total2 Total3 Total4
  SimIndep WiTree WiCouple WiProofs ZkPre
  Complete2 Checks2 IdProofs3 History AnswerProofs Sound4 Custom CustomProofs Mixed MixedProofs MixedProofs2 MixedOr MixedOrProofs MixedOrProofs2 Nested NestedProofs NestedProofs2 NestedProofs3 TreeWi.
Open Scope Z_scope.
Open Scope list_scope.

Section F.
Context {W : World}.

(** ** Without primitives *)
Fixpoint flat (s : stmt) : stmt :=
  match s with
  | SDL d => s
  | SAnd l b => SAnd (map flat l) b
  | SOr l b c => SOr (map flat l) b c
  | SExt _ _ _ (Some c) => flat c
  | SExt _ _ _ None => s
  end.
Definition fsim (x : sim) : sim := mkSim (t_com x) (t_chal x) (t_resp x) VNone.
Fixpoint flatp (p : prover) : prover :=
  match p with
  | PDL _ => PDL None
  | PAnd ps => PAnd (map flatp ps)
  | POr i sp sims => POr i (flatp sp) (map fsim sims)
  | PExt _ (Some (Some q)) => flatp q
  | PExt _ o => PExt [] o
  end.
Lemma flat_noext s : noext s -> flat s = s.
Proof.
  induction s as [d|subs b IH|subs b ch IH|k b q|k b q con IH] using stmt_ind'; intros H; inversion H; subst; simpl; auto; f_equal;
    rewrite <- (map_id subs) at 2; apply map_ext_in; intros x Hx; rewrite Forall_forall in *; auto.
Qed.
Lemma noext_flat s : built s -> noext (flat s).
Proof.
  induction s as [d|subs b IH|subs b ch IH|k b q|k b q con IH] using stmt_ind'; intros H; inversion H; subst; simpl; auto; constructor;
    rewrite Forall_forall in *; intros y Hy; apply in_map_iff in Hy as (x & <- & Hx); auto.
Qed.
Lemma flat_vars s : get_secret_vars (flat s) = get_secret_vars s /\ get_bases (flat s) = get_bases s.
Proof.
  assert (G : forall l, Forall (fun s => get_secret_vars (flat s) = get_secret_vars s /\ get_bases (flat s) = get_bases s) l ->
    rmap get_secret_vars (map flat l) = rmap get_secret_vars l /\ rmap get_bases (map flat l) = rmap get_bases l).
  { induction 1 as [|x l [E1 E2] F [IH1 IH2]]; [auto|]. simpl. now rewrite E1, E2, IH1, IH2. }
  induction s as [d|subs b IH|subs b ch IH|k b q|k b q con IH] using stmt_ind'; cbn [flat get_secret_vars get_bases]; auto;
    destruct (G subs IH) as [-> ->]; auto.
Qed.
Lemma flat_recompute s : forall c r, recompute (flat s) c r = recompute s c r.
Proof.
  assert (G : forall (f : nat -> stmt -> res val) l, (forall i x, In x l -> f i (flat x) = f i x) -> forall i, rimap f i (map flat l) = rimap f i l).
  { intros f. induction l as [|x l IH]; intros H i; [reflexivity|]. cbn [map rimap]. rewrite H by (now left). rewrite IH; [reflexivity|]. intros; apply H; now right. }
  induction s as [d|subs b IH|subs b ch IH|k b q|k b q con IH] using stmt_ind'; intros c r; cbn [flat recompute]; auto; rewrite Forall_forall in IH.
  - rewrite G; [reflexivity|]. intros i x Hx. cbv beta. destruct (index r i); cbn [rbind]; auto.
  - destruct (index r 0) as [chv|]; cbn [rbind]; auto. destruct (index r 1) as [rs|]; cbn [rbind]; auto. destruct (chal_list chv) as [cs|]; cbn [rbind]; auto.
    destruct (_ =? 0); auto. rewrite G; [reflexivity|]. intros i x Hx. cbv beta. destruct (index chv i) as [ci|]; cbn [rbind]; auto.
    destruct (as_int ci); cbn [rbind]; auto. destruct (index rs i); cbn [rbind]; auto.
Qed.
Lemma flat_cons s : forall R r, Cons R s r -> Cons R (flat s) r.
Proof.
  induction s as [d|subs b IH|subs b ch IH|k b q|k b q con IH] using stmt_ind'; intros R r H; inversion H as [|? ? ? rs F|? ? ? ? cs rs F|]; subst; cbn [flat].
  - auto.
  - constructor. rewrite Forall2_map_l. clear H. induction F as [|x y l m X F IHF]; constructor; inversion IH; auto.
  - constructor. rewrite Forall2_map_l. clear H. induction F as [|x y l m [R' X] F IHF]; constructor; inversion IH; subst; eauto.
  - auto.
Qed.
Lemma flat_sim s x : built s -> SimOK s x -> SimOK (flat s) (fsim x).
Proof.
  intros B (H1 & (R & H2) & _). split; [|split].
  - cbn [fsim t_chal t_resp t_com]. now rewrite flat_recompute.
  - exists R. now apply flat_cons.
  - cbn [fsim t_pre]. pose proof (noext_flat s B) as N. inversion N; constructor; auto.
Qed.
Lemma flat_sims l t : Forall2 SimOK l t -> Forall built l -> Forall2 SimOK (map flat l) (map fsim t).
Proof. induction 1; intros B; inversion B; subst; simpl; constructor; auto. now apply flat_sim. Qed.
Lemma flat_ready w s : forall p, Ready w s p -> built s -> Ready w (flat s) (flatp p).
Proof.
  induction s as [d|subs b IH|subs b ch IH|k b q|k b q con IH] using stmt_ind'; intros p R B;
    inversion R as [? o g D|? ? ps F|l1 x l2 ? ? sp t1 t2 S1 S2 Rx|? ? ? ? sv q0 RC]; subst; inversion B as [|? ? B1|? ? ? B1|]; subst; cbn [flat flatp].
  - econstructor; eauto.
  - constructor. clear R B. induction F as [|x y l m X F IHF]; simpl; constructor; inversion IH; inversion B1; subst; auto.
  - rewrite !map_app. cbn [map]. apply Forall_app in B1 as [B1 B2]. apply Forall_app in IH as [_ IH].
    rewrite <- (map_length flat l1). constructor; auto using flat_sims.
    + apply flat_sims; auto. now inversion B2.
    + inversion IH; inversion B2; subst; auto.
  - auto.
Qed.
Lemma flatp_choices p : flatp (choices p) = flatp p.
Proof.
  revert p. fix IH 1. intros [k|ps|i sp sims|sv [[q|]|]]; simpl; auto.
  - f_equal. induction ps as [|x ps IHp]; simpl; [auto|]. now rewrite IH, IHp.
  - now rewrite IH.
Qed.
Lemma choices_flatp p p' : choices p = choices p' -> flatp p = flatp p'.
Proof. intros H. rewrite <- (flatp_choices p), <- (flatp_choices p'). now rewrite H. Qed.

Lemma bind_ok' {A B} (m : M A) (f : A -> M B) a y b : bind m f a = Ok (y, b) -> exists x a1, m a = Ok (x, a1) /\ f x a1 = Ok (y, b).
Proof. unfold bind. destruct (m a) as [[x a1]|]; [eauto|discriminate]. Qed.
Definition follows (s : stmt) (p : prover) : Prop := forall rd e a com p1 a', env a = e -> Checked e s -> Checked e (flat s) ->
  internal_commit (flat s) (flatp p) rd a = Ok ((com, p1), a') ->
  exists p2, internal_commit s p rd a = Ok ((com, p2), a') /\ forall c b, compute_response s p2 c b = compute_response (flat s) p1 c b.
Lemma follows_list l ps : Forall2 follows l ps -> forall rd e a cs a', env a = e -> Forall (Checked e) l -> Forall (Checked e) (map flat l) ->
  zipM (fun s p => internal_commit s p rd) (map flat l) (map flatp ps) a = Ok (cs, a') ->
  exists cs', zipM (fun s p => internal_commit s p rd) l ps a = Ok (cs', a') /\ map fst cs' = map fst cs /\
    forall c b, zipM (fun s p => compute_response s p c) l (map snd cs') b = zipM (fun s p => compute_response s p c) (map flat l) (map snd cs) b.
Proof.
  induction 1 as [|x p l ps H F IH]; intros rd e a cs a' E C1 C2 Z.
  - cbn in Z. injection Z as <- <-. exists []. auto.
  - cbn [map zipM] in Z. apply bind_ok' in Z as ([com p1] & a1 & Z1 & Z). apply bind_ok' in Z as (cs1 & a2 & Z2 & Z). injection Z as <- <-.
    pose proof (keeps_internal_commit _ _ _ _ _ _ Z1) as E1.
    inversion C1; inversion C2; subst. destruct (H rd (env a) a com p1 a1) as (p2 & X1 & X2); auto.
    destruct (IH rd (env a) a1 cs1 a2) as (cs2 & Y1 & Y2 & Y3); auto.
    exists ((com, p2) :: cs2). split; [|split].
    + cbn [zipM]. unfold bind. rewrite X1, Y1. reflexivity.
    + cbn [map fst]. now rewrite Y2.
    + intros c b. cbn [map snd zipM]. unfold bind. rewrite X2. destruct (compute_response (flat x) p1 c b) as [[r b1]|]; auto. rewrite Y3. reflexivity.
Qed.
Lemma flat_commit w s : forall p, Ready w s p -> follows s p.
Proof.
  induction s as [d|subs b IH|subs b ch IH|k b q|k b q con IH] using stmt_ind'; intros p R rd e a com p1 a' E C1 C2 H;
    inversion R as [? o g D|? ? ps F|l1 x l2 ? ? sp t1 t2 S1 S2 Rx|? ? ? ? sv q0 RC]; subst.
  - exists p1. split; [exact H|reflexivity].
  - cbn [flat flatp] in *. rewrite internal_commit_and in *. inversion C1 as [|? ? V1 F1| |]; inversion C2 as [|? ? V2 F2| |]; subst.
    pose proof (flat_vars (SAnd subs b)) as [FV FB]. cbn [flat] in FV, FB.
    unfold bind at 1, get_env in H. rewrite V2, bind_lift_ok in H. apply bind_ok' in H as (dd & a1 & H1 & H). apply bind_ok' in H as (cs & a2 & H2 & H). injection H as <- <- <-.
    assert (RA : forall a, randomizers_and (SAnd (map flat subs) b) a = randomizers_and (SAnd subs b) a) by (intros a0; unfold randomizers_and; now rewrite FV, FB).
    assert (UR : update_randomizers (randomizers_and (SAnd subs b)) (get_secret_vars (SAnd subs b)) rd a = Ok (dd, a1)).
    { rewrite <- H1, FV. unfold update_randomizers. destruct rd as [d|]; [|symmetry; apply RA]. unfold bind. destruct (lift _ a) as [[ss a3]|]; [|reflexivity].
      destruct (get_env a3) as [[e0 a4]|]; [|reflexivity]. destruct (existsb _ ss); [|reflexivity]. now rewrite RA. }
    assert (E1 : env a1 = env a).
    { eapply (keeps_update_randomizers _ _ _ (keeps_randomizers_and _)); eauto. }
    assert (FF : Forall2 follows subs ps).
    { clear - F IH. induction F as [|x y l m X F IHF]; constructor; inversion IH; subst; auto. }
    destruct (follows_list subs ps FF (Some dd) (env a) a1 cs a2 E1 F1 F2 H2) as (cs' & Y1 & Y2 & Y3).
    exists (PAnd (map snd cs')). split.
    + unfold bind at 1, get_env. rewrite V1, bind_lift_ok. unfold bind. rewrite UR, Y1, Y2. reflexivity.
    + intros c b0. cbn [compute_response]. unfold bind. rewrite Y3. reflexivity.
  - cbn [flat flatp] in *. rewrite internal_commit_or in *. inversion C1 as [| |? ? ? V1 F1|]; inversion C2 as [| |? ? ? V2 F2|]; subst.
    unfold bind at 1, get_env in H. rewrite V2, bind_lift_ok in H. apply bind_ok' in H as ([com1 q1] & a1 & H1 & H). injection H as <- <- <-. cbn [fst snd] in *.
    rewrite sel_loop_eq in H1. rewrite map_app in H1. cbn [map] in H1. rewrite <- (map_length flat l1), nth_middle' in H1.
    apply Forall_app in IH as [_ IH]. apply Forall_app in F1 as [_ F1]. rewrite map_app in F2. apply Forall_app in F2 as [_ F2].
    destruct (Forall_inv IH sp Rx None (env a) a com1 q1 a1 eq_refl (Forall_inv F1) (Forall_inv F2) H1) as (p2 & X1 & X2).
    exists (POr (List.length l1) p2 (t1 ++ t2)). split.
    + unfold bind at 1, get_env. rewrite V1, bind_lift_ok. unfold bind. rewrite sel_loop_eq, nth_middle', X1. cbn [fst snd]. rewrite map_map. reflexivity.
    + assert (NM : nth_error (map flat l1 ++ flat x :: map flat l2) (List.length l1) = Some (flat x)) by (rewrite <- (map_length flat l1); apply nth_middle').
      intros c b0. rewrite !compute_response_or. cbv zeta. rewrite !map_map. cbn [fsim t_chal t_resp].
      unfold bind. rewrite !sel_loop_eq, nth_middle'. rewrite (map_app flat). cbn [map]. rewrite NM, X2. reflexivity.
  - cbn [flat flatp] in *. inversion C1; subst. destruct (IH q0 RC rd (env a) a com p1 a' eq_refl) as (p2 & X1 & X2); auto.
    exists (PExt sv (Some (Some p2))). split; [|exact X2]. cbn [internal_commit]. unfold bind. rewrite X1. reflexivity.
Qed.

(** ** The same statement *)
Section U.
Variable U : list secret.
Lemma tb_flat T : forall c s, tb U T c s -> flat s = c.
Proof.
  induction T as [K b|s0|l b IH|l b IH] using mtree_ind'; intros c s B; inversion B as [? ? ? c0 v b' MA PS NN NE WF IN|? ? PS NE WF IN|? ? cs ss b' F|? ? cs ss b' ch F]; subst.
  - unfold obj_of. cbn [set_simulated flat]. now apply flat_noext.
  - now apply flat_noext.
  - cbn [flat]. f_equal. clear B. induction F; inversion IH; subst; simpl; f_equal; auto.
  - cbn [flat]. f_equal. clear B. induction F; inversion IH; subst; simpl; f_equal; auto.
Qed.
Lemma tb_pair T0 : forall T' c s c' s' v, tpair T0 T' -> heard T0 -> heard T' -> tb U T0 c s -> tb U T' c' s' -> PreRel s v -> PreRel s' v ->
  strip s = strip s' /\ pstrip c = pstrip c'.
Proof.
  assert (G : forall l, Forall (fun T => forall T' c s c' s' v, tpair T T' -> heard T -> heard T' -> tb U T c s -> tb U T' c' s' -> PreRel s v -> PreRel s' v ->
      strip s = strip s' /\ pstrip c = pstrip c') l ->
    forall l' cs ss cs' ss' vs, Forall2 tpair l l' -> Forall heard l -> Forall heard l' -> Forall3 (tb U) l cs ss -> Forall3 (tb U) l' cs' ss' ->
      Forall2 PreRel ss vs -> Forall2 PreRel ss' vs -> map strip ss = map strip ss' /\ map pstrip cs = map pstrip cs').
  { induction l as [|T l IHl]; intros IH l' cs ss cs' ss' vs P H H' B B' V V'; inversion P; subst; inversion B; subst; inversion B'; subst; [auto|].
    inversion V; subst. inversion V'; subst. inversion H; inversion H'; subst. cbn [map].
    edestruct (Forall_inv IH) as [-> ->]; eauto. edestruct (IHl (Forall_inv_tail IH)) as [-> ->]; eauto. }
  induction T0 as [K b|s0|l b IH|l b IH] using mtree_ind'; intros T' c s c' s' v P H H' B B' V V'; inversion P as [? K' ? bb EN MM|? s0' ES|? l' ? bb PL|? l' ? bb PL]; subst;
    inversion B as [? ? ? c0 v1 b' MA PS NN NE WF IN|? ? PS NE WF IN|? ? cs ss b' F|? ? cs ss b' ch F]; subst;
    inversion B' as [? ? ? c0' v1' b1' MA' PS' NN' NE' WF' IN'|? ? PS' NE' WF' IN'|? ? cs' ss' b1' F'|? ? cs' ss' b1' ch' F']; subst.
  - unfold obj_of in *. cbn [set_simulated] in *. inversion V; inversion V'; subst.
    assert (E : pstrip c = pstrip c') by (rewrite PS, PS'; eapply MM; eauto). split; [|exact E].
    cbn [strip]. rewrite EN, !noext_pstrip_strip by auto. now rewrite E.
  - assert (E : pstrip s = pstrip s') by congruence. split; [|exact E]. now rewrite !noext_pstrip_strip.
  - destruct (pre_and U l b cs ss b' v F H V) as (vs & -> & VS). destruct (pre_and U l' bb cs' ss' b1' _ F' H' V') as (vs' & [= <-] & VS').
    inversion H; inversion H'; subst. destruct (G l IH l' cs ss cs' ss' vs) as [E1 E2]; auto. cbn [strip pstrip]. now rewrite E1, E2.
  - destruct (pre_or U l b cs ss b' ch v F H V) as (vs & -> & VS). destruct (pre_or U l' bb cs' ss' b1' ch' _ F' H' V') as (vs' & [= <-] & VS').
    inversion H; inversion H'; subst. destruct (G l IH l' cs ss cs' ss' vs) as [E1 E2]; auto. cbn [strip pstrip]. now rewrite E1, E2.
Qed.

Definition chal_of (pre : val) (s : stmt) (p : prover) (msg : bytes) (e : nat -> option Z) (t : nat -> Z) : Z :=
  match internal_commit s p None (mkSt e t 0), prehash_input s with
  | Ok ((com, _), _), Ok h => match fs_challenge h [pre; com] msg with Ok c => c | Err _ => 0 end
  | _, _ => 0
  end.
Theorem tree_wi w w' T T' sd sd' ord a a' pre p s a1 p' s' a1' : wfL U -> tpair T T' -> heard T -> heard T' ->
  (forall c, fill T c -> Ords ord c /\ Apart c) -> thonest U w T sd a -> thonest U w' T' sd' a' ->
  topen T sd a = Ok ((pre, p, s), a1) -> topen T' sd' a' = Ok ((pre, p', s'), a1') -> choices p = choices p' ->
  (forall c, (forall t, exists com r, outcome (honest_view s p c) (env a1) t = Ok (com, r)) /\
     same_distribution (outcome (honest_view s p c) (env a1)) (outcome (honest_view s' p' c) (env a1'))) /\
  (forall msg, same_distribution (outcome (rest pre p s msg) (env a1)) (outcome (rest pre p' s' msg) (env a1'))).
Proof.
  intros HL TP H H' FI (EN & AG & TO & SI) (EN' & AG' & TO' & SI') OP OP' CH.
  destruct (topen_ok U w T sd a HL EN AG TO H SI) as (v & p0 & s0 & c & a0 & X & B & V & R). rewrite OP in X. injection X as <- <- <- <-.
  destruct (topen_ok U w' T' sd' a' HL EN' AG' TO' H' SI') as (v' & p0 & s0 & c' & a0 & X & B' & V' & R'). rewrite OP' in X. injection X as <- <- <- <-.
  destruct (tb_pair T T' c s c' s' pre TP H H' B B' V V') as [ES EC].
  destruct (tb_good U T c s B) as (N & WF & WS & BU & _ & IN & _ & CK & _ & c0 & F0 & E0).
  destruct (tb_good U T' c' s' B') as (N' & WF' & WS' & BU' & _ & IN' & _ & CK' & _).
  destruct (FI c0 F0) as [O A].
  assert (OC : Ords ord c) by (eapply Ords_same; [symmetry; exact E0|auto]). assert (AC : Apart c) by (eapply Apart_same; [symmetry; exact E0|auto]).
  assert (OC' : Ords ord c') by (eapply Ords_same; [exact EC|auto]). assert (AC' : Apart c') by (eapply Apart_same; [exact EC|auto]).
  assert (C1 : forall e, Checked e c) by (intros e; apply (Apart_checked ord); auto using noext_built, noext_ConOK, noext_kgood).
  assert (C1' : forall e, Checked e c') by (intros e; apply (Apart_checked ord); auto using noext_built, noext_ConOK, noext_kgood).
  assert (FC := tb_flat T c s B). assert (FC' := tb_flat T' c' s' B').
  assert (RC := flat_ready w s p R BU). assert (RC' := flat_ready w' s' p' R' BU'). rewrite FC in RC. rewrite FC' in RC'.
  assert (FP := choices_flatp p p' CH). rewrite <- FP in RC'.
  assert (IC : incl (svars c) U). { assert (Q := built_svars _ (noext_built _ N)). rewrite <- FC, (proj1 (flat_vars s)), (built_svars _ BU), FC in Q. injection Q as <-. exact IN. }
  assert (SC : strip c = strip c') by (now rewrite !noext_pstrip_strip).
  destruct (twin_all U HL w w' ord c c' (flatp p) RC RC' N WF OC IC SC (env a1) (env a1') (C1 _) (C1' _)) as [_ (n & q & dl & P & T0)].
  assert (TT : forall c0 t t' m m', moved n q (dl c0) t t' m m' -> exists com p1 p1' r,
    internal_commit s p None (mkSt (env a1) t m) = Ok ((com, p1), mkSt (env a1) t (m + n)) /\
    internal_commit s' p' None (mkSt (env a1') t' m') = Ok ((com, p1'), mkSt (env a1') t' (m' + n)) /\
    (forall st, compute_response s p1 c0 st = Ok (r, st)) /\ (forall st, compute_response s' p1' c0 st = Ok (r, st))).
  { intros k t t' m m' M. destruct (T0 k t t' m m' M) as (com & p1 & p1' & r & T1 & T2 & T3 & T4).
    rewrite <- FC in T1. rewrite <- FC' in T2. rewrite FP in T2.
    destruct (flat_commit w s p R None _ _ _ _ _ eq_refl (CK _ (C1 _)) (eq_ind_r _ (C1 _) FC) T1) as (p2 & Y1 & Y2).
    destruct (flat_commit w' s' p' R' None _ _ _ _ _ eq_refl (CK' _ (C1' _)) (eq_ind_r _ (C1' _) FC') T2) as (p2' & Y1' & Y2').
    exists com, p2, p2', r. split; [exact Y1|]. split; [exact Y1'|]. split; intros st; [rewrite Y2, FC; auto|rewrite Y2', FC'; auto]. }
  clear T0. split.
  - intros k. split.
    + intros t. destruct (TT k t (fun j => t j + dl k j) 0%nat 0%nat) as (com & p1 & p1' & r & T1 & T2 & T3 & T4).
      { intros j _. simpl. rewrite Z.sub_diag. apply Z.divide_0_r. }
      exists com, r. unfold outcome, honest_view, bind. rewrite T1. cbn [snd]. rewrite T3. reflexivity.
    + apply (moved_dist n q dl (fun _ => k) (fun _ => k)); auto. intros t t' M.
      destruct (TT k t t' 0%nat 0%nat M) as (com & p1 & p1' & r & T1 & T2 & T3 & T4).
      unfold outcome, honest_view, bind. rewrite T1, T2. cbn [snd]. rewrite T3, T4. reflexivity.
  - intros msg. assert (PH : prehash_input s = prehash_input s') by (unfold prehash_input; now rewrite (strip_id s s')).
    apply (moved_dist n q dl (chal_of pre s p msg (env a1)) (chal_of pre s' p' msg (env a1'))); auto.
    + intros k t t' M. destruct (TT k t t' 0%nat 0%nat M) as (com & p1 & p1' & r & T1 & T2 & T3 & T4).
      unfold chal_of. now rewrite T1, T2, PH.
    + intros t t' M. destruct (TT _ t t' 0%nat 0%nat M) as (com & p1 & p1' & r & T1 & T2 & T3 & T4).
      unfold outcome, rest, bind. rewrite T1, T2, <- PH. unfold chal_of in T3, T4. rewrite T1 in T3, T4.
      destruct (prehash_input s) as [h|]; simpl lift; [|reflexivity]. unfold lift. 
      destruct (fs_challenge h [pre; com] msg) as [k|]; [|reflexivity]. rewrite T3, T4. reflexivity.
Qed.
Lemma prove_rest T sd msg a : tprove T sd msg a = match topen T sd a with Ok ((pre, p, s), a1) => rest pre p s msg a1 | Err x => Err x end.
Proof. unfold tprove, bind at 1. destruct (topen T sd a) as [[[[pre p] s] a1]|]; reflexivity. Qed.
End U.
End F.

(** ** The library's classes *)
Section L.
Context {W : World}.
Lemma lib_made k pre c c' : wfL (kuser k ++ kint k) -> made (class_of k) pre c -> made (class_of k) pre c' -> pstrip c = pstrip c'.
Proof.
  intros WF (a & a1 & a2 & _ & H) (b & b1 & b2 & _ & H'). cbn [class_of c_con] in *.
  set (k0 := match k with KRange com g h n _ x r rs => KRange com g h n false x r rs | _ => k end).
  assert (KS : KSim idn idn k k0).
  { assert (R := KSim_refl k). subst k0. destruct k; auto. inversion R; subst. now constructor. }
  assert (V : forall e, vkOK e k0) by (intros e; subst k0; destruct k; simpl; auto).
  destruct (construct_sim idn idn k k0 pre _ c _ a KS H (V _)) as (c0 & X1 & X2).
  destruct (construct_sim idn idn k k0 pre _ c' _ a KS H' (V _)) as (c1 & X3 & X4). rewrite X1 in X3. injection X3 as <-.
  pose proof (construct_leafy _ _ _ _ _ H) as [_ L1]. pose proof (construct_leafy _ _ _ _ _ H') as [_ L2]. pose proof (construct_leafy _ _ _ _ _ X1) as [_ L3].
  rewrite <- !noext_pstrip_strip by (eapply leafy_noext; eauto).
  assert (EL : kuser k0 ++ kint k0 = kuser k ++ kint k) by (subst k0; destruct k; reflexivity). rewrite EL in L3.
  transitivity (strip c0); [|symmetry]; eapply Sim_id_strip; eauto using leafy_noext; eapply leafy_svars; eauto.
Qed.
End L.

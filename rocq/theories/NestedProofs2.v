(** User-defined primitives in nested compositions: get_prover and precommit. *)
From Coq Require Import String Znumtheory Lia.
From Verif Require Import Base World Val Expr Utils Stmt Prove Verify Spec Shapes Claims Honest Clauses Supply Extract Lib DictProofs Keeps Sigma Tree Build Process
  Provers Commit Total Total2 Total4 Complete Complete2 Checks2 IdProofs3 History AnswerProofs Sound4 WiProofs Custom CustomProofs Mixed MixedProofs MixedProofs2 MixedOr MixedOrProofs MixedOrProofs2 Nested NestedProofs.
Open Scope Z_scope.
Open Scope list_scope.

Section N.
Context {W : World}.
Context (U : list secret) (w : bytes -> Z).

(** ** Simulations *)
Lemma tprep_ok t : wfL U -> tsim U w t -> heard t -> forall a, agree w (env a) U ->
  exists s c a', tprep t (tshell t) a = Ok (s, a') /\ agree w (env a') U /\ tb U t c s /\ Typ s.
Proof.
  intros WF.
  assert (G : forall l, Forall (fun t => tsim U w t -> heard t -> forall a, agree w (env a) U ->
    exists s c a', tprep t (tshell t) a = Ok (s, a') /\ agree w (env a') U /\ tb U t c s /\ Typ s) l -> Forall (tsim U w) l -> Forall heard l -> forall a, agree w (env a) U ->
    exists ss cs a', zipM tprep l (map tshell l) a = Ok (ss, a') /\ agree w (env a') U /\ Forall3 (tb U) l cs ss /\ Forall Typ ss).
  { intros l H. induction H as [|t0 l H H0 IH]; intros TS HE a AG.
    - exists [], [], a. split; [reflexivity|]. split; auto. split; constructor.
    - inversion TS; inversion HE; subst. destruct (H ltac:(assumption) ltac:(assumption) a AG) as (s & c & a1 & E & A1 & B & T).
      destruct (IH ltac:(assumption) ltac:(assumption) a1 A1) as (ss & cs & a2 & E2 & A2 & B2 & T2).
      exists (s :: ss), (c :: cs), a2. cbn [map zipM]. unfold bind. rewrite E. fold (@zipM mtree stmt stmt tprep). rewrite E2. split; [reflexivity|]. split; auto. split; constructor; auto. }
  induction t as [K b|s0|l b IH|l b IH] using mtree_ind'; intros TS HE a AG; inversion TS as [? ? SI|? N OK SH|? ? F|? ? NE F]; inversion HE as [? ? NN| |? ? HF|? ? HF]; subst.
  - destruct (SI a AG) as (pre & a1 & c & a2 & CS & CC & N & OK & SH & A2).
    assert (MA : made K pre c) by (exists a, a1, a2; auto).
    cbn [tshell]. unfold obj_of. cbn [set_simulated tprep]. unfold bind. rewrite CS, CC. unfold ret.
    do 3 eexists. split; [reflexivity|]. split; auto. split.
    + econstructor; eauto using Sok_wfs. now apply noext_svars.
    + cbn. constructor. now apply noext_typ.
  - cbn [tshell tprep]. assert (K0 : kints s0 = []) by (unfold kints; now rewrite (noext_kinds s0 N)).
    destruct (prepare_total s0 a) as (s1 & a1 & E1 & EE & T1); rewrite ?(noext_kinds s0 N); auto using Forall_nil.
    assert (SW : Swf U U s0) by (apply Sok_Swf; auto; rewrite ?K0; [intros ? []|constructor|intros ? ? []]).
    destruct (prepare_ok U U _ _ _ _ SW (incl_refl _) E1) as [PP PS]. destruct PP as (P1 & P2 & P3 & P4 & P5 & P6 & P7).
    exists s1, s1, a1. split; auto. split; [rewrite EE; auto|]. split; auto. constructor; auto. apply noext_pstrip. rewrite PS. now apply noext_pstrip.
  - destruct (G l IH F HF a AG) as (ss & cs & a1 & E & A1 & B & T). exists (SAnd ss b), (SAnd cs b), a1. cbn [tshell tprep]. unfold bind. rewrite E.
    split; [reflexivity|]. split; auto. split; now constructor.
  - destruct (G l IH F HF a AG) as (ss & cs & a1 & E & A1 & B & T). exists (SOr ss b None), (SOr cs b None), a1. cbn [tshell tprep]. unfold bind. rewrite E.
    split; [reflexivity|]. split; auto. split; constructor; auto. destruct B; [congruence|discriminate].
Qed.
(** A simulated branch *)
Inductive tsims : list mtree -> list stmt -> list stmt -> list sim -> Prop :=
| SmN : tsims [] [] [] []
| SmC t l c cs s ss x xs : tb U t c s -> SimOK s x -> tsims l cs ss xs -> tsims (t :: l) (c :: cs) (s :: ss) (x :: xs).
Lemma tsims_facts l cs ss xs : tsims l cs ss xs -> Forall3 (tb U) l cs ss /\ Forall2 SimOK ss xs /\ Forall2 PreRel ss (map t_pre xs) /\
  List.length ss = List.length l /\ List.length xs = List.length l.
Proof.
  induction 1 as [|t l c cs s ss x xs B S H (I1 & I2 & I3 & I4 & I5)]; cbn [map List.length]; repeat split; try constructor; auto. apply S.
Qed.
Lemma tsim1_ok t a : wfL U -> tsim U w t -> heard t -> agree w (env a) U ->
  exists s c a1 x a', tprep t (tshell t) a = Ok (s, a1) /\ simulate_proof s None None a1 = Ok (x, a') /\ agree w (env a') U /\ tb U t c s /\ SimOK s x.
Proof.
  intros WF TS HE AG. destruct (tprep_ok t WF TS HE a AG) as (s & c & a1 & E & A1 & B & T).
  destruct (tb_good U t c s B) as (B1 & B2 & B3 & B4 & B5 & B6 & _).
  assert (CO : coh (env a1) (svars s)) by (apply wfL_coh; eapply wfL_incl; eauto).
  destruct (simulate_total s None None a1 T CO) as (x & a2 & E2); [discriminate|].
  destruct (simulate_ok s None None a1 x a2) as (Q1 & _ & _ & Q2 & Q3); auto. { discriminate. }
  exists s, c, a1, x, a2. split; auto. split; auto. split; [rewrite (keeps_simulate_proof s None None _ _ _ E2); auto|]. split; auto. split; auto.
Qed.
Lemma tsetup_all idx l : wfL U -> Forall (tsim U w) l -> Forall heard l -> forall i a, agree w (env a) U -> (idx < i)%nat ->
  exists ss ts cs a', tsetup idx i l (map tshell l) a = Ok ((ss, ts), a') /\ agree w (env a') U /\ tsims l cs ss ts.
Proof.
  intros WF F HE. induction F as [|t l H F IH]; intros i a AG LT.
  - exists [], [], [], a. split; [reflexivity|]. split; auto. constructor.
  - inversion HE; subst. destruct (tsim1_ok t a WF H ltac:(assumption) AG) as (s & c & a1 & x & a2 & E & E' & A1 & S1 & S2).
    destruct (IH ltac:(assumption) (Datatypes.S i) a2 A1 ltac:(lia)) as (ss & ts & cs & a3 & E2 & A2 & S3).
    exists (s :: ss), (x :: ts), (c :: cs), a3. split; [|split; auto; now constructor]. cbn [map tsetup].
    replace (Nat.eqb i idx) with false by (symmetry; apply Nat.eqb_neq; lia). unfold bind. rewrite E, E', E2. reflexivity.
Qed.
Lemma tsetup_split idx la u x lb : wfL U -> Forall (tsim U w) la -> Forall (tsim U w) lb -> Forall heard la -> Forall heard lb ->
  forall i a, agree w (env a) U -> (i + List.length la = idx)%nat ->
  exists sa sb ta tb ca cb a', tsetup idx i (la ++ u :: lb) (map tshell la ++ x :: map tshell lb) a = Ok ((sa ++ x :: sb, ta ++ tb), a') /\
    agree w (env a') U /\ tsims la ca sa ta /\ tsims lb cb sb tb.
Proof.
  intros WF F G HA HB. induction F as [|t l H F IH]; intros i a AG LE.
  - destruct (tsetup_all idx lb WF G HB (S i) a AG) as (ss & ts & cs & a' & E & A & S); [cbn in LE; lia|].
    exists [], ss, [], ts, [], cs, a'. split; [|split; [auto|split; [constructor|auto]]]. cbn [app map tsetup].
    replace (Nat.eqb i idx) with true by (symmetry; apply Nat.eqb_eq; cbn in LE; lia). unfold bind. rewrite E. reflexivity.
  - assert (HH := Forall_inv HA). apply Forall_inv_tail in HA. destruct (tsim1_ok t a WF H HH AG) as (s & c & a1 & y & a2 & E & E' & A1 & S1 & S1').
    destruct (IH HA (Datatypes.S i) a2 A1) as (sa & sb & ta & tb' & ca & cb & a3 & E2 & A2 & S2 & S3); [cbn in LE; lia|].
    exists (s :: sa), sb, (y :: ta), tb', (c :: ca), cb, a3. split; [|split; [auto|split; [now constructor|auto]]]. cbn [app map tsetup].
    replace (Nat.eqb i idx) with false by (symmetry; apply Nat.eqb_neq; cbn in LE; lia). unfold bind. rewrite E, E', E2. reflexivity.
Qed.

(** ** get_prover *)
Lemma tcands_in l i : In i (tcands l) <-> exists t, nth_error l i = Some t /\ simulated (tshell t) = false.
Proof.
  unfold tcands. rewrite in_map_iff. split.
  - intros ((j & t) & <- & H). apply filter_In in H as [H1 H2]. cbn [fst snd] in *. exists t. split; [|now destruct (simulated (tshell t))].
    apply (In_nth_error) in H1 as [k H1].
    assert (G : forall (l : list mtree) n k x j, nth_error (combine (seq n (List.length l)) l) k = Some (j, x) -> j = (n + k)%nat /\ nth_error l k = Some x).
    { clear. induction l as [|y l IH]; intros n [|k] x j H; cbn in H; try discriminate H.
      - injection H as <- <-. split; [lia|reflexivity].
      - apply IH in H as [-> H]. split; [lia|exact H]. }
    apply G in H1 as [-> H1]. exact H1.
  - intros (t & H & Q). exists (i, t). split; auto. apply filter_In. cbn [snd]. rewrite Q. split; auto.
    assert (G : forall (l : list mtree) n k x, nth_error l k = Some x -> In ((n + k)%nat, x) (combine (seq n (List.length l)) l)).
    { clear. induction l as [|y l IH]; intros n [|k] x H; cbn in H |- *; try discriminate H.
      - injection H as <-. left. now rewrite Nat.add_0_r.
      - right. replace (n + S k)%nat with (S n + k)%nat by lia. now apply IH. }
    exact (G l 0%nat i _ H).
Qed.
(** After get_prover *)
Inductive tc : mtree -> stmt -> prover -> Prop :=
| TcK K b sv : tc (TK K b) (tshell (TK K b)) (PExt sv None)
| TcS s0 s p v : noext s0 -> ready U w s0 s p v -> tc (TS s0) s p
| TcA l b ss ps : Forall3 tc l ss ps -> tc (TA l b) (SAnd ss b) (PAnd ps)
| TcO la t lb b sa s sb b' ch p xa xb ca cb : tsims la ca sa xa -> tsims lb cb sb xb -> tc t s p ->
    tc (TO (la ++ t :: lb) b) (SOr (sa ++ s :: sb) b' ch) (POr (List.length la) p (xa ++ xb)).

Lemma tget_ok t sd e : wfL U -> entries_ok U w sd -> tok U w sd e t -> heard t -> forall a, agree w (env a) U ->
  exists p s a', tget t sd a = Ok ((Some p, s), a') /\ agree w (env a') U /\ tc t s p.
Proof.
  intros WF EN. induction t as [K b|s0|l b IH|l b IH] using mtree_ind'; intros TO HE a AG; inversion TO as [|? H|? F|? F EX OK]; subst.
  - cbn [tget tshell]. unfold obj_of. cbn [set_simulated get_prover]. unfold bind, get_env, ret.
    destruct (update_secret_values sd a) as [[u' a1]|] eqn:UP; [|discriminate].
    do 3 eexists. split; [reflexivity|]. split; [eapply estep_agree2; eauto using incl_refl; eapply estep_update; eauto|]. exact (TcK K b _).
  - apply (hon_env U w _ sd e (env a) AG) in H. destruct H as (N' & H & S & P).
    destruct (leaf_ready U w _ sd a N' H S P) as (p & s1 & a1 & v & E & A & R). exists p, s1, a1. split; [exact E|]. split; auto. econstructor; eauto.
  - inversion HE as [| |? ? HF _|]; subst. cbn [tget]. unfold bind at 1. destruct (update_secret_values sd a) as [[u' a1]|] eqn:UP; [|discriminate].
    assert (A1 : agree w (env a1) U) by (eapply estep_agree2; eauto using incl_refl; eapply estep_update; eauto). clear UP TO HE AG.
    assert (G : exists r ps ss a', mapM (fun t => tget t sd) l a1 = Ok (r, a') /\ agree w (env a') U /\ r = combine (map Some ps) ss /\ Forall3 tc l ss ps).
    { revert a1 A1. induction IH as [|t l H IH' IHl]; intros a1 A1.
      - exists [], [], [], a1. split; [reflexivity|]. split; auto. split; [reflexivity|constructor].
      - inversion F; inversion HF; subst. destruct (H ltac:(assumption) ltac:(assumption) a1 A1) as (p & s & a2 & E & A2 & T).
        destruct (IHl ltac:(assumption) ltac:(assumption) a2 A2) as (r & ps & ss & a3 & E2 & A3 & -> & T2).
        exists ((Some p, s) :: combine (map Some ps) ss), (p :: ps), (s :: ss), a3. cbn [mapM]. unfold bind at 1. rewrite E.
        unfold bind at 1. rewrite E2. split; [reflexivity|]. split; auto. split; [reflexivity|now constructor]. }
    destruct G as (r & ps & ss & a2 & E & A2 & -> & T). unfold bind. rewrite E. clear E.
    assert (Q : forallb (fun r : option prover * stmt => is_some (fst r)) (combine (map Some ps) ss) = true /\
      flat_map (fun r : option prover * stmt => match fst r with Some p => [p] | None => [] end) (combine (map Some ps) ss) = ps /\ map snd (combine (map Some ps) ss) = ss).
    { clear - T. induction T as [|? ? ? ? ? ? _ _ (I1 & I2 & I3)]; cbn; [auto|]. cbn in I2. rewrite I1, I2, I3. auto. }
    destruct Q as (-> & Q2 & Q3). rewrite Q2, Q3. unfold ret. do 3 eexists. split; [reflexivity|]. split; auto. now constructor.
  - inversion HE as [| | |? ? HF _]; subst. cbn [tget]. unfold bind at 1. destruct (update_secret_values sd a) as [[x a0]|] eqn:UP; [|discriminate].
    assert (A0 : agree w (env a0) U) by (eapply estep_agree2; eauto using incl_refl; eapply estep_update; eauto). clear UP.
    destruct EX as (t0 & I0 & S0).
    assert (NE : tcands l <> []).
    { apply In_nth_error in I0 as [i I0]. intros E. assert (H : In i (tcands l)) by (apply tcands_in; eauto). rewrite E in H. destruct H. }
    destruct (tcands l) as [|c0 cl] eqn:EC; [congruence|]. clear NE. cbv zeta. cbn [empty_dict]. rewrite <- EC.
    set (cands := tcands l) in *. replace (List.length cands) with (S (List.length cl)) by (rewrite EC; reflexivity). cbn [or_loop].
    unfold bind at 1. unfold bind at 1. destruct (draw (len cands) a0) as [[z a1]|] eqn:D; [|discriminate D].
    assert (LT : (Z.to_nat z < List.length cands)%nat).
    { unfold draw in D. injection D as <- _. assert (Q : 0 < len cands) by (unfold len; rewrite EC; cbn [List.length]; lia).
      destruct (Z.mod_pos_bound (tape a0 (pos a0)) (len cands) Q) as [Q1 Q2]. unfold len in *. lia. }
    apply keeps_draw in D. destruct (nth_error cands (Z.to_nat z)) as [i|] eqn:Ni; [|apply nth_error_None in Ni; lia].
    apply nth_error_In in Ni. apply tcands_in in Ni as (t & Ni & St). destruct (nth_error_split _ _ Ni) as (la & lb & -> & LA).
    rewrite nth_error_map, Ni. cbn [option_map].
    apply Forall_app in F as [F1 F2]. inversion F2 as [|? ? F0 F3]; subst. apply Forall_app in HF as [H1 H2]. inversion H2 as [|? ? H0 H3]; subst.
    apply Forall_app in IH as [_ IH2]. inversion IH2 as [|? ? IH0 _]; subst.
    destruct (IH0 (OK t (in_elt _ _ _) St) H0 a1) as (p & s & a2 & E & A2 & CH); [rewrite D; auto|].
    unfold bind at 1. rewrite E. cbn [fst snd]. unfold ret at 1. cbn [fst snd].
    assert (RE : replace (List.length la) s (map tshell (la ++ t :: lb)) = map tshell la ++ s :: map tshell lb).
    { rewrite map_app. cbn [map]. rewrite <- (map_length tshell la). apply replace_mid. }
    destruct (tsetup_split (List.length la) la t s lb WF F1 F3 H1 H3 0 a2 A2 eq_refl) as (sa & sb & ta & tb & ca & cb & a3 & E3 & A3 & S1 & S2).
    unfold bind. rewrite RE, E3. unfold ret. cbn [fst snd]. do 3 eexists. split; [reflexivity|]. split; auto. econstructor; eauto.
Qed.

(** ** precommit *)
Lemma Forall3_app {A B C} (R : A -> B -> C -> Prop) a1 b1 c1 a2 b2 c2 : Forall3 R a1 b1 c1 -> Forall3 R a2 b2 c2 -> Forall3 R (a1 ++ a2) (b1 ++ b2) (c1 ++ c2).
Proof. induction 1; cbn; auto. intros H2. constructor; auto. Qed.
Lemma at_nth_mid {A} (f : mtree -> stmt -> M (A * stmt)) la t lb sa s sb a x s' a' : List.length sa = List.length la -> f t s a = Ok ((x, s'), a') ->
  at_nth f (List.length la) (la ++ t :: lb) (sa ++ s :: sb) a = Ok ((x, sa ++ s' :: sb), a').
Proof.
  intros L E. revert sa L. induction la as [|y la IH]; intros [|z sa] L; try discriminate L; cbn [app at_nth List.length].
  - unfold bind. rewrite E. reflexivity.
  - unfold bind. rewrite (IH sa) by (cbn in L; congruence). reflexivity.
Qed.
Lemma nth_part_mid (f : mtree -> stmt -> Prop) la t lb sa s sb : List.length sa = List.length la -> nth_part f (List.length la) (la ++ t :: lb) (sa ++ s :: sb) -> f t s.
Proof.
  intros L. revert sa L. induction la as [|y la IH]; intros [|z sa] L; try discriminate L; cbn [app nth_part List.length]; auto.
  intros H. apply (IH sa); auto.
Qed.

Lemma tpre_ok t : heard t -> forall s p a, tc t s p -> tsincere U w t s p a ->
  exists v p' s' c a', tpre t s p a = Ok ((v, p', s'), a') /\ tb U t c s' /\ PreRel s' v /\ Ready w s' p'.
Proof.
  induction t as [K b|s0|l b IH|l b IH] using mtree_ind'; intros HE s p a TC SI; inversion TC as [? ? sv|? ? ? v N R|? ? ss ps F|la t lb ? sa s1 sb b' ch p1 xa xb ca cb S1 S2 T]; subst.
  - inversion HE as [? ? NN| | |]; subst. destruct SI as (pre & a1 & c & a2 & CP & CC & (N & H & SH & SU)).
    assert (MA : made K pre c) by (exists a, a1, a2; auto).
    destruct (leaf_ready U w c sv a2 N H SH SU) as (q & c1 & a3 & v & E & A & R).
    cbn [tshell]. unfold obj_of. cbn [set_simulated tpre].
    unfold bind. rewrite CP, CC, E. cbn [fst snd]. rewrite inner_same by (intros ? [= <-]; apply R). cbn [fst snd ret]. unfold ret.
    destruct R as (R1 & R2 & R3 & R4 & R5 & R6 & R7 & R8 & R9).
    do 3 eexists. exists c1. eexists. split; [reflexivity|]. split; [|split; [|cbn; constructor; exact R7]].
    + econstructor; eauto. apply noext_pstrip. rewrite R2. now apply noext_pstrip.
    + cbn. constructor. eauto.
  - destruct R as (R1 & R2 & R3 & R4 & R5 & R6 & R7 & R8 & R9). do 3 eexists. exists s. eexists. split; [apply R8|]. split; [|split; auto].
    constructor; auto. apply noext_pstrip. rewrite R2. now apply noext_pstrip.
  - assert (HE' := HE). inversion HE as [| |? ? HF _|]; subst. cbn [tsincere] in SI. cbn [tpre].
    assert (G : exists vs ps' ss' cs a', zip3 tpre l ss ps a = Ok (combine (combine vs ps') ss', a') /\ Forall3 (tb U) l cs ss' /\ Forall2 PreRel ss' vs /\ Forall2 (Ready w) ss' ps').
    { clear HE HE' TC. revert a SI. induction F as [|t s p l ss ps T F IHF]; intros a SI.
      - exists [], [], [], [], a. split; [reflexivity|]. repeat split; constructor.
      - inversion IH; inversion HF; subst. cbn [each] in SI. destruct SI as [SI SI2].
        match goal with X : heard t -> _ |- _ => destruct (X ltac:(assumption) s p a T SI) as (v & p' & s' & c & a1 & E & B & P & R) end.
        destruct (IHF ltac:(assumption) ltac:(assumption) a1 (SI2 _ _ E)) as (vs & ps' & ss' & cs & a2 & E2 & B2 & P2 & R2).
        exists (v :: vs), (p' :: ps'), (s' :: ss'), (c :: cs), a2. cbn [zip3]. unfold bind. rewrite E. rewrite E2.
        split; [reflexivity|]. repeat split; constructor; auto. }
    destruct G as (vs & ps' & ss' & cs & a1 & E & B & P & R). unfold bind. rewrite E. unfold ret.
    assert (Q : map (fun r : val * prover * stmt => fst (fst r)) (combine (combine vs ps') ss') = vs /\ map (fun r : val * prover * stmt => snd (fst r)) (combine (combine vs ps') ss') = ps' /\
      map snd (combine (combine vs ps') ss') = ss').
    { clear - P R. revert ps' R. induction P as [|s v ss vs _ P IH]; intros ps' R; inversion R as [|? p ? ps ? R']; subst; cbn; [auto|]. destruct (IH ps R') as (-> & -> & ->). auto. }
    destruct Q as (-> & -> & ->). do 3 eexists. exists (SAnd cs b). eexists. split; [reflexivity|]. split; [now constructor|]. split; [eapply pre_list_rel; eauto|now constructor].
  - assert (HE' := HE). inversion HE as [| | |? ? HF _]; subst. apply Forall_app in HF as [_ HF]. inversion HF; subst. apply Forall_app in IH as [_ IH]. inversion IH as [|? ? IH0 _]; subst.
    destruct (tsims_facts _ _ _ _ S1) as (X1 & X2 & X3 & X4 & X5). destruct (tsims_facts _ _ _ _ S2) as (Y1 & Y2 & Y3 & Y4 & Y5).
    cbn [tsincere] in SI. apply (nth_part_mid _ la t lb sa s1 sb X4) in SI. destruct (IH0 ltac:(assumption) s1 p1 a T SI) as (v & p' & s' & c & a1 & E & B & P & R).
    cbn [tpre]. unfold bind. rewrite (at_nth_mid (fun t s => tpre t s p1) la t lb sa s1 sb a (v, p') s' a1 X4) by exact E. unfold ret. cbn [fst snd].
    rewrite map_app, insert_at_split by (rewrite map_length; congruence).
    do 3 eexists. exists (SOr (ca ++ c :: cb) b' ch). eexists. split; [reflexivity|].
    assert (FT : Forall3 (tb U) (la ++ t :: lb) (ca ++ c :: cb) (sa ++ s' :: sb)) by (apply Forall3_app; auto; constructor; auto).
    split; [constructor; exact FT|]. split.
    + eapply pre_any_rel; eauto. apply Forall2_app; auto.
    + rewrite <- X4. now apply RyOr.
Qed.
End N.

(** Soundness of user-defined primitives in the random oracle model, for provers that choose the composition. *)
From Coq Require Import String Znumtheory.
From Verif Require Import Base World Val Expr Utils Stmt Prove Verify Spec Shapes Claims Extract Ident Alike Lib Tree Sound Sound2 Sound3 Sound4 IdProofs2 IdProofs3
  Frame Wrong Second Fork History Custom CustomProofs Mixed MixedOr Nested NestedSound Oracle Forking OracleProofs OracleTree OracleTreeProofs
  Chosen ChosenProofs ChosenTree.
Open Scope Z_scope.
Open Scope list_scope.

Section C.
Context {W : World}.

Lemma alike_tvalid f g e e' t t' s s' v v' r r' : pts s = pts s' -> alike f g s s' ->
  vmatch s v -> vmatch s' v' -> coh e (svars s) -> coh e' (svars s') -> tpre_validation e t s v r = Ok tt -> tpre_validation e' t' s' v' r' = Ok tt ->
  tpre_validation e t s v r' = Ok tt /\ forall c r, recompute s' c r = recompute s c r.
Proof.
  intros I A M M' C C' V V'. unfold tpre_validation in *.
  apply rbind_ok in V as ([] & Vs & V). apply rbind_ok in V as ([o|] & Vc & V); [|discriminate].
  apply rbind_ok in V' as (u' & Vs' & V'). apply rbind_ok in V' as ([o'|] & Vc' & V'); [|discriminate].
  assert (R := consistent_ready _ _ _ _ _ _ M Vc). assert (R' := consistent_ready _ _ _ _ _ _ M' Vc').
  assert (B := match_built _ _ M R). assert (B' := match_built _ _ M' R').
  assert (Sm := alike_core f g s s' A I B B').
  split; [|intros c0 r0; rewrite <- (core_recompute s' B'), <- (core_recompute s B); symmetry; now apply (Sim_recompute f g)].
  rewrite Vs. cbn [rbind]. rewrite (vready_full _ _ M R). rewrite (vready_full _ _ M' R') in Vc'.
  rewrite <- (core_consistent e s B). rewrite <- (core_consistent e' s' B') in Vc'.
  assert (Q := consistent_rel f g e e' (svars s) (svars s') (core s) C C' (core s') r' [] [] Sm).
  rewrite (core_svars s B), (core_svars s' B') in Q. specialize (Q (incl_refl _) (incl_refl _) (Forall2_nil _)).
  rewrite Vc' in Q. destruct (consistent e (core s) (fverifier (core s)) r' []) as [[d|]|]; cbn in Q; try contradiction. reflexivity.
Qed.
Lemma asks_tcgame a adv Q : asks Q adv -> asks (Q + 2) (tcgame a adv).
Proof.
  intros H. apply asks_pbind; auto. intros [[t z] msg]. cbn [fst snd]. replace 2%nat with (2 + 0)%nat by lia.
  apply asks_pbind; [intros; exact I|apply asks_tverify].
Qed.
Definition TDc (ok : mtree -> nizk -> bool) (a : st) (r : bool * (mtree * nizk * bytes)) : option bytes :=
  match r with (acc, (t, z, msg)) => if acc && ok t z then tdecisive t a z msg else None end.
Lemma tcgame_inv a adv m y acc t z msg m' : sample (tcgame a adv) m y = Some ((acc, (t, z, msg)), m') -> acc = true ->
  exists m1 v s1 a1 h com i x, sample adv m y = Some ((t, z, msg), m1) /\
    tprocessed t (n_pre z) a = Ok ((v, s1), a1) /\ prehash_input s1 = Ok h /\
    tpre_validation (env a1) t s1 v (n_resp z) = Ok tt /\ recompute s1 (n_chal z) (n_resp z) = Ok com /\
    fs_input h [n_pre z; com] msg = Ok i /\ look m' i = Some x /\ n_chal z = be_int x /\ tdecisive t a z msg = Some i.
Proof.
  intros H ->. apply sample_pbind in H as ([[t0 z0] msg0] & m1 & t1 & t2 & -> & S1 & H). cbn [fst snd] in H.
  apply sample_pbind in H as (r & m2 & t3 & t4 & -> & S2 & H). cbn [sample] in H. injection H as Ac <- <- <- <-.
  destruct (tverify_ro_inv _ _ _ _ _ _ _ _ S2 Ac) as (v & s1 & a1 & h & com & i & x & P & Ph & V & Rc & Fi & L & E).
  exists m1, v, s1, a1, h, com, i, x. split; [now apply sample_more|].
  repeat (split; [assumption|]). unfold tdecisive. now rewrite P, Ph, Rc, Fi.
Qed.

Lemma tchosen_fork ok a adv A qs K Q : readable -> (forall g, distinguished g) ->
  (forall t z, ok t z = true -> framed (n_pre z)) -> (forall t z v s a1, reached (ok t) t a z v s a1 -> coh (env a1) (svars s)) ->
  asks Q adv -> spread A qs K -> 0 <= K ->
  Z.of_nat (Q + 2) * K * len A ^ Z.of_nat (Q + 2) < len A * count (tcwon ok a adv) (tapes A (Q + 2)) ->
  exists t t' z z' v v' s s' a1 a1' com f g, ttwo_choices ok a adv A (Q + 2) t t' z z' /\ reached (ok t) t a z v s a1 /\ reached (ok t') t' a z' v' s' a1' /\
    alike f g s s' /\ (forall q, In q qs -> ~ (q | n_chal z - n_chal z')) /\
    tverify_resp (env a1) t s v com (n_chal z) (n_resp z) = Ok true /\ tverify_resp (env a1) t s v com (n_chal z') (n_resp z') = Ok true.
Proof.
  intros [Ro Ri] Di Fr Co As Sp HK Lt.
  destruct (forking (TDc ok a) (apart qs) A K (tcgame a adv) Sp HK (Q + 2) [] (Q + 2)) as [F|C]; auto.
  - now apply asks_tcgame.
  - intros y [acc [[t z] msg]] m' b S Db. unfold TDc in Db. destruct acc; [|discriminate]. destruct (ok t z); [|discriminate].
    destruct (tcgame_inv _ _ _ _ _ _ _ _ _ S eq_refl) as (m1 & v & s1 & a1 & h & com & i & x & _ & _ & _ & _ & _ & _ & L & _ & Dd).
    cbn [andb] in Db. rewrite Dd in Db. injection Db as <-. congruence.
  - destruct F as (u & y & y' & x & x' & b & [acc [[t z] msg]] & [acc' [[t' z'] msg']] & m1 & m2 & I1 & I2 & Ap & S1 & S2 & D1 & D2 & L1 & L2).
    unfold TDc in D1, D2.
    destruct acc; [|discriminate]. destruct acc'; [|discriminate]. destruct (ok t z) eqn:Oz; [|discriminate]. destruct (ok t' z') eqn:Oz'; [|discriminate].
    cbn [andb] in D1, D2.
    assert (W1 : tcwon ok a adv (u ++ y :: x) = true) by (unfold tcwon; rewrite S1; now rewrite Oz).
    assert (W2 : tcwon ok a adv (u ++ y' :: x') = true) by (unfold tcwon; rewrite S2; now rewrite Oz').
    destruct (tcgame_inv _ _ _ _ _ _ _ _ _ S1 eq_refl) as (n1 & v & s & a1 & h & com & i & c & A1 & P & Ph & V & Rc & Fi & L & E & Dd).
    destruct (tcgame_inv _ _ _ _ _ _ _ _ _ S2 eq_refl) as (n2 & v' & s' & a1' & h' & com' & i' & c' & A2 & P' & Ph' & V' & Rc' & Fi' & L' & E' & Dd').
    rewrite Dd in D1. injection D1 as ->. rewrite Dd' in D2. injection D2 as ->.
    rewrite L1 in L. injection L as <-. rewrite L2 in L'. injection L' as <-.
    destruct (input_frame _ _ _ _ _ _ _ _ _ _ _ Ph Ph' (Fr _ _ Oz) (Fr _ _ Oz') (recompute_framed _ _ _ _ Rc) (recompute_framed _ _ _ _ Rc') Fi Fi')
      as (<- & _ & Ac & <-).
    assert (PP := tprocessed_tproc _ _ _ _ _ _ _ _ _ P Ph V). assert (PP' := tprocessed_tproc _ _ _ _ _ _ _ _ _ P' Ph' V').
    destruct (same_prehash s s' h Ro Ph Ph') as (f & g & Al).
    assert (R : reached (ok t) t a z v s a1).
    { split; [auto|]. split; [auto|]. split; [eauto|]. unfold tpre_validation in V. destruct (tvalid t s) as [[]|]; [reflexivity|discriminate]. }
    assert (R' : reached (ok t') t' a z' v' s' a1').
    { split; [auto|]. split; [auto|]. split; [eauto|]. unfold tpre_validation in V'. destruct (tvalid t' s') as [[]|]; [reflexivity|discriminate]. }
    destruct (alike_tvalid f g (env a1) (env a1') t t' s s' v v' (n_resp z) (n_resp z') (alike_pts f g s Ri s' Al) Al) as [V2 Re]; eauto.
    { eapply tr_match, tproc_tr; eauto. } { eapply tr_match, tproc_tr; eauto. }
    rewrite Re in Rc'. assert (Ec := recompute_alike s Di _ _ _ _ _ _ Rc Rc' Ac). subst com'.
    exists t, t', z, z', v, v', s, s', a1, a1', com, f, g.
    split; [exists (u ++ y :: x), (u ++ y' :: x'), msg, n1, n2; repeat (split; [assumption|]); assumption|].
    split; [exact R|]. split; [exact R'|]. split; [exact Al|].
    split; [intros q Iq; rewrite E, E'; eapply apart_in; eauto|].
    split; unfold tverify_resp; [rewrite V|rewrite V2]; cbn [rbind]; [rewrite Rc|rewrite Rc']; cbn [rbind]; now rewrite val_eqb_refl.
  - exfalso. assert (X : count (tcwon ok a adv) (tapes A (Q + 2)) <= count (new (TDc ok a) (tcgame a adv) []) (tapes A (Q + 2))).
    { apply count_mono. intros y _. unfold tcwon, new. destruct (sample (tcgame a adv) [] y) as [[[acc [[t z] msg]] m]|] eqn:S; [|discriminate].
      intros H. apply andb_true_iff in H as [-> Oz]. destruct (tcgame_inv _ _ _ _ _ _ _ _ _ S eq_refl) as
        (m1 & v & s1 & a1 & h & com & i & x & _ & _ & _ & _ & _ & _ & _ & _ & Dd).
      unfold TDc. rewrite Oz. cbn [andb]. now rewrite Dd. }
    assert (0 <= len A) by (unfold len; lia). nia.
Qed.

Theorem tchosen_extract ok a adv A qs K Q : readable -> (forall g, distinguished g) -> tusual ok qs a ->
  (forall t z v s a1, reached (ok t) t a z v s a1 -> noor s) ->
  asks Q adv -> spread A qs K -> 0 <= K ->
  Z.of_nat (Q + 2) * K * len A ^ Z.of_nat (Q + 2) < len A * count (tcwon ok a adv) (tapes A (Q + 2)) ->
  exists t t' z z' v s a1 w, ttwo_choices ok a adv A (Q + 2) t t' z z' /\ reached (ok t) t a z v s a1 /\
    Extr w s (n_chal z) (n_chal z') (n_resp z) (n_resp z') /\ tholds w t (n_pre z) s (n_chal z) (n_chal z') (n_resp z) (n_resp z').
Proof.
  intros Rd Di Us No As Sp HK Lt.
  destruct (tchosen_fork ok a adv A qs K Q Rd Di (fun t z O => proj2 (Us t) z O) (fun t z v s a1 R => proj1 (proj2 (proj1 (Us t) z v s a1 R))) As Sp HK Lt) as
    (t & t' & z & z' & v & v' & s & s' & a1 & a1' & com & f & g & TR & O1 & O2 & Al & Ap & V & V').
  destruct (proj1 (Us t) _ _ _ _ O1) as (Wf & C & O). assert (P := proj1 (proj2 O1)).
  destruct (nested_bounds t (n_pre z) a v s a1 (env a1) com (n_chal z) (n_chal z') (n_resp z) (n_resp z') P Wf C) as (w & Ex & St); auto.
  - eapply orders_impl; [|exact O]. intros q [Q1 Q2]. auto.
  - left. eauto.
  - exists t, t', z, z', v, s, a1, w. auto.
Qed.
Theorem tchosen_false ok a adv A qs K Q : readable -> (forall g, distinguished g) -> tusual ok qs a ->
  (forall t z v s a1, reached (ok t) t a z v s a1 -> noor s /\ forall w c c' r r', tholds w t (n_pre z) s c c' r r' -> ~ Sat w s) ->
  asks Q adv -> spread A qs K -> 0 <= K ->
  len A * count (tcwon ok a adv) (tapes A (Q + 2)) <= Z.of_nat (Q + 2) * K * len A ^ Z.of_nat (Q + 2).
Proof.
  intros Rd Di Us No As Sp HK. apply Z.nlt_ge. intros Lt.
  destruct (tchosen_extract ok a adv A qs K Q Rd Di Us (fun t z v s a1 O => proj1 (No t z v s a1 O)) As Sp HK Lt) as (t & t' & z & z' & v & s & a1 & w & _ & O1 & Ex & St).
  exact (proj2 (No _ _ _ _ _ O1) _ _ _ _ _ St (Extr_Sat _ _ _ _ _ _ Ex)).
Qed.
Theorem tchosen_extract_or ok a adv A qs K Q : readable -> (forall g, distinguished g) -> tusual ok qs a -> (forall q, In q qs -> 2 ^ 129 <= q) ->
  (forall t z v s a1, reached (ok t) t a z v s a1 -> canonical s (n_resp z)) ->
  asks Q adv -> spread A (2 ^ 128 :: qs) K -> 0 <= K ->
  Z.of_nat (Q + 2) * K * len A ^ Z.of_nat (Q + 2) < len A * count (tcwon ok a adv) (tapes A (Q + 2)) ->
  exists t t' z z' v s a1 w, ttwo_choices ok a adv A (Q + 2) t t' z z' /\ reached (ok t) t a z v s a1 /\
    Extr w s (n_chal z) (n_chal z') (n_resp z) (n_resp z') /\ tholds w t (n_pre z) s (n_chal z) (n_chal z') (n_resp z) (n_resp z').
Proof.
  intros Rd Di Us Big Ca As Sp HK Lt.
  destruct (tchosen_fork ok a adv A (2 ^ 128 :: qs) K Q Rd Di (fun t z O => proj2 (Us t) z O) (fun t z v s a1 R => proj1 (proj2 (proj1 (Us t) z v s a1 R))) As Sp HK Lt) as
    (t & t' & z & z' & v & v' & s & s' & a1 & a1' & com & f & g & TR & O1 & O2 & Al & Ap & V & V').
  destruct (proj1 (Us t) _ _ _ _ O1) as (Wf & C & O). assert (P := proj1 (proj2 O1)).
  destruct (nested_sound t (n_pre z) a v s a1 (env a1) com (n_chal z) (n_chal z') (n_resp z) (n_resp z') P Wf C) as (w & Ex & St); auto.
  - eapply orders_impl; [|exact O]. intros q [Q1 Q2]. split; auto. split; [apply Ap; now right|now apply Big].
  - eapply Ca; eauto.
  - eapply (alike_canonical g f s'); [now apply alike_sym|]. eapply Ca; eauto.
  - apply Ap. now left.
  - exists t, t', z, z', v, s, a1, w. auto.
Qed.
End C.

(** Soundness in the random oracle model for provers that choose the statement. *)
From Coq Require Import String Znumtheory.
From Verif Require Import Base World Val Expr Utils Stmt Prove Verify Spec Shapes Claims Extract Ident Alike Honest Clauses Supply
  Lib DictProofs Keeps Tree Sigma Validate Commit ArithProofs Build Process Ktruth Provers Complete Sound Sound2 Sound3 Sound4
  RangeC RangeS RangeS2 Opening RangeX IdProofs2 IdProofs3 History Frame Wrong Second Fork Oracle Forking OracleProofs Bbs Chosen.
Open Scope Z_scope.
Open Scope list_scope.

Section C.
Context {W : World}.

(** A statement without the wrappings of its primitives *)
Fixpoint core (s : stmt) : stmt :=
  match s with
  | SDL d => SDL d
  | SAnd l b => SAnd (map core l) b
  | SOr l b c => SOr (map core l) b c
  | SExt _ _ _ (Some c) => core c
  | SExt k b p None => SExt k b p None
  end.
Lemma core_svars s : built s -> svars (core s) = svars s.
Proof.
  induction s as [d|subs b IH|subs b ch IH|k b q|k b q con IH] using stmt_ind'; intros B; inversion B; subst; auto; cbn [core svars].
  - f_equal. rewrite map_map. apply map_ext_in. intros x I. rewrite Forall_forall in *. auto.
  - f_equal. rewrite map_map. apply map_ext_in. intros x I. rewrite Forall_forall in *. auto.
Qed.
Lemma core_consistent e s : built s -> forall r d, consistent e (core s) (fverifier (core s)) r d = consistent e s (fverifier s) r d.
Proof.
  induction s as [d0|subs b IH|subs b ch IH|k b q|k b q con IH] using stmt_ind'; intros B r d; inversion B as [|? ? F|? ? ? F|]; subst; auto.
  - cbn [core fverifier]. rewrite !consistent_and. clear B. generalize 0%nat as i. revert d.
    induction subs as [|x l IHl]; intros d i; [reflexivity|]. inversion IH; inversion F; subst. cbn [map cand_loop].
    destruct (index r i) as [ri|]; cbn [rbind]; auto. rewrite H1 by auto. destruct (consistent e x (fverifier x) ri d) as [[o|]|]; cbn [rbind]; auto.
  - cbn [core fverifier]. rewrite !consistent_or. clear B. generalize 0%nat as i.
    induction subs as [|x l IHl]; intros i; [reflexivity|]. inversion IH; inversion F; subst. cbn [map cor_loop].
    destruct (index r 1) as [rs|]; cbn [rbind]; auto. destruct (index rs i) as [ri|]; cbn [rbind]; auto.
    rewrite H1 by auto. destruct (consistent e x (fverifier x) ri []) as [[o|]|]; cbn [rbind]; auto.
  - cbn [core fverifier consistent]. auto.
Qed.
Lemma core_F2 (P : stmt -> stmt -> Prop) l : Forall (fun s => P (core s) s) l -> Forall2 P (map core l) l.
Proof. induction 1; constructor; auto. Qed.
Lemma core_recompute s : built s -> forall c r, recompute (core s) c r = recompute s c r.
Proof.
  induction s as [d0|subs b IH|subs b ch IH|k b q|k b q con IH] using stmt_ind'; intros B c r; inversion B as [|? ? F|? ? ? F|]; subst; auto; cbn [core recompute].
  - f_equal. apply rimap_F2, core_F2. rewrite Forall_forall in *. intros x I i. destruct (index r i); cbn [rbind]; auto.
  - destruct (index r 0) as [ch0|]; cbn [rbind]; auto. destruct (index r 1) as [rs|]; cbn [rbind]; auto.
    destruct (chal_list ch0) as [cs|]; cbn [rbind]; auto. destruct (_ =? 0); auto.
    f_equal. apply rimap_F2, core_F2. rewrite Forall_forall in *. intros x I i.
    destruct (index ch0 i) as [ci|]; cbn [rbind]; auto. destruct (as_int ci); cbn [rbind]; auto. destruct (index rs i); cbn [rbind]; auto.
  - auto.
Qed.
(** All points of a statement *)
Fixpoint pts (s : stmt) : list pt :=
  match s with
  | SDL d => dl_lhs d :: dl_bases d
  | SAnd l _ | SOr l _ _ => List.concat (map pts l)
  | SExt _ _ _ (Some c) => pts c
  | SExt _ _ _ None => []
  end.
Lemma app_cut {A} (a : list A) : forall b c d, a ++ b = c ++ d -> List.length a = List.length c -> a = c /\ b = d.
Proof. induction a as [|x a IH]; intros b [|y c] d E L; try discriminate L; [auto|]. cbn in E. injection E as -> E. injection L as L. destruct (IH _ _ _ E L). subst. auto. Qed.
Lemma F2_len {A B} (R : A -> B -> Prop) l m : Forall2 R l m -> List.length l = List.length m.
Proof. induction 1; cbn; auto. Qed.
Lemma alike_pts_len f g s : forall s', alike f g s s' -> List.length (pts s) = List.length (pts s').
Proof.
  induction s as [d|subs b IH|subs b ch IH|k b q|k b q con IH] using stmt_ind'; intros s' H; inversion H as [? ? _ F _|? ? ? ? F|? ? ? ? ? ? F|]; subst; cbn [pts].
  - cbn [List.length]. f_equal. eapply F2_len; eauto.
  - clear H. induction F; [reflexivity|]. inversion IH; subst. cbn [map List.concat]. rewrite !app_length. f_equal; auto.
  - clear H. induction F; [reflexivity|]. inversion IH; subst. cbn [map List.concat]. rewrite !app_length. f_equal; auto.
  - auto.
Qed.
Lemma alike_pts f g s : (forall p q : pt, repr_pt p = repr_pt q -> p = q) -> forall s', alike f g s s' -> pts s = pts s'.
Proof.
  intros I. induction s as [d|subs b IH|subs b ch IH|k b q|k b q con IH] using stmt_ind'; intros s' H; inversion H as [? ? E F _|? ? ? ? F|? ? ? ? ? ? F|]; subst; cbn [pts].
  - f_equal; [now apply I|now apply F2_alike].
  - clear H. induction F; [reflexivity|]. inversion IH; subst. cbn [map List.concat]. f_equal; auto.
  - clear H. induction F; [reflexivity|]. inversion IH; subst. cbn [map List.concat]. f_equal; auto.
  - auto.
Qed.
Lemma alike_core f g s : forall s', alike f g s s' -> pts s = pts s' -> built s -> built s' -> Sim f g (core s) (core s').
Proof.
  assert (G : forall l, Forall (fun s => forall s', alike f g s s' -> pts s = pts s' -> built s -> built s' -> Sim f g (core s) (core s')) l ->
    forall l', Forall2 (alike f g) l l' -> List.concat (map pts l) = List.concat (map pts l') -> Forall built l -> Forall built l' -> Forall2 (Sim f g) (map core l) (map core l')).
  { intros l IH l' F. induction F as [|x y l l' A F IHF]; intros E B B'; [constructor|]. inversion IH; inversion B; inversion B'; subst.
    cbn [map List.concat] in *. apply app_cut in E as [E1 E2]; [|eapply alike_pts_len; eauto]. constructor; auto. }
  induction s as [d|subs b IH|subs b ch IH|k b q|k b q con IH] using stmt_ind'; intros s' H P B B'; inversion H; subst;
    inversion B; inversion B'; subst; cbn [core pts] in *.
  - injection P as P1 P2. constructor; auto.
  - constructor. now apply G.
  - constructor. now apply G.
  - auto.
Qed.
Lemma alike_valid f g e e' s s' v v' r r' : pts s = pts s' -> alike f g s s' ->
  vmatch s v -> vmatch s' v' -> coh e (svars s) -> coh e' (svars s') -> pre_validation e s v r = Ok tt -> pre_validation e' s' v' r' = Ok tt ->
  pre_validation e s v r' = Ok tt /\ forall c r, recompute s' c r = recompute s c r.
Proof.
  intros I A M M' C C' V V'. unfold pre_validation in *.
  apply rbind_ok in V as ([] & Vs & V). apply rbind_ok in V as ([o|] & Vc & V); [|discriminate].
  apply rbind_ok in V' as (u' & Vs' & V'). apply rbind_ok in V' as ([o'|] & Vc' & V'); [|discriminate].
  assert (R := consistent_ready _ _ _ _ _ _ M Vc). assert (R' := consistent_ready _ _ _ _ _ _ M' Vc').
  assert (B := match_built _ _ M R). assert (B' := match_built _ _ M' R').
  assert (Sm := alike_core f g s s' A I B B').
  split; [|intros c0 r0; rewrite <- (core_recompute s' B'), <- (core_recompute s B); symmetry; now apply (Sim_recompute f g)].
  rewrite Vs. cbn [rbind]. rewrite (vready_full _ _ M R). rewrite (vready_full _ _ M' R') in Vc'.
  rewrite <- (core_consistent e s B). rewrite <- (core_consistent e' s' B') in Vc'.
  assert (Q := consistent_rel f g e e' (svars s) (svars s') (core s) C C' (core s') r' [] [] Sm).
  rewrite (core_svars s B), (core_svars s' B') in Q. specialize (Q (incl_refl _) (incl_refl _) (Forall2_nil _)).
  rewrite Vc' in Q. destruct (consistent e (core s) (fverifier (core s)) r' []) as [[d|]|]; cbn in Q; try contradiction. reflexivity.
Qed.

Lemma alike_canonical f g s : forall s' r, alike f g s s' -> canonical s r -> canonical s' r.
Proof.
  assert (N : forall l l' i s', Forall2 (alike f g) l l' -> nth_error l' i = Some s' -> exists s, nth_error l i = Some s /\ alike f g s s').
  { intros l l' i s' F. revert i. induction F as [|x y l l' A F IH]; intros [|i] E; try discriminate; cbn in *; [injection E as <-; eauto|eauto]. }
  induction s as [d|subs b IH|subs b ch IH|k b q|k b q con IH] using stmt_ind'; intros s' r A C; inversion A; subst; inversion C; subst.
  - constructor.
  - constructor. intros i s' ri Ni Ir. match goal with X : Forall2 _ _ _ |- _ => destruct (N _ _ _ _ X Ni) as (s & Ns & As) end.
    rewrite Forall_forall in IH. eapply IH; eauto. eapply nth_error_In; eauto.
  - econstructor; [eassumption| |assumption|].
    + match goal with X : Forall2 _ _ _, Y : List.length _ = List.length _ |- _ => rewrite Y; clear - X; induction X; cbn; auto end.
    + intros i s' ri Ni Ir. match goal with X : Forall2 _ _ _ |- _ => destruct (N _ _ _ _ X Ni) as (s & Ns & As) end.
      rewrite Forall_forall in IH. eapply IH; eauto. eapply nth_error_In; eauto.
  - constructor. auto.
Qed.

(** ** Forking the prover *)
Lemma asks_cgame a adv Q : asks Q adv -> asks (Q + 2) (cgame a adv).
Proof.
  intros H. apply asks_pbind; auto. intros x. change 2%nat with (2 + 0)%nat. apply asks_pbind; [intros; exact Logic.I|apply asks_verify].
Qed.
Definition Dc (ok : stmt -> nizk -> bool) (a : st) (r : bool * (stmt * nizk * bytes)) : option bytes :=
  let '(acc, (s, z, msg)) := r in if acc && ok s z then decisive s a z msg else None.
Lemma cgame_inv a adv m t acc s z msg m' : sample (cgame a adv) m t = Some ((acc, (s, z, msg)), m') -> acc = true ->
  exists m1 v s1 a1 h com i y, sample adv m t = Some ((s, z, msg), m1) /\
    processed s (n_pre z) a = Ok ((v, s1), a1) /\ prehash_input s1 = Ok h /\
    pre_validation (env a1) s1 v (n_resp z) = Ok tt /\ recompute s1 (n_chal z) (n_resp z) = Ok com /\
    fs_input h [n_pre z; com] msg = Ok i /\ look m' i = Some y /\ n_chal z = be_int y /\ decisive s a z msg = Some i.
Proof.
  intros H ->. apply sample_pbind in H as ([[s0 z0] msg0] & m1 & t1 & t2 & -> & S1 & H). cbn [fst snd] in H.
  apply sample_pbind in H as (r & m2 & t3 & t4 & -> & S2 & H). cbn [sample] in H. injection H as Ac <- <- <- <-.
  destruct (verify_ro_inv _ _ _ _ _ _ _ _ S2 Ac) as (v & s1 & a1 & h & com & i & y & P & Ph & V & Rc & Fi & L & E).
  exists m1, v, s1, a1, h, com, i, y. split; [now apply sample_more|].
  repeat (split; [assumption|]). unfold decisive. now rewrite P, Ph, Rc, Fi.
Qed.

Lemma usual_tidy qs a s0 z : usual qs a s0 z -> tidy a s0 z.
Proof. intros (F & _ & S). split; auto. intros v s a1 P. apply (S v s a1 P). Qed.
Lemma chosen_fork_pts ok a adv A qs K Q : repr_ok -> (forall g, distinguished g) -> (forall s z, ok s z = true -> tidy a s z) ->
  (forall s0 s0' z z' v v' s s' a1 a1' f g, ok s0 z = true -> ok s0' z' = true -> wire_alike (n_pre z) (n_pre z') ->
     process_pre s0 (get_verifier s0) (n_pre z) a = Ok ((v, s), a1) -> process_pre s0' (get_verifier s0') (n_pre z') a = Ok ((v', s'), a1') ->
     alike f g s s' -> pts s = pts s') ->
  asks Q adv -> spread A qs K -> 0 <= K ->
  Z.of_nat (Q + 2) * K * len A ^ Z.of_nat (Q + 2) < len A * count (cwon ok a adv) (tapes A (Q + 2)) ->
  exists s0 s0' z z' v v' s s' a1 a1' com f g, two_choices ok a adv A (Q + 2) s0 s0' z z' /\
    (exists y y', n_chal z = be_int y /\ n_chal z' = be_int y' /\ apart qs y y' = true) /\
    process_pre s0 (get_verifier s0) (n_pre z) a = Ok ((v, s), a1) /\ process_pre s0' (get_verifier s0') (n_pre z') a = Ok ((v', s'), a1') /\
    alike f g s s' /\
    verify_resp (env a1) s v com (n_chal z) (n_resp z) = Ok true /\ verify_resp (env a1) s v com (n_chal z') (n_resp z') = Ok true.
Proof.
  intros Ro Di Us Pt As Sp HK Lt.
  destruct (forking (Dc ok a) (apart qs) A K (cgame a adv) Sp HK (Q + 2) [] (Q + 2)) as [F|C]; auto.
  - now apply asks_cgame.
  - intros t [acc [[s z] msg]] m' b S Db. unfold Dc in Db. destruct acc; [|discriminate]. destruct (ok s z); [|discriminate].
    destruct (cgame_inv _ _ _ _ _ _ _ _ _ S eq_refl) as (m1 & v & s1 & a1 & h & com & i & y & _ & _ & _ & _ & _ & _ & L & _ & Dd).
    cbn [andb] in Db. rewrite Dd in Db. injection Db as <-. congruence.
  - destruct F as (u & y & y' & x & x' & b & [acc [[s0 z] msg]] & [acc' [[s0' z'] msg']] & m1 & m2 & I1 & I2 & Ap & S1 & S2 & D1 & D2 & L1 & L2).
    unfold Dc in D1, D2.
    destruct acc; [|discriminate]. destruct acc'; [|discriminate]. destruct (ok s0 z) eqn:Oz; [|discriminate]. destruct (ok s0' z') eqn:Oz'; [|discriminate].
    cbn [andb] in D1, D2.
    assert (W1 : cwon ok a adv (u ++ y :: x) = true) by (unfold cwon; rewrite S1; now rewrite Oz).
    assert (W2 : cwon ok a adv (u ++ y' :: x') = true) by (unfold cwon; rewrite S2; now rewrite Oz').
    destruct (cgame_inv _ _ _ _ _ _ _ _ _ S1 eq_refl) as (n1 & v & s & a1 & h & com & i & c & A1 & P & Ph & V & Rc & Fi & L & E & Dd).
    destruct (cgame_inv _ _ _ _ _ _ _ _ _ S2 eq_refl) as (n2 & v' & s' & a1' & h' & com' & i' & c' & A2 & P' & Ph' & V' & Rc' & Fi' & L' & E' & Dd').
    rewrite Dd in D1. injection D1 as ->. rewrite Dd' in D2. injection D2 as ->.
    rewrite L1 in L. injection L as <-. rewrite L2 in L'. injection L' as <-.
    destruct (Us _ _ Oz) as (Fr & Sa). destruct (Us _ _ Oz') as (Fr' & Sa').
    destruct (input_frame _ _ _ _ _ _ _ _ _ _ _ Ph Ph' Fr Fr' (recompute_framed _ _ _ _ Rc) (recompute_framed _ _ _ _ Rc') Fi Fi')
      as (<- & Aw & Ac & <-).
    assert (PP := processed_process _ _ _ _ _ _ _ _ P V). assert (PP' := processed_process _ _ _ _ _ _ _ _ P' V').
    destruct (same_prehash s s' h Ro Ph Ph') as (f & g & Al).
    destruct (alike_valid f g (env a1) (env a1') s s' v v' (n_resp z) (n_resp z') (Pt _ _ _ _ _ _ _ _ _ _ _ _ Oz Oz' Aw PP PP' Al) Al) as [V2 Re]; auto.
    { eapply processed_match; eauto. } { eapply processed_match; eauto. } { eapply Sa; eauto. } { eapply Sa'; eauto. }
    rewrite Re in Rc'. assert (Ec := recompute_alike s Di _ _ _ _ _ _ Rc Rc' Ac). subst com'.
    exists s0, s0', z, z', v, v', s, s', a1, a1', com, f, g.
    split; [exists (u ++ y :: x), (u ++ y' :: x'), msg, n1, n2; repeat (split; [assumption|]); assumption|].
    split; [exists y, y'; auto|]. repeat (split; [assumption|]).
    split; unfold verify_resp; [rewrite V|rewrite V2]; cbn [rbind]; [rewrite Rc|rewrite Rc']; cbn [rbind]; now rewrite val_eqb_refl.
  - exfalso. assert (X : count (cwon ok a adv) (tapes A (Q + 2)) <= count (new (Dc ok a) (cgame a adv) []) (tapes A (Q + 2))).
    { apply count_mono. intros t _. unfold cwon, new. destruct (sample (cgame a adv) [] t) as [[[acc [[s z] msg]] m]|] eqn:S; [|discriminate].
      intros H. apply andb_true_iff in H as [-> Oz]. destruct (cgame_inv _ _ _ _ _ _ _ _ _ S eq_refl) as
        (m1 & v & s1 & a1 & h & com & i & y & _ & _ & _ & _ & _ & _ & _ & _ & Dd).
      unfold Dc. rewrite Oz. cbn [andb]. now rewrite Dd. }
    assert (0 <= len A) by (unfold len; lia). nia.
Qed.

Lemma chosen_fork ok a adv A qs K Q : readable -> (forall g, distinguished g) -> (forall s z, ok s z = true -> tidy a s z) ->
  asks Q adv -> spread A qs K -> 0 <= K ->
  Z.of_nat (Q + 2) * K * len A ^ Z.of_nat (Q + 2) < len A * count (cwon ok a adv) (tapes A (Q + 2)) ->
  exists s0 s0' z z' v v' s s' a1 a1' com f g, two_choices ok a adv A (Q + 2) s0 s0' z z' /\
    (exists y y', n_chal z = be_int y /\ n_chal z' = be_int y' /\ apart qs y y' = true) /\
    process_pre s0 (get_verifier s0) (n_pre z) a = Ok ((v, s), a1) /\ process_pre s0' (get_verifier s0') (n_pre z') a = Ok ((v', s'), a1') /\
    alike f g s s' /\
    verify_resp (env a1) s v com (n_chal z) (n_resp z) = Ok true /\ verify_resp (env a1) s v com (n_chal z') (n_resp z') = Ok true.
Proof.
  intros [Ro Ri] Di Us As Sp HK Lt. apply (chosen_fork_pts ok a adv A qs K Q); auto. intros s0 s0' z z' v v' s s' a1 a1' f g _ _ _ _ _ Al. now apply (alike_pts f g).
Qed.

Theorem chosen_extract ok a adv A qs K Q : readable -> (forall g, distinguished g) -> (forall s z, ok s z = true -> usual qs a s z) ->
  (forall s0 z v s a1, ok s0 z = true -> process_pre s0 (get_verifier s0) (n_pre z) a = Ok ((v, s), a1) -> noor s) ->
  asks Q adv -> spread A qs K -> 0 <= K ->
  Z.of_nat (Q + 2) * K * len A ^ Z.of_nat (Q + 2) < len A * count (cwon ok a adv) (tapes A (Q + 2)) ->
  exists s0 s0' z z' v v' s s' a1 a1' f g w, two_choices ok a adv A (Q + 2) s0 s0' z z' /\
    process_pre s0 (get_verifier s0) (n_pre z) a = Ok ((v, s), a1) /\ process_pre s0' (get_verifier s0') (n_pre z') a = Ok ((v', s'), a1') /\
    alike f g s s' /\ Extr w s (n_chal z) (n_chal z') (n_resp z) (n_resp z') /\ Sat w s /\ Sat (fun q n => w q (g n)) s'.
Proof.
  intros Rd Di Us No As Sp HK Lt.
  destruct (chosen_fork ok a adv A qs K Q Rd Di (fun s z O => usual_tidy _ _ _ _ (Us s z O)) As Sp HK Lt) as
    (s0 & s0' & z & z' & v & v' & s & s' & a1 & a1' & com & f & g & T & (y & y' & E & E' & Ap) & P & P' & Al & V & V').
  assert (T' := T). destruct T' as (_ & _ & _ & _ & _ & _ & _ & _ & _ & _ & _ & Oz & _).
  destruct (Us _ _ Oz) as (_ & Wf & Sa). destruct (Sa _ _ _ P) as [C O].
  destruct (soundness s0 (n_pre z) a v s a1 (env a1) com (n_chal z) (n_chal z') (n_resp z) (n_resp z') P Wf C (No _ _ _ _ _ Oz P)) as (w & Ex & St); auto.
  - eapply orders_impl; [|exact O]. intros q [Q1 Q2]. split; auto. rewrite E, E'. eapply apart_in; eauto.
  - exists s0, s0', z, z', v, v', s, s', a1, a1', f, g, w. repeat (split; [assumption|]).
    eapply alike_Sat; eauto. apply Rd.
Qed.
Theorem chosen_false ok a adv A qs K Q : readable -> (forall g, distinguished g) -> (forall s z, ok s z = true -> usual qs a s z) ->
  (forall s0 z v s a1, ok s0 z = true -> process_pre s0 (get_verifier s0) (n_pre z) a = Ok ((v, s), a1) -> noor s /\ forall w, ~ Sat w s) ->
  asks Q adv -> spread A qs K -> 0 <= K ->
  len A * count (cwon ok a adv) (tapes A (Q + 2)) <= Z.of_nat (Q + 2) * K * len A ^ Z.of_nat (Q + 2).
Proof.
  intros Rd Di Us No As Sp HK. apply Z.nlt_ge. intros Lt.
  destruct (chosen_extract ok a adv A qs K Q Rd Di Us (fun s0 z v s a1 O H => proj1 (No s0 z v s a1 O H)) As Sp HK Lt) as
    (s0 & s0' & z & z' & v & v' & s & s' & a1 & a1' & f & g & w & (_ & _ & _ & _ & _ & _ & _ & _ & _ & _ & _ & Oz & _) & P & _ & _ & _ & St & _).
  exact (proj2 (No _ _ _ _ _ Oz P) w St).
Qed.
Theorem chosen_sha ok a adv q Q : readable -> (forall g, distinguished g) -> (forall s z, ok s z = true -> usual [q] a s z) -> 1 < q ->
  (forall s0 z v s a1, ok s0 z = true -> process_pre s0 (get_verifier s0) (n_pre z) a = Ok ((v, s), a1) -> noor s /\ forall w, ~ Sat w s) ->
  asks Q adv ->
  2 ^ 256 * count (cwon ok a adv) (tapes digests (Q + 2)) <= Z.of_nat (Q + 2) * (2 ^ 256 / q + 1) * (2 ^ 256) ^ Z.of_nat (Q + 2).
Proof.
  intros Rd Di Us Hq No As. assert (E : len digests = 2 ^ 256).
  { unfold digests. rewrite strings_len. change (Z.of_nat 32) with 32. change 256 with (2 ^ 8) at 1. rewrite <- Z.pow_mul_r by lia. reflexivity. }
  assert (P : 256 ^ Z.of_nat 32 = 2 ^ 256) by reflexivity.
  assert (X := chosen_false ok a adv digests [q] (256 ^ Z.of_nat 32 / q + 1) Q Rd Di Us No As (spread_digests 32 q Hq)).
  rewrite E, P in X. apply X. assert (0 <= 2 ^ 256 / q) by (apply Z.div_pos; [apply Z.pow_nonneg|]; lia). lia.
Qed.
Theorem chosen_extract_or ok a adv A qs K Q : readable -> (forall g, distinguished g) -> (forall s z, ok s z = true -> usual qs a s z) ->
  (forall q, In q qs -> 2 ^ 129 <= q) ->
  (forall s0 z v s a1, ok s0 z = true -> process_pre s0 (get_verifier s0) (n_pre z) a = Ok ((v, s), a1) -> canonical s (n_resp z)) ->
  asks Q adv -> spread A (2 ^ 128 :: qs) K -> 0 <= K ->
  Z.of_nat (Q + 2) * K * len A ^ Z.of_nat (Q + 2) < len A * count (cwon ok a adv) (tapes A (Q + 2)) ->
  exists s0 s0' z z' v v' s s' a1 a1' f g w, two_choices ok a adv A (Q + 2) s0 s0' z z' /\
    process_pre s0 (get_verifier s0) (n_pre z) a = Ok ((v, s), a1) /\ process_pre s0' (get_verifier s0') (n_pre z') a = Ok ((v', s'), a1') /\
    alike f g s s' /\ Extr w s (n_chal z) (n_chal z') (n_resp z) (n_resp z') /\ Sat w s /\ Sat (fun q n => w q (g n)) s'.
Proof.
  intros Rd Di Us Big Ca As Sp HK Lt.
  destruct (chosen_fork ok a adv A (2 ^ 128 :: qs) K Q Rd Di (fun s z O => usual_tidy _ _ _ _ (Us s z O)) As Sp HK Lt) as
    (s0 & s0' & z & z' & v & v' & s & s' & a1 & a1' & com & f & g & T & (y & y' & E & E' & Ap) & P & P' & Al & V & V').
  assert (T' := T). destruct T' as (_ & _ & _ & _ & _ & _ & _ & _ & _ & _ & _ & Oz & Oz').
  destruct (Us _ _ Oz) as (_ & Wf & Sa). destruct (Sa _ _ _ P) as [C O].
  destruct (or_soundness s0 (n_pre z) a v s a1 (env a1) com (n_chal z) (n_chal z') (n_resp z) (n_resp z') P Wf C) as (w & Ex & St); auto.
  - eapply orders_impl; [|exact O]. intros q [Q1 Q2]. split; auto. split; [|now apply Big]. rewrite E, E'. eapply apart_in; eauto. now right.
  - eapply Ca; eauto.
  - eapply (alike_canonical g f s'); [now apply alike_sym|]. eapply Ca; eauto.
  - rewrite E, E'. eapply apart_in; eauto. now left.
  - exists s0, s0', z, z', v, v', s, s', a1, a1', f, g, w. repeat (split; [assumption|]).
    eapply alike_Sat; eauto. apply Rd.
Qed.
Theorem chosen_inequality ok a adv A q K Q : readable -> (forall g, distinguished g) -> prime q ->
  (forall s0 z, ok s0 z = true -> tidy a s0 z /\ exists H0 g H1 h x al be bnd sim, s0 = mk_neq H0 g H1 h x al be bnd sim /\
     order (grp g) = q /\ grp h = grp g /\ g <> inf (grp g) /\ forall y, H0 = pmul y g -> H1 = pmul y h) ->
  asks Q adv -> spread A [q] K -> 0 <= K ->
  len A * count (cwon ok a adv) (tapes A (Q + 2)) <= Z.of_nat (Q + 2) * K * len A ^ Z.of_nat (Q + 2).
Proof.
  intros Rd Di Pq Us As Sp HK. apply Z.nlt_ge. intros Lt.
  destruct (chosen_fork ok a adv A [q] K Q Rd Di (fun s z O => proj1 (Us s z O)) As Sp HK Lt) as
    (s0 & s0' & z & z' & v & v' & s & s' & a1 & a1' & com & f & g0 & T & (y & y' & E & E' & Ap) & P & P' & Al & V & V').
  destruct T as (_ & _ & _ & _ & _ & _ & _ & _ & _ & _ & _ & Oz & _).
  destruct (Us _ _ Oz) as ((_ & Sa) & H0 & g & H1 & h & x & al & be & bnd & sim & -> & Oq & Gh & Gi & Fl).
  assert (C := Sa _ _ _ P). rewrite <- Oq in *.
  destruct (neq_sound H0 g H1 h x al be bnd sim (n_pre z) a v s a1 (env a1) com (n_chal z) (n_chal z')
    (n_resp z) (n_resp z') P Pq Gh Gi C) as (w & k & _ & _ & _ & Y & N & _); auto.
  rewrite E, E'. apply (apart_in [order (grp g)]); auto. now left.
Qed.
(** Commitments chosen by the prover *)
Theorem chosen_power_range ok g h n a adv A K Q : let q := order (grp g) in
  readable -> (forall g, distinguished g) -> prime q -> 2 ^ 129 <= q -> grp h = grp g ->
  (forall s0 z, ok s0 z = true -> tidy a s0 z /\
     (exists com isp x r rs sim, s0 = SExt (KRange com g h n isp x r rs) sim VNone None /\ List.length rs = n) /\
     (exists cs, getitem (n_pre z) (lit "Cs") = Ok (VList cs) /\ List.length cs = n) /\
     forall v s a1, process_pre s0 (get_verifier s0) (n_pre z) a = Ok ((v, s), a1) -> canonical s (n_resp z)) ->
  asks Q adv -> spread A [2 ^ 128; q] K -> 0 <= K ->
  Z.of_nat (Q + 2) * K * len A ^ Z.of_nat (Q + 2) < len A * count (cwon ok a adv) (tapes A (Q + 2)) ->
  exists s0 s0' z z' com isp x r rs sim u t, two_choices ok a adv A (Q + 2) s0 s0' z z' /\
    s0 = SExt (KRange com g h n isp x r rs) sim VNone None /\
    opening q (n_pre z) (n_resp z) (n_resp z') n u t /\ 0 <= u < 2 ^ Z.of_nat n /\ com = padd (pmul u g) (pmul t h).
Proof.
  intros q Rd Di Pq Bq Gh Us As Sp HK Lt.
  destruct (chosen_fork ok a adv A [2 ^ 128; q] K Q Rd Di (fun s z O => proj1 (Us s z O)) As Sp HK Lt) as
    (s0 & s0' & z & z' & v & v' & s & s' & a1 & a1' & cm & f & g' & T & (y & y' & E & E' & Ap) & P & P' & Al & V & V').
  assert (T' := T). destruct T' as (_ & _ & _ & _ & _ & _ & _ & _ & _ & _ & _ & Oz & Oz').
  destruct (Us _ _ Oz) as ((_ & Sa) & (com & isp & x & r & rs & sim & -> & Lr) & (cs & EC & LC) & Ca).
  destruct (Us _ _ Oz') as (_ & _ & _ & Ca').
  destruct (range_sound_from com g h n isp x r rs sim (n_pre z) a v s a1 (env a1) cm (n_chal z) (n_chal z') (n_resp z) (n_resp z') cs P) as (k & l & OP & R & EQ); auto.
  - rewrite E, E'. eapply apart_in; eauto. right. now left.
  - rewrite E, E'. eapply apart_in; eauto. now left.
  - exact (Sa _ _ _ P).
  - eapply Ca; eauto.
  - eapply (alike_canonical g' f s'); [now apply alike_sym|]. eapply Ca'; eauto.
  - do 3 eexists. exists z', com, isp, x, r, rs, sim, k, l. split; [exact T|]. auto.
Qed.
Lemma firstn_same {A} n m (l : list A) : List.length (firstn n l) = List.length (firstn m l) -> firstn n l = firstn m l.
Proof.
  rewrite !firstn_length. intros H. destruct (Nat.le_gt_cases n (List.length l)), (Nat.le_gt_cases m (List.length l)).
  - f_equal. lia.
  - rewrite (firstn_all2 (n := m)) by lia. apply firstn_all2. lia.
  - rewrite (firstn_all2 (n := n)) by lia. symmetry. apply firstn_all2. lia.
  - rewrite !firstn_all2 by lia. reflexivity.
Qed.
(** With one key and one precommitment, proofs of signatures are about the same points. *)
Lemma bbs_pts f g pk sig sig' n n' sv sv' r1 r2 d1 d2 r1' r2' d1' d2' sim sim' pre a v v' s s' a1 a1' :
  let s0 := SExt (KBBS pk sig (firstn n (pk_gens pk)) sv r1 r2 d1 d2) sim VNone None in
  let s0' := SExt (KBBS pk sig' (firstn n' (pk_gens pk)) sv' r1' r2' d1' d2') sim' VNone None in
  process_pre s0 (get_verifier s0) pre a = Ok ((v, s), a1) -> process_pre s0' (get_verifier s0') pre a = Ok ((v', s'), a1') ->
  alike f g s s' -> pts s = pts s'.
Proof.
  intros s0 s0' P P' Al. unfold s0 in P. unfold s0' in P'. apply process_ext in P as (con & HC & -> & -> & _). apply process_ext in P' as (con' & HC' & -> & -> & _).
  cbn [construct] in HC, HC'.
  apply construct_bbs_inv in HC as (_ & A1 & A2 & g0 & g1 & g2 & bs & e & svs & aw & gp0 & plhs & ah & g2w & gp1 & gp2 & gps & x3 &
     EA1 & EA2 & Ebs & Esv & Egp & Paw & Pl & Pah & Pgw & WS & K1 & K2 & K3 & ->).
  apply construct_bbs_inv in HC' as (_ & A1' & A2' & g0' & g1' & g2' & bs' & e' & svs' & aw' & gp0' & plhs' & ah' & g2w' & gp1' & gp2' & gps' & x3' &
     EA1' & EA2' & Ebs' & Esv' & Egp' & Paw' & Pl' & Pah' & Pgw' & WS' & K1' & K2' & K3' & ->).
  rewrite EA1 in EA1'. injection EA1' as <-. rewrite EA2 in EA2'. injection EA2' as <-. rewrite Egp in Egp'. injection Egp' as <- <- <- <-.
  rewrite Paw in Paw'. injection Paw' as <-. rewrite Pl in Pl'. injection Pl' as <-. rewrite Pah in Pah'. injection Pah' as <-.
  assert (G : g0' = g0 /\ g1' = g1 /\ g2' = g2).
  { destruct n as [|[|[|n]]], n' as [|[|[|n']]], (pk_gens pk) as [|x [|y [|z l]]]; try discriminate Ebs; try discriminate Ebs'.
    cbn [firstn] in Ebs, Ebs'. injection Ebs as <- <- <- _. injection Ebs' as <- <- <- _. auto. }
  destruct G as (-> & -> & ->). rewrite Pgw in Pgw'. injection Pgw' as <-.
  apply wsum_secrets_eq in WS as (_ & W2 & _). apply wsum_secrets_eq in WS' as (_ & W2' & _).
  inversion Al as [| | |? ? ? ? ? ? ? ? _ _ Al']; subst. assert (L := alike_pts_len _ _ _ _ Al').
  cbn [pts map List.concat dlx dl_lhs dl_bases] in *. rewrite W2, W2' in *. cbn [e_bases eadd emul map app List.length] in *.
  rewrite !app_nil_r in *. rewrite (firstn_same (Datatypes.length (firstn n (pk_gens pk)) - 1) (Datatypes.length (firstn n' (pk_gens pk)) - 1) (gp1 :: gp2 :: gps)); [reflexivity|].
  repeat (first [rewrite app_length in L | rewrite firstn_length in L]; cbn [List.length app] in L). rewrite !firstn_length; cbn [List.length]; rewrite ?firstn_length. lia.
Qed.
(** Proofs of signatures under one key, on messages chosen by the prover *)
Theorem chosen_signature ok pk g0 g1 g2 gens a adv A K Q : let q := order (grp g0) in
  repr_ok -> (forall g, distinguished g) -> bbs_pk_ok pk -> pk_gens pk = g0 :: g1 :: g2 :: gens ->
  (forall G, pairs G (grp (pk_h0 pk)) <> None -> G = grp g0) -> prime q ->
  (forall s0 z, ok s0 z = true -> tidy a s0 z /\ exists sig es ss ms r1 r2 d1 d2 sim,
     s0 = SExt (KBBS pk sig (firstn (2 + List.length ms) (pk_gens pk)) (es :: ss :: ms) r1 r2 d1 d2) sim VNone None) ->
  (forall s0 s0' z z', ok s0 z = true -> ok s0' z' = true -> wire_alike (n_pre z) (n_pre z') -> n_pre z = n_pre z') ->
  asks Q adv -> spread A [q] K -> 0 <= K ->
  Z.of_nat (Q + 2) * K * len A ^ Z.of_nat (Q + 2) < len A * count (cwon ok a adv) (tapes A (Q + 2)) ->
  exists s0 s0' z z' v s a1 sig es ss ms r1 r2 d1 d2 sim w, two_choices ok a adv A (Q + 2) s0 s0' z z' /\
    s0 = SExt (KBBS pk sig (firstn (2 + List.length ms) (pk_gens pk)) (es :: ss :: ms) r1 r2 d1 d2) sim VNone None /\
    process_pre s0 (get_verifier s0) (n_pre z) a = Ok ((v, s), a1) /\
    Extr w s (n_chal z) (n_chal z') (n_resp z) (n_resp z') /\
    let x n := w q (sname n) in
    padd (pmul (x d1 - x es * x r1) g1) (pmul (x d2 - x es * x r2) g2) = inf (grp g0) /\
    (((q | x d1 - x es * x r1) /\ (q | x d2 - x es * x r2)) -> exists A2, getitem (n_pre z) (lit "A2") = Ok (VPt A2) /\
       bbs_valid pk (mkSig (padd A2 (pmul (- x r1) g2)) (x es) (x ss)) (x es) (x ss) (map x ms)).
Proof.
  intros q Ro Di PK Eg PG Pq Us Pl As Sp HK Lt.
  assert (Pt : forall s0 s0' z z' v v' s s' a1 a1' f g, ok s0 z = true -> ok s0' z' = true -> wire_alike (n_pre z) (n_pre z') ->
     process_pre s0 (get_verifier s0) (n_pre z) a = Ok ((v, s), a1) -> process_pre s0' (get_verifier s0') (n_pre z') a = Ok ((v', s'), a1') ->
     alike f g s s' -> pts s = pts s').
  { intros s0 s0' z z' v v' s s' a1 a1' f g O O' Aw P P' Al. rewrite <- (Pl _ _ _ _ O O' Aw) in P'.
    destruct (Us _ _ O) as (_ & sig & es & ss & ms & r1 & r2 & d1 & d2 & sim & ->). destruct (Us _ _ O') as (_ & sig' & es' & ss' & ms' & r1' & r2' & d1' & d2' & sim' & ->).
    eapply bbs_pts; eauto. }
  destruct (chosen_fork_pts ok a adv A [q] K Q Ro Di (fun s z O => proj1 (Us s z O)) Pt As Sp HK Lt) as
    (s0 & s0' & z & z' & v & v' & s & s' & a1 & a1' & cm & f & g' & T & (y & y' & E & E' & Ap) & P & P' & Al & V & V').
  assert (T' := T). destruct T' as (_ & _ & _ & _ & _ & _ & _ & _ & _ & _ & _ & Oz & _).
  destruct (Us _ _ Oz) as ((_ & Sa) & sig & es & ss & ms & r1 & r2 & d1 & d2 & sim & ->).
  destruct (bbs_sound pk sig es ss ms r1 r2 d1 d2 sim (n_pre z) a v s a1 (env a1) cm (n_chal z) (n_chal z') (n_resp z) (n_resp z') g0 g1 g2 gens PK Eg PG P Pq (Sa _ _ _ P)) as (w & X & R1 & R2); auto.
  { rewrite E, E'. apply (apart_in [q]); auto. now left. }
  do 2 eexists. exists z, z', v, s, a1, sig, es, ss, ms, r1, r2, d1, d2, sim, w. split; [exact T|]. auto.
Qed.
End C.

(** Reused verifier objects (C69). *)
From Coq Require Import String.
From Verif Require Import Base World Val Expr Utils Stmt Prove Verify Shapes Claims Lib Keeps Tree Sigma Process Provers Honest Complete Session.
Open Scope Z_scope.
Open Scope list_scope.

Section S.
Context {W : World}.

Fixpoint verifier_ind' (P : verifier -> Prop) (H1 : P RDL) (H2 : forall l, Forall P l -> P (RAnd l)) (H3 : forall l, Forall P l -> P (ROr l))
  (H4 : forall c, P (RExt c)) (v : verifier) : P v :=
  match v with
  | RDL => H1
  | RAnd l => H2 l ((fix go l := match l return Forall P l with [] => Forall_nil _ | x :: l => Forall_cons _ (verifier_ind' P H1 H2 H3 H4 x) (go l) end) l)
  | ROr l => H3 l ((fix go l := match l return Forall P l with [] => Forall_nil _ | x :: l => Forall_cons _ (verifier_ind' P H1 H2 H3 H4 x) (go l) end) l)
  | RExt c => H4 c
  end.
Lemma vbare_get s : vbare (get_verifier s) = get_verifier s.
Proof.
  induction s as [x|subs f IH|subs f ch IH|k f q|k f q con IH] using stmt_ind'; cbn [get_verifier vbare]; auto; f_equal; rewrite map_map;
    apply map_ext_in; rewrite Forall_forall in IH; auto.
Qed.
Lemma bare_noext s : noext s -> bare s = s.
Proof.
  induction s as [x|subs f IH|subs f ch IH|k f q|k f q con IH] using stmt_ind'; intros N; inversion N; subst; cbn [bare]; auto; f_equal;
    rewrite Forall_forall in *; rewrite <- (map_id subs) at 2; apply map_ext_in; auto.
Qed.
Lemma noext_bare s s' : noext s -> bare s' = bare s -> s' = s.
Proof.
  intros N E. rewrite (bare_noext s N) in E. revert s N E. induction s' as [x|subs f IH|subs f ch IH|k f q|k f q con IH] using stmt_ind'; intros s N E; cbn [bare] in E; subst s; auto.
  - inversion N; subst. f_equal. rewrite <- (map_id subs) at 1. apply map_ext_in. intros x Hx. rewrite Forall_forall in *. apply IH; auto. now apply H0, in_map.
  - inversion N; subst. f_equal. rewrite <- (map_id subs) at 1. apply map_ext_in. intros x Hx. rewrite Forall_forall in *. apply IH; auto. now apply H0, in_map.
  - inversion N.
  - inversion N.
Qed.
Lemma noext_vbare s : noext s -> forall v, vbare v = get_verifier s -> v = get_verifier s.
Proof.
  induction s as [x|subs f IH|subs f ch IH|k f q|k f q con IH] using stmt_ind'; intros N v E; inversion N; subst; destruct v as [|l|l|c];
    try discriminate E; auto; cbn [get_verifier vbare] in *; f_equal; injection E as E; clear N; revert l E;
    match goal with H : Forall noext _ |- _ => rename H into F end; induction IH as [|x subs Hx IH IHl]; intros [|w l] E; try discriminate; auto;
    cbn [map] in *; inversion F; subst; injection E as E1 E2; f_equal; auto.
Qed.
Lemma pp_bare pre : forall l vs i a rs b, map vbare vs = map get_verifier l ->
  (forall x, In x l -> forall w p a r b, vbare w = get_verifier x -> process_pre x w p a = Ok (r, b) -> bare (snd r) = bare x /\ vbare (fst r) = get_verifier x) ->
  pp_loop process_pre pre i l vs a = Ok (rs, b) -> map bare (map snd rs) = map bare l /\ map vbare (map fst rs) = map get_verifier l.
Proof.
  induction l as [|x l IH]; intros [|w vs] i a rs b L H E; try discriminate; cbn [pp_loop] in E.
  - apply ret_ok in E as [<- _]. split; reflexivity.
  - apply bind_ok in E as (p & a1 & E1 & E). apply bind_ok in E as (r & a2 & E2 & E). apply bind_ok in E as (rs' & a3 & E3 & E). apply ret_ok in E as [<- _].
    cbn [map] in *. injection L as L1 L2. apply IH in E3 as [A B]; auto; [|intros; eapply H; eauto; now right].
    apply H in E2 as [C D]; auto; [|now left]. rewrite A, B, C, D. split; reflexivity.
Qed.
Lemma process_bare s : forall v pre a r b, vbare v = get_verifier s -> process_pre s v pre a = Ok (r, b) ->
  bare (snd r) = bare s /\ vbare (fst r) = get_verifier s.
Proof.
  induction s as [x|subs f IH|subs f ch IH|k f q|k f q con IH] using stmt_ind'; intros v pre a r b V E; destruct v as [|l|l|c]; try discriminate V.
  - cbn [process_pre] in E. apply ret_ok in E as [<- _]. auto.
  - rewrite process_pre_and in E. destruct (is_none pre); [apply ret_ok in E as [<- _]; auto|].
    apply bind_ok in E as (rs & a1 & E & E0). apply ret_ok in E0 as [<- _]. cbn [fst snd bare vbare get_verifier] in *. injection V as V.
    rewrite Forall_forall in IH. apply pp_bare in E as [-> ->]; auto. 
  - rewrite process_pre_or in E. destruct (is_none pre); [apply ret_ok in E as [<- _]; auto|].
    apply bind_ok in E as (rs & a1 & E & E0). apply ret_ok in E0 as [<- _]. cbn [fst snd bare vbare get_verifier] in *. injection V as V.
    rewrite Forall_forall in IH. apply pp_bare in E as [-> ->]; auto.
  - cbn [process_pre] in E. apply bind_ok in E as (c0 & a1 & _ & E). apply ret_ok in E as [<- _]. auto.
  - cbn [process_pre] in E. apply bind_ok in E as (c0 & a1 & _ & E). apply ret_ok in E as [<- _]. auto.
Qed.
Lemma get_bare s : forall s', bare s' = bare s -> get_verifier s' = get_verifier s.
Proof.
  assert (G : forall x, get_verifier x = get_verifier (bare x)).
  { induction x as [x|subs f IH|subs f ch IH|k f q|k f q con IH] using stmt_ind'; cbn [bare get_verifier]; auto; f_equal; rewrite map_map;
    apply map_ext_in; rewrite Forall_forall in IH; auto. }
  intros s' E. rewrite (G s'), (G s). now rewrite E.
Qed.
Lemma verify_again_ok s v z msg a b v1 s1 a1 : verify_again s v z msg a = Ok ((b, v1, s1), a1) ->
  (v1 = v /\ s1 = s) \/ exists a0, process_pre s v (n_pre z) a = Ok ((v1, s1), a0).
Proof.
  unfold verify_again. intros H. apply bind_ok in H as ([v2 s2] & a2 & E1 & H).
  apply bind_ok in H as (h & ? & _ & H). apply bind_ok in H as (e & ? & _ & H). apply bind_ok in H as (u & ? & _ & H).
  apply bind_ok in H as (c & ? & _ & H). apply bind_ok in H as (c2 & ? & _ & H). apply ret_ok in H as [H _]. injection H as _ <- <-.
  destruct (is_none (n_pre z)); [apply ret_ok in E1 as [E1 _]; injection E1 as <- <-; auto|]. right. eauto.
Qed.
Lemma session_bare s v s' v' : session s v s' v' -> vbare v = get_verifier s -> bare s' = bare s /\ vbare v' = get_verifier s'.
Proof.
  induction 1 as [s v|s v z msg a b v1 s1 a1 s2 v2 E S IH|s v pre a v1 s1 a1 s2 v2 E S IH|s v s1 v1 s2 v2 B V S IH]; intros H; auto.
  - apply verify_again_ok in E as [[-> ->]|(a0 & E)]; auto. apply process_bare in E as [E1 E2]; auto. cbn [fst snd] in *.
    rewrite <- E1. apply IH. rewrite E2. symmetry. now apply get_bare.
  - apply process_bare in E as [E1 E2]; auto. cbn [fst snd] in *. rewrite <- E1. apply IH. rewrite E2. symmetry. now apply get_bare.
  - rewrite <- B. apply IH. rewrite V, H. symmetry. now apply get_bare.
Qed.

Lemma pp_same_all pre : forall l l' vs vs' i a, map bare l' = map bare l -> map vbare vs = map get_verifier l -> map vbare vs' = map get_verifier l ->
  (forall j x, nth_error l j = Some x -> forall x' w w' p a, index pre (i + j) = Ok p -> bare x' = bare x -> vbare w = get_verifier x -> vbare w' = get_verifier x ->
     process_pre x' w' p a = process_pre x w p a) ->
  pp_loop process_pre pre i l' vs' a = pp_loop process_pre pre i l vs a.
Proof.
  induction l as [|x l IH]; intros [|x' l'] [|w vs] [|w' vs'] i a E V V' H; try discriminate; auto. cbn [map] in *. injection E as E1 E2.
  injection V as V1 V2. injection V' as V1' V2'. cbn [pp_loop]. unfold bind at 1. unfold bind at 3. unfold lift.
  destruct (index pre i) as [p|er] eqn:P; auto. unfold bind at 1. unfold bind at 2.
  rewrite (H 0%nat x eq_refl x' w w' p a) by (auto; now rewrite Nat.add_0_r). destruct (process_pre x w p a) as [[r a1]|er]; auto.
  unfold bind. rewrite (IH l' vs vs' (S i) a1); auto. intros j y Hj y' u u' q a0 Q. eapply (H (S j)); eauto. now rewrite Nat.add_succ_r.
Qed.
Lemma process_reaches s : forall s' v v' pre a, bare s' = bare s -> vbare v = get_verifier s -> vbare v' = get_verifier s -> reaches s pre ->
  process_pre s' v' pre a = process_pre s v pre a.
Proof.
  induction s as [x|subs f IH|subs f ch IH|k f q|k f q con IH] using stmt_ind'; intros s' v v' pre a B V V' R;
    (inversion R as [? ? N| | |]; subst; [rewrite (noext_bare _ s' N B), (noext_vbare _ N v V), (noext_vbare _ N v' V'); reflexivity|..]);
    destruct s'; try discriminate B; destruct v as [|vs|vs|c]; try discriminate V; destruct v' as [|vs'|vs'|c']; try discriminate V'; cbn [bare vbare get_verifier] in *.
  - rewrite !process_pre_and. match goal with H : is_none _ = _ |- _ => rewrite H end. injection B as B ->. injection V as V. injection V' as V'. unfold bind.
    rewrite (pp_same_all pre subs subs0 vs vs' 0 a); auto.
    intros j x Hj x' w w' p a0 P B1 V1 V1'. rewrite Forall_forall in IH. eapply IH; eauto using nth_error_In.
  - rewrite !process_pre_or. match goal with H : is_none _ = _ |- _ => rewrite H end. injection B as B -> ->. injection V as V. injection V' as V'. unfold bind.
    rewrite (pp_same_all pre subs subs0 vs vs' 0 a); auto.
    intros j x Hj x' w w' p a0 P B1 V1 V1'. rewrite Forall_forall in IH. eapply IH; eauto using nth_error_In.
  - injection B as -> ->. reflexivity.
  - injection B as -> ->. reflexivity.
Qed.
Lemma reused_verifier s s' v' z msg a : session s (get_verifier s) s' v' -> reaches s (n_pre z) -> is_none (n_pre z) = false \/ noext s ->
  match verify_again s' v' z msg a with Ok ((b, _, x), a1) => Ok ((b, x), a1) | Err e => Err e end = verify s z msg a.
Proof.
  intros S R N. apply session_bare in S as [B V]; [|apply vbare_get]. rewrite (get_bare _ _ B) in V.
  assert (P : (if is_none (n_pre z) then ret (v', s') else process_pre s' v' (n_pre z)) a =
    (if is_none (n_pre z) then ret (get_verifier s, s) else process_pre s (get_verifier s) (n_pre z)) a).
  { destruct (is_none (n_pre z)) eqn:E.
    - destruct N as [N|N]; [discriminate|]. now rewrite (noext_bare _ _ N B), (noext_vbare _ N _ V).
    - apply process_reaches; auto. apply vbare_get. }
  unfold verify_again, verify, verify_nizk. unfold bind at 1. rewrite P. unfold bind at 6.
  destruct ((if is_none (n_pre z) then ret (get_verifier s, s) else process_pre s (get_verifier s) (n_pre z)) a) as [[[v1 s1] a1]|]; auto.
  unfold bind, lift, get_env, ret. destruct (check_statement s1 (n_hash z)); auto. destruct (pre_validation (env a1) s1 v1 (n_resp z)); auto.
  destruct (recompute s1 (n_chal z) (n_resp z)); auto. destruct (fs_challenge a0 [n_pre z; a3] msg); auto.
Qed.

(** ** Honest proofs *)
Lemma other_side {A B} (R : A -> B -> Prop) l l' : Forall2 R l l' -> forall i y, nth_error l' i = Some y ->
  exists x, nth_error l i = Some x /\ R x y.
Proof. induction 1; intros [|i] z H1; try discriminate; cbn [nth_error] in *; eauto. injection H1 as <-. eauto. Qed.
Lemma same_side {A B} (R : A -> B -> Prop) l l' : Forall2 R l l' -> forall i x, nth_error l i = Some x ->
  exists y, nth_error l' i = Some y /\ R x y.
Proof. induction 1; intros [|i] z H1; try discriminate; cbn [nth_error] in *; eauto. injection H1 as <-. eauto. Qed.
Lemma noext_Pat f g s : forall s', Pat f g s s' -> noext s -> noext s'.
Proof.
  induction s as [x|subs fl IH|subs fl ch IH|k fl q|k fl q con IH] using stmt_ind'; intros s' P N; inversion P as [|l l' b b' F|l l' b b' c c' F|]; subst; inversion N; subst.
  - constructor.
  - constructor. rewrite Forall_forall in *. intros y Hy. apply In_nth_error in Hy as (i & Hy). destruct (other_side _ _ _ F _ _ Hy) as (x & X & Q).
    eapply IH; eauto using nth_error_In.
  - constructor. rewrite Forall_forall in *. intros y Hy. apply In_nth_error in Hy as (i & Hy). destruct (other_side _ _ _ F _ _ Hy) as (x & X & Q).
    eapply IH; eauto using nth_error_In.
Qed.
Lemma prerel_reaches f g s : forall s' pre, Pat f g s s' -> PreRel s pre -> reaches s' pre.
Proof.
  induction s as [x|subs fl IH|subs fl ch IH|k fl q|k fl q con IH] using stmt_ind'; intros s' pre P R.
  - inversion P; subst. apply ReNone. constructor.
  - inversion R; subst; [apply ReNone; eapply noext_Pat; eauto; now constructor|]. inversion P as [|l l' b b' F| |]; subst. apply ReAnd; [reflexivity|].
    intros i y p Hy Hp. destruct (other_side _ _ _ F _ _ Hy) as (x & X & Q).
    match goal with H : Forall2 PreRel _ _ |- _ => destruct (same_side _ _ _ H _ _ X) as (p' & Y & Q') end. rewrite (index_list _ _ _ Y) in Hp. injection Hp as <-.
    rewrite Forall_forall in IH. eapply IH; eauto using nth_error_In.
  - inversion R; subst; [apply ReNone; eapply noext_Pat; eauto; now constructor|]. inversion P as [| |l l' b b' c c' F|]; subst. apply ReOr; [reflexivity|].
    intros i y p Hy Hp. destruct (other_side _ _ _ F _ _ Hy) as (x & X & Q).
    match goal with H : Forall2 PreRel _ _ |- _ => destruct (same_side _ _ _ H _ _ X) as (p' & Y & Q') end. rewrite (index_list _ _ _ Y) in Hp. injection Hp as <-.
    rewrite Forall_forall in IH. eapply IH; eauto using nth_error_In.
  - inversion P; subst. apply ReExt.
  - inversion P; subst. apply ReExt.
Qed.
Lemma prerel_none s pre : PreRel s pre -> is_none pre = false \/ noext s.
Proof. intros R. inversion R; subst; auto; try (right; constructor; auto; fail). left. destruct pre; auto. now destruct H. Qed.
Lemma honest_reused U w s sd msg st z s' st' :
  honest U w s sd (env st) -> prove s sd msg st = Ok ((z, s'), st') -> nonneutral s' ->
  forall f g sv stv sv1 v1, Pat f g s sv -> Forall (vkOK (env stv)) (kinds sv) -> session sv (get_verifier sv) sv1 v1 ->
  exists v2 sv2, verify_again sv1 v1 z msg stv = Ok ((true, v2, sv2), stv).
Proof.
  intros HH HP NN f g sv stv sv1 v1 Pt VK SE.
  destruct (prove_complete U w s sd msg st z s' st' HH HP NN f g sv stv Pt VK) as (sv' & V).
  assert (R : exists s2, pstrip s2 = pstrip s /\ PreRel s2 (n_pre z)).
  { unfold prove in HP. apply bind_ok in HP as ([[p|] s1] & st1 & GP & HP); [|discriminate].
    apply bind_ok in HP as ([[z0 p4] s4] & st4 & GN & HP). apply ret_ok in HP as [HP _]. injection HP as -> ->.
    unfold get_nizk_proof in GN. apply bind_ok in GN as ([[pre p2] s2] & st2 & PC & GN).
    apply bind_ok in GN as ([com p3] & st3 & _ & GN). apply bind_ok in GN as (h & ? & _ & GN). apply bind_ok in GN as (c & ? & _ & GN).
    apply bind_ok in GN as (r & ? & _ & GN). apply ret_ok in GN as [GN _]. injection GN as <- _ _. cbn [n_pre].
    destruct (honest_ready _ _ _ _ _ _ _ _ _ _ _ _ HH GP PC) as (w' & L & HL & _ & PS & PO & RD). exists s2. split; auto. apply PO. }
  destruct R as (s2 & PS & R).
  assert (Pt2 : Pat f g s2 sv) by (eapply Pat_same; [symmetry; exact PS|exact Pt]).
  assert (E := reused_verifier sv sv1 v1 z msg stv SE (prerel_reaches f g s2 sv _ Pt2 R)).
  rewrite V in E. destruct (verify_again sv1 v1 z msg stv) as [[[[b v2] sv2] a]|] eqn:VA.
  - destruct (prerel_none _ _ R) as [N|N]; [specialize (E (or_introl N))|specialize (E (or_intror (noext_Pat _ _ _ _ Pt2 N)))];
      injection E as -> _ ->; eauto.
  - destruct (prerel_none _ _ R) as [N|N]; [specialize (E (or_introl N))|specialize (E (or_intror (noext_Pat _ _ _ _ Pt2 N)))]; discriminate.
Qed.
End S.

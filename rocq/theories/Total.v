(** Computations that do not fail: simulation and commitment of well-typed statements. *)
From Coq Require Import String.
From Verif Require Import Base World Val Expr Utils Stmt Prove Verify Spec Shapes Claims Lib Lin DictProofs Keeps Tree Sigma
  Validate Commit ArithProofs Build Process Ktruth Provers Clauses Compose Supply.
Open Scope Z_scope.
Open Scope list_scope.

Lemma mapM_total {A B} (f : A -> M B) (I : st -> Prop) l : forall s, I s ->
  (forall x a, In x l -> I a -> exists y b, f x a = Ok (y, b) /\ I b) ->
  exists ys s', mapM f l s = Ok (ys, s') /\ I s'.
Proof.
  induction l as [|x l IH]; intros s Hs H; [exists [], s; simpl; auto|].
  destruct (H x s) as (y & b & E & Hb); [now left|auto|].
  destruct (IH b Hb) as (ys & s' & E' & Hs'); [intros; apply H; auto; now right|].
  exists (y :: ys), s'. simpl. unfold bind. rewrite E, E'. auto.
Qed.
Lemma zipM_total {A B C} (f : A -> B -> M C) (I : st -> Prop) l : forall m s, I s ->
  (forall i x y a, nth_error l i = Some x -> nth_error m i = Some y -> I a -> exists z b, f x y a = Ok (z, b) /\ I b) ->
  exists zs s', zipM f l m s = Ok (zs, s') /\ I s'.
Proof.
  induction l as [|x l IH]; intros [|y m] s Hs H; try (exists [], s; simpl; auto; fail).
  destruct (H 0%nat x y s) as (z & b & E & Hb); auto.
  destruct (IH m b Hb) as (ys & s' & E' & Hs').
  { intros i x' y' a Nx Ny. apply (H (S i)); auto. }
  exists (z :: ys), s'. simpl. unfold bind. rewrite E, E'. auto.
Qed.

Section T.
Context {W : World}.

Lemma randomizers_dl_total d st : dl_bases d <> [] -> exists r st', randomizers_dl d st = Ok (r, st').
Proof.
  intros H. unfold randomizers_dl. destruct (dl_bases d) as [|b0 bs]; [tauto|].
  unfold bind at 1, get_env. cbv zeta.
  destruct (mapM_total (fun _ : secret => draw (order (grp b0))) (fun _ => True) (sec_set (env st) (dl_secs d)) st I)
    as (rs & s' & E & _); [intros x a _ _; unfold draw; eauto|].
  unfold bind. rewrite E. unfold ret. eauto.
Qed.
Lemma randomizers_and_total s st : built s -> exists r st', randomizers_and s st = Ok (r, st').
Proof.
  intros B. unfold randomizers_and. rewrite (built_svars s B). destruct (built_bases s B) as (bs & ->).
  rewrite !bind_lift_ok. unfold bind at 1, get_env. cbv zeta.
  set (d := fold_left _ _ _).
  destruct (mapM_total (fun sb : secret * pt => draw (order (grp (snd sb)))) (fun _ => True) d st I)
    as (rs & s' & E & _); [intros x a _ _; unfold draw; eauto|].
  unfold bind. rewrite E. unfold ret. eauto.
Qed.

(** the dictionary used by a node always exists *)
Lemma update_total g ss o st :
  keeps g -> coh (env st) ss -> (exists r st', g st = Ok (r, st')) ->
  (forall r s', g st = Ok (r, s') -> forall x, In x ss -> dmem (env st) r x = true) ->
  (forall d, o = Some d -> exists R, covers (env st) d R ss) ->
  exists d' st' R, update_randomizers g (Ok ss) o st = Ok (d', st') /\ env st' = env st /\ covers (env st) d' R ss.
Proof.
  intros KG CO (r & st1 & G) GC HC.
  assert (T : exists d' st', update_randomizers g (Ok ss) o st = Ok (d', st')).
  { destruct o as [d|].
    - destruct (HC d eq_refl) as (R & C). rewrite (update_randomizers_covered _ _ _ R); eauto.
    - rewrite update_randomizers_none. eauto. }
  destruct T as (d' & st' & T). destruct (update_randomizers_spec _ _ _ _ _ _ KG CO GC HC T) as (E & _ & R & C).
  exists d', st', R. auto.
Qed.

(** Well-typed statement whose inner statements are made. *)
Inductive Typ : stmt -> Prop :=
| TyDL d : dl_shape d -> Typ (SDL d)
| TyAnd subs b : Forall Typ subs -> Typ (SAnd subs b)
| TyOr subs b c : subs <> [] -> Forall Typ subs -> Typ (SOr subs b c)
| TyExt k b pre con : Typ con -> Typ (SExt k b pre (Some con)).
Lemma Typ_built s : Typ s -> built s.
Proof.
  induction s as [d|subs b IH|subs b ch IH|k b q|k b q con IH] using stmt_ind'; intros H; inversion H; subst;
    constructor; rewrite ?Forall_forall in *; auto.
Qed.
Lemma Typ_wfs s : Typ s -> wfs s.
Proof.
  induction s as [d|subs b IH|subs b ch IH|k b q|k b q con IH] using stmt_ind'; intros H; inversion H; subst;
    constructor; rewrite ?Forall_forall in *; auto. match goal with X : dl_shape d |- _ => apply X end.
Qed.

Lemma or_draw_total c st : exists v st', or_draw c st = Ok (v, st') /\ env st' = env st.
Proof. destruct c; simpl; unfold ret, get_random_num, draw; eauto. Qed.

Lemma sim_or_loop_total (f : stmt -> option Z -> M sim) e c l : forall chals st, l <> [] -> env st = e ->
  (forall x o a, In x l -> env a = e -> exists t b, f x o a = Ok (t, b) /\ env b = e) ->
  exists ts st', sim_or_loop f c l chals st = Ok (ts, st') /\ env st' = e.
Proof.
  induction l as [|x l IH]; intros chals st N E H; [tauto|]. destruct l as [|y l].
  - simpl. destruct (H x (Some (find_residual chals c challenge_length)) st) as (t & b & Ef & Eb); [now left|auto|].
    unfold bind. rewrite Ef. unfold ret. eauto.
  - change (sim_or_loop f c (x :: y :: l) chals) with
      (let! t := f x None in let! ts := sim_or_loop f c (y :: l) (chals ++ [t_chal t]) in ret (t :: ts)).
    destruct (H x None st) as (t & b & Ef & Eb); [now left|auto|].
    destruct (IH (chals ++ [t_chal t]) b) as (ts & st' & Eg & Es); auto; [discriminate|intros; apply H; auto; now right|].
    unfold bind. rewrite Ef, Eg. unfold ret. eauto.
Qed.

Lemma simulate_total s : forall rd c st, Typ s -> coh (env st) (svars s) ->
  (forall d, rd = Some d -> exists R, covers (env st) d R (svars s)) ->
  exists t st', simulate_proof s rd c st = Ok (t, st').
Proof.
  induction s as [d|subs b IH|subs b ch IH|k b q|k b q con IH] using stmt_ind'; intros rd c st T C HC;
    inversion T; subst.
  - cbn [simulate_proof]. unfold simulate_dl.
    match goal with X : dl_shape d |- _ => destruct X as (LN & NE & IG) end.
    destruct (update_total (randomizers_dl d) (dl_secs d) rd st) as (rd' & st1 & R & U & E1 & CV); auto.
    { apply keeps_randomizers_dl. } { now apply randomizers_dl_total. }
    { intros r s' G x. now apply (randomizers_dl_covers d st r s' G). }
    unfold bind at 1. rewrite U. destruct (or_draw_total c st1) as (cv & st2 & EO & E2).
    unfold bind at 1. rewrite EO. unfold bind at 1, get_env. rewrite E2, E1.
    rewrite (rmap_dget _ _ _ _ CV), bind_lift_ok. cbv zeta. unfold recompute_dl. cbn [as_iter rbind].
    rewrite wsum_v_ints, wsum_lincomb by auto. cbn [rbind].
    rewrite padd_chk_same by (rewrite grp_lincomb, grp_mul; auto). cbn [rbind].
    rewrite bind_lift_ok. unfold ret. eauto.
  - rewrite simulate_and.
    assert (B := Typ_built _ T). rewrite (built_svars _ B).
    destruct (update_total (randomizers_and (SAnd subs b)) (svars (SAnd subs b)) rd st) as (rd' & st1 & R & U & E1 & CV); auto.
    { apply keeps_randomizers_and. } { now apply randomizers_and_total. }
    { intros r s' G x. apply (randomizers_and_covers _ _ _ _ (Typ_wfs _ T) G). }
    unfold bind at 1. rewrite U. destruct (or_draw_total c st1) as (cv & st2 & EO & E2).
    unfold bind at 1. rewrite EO.
    destruct (mapM_total (fun s => simulate_proof s (Some rd') (Some cv)) (fun a => env a = env st) subs st2)
      as (ts & st3 & EM & _); [congruence| |unfold bind; rewrite EM; unfold ret; eauto].
    intros x a Hx Ea. rewrite Forall_forall in *.
    assert (IN := svars_sub x subs Hx).
    destruct (IH x Hx (Some rd') (Some cv) a) as (t & b' & Es); auto.
    { rewrite Ea. eapply coh_incl; eauto. }
    { intros d [= <-]. exists R. rewrite Ea. eapply covers_incl; eauto. }
    exists t, b'. split; auto. apply keeps_simulate_proof in Es. congruence.
  - rewrite simulate_or. destruct (or_draw_total c st) as (cv & st2 & EO & E2).
    unfold bind at 1. rewrite EO.
    destruct (sim_or_loop_total (fun s => simulate_proof s None) (env st) cv subs [] st2) as (ts & st3 & EM & _); auto.
    2:{ unfold bind. rewrite EM. unfold ret. eauto. }
    intros x o a Hx Ea. rewrite Forall_forall in *.
    assert (IN := svars_sub x subs Hx).
    destruct (IH x Hx None o a) as (t & b' & Es); auto.
    { rewrite Ea. eapply coh_incl; eauto. }
    { discriminate. }
    exists t, b'. split; auto. apply keeps_simulate_proof in Es. congruence.
  - cbn [simulate_proof]. destruct (IH rd c st) as (t & st' & E); auto. unfold bind. rewrite E. unfold ret. eauto.
Qed.

(** The composition checks succeed at every node. *)
Inductive Checked (e : nat -> option Z) : stmt -> Prop :=
| CkDL d : Checked e (SDL d)
| CkAnd subs b : validate_and e (SAnd subs b) = Ok tt -> Forall (Checked e) subs -> Checked e (SAnd subs b)
| CkOr subs b c : validate_or e (SOr subs b c) = Ok tt -> Forall (Checked e) subs -> Checked e (SOr subs b c)
| CkExt k b pre con : Checked e con -> Checked e (SExt k b pre (Some con)).

Lemma commit_total w s : forall p rd st, Ready w s p -> wfs s -> built s -> coh (env st) (svars s) ->
  Checked (env st) s -> (forall d, rd = Some d -> exists R, covers (env st) d R (svars s)) ->
  exists com p' st', internal_commit s p rd st = Ok ((com, p'), st').
Proof.
  induction s as [d|subs b IH|subs b ch IH|k b q|k b q con IH] using stmt_ind'; intros p rd st RY WF B C CK HC;
    inversion RY; subst; inversion CK; subst.
  - cbn [internal_commit]. unfold commit_dl.
    match goal with X : dl_ok _ _ d |- _ => destruct X as (IG & NE & LN & _) end.
    destruct (update_total (randomizers_dl d) (dl_secs d) rd st) as (rd' & st1 & R & U & E1 & CV); auto.
    { apply keeps_randomizers_dl. } { now apply randomizers_dl_total. }
    { intros r s' G x. now apply (randomizers_dl_covers d st r s' G). }
    unfold bind at 1. rewrite U. unfold bind at 1, get_env. rewrite E1.
    rewrite (rmap_dget _ _ _ _ CV), bind_lift_ok. destruct (dl_bases d) as [|b0 bs] eqn:EB; [tauto|].
    assert (g = grp b0) as -> by (inversion IG; auto). rewrite wsum_lincomb by auto.
    rewrite bind_lift_ok. unfold ret. eauto.
  - rewrite internal_commit_and. unfold bind at 1, get_env.
    match goal with X : validate_and _ _ = Ok tt |- _ => rewrite X end. rewrite bind_lift_ok.
    rewrite (built_svars _ B).
    destruct (update_total (randomizers_and (SAnd subs b)) (svars (SAnd subs b)) rd st) as (rd' & st1 & R & U & E1 & CV); auto.
    { apply keeps_randomizers_and. } { now apply randomizers_and_total. }
    { intros r s' G x. apply (randomizers_and_covers _ _ _ _ WF G). }
    unfold bind at 1. rewrite U.
    match goal with X : Forall2 (Ready w) subs ps |- _ => rename X into F end.
    destruct (zipM_total (fun s p => internal_commit s p (Some rd')) (fun a => env a = env st) subs ps st1 E1)
      as (zs & st2 & EZ & _).
    + intros i x y a Nx Ny Ea. assert (Hx := nth_error_In _ _ Nx). inversion WF; subst. inversion B; subst.
      assert (IN := svars_sub x subs Hx). rewrite Forall_forall in *.
      destruct (IH x Hx y (Some rd') a) as (com & p' & b' & Ec); auto.
      * apply Forall2_nth in F. destruct F as [_ F]. eauto.
      * rewrite Ea. eapply coh_incl; eauto.
      * rewrite Ea. auto.
      * intros d [= <-]. exists R. rewrite Ea. eapply covers_incl; eauto.
      * exists (com, p'), b'. split; auto. apply keeps_internal_commit in Ec. congruence.
    + unfold bind. rewrite EZ. unfold ret. eauto.
  - rewrite internal_commit_or. unfold bind at 1, get_env.
    match goal with X : validate_or _ _ = Ok tt |- _ => rewrite X end. rewrite bind_lift_ok.
    assert (Hx : In x (l1 ++ x :: l2)) by (apply in_app_iff; right; left; auto).
    inversion WF; subst. inversion B; subst.
    assert (IN := svars_sub x (l1 ++ x :: l2) Hx). rewrite Forall_forall in *.
    destruct (IH x Hx sp None st) as (com & p' & b' & Ec); auto.
    { eapply coh_incl; eauto. }
    { discriminate. }
    unfold bind. rewrite sel_loop_eq, nth_middle', Ec. unfold ret. eauto.
  - cbn [internal_commit]. inversion WF; subst. inversion B; subst.
    destruct (IH q0 rd st) as (com & p' & b' & Ec); auto. unfold bind. rewrite Ec. unfold ret. simpl. eauto.
Qed.
End T.

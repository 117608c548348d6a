(** One randomizer for one secret. *)
From Coq Require Import String.
From Verif Require Import Base World Val Expr Utils Stmt Prove Verify Spec Shapes Occur
  Lib DictProofs Keeps Tree Sigma Validate Commit.
Open Scope Z_scope.
Open Scope list_scope.

Section R.
Context {W : World}.

Lemma dget_update_miss {A} e (d' : dict A) : forall d x, (forall kv, In kv d' -> sec_eqb e (fst kv) x = false) ->
  dget e (dupdate e d d') x = dget e d x.
Proof.
  unfold dupdate. induction d' as [|[k v] d' IH]; intros d x H; auto. cbn [fold_left fst snd].
  rewrite IH by (intros; apply H; now right). apply dget_dset_other. apply (H (k, v)). now left.
Qed.
Lemma dget_update_hit {A} e (d' : dict A) : keys_apart e d' -> forall d x v, dget e d' x = Some v -> dget e (dupdate e d d') x = Some v.
Proof.
  induction d' as [|[k w] d' IH]; intros K d x v H; [discriminate|]. simpl in H. destruct K as [K1 K2]. unfold dupdate. cbn [fold_left fst snd].
  change (dget e (dupdate e (dset e d k w) d') x = Some v). destruct (sec_eqb e k x) eqn:E.
  - injection H as ->. rewrite dget_update_miss; [now apply dget_dset_same|]. intros kv Hk.
    destruct (sec_eqb e (fst kv) x) eqn:E2; auto. rewrite <- (K1 kv Hk). symmetry. rewrite sec_eqb_sym in E2. eapply sec_eqb_trans; eauto.
  - auto.
Qed.
Lemma update_inv g ss o st rd st' : update_randomizers g (Ok ss) o st = Ok (rd, st') -> keeps g ->
  (forall r s', g st = Ok (r, s') -> forall x, In x ss -> dmem (env st) r x = true) ->
  (forall x, In x ss -> dmem (env st) rd x = true) /\
  forall d x v, o = Some d -> keys_apart (env st) d -> dget (env st) d x = Some v -> dget (env st) rd x = Some v.
Proof.
  intros H K G. destruct o as [d|].
  - unfold update_randomizers in H. cbn [bind lift get_env] in H. destruct (existsb _ ss) eqn:EX.
    + apply bind_ok in H as (t & s1 & E & H). apply bind_ok in H as (e & s2 & E2 & H). unfold get_env in E2. injection E2 as <- <-.
      apply ret_ok in H as [<- ->]. assert (KE := K _ _ _ E). rewrite KE. split.
      * intros x Hx. apply dmem_fold. left. eapply G; eauto.
      * intros d0 x v Hd HK HG. injection Hd as <-. now apply dget_update_hit.
    + apply ret_ok in H as [<- ->]. split; [|intros; congruence].
      intros x Hx. destruct (dmem (env st) d x) eqn:M; auto. exfalso.
      assert (existsb (fun x => negb (dmem (env st) d x)) ss = true) by (apply existsb_exists; exists x; now rewrite M). congruence.
  - simpl in H. split; [eauto|discriminate].
Qed.
Lemma commit_dl_stored d o st com p st' : commit_dl d o st = Ok ((com, p), st') ->
  exists rd, (forall x k, stored (SDL d) p x k -> dget (env st) rd x = Some k) /\
  forall g x v, o = Some g -> keys_apart (env st) g -> dget (env st) g x = Some v -> dget (env st) rd x = Some v.
Proof.
  unfold commit_dl. intros H. apply bind_ok in H as (rd & s1 & E & H). apply bind_ok in H as (e & s2 & E2 & H). unfold get_env in E2. injection E2 as <- <-.
  assert (KE : env s1 = env st) by (eapply keeps_update_randomizers; [apply keeps_randomizers_dl|exact E]).
  apply bind_ok in H as (ks & s3 & E3 & H). apply lift_ok in E3 as [E3 ->]. destruct (dl_bases d); [discriminate|].
  apply bind_ok in H as (y & s4 & E4 & H). apply ret_ok in H as [H _]. injection H as <- <-. exists rd. split.
  - intros x k S. inversion S as [? ? ? ? ? N1 N2| |]; subst. rewrite KE in E3. apply rmap_ok in E3.
    assert (F : dget_err (env st) rd x = Ok k).
    { clear -E3 N1 N2. revert i N1 N2. induction E3; intros [|i] A B; simpl in *; try discriminate; eauto. congruence. }
    unfold dget_err in F. destruct (dget (env st) rd x); congruence.
  - apply update_inv in E as [_ E]; auto using keeps_randomizers_dl. intros r s' X. eapply randomizers_dl_covers; eauto.
Qed.
Lemma stored_covered s : forall p rd st com p' st', wfs s -> (forall x, In x (svars s) -> dmem (env st) rd x = true) ->
  internal_commit s p (Some rd) st = Ok ((com, p'), st') -> forall x k, stored s p' x k -> dget (env st) rd x = Some k.
Proof.
  assert (COV : forall ss rd st g r st', (forall x, In x ss -> dmem (env st) rd x = true) ->
    update_randomizers g (Ok ss) (Some rd) st = Ok (r, st') -> r = rd /\ st' = st).
  { intros ss rd st g r st' C H. unfold update_randomizers in H. cbn [bind lift get_env] in H. destruct (existsb _ ss) eqn:EX.
    - apply existsb_exists in EX as (x & Hx & M). rewrite C in M; auto. discriminate.
    - apply ret_ok in H as [<- ->]. auto. }
  induction s as [d|subs b IH|subs b ch IH|k b q|k b q con IH] using stmt_ind'; intros p rd st com p' st' HW C H x k0 S.
  - destruct p; try discriminate H. cbn [internal_commit] in H. cbn [svars] in C.
    unfold commit_dl in H. apply bind_ok in H as (rd' & s1 & E & H). apply COV in E as [-> ->]; auto.
    apply bind_ok in H as (e & s2 & E2 & H). unfold get_env in E2. injection E2 as <- <-.
    apply bind_ok in H as (ks' & s3 & E3 & H). apply lift_ok in E3 as [E3 ->]. destruct (dl_bases d); [discriminate|].
    apply bind_ok in H as (y & s4 & E4 & H). apply ret_ok in H as [H _]. injection H as <- <-.
    inversion S as [? ? ? ? ? N1 N2| |]; subst. apply rmap_ok in E3.
    assert (F : dget_err (env st) rd x = Ok k0).
    { clear -E3 N1 N2. revert i N1 N2. induction E3; intros [|i] A B; simpl in *; try discriminate; eauto. congruence. }
    unfold dget_err in F. destruct (dget (env st) rd x); congruence.
  - destruct p; try discriminate H. rewrite internal_commit_and in H.
    apply bind_ok in H as (e & s1 & E & H). unfold get_env in E. injection E as <- <-. apply bind_ok in H as (u & s1 & E & H). apply lift_ok in E as [_ ->].
    apply bind_ok in H as (rd' & s2 & E & H). destruct (get_secret_vars (SAnd subs b)) as [ss|] eqn:GS; [|discriminate].
    apply svars_eq in GS. subst ss. apply COV in E as [-> ->]; auto.
    apply bind_ok in H as (l & s3 & E & H). apply ret_ok in H as [H _]. injection H as <- <-.
    inversion S as [|? ? ? i s p0 ? ? N1 N2 S'|]; subst.
    assert (WF : wfs s) by (inversion HW; subst; eapply Forall_forall; eauto using nth_error_In).
    rewrite Forall_forall in IH. assert (IS := IH s (nth_error_In _ _ N1)). cbn [svars] in C.
    assert (C' : forall y, In y (svars s) -> dmem (env st) rd y = true).
    { intros y Hy. apply C. apply in_concat. exists (svars s). split; auto. apply in_map. eapply nth_error_In; eauto. }
    rewrite nth_error_map in N2. destruct (nth_error l i) as [[com0 q0]|] eqn:N3; [|discriminate]. injection N2 as <-.
    clear -E N1 N3 IS C' WF S'.
    assert (KE : exists a b q, env a = env st /\ internal_commit s q (Some rd) a = Ok ((com0, q0), b)).
    { revert subs0 s3 l i E N1 N3. assert (KK : env st = env st) by reflexivity. revert KK. generalize st at 1 3 as a.
      induction subs as [|y subs IHs]; intros a KK ps s3 l i E N1 N3; [destruct i; discriminate|]. destruct ps as [|q ps]; [apply ret_ok in E as [<- _]; destruct i; discriminate|].
      simpl in E. apply bind_ok in E as (r & a1 & E1 & E). apply bind_ok in E as (rs & a2 & E2 & E). apply ret_ok in E as [<- _].
      destruct i as [|i]; simpl in N1, N3.
      - injection N1 as ->. injection N3 as ->. eauto.
      - eapply IHs; [|exact E2|exact N1|exact N3]. destruct r. rewrite (keeps_internal_commit _ _ _ _ _ _ E1). exact KK. }
    destruct KE as (a & b0 & q & KE & E1). rewrite <- KE in C' |- *. eapply IS; eauto.
  - inversion S.
  - inversion S.
  - inversion S as [| |? ? ? ? ? ? ? ? S']; subst. destruct p; try discriminate H. cbn [internal_commit] in H. destruct con0 as [[p0|]|]; try discriminate.
    apply bind_ok in H as ([c0 p1] & s1 & E & H). apply ret_ok in H as [H _]. injection H as <- _ <-. inversion HW; subst. eapply IH; eauto.
Qed.
Lemma stored_top s : forall p o st com p' st', wfs s -> internal_commit s p o st = Ok ((com, p'), st') ->
  exists rd, (forall x k, stored s p' x k -> dget (env st) rd x = Some k) /\
  forall g x v, o = Some g -> keys_apart (env st) g -> dget (env st) g x = Some v -> dget (env st) rd x = Some v.
Proof.
  induction s as [d|subs b IH|subs b ch IH|k b q|k b q con IH] using stmt_ind'; intros p o st com p' st' HW H.
  - destruct p; try discriminate H. eapply commit_dl_stored; eauto.
  - destruct p; try discriminate H. assert (H0 := H). rewrite internal_commit_and in H.
    apply bind_ok in H as (e & s1 & E & H). unfold get_env in E. injection E as <- <-. apply bind_ok in H as (u & s1 & EV & H). apply lift_ok in EV as [EV ->].
    apply bind_ok in H as (rd & s2 & E & H). destruct (get_secret_vars (SAnd subs b)) as [ss|] eqn:GS.
    2:{ exfalso. destruct o; [discriminate|]. simpl in E. unfold randomizers_and in E. rewrite GS in E. discriminate. }
    assert (SV := svars_eq _ _ GS). exists rd. assert (UI := E). apply update_inv in UI as [U1 U2]; auto using keeps_randomizers_and.
    2:{ intros r s' X x Hx. eapply randomizers_and_covers; eauto. now rewrite <- SV. }
    split; auto. intros x k S. rewrite SV in U1.
    assert (KE : env s2 = env st) by (eapply keeps_update_randomizers; [apply keeps_randomizers_and|exact E]).
    rewrite <- KE in U1 |- *. eapply (stored_covered (SAnd subs b) (PAnd subs0) rd s2); eauto.
    rewrite internal_commit_and. unfold bind at 1, get_env at 1. rewrite KE, EV, bind_lift_ok, GS.
    unfold bind at 1. unfold update_randomizers. cbn [bind lift get_env].
    replace (existsb _ ss) with false; [exact H|]. symmetry. apply not_true_is_false. intros X. apply existsb_exists in X as (y & Hy & M).
    rewrite SV in Hy. rewrite U1 in M; auto. discriminate.
  - exists (match o with Some g => g | None => [] end). split; [intros x k S; inversion S|intros g x v -> _ X; exact X].
  - exists (match o with Some g => g | None => [] end). split; [intros x k0 S; inversion S|intros g x v -> _ X; exact X].
  - destruct p; try discriminate H. cbn [internal_commit] in H. destruct con0 as [[p0|]|]; try discriminate.
    apply bind_ok in H as ([c0 p1] & s1 & E & H). apply ret_ok in H as [H _]. injection H as <- <-. inversion HW; subst.
    apply IH in E as (rd & A & B); auto. exists rd. split; auto. intros x k0 S. inversion S; subst. auto.
Qed.
Lemma one_randomizer s p o st com p' st' x y k k' : wfs s -> internal_commit s p o st = Ok ((com, p'), st') ->
  stored s p' x k -> stored s p' y k' -> sec_eqb (env st) x y = true -> k = k'.
Proof.
  intros HW H S S' E. destruct (stored_top _ _ _ _ _ _ _ HW H) as (rd & A & _). apply A in S, S'.
  rewrite (dget_cong _ _ _ _ E) in S. congruence.
Qed.
Lemma given_randomizer s p g st com p' st' x k v : wfs s -> internal_commit s p (Some g) st = Ok ((com, p'), st') ->
  keys_apart (env st) g -> stored s p' x k -> dget (env st) g x = Some v -> k = v.
Proof.
  intros HW H K S E. destruct (stored_top _ _ _ _ _ _ _ HW H) as (rd & A & B). apply A in S. apply (B g x v) in E; auto. congruence.
Qed.
End R.

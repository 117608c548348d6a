(** What proving and verifying leave alone, and constructions, on statement objects with identity. *)
From Coq Require Import String Lia.
From Verif Require Import Base World Val Expr Utils Stmt Prove Verify Spec Shapes Lib DictProofs Keeps Tree Objects Sharing ObjProofs.
Open Scope Z_scope.
Open Scope list_scope.

Section F.
Context {W : World}.

Definition touch (l ds : list nat) (h h' : store) : Prop :=
  (forall i, ~ In i l -> same_at h h' i) /\ (forall i, ~ In i ds -> dicts h i = dicts h' i) /\ nxt h = nxt h'.
Lemma same_refl h i : same_at h h i. Proof. repeat split. Qed.
Lemma same_trans a b c i : same_at a b i -> same_at b c i -> same_at a c i.
Proof. intros (A & B & C) (D & E & F). repeat split; congruence. Qed.
Lemma touch_refl l ds h : touch l ds h h. Proof. repeat split. Qed.
Lemma touch_trans l ds a b c : touch l ds a b -> touch l ds b c -> touch l ds a c.
Proof.
  intros (A & B & C) (D & E & F). split; [|split].
  - intros i H. apply (same_trans a b c i (A i H) (D i H)).
  - intros i H. rewrite (B i H). auto.
  - congruence.
Qed.
Lemma touch_mono l l' ds ds' a b : incl l l' -> incl ds ds' -> touch l ds a b -> touch l' ds' a b.
Proof.
  intros I J (A & B & C). split; [|split]; auto.
Qed.
Lemma seqM_touch {X A} (f : X -> store -> M (A * store)) l ds xs :
  (forall x, In x xs -> forall h s a h' s', f x h s = Ok ((a, h'), s') -> touch l ds h h') ->
  forall h s r h' s', seqM f xs h s = Ok ((r, h'), s') -> touch l ds h h'.
Proof.
  induction xs as [|x xs IH]; intros F h s r h' s' H; simpl in H.
  - injection H as <- <- <-. apply touch_refl.
  - apply bind_ok in H as ([a h1] & s1 & H1 & H). apply bind_ok in H as ([b h2] & s2 & H2 & H). simpl in *.
    injection H as <- <- <-. eapply touch_trans; [eapply F; eauto|]. eapply IH; eauto.
Qed.
Lemma iseqM_touch {X A} (f : nat -> X -> store -> M (A * store)) l ds xs :
  (forall x, In x xs -> forall i h s a h' s', f i x h s = Ok ((a, h'), s') -> touch l ds h h') ->
  forall i h s r h' s', iseqM f i xs h s = Ok ((r, h'), s') -> touch l ds h h'.
Proof.
  induction xs as [|x xs IH]; intros F i h s r h' s' H; simpl in H.
  - injection H as <- <- <-. apply touch_refl.
  - apply bind_ok in H as ([a h1] & s1 & H1 & H). apply bind_ok in H as ([b h2] & s2 & H2 & H). simpl in *.
    injection H as <- <- <-. eapply touch_trans; [eapply F; eauto|]. eapply IH; eauto.
Qed.
Lemma foldM_touch {X} (f : X -> store -> M store) l ds xs :
  (forall x, In x xs -> forall h s h' s', f x h s = Ok (h', s') -> touch l ds h h') ->
  forall h s h' s', foldM f xs h s = Ok (h', s') -> touch l ds h h'.
Proof.
  induction xs as [|x xs IH]; intros F h s h' s' H; simpl in H.
  - injection H as <- <-. apply touch_refl.
  - apply bind_ok in H as (h1 & s1 & H1 & H). eapply touch_trans; [eapply F; eauto|]; try (now left). eapply IH; eauto.
    intros; eapply F; eauto. now right.
Qed.
Lemma incl_concat {A} (f : obj -> list A) o l : In o l -> incl (f o) (List.concat (map f l)).
Proof. intros I x H. apply in_concat. exists (f o). split; auto. apply in_map; auto. Qed.
Lemma touch_sub i o l ds a b : In o l -> incl ds (List.concat (map dids l)) -> touch (ids o) ds a b ->
  touch (i :: List.concat (map ids l)) (List.concat (map dids l)) a b.
Proof. intros I D. apply touch_mono; auto. intros x H. right. now apply (incl_concat ids o). Qed.

Lemma set_ext_touch h i e : touch [i] [] h (set_ext h i e).
Proof.
  split; [|split]; auto. intros j H. repeat split; auto. simpl. unfold upd.
  destruct (Nat.eqb_spec j i) as [->|]; auto. elim H. now left.
Qed.
Lemma set_pick_touch h i e : touch [i] [] h (set_pick h i e).
Proof.
  split; [|split]; auto. intros j H. repeat split; auto. simpl. unfold upd.
  destruct (Nat.eqb_spec j i) as [->|]; auto. elim H. now left.
Qed.
Lemma prepare_touch o : forall h s h' s', o_prepare o h s = Ok (h', s') -> touch (ids o) [] h h'.
Proof.
  induction o as [i lhs bs ss di|i subs IH|i subs IH|i k] using obj_ind'; intros h s h' s' H; cbn [o_prepare] in H.
  - injection H as <- <-. apply touch_refl.
  - eapply foldM_touch; [|exact H]. intros x I h1 s1 h2 s2 E. rewrite Forall_forall in IH.
    eapply touch_mono; [| |eapply IH; eauto]; [intros j J; right; now apply (incl_concat ids x)|intros j []].
  - eapply foldM_touch; [|exact H]. intros x I h1 s1 h2 s2 E. rewrite Forall_forall in IH.
    eapply touch_mono; [| |eapply IH; eauto]; [intros j J; right; now apply (incl_concat ids x)|intros j []].
  - apply bind_ok in H as (p & s1 & _ & H). apply bind_ok in H as (c & s2 & _ & H). injection H as <- <-.
    apply set_ext_touch.
Qed.

(** the loop of o_setup *)
Definition osetup_loop (idx : nat) :=
  fix go (i : nat) (l : list obj) (h : store) {struct l} : M (store * list sim) := match l with
     | [] => ret (h, [])
     | x :: l =>
       if Nat.eqb i idx then go (S i) l h
       else let! h := o_prepare x h in
            let! t := simulate_proof (view h x) None None in
            let! r := go (S i) l h in ret (fst r, t :: snd r)
     end.
Lemma o_setup_eq idx subs h : o_setup idx subs h = osetup_loop idx 0 subs h.
Proof. reflexivity. Qed.
Lemma setup_touch idx l : forall i h s h' ts s', osetup_loop idx i l h s = Ok ((h', ts), s') ->
  touch (List.concat (map ids l)) [] h h'.
Proof.
  induction l as [|x l IH]; intros i h s h' ts s' H; simpl in H.
  - injection H as <- <- <-. apply touch_refl.
  - destruct (Nat.eqb i idx).
    + eapply touch_mono; [| |eapply IH; eauto]; [intros j J; simpl; apply in_or_app; auto|intros j J; exact J].
    + apply bind_ok in H as (h1 & s1 & H1 & H). apply bind_ok in H as (t & s2 & H2 & H).
      apply bind_ok in H as ([h2 ts2] & s3 & H3 & H). injection H as <- <- <-. simpl.
      eapply touch_trans.
      * eapply touch_mono; [| |eapply prepare_touch; eauto]; [intros j J; apply in_or_app; auto|intros j J; exact J].
      * eapply touch_mono; [| |eapply IH; eauto]; [intros j J; apply in_or_app; auto|intros j J; exact J].
Qed.
Lemma o_loop_touch {A} l ds (gps : list (store -> M (option A * store))) :
  (forall gp, In gp gps -> forall h s a h' s', gp h s = Ok ((a, h'), s') -> touch l ds h h') ->
  forall fuel possible h s r h' s', o_loop fuel gps possible h s = Ok ((r, h'), s') -> touch l ds h h'.
Proof.
  intros F. induction fuel as [|fuel IH]; intros possible h s r h' s' H; cbn [o_loop] in H.
  - injection H as <- <- <-. apply touch_refl.
  - apply bind_ok in H as (d & s1 & _ & H).
    destruct (nth_error possible (Z.to_nat d)) as [i|]; [|discriminate].
    destruct (nth_error gps i) as [gp|] eqn:E; [|discriminate]. apply nth_error_In in E.
    apply bind_ok in H as ([o h1] & s2 & H1 & H). simpl in H. pose proof (F _ E _ _ _ _ _ H1) as T.
    destruct o as [p|]; [injection H as <- <- <-; exact T|].
    destruct (empty_dict _); [injection H as <- <- <-; exact T|]. eapply touch_trans; eauto.
Qed.
Lemma incl_nil_l' {A} (l : list A) : incl [] l. Proof. intros x []. Qed.
Lemma get_prover_touch o sd : forall h s r h' s', o_get_prover o sd h s = Ok ((r, h'), s') -> touch (ids o) (dids o) h h'.
Proof.
  induction o as [i lhs bs ss di|i subs IH|i subs IH|i k] using obj_ind'; intros h s r h' s' H; cbn [o_get_prover] in H.
  - apply bind_ok in H as (e & s1 & _ & H).
    assert (T : forall d, touch [i] [di] h (set_mark (set_dict h di d) i true)).
    { intros d. split; [|split]; auto; intros j K; [repeat split|]; simpl; unfold upd.
      - destruct (Nat.eqb_spec j i) as [->|]; auto. elim K; now left.
      - destruct (Nat.eqb_spec j di) as [->|]; auto. elim K; now left. }
    destruct (_ || _); injection H as <- <- <-; apply T.
  - apply bind_ok in H as (u & s1 & _ & H). destruct (marks h i); [injection H as <- <- <-; apply touch_refl|].
    apply bind_ok in H as ([l h1] & s2 & H1 & H). simpl in H.
    assert (T : touch (ids (OAnd i subs)) (dids (OAnd i subs)) h h1).
    { eapply seqM_touch; [|exact H1]. intros x I h2 s3 a h3 s4 E. rewrite Forall_forall in IH.
      eapply touch_mono; [| |exact (IH x I _ _ _ _ _ E)]; [intros j J; right; now apply (incl_concat ids x)|intros j J; now apply (incl_concat dids x)]. }
    destruct (forallb is_some l); [|discriminate]. injection H as <- <- <-; exact T.
  - apply bind_ok in H as (u & s1 & _ & H). destruct (marks h i); [injection H as <- <- <-; apply touch_refl|].
    destruct (empty_dict _); [injection H as <- <- <-; apply touch_refl|].
    apply bind_ok in H as ([l h1] & s2 & H1 & H). cbn [fst snd] in H.
    assert (T : touch (ids (OOr i subs)) (dids (OOr i subs)) h h1).
    { eapply o_loop_touch; [|exact H1]. intros gp I h2 s3 a h3 s4 E. apply in_map_iff in I as (x & <- & I).
      rewrite Forall_forall in IH.
      eapply touch_mono; [| |exact (IH x I _ _ _ _ _ E)]; [intros j J; right; now apply (incl_concat ids x)|intros j J; now apply (incl_concat dids x)]. }
    assert (P : forall c, touch (ids (OOr i subs)) (dids (OOr i subs)) h1 (set_pick h1 i c)).
    { intros c. eapply touch_mono; [| |apply set_pick_touch]; [intros j [<-|[]]; now left|apply incl_nil_l']. }
    destruct l as [[j p]|].
    + apply bind_ok in H as ([h2 ts] & s3 & H2 & H). injection H as <- <- <-. rewrite o_setup_eq in H2.
      eapply touch_trans; [exact T|]. eapply touch_trans; [apply P|].
      eapply touch_mono; [| |eapply setup_touch; eauto]; [intros k K; now right|apply incl_nil_l'].
    + injection H as <- <- <-. eapply touch_trans; [exact T|apply P].
  - apply bind_ok in H as (u & s1 & _ & H). apply bind_ok in H as (e & s2 & _ & H). injection H as <- <- <-. apply touch_refl.
Qed.

(** Provers of an object. *)
Inductive of_obj : obj -> oprover -> Prop :=
| OfDL i lhs bs ss di ks : of_obj (ODL i lhs bs ss di) (QDL (ODL i lhs bs ss di) ks)
| OfAnd i subs ps : Forall2 of_obj subs ps -> of_obj (OAnd i subs) (QAnd (OAnd i subs) ps)
| OfOr i subs j o p sims : nth_error subs j = Some o -> of_obj o p -> of_obj (OOr i subs) (QOr (OOr i subs) j p sims)
| OfExt i k sv con : of_obj (OExt i k) (QExt (OExt i k) sv con).
Lemma of_qobj o p : of_obj o p -> qobj p = o.
Proof. now inversion 1. Qed.
Lemma o_loop_from {A} (R : nat -> A -> Prop) (gps : list (store -> M (option A * store))) :
  (forall i gp, nth_error gps i = Some gp -> forall h s a h' s', gp h s = Ok ((Some a, h'), s') -> R i a) ->
  forall fuel possible h s i a h' s', o_loop fuel gps possible h s = Ok ((Some (i, a), h'), s') -> R i a.
Proof.
  intros F. induction fuel as [|fuel IH]; intros possible h s i a h' s' H; cbn [o_loop] in H.
  - discriminate.
  - apply bind_ok in H as (d & s1 & _ & H).
    destruct (nth_error possible (Z.to_nat d)) as [j|]; [|discriminate].
    destruct (nth_error gps j) as [gp|] eqn:E; [|discriminate].
    apply bind_ok in H as ([o h1] & s2 & H1 & H). simpl in H.
    destruct o as [p|]; [injection H as <- <- <- <-; eapply F; eauto|].
    destruct (empty_dict _); [discriminate|]. eapply IH; eauto.
Qed.
Lemma seqM_of sd l : Forall (fun o => forall h s p h' s', o_get_prover o sd h s = Ok ((Some p, h'), s') -> of_obj o p) l ->
  forall h s r h' s', seqM (fun x => o_get_prover x sd) l h s = Ok ((r, h'), s') -> forallb is_some r = true ->
  Forall2 of_obj l (flat_map (fun p => match p with Some p => [p] | None => [] end) r).
Proof.
  induction 1 as [|o l HO HF IH]; intros h s r h' s' H A; simpl in H.
  - injection H as <- <- <-. constructor.
  - apply bind_ok in H as ([a h1] & s1 & H1 & H). apply bind_ok in H as ([b h2] & s2 & H2 & H). simpl in *.
    injection H as <- <- <-. simpl in A. destruct a as [p|]; [|discriminate]. simpl. constructor; eauto.
Qed.
Lemma get_prover_of o sd : forall h s p h' s', o_get_prover o sd h s = Ok ((Some p, h'), s') -> of_obj o p.
Proof.
  induction o as [i lhs bs ss di|i subs IH|i subs IH|i k] using obj_ind'; intros h s r h' s' H; cbn [o_get_prover] in H.
  - apply bind_ok in H as (e & s1 & _ & H). destruct (_ || _); [discriminate|]. injection H as <- <- <-. constructor.
  - apply bind_ok in H as (u & s1 & _ & H). destruct (marks h i); [discriminate|].
    apply bind_ok in H as ([l h1] & s2 & H1 & H). cbn [fst snd] in H.
    destruct (forallb is_some l) eqn:F; [|discriminate]. injection H as <- <- <-. constructor. eapply seqM_of; eauto.
  - apply bind_ok in H as (u & s1 & _ & H). destruct (marks h i); [discriminate|].
    destruct (empty_dict _); [discriminate|].
    apply bind_ok in H as ([l h1] & s2 & H1 & H). cbn [fst snd] in H. destruct l as [[j p]|]; [|discriminate].
    apply bind_ok in H as ([h2 ts] & s3 & H2 & H). injection H as <- <- <-.
    assert (K : exists o, nth_error subs j = Some o /\ of_obj o p).
    { eapply (o_loop_from (fun j p => exists o, nth_error subs j = Some o /\ of_obj o p)); [|exact H1].
      intros n gp E h0 s0 a h3 s4 G. rewrite nth_error_map in E. destruct (nth_error subs n) as [o|] eqn:N; [|discriminate].
      injection E as <-. exists o. split; auto. rewrite Forall_forall in IH. eapply IH; eauto. eapply nth_error_In; eauto. }
    destruct K as (o & N & K). econstructor; eauto.
  - apply bind_ok in H as (u & s1 & _ & H). apply bind_ok in H as (e & s2 & _ & H). injection H as <- <- <-. constructor.
Qed.

Lemma oprover_ind' (P : oprover -> Prop) :
  (forall o ks, P (QDL o ks)) -> (forall o ps, Forall P ps -> P (QAnd o ps)) ->
  (forall o i p sims, P p -> P (QOr o i p sims)) -> (forall o sv con, P (QExt o sv con)) -> forall p, P p.
Proof.
  intros H1 H2 H3 H4. fix IH 1. intros [o ks|o ps|o i p sims|o sv con].
  - apply H1.
  - apply H2. induction ps; constructor; [apply IH|auto].
  - apply H3, IH.
  - apply H4.
Qed.
Lemma precommit_touch p : forall o, of_obj o p -> forall h s v p' h' s', o_precommit p h s = Ok ((v, p', h'), s') ->
  touch (ids o) [] h h' /\ of_obj o p'.
Proof.
  induction p as [o' ks|o' ps IH|o' j p sims IH|o' sv con] using oprover_ind'; intros o O h s v p' h' s' H;
    inversion O as [i lhs bs ss di ks0|i subs ps0 HF|i subs j0 x q sims0 N Ox|i k sv0 con0]; subst; cbn [o_precommit] in H.
  - injection H as <- <- <- <-. split; [apply touch_refl|constructor].
  - apply bind_ok in H as ([l h1] & s2 & H1 & H). cbn [fst snd] in H. injection H as <- <- <- <-.
    assert (K : touch (List.concat (map ids subs)) [] h h1 /\ Forall2 of_obj subs (map snd l)).
    { clear -HF IH H1. revert h s l h1 s2 H1 IH. induction HF as [|o p os ps O HF IHF]; intros h s l h1 s2 H IH; simpl in H.
      - injection H as <- <- <-. split; [apply touch_refl|constructor].
      - inversion IH as [|? ? IH1 IH2]; subst. apply bind_ok in H as ([[v a] h2] & s3 & E1 & H).
        apply bind_ok in H as ([b h3] & s4 & E2 & H). simpl in *. injection H as <- <- <-.
        destruct (IH1 _ O _ _ _ _ _ _ E1) as [T1 O1]. destruct (IHF _ _ _ _ _ E2 IH2) as [T2 O2].
        split; [|constructor; auto].
        eapply touch_trans; [eapply touch_mono; [| |exact T1]|eapply touch_mono; [| |exact T2]];
          try apply incl_refl; intros z Z; apply in_or_app; auto. }
    destruct K as [T O']. split; [|now constructor]. eapply touch_mono; [| |exact T]; [intros z Z; now right|apply incl_refl].
  - apply bind_ok in H as ([[v1 p1] h1] & s2 & H1 & H). cbn [fst snd] in H. injection H as <- <- <- <-.
    destruct (IH _ Ox _ _ _ _ _ _ H1) as [T O1]. split; [|econstructor; eauto].
    eapply touch_mono; [| |exact T]; [|apply incl_refl]. intros z Z. right. eapply incl_concat; eauto. eapply nth_error_In; eauto.
  - apply bind_ok in H as (pre & s1 & _ & H). apply bind_ok in H as (c & s2 & _ & H). apply bind_ok in H as (r & s3 & _ & H).
    injection H as <- <- <- <-. split; [apply set_ext_touch|constructor].
Qed.
Lemma nizk_touch o p msg h s z h' s' : of_obj o p -> o_nizk p msg h s = Ok ((z, h'), s') -> touch (ids o) [] h h'.
Proof.
  intros O H. unfold o_nizk in H. apply bind_ok in H as ([[pre p1] h1] & s1 & H1 & H).
  destruct (precommit_touch p o O _ _ _ _ _ _ H1) as [T _].
  apply bind_ok in H as ([com p2] & s2 & H2 & H). apply bind_ok in H as (i & s3 & _ & H).
  apply bind_ok in H as (c & s4 & _ & H). apply bind_ok in H as (r & s5 & _ & H). injection H as <- <- <-. exact T.
Qed.
Lemma prove_touch o sd msg h s z h' s' : o_prove o sd msg h s = Ok ((z, h'), s') -> touch (ids o) (dids o) h h'.
Proof.
  intros H. unfold o_prove in H. apply bind_ok in H as ([[p|] h1] & s1 & H1 & H); [|discriminate].
  eapply touch_trans; [eapply get_prover_touch; eauto|].
  eapply touch_mono; [| |eapply nizk_touch; eauto]; [apply incl_refl|apply incl_nil_l'|]. eapply get_prover_of; eauto.
Qed.

(** Verifiers of an object. *)
Inductive vof : obj -> overifier -> Prop :=
| VfDL i lhs bs ss di : vof (ODL i lhs bs ss di) (XDL (ODL i lhs bs ss di))
| VfAnd i subs vs : Forall2 vof subs vs -> vof (OAnd i subs) (XAnd (OAnd i subs) vs)
| VfOr i subs vs : Forall2 vof subs vs -> vof (OOr i subs) (XOr (OOr i subs) vs)
| VfExt i k con : vof (OExt i k) (XExt (OExt i k) con).
Lemma verifier_of o : vof o (o_verifier o).
Proof.
  induction o as [i lhs bs ss di|i subs IH|i subs IH|i k] using obj_ind'; simpl; constructor.
  - clear -IH. induction IH; simpl; constructor; auto.
  - clear -IH. induction IH; simpl; constructor; auto.
Qed.
Lemma process_touch o : forall v pre h s v' h' s', vof o v -> o_process v pre h s = Ok ((v', h'), s') -> touch (ids o) [] h h'.
Proof.
  assert (L : forall subs vs, Forall2 vof subs vs ->
    Forall (fun o => forall v pre h s v' h' s', vof o v -> o_process v pre h s = Ok ((v', h'), s') -> touch (ids o) [] h h') subs ->
    forall i pre h s r h' s', iseqM (fun i w h => let! p := lift (index pre i) in o_process w p h) i vs h s = Ok ((r, h'), s') ->
    touch (List.concat (map ids subs)) [] h h').
  { induction 1 as [|o2 v os vs O HF IHF]; intros IH i pre h s r h' s' H; simpl in H.
    - injection H as <- <- <-. apply touch_refl.
    - inversion IH as [|? ? IH1 IH2]; subst. apply bind_ok in H as ([a h1] & s1 & H1 & H).
      apply bind_ok in H1 as (p & s0 & _ & H1). apply bind_ok in H as ([b h2] & s2 & H2 & H). simpl in H2, H. injection H as <- <- <-.
      simpl. eapply touch_trans; [eapply touch_mono; [| |eapply IH1; eauto]|eapply touch_mono; [| |eapply IHF; eauto]];
        try apply incl_refl; intros z Z; apply in_or_app; auto. }
  induction o as [i lhs bs ss di|i subs IH|i subs IH|i k] using obj_ind'; intros v pre h s v' h' s' O H; inversion O; subst; cbn [o_process] in H.
  - injection H as <- <- <-. apply touch_refl.
  - destruct (is_none pre); [injection H as <- <- <-; apply touch_refl|].
    apply bind_ok in H as ([l h1] & s2 & H1 & H). simpl in H. injection H as <- <- <-.
    eapply touch_mono; [| |eapply L; eauto]; [intros z Z; now right|apply incl_refl].
  - destruct (is_none pre); [injection H as <- <- <-; apply touch_refl|].
    apply bind_ok in H as ([l h1] & s2 & H1 & H). simpl in H. injection H as <- <- <-.
    eapply touch_mono; [| |eapply L; eauto]; [intros z Z; now right|apply incl_refl].
  - apply bind_ok in H as (c & s2 & _ & H). injection H as <- <- <-. apply set_ext_touch.
Qed.
Lemma verify_touch o z msg h s b h' s' : o_verify o z msg h s = Ok ((b, h'), s') -> touch (ids o) [] h h'.
Proof.
  intros H. unfold o_verify in H. apply bind_ok in H as ([v h1] & s1 & H1 & H).
  assert (T : touch (ids o) [] h h1).
  { destruct (is_none (n_pre z)); [injection H1 as <- <- <-; apply touch_refl|]. eapply process_touch; eauto. apply verifier_of. }
  apply bind_ok in H as (i & s2 & _ & H). apply bind_ok in H as (e & s3 & _ & H). apply bind_ok in H as (u & s4 & _ & H).
  apply bind_ok in H as (com & s5 & _ & H). apply bind_ok in H as (c & s6 & _ & H). injection H as <- <- <-. exact T.
Qed.
Lemma touch_view l ds h h' o : touch l ds h h' -> (forall i, In i (ids o) -> ~ In i l) -> (forall i, In i (dids o) -> ~ In i ds) ->
  view h' o = view h o.
Proof. intros (A & B & _) I J. apply view_frame; auto. Qed.
End F.

(** Choosing the branches and setting up the simulations does not look at the values of secrets. *)
From Coq Require Import String.
From Verif Require Import Base World Val Expr Utils Stmt Prove Verify Spec Claims Shapes Honest Runs Views Blank
  Lib DictProofs Keeps Tree Sigma Build Process Ktruth Provers Complete SimIndep Total Total2.
Open Scope Z_scope.
Open Scope list_scope.

Section C.
Context {W : World}.
Variable L : list secret.
Hypothesis HL : wfL L.

Lemma blank_strip s : strip (blank s) = strip s.
Proof.
  induction s as [d|subs b IH|subs b ch IH|k b q|k b q con IH] using stmt_ind'; simpl; auto; try (now rewrite IH); f_equal;
    rewrite map_map; now apply map_ext_Forall.
Qed.
Lemma blank_strip_eq a b : blank a = blank b -> strip a = strip b.
Proof. intros E. now rewrite <- (blank_strip a), E, blank_strip. Qed.
Lemma blank_sim s : simulated (blank s) = simulated s.
Proof. now destruct s as [| | |? ? ? []]. Qed.
Lemma blank_map_F2 l : forall l', map blank l = map blank l' -> Forall2 (fun a b => blank a = blank b) l l'.
Proof. induction l; intros [|y l'] H; simpl in H; try discriminate; constructor; try congruence. apply IHl. congruence. Qed.

(** dictionaries *)
Lemma blank_keysL d d' : blank_dict d = blank_dict d' -> keysL L d -> keysL L d'.
Proof.
  intros E K k v H. apply (in_map (fun kv => (fst kv, 0))) in H. fold (blank_dict d') in H. rewrite <- E in H.
  apply in_map_iff in H as ([k' u] & X & H). injection X as <-. eapply K; eauto.
Qed.
Lemma blank_dset e d k v : blank_dict (dset e d k v) = dset e (blank_dict d) k 0.
Proof. induction d as [|[k' u] d IH]; simpl; auto. destruct (sec_eqb e k' k); simpl; auto. now rewrite IH. Qed.
Lemma blank_dupdate e d' : forall d, blank_dict (dupdate e d d') = dupdate e (blank_dict d) (blank_dict d').
Proof. unfold dupdate. induction d' as [|[k v] d' IH]; intros d; simpl; auto. now rewrite IH, blank_dset. Qed.
Lemma blank_dmem e d x : dmem e (blank_dict d) x = dmem e d x.
Proof. unfold dmem. induction d as [|[k v] d IH]; simpl; auto. destruct (sec_eqb e k x); auto. Qed.
Lemma blank_empty d : empty_dict (blank_dict d) = empty_dict d.
Proof. now destruct d. Qed.
Lemma blank_dict_keysL d : keysL L d -> keysL L (blank_dict d).
Proof. intros K k v H. apply in_map_iff in H as ([k' u] & X & H). injection X as <- <-. eapply K; eauto. Qed.

Inductive KL : stmt -> Prop :=
| KlDL d : keysL L (dl_vals d) -> incl (dl_secs d) L -> KL (SDL d)
| KlAnd subs b : Forall KL subs -> KL (SAnd subs b)
| KlOr subs b c : Forall KL subs -> KL (SOr subs b c).
Lemma KL_noext s : KL s -> noext s.
Proof.
  induction s as [d|subs b IH|subs b ch IH|k b q|k b q con IH] using stmt_ind'; intros H; inversion H; subst; constructor;
    rewrite Forall_forall in *; auto.
Qed.
Lemma KL_svars s : KL s -> incl (svars s) L.
Proof.
  induction s as [d|subs b IH|subs b ch IH|k b q|k b q con IH] using stmt_ind'; intros H; inversion H; subst; auto; simpl;
    intros z Hz; apply in_concat in Hz as (l & Hl & Hz); apply in_map_iff in Hl as (x & <- & Hx);
    rewrite Forall_forall in *; eapply IH; eauto.
Qed.
Definition BR (a b : stmt) : Prop := blank a = blank b /\ KL a.

Lemma prepare_noext s st : noext s -> prepare_sim s st = Ok (s, st).
Proof.
  revert st. assert (LL : forall l, Forall (fun s => forall st, noext s -> prepare_sim s st = Ok (s, st)) l -> Forall noext l ->
    forall st, mapM prepare_sim l st = Ok (l, st)).
  { induction 1 as [|x l Hx Hl IH]; intros N st; auto. inversion N; subst. simpl. unfold bind. rewrite Hx by auto. now rewrite IH. }
  induction s as [d|subs b IH|subs b ch IH|k b q|k b q con IH] using stmt_ind'; intros st N; inversion N; subst; simpl; auto;
    unfold bind; now rewrite LL.
Qed.

Lemma setup_same idx l : forall l' i, Forall2 BR l l' ->
  same (fun r r' => Forall2 BR (fst r) (fst r') /\ snd r = snd r') (setup_loop idx i l) (setup_loop idx i l').
Proof.
  induction l as [|s l IH]; intros l' i F; inversion F as [|? s' ? m [B K] F']; subst; [apply same_ret; auto|].
  cbn [setup_loop]. fold (setup_loop idx). destruct (Nat.eqb i idx).
  - eapply same_bind; [apply IH; eauto|]. intros a b [H1 H2]. apply same_ret. simpl. split; auto. constructor; auto. split; auto.
  - eapply same_bind with (R := BR).
    { intros a a' T. rewrite prepare_noext by (now apply KL_noext). rewrite prepare_noext. { split; auto. split; auto. }
      apply noext_strip_iff. rewrite <- (blank_strip_eq _ _ B). apply noext_strip_iff. now apply KL_noext. }
    intros x x' [Bx Kx]. eapply same_bind.
    { apply sim_proof_same with (L := L); auto. now apply blank_strip_eq. apply noext_built. now apply KL_noext. now apply KL_svars. intros d Ed; discriminate. }
    intros t t' <-. eapply same_bind; [apply IH; eauto|]. intros a b [H1 H2]. apply same_ret. simpl. split; [constructor; auto; split; auto|congruence].
Qed.

Definition PR (r r' : option prover * stmt) : Prop := fst r = fst r' /\ BR (snd r) (snd r').
Lemma replace_F2 {A B} (R : A -> B -> Prop) x y l : forall i l', Forall2 R l l' -> R x y -> Forall2 R (replace i x l) (replace i y l').
Proof. induction l; intros [|i] l' F H; inversion F; subst; simpl; auto. Qed.

Lemma or_loop_same n : forall (gps gps' : list (M (option prover * stmt))) possible l l',
  Forall2 (same PR) gps gps' -> Forall2 BR l l' ->
  same (fun r r' => fst r = fst r' /\ Forall2 BR (snd r) (snd r')) (or_loop n gps possible l) (or_loop n gps' possible l').
Proof.
  induction n as [|n IH]; intros gps gps' possible l l' G F; [apply same_ret; auto|].
  cbn [or_loop]. eapply same_bind; [apply same_draw|]. intros r r' <-.
  destruct (nth_error possible (Z.to_nat r)) as [i|]; [|apply same_raise].
  pose proof G as G0. apply Forall2_nth in G as [Len G].
  destruct (nth_error gps i) as [g|] eqn:E; destruct (nth_error gps' i) as [g'|] eqn:E'; try (apply same_raise).
  2: { apply nth_error_None in E'. assert (i < List.length gps)%nat by (apply nth_error_Some; congruence). lia. }
  2: { apply nth_error_None in E. assert (i < List.length gps')%nat by (apply nth_error_Some; congruence). lia. }
  eapply same_bind; [eapply G; eauto|]. intros a b [H1 H2]. cbv zeta. rewrite <- H1. destruct (fst a) as [p|].
  - apply same_ret. simpl. split; auto. now apply replace_F2.
  - destruct (empty_dict _); [apply same_ret; simpl; split; auto; now apply replace_F2|]. apply IH; auto. now apply replace_F2.
Qed.

Lemma same_update sd sd' : same (fun _ _ => True) (update_secret_values sd) (update_secret_values sd').
Proof. intros a b [T P]. simpl. repeat split; auto. Qed.
Lemma cands_same l : forall l' n, Forall2 BR l l' ->
  map fst (filter (fun p : nat * stmt => negb (simulated (snd p))) (combine (seq n (List.length l)) l)) =
  map fst (filter (fun p : nat * stmt => negb (simulated (snd p))) (combine (seq n (List.length l')) l')).
Proof.
  induction l as [|x l IH]; intros l' n F; inversion F as [|? y ? m [B K] F']; subst; auto. simpl.
  rewrite <- (blank_sim x), B, blank_sim. destruct (simulated y); simpl; rewrite (IH m (S n)); auto.
Qed.

Lemma blank_get_prover s : forall s' sd sd', BR s s' -> blank_dict sd = blank_dict sd' -> keysL L sd ->
  same PR (get_prover s sd) (get_prover s' sd').
Proof.
  assert (NB : forall l l', Forall2 BR l l' -> map blank l = map blank l').
  { induction 1 as [|x y l l' [B _] F IH]; simpl; congruence. }
  assert (NK : forall l l', Forall2 BR l l' -> Forall KL l).
  { induction 1 as [|x y l l' [_ K] F IH]; constructor; auto. }
  induction s as [d|subs b IH|subs b ch IH|k b q|k b q con IH] using stmt_ind'; intros s' sd sd' [B K] ED KD; try (now inversion K).
  - destruct s' as [d'| | |? ? ? []]; try discriminate B. simpl in B. injection B as B1 B2 B3 B4 B5.
    inversion K as [? K1 K2| |]; subst. cbn [get_prover].
    assert (K1' : keysL L (dl_vals d')) by (eapply blank_keysL; eauto).
    assert (KD' : keysL L sd') by (eapply blank_keysL; eauto).
    eapply same_bind with (R := fun r r' => fst r = fst r' /\ BR (SDL (snd r)) (SDL (snd r'))).
    + unfold get_prover_dl. apply same_env. intros e e'. cbv zeta.
      assert (V : blank_dict (dupdate e (dl_vals d) sd) = blank_dict (dupdate e' (dl_vals d') sd')).
      { rewrite !blank_dupdate, B4, ED. apply dupdate_indep with (L := L); auto; now apply blank_dict_keysL. }
      assert (KU : keysL L (dupdate e (dl_vals d) sd)) by (eapply (dupdate_indep L HL e e); auto).
      assert (KU' : keysL L (dupdate e' (dl_vals d') sd')) by (eapply (dupdate_indep L HL e' e'); auto).
      assert (T : (empty_dict (dupdate e (dl_vals d) sd) || existsb (fun s => negb (dmem e (dupdate e (dl_vals d) sd) s)) (dl_secs d))%bool =
        (empty_dict (dupdate e' (dl_vals d') sd') || existsb (fun s => negb (dmem e' (dupdate e' (dl_vals d') sd') s)) (dl_secs d'))%bool).
      { rewrite <- (blank_empty (dupdate e _ _)), <- (blank_empty (dupdate e' _ _)), V, <- B3. f_equal. apply existsb_ext_in. intros x Hx. f_equal.
        rewrite <- (blank_dmem e), <- (blank_dmem e'), V. unfold dmem. f_equal. apply dget_indep with (L := L); auto. now apply blank_dict_keysL. }
      rewrite T. assert (BR (SDL (mkDL (dl_lhs d) (dl_bases d) (dl_secs d) (dupdate e (dl_vals d) sd) true))
        (SDL (mkDL (dl_lhs d') (dl_bases d') (dl_secs d') (dupdate e' (dl_vals d') sd') true))).
      { split; [simpl; congruence|]. constructor; auto. }
      clear T. destruct (empty_dict (dupdate e' (dl_vals d') sd') || _)%bool; apply same_ret; auto.
    + intros a a' [H1 H2]. apply same_ret. split; auto.
  - destruct s' as [|subs' b'| |? ? ? []]; try discriminate B. simpl in B. injection B as B <-. inversion K as [|? ? K1|]; subst.
    apply blank_map_F2 in B. cbn [get_prover]. eapply same_bind; [apply same_update|]. intros _ _ _.
    destruct b. { apply same_ret. split; auto. split; auto. simpl. f_equal. clear -B. induction B; simpl; congruence. }
    eapply same_bind with (R := Forall2 PR).
    { apply same_mapM2. clear K. induction B as [|x y l m Bx B IHB]; constructor.
      - inversion IH; inversion K1; subst. match goal with H : forall _ _ _, BR x _ -> _ |- _ => apply H end; auto. split; auto.
      - inversion IH; inversion K1; subst. apply IHB; auto. }
    intros l l' F.
    assert (F1 : forallb (fun r => is_some (fst r)) l = forallb (fun r => is_some (fst r)) l').
    { clear -F. induction F as [|x y l l' [H _] F IH]; simpl; auto. now rewrite H, IH. }
    rewrite F1. destruct (forallb _ l'); [|apply same_raise]. apply same_ret. split.
    + simpl. f_equal. f_equal. clear -F. induction F as [|x y l l' [H _] F IH]; simpl; auto. now rewrite H, IH.
    + assert (F2 : Forall2 BR (map snd l) (map snd l')) by (clear -F; induction F as [|x y l l' [_ H] F IH]; simpl; auto).
      split; simpl; [f_equal; now apply NB|]. constructor. eapply NK; eauto.
  - destruct s' as [| |subs' b' ch'|? ? ? []]; try discriminate B. simpl in B. injection B as B <- <-. inversion K as [| |? ? ? K1]; subst.
    apply blank_map_F2 in B. cbn [get_prover]. eapply same_bind; [apply same_update|]. intros _ _ _.
    destruct b. { apply same_ret. split; auto. split; auto. simpl. f_equal. clear -B. induction B; simpl; congruence. }
    assert (F : Forall2 BR subs subs').
    { clear -B K1. induction B; inversion K1; subst; constructor; auto. split; auto. }
    cbv zeta. rewrite (cands_same subs subs' 0 F).
    set (cs := map fst (filter _ (combine (seq 0 (List.length subs')) subs'))).
    destruct (empty_dict cs). { apply same_ret. split; auto. split; auto. simpl. f_equal. now apply NB. }
    eapply same_bind.
    { apply or_loop_same; [|exact F]. clear K cs B. induction F as [|x y l m [Bx Kx] B IHB]; simpl; constructor.
      - inversion IH; inversion K1; subst. match goal with H : forall _ _ _, BR x _ -> _ |- _ => apply H end; auto. split; auto.
      - inversion IH; inversion K1; subst. apply IHB; auto. }
    intros r r' [H1 H2]. rewrite <- H1. destruct (fst r) as [[i p]|].
    + rewrite !setup_simulations_eq. eapply same_bind; [apply setup_same; exact H2|]. intros t t' [H3 H4]. apply same_ret.
      split; [simpl; now rewrite H4|]. split; simpl; [f_equal; now apply NB|]. constructor. eapply NK; eauto.
    + apply same_ret. split; auto. split; simpl; [f_equal; now apply NB|]. constructor. eapply NK; eauto.
Qed.
End C.

(** Commitments, responses and simulations of statement trees. *)
From Coq Require Import String.
From Verif Require Import Base World Val Expr Utils Stmt Prove Verify Spec Shapes Lib DictProofs Keeps Tree ArithProofs.
Open Scope Z_scope.
Open Scope list_scope.

Section S.
Context {W : World}.

Definition covers (e : nat -> option Z) (d : dict Z) (R : bytes -> Z) (ss : list secret) : Prop :=
  forall x, In x ss -> dget e d x = Some (R (sname x)).

Lemma covers_incl e d R ss ss' : incl ss' ss -> covers e d R ss -> covers e d R ss'.
Proof. intros I H x Hx. auto. Qed.
Lemma mem_covers e d ss : coh e ss -> (forall x, In x ss -> dmem e d x = true) ->
  exists R, covers e d R ss.
Proof.
  intros C H. destruct (dict_fun e d ss 0 C) as (R & HR). exists R. intros x Hx.
  assert (K := H x Hx). unfold dmem in K. destruct (dget e d x) as [v|] eqn:E; [|discriminate].
  f_equal. apply HR; auto.
Qed.

Lemma in_combine_l_ex {A B} (l : list A) : forall (m : list B) x,
  In x l -> List.length l = List.length m -> exists y, In (x, y) (combine l m).
Proof.
  induction l as [|a l IH]; intros [|b m] x H L; simpl in *; try discriminate; [tauto|].
  destruct H as [->|H]; [eauto|]. destruct (IH m x H) as (y & Hy); [congruence|eauto].
Qed.

Lemma mapM_length {A B} (f : A -> M B) l s ys s' : mapM f l s = Ok (ys, s') -> List.length ys = List.length l.
Proof. intros H. apply mapM_ok in H as (ss & _ & L & _). auto. Qed.

Lemma randomizers_dl_covers d s r s' : randomizers_dl d s = Ok (r, s') ->
  forall x, In x (dl_secs d) -> dmem (env s) r x = true.
Proof.
  unfold randomizers_dl. destruct (dl_bases d) as [|b0 bs]; [discriminate|].
  intros H x Hx. minvs. apply dmem_fold. right.
  destruct (proj2 (sec_set_spec (env s0) (dl_secs d) x)) as (t & Ht & Et).
  { exists x. split; auto. apply sec_eqb_refl. }
  destruct (in_combine_l_ex (sec_set (env s0) (dl_secs d)) a0 t Ht) as (y & Hy).
  { symmetry. eapply mapM_length; eauto. }
  eauto.
Qed.

Lemma get_bases_length s : wfs s -> forall bs, get_bases s = Ok bs -> List.length (svars s) = List.length bs.
Proof.
  assert (G : forall subs l, Forall (fun s => wfs s -> forall bs, get_bases s = Ok bs ->
      List.length (svars s) = List.length bs) subs -> Forall wfs subs -> rmap get_bases subs = Ok l ->
      List.length (List.concat (map svars subs)) = List.length (List.concat l)).
  { intros subs l IH HW E. apply rmap_ok in E. induction E; simpl; auto.
    inversion IH as [|? ? P Q]; inversion HW as [|? ? P' Q']; subst.
    rewrite !app_length. f_equal; [apply P|apply IHE]; auto. }
  induction s as [d|subs b IH|subs b ch IH|k b q|k b q con IH] using stmt_ind'; intros H bs E;
    inversion H; subst; simpl in *; minvs; auto.
Qed.

Lemma combine_fst {A B C} (l : list (A * B)) : forall (m : list C) a b,
  In (a, b) l -> List.length l = List.length m -> exists c, In (a, c) (combine (map fst l) m).
Proof.
  intros m a b H L. apply in_combine_l_ex; [apply in_map_iff; exists (a, b); auto|].
  now rewrite map_length.
Qed.
Lemma dmem_rekey e {A B} (d : dict A) (m : list B) x : List.length d = List.length m ->
  dmem e (combine (map fst d) m) x = dmem e d x.
Proof.
  unfold dmem. revert m. induction d as [|[k v] d IH]; intros [|y m] L; simpl in *; try discriminate; auto.
  destruct (sec_eqb e k x); auto.
Qed.

Lemma randomizers_and_covers t s r s' : wfs t -> randomizers_and t s = Ok (r, s') ->
  forall x, In x (svars t) -> dmem (env s) r x = true.
Proof.
  unfold randomizers_and. intros HW H x Hx. minvs.
  rewrite dmem_rekey by (symmetry; eapply mapM_length; eauto).
  apply dmem_fold. right. apply svars_eq in E. subst a.
  destruct (in_combine_l_ex (svars t) a0 x Hx) as (y & Hy).
  { apply get_bases_length; auto. }
  exists x, y. split; auto. apply sec_eqb_refl.
Qed.

Lemma update_randomizers_none g ss : update_randomizers g ss None = g.
Proof. reflexivity. Qed.
Lemma update_randomizers_covered g ss d R st : covers (env st) d R ss ->
  update_randomizers g (Ok ss) (Some d) st = Ok (d, st).
Proof.
  intros C. unfold update_randomizers. cbn [bind lift get_env].
  replace (existsb (fun x => negb (dmem (env st) d x)) ss) with false; [reflexivity|].
  symmetry. apply not_true_is_false. intros H. apply existsb_exists in H as (x & Hx & E).
  unfold dmem in E. rewrite (C x Hx) in E. discriminate.
Qed.

(** the dictionary used by a node, given or drawn *)
Lemma update_randomizers_spec g ss o st d' st' :
  keeps g -> coh (env st) ss ->
  (forall r s', g st = Ok (r, s') -> forall x, In x ss -> dmem (env st) r x = true) ->
  (forall d, o = Some d -> exists R, covers (env st) d R ss) ->
  update_randomizers g (Ok ss) o st = Ok (d', st') ->
  env st' = env st /\ (forall d, o = Some d -> d' = d) /\ exists R, covers (env st) d' R ss.
Proof.
  intros K C G Ho H. destruct o as [d|].
  - destruct (Ho d eq_refl) as (R & HR).
    rewrite (update_randomizers_covered g ss d R st HR) in H. injection H as <- <-.
    split; auto. split; [congruence|eauto].
  - simpl in H. split; [eapply K; eauto|]. split; [discriminate|].
    apply mem_covers; auto. eapply G; eauto.
Qed.

Lemma rmap_dget e d R ss : covers e d R ss -> rmap (dget_err e d) ss = Ok (map (fun s => R (sname s)) ss).
Proof.
  intros C. induction ss as [|x ss IH]; simpl; auto.
  unfold dget_err at 1. rewrite (C x) by (left; auto). cbn [rbind].
  rewrite IH; auto. intros y Hy. apply C. now right.
Qed.

(** ** Simulation *)
Inductive PreRel : stmt -> val -> Prop :=
| PRDL d : PreRel (SDL d) VNone
| PRAndN subs b : Forall noext subs -> PreRel (SAnd subs b) VNone
| PRAnd subs b ps : Forall2 PreRel subs ps -> PreRel (SAnd subs b) (VList ps)
| PROrN subs b c : Forall noext subs -> PreRel (SOr subs b c) VNone
| PROr subs b c ps : Forall2 PreRel subs ps -> PreRel (SOr subs b c) (VList ps)
| PRExt k b pre con : pre <> VNone -> PreRel (SExt k b pre (Some con)) pre.

(** no ExtendedProofStmt has an empty precommitment *)
Inductive prenn : stmt -> Prop :=
| PNDL d : prenn (SDL d)
| PNAnd subs b : Forall prenn subs -> prenn (SAnd subs b)
| PNOr subs b c : Forall prenn subs -> prenn (SOr subs b c)
| PNExtN k b pre : prenn (SExt k b pre None)
| PNExt k b pre con : pre <> VNone -> prenn con -> prenn (SExt k b pre (Some con)).
Lemma noext_prenn s : noext s -> prenn s.
Proof.
  induction s as [d|subs b IH|subs b ch IH|k b q|k b q con IH] using stmt_ind'; intros H;
    inversion H; subst; constructor; rewrite Forall_forall in *; auto.
Qed.

Definition SimOK (s : stmt) (t : sim) : Prop :=
  recompute s (t_chal t) (t_resp t) = Ok (t_com t) /\ (exists R, Cons R s (t_resp t)) /\
  PreRel s (t_pre t).

Lemma recompute_and subs b c rs :
  recompute (SAnd subs b) c (VList rs) =
  let? l := rimap (fun i s => let? ri := index (VList rs) i in recompute s c ri) 0 subs in Ok (VList l).
Proof. reflexivity. Qed.
Lemma rimap_index_gen (f : stmt -> val -> res val) subs : forall rs coms pre,
  Forall2 (fun s rc => f s (fst rc) = Ok (snd rc)) subs (combine rs coms) ->
  List.length rs = List.length subs -> List.length coms = List.length subs ->
  rimap (fun i s => let? ri := index (VList (pre ++ rs)) i in f s ri) (List.length pre) subs = Ok coms.
Proof.
  induction subs as [|s subs IH]; intros [|r rs] [|com coms] pre F L1 L2; try discriminate; auto.
  cbn [rimap]. rewrite (index_list _ _ r) by (rewrite nth_error_app2, Nat.sub_diag; auto).
  inversion F; subst. cbn [rbind]. cbn [fst snd] in *. rewrite H2. cbn [rbind].
  replace (pre ++ r :: rs) with ((pre ++ [r]) ++ rs) by now rewrite <- app_assoc.
  replace (S (List.length pre)) with (List.length (pre ++ [r])) by (rewrite app_length; simpl; lia).
  rewrite (IH rs coms (pre ++ [r])); auto.
Qed.
Lemma recompute_and_ok subs b c rs coms :
  Forall2 (fun s rc => recompute s c (fst rc) = Ok (snd rc)) subs (combine rs coms) ->
  List.length rs = List.length subs -> List.length coms = List.length subs ->
  recompute (SAnd subs b) c (VList rs) = Ok (VList coms).
Proof.
  intros F L1 L2. rewrite recompute_and.
  assert (X := rimap_index_gen (fun s r => recompute s c r) subs rs coms [] F L1 L2).
  cbn [app List.length] in X. now rewrite X.
Qed.
Lemma chal_list_ints cs : chal_list (VList (map VInt cs)) = Ok cs.
Proof. apply as_int_map. Qed.

Lemma recompute_or_ok subs b ch c cs rs coms :
  find_residual cs c challenge_length = 0 ->
  List.length cs = List.length subs -> List.length rs = List.length subs ->
  List.length coms = List.length subs ->
  (forall i s ci r com, nth_error subs i = Some s -> nth_error cs i = Some ci ->
     nth_error rs i = Some r -> nth_error coms i = Some com -> recompute s ci r = Ok com) ->
  recompute (SOr subs b ch) c (VTuple [VList (map VInt cs); VList rs]) = Ok (VList coms).
Proof.
  intros Hres L1 L2 L3 H.
  change (recompute (SOr subs b ch) c (VTuple [VList (map VInt cs); VList rs])) with
    (let? cs0 := chal_list (VList (map VInt cs)) in
     if find_residual cs0 c challenge_length =? 0 then
       let? l := rimap (fun i s => let? ci := index (VList (map VInt cs)) i in
                                   let? ci := as_int ci in
                                   let? ri := index (VList rs) i in recompute s ci ri) 0 subs in
       Ok (VList l)
     else Err EInconsistentChallenge).
  rewrite chal_list_ints. cbn [rbind]. rewrite Hres. cbn [Z.eqb].
  replace (rimap _ 0 subs) with (@Ok (list val) coms); [reflexivity|]. symmetry.
  apply rimap_ok. split; auto. intros j x N.
  assert (Hj : (j < List.length subs)%nat) by (apply nth_error_Some; congruence).
  destruct (nth_error cs j) as [ci|] eqn:N1; [|apply nth_error_None in N1; lia].
  destruct (nth_error rs j) as [r|] eqn:N2; [|apply nth_error_None in N2; lia].
  destruct (nth_error coms j) as [com|] eqn:N3; [|apply nth_error_None in N3; lia].
  exists com. split; auto. change (0 + j)%nat with j.
  rewrite (index_list _ _ (VInt ci)) by (now apply map_nth_error).
  rewrite (index_list _ _ r) by auto. cbn [rbind as_int]. eauto.
Qed.

Lemma residual_zero cs chals c b : 0 <= b -> zsum cs = zsum chals + find_residual chals c b ->
  find_residual cs c b = 0.
Proof.
  intros Hb E. assert (P : 0 < 2 ^ b) by (apply Z.pow_pos_nonneg; lia).
  rewrite find_residual_mod in * by auto. rewrite E.
  rewrite <- Z.opp_0. f_equal.
  replace (zsum chals + - ((zsum chals - c) mod 2 ^ b) - c)
    with ((zsum chals - c) - ((zsum chals - c) mod 2 ^ b)) by lia.
  rewrite Zminus_mod_idemp_r. rewrite Z.sub_diag. apply Z.mod_0_l. lia.
Qed.

(** The loop of a simulated disjunction. *)
Lemma sim_or_loop_ok (f : stmt -> option Z -> M sim) (P : stmt -> sim -> Prop) e c :
  (forall s t, P s t <-> P s (mkSim (t_com t) (t_chal t) (t_resp t) (t_pre t))) ->
  forall l chals st ts st',
  (forall x o a t b, In x l -> env a = e -> f x o a = Ok (t, b) ->
     env b = e /\ P x t /\ forall c0, o = Some c0 -> t_chal t = c0) ->
  env st = e ->
  sim_or_loop f c l chals st = Ok (ts, st') ->
  env st' = e /\ Forall2 P l ts /\
  zsum (chals ++ map t_chal ts) = zsum (chals ++ removelast (map t_chal ts)) +
    find_residual (chals ++ removelast (map t_chal ts)) c challenge_length.
Proof.
  intros HP. induction l as [|x l IH]; intros chals st ts st' Hf He H; [discriminate|].
  destruct l as [|y l].
  - cbn [sim_or_loop] in H. minvs. apply Hf in E as (E1 & E2 & E3); simpl; auto.
    specialize (E3 _ eq_refl). split; auto. split.
    + constructor; [|constructor]. apply HP in E2. now rewrite E3 in E2.
    + simpl. rewrite app_nil_r. rewrite zsum_app. simpl. lia.
  - change (sim_or_loop f c (x :: y :: l) chals) with
      (let! t := f x None in
       let! ts := sim_or_loop f c (y :: l) (chals ++ [t_chal t]) in ret (t :: ts)) in H.
    minvs. apply Hf in E as (E1 & E2 & _); simpl; auto.
    apply IH in E0 as (E3 & E4 & E5); auto; [|intros; eapply Hf; simpl in *; eauto].
    split; auto. split; [constructor; auto|].
    rewrite <- !app_assoc in E5. simpl in E5. simpl map.
    destruct a0 as [|t1 a0]; [inversion E4|exact E5].
Qed.

Lemma simulate_and subs b rd c :
  simulate_proof (SAnd subs b) rd c =
  (let! rd := update_randomizers (randomizers_and (SAnd subs b)) (get_secret_vars (SAnd subs b)) rd in
   let! c := or_draw c in
   let! ts := mapM (fun s => simulate_proof s (Some rd) (Some c)) subs in
   ret (mkSim (VList (map t_com ts)) c (VList (map t_resp ts)) (VList (map t_pre ts)))).
Proof. reflexivity. Qed.

Lemma simulate_ok s : forall rd c st t st',
  wfs s -> prenn s -> built s -> coh (env st) (svars s) ->
  (forall d, rd = Some d -> exists R, covers (env st) d R (svars s)) ->
  simulate_proof s rd c st = Ok (t, st') ->
  recompute s (t_chal t) (t_resp t) = Ok (t_com t) /\
  (forall c0, c = Some c0 -> t_chal t = c0) /\
  (forall d R, rd = Some d -> covers (env st) d R (svars s) -> Cons R s (t_resp t)) /\
  (exists R, Cons R s (t_resp t)) /\
  PreRel s (t_pre t).
Proof.
  induction s as [d|subs b IH|subs b ch IH|k b q|k b q con IH] using stmt_ind';
    intros rd c st t st' HW HP HB C Hrd H.
  - simpl in H. unfold simulate_dl in H. minvs.
    apply update_randomizers_spec in E as (Ee & Ed & R & HR); auto using keeps_randomizers_dl.
    2: apply randomizers_dl_covers.
    assert (Ec : env s1 = env s) by (eapply keeps_or_draw; eauto).
    rewrite Ec, Ee in E2. rewrite (rmap_dget _ _ R) in E2 by auto. injection E2 as <-.
    cbn [t_com t_chal t_resp t_pre].
    split; [exact E3|]. split; [intros c0 ->; simpl in E0; minvs; auto|].
    assert (HC : forall R', covers (env st) a R' (dl_secs d) ->
               Cons R' (SDL d) (VList (map VInt (map (fun s => R (sname s)) (dl_secs d))))).
    { intros R' HR'. replace (map VInt (map (fun s => R (sname s)) (dl_secs d)))
        with (map (fun s => VInt (R' (sname s))) (dl_secs d)); [constructor|].
      rewrite map_map. apply map_ext_in. intros x Hx. f_equal.
      assert (A := HR x Hx). assert (B := HR' x Hx). congruence. }
    split; [|split; [|constructor]].
    + intros d0 R' E HR'. apply HC. rewrite (Ed _ E). exact HR'.
    + exists R. apply HC. auto.
  - rewrite simulate_and in H. minvs. rename a into rd'. rename a0 into c'. rename a1 into ts.
    rewrite built_svars in E by auto.
    apply update_randomizers_spec in E as (Ee & Ed & R & HR); auto using keeps_randomizers_and.
    2:{ intros r s' X. eapply randomizers_and_covers; eauto. }
    assert (Ec : env s0 = env s) by (eapply keeps_or_draw; eauto).
    inversion HW; inversion HP; inversion HB; subst.
    assert (G : forall R', covers (env st) rd' R' (svars (SAnd subs b)) ->
      Forall2 (fun s t => recompute s (t_chal t) (t_resp t) = Ok (t_com t) /\ t_chal t = c' /\
        Cons R' s (t_resp t) /\ PreRel s (t_pre t)) subs ts).
    { intros R' HR'.
      eapply (mapM_inv _ (fun x => env x = env st)) with (s := s0) (s' := s1); eauto; [congruence|].
      intros x a t b0 Hx Ha Hs. split; [rewrite (keeps_simulate_proof _ _ _ _ _ _ Hs); auto|].
      rewrite Forall_forall in *.
      assert (I : incl (svars x) (svars (SAnd subs b))) by (apply svars_sub; auto).
      destruct (IH x Hx (Some rd') (Some c') a t b0) as (A1 & A2 & A3 & A4 & A5); auto.
      - rewrite Ha. eapply coh_incl; eauto.
      - intros d0 X. injection X as <-. exists R'. rewrite Ha. eapply covers_incl; eauto.
      - split; auto. split; auto. split; auto. apply (A3 rd'); auto. rewrite Ha.
        eapply covers_incl; eauto. }
    cbn [t_com t_chal t_resp t_pre].
    assert (HRE : recompute (SAnd subs b) c' (VList (map t_resp ts)) = Ok (VList (map t_com ts))).
    { specialize (G R HR). apply recompute_and_ok; rewrite ?map_length;
        try (symmetry; eapply Forall2_len; eauto; fail).
      clear -G. induction G as [|s t l m (A & B & _) G IHG]; simpl; constructor; auto.
      simpl. now rewrite <- B. }
    assert (HC : forall R', covers (env st) rd' R' (svars (SAnd subs b)) ->
      Cons R' (SAnd subs b) (VList (map t_resp ts))).
    { intros R' HR'. specialize (G R' HR'). constructor. rewrite Forall2_map_r.
      eapply Forall2_impl; [|apply G]. simpl. tauto. }
    split; [exact HRE|]. split; [intros c0 ->; simpl in E0; minvs; auto|].
    split; [|split].
    + intros d0 R' X HR'. apply HC. rewrite (Ed _ X). exact HR'.
    + exists R. auto.
    + constructor. rewrite Forall2_map_r. eapply Forall2_impl; [|apply (G R HR)]. simpl. tauto.
  - rewrite simulate_or in H. minvs. rename a into c'. rename a0 into ts.
    assert (Ec : env s = env st) by (eapply keeps_or_draw; eauto).
    inversion HW; inversion HP; inversion HB; subst.
    apply (sim_or_loop_ok _ SimOK (env st)) in E0 as (A1 & A2 & A3); auto.
    2:{ intros s1 t. destruct t; simpl; tauto. }
    2:{ intros x o a t b0 Hx Ha Hs. rewrite Forall_forall in *.
        split; [rewrite (keeps_simulate_proof _ _ _ _ _ _ Hs); auto|].
        assert (I : incl (svars x) (svars (SOr subs b ch))) by (apply svars_sub; auto).
        destruct (IH x Hx None o a t b0) as (B1 & B2 & B3 & B4 & B5); auto.
        - rewrite Ha. eapply coh_incl; eauto.
        - discriminate.
        - unfold SimOK. auto. }
    cbn [t_com t_chal t_resp t_pre].
    assert (HC : forall R, Cons R (SOr subs b ch)
      (VTuple [VList (map (fun t => VInt (t_chal t)) ts); VList (map t_resp ts)])).
    { intros R. constructor. rewrite Forall2_map_r. eapply Forall2_impl; [|apply A2].
      unfold SimOK. simpl. tauto. }
    split; [|split; [intros c0 ->; simpl in E; minvs; auto|split; [auto|split; [exists (fun _ => 0); auto|]]]].
    + rewrite <- (map_map t_chal VInt).
      apply recompute_or_ok; rewrite ?map_length; try (symmetry; eapply Forall2_len; eauto; fail).
      * apply (residual_zero _ (removelast (map t_chal ts))); [unfold challenge_length; lia|]. exact A3.
      * clear -A2. intros i s ci r com N1 N2 N3 N4. revert i N1 N2 N3 N4.
        induction A2 as [|x t l m (B & _) A2 IHA]; intros [|i] N1 N2 N3 N4; simpl in *; try discriminate.
        -- congruence.
        -- eauto.
    + constructor. rewrite Forall2_map_r. eapply Forall2_impl; [|apply A2]. unfold SimOK. simpl. tauto.
  - inversion HB.
  - simpl in H. minvs. inversion HW; inversion HP; inversion HB; subst.
    edestruct (IH rd c st a) as (A1 & A2 & A3 & (R & A4) & A5); eauto.
    cbn [t_com t_chal t_resp t_pre]. simpl recompute. repeat split; auto.
    + intros d R' X HR'. constructor. eapply A3; eauto.
    + exists R. constructor; auto.
    + constructor; auto.
Qed.
End S.

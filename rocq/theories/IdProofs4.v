(** What the hash input determines; the wire; other accepted responses. *)
From Coq Require Import String Znumtheory.
From Verif Require Import Base World Val Expr Utils Stmt Prove Verify Spec Claims Shapes Honest Clauses Supply Extract Ident
  Lib DictProofs Keeps Tree Sigma Validate Commit ArithProofs Build Process Ktruth Provers Complete Sound Wire IdProofs IdProofs2 IdProofs3.
Open Scope Z_scope.
Open Scope list_scope.

Section I.
Context {W : World}.

(** ** The hash input (C19) *)
Lemma fs_arg_framed v : framed v -> fs_arg v = encode v.
Proof. destruct v; simpl; tauto. Qed.
Lemma prehash_prefix s s' h h' u t : prehash_input s = Ok h -> prehash_input s' = Ok h' -> h ++ u = h' ++ t -> h = h' /\ u = t.
Proof.
  unfold prehash_input. intros H H' E. apply rbind_ok in H as (i & _ & H). apply rbind_ok in H' as (i' & _ & H').
  destruct (pack_prefix (VStr (pystr i)) (VStr (pystr i')) _ _ _ _ u t (WiStr _) (WiStr _) H H' E) as [Ei ->].
  split; auto. unfold encode in *. congruence.
Qed.
Lemma input_framed s s' h h' pre pre' com com' msg msg' i :
  prehash_input s = Ok h -> prehash_input s' = Ok h' ->
  framed pre -> framed pre' -> framed com -> framed com' ->
  Forall faithful (points pre ++ points pre' ++ points com ++ points com') ->
  fs_input h [pre; com] msg = Ok i -> fs_input h' [pre'; com'] msg' = Ok i ->
  h = h' /\ norm pre = norm pre' /\ norm com = norm com' /\ msg = msg'.
Proof.
  intros Hh Hh' P P' C C' F H H'. unfold fs_input in *. simpl rmap in *. rewrite !fs_arg_framed in * by auto.
  destruct (encode pre) as [a|] eqn:E1; [|discriminate]. destruct (encode com) as [b|] eqn:E2; [|discriminate].
  destruct (encode pre') as [a'|] eqn:E1'; [|discriminate]. destruct (encode com') as [b'|] eqn:E2'; [|discriminate].
  simpl in H, H'. injection H as <-. injection H' as H'. rewrite !app_nil_r, <- !app_assoc in H'. symmetry in H'.
  destruct (prehash_prefix _ _ _ _ _ _ Hh Hh' H') as [-> H2]. split; auto.
  rewrite !Forall_app in F. destruct F as (F1 & F2 & F3 & F4).
  destruct (pack_prefix pre pre' _ _ _ _ _ _ (Wired_norm _ F1) (Wired_norm _ F2) E1 E1' H2) as [N1 H3]. split; auto.
  destruct (pack_prefix com com' _ _ _ _ _ _ (Wired_norm _ F3) (Wired_norm _ F4) E2 E2' H3) as [N2 H4]. auto.
Qed.
(** an unframed precommitment *)
Lemma input_unframed h com pc x y : encode com = Ok pc -> framed com ->
  fs_input h [VNone; com] (x ++ pc ++ y) = fs_input h [VBytes ([byte_of 192] ++ pc ++ x); com] y.
Proof.
  intros E F. unfold fs_input. simpl rmap. rewrite (fs_arg_framed com F), E. simpl. f_equal. f_equal.
  rewrite !app_nil_r, <- !app_assoc. reflexivity.
Qed.

(** ** The wire (C36) *)
Lemma index_norm v i : index (norm v) i = match index v i with Ok x => Ok (norm x) | Err e => Err e end.
Proof.
  destruct v; simpl; auto.
  - destruct (nth_error s i); auto.
  - destruct (nth_error b i); auto.
  - rewrite nth_error_map. destruct (nth_error l i); auto.
  - rewrite nth_error_map. destruct (nth_error l i); auto.
Qed.
Lemma as_int_norm v : as_int (norm v) = as_int v. Proof. now destruct v. Qed.
Lemma as_iter_norm v : as_iter (norm v) = match as_iter v with Ok l => Ok (map norm l) | Err e => Err e end.
Proof.
  destruct v; simpl; auto.
  - f_equal. rewrite map_map. reflexivity.
  - f_equal. rewrite map_map. reflexivity.
  - f_equal. rewrite !map_map. apply map_ext. now intros [k x].
Qed.
Lemma wsum_norm g ws ps : wsum_v g (map norm ws) ps = wsum_v g ws ps.
Proof.
  unfold wsum_v. generalize (Ok (inf g) : res pt). revert ps. induction ws as [|w ws IH]; intros [|p ps] a; simpl; auto.
  rewrite IH, as_int_norm. reflexivity.
Qed.
Lemma recompute_dl_norm d c r : recompute_dl d c (norm r) = recompute_dl d c r.
Proof. unfold recompute_dl. rewrite as_iter_norm. destruct (as_iter r); simpl; auto. now rewrite wsum_norm. Qed.
Lemma rmap_as_int_norm l : rmap as_int (map norm l) = rmap as_int l.
Proof. induction l as [|x l IH]; simpl; auto. now rewrite as_int_norm, IH. Qed.
Lemma recompute_norm s : forall c r com, recompute s c r = Ok com -> recompute s c (norm r) = Ok com.
Proof.
  induction s as [d|subs b IH|subs b ch IH|k b q|k b q con IH] using stmt_ind'; intros c r com H.
  - simpl in *. now rewrite recompute_dl_norm.
  - simpl in *. apply rbind_ok in H as (l & H & E). injection E as <-.
    enough (Q : rimap (fun i s => let? ri := index (norm r) i in recompute s c ri) 0 subs = Ok l) by now rewrite Q.
    revert l H. generalize 0%nat as i. induction subs as [|x subs IHs]; intros i l H; simpl in *; auto.
    inversion IH; subst. rewrite index_norm. destruct (index r i) as [ri|]; [|discriminate]. cbn [rbind] in *.
    destruct (recompute x c ri) as [y|] eqn:E; [|discriminate]. cbn [rbind] in H. rewrite (H2 _ _ _ E). cbn [rbind].
    destruct (rimap _ (S i) subs) as [ys|] eqn:E2; [|discriminate]. rewrite (IHs H3 _ _ E2). exact H.
  - simpl in *. rewrite !index_norm. destruct (index r 0) as [chv|]; [|discriminate]. cbn [rbind] in *.
    destruct (index r 1) as [rs|]; [|discriminate]. cbn [rbind] in *.
    destruct (chal_list chv) as [cs|] eqn:EC; [|discriminate]. cbn [rbind] in *.
    destruct chv; try discriminate EC. simpl chal_list in *. simpl norm at 1. cbn [chal_list]. rewrite rmap_as_int_norm, EC. cbn [rbind].
    destruct (_ =? 0); [|discriminate]. apply rbind_ok in H as (l0 & H & E). injection E as <-.
    enough (Q : rimap (fun i s => let? ci := index (norm (VList l)) i in let? ci := as_int ci in let? ri := index (norm rs) i in recompute s ci ri) 0 subs = Ok l0) by now rewrite Q.
    revert l0 H. generalize 0%nat as i. induction subs as [|x subs IHs]; intros i l0 H; simpl in *; auto.
    inversion IH; subst. rewrite nth_error_map, index_norm.
    destruct (nth_error l i) as [ci|]; [|discriminate]. cbn [rbind option_map] in *. rewrite as_int_norm. destruct (as_int ci) as [ci'|]; [|discriminate]. cbn [rbind] in *.
    destruct (index rs i) as [ri|]; [|discriminate]. cbn [rbind] in *.
    destruct (recompute x ci' ri) as [y|] eqn:E; [|discriminate]. cbn [rbind] in H. rewrite (H2 _ _ _ E). cbn [rbind].
    destruct (rimap _ (S i) subs) as [ys|] eqn:E2; [|discriminate]. rewrite (IHs H3 _ _ E2). exact H.
  - discriminate H.
  - simpl in *. auto.
Qed.

Definition nd (d : dict val) : dict val := map (fun kx => (fst kx, norm (snd kx))) d.
Lemma dget_nd e d x : dget e (nd d) x = option_map norm (dget e d x).
Proof. induction d as [|[k v] d IH]; simpl; auto. destruct (sec_eqb e k x); auto. Qed.
Lemma dset_nd e d x v : dset e (nd d) x (norm v) = nd (dset e d x v).
Proof. induction d as [|[k u] d IH]; simpl; auto. destruct (sec_eqb e k x); simpl; auto. now rewrite IH. Qed.
Lemma cdl_norm e r ss : forall i d d', cdl_loop e r i ss d = Ok (Some d') -> cdl_loop e (norm r) i ss (nd d) = Ok (Some (nd d')).
Proof.
  induction ss as [|x ss IH]; intros i d d' H; simpl in *; [congruence|]. rewrite dget_nd, index_norm.
  destruct (dget e d x) as [v|]; simpl; destruct (index r i) as [ri|]; try discriminate; simpl in *.
  - destruct (val_eqb ri v) eqn:E; [|discriminate]. apply val_eqb_eq in E as ->. rewrite val_eqb_refl. auto.
  - rewrite dset_nd. auto.
Qed.
Lemma consistent_norm e s : forall v r d d', consistent e s v r d = Ok (Some d') -> consistent e s v (norm r) (nd d) = Ok (Some (nd d')).
Proof.
  induction s as [d0|subs b IH|subs b ch IH|k b q|k b q con IH] using stmt_ind'; intros v r d d' H; destruct v as [|vs|vs|[w|]]; try discriminate H.
  - apply (cdl_norm e r (dl_secs d0) 0 d d' H).
  - rewrite consistent_and in *. revert vs d H. generalize 0%nat as i. induction subs as [|x subs IHs]; intros i [|w vs] d H; simpl in *; try congruence.
    inversion IH; subst. rewrite index_norm. destruct (index r i) as [ri|]; [|discriminate]. cbn [rbind] in *.
    destruct (consistent e x w ri d) as [[o|]|] eqn:E; try discriminate. rewrite (H2 _ _ _ _ E). cbn [rbind] in *. auto.
  - rewrite consistent_or in *. revert vs H. generalize 0%nat as i. induction subs as [|x subs IHs]; intros i [|w vs] H; simpl in *; try congruence.
    inversion IH; subst. rewrite index_norm. destruct (index r 1) as [rs|]; [|discriminate]. cbn [rbind] in *.
    rewrite index_norm. destruct (index rs i) as [ri|]; [|discriminate]. cbn [rbind] in *.
    destruct (consistent e x w ri []) as [[o|]|] eqn:E; try discriminate. change (@nil (secret * val)) with (nd []) at 1. rewrite (H2 _ _ _ _ E). cbn [rbind] in *. auto.
  - cbn [consistent] in *. destruct con; auto.
Qed.

Lemma verify_norm s z msg st b s1 st1 : verify s z msg st = Ok ((b, s1), st1) ->
  verify s (mkNizk (n_chal z) (norm (n_resp z)) (n_pre z) (n_hash z)) msg st = Ok ((b, s1), st1).
Proof.
  intros H. apply verify_inv in H as (v & h & com & i & E1 & E2 & E3 & E4 & E5 & E6 & ->).
  apply (verify_run s (mkNizk (n_chal z) (norm (n_resp z)) (n_pre z) (n_hash z)) msg st v s1 st1 h com i); auto.
  - unfold pre_validation in *. destruct (full_validate s1); [|discriminate]. cbn [rbind n_resp] in *.
    destruct (consistent (env st1) s1 v (n_resp z) []) as [[d|]|] eqn:E; try discriminate.
    change (@nil (secret * val)) with (nd []). now rewrite (consistent_norm _ _ _ _ _ _ E).
  - now apply recompute_norm.
Qed.

(** and back *)
Lemma po_index r i a : pairs_only r -> index r i = Ok a -> pairs_only a.
Proof.
  intros P H. destruct P; simpl in H; try discriminate.
  - destruct (nth_error s i); [injection H as <-; constructor|discriminate].
  - destruct (nth_error s i); [injection H as <-; constructor|discriminate].
  - destruct (nth_error l i) eqn:E; [injection H as <-|discriminate]. apply nth_error_In in E. rewrite Forall_forall in *. auto.
  - destruct i as [|[|i]]; simpl in H; [injection H as <-; now constructor|injection H as <-; now constructor|].
    destruct i; discriminate.
Qed.
Lemma recompute_unnorm s : forall c r com, pairs_only r -> recompute s c (norm r) = Ok com -> recompute s c r = Ok com.
Proof.
  induction s as [d|subs b IH|subs b ch IH|k b q|k b q con IH] using stmt_ind'; intros c r com P H.
  - simpl in *. now rewrite recompute_dl_norm in H.
  - simpl in *. apply rbind_ok in H as (l & H & E). injection E as <-.
    enough (Q : rimap (fun i s => let? ri := index r i in recompute s c ri) 0 subs = Ok l) by now rewrite Q.
    revert l H. generalize 0%nat as i. induction subs as [|x subs IHs]; intros i l H; simpl in *; auto.
    inversion IH; subst. rewrite index_norm in H. destruct (index r i) as [ri|] eqn:EI; [|discriminate]. cbn [rbind] in *.
    destruct (recompute x c (norm ri)) as [y|] eqn:E; [|discriminate]. cbn [rbind] in H.
    rewrite (H2 _ _ _ (po_index _ _ _ P EI) E). cbn [rbind].
    destruct (rimap _ (S i) subs) as [ys|] eqn:E2; [|discriminate]. rewrite (IHs H3 _ _ E2). exact H.
  - simpl in *. rewrite !index_norm in H. destruct (index r 0) as [chv|] eqn:E0; [|discriminate]. cbn [rbind] in *.
    destruct (index r 1) as [rs|] eqn:E1; [|discriminate]. cbn [rbind] in *.
    destruct (chal_list (norm chv)) as [cs|] eqn:EC; [|discriminate]. cbn [rbind] in *.
    assert (Q : exists l, chv = VList l).
    { assert (PC := po_index _ _ _ P E0). destruct PC; try discriminate EC; eauto. }
    destruct Q as [l ->]. simpl in EC. rewrite rmap_as_int_norm in EC. cbn [chal_list]. rewrite EC. cbn [rbind].
    destruct (_ =? 0); [|discriminate]. apply rbind_ok in H as (l0 & H & E). injection E as <-.
    assert (PR := po_index _ _ _ P E1).
    enough (Q : rimap (fun i s => let? ci := index (VList l) i in let? ci := as_int ci in let? ri := index rs i in recompute s ci ri) 0 subs = Ok l0) by now rewrite Q.
    revert l0 H. generalize 0%nat as i. induction subs as [|x subs IHs]; intros i l0 H; simpl in *; auto.
    inversion IH; subst. rewrite nth_error_map, index_norm in H.
    destruct (nth_error l i) as [ci|]; [|discriminate]. cbn [rbind option_map] in *. rewrite as_int_norm in H. destruct (as_int ci) as [ci'|]; [|discriminate]. cbn [rbind] in *.
    destruct (index rs i) as [ri|] eqn:EI; [|discriminate]. cbn [rbind] in *.
    destruct (recompute x ci' (norm ri)) as [y|] eqn:E; [|discriminate]. cbn [rbind] in H.
    rewrite (H2 _ _ _ (po_index _ _ _ PR EI) E). cbn [rbind].
    destruct (rimap _ (S i) subs) as [ys|] eqn:E2; [|discriminate]. rewrite (IHs H3 _ _ E2). exact H.
  - discriminate H.
  - simpl in *. auto.
Qed.

Lemma wsum_v_ints ws : forall ps acc x, 
  fold_left (fun acc wp => let? a := acc in let? w := as_int (fst wp) in padd_chk a (pmul w (snd wp))) (combine ws ps) acc = Ok x ->
  forall i a, nth_error ws i = Some a -> (i < List.length ps)%nat -> exists z, a = VInt z.
Proof.
  induction ws as [|w ws IH]; intros [|p ps] acc x H i a N L; simpl in *; try lia; [destruct i; discriminate|].
  destruct i as [|i]; simpl in N.
  - injection N as <-. destruct acc as [a0|]; simpl in H; [|rewrite wsum_v_err in H; discriminate].
    destruct w; simpl in H; try (rewrite wsum_v_err in H; discriminate). eauto.
  - eapply (IH ps _ _ H i); eauto. lia.
Qed.
Lemma recompute_dl_ints d c r com i a : recompute_dl d c r = Ok com -> index r i = Ok a -> (i < List.length (dl_bases d))%nat -> exists z, a = VInt z.
Proof.
  intros H I L. unfold recompute_dl in H. apply rbind_ok in H as (ws & E & H). apply rbind_ok in H as (x & E2 & _).
  eapply wsum_v_ints; eauto. eapply as_iter_index; eauto.
Qed.
Definition intd (d : dict val) : Prop := forall k v, In (k, v) d -> exists z, v = VInt z.
Lemma intd_nil : intd []. Proof. intros k v []. Qed.
Lemma intd_nd d : intd d -> nd d = d.
Proof.
  induction d as [|[k v] d IH]; intros H; auto. simpl. rewrite IH by (intros k0 v0 H0; apply (H k0); now right).
  destruct (H k v (or_introl eq_refl)) as [z ->]. reflexivity.
Qed.
Lemma intd_set e d x z : intd d -> intd (dset e d x (VInt z)).
Proof.
  intros H k v I. apply dset_in in I as [I|(-> & _)]; eauto.
Qed.
Lemma cdl_unnorm e d0 c r com : recompute_dl d0 c r = Ok com -> forall ss i d d', (i + List.length ss <= List.length (dl_bases d0))%nat -> intd d ->
  cdl_loop e (norm r) i ss d = Ok (Some d') -> cdl_loop e r i ss d = Ok (Some d') /\ intd d'.
Proof.
  intros R. induction ss as [|x ss IH]; intros i d d' L D H; simpl in *; [split; [exact H|injection H as <-; exact D]|]. rewrite index_norm in H.
  destruct (dget e d x) as [v|] eqn:G; simpl; destruct (index r i) as [ri|] eqn:EI; try discriminate; simpl in *.
  - destruct (recompute_dl_ints _ _ _ _ _ _ R EI ltac:(lia)) as [z ->]. cbn [norm] in H.
    destruct (val_eqb (VInt z) v); [|discriminate]. apply (IH (S i)) in H; auto. lia.
  - destruct (recompute_dl_ints _ _ _ _ _ _ R EI ltac:(lia)) as [z ->]. cbn [norm] in H.
    apply (IH (S i)) in H; auto; [lia|]. now apply intd_set.
Qed.
Lemma consistent_unnorm e s : wfs s -> forall v r c com d d', recompute s c r = Ok com -> intd d ->
  consistent e s v (norm r) d = Ok (Some d') -> consistent e s v r d = Ok (Some d') /\ intd d'.
Proof.
  induction s as [d0|subs b IH|subs b ch IH|k b q|k b q con IH] using stmt_ind'; intros WF v r c com d d' R D H; inversion WF; subst;
    destruct v as [|vs|vs|[w|]]; try discriminate H.
  - simpl in R. apply (cdl_unnorm e d0 c r com R (dl_secs d0) 0 d d'); auto. simpl. lia.
  - rewrite consistent_and in *. apply recompute_and_inv in R as (l & -> & R).
    assert (R' : forall j s, nth_error subs j = Some s -> exists ri y, index r (0 + j) = Ok ri /\ recompute s c ri = Ok y).
    { intros j s N. destruct (R j s N) as (ri & y & A & _ & B). eauto. }
    clear R WF. match goal with X : Forall wfs _ |- _ => rename X into WS end.
    revert vs d D H R'. generalize 0%nat as i. induction subs as [|x subs IHs]; intros i [|w vs] d D H R'; simpl in *; try (split; [exact H|injection H as <-; exact D]).
    inversion IH; inversion WS; subst. rewrite index_norm in H. destruct (index r i) as [ri|] eqn:EI; [|discriminate]. cbn [rbind] in *.
    destruct (consistent e x w (norm ri) d) as [[o|]|] eqn:E; try discriminate.
    destruct (R' 0%nat x eq_refl) as (r2 & y & I2 & R2). rewrite Nat.add_0_r, EI in I2. injection I2 as <-.
    destruct (H2 ltac:(assumption) _ _ _ _ _ _ R2 D E) as [-> D2]. cbn [rbind] in *. apply IHs; auto.
    intros j s N. destruct (R' (S j) s N) as (r3 & y3 & I3 & R3). exists r3, y3. split; auto. now replace (S i + j)%nat with (i + S j)%nat by lia.
  - rewrite consistent_or in *. apply recompute_or_inv in R as (chv & rs & cs & l & -> & E0 & E1 & EC & ER & R).
    assert (R' : forall j s, nth_error subs j = Some s -> exists ci ri y, index rs (0 + j) = Ok ri /\ recompute s ci ri = Ok y).
    { intros j s N. destruct (R j s N) as (ci & ri & y & _ & A & _ & B). eauto. }
    clear R WF. match goal with X : Forall wfs _ |- _ => rename X into WS end.
    revert vs H R'. generalize 0%nat as i. induction subs as [|x subs IHs]; intros i [|w vs] H R'; simpl in *; try (split; [exact H|injection H as <-; exact D]).
    inversion IH; inversion WS; subst. rewrite index_norm, E1 in H. cbn [rbind] in *. rewrite index_norm in H. rewrite E1. cbn [rbind].
    destruct (index rs i) as [ri|] eqn:EI; [|discriminate]. cbn [rbind] in *.
    destruct (consistent e x w (norm ri) []) as [[o|]|] eqn:E; try discriminate.
    destruct (R' 0%nat x eq_refl) as (ci & r2 & y & I2 & R2). rewrite Nat.add_0_r, EI in I2. injection I2 as <-.
    destruct (H2 ltac:(assumption) _ _ _ _ _ _ R2 intd_nil E) as [-> D2]. cbn [rbind] in *. apply IHs; auto.
    intros j s N. destruct (R' (S j) s N) as (c3 & r3 & y3 & I3 & R3). exists c3, r3, y3. split; auto. now replace (S i + j)%nat with (i + S j)%nat by lia.
  - cbn [consistent] in *. simpl in R. eapply IH; eauto.
Qed.

Lemma processed_wfs s pre st v s1 st1 : wfs s -> processed s pre st = Ok ((v, s1), st1) -> wfs s1.
Proof.
  unfold processed. destruct (is_none pre); intros WF H; [|apply (process_wfs _ _ _ _ _ _ WF H)].
  apply ret_ok in H as [H _]. now injection H as <- <-.
Qed.
Lemma verify_unnorm s z msg st b s1 st1 : wfs s -> pairs_only (n_resp z) ->
  verify s (mkNizk (n_chal z) (norm (n_resp z)) (n_pre z) (n_hash z)) msg st = Ok ((b, s1), st1) -> verify s z msg st = Ok ((b, s1), st1).
Proof.
  intros WF PO H. apply verify_inv in H as (v & h & com & i & E1 & E2 & E3 & E4 & E5 & E6 & ->). cbn [n_chal n_resp n_pre n_hash] in *.
  apply recompute_unnorm in E5; auto.
  apply (verify_run s z msg st v s1 st1 h com i); auto.
  unfold pre_validation in *. destruct (full_validate s1); [|discriminate]. cbn [rbind n_resp] in *.
  destruct (consistent (env st1) s1 v (norm (n_resp z)) []) as [[d|]|] eqn:E; try discriminate.
  apply (consistent_unnorm _ _ (processed_wfs _ _ _ _ _ _ WF E1) _ _ _ _ _ _ E5) in E as [-> _]; [reflexivity|exact intd_nil].
Qed.

Lemma roundtrip z b : serialize z = Ok b -> Forall faithful (points (n_resp z) ++ points (n_pre z) ++ points (n_hash z)) ->
  deserialize b = Ok (mkNizk (n_chal z) (norm (n_resp z)) (norm (n_pre z)) (norm (n_hash z))).
Proof.
  intros H F. unfold serialize in H. apply rbind_ok in H as (b1 & E1 & H). apply rbind_ok in H as (b2 & E2 & H).
  apply rbind_ok in H as (b3 & E3 & H). apply rbind_ok in H as (b4 & E4 & H).
  rewrite !Forall_app in F. destruct F as (F2 & F3 & F4).
  unfold deserialize. rewrite (decode_ok _ (VList [VBytes b1; VBytes b2; VBytes b3; VBytes b4]) _ ltac:(repeat constructor) H).
  simpl. rewrite (decode_ok _ _ _ (WiInt _) E1), (decode_ok _ _ _ (Wired_norm _ F2) E2), (decode_ok _ _ _ (Wired_norm _ F3) E3), (decode_ok _ _ _ (Wired_norm _ F4) E4).
  reflexivity.
Qed.
End I.

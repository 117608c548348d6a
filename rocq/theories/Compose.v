(** The two composition checks characterised. *)
From Coq Require Import String.
From Verif Require Import Base World Val Expr Utils Stmt Prove Verify Spec Shapes Lib DictProofs Keeps Tree Sigma Validate Clauses.
Open Scope Z_scope.
Open Scope list_scope.

Section C.
Context {W : World}.

Lemma rmap_unit {A B} (f : A -> res B) (er : exn) l :
  Forall (fun x => (exists y, f x = Ok y) \/ f x = Err er) l ->
  (exists ys, rmap f l = Ok ys) \/ (rmap f l = Err er /\ exists x, In x l /\ f x = Err er).
Proof.
  induction 1 as [|x l [(y & E)|E] _ IH]; simpl; eauto.
  - rewrite E. cbn [rbind]. destruct IH as [(ys & ->)|(-> & z & Hz & Ez)]; simpl; eauto 6.
  - rewrite E. simpl. eauto 6.
Qed.
Lemma rmap_in {A B} (f : A -> res B) l ys x : rmap f l = Ok ys -> In x l -> exists y, f x = Ok y.
Proof.
  intros H. apply rmap_ok in H. induction H; intros [].
  - subst. eauto.
  - auto.
Qed.

Lemma sec_count_app e x a b : sec_count e x (a ++ b) = (sec_count e x a + sec_count e x b)%nat.
Proof. unfold sec_count. now rewrite filter_app, app_length. Qed.
Lemma sec_count_pos e x l : (0 < sec_count e x l)%nat <-> exists y, In y l /\ same_secret e x y.
Proof.
  unfold sec_count, same_secret. split.
  - intros H. destruct (filter _ l) as [|y m] eqn:E; [simpl in H; lia|].
    assert (In y (filter (fun t => sec_eqb e t x) l)) as K by (rewrite E; now left).
    apply filter_In in K as [K1 K2]. apply sec_eqb_iff in K2. exists y. intuition congruence.
  - intros (y & H & E1 & E2). assert (In y (filter (fun t => sec_eqb e t x) l)) as K.
    { apply filter_In. split; auto. apply sec_eqb_iff. auto. }
    destruct (filter _ l); [destruct K|simpl; lia].
Qed.
Lemma sec_count_cong e x y l : sec_eqb e x y = true -> sec_count e x l = sec_count e y l.
Proof.
  intros H. unfold sec_count. f_equal. apply filter_ext. intros t. now apply sec_eqb_cong.
Qed.

Lemma clause_svars s pre o post : clause svars s pre o post -> svars s = pre ++ svars o ++ post.
Proof.
  induction 1; simpl.
  - now rewrite app_nil_r.
  - rewrite map_app, concat_app. simpl. rewrite IHclause. now rewrite <- !app_assoc.
Qed.
Lemma clause_built s pre o post : clause svars s pre o post -> built s -> built o.
Proof.
  induction 1; intros B; auto. inversion B as [|? ? F| |]; subst. apply IHclause.
  rewrite Forall_forall in F. apply F, in_app_iff. right. now left.
Qed.

Lemma reocc_some e s : built s -> forall f,
  (validate_reoccurence e s (Some f) = Ok tt /\
   forall pre o post x, clause svars s pre o post -> In x (svars o) -> (sec_count e x f <= sec_count e x (svars o))%nat) \/
  (validate_reoccurence e s (Some f) = Err EInvalidSecrets /\
   exists pre o post x, clause svars s pre o post /\ In x (svars o) /\ (sec_count e x (svars o) < sec_count e x f)%nat).
Proof.
  induction s as [d|subs b IH|subs b ch IH|k b q|k b q con IH] using stmt_ind'; intros B f.
  - left. split; auto. intros pre o post x C. inversion C.
  - inversion B as [|? ? FB| |]; subst. cbn [validate_reoccurence rbind].
    assert (F : Forall (fun x => (exists y, validate_reoccurence e x (Some f) = Ok y) \/
                                 validate_reoccurence e x (Some f) = Err EInvalidSecrets) subs).
    { rewrite Forall_forall in *. intros x Hx. destruct (IH x Hx (FB x Hx) f) as [[-> _]|[-> _]]; eauto. }
    apply rmap_unit in F as [(ys & E)|(E & x & Hx & Ex)].
    + left. rewrite E. split; auto. intros pre o post x C Hin. inversion C as [|? s1 ? ? ? ? ? C']; subst.
      assert (Hs : In s1 (l1 ++ s1 :: l2)) by (apply in_app_iff; right; now left).
      destruct (rmap_in _ _ _ s1 E Hs) as (y & Ey). rewrite Forall_forall in IH, FB.
      destruct (IH s1 Hs (FB s1 Hs) f) as [[_ K]|[K _]]; [eauto|congruence].
    + right. rewrite E. split; auto. rewrite Forall_forall in IH, FB.
      destruct (IH x Hx (FB x Hx) f) as [[K _]|(_ & pre & o & post & u & C & Hu & L)]; [congruence|].
      apply in_split in Hx as (l1 & l2 & ->).
      exists (List.concat (map svars l1) ++ pre), o, (post ++ List.concat (map svars l2)), u.
      split; auto. now constructor.
  - cbn [validate_reoccurence]. rewrite (built_svars _ B). cbn [rbind].
    set (sv := svars (SOr subs b ch)). destruct (existsb _ (sec_set e sv)) eqn:E.
    + right. split; auto. apply existsb_exists in E as (x & Hx & L). apply Nat.ltb_lt in L.
      exists [], (SOr subs b ch), [], x. split; [constructor|]. split; auto. eapply sec_set_incl; eauto.
    + left. split; auto. intros pre o post x C Hx. inversion C; subst. fold sv in Hx |- *.
      destruct (Nat.le_gt_cases (sec_count e x f) (sec_count e x sv)) as [|G]; auto. exfalso.
      assert (existsb (fun x => (sec_count e x sv <? sec_count e x f)%nat) (sec_set e sv) = true); [|congruence].
      destruct (proj2 (sec_set_spec e sv x)) as (t & Ht & Et); [exists x; split; auto; apply sec_eqb_refl|].
      apply existsb_exists. exists t. split; auto. apply Nat.ltb_lt.
      now rewrite !(sec_count_cong e t x).
  - left. split; auto. intros pre o post x C. inversion C.
  - left. split; auto. intros pre o post x C. inversion C.
Qed.

Lemma reocc_and e subs b : built (SAnd subs b) ->
  (validate_reoccurence e (SAnd subs b) None = Ok tt /\ ~ inside_and_outside e (SAnd subs b)) \/
  (validate_reoccurence e (SAnd subs b) None = Err EInvalidSecrets /\ inside_and_outside e (SAnd subs b)).
Proof.
  intros B. replace (validate_reoccurence e (SAnd subs b) None) with
    (validate_reoccurence e (SAnd subs b) (Some (svars (SAnd subs b)))).
  2: { cbn [validate_reoccurence]. now rewrite (built_svars _ B). }
  destruct (reocc_some e _ B (svars (SAnd subs b))) as [[E K]|(E & pre & o & post & x & C & Hx & L)].
  - left. split; auto. intros (pre & o & post & x & y & C & Hx & Hy & S).
    specialize (K pre o post x C Hx). rewrite (clause_svars _ _ _ _ C), !sec_count_app in K.
    assert (0 < sec_count e x (pre ++ post))%nat by (apply sec_count_pos; eauto).
    rewrite sec_count_app in *. lia.
  - right. split; auto. rewrite (clause_svars _ _ _ _ C), !sec_count_app in L.
    assert (0 < sec_count e x (pre ++ post))%nat as P by (rewrite sec_count_app; lia).
    apply sec_count_pos in P as (y & Hy & S). exists pre, o, post, x, y. auto.
Qed.

Lemma nth_combine {A B} (l : list A) (m : list B) i x y :
  nth_error (combine l m) i = Some (x, y) <-> nth_error l i = Some x /\ nth_error m i = Some y.
Proof.
  revert m i. induction l as [|u l IH]; intros [|v m] [|i]; simpl; split; intros H;
    try discriminate; try (destruct H; discriminate).
  - injection H as -> ->. auto.
  - destruct H as [H1 H2]. congruence.
  - now apply IH.
  - now apply IH.
Qed.
Lemma agree_clash e ss bs : List.length ss = List.length bs -> orders_agree e ss bs -> ~ order_clash e ss bs.
Proof.
  intros L H (x & b & y & c & H1 & H2 & [N V] & K).
  apply In_nth_error in H1 as (i & H1). apply In_nth_error in H2 as (j & H2).
  apply nth_combine in H1 as [A1 A2]. apply nth_combine in H2 as [B1 B2].
  apply K, (H i j x y b c); auto. apply sec_eqb_iff. auto.
Qed.

Lemma vgo_cases e s bs : built s -> get_bases s = Ok bs -> List.length (svars s) = List.length bs ->
  (validate_group_orders e s = Ok tt /\ ~ order_clash e (svars s) bs) \/
  (validate_group_orders e s = Err EGroupMismatch /\ order_clash e (svars s) bs).
Proof.
  intros B Eb L. assert (Es := built_svars s B).
  destruct (validate_group_orders e s) as [[]|er] eqn:E.
  - left. split; auto. apply agree_clash; auto. eapply vgo_iff; eauto.
  - right. rewrite vgo_unfold, Es, Eb in E. cbn [rbind] in E.
    assert (I := my_dict_inv e (svars s)). destruct I as [I1 I2].
    assert (NB : forall i, (i < List.length (svars s))%nat -> exists b, nth_error bs i = Some b).
    { intros i Hi. destruct (nth_error bs i) eqn:Ei; eauto. apply nth_error_None in Ei. lia. }
    match type of E with rbind (rmap ?F _) _ = _ => set (f := F) in E end.
    assert (K : Forall (fun wl => (exists y, f wl = Ok y) \/ f wl = Err EGroupMismatch) (my_dict e (svars s))).
    { apply Forall_forall. intros [w l] Hwl. destruct (I1 w l Hwl) as [Hne Hl]. unfold f. cbn [snd].
      assert (In (hd 0%nat l) l) as Hh by (destruct l; [congruence|left; auto]).
      destruct (Hl _ Hh) as (s0 & N0 & _). destruct (NB (hd 0%nat l)) as (b0 & ->); [apply nth_error_Some; congruence|].
      cbn [rbind]. edestruct (rmap_unit (fun i => match nth_error bs i with
                 | Some b => if order (grp b) =? order (grp b0) then Ok tt else Err EGroupMismatch
                 | None => Err EIndexErr end) EGroupMismatch l) as [X|[X _]]; eauto.
      apply Forall_forall. intros i Hi. destruct (Hl i Hi) as (s1 & N1 & _).
      destruct (NB i) as (b1 & ->); [apply nth_error_Some; congruence|]. destruct (_ =? _); eauto. }
    apply rmap_unit in K as [(ys & K)|(K & [w l] & Hwl & Kx)]; rewrite K in E; cbn [rbind] in E; [discriminate|].
    injection E as <-. split; auto.
    destruct (I1 w l Hwl) as [Hne Hl]. unfold f in Kx. cbn [snd] in Kx.
    assert (In (hd 0%nat l) l) as Hh by (destruct l; [congruence|left; auto]).
    destruct (Hl _ Hh) as (s0 & N0 & E0). destruct (NB (hd 0%nat l)) as (b0 & B0); [apply nth_error_Some; congruence|].
    rewrite B0 in Kx. cbn [rbind] in Kx.
    edestruct (rmap_unit (fun i => match nth_error bs i with
                 | Some b => if order (grp b) =? order (grp b0) then Ok tt else Err EGroupMismatch
                 | None => Err EIndexErr end) EGroupMismatch l) as [(ys & X)|(X & i & Hi & Xi)].
    { apply Forall_forall. intros i Hi. destruct (Hl i Hi) as (s1 & N1 & _).
      destruct (NB i) as (b1 & ->); [apply nth_error_Some; congruence|]. destruct (_ =? _); eauto. }
    { rewrite X in Kx. discriminate. }
    destruct (Hl i Hi) as (s1 & N1 & E1). destruct (nth_error bs i) as [b1|] eqn:B1; [|discriminate].
    destruct (order (grp b1) =? order (grp b0)) eqn:Q; [discriminate|]. apply Z.eqb_neq in Q.
    apply sec_eqb_iff in E0 as [? ?]. apply sec_eqb_iff in E1 as [? ?].
    exists s1, b1, s0, b0. repeat split; try congruence.
    + apply (nth_error_In _ i). apply nth_combine; auto.
    + apply (nth_error_In _ (hd 0%nat l)). apply nth_combine; auto.
Qed.

Lemma validate_and_cases e subs b bs : let s := SAnd subs b in
  built s -> get_bases s = Ok bs -> List.length (svars s) = List.length bs ->
  (validate_and e s = Err EGroupMismatch /\ order_clash e (svars s) bs) \/
  (~ order_clash e (svars s) bs /\ validate_and e s = Err EInvalidSecrets /\ inside_and_outside e s) \/
  (~ order_clash e (svars s) bs /\ ~ inside_and_outside e s /\ validate_and e s = Ok tt).
Proof.
  intros s B Eb L. unfold validate_and.
  destruct (vgo_cases e s bs B Eb L) as [[-> K]|[-> K]]; cbn [rbind]; [|auto].
  destruct (reocc_and e subs b B) as [[E N]|[E N]]; fold s in E, N; rewrite E; auto.
Qed.
End C.

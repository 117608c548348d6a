(** Statement objects with identity, and statements as values: dictionaries, equivalent statements, relations. *)
From Coq Require Import String.
From Verif Require Import Base World Val Expr Utils Stmt Prove Verify Spec Shapes Lib DictProofs Keeps Tree Objects Sharing.
Open Scope Z_scope.
Open Scope list_scope.

(** ** Related computations *)
Definition mrel {A B} (R : A -> B -> st -> Prop) (m : res (A * st)) (n : res (B * st)) : Prop :=
  match m, n with
  | Ok (a, s), Ok (b, s') => s = s' /\ R a b s
  | Err e, Err e' => e = e'
  | _, _ => False
  end.
Lemma mrel_bind {A B C D} (R : A -> B -> st -> Prop) (Q : C -> D -> st -> Prop) (m : M A) (n : M B) f g s :
  mrel R (m s) (n s) -> (forall a b s', R a b s' -> mrel Q (f a s') (g b s')) -> mrel Q (bind m f s) (bind n g s).
Proof.
  unfold mrel, bind. destruct (m s) as [[a sa]|e], (n s) as [[b sb]|e']; intros H K; try contradiction; auto.
  destruct H as [<- H]. apply K; auto.
Qed.
Lemma mrel_ret {A B} (R : A -> B -> st -> Prop) a b s : R a b s -> mrel R (ret a s) (ret b s).
Proof. simpl. auto. Qed.
Lemma mrel_refl {A} (m : M A) s : mrel (fun a b s' => a = b /\ m s = Ok (a, s')) (m s) (m s).
Proof. unfold mrel. destruct (m s) as [[a s']|e]; auto. Qed.
Lemma mrel_weak {A B} (R Q : A -> B -> st -> Prop) m n : mrel R m n -> (forall a b s, R a b s -> Q a b s) -> mrel Q m n.
Proof. unfold mrel. destruct m as [[a s]|], n as [[b s']|]; intuition. Qed.
Lemma mrel_step {A B C} (Q : B -> C -> st -> Prop) (m : M A) f g s :
  (forall a s', m s = Ok (a, s') -> mrel Q (f a s') (g a s')) -> mrel Q (bind m f s) (bind m g s).
Proof. intros H. eapply mrel_bind; [apply mrel_refl|]. intros a b s' [-> E]. auto. Qed.

(** ** Updating dictionaries twice *)
Section D.
Variable e : nat -> option Z.
Implicit Types d : dict Z.
Lemma dset_twice d s t v w : sec_eqb e s t = true -> dset e (dset e d s v) t w = dset e d s w.
Proof.
  intros H. induction d as [|[k x] d IH]; simpl.
  - now rewrite H.
  - destruct (sec_eqb e k s) eqn:E; simpl.
    + now rewrite (sec_eqb_trans e k s t E H).
    + destruct (sec_eqb e k t) eqn:F; [|now rewrite IH].
      rewrite sec_eqb_sym in H. rewrite (sec_eqb_trans e k t s F H) in E. discriminate.
Qed.
Lemma dset_cong d s t v : sec_eqb e s t = true -> dmem e d s = true -> dset e d s v = dset e d t v.
Proof.
  intros H. induction d as [|[k x] d IH]; simpl; [discriminate|].
  rewrite (sec_eqb_cong e s t k H). unfold dmem. simpl. rewrite (sec_eqb_cong e s t k H).
  destruct (sec_eqb e k t) eqn:E; auto. intros M. f_equal. apply IH. exact M.
Qed.
Lemma dset_comm d s t v w : sec_eqb e s t = false -> dmem e d t = true ->
  dset e (dset e d s v) t w = dset e (dset e d t w) s v.
Proof.
  intros H. induction d as [|[k x] d IH]; [discriminate|]. unfold dmem. simpl.
  destruct (sec_eqb e k t) eqn:E; simpl.
  - intros _. assert (F : sec_eqb e k s = false).
    { destruct (sec_eqb e k s) eqn:F; auto. rewrite sec_eqb_sym in F. rewrite (sec_eqb_trans e s k t F E) in H. discriminate. }
    rewrite F. simpl. now rewrite E, ?F.
  - intros M. destruct (sec_eqb e k s) eqn:F; simpl; rewrite ?E, ?F; auto. now rewrite IH.
Qed.
Lemma dset_mem_keep d s v t : dmem e d t = true -> dmem e (dset e d s v) t = true.
Proof. intros H. rewrite dmem_dset, H. apply orb_true_r. Qed.
Definition upall (l d : dict Z) : dict Z := fold_left (fun d kv => dset e d (fst kv) (snd kv)) l d.
Definition present (l d : dict Z) : Prop := forall k v, In (k, v) l -> dmem e d k = true.
Lemma upall_last l : forall d k v, present l d -> dset e (upall l (dset e d k v)) k v = dset e (upall l d) k v.
Proof.
  induction l as [|[k2 v2] l IH]; intros d k v P; simpl.
  - apply dset_twice, sec_eqb_refl.
  - assert (M : dmem e d k2 = true) by (eapply P; left; eauto).
    assert (P' : present l (dset e d k2 v2)) by (intros k' v' I; apply dset_mem_keep; eapply P; right; eauto).
    destruct (sec_eqb e k k2) eqn:E.
    + rewrite (dset_twice d k k2 v v2 E).
      assert (Mk : dmem e d k = true) by (unfold dmem; rewrite (dget_cong e d k k2 E); exact M).
      now rewrite (dset_cong d k k2 v2 E Mk).
    + rewrite dset_comm by auto. apply IH. exact P'.
Qed.
Lemma upall_mem l : forall d k, dmem e (upall l d) k = true <-> dmem e d k = true \/ exists k' v, In (k', v) l /\ sec_eqb e k' k = true.
Proof. intros d k. apply dmem_fold. Qed.
Lemma upall_idem l : forall d, upall l (upall l d) = upall l d.
Proof.
  induction l as [|[k v] l IH] using rev_ind; intros d; [reflexivity|].
  unfold upall in *. rewrite !fold_left_app. simpl. fold (upall l d). fold (upall l (dset e (upall l d) k v)).
  rewrite upall_last.
  - unfold upall at 1. rewrite IH. reflexivity.
  - intros k' v' I. apply upall_mem. right. exists k', v'. split; auto. apply sec_eqb_refl.
Qed.
End D.
Lemma dupdate_idem e (d sd : dict Z) : dupdate e (dupdate e d sd) sd = dupdate e d sd.
Proof. apply upall_idem. Qed.
Lemma sec_eqb_ext e e' s t : (forall i, e i = e' i) -> sec_eqb e s t = sec_eqb e' s t.
Proof. intros H. unfold sec_eqb. now rewrite !H. Qed.
Lemma dget_ext {A} e e' (d : dict A) s : (forall i, e i = e' i) -> dget e d s = dget e' d s.
Proof. intros H. induction d as [|[k v] d IH]; simpl; auto. now rewrite (sec_eqb_ext e e' k s H), IH. Qed.
Lemma dset_ext {A} e e' (d : dict A) s v : (forall i, e i = e' i) -> dset e d s v = dset e' d s v.
Proof. intros H. induction d as [|[k w] d IH]; simpl; auto. now rewrite (sec_eqb_ext e e' k s H), IH. Qed.
Lemma dupdate_ext {A} e e' (d' d : dict A) : (forall i, e i = e' i) -> dupdate e d d' = dupdate e' d d'.
Proof.
  intros H. unfold dupdate. revert d. induction d' as [|[k v] l IH]; intros d; simpl; auto.
  now rewrite (dset_ext e e' d k v H), IH.
Qed.

(** ** The values set by update_secret_values *)
Definition upds (sd : dict Z) (e : nat -> option Z) : nat -> option Z :=
  fold_left (fun e (kv : secret * Z) => upd e (sid (fst kv)) (Some (snd kv))) sd e.
Lemma upds_ext sd : forall e e', (forall i, e i = e' i) -> forall i, upds sd e i = upds sd e' i.
Proof.
  induction sd as [|[k v] sd IH]; simpl; auto. intros e e' H. apply IH. intros i. unfold upd.
  destruct (Nat.eqb i (sid k)); auto.
Qed.
Lemma upds_at sd : forall i, (exists v, forall e, upds sd e i = Some v) \/ (forall e, upds sd e i = e i).
Proof.
  induction sd as [|[k v] sd IH]; intros i; [right; auto|]. simpl.
  destruct (IH i) as [[x H]|H]; [left; exists x; intros; apply H|].
  unfold upds in *. simpl. destruct (Nat.eqb i (sid k)) eqn:E.
  - left. exists v. intros e. rewrite H. unfold upd. now rewrite E.
  - right. intros e. rewrite H. unfold upd. now rewrite E.
Qed.
Lemma upds_idem sd e i : upds sd (upds sd e) i = upds sd e i.
Proof. destruct (upds_at sd i) as [[v H]|H]; now rewrite !H. Qed.

Section O.
Context {W : World}.

Lemma obj_ind' (P : obj -> Prop) :
  (forall i lhs bs ss di, P (ODL i lhs bs ss di)) ->
  (forall i subs, Forall P subs -> P (OAnd i subs)) ->
  (forall i subs, Forall P subs -> P (OOr i subs)) ->
  (forall i k, P (OExt i k)) -> forall o, P o.
Proof.
  intros H1 H2 H3 H4. fix IH 1. intros [i lhs bs ss di | i subs | i subs | i k].
  - apply H1.
  - apply H2. induction subs; constructor; [apply IH | auto].
  - apply H3. induction subs; constructor; [apply IH | auto].
  - apply H4.
Qed.

(** ** Statements that differ only in marks, values and choices *)
Inductive eqv : stmt -> stmt -> Prop :=
| EvDL lhs bs ss v v' b b' : eqv (SDL (mkDL lhs bs ss v b)) (SDL (mkDL lhs bs ss v' b'))
| EvAnd l l' b b' : Forall2 eqv l l' -> eqv (SAnd l b) (SAnd l' b')
| EvOr l l' b b' c c' : Forall2 eqv l l' -> eqv (SOr l b c) (SOr l' b' c')
| EvExt k b b' p c : eqv (SExt k b p c) (SExt k b' p c).
Ltac ev_ind s := induction s as [d|subs b IH|subs b ch IH|k b q|k b q con IH] using stmt_ind';
  intros s' E; inversion E; subst; clear E; nameF.
Lemma eqv_F {C} (f : stmt -> C) l l' : Forall (fun s => forall s', eqv s s' -> f s = f s') l ->
  Forall2 eqv l l' -> Forall2 (fun x y => f x = f y) l l'.
Proof. intros IH HF. eapply Forall2_Forall_l; eauto. Qed.
Lemma eqv_svars s : forall s', eqv s s' -> get_secret_vars s = get_secret_vars s'.
Proof.
  ev_ind s; cbn [get_secret_vars]; auto.
  - now rewrite (rmap_F2 _ _ _ _ (eqv_F get_secret_vars _ _ IH HF)).
  - now rewrite (rmap_F2 _ _ _ _ (eqv_F get_secret_vars _ _ IH HF)).
Qed.
Lemma eqv_bases s : forall s', eqv s s' -> get_bases s = get_bases s'.
Proof.
  ev_ind s; cbn [get_bases]; auto.
  - now rewrite (rmap_F2 _ _ _ _ (eqv_F get_bases _ _ IH HF)).
  - now rewrite (rmap_F2 _ _ _ _ (eqv_F get_bases _ _ IH HF)).
Qed.
Lemma eqv_id s : forall s', eqv s s' -> forall m, get_proof_id s m = get_proof_id s' m.
Proof.
  ev_ind s; intros m; cbn [get_proof_id]; auto.
  - assert (E : eqv (SAnd subs b) (SAnd l' b')) by now constructor.
    rewrite (eqv_svars _ _ E), (eqv_bases _ _ E).
    destruct (get_secret_vars (SAnd l' b')) as [sv|]; [|reflexivity]. destruct (get_bases (SAnd l' b')) as [bl|]; [|reflexivity].
    cbn [rbind]. erewrite rmap_F2; [reflexivity|]. eapply Forall2_Forall_l; eauto; simpl; auto.
  - assert (E : eqv (SOr subs b ch) (SOr l' b' c')) by now constructor.
    rewrite (eqv_svars _ _ E), (eqv_bases _ _ E).
    destruct (get_secret_vars (SOr l' b' c')) as [sv|]; [|reflexivity]. destruct (get_bases (SOr l' b' c')) as [bl|]; [|reflexivity].
    cbn [rbind]. erewrite rmap_F2; [reflexivity|]. eapply Forall2_Forall_l; eauto; simpl; auto.
Qed.
Lemma eqv_prehash s s' : eqv s s' -> prehash_input s = prehash_input s'.
Proof. intros E. unfold prehash_input. now rewrite (eqv_id _ _ E). Qed.
Lemma eqv_recompute s : forall s', eqv s s' -> forall c r, recompute s c r = recompute s' c r.
Proof.
  ev_ind s; intros c0 r; cbn [recompute]; auto.
  - erewrite rimap_F2; [reflexivity|]. eapply Forall2_Forall_l; eauto; simpl; intros x y H E i.
    destruct (index r i); simpl; auto.
  - destruct (index r 0); simpl; auto. destruct (index r 1); simpl; auto. destruct (chal_list a); simpl; auto.
    destruct (_ =? 0); auto. erewrite rimap_F2; [reflexivity|]. eapply Forall2_Forall_l; eauto; simpl; intros x y H E i.
    destruct (index a i); simpl; auto. destruct (as_int a2); simpl; auto. destruct (index a0 i); simpl; auto.
Qed.
Lemma eqv_full_validate s : forall s', eqv s s' -> full_validate s = full_validate s'.
Proof.
  ev_ind s; cbn [full_validate]; auto.
  - now rewrite (rmap_F2 _ _ _ _ (eqv_F full_validate _ _ IH HF)).
  - now rewrite (rmap_F2 _ _ _ _ (eqv_F full_validate _ _ IH HF)).
Qed.
Lemma eqv_orders e s s' : eqv s s' -> validate_group_orders e s = validate_group_orders e s'.
Proof. intros E. unfold validate_group_orders. now rewrite (eqv_svars _ _ E), (eqv_bases _ _ E). Qed.
Lemma eqv_reoccurence e s : forall s', eqv s s' -> forall f, validate_reoccurence e s f = validate_reoccurence e s' f.
Proof.
  ev_ind s; intros f; cbn [validate_reoccurence]; auto.
  - assert (E : eqv (SAnd subs b) (SAnd l' b')) by now constructor. rewrite (eqv_svars _ _ E).
    destruct (match f with Some f => Ok f | None => _ end); simpl; auto.
    erewrite rmap_F2; [reflexivity|]. eapply Forall2_Forall_l; eauto; simpl; auto.
  - assert (E : eqv (SOr subs b ch) (SOr l' b' c')) by now constructor. now rewrite (eqv_svars _ _ E).
Qed.
Lemma eqv_validate_and e s s' : eqv s s' -> validate_and e s = validate_and e s'.
Proof. intros E. unfold validate_and. now rewrite (eqv_orders e _ _ E), (eqv_reoccurence e _ _ E). Qed.
Lemma eqv_validate_or e s s' : eqv s s' -> validate_or e s = validate_or e s'.
Proof. apply eqv_orders. Qed.
Lemma eqv_rand_and s s' st : eqv s s' -> randomizers_and s st = randomizers_and s' st.
Proof. intros E. unfold randomizers_and. now rewrite (eqv_svars _ _ E), (eqv_bases _ _ E). Qed.
Lemma eqv_update s s' rd st : eqv s s' ->
  update_randomizers (randomizers_and s) (get_secret_vars s) rd st = update_randomizers (randomizers_and s') (get_secret_vars s') rd st.
Proof.
  intros E. unfold update_randomizers. destruct rd as [d|]; [|now apply eqv_rand_and].
  rewrite (eqv_svars _ _ E). unfold bind. destruct (lift (get_secret_vars s') st) as [[ss a]|]; auto.
  destruct (get_env a) as [[e' a']|]; auto. destruct (existsb _ _); auto. now rewrite (eqv_rand_and _ _ _ E).
Qed.
Lemma bind_ext {A B} (m m' : M A) (f f' : A -> M B) s : m s = m' s -> (forall a s', f a s' = f' a s') -> bind m f s = bind m' f' s.
Proof. intros H K. unfold bind. rewrite H. destruct (m' s) as [[a s']|]; auto. Qed.
Lemma mapM_F2 {A B C} (f : A -> M C) (g : B -> M C) l l' : Forall2 (fun x y => forall s, f x s = g y s) l l' ->
  forall s, mapM f l s = mapM g l' s.
Proof.
  induction 1 as [|x y l m H HF IH]; intros s; simpl; auto. apply bind_ext; auto. intros a s'. apply bind_ext; auto.
Qed.
Lemma sim_loop_F2 (f g : stmt -> option Z -> M sim) c l l' : Forall2 (fun x y => forall o s, f x o s = g y o s) l l' ->
  forall chals s, sim_or_loop f c l chals s = sim_or_loop g c l' chals s.
Proof.
  induction 1 as [|x y l m H HF IH]; intros chals s; [reflexivity|]. inversion HF as [|x1 y1 l1 m1 H1 HF1]; subst.
  - simpl. apply bind_ext; auto.
  - change (sim_or_loop f c (x :: x1 :: l1) chals s) with
      (bind (f x None) (fun t => bind (sim_or_loop f c (x1 :: l1) (chals ++ [t_chal t])) (fun ts => ret (t :: ts))) s).
    change (sim_or_loop g c (y :: y1 :: m1) chals s) with
      (bind (g y None) (fun t => bind (sim_or_loop g c (y1 :: m1) (chals ++ [t_chal t])) (fun ts => ret (t :: ts))) s).
    apply bind_ext; auto. intros a s'. apply bind_ext; auto.
Qed.
Lemma eqv_simulate s : forall s', eqv s s' -> forall rd c st, simulate_proof s rd c st = simulate_proof s' rd c st.
Proof.
  ev_ind s; intros rd c0 st.
  - reflexivity.
  - assert (E : eqv (SAnd subs b) (SAnd l' b')) by now constructor.
    cbn [simulate_proof]. apply bind_ext; [now apply eqv_update|]. intros a s1. apply bind_ext; auto. intros c1 s2.
    apply bind_ext; auto. apply mapM_F2. eapply Forall2_Forall_l; eauto; simpl; auto.
  - rewrite !simulate_or. apply bind_ext; auto. intros a s1. apply bind_ext; auto. apply sim_loop_F2.
    eapply Forall2_Forall_l; eauto; simpl; auto.
  - reflexivity.
  - reflexivity.
Qed.

(** ** Objects and statements *)
(** [D]: how the dictionaries of the store are related to the captured values. *)
Inductive rel (D : dict Z -> dict Z -> Prop) (h : store) : obj -> stmt -> Prop :=
| RlDL i lhs bs ss di v : D (dicts h di) v -> rel D h (ODL i lhs bs ss di) (SDL (mkDL lhs bs ss v (marks h i)))
| RlAnd i subs ss : Forall2 (rel D h) subs ss -> rel D h (OAnd i subs) (SAnd ss (marks h i))
| RlOr i subs ss : Forall2 (rel D h) subs ss -> rel D h (OOr i subs) (SOr ss (marks h i) (picks h i))
| RlExt i k : rel D h (OExt i k) (SExt k (marks h i) (fst (exts h i)) (snd (exts h i))).
Definition anyd (_ _ : dict Z) : Prop := True.
Definition same_at (h h' : store) (i : nat) : Prop := marks h i = marks h' i /\ picks h i = picks h' i /\ exts h i = exts h' i.

Lemma rel_view (D : dict Z -> dict Z -> Prop) h : (forall d, D d d) -> forall o, rel D h o (view h o).
Proof.
  intros HD. induction o as [i lhs bs ss di|i subs IH|i subs IH|i k] using obj_ind'; simpl; constructor; auto.
  - clear -IH. induction IH; simpl; constructor; auto.
  - clear -IH. induction IH; simpl; constructor; auto.
Qed.
Lemma rel_eq h : forall o s, rel eq h o s -> s = view h o.
Proof.
  induction o as [i lhs bs ss di|i subs IH|i subs IH|i k] using obj_ind'; intros s R; inversion R; subst; nameF; simpl; auto.
  - f_equal. clear -IH HF. induction HF; simpl; auto. inversion IH; subst. f_equal; auto.
  - f_equal. clear -IH HF. induction HF; simpl; auto. inversion IH; subst. f_equal; auto.
Qed.
Lemma rel_frame (D D' : dict Z -> dict Z -> Prop) h h' : forall o s, (forall i, In i (ids o) -> same_at h h' i) ->
  (forall i v, In i (dids o) -> D (dicts h i) v -> D' (dicts h' i) v) -> rel D h o s -> rel D' h' o s.
Proof.
  induction o as [i lhs bs ss di|i subs IH|i subs IH|i k] using obj_ind'; intros s S K R; inversion R; subst; nameF.
  - destruct (S i) as (-> & _ & _); [now left|]. constructor. apply K; auto. now left.
  - destruct (S i) as (-> & _ & _); [now left|]. constructor.
    assert (S' : forall i, In i (List.concat (map ids subs)) -> same_at h h' i) by (intros; apply S; now right).
    simpl in K. clear S R. revert IH S' K. induction HF as [|x y l m H HF IHF]; intros IH S K; constructor.
    + inversion IH; subst. apply H2; auto. { intros; apply S; simpl; apply in_or_app; auto. }
      intros; apply K; auto; simpl; apply in_or_app; auto.
    + inversion IH; subst. apply IHF; auto; intros; [apply S|apply K; auto]; simpl; apply in_or_app; auto.
  - destruct (S i) as (-> & -> & _); [now left|]. constructor.
    assert (S' : forall i, In i (List.concat (map ids subs)) -> same_at h h' i) by (intros; apply S; now right).
    simpl in K. clear S R. revert IH S' K. induction HF as [|x y l m H HF IHF]; intros IH S K; constructor.
    + inversion IH; subst. apply H2; auto. { intros; apply S; simpl; apply in_or_app; auto. }
      intros; apply K; auto; simpl; apply in_or_app; auto.
    + inversion IH; subst. apply IHF; auto; intros; [apply S|apply K; auto]; simpl; apply in_or_app; auto.
  - destruct (S i) as (-> & _ & ->); [now left|]. constructor.
Qed.
Lemma rel_any (D : dict Z -> dict Z -> Prop) h o s : rel D h o s -> rel anyd h o s.
Proof. apply rel_frame; [intros; repeat split|intros; exact I]. Qed.
Lemma rel_eqv (D : dict Z -> dict Z -> Prop) h : forall o s, rel D h o s -> eqv (view h o) s.
Proof.
  induction o as [i lhs bs ss di|i subs IH|i subs IH|i k] using obj_ind'; intros s R; inversion R; subst; nameF; simpl; constructor.
  - clear -IH HF. induction HF; simpl; constructor; inversion IH; subst; auto.
  - clear -IH HF. induction HF; simpl; constructor; inversion IH; subst; auto.
Qed.
Lemma view_frame h h' o : (forall i, In i (ids o) -> same_at h h' i) -> (forall i, In i (dids o) -> dicts h i = dicts h' i) ->
  view h' o = view h o.
Proof.
  intros S K. symmetry. apply rel_eq. apply rel_frame with (D := eq) (h := h); auto; [|apply rel_view; auto].
  intros i v I E. now rewrite <- K.
Qed.
End O.

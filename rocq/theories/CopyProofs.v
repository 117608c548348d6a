(** Composed statements are copies of their parts. *)
From Coq Require Import String Lia.
From Verif Require Import Base World Val Expr Utils Stmt Prove Verify Spec Shapes Lib DictProofs Keeps Tree Provers Objects Sharing
  ObjProofs ObjFrame ObjRefine ObjRefine2 ObjBuild ObjShare Copies.
Open Scope Z_scope.
Open Scope list_scope.

Section C.
Context {W : World}.

Lemma new_ids f l h o h' : (f = OAnd \/ f = OOr) -> Forall (exists_in h) l -> o_new f l h = Ok (o, h') ->
  forall i, In i (ids o) -> (nxt h <= i)%nat \/ exists x, In x l /\ In i (inner x).
Proof.
  intros F X E i I. generalize (new_ok f l h F X). rewrite E. destruct (stmt_of f (map (view h) l)); [|tauto].
  intros (_ & _ & _ & K & _). apply K in I as [I|I]; [left; lia|]. apply in_concat in I as (z & A & B).
  apply in_map_iff in A as (x & <- & A). eauto.
Qed.
Lemma ids_cons (o : obj) : ids o = oid o :: inner o. Proof. now destruct o. Qed.
Lemma parts_inner f a x : (f = OAnd \/ f = OOr) -> In x (parts f a) -> incl (inner x) (inner a).
Proof.
  intros F I. destruct F as [->| ->]; destruct a as [i lhs bs ss di|i subs|i subs|i k]; simpl in I;
    try (destruct I as [<-|[]]; apply incl_refl);
    intros j J; unfold inner; simpl; apply in_concat; exists (ids x);
    (split; [apply in_map; exact I|rewrite ids_cons; right; exact J]).
Qed.
Lemma parts_exist f a h : (f = OAnd \/ f = OOr) -> exists_in h a -> Forall (exists_in h) (parts f a).
Proof.
  intros F X. apply Forall_forall. intros x I. unfold exists_in in *. rewrite Forall_forall in *. intros i J. apply X.
  destruct F as [->| ->]; destruct a as [j lhs bs ss di|j subs|j subs|j k]; simpl in I;
    try (destruct I as [<-|[]]; exact J);
    apply in_or_app; apply in_app_or in J as [J|J];
    [left; right|right|left; right|right]; apply in_concat; eexists; (split; [apply in_map; exact I|exact J]).
Qed.
Lemma composed_ids l o h h' : composed l o h h' -> Forall (exists_in h) l ->
  forall i, In i (ids o) -> (nxt h <= i)%nat \/ exists x, In x l /\ In i (inner x).
Proof.
  intros C X. destruct C as [C|[C|(a & b & -> & C)]].
  - exact (new_ids OAnd l h o h' (or_introl eq_refl) X C).
  - exact (new_ids OOr l h o h' (or_intror eq_refl) X C).
  - inversion X as [|? ? Xa X']; subst. inversion X' as [|? ? Xb _]; subst.
    assert (K : forall f, (f = OAnd \/ f = OOr) -> o_new f (parts f a ++ parts f b) h = Ok (o, h') ->
      forall i, In i (ids o) -> (nxt h <= i)%nat \/ exists x, In x [a; b] /\ In i (inner x)).
    { intros f F E i I. apply (new_ids f _ h o h' F) with (i := i) in E; auto.
      - destruct E as [E|(x & A & B)]; [auto|right]. apply in_app_or in A as [A|A].
        + exists a. split; [now left|]. exact (parts_inner f a x F A i B).
        + exists b. split; [right; now left|]. exact (parts_inner f b x F A i B).
      - apply Forall_app. split; now apply parts_exist. }
    destruct C as [C|C].
    + rewrite and_op_parts in C. exact (K OAnd (or_introl eq_refl) C).
    + rewrite or_op_parts in C. exact (K OOr (or_intror eq_refl) C).
Qed.

Lemma original_out l o h h' p : composed l o h h' -> Forall (exists_in h) l -> In p l ->
  (forall x, In x l -> ~ In (oid p) (inner x)) -> ~ In (oid p) (ids o).
Proof.
  intros C X P N I. apply (composed_ids l o h h' C X) in I as [I|(x & A & B)]; [|exact (N x A B)].
  rewrite Forall_forall in X. apply X in P. unfold exists_in in P. rewrite Forall_forall in P.
  specialize (P (oid p)). rewrite ids_cons in P. specialize (P (or_introl eq_refl)). simpl in P. lia.
Qed.

Lemma assigned_view i h g o : assigned i h g -> ~ In i (ids o) -> view g o = view h o.
Proof.
  intros [A B] N. apply view_frame; [|intros; symmetry; apply B].
  intros j J. destruct (Nat.eq_dec j i) as [->|D]; [contradiction|]. destruct (A j D) as (E1 & E2 & E3). unfold same_at. auto.
Qed.

Theorem copies_keep : forall l o h h' p g, composed l o h h' -> Forall (exists_in h) l -> In p l ->
  (forall x, In x l -> ~ In (oid p) (inner x)) -> assigned (oid p) h' g ->
  view g o = view h' o /\
  (unshared o ->
    (forall sd msg s, outcome (o_prove o sd msg g s) = outcome (o_prove o sd msg h' s)) /\
    (forall z msg s, outcome (o_verify o z msg g s) = outcome (o_verify o z msg h' s))).
Proof.
  intros l o h h' p g C X P N A.
  assert (V : view g o = view h' o) by (apply (assigned_view (oid p)); [exact A|exact (original_out l o h h' p C X P N)]).
  split; [exact V|]. intros U. split; intros.
  - rewrite !unshared_prove by exact U. now rewrite V.
  - rewrite !unshared_verify by exact U. now rewrite V.
Qed.

Lemma set_assigned o b h : assigned (oid o) h (o_set_simulated o b h).
Proof.
  split; [|reflexivity]. intros j D. unfold o_set_simulated, set_mark. cbn [marks picks exts]. split; [|auto].
  unfold upd. destruct (Nat.eqb_spec j (oid o)); [contradiction|reflexivity].
Qed.
Lemma prim_inner o : primitive o -> inner o = []. Proof. destruct o; simpl; tauto. Qed.

Lemma concat_nil {A} (l : list obj) (f : obj -> list A) : (forall x, In x l -> f x = []) -> List.concat (map f l) = [].
Proof. induction l as [|x l IH]; simpl; intros H; [reflexivity|]. rewrite (H x (or_introl eq_refl)). apply IH. auto. Qed.
Lemma new_unshared f l h o h' : (f = OAnd \/ f = OOr) -> Forall (exists_in h) l -> Forall primitive l -> o_new f l h = Ok (o, h') -> unshared o.
Proof.
  intros F X R E. generalize (new_ok f l h F X). rewrite E. destruct (stmt_of f (map (view h) l)); [|tauto].
  intros (_ & _ & _ & _ & K). apply K. rewrite concat_nil; [constructor|]. rewrite Forall_forall in R. intros x I. apply prim_inner; auto.
Qed.
Lemma prim_parts f o : (f = OAnd \/ f = OOr) -> primitive o -> parts f o = [o].
Proof. intros [->| ->]; destruct o; simpl; tauto. Qed.
Lemma prims_unshared l o h h' : composed l o h h' -> Forall (exists_in h) l -> Forall primitive l -> unshared o.
Proof.
  intros C X R. destruct C as [C|[C|(a & b & -> & C)]].
  - exact (new_unshared OAnd l h o h' (or_introl eq_refl) X R C).
  - exact (new_unshared OOr l h o h' (or_intror eq_refl) X R C).
  - inversion R as [|? ? Ra R']; subst. inversion R' as [|? ? Rb _]; subst. destruct C as [C|C].
    + rewrite and_op_parts, !prim_parts in C by auto. exact (new_unshared OAnd [a; b] h o h' (or_introl eq_refl) X R C).
    + rewrite or_op_parts, !prim_parts in C by auto. exact (new_unshared OOr [a; b] h o h' (or_intror eq_refl) X R C).
Qed.
Lemma prims_out l p : Forall primitive l -> forall x, In x l -> ~ In (oid p) (inner x).
Proof. intros R x I. rewrite Forall_forall in R. rewrite (prim_inner x (R x I)). tauto. Qed.

(** The parts are primitives: the marks, and what verification notes. *)
Theorem copies_marks : forall l o h h' p b, composed l o h h' -> Forall (exists_in h) l -> Forall primitive l -> In p l ->
  (forall sd msg s, outcome (o_prove o sd msg (o_set_simulated p b h') s) = outcome (o_prove o sd msg h' s)) /\
  (forall z msg s, outcome (o_verify o z msg (o_set_simulated p b h') s) = outcome (o_verify o z msg h' s)).
Proof.
  intros l o h h' p b C X R P.
  destruct (copies_keep l o h h' p (o_set_simulated p b h') C X P (prims_out l p R) (set_assigned p b h')) as [_ K].
  exact (K (prims_unshared l o h h' C X R)).
Qed.
Theorem copies_verified : forall l o h h' p z0 msg0 s0 b g s1, composed l o h h' -> Forall (exists_in h) l -> Forall primitive l ->
  In p l -> o_verify p z0 msg0 h' s0 = Ok ((b, g), s1) ->
  (forall sd msg s, outcome (o_prove o sd msg g s) = outcome (o_prove o sd msg h' s)) /\
  (forall z msg s, outcome (o_verify o z msg g s) = outcome (o_verify o z msg h' s)).
Proof.
  intros l o h h' p z0 msg0 s0 b g s1 C X R P V. apply verify_touch in V.
  assert (U := prims_unshared l o h h' C X R).
  assert (E : view g o = view h' o).
  { apply (touch_view _ _ _ _ _ V); [|intros i _ []]. intros i I J. rewrite Forall_forall in R.
    rewrite ids_cons, (prim_inner p (R p P)) in J. destruct J as [<-|[]].
    apply (original_out l o h h' p C X P (prims_out l p (proj2 (Forall_forall _ _) R)) I). }
  split; intros; [rewrite !unshared_prove by exact U|rewrite !unshared_verify by exact U]; now rewrite E.
Qed.
(** Verifying the composed statement does not change its parts. *)
Theorem copies_verify : forall l o h h' p z0 msg0 s0 b g s1, composed l o h h' -> Forall (exists_in h) l -> Forall primitive l ->
  In p l -> o_verify o z0 msg0 h' s0 = Ok ((b, g), s1) -> view g p = view h' p.
Proof.
  intros l o h h' p z0 msg0 s0 b g s1 C X R P V. apply verify_touch in V.
  apply (touch_view _ _ _ _ _ V); [|intros i _ []]. intros i J I. assert (R' := R). rewrite Forall_forall in R'.
  rewrite ids_cons, (prim_inner p (R' p P)) in J. destruct J as [<-|[]].
  exact (original_out l o h h' p C X P (prims_out l p R) I).
Qed.
End C.

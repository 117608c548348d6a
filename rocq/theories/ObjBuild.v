(** Building statements out of objects. *)
From Coq Require Import String Lia.
From Verif Require Import Base World Val Expr Utils Stmt Prove Verify Spec Shapes Lib DictProofs Keeps Tree Provers Objects Sharing
  ObjProofs ObjFrame ObjRefine ObjRefine2.
Open Scope Z_scope.
Open Scope list_scope.

Section B.
Context {W : World}.

Lemma sexp_ind' (P : sexp -> Prop) :
  (forall i, P (BVar i)) -> (forall lhs x sim, P (BDL lhs x sim)) -> (forall k sim, P (BExt k sim)) ->
  (forall l, Forall P l -> P (BAnd l)) -> (forall l, Forall P l -> P (BOr l)) ->
  (forall a b, P a -> P b -> P (BConj a b)) -> (forall a b, P a -> P b -> P (BDisj a b)) -> forall e, P e.
Proof.
  intros H1 H2 H3 H4 H5 H6 H7. fix IH 1. intros [i|lhs x sim|k sim|l|l|a b|a b].
  - apply H1.
  - apply H2.
  - apply H3.
  - apply H4. induction l; constructor; [apply IH|auto].
  - apply H5. induction l; constructor; [apply IH|auto].
  - apply H6; apply IH.
  - apply H7; apply IH.
Qed.

(** ** What exists stays as it is *)
Definition later (h h' : store) : Prop :=
  (nxt h <= nxt h')%nat /\ forall i, (i < nxt h)%nat -> same_at h h' i /\ dicts h i = dicts h' i.
Lemma later_refl h : later h h. Proof. split; auto. intros i _. repeat split. Qed.
Lemma later_trans a b c : later a b -> later b c -> later a c.
Proof.
  intros [A B] [C D]. split; [lia|]. intros i I. destruct (B i I) as [E F]. destruct (D i ltac:(lia)) as [G H].
  split; [eapply same_trans; eauto|congruence].
Qed.
Lemma view_later h h' o : later h h' -> exists_in h o -> view h' o = view h o.
Proof.
  intros [_ L] X. unfold exists_in in X. rewrite Forall_forall in X.
  apply view_frame; intros i I; apply L, X, in_or_app; auto.
Qed.
Lemma exists_later h h' o : later h h' -> exists_in h o -> exists_in h' o.
Proof. intros [A _]. unfold exists_in. apply Forall_impl. intros i H. lia. Qed.
Lemma views_later h h' l : later h h' -> Forall (exists_in h) l -> map (view h') l = map (view h) l.
Proof. intros L. induction 1 as [|o l H HF IH]; simpl; auto. rewrite (view_later h h' o L H). now f_equal. Qed.
Lemma all_later h h' l : later h h' -> Forall (exists_in h) l -> Forall (exists_in h') l.
Proof. intros L. apply Forall_impl. intros o. now apply exists_later. Qed.

Lemma exists_subs f h i l : (f = OAnd \/ f = OOr) -> (exists_in h (f i l) <-> (i < nxt h)%nat /\ Forall (exists_in h) l).
Proof.
  intros F. assert (Q : exists_in h (f i l) <-> Forall (fun j => (j < nxt h)%nat) (i :: List.concat (map ids l) ++ List.concat (map dids l)))
    by (destruct F as [->| ->]; reflexivity).
  rewrite Q. clear Q F. rewrite Forall_cons_iff. apply and_iff_compat_l. unfold exists_in.
  induction l as [|o l IH]; simpl; [split; constructor|].
  rewrite Forall_cons_iff, <- IH, !Forall_app. tauto.
Qed.
Lemma copy_ok o h : exists_in h o ->
  let (o', h') := o_copy o h in view h' o' = view h o /\ later h h' /\ exists_in h' o' /\ ids o' = nxt h :: inner o /\ nxt h' = S (nxt h).
Proof.
  intros X. unfold o_copy. remember (mkStore _ _ _ _ _) as h1 eqn:E.
  assert (L : later h h1).
  { split; [rewrite E; simpl; lia|]. intros i I. rewrite E. simpl. unfold same_at. simpl. unfold upd.
    destruct (Nat.eqb_spec i (nxt h)); [lia|]. auto. }
  assert (Nx : nxt h1 = S (nxt h)) by now rewrite E.
  assert (S1 : marks h1 (nxt h) = marks h (oid o) /\ picks h1 (nxt h) = picks h (oid o) /\ exts h1 (nxt h) = exts h (oid o))
    by (rewrite E; simpl; unfold upd; rewrite Nat.eqb_refl; auto).
  assert (Sd : forall i, dicts h1 i = dicts h i) by (rewrite E; auto).
  clear E. destruct S1 as (Sm & Sp & Se).
  destruct o as [i lhs bs ss di|i subs|i subs|i k]; simpl in *; rewrite ?Sm, ?Sp, ?Se, ?Sd; (split; [|split; [|split; [|split]]]); auto.
  - unfold exists_in in *. simpl in *. inversion X as [|? ? ? Y]; subst. inversion Y; subst. repeat constructor; lia.
  - f_equal. apply (exists_subs OAnd) in X as [_ X]; auto. now apply views_later.
  - apply (exists_subs OAnd) in X as [_ X]; auto. apply (exists_subs OAnd); auto. split; [lia|]. eapply all_later; eauto.
  - f_equal. apply (exists_subs OOr) in X as [_ X]; auto. now apply views_later.
  - apply (exists_subs OOr) in X as [_ X]; auto. apply (exists_subs OOr); auto. split; [lia|]. eapply all_later; eauto.
  - unfold exists_in. simpl. repeat constructor; lia.
Qed.
Lemma copies_ok l : forall h, Forall (exists_in h) l ->
  let (l', h') := o_copies l h in map (view h') l' = map (view h) l /\ later h h' /\ Forall (exists_in h') l' /\
    (forall i, In i (List.concat (map ids l')) -> (nxt h <= i < nxt h')%nat \/ In i (List.concat (map inner l))) /\
    (NoDup (List.concat (map inner l)) -> NoDup (List.concat (map ids l'))).
Proof.
  induction l as [|o l IH]; intros h X; cbn [o_copies].
  - simpl. split; auto. split; [apply later_refl|]. split; [constructor|]. split; auto.
  - inversion X as [|? ? X1 X2]; subst. pose proof (copy_ok o h X1) as C. destruct (o_copy o h) as [o1 h1].
    destruct C as (V1 & L1 & E1 & I1 & Nx). specialize (IH h1 (all_later _ _ _ L1 X2)). destruct (o_copies l h1) as [l2 h2].
    destruct IH as (V2 & L2 & E2 & I2 & D2). simpl. split; [|split; [|split; [|split]]].
    + rewrite (view_later h1 h2 o1 L2 E1), V1, V2, (views_later h h1 l L1 X2). reflexivity.
    + eapply later_trans; eauto.
    + constructor; auto. eapply exists_later; eauto.
    + rewrite I1. intros i. simpl. rewrite !in_app_iff. destruct L2 as [L2 _]. intros [<-|[I|I]]; [left; lia|auto|].
      apply I2 in I as [I|I]; [left; lia|auto].
    + rewrite I1. intros N. apply NoDup_app_inv in N as (N1 & N2 & N3). simpl.
      assert (O1 : forall i, In i (inner o) -> (i < nxt h)%nat).
      { intros i I. unfold exists_in in X1. rewrite Forall_app in X1. destruct X1 as [X1 _]. rewrite Forall_forall in X1. apply X1.
        unfold inner in I. destruct (ids o); [destruct I|now right]. }
      assert (O2 : forall i, In i (List.concat (map inner l)) -> (i < nxt h)%nat).
      { intros i I. apply in_concat in I as (x & A & B). apply in_map_iff in A as (o' & <- & A). rewrite Forall_forall in X2.
        specialize (X2 o' A). unfold exists_in in X2. rewrite Forall_app in X2. destruct X2 as [X2 _]. rewrite Forall_forall in X2. apply X2.
        unfold inner in B. destruct (ids o'); [destruct B|now right]. }
      constructor.
      * rewrite in_app_iff. intros [I|I]; [apply O1 in I; lia|]. apply I2 in I as [I|I]; [lia|]. apply O2 in I. lia.
      * assert (Q : forall (a b : list nat), NoDup a -> NoDup b -> (forall x, In x a -> In x b -> False) -> NoDup (a ++ b)).
        { induction a as [|x a IHa]; simpl; intros b Na Nb H; auto. inversion Na; subst. constructor.
          - rewrite in_app_iff. intros [?|?]; eauto.
          - apply IHa; eauto. }
        apply Q; auto. intros x I J. apply I2 in J as [J|J]; [apply O1 in I; lia|]. eapply N3; eauto.
Qed.
Definition stmt_of (f : nat -> list obj -> obj) (l : list stmt) : res stmt := match f O [] with OAnd _ _ => mk_and l | _ => mk_or l end.
Lemma new_ok f l h : (f = OAnd \/ f = OOr) -> Forall (exists_in h) l ->
  match o_new f l h, stmt_of f (map (view h) l) with
  | Ok (o, h'), Ok s => view h' o = s /\ later h h' /\ exists_in h' o /\
      (forall i, In i (ids o) -> (nxt h <= i < nxt h')%nat \/ In i (List.concat (map inner l))) /\
      (NoDup (List.concat (map inner l)) -> NoDup (ids o))
  | Err e, Err e' => e = e'
  | _, _ => False
  end.
Proof.
  intros F X. unfold o_new.
  assert (Q : stmt_of f (map (view h) l) = if (List.length l <? 2)%nat then Err EValueErr
    else Ok (match f O [] with OAnd _ _ => SAnd (map (view h) l) false | _ => SOr (map (view h) l) false None end)).
  { unfold stmt_of, mk_and, mk_or. destruct F as [->| ->]; simpl; rewrite map_length; destruct (List.length l <? 2)%nat; auto. }
  rewrite Q. clear Q. destruct (List.length l <? 2)%nat; auto.
  pose proof (copies_ok l h X) as C. destruct (o_copies l h) as [l' h1]. destruct C as (V & L & E & I & D).
  remember (mkStore _ _ _ _ _) as h2 eqn:Eh.
  assert (L2 : later h1 h2).
  { split; [rewrite Eh; simpl; lia|]. intros i J. rewrite Eh. unfold same_at. simpl. unfold upd.
    destruct (Nat.eqb_spec i (nxt h1)); [lia|]. auto. }
  assert (Nx : nxt h2 = S (nxt h1)) by now rewrite Eh.
  assert (S1 : marks h2 (nxt h1) = false /\ picks h2 (nxt h1) = None) by (rewrite Eh; simpl; unfold upd; rewrite Nat.eqb_refl; auto).
  destruct S1 as [Sm Sp]. clear Eh.
  assert (B : forall i, In i (List.concat (map ids l')) -> (i < nxt h1)%nat).
  { intros i J. apply in_concat in J as (x & A & B). apply in_map_iff in A as (o' & <- & A). rewrite Forall_forall in E.
    specialize (E o' A). unfold exists_in in E. rewrite Forall_app in E. destruct E as [E _]. rewrite Forall_forall in E. auto. }
  split; [|split; [|split; [|split]]].
  - destruct F as [->| ->]; simpl; rewrite ?Sm, ?Sp; f_equal; rewrite (views_later h1 h2 l' L2 E); auto.
  - eapply later_trans; eauto.
  - apply (exists_subs f); auto. split; [lia|]. eapply all_later; eauto.
  - intros i J. assert (K : i = nxt h1 \/ In i (List.concat (map ids l'))) by (destruct F as [->| ->]; simpl in J; intuition).
    destruct L as [L _]. destruct K as [->|K]; [left; lia|]. apply I in K as [K|K]; [left; lia|auto].
  - intros N. assert (K : ids (f (nxt h1) l') = nxt h1 :: List.concat (map ids l')) by (destruct F as [->| ->]; reflexivity).
    rewrite K. constructor; auto. intros J. apply B in J. lia.
Qed.

(** ** The operators: the list of parts *)
Definition parts (f : nat -> list obj -> obj) (o : obj) : list obj :=
  match f O [], o with OAnd _ _, OAnd _ l => l | OOr _ _, OOr _ l => l | _, _ => [o] end.
Lemma and_op_parts a b h : o_and_op a b h = o_new OAnd (parts OAnd a ++ parts OAnd b) h.
Proof. destruct a, b; reflexivity. Qed.
Lemma or_op_parts a b h : o_or_op a b h = o_new OOr (parts OOr a ++ parts OOr b) h.
Proof. destruct a, b; reflexivity. Qed.
Lemma and_op_view h a b : and_op (view h a) (view h b) = mk_and (map (view h) (parts OAnd a ++ parts OAnd b)).
Proof. rewrite map_app. destruct a, b; reflexivity. Qed.
Lemma or_op_view h a b : or_op (view h a) (view h b) = mk_or (map (view h) (parts OOr a ++ parts OOr b)).
Proof. rewrite map_app. destruct a, b; reflexivity. Qed.
Lemma parts_exist f h o : (f = OAnd \/ f = OOr) -> exists_in h o -> Forall (exists_in h) (parts f o).
Proof.
  intros F X. unfold parts. destruct F as [->| ->]; destruct o; try (constructor; [exact X|constructor]; fail).
  - now apply (exists_subs OAnd) in X as [_ X]; auto.
  - now apply (exists_subs OOr) in X as [_ X]; auto.
Qed.
Lemma inner_incl l : incl (List.concat (map inner l)) (List.concat (map ids l)).
Proof.
  intros i I. apply in_concat in I as (x & A & B). apply in_map_iff in A as (o & <- & A).
  apply in_concat. exists (ids o). split; [now apply in_map|]. unfold inner in B. destruct (ids o); [destruct B|now right].
Qed.
Lemma inner_nodup l : NoDup (List.concat (map ids l)) -> NoDup (List.concat (map inner l)).
Proof.
  induction l as [|o l IH]; simpl; auto. intros N. apply NoDup_app_inv in N as (N1 & N2 & N3).
  assert (Q : forall (a b : list nat), NoDup a -> NoDup b -> (forall x, In x a -> In x b -> False) -> NoDup (a ++ b)).
  { induction a as [|x a IHa]; simpl; intros b Na Nb H; auto. inversion Na; subst. constructor.
    - rewrite in_app_iff. intros [?|?]; eauto.
    - apply IHa; eauto. }
  apply Q; auto.
  - unfold inner. destruct (ids o); [constructor|]. now inversion N1.
  - intros x I J. apply (N3 x).
    + unfold inner in I. destruct (ids o); [destruct I|now right].
    + now apply inner_incl.
Qed.
Lemma parts_inner f o : (f = OAnd \/ f = OOr) -> incl (List.concat (map inner (parts f o))) (inner o) /\
  (NoDup (inner o) -> NoDup (List.concat (map inner (parts f o)))).
Proof.
  intros F. destruct F as [->| ->]; destruct o; unfold parts; simpl map; cbn [List.concat]; rewrite ?app_nil_r;
    try (split; [apply incl_refl|auto]; fail); (split; [apply inner_incl|apply inner_nodup]).
Qed.

(** ** Expressions *)
Lemma build_rel e : forall vars h st, Forall (exists_in h) vars ->
  mrel (fun a b _ => view (snd a) (fst a) = b /\ later h (snd a) /\ exists_in (snd a) (fst a))
       (o_build e vars h st) (meant e (map (view h) vars) st).
Proof.
  assert (Ls : forall l, Forall (fun e => forall vars h st, Forall (exists_in h) vars ->
      mrel (fun a b _ => view (snd a) (fst a) = b /\ later h (snd a) /\ exists_in (snd a) (fst a))
       (o_build e vars h st) (meant e (map (view h) vars) st)) l ->
    forall vars h st, Forall (exists_in h) vars ->
    mrel (fun a b _ => map (view (snd a)) (fst a) = b /\ later h (snd a) /\ Forall (exists_in (snd a)) (fst a))
      (seqM (fun x => o_build x vars) l h st) (mapM (fun x => meant x (map (view h) vars)) l st)).
  { induction 1 as [|e1 l HE HF IH]; intros vars h st X; cbn [seqM mapM].
    - apply mrel_ret. simpl. split; auto. split; [apply later_refl|constructor].
    - eapply mrel_bind; [apply HE; auto|]. intros [o h1] s st1 (V1 & L1 & E1). cbn [fst snd] in *. subst s.
      rewrite <- (views_later h h1 vars L1 X).
      eapply mrel_bind; [apply IH; eapply all_later; eauto|]. intros [r h2] ss st2 (V2 & L2 & E2). cbn [fst snd] in *. subst ss.
      apply mrel_ret. simpl. split; [|split].
      + now rewrite (view_later h1 h2 o L2 E1).
      + eapply later_trans; eauto.
      + constructor; auto. eapply exists_later; eauto. }
  assert (Nw : forall f l h st, (f = OAnd \/ f = OOr) -> Forall (exists_in h) l ->
    mrel (fun a b _ => view (snd a) (fst a) = b /\ later h (snd a) /\ exists_in (snd a) (fst a))
      (lift (o_new f l h) st) (lift (stmt_of f (map (view h) l)) st)).
  { intros f l h st F X. pose proof (new_ok f l h F X) as N. unfold lift.
    destruct (o_new f l h) as [[o h']|], (stmt_of f (map (view h) l)); try contradiction; simpl; intuition. }
  induction e as [i|lhs x sim|k sim|l IH|l IH|a b IHa IHb|a b IHa IHb] using sexp_ind'; intros vars h st X; cbn [o_build meant].
  - rewrite nth_error_map. destruct (nth_error vars i) as [o|] eqn:E; [|reflexivity]. apply mrel_ret. simpl. split; auto.
    split; [apply later_refl|]. rewrite Forall_forall in X. eapply X, nth_error_In; eauto.
  - unfold o_dlrep, lift2. apply mrel_step. intros d s1 _. apply mrel_ret. simpl. unfold upd. rewrite Nat.eqb_refl. split; [|split].
    + now destruct d.
    + split; simpl; [lia|]. intros i I. unfold same_at. simpl. unfold upd. destruct (Nat.eqb_spec i (nxt h)); [lia|]. auto.
    + unfold exists_in. simpl. repeat constructor; simpl; lia.
  - apply mrel_ret. simpl. unfold upd. rewrite Nat.eqb_refl. simpl. split; [|split]; auto.
    + split; simpl; [lia|]. intros i I. unfold same_at. simpl. unfold upd. destruct (Nat.eqb_spec i (nxt h)); [lia|]. auto.
    + unfold exists_in. simpl. repeat constructor; simpl; lia.
  - eapply mrel_bind; [apply Ls; auto|]. intros [r h1] ss st1 (V1 & L1 & E1). cbn [fst snd] in *. subst ss.
    eapply mrel_weak; [apply (Nw OAnd); auto|]. cbn [fst snd]. intros a b _ (A & B & C). split; auto. split; auto. eapply later_trans; eauto.
  - eapply mrel_bind; [apply Ls; auto|]. intros [r h1] ss st1 (V1 & L1 & E1). cbn [fst snd] in *. subst ss.
    eapply mrel_weak; [apply (Nw OOr); auto|]. cbn [fst snd]. intros a b _ (A & B & C). split; auto. split; auto. eapply later_trans; eauto.
  - eapply mrel_bind; [apply IHa; auto|]. intros [x h1] s st1 (V1 & L1 & E1). cbn [fst snd] in *. subst s.
    rewrite <- (views_later h h1 vars L1 X).
    eapply mrel_bind; [apply IHb; eapply all_later; eauto|]. intros [y h2] s st2 (V2 & L2 & E2). cbn [fst snd] in *. subst s.
    rewrite <- (view_later h1 h2 x L2 E1), and_op_view, and_op_parts.
    eapply mrel_weak; [apply (Nw OAnd)|]; auto.
    + apply Forall_app. split; apply parts_exist; auto. eapply exists_later; eauto.
    + intros u v _ (A & B & C). split; auto. split; auto. eapply later_trans; eauto. eapply later_trans; eauto.
  - eapply mrel_bind; [apply IHa; auto|]. intros [x h1] s st1 (V1 & L1 & E1). cbn [fst snd] in *. subst s.
    rewrite <- (views_later h h1 vars L1 X).
    eapply mrel_bind; [apply IHb; eapply all_later; eauto|]. intros [y h2] s st2 (V2 & L2 & E2). cbn [fst snd] in *. subst s.
    rewrite <- (view_later h1 h2 x L2 E1), or_op_view, or_op_parts.
    eapply mrel_weak; [apply (Nw OOr)|]; auto.
    + apply Forall_app. split; apply parts_exist; auto. eapply exists_later; eauto.
    + intros u v _ (A & B & C). split; auto. split; auto. eapply later_trans; eauto. eapply later_trans; eauto.
Qed.
Lemma build_ok e vars h st o h' st' : Forall (exists_in h) vars -> o_build e vars h st = Ok ((o, h'), st') ->
  meant e (map (view h) vars) st = Ok (view h' o, st') /\ later h h' /\ exists_in h' o.
Proof.
  intros X H. pose proof (build_rel e vars h st X) as B. rewrite H in B.
  destruct (meant e (map (view h) vars) st) as [[s s1]|]; simpl in B; [|contradiction]. destruct B as (<- & <- & L & E). auto.
Qed.

(** ** No object twice *)
Definition okin (vars : list obj) (e : sexp) (h h' : store) (o : obj) : Prop :=
  NoDup (inner o) /\ forall i, In i (inner o) -> (nxt h <= i < nxt h')%nat \/ In i (below vars e).
Lemma below_old vars e h i : Forall (exists_in h) vars -> In i (below vars e) -> (i < nxt h)%nat.
Proof.
  intros X I. unfold below in I. apply in_concat in I as (l & A & B). apply in_map_iff in A as (j & <- & _).
  destruct (nth_error vars j) as [o|] eqn:E; [|destruct B]. apply nth_error_In in E. rewrite Forall_forall in X. specialize (X o E).
  unfold exists_in in X. rewrite Forall_app in X. destruct X as [X _]. rewrite Forall_forall in X. apply X.
  unfold inner in B. destruct (ids o); [destruct B|now right].
Qed.
Lemma below_app vars a b e : bvars e = bvars a ++ bvars b -> below vars e = below vars a ++ below vars b.
Proof. intros E. unfold below. now rewrite E, map_app, concat_app. Qed.
Lemma below_list vars l e : bvars e = List.concat (map bvars l) -> below vars e = List.concat (map (below vars) l).
Proof.
  intros E. unfold below at 1. rewrite E. clear E. induction l as [|x l IH]; simpl; auto. now rewrite map_app, concat_app, IH.
Qed.
Lemma NoDup_app_intro' {A} (a b : list A) : NoDup a -> NoDup b -> (forall x, In x a -> In x b -> False) -> NoDup (a ++ b).
Proof.
  induction a as [|x a IHa]; simpl; intros Na Nb H; auto. inversion Na; subst. constructor.
  - rewrite in_app_iff. intros [?|?]; eauto.
  - apply IHa; eauto.
Qed.
Definition isvar (e : sexp) : Prop := match e with BVar _ => True | _ => False end.
Lemma build_nodup e : forall vars h st o h' st', Forall (exists_in h) vars -> NoDup (below vars e) ->
  o_build e vars h st = Ok ((o, h'), st') -> okin vars e h h' o /\ (isvar e \/ NoDup (ids o)).
Proof.
  assert (Ls : forall l, Forall (fun e => forall vars h st o h' st', Forall (exists_in h) vars -> NoDup (below vars e) ->
      o_build e vars h st = Ok ((o, h'), st') -> okin vars e h h' o /\ (isvar e \/ NoDup (ids o))) l ->
    forall vars h st os h' st', Forall (exists_in h) vars -> NoDup (List.concat (map (below vars) l)) ->
    seqM (fun x => o_build x vars) l h st = Ok ((os, h'), st') ->
    later h h' /\ Forall (exists_in h') os /\ NoDup (List.concat (map inner os)) /\
    forall i, In i (List.concat (map inner os)) -> (nxt h <= i < nxt h')%nat \/ In i (List.concat (map (below vars) l))).
  { induction 1 as [|e1 l HE HF IH]; intros vars h st os h' st' X N H; cbn [seqM] in H.
    - injection H as <- <- <-. split; [apply later_refl|]. split; [constructor|]. split; [constructor|]. intros i [].
    - apply bind_ok in H as ([o h1] & s1 & H1 & H). apply bind_ok in H as ([os2 h2] & s2 & H2 & H). cbn [fst snd] in *.
      injection H as <- <- <-. simpl in N. apply NoDup_app_inv in N as (N1 & N2 & N3).
      destruct (HE _ _ _ _ _ _ X N1 H1) as ([O1 O2] & _). destruct (build_ok _ _ _ _ _ _ _ X H1) as (_ & L1 & E1).
      destruct (IH _ _ _ _ _ _ (all_later _ _ _ L1 X) N2 H2) as (L2 & E2 & O3 & O4).
      destruct L1 as [L1 L1'], L2 as [L2 L2']. split; [eapply later_trans; split; eauto|]. split; [|split].
      + constructor; auto. apply (exists_later h1); auto. split; auto.
      + simpl. apply NoDup_app_intro'; auto. intros i I J. apply O2 in I. apply O4 in J.
        destruct I as [I|I], J as [J|J]; try lia.
        * assert (K : In i (List.concat (map (below vars) l))) by exact J.
          rewrite <- (below_list vars l (BAnd l) eq_refl) in K. apply (below_old _ _ h) in K; auto. lia.
        * apply (below_old _ _ h) in I; auto. lia.
        * eauto.
      + simpl. intros i I. rewrite in_app_iff in *. destruct I as [I|I].
        * apply O2 in I as [I|I]; [left; lia|auto].
        * apply O4 in I as [I|I]; [left; lia|auto]. }
  assert (Nw : forall f vars e h h1 l st o h' st', (f = OAnd \/ f = OOr) -> (nxt h <= nxt h1)%nat -> Forall (exists_in h1) l ->
    NoDup (List.concat (map inner l)) -> (forall i, In i (List.concat (map inner l)) -> (nxt h <= i < nxt h1)%nat \/ In i (below vars e)) ->
    lift (o_new f l h1) st = Ok ((o, h'), st') -> okin vars e h h' o /\ NoDup (ids o)).
  { clear e. intros f vars e h h1 l st o h' st' F Lh E N I H. apply lift_ok in H as [H ->].
    pose proof (new_ok f l h1 F E) as C. rewrite H in C. destruct (stmt_of f (map (view h1) l)); [|contradiction].
    destruct C as (_ & [L _] & _ & J & K). specialize (K N). split; auto. split.
    - unfold inner. destruct (ids o); [constructor|]. now inversion K.
    - intros i Hi. assert (Hi' : In i (ids o)) by (unfold inner in Hi; destruct (ids o); [destruct Hi|now right]).
      apply J in Hi' as [Q|Q]; [left; lia|]. apply I in Q as [Q|Q]; [left; lia|auto]. }
  assert (Op : forall f vars e a b h st x h1 s1 y h2 s2 o h' st', (f = OAnd \/ f = OOr) -> Forall (exists_in h) vars ->
    below vars e = below vars a ++ below vars b -> NoDup (below vars e) ->
    o_build a vars h st = Ok ((x, h1), s1) -> o_build b vars h1 s1 = Ok ((y, h2), s2) -> okin vars a h h1 x -> okin vars b h1 h2 y ->
    lift (o_new f (parts f x ++ parts f y) h2) s2 = Ok ((o, h'), st') -> okin vars e h h' o /\ NoDup (ids o)).
  { clear e. intros f vars e a b h st x h1 s1 y h2 s2 o h' st' F X Eb N H1 H2 [O1 O2] [O3 O4] H.
    rewrite Eb in N. apply NoDup_app_inv in N as (N1 & N2 & N3).
    destruct (build_ok _ _ _ _ _ _ _ X H1) as (_ & L1 & E1).
    destruct (build_ok _ _ _ _ _ _ _ (all_later _ _ _ L1 X) H2) as (_ & L2 & E2).
    destruct (parts_inner f x F) as [Px Qx]. destruct (parts_inner f y F) as [Py Qy].
    pose proof L1 as [M1 _]. pose proof L2 as [M2 _].
    eapply (Nw f vars e h h2 _ _ _ _ _ F ltac:(lia)); [| | |exact H].
    - apply Forall_app. split; apply parts_exist; auto. eapply exists_later; eauto.
    - rewrite map_app, concat_app. apply NoDup_app_intro'; auto. intros i I J. apply Px, O2 in I. apply Py, O4 in J.
      destruct I as [I|I], J as [J|J]; try lia.
      + apply (below_old _ _ h) in J; auto. lia.
      + apply (below_old _ _ h) in I; auto. lia.
      + eauto.
    - rewrite map_app, concat_app, Eb. intros i I. rewrite in_app_iff in *. destruct I as [I|I].
      + apply Px, O2 in I as [I|I]; [left; lia|auto].
      + apply Py, O4 in I as [I|I]; [left; lia|auto]. }
  induction e as [i|lhs x sim|k sim|l IH|l IH|a b IHa IHb|a b IHa IHb] using sexp_ind'; intros vars h st o h' st' X N H; cbn [o_build] in H.
  - destruct (nth_error vars i) as [o1|] eqn:E; [|discriminate]. injection H as <- <- <-. split; [|now left].
    unfold okin, below in *. simpl in *. rewrite E, app_nil_r in *. auto.
  - unfold o_dlrep in H. apply bind_ok in H as (d & s1 & _ & H). injection H as <- <- <-. split; [split; [constructor|intros i []]|].
    right. repeat constructor. auto.
  - injection H as <- <- <-. split; [split; [constructor|intros i []]|]. right. repeat constructor. auto.
  - apply bind_ok in H as ([os h1] & s1 & H1 & H). cbn [fst snd] in H. rewrite (below_list vars l (BAnd l) eq_refl) in N.
    destruct (Ls l IH _ _ _ _ _ _ X N H1) as (L1 & E1 & O1 & O2). pose proof L1 as [M1 _].
    rewrite <- (below_list vars l (BAnd l) eq_refl) in O2.
    destruct (Nw OAnd vars (BAnd l) h h1 os _ _ _ _ (or_introl eq_refl) M1 E1 O1 O2 H) as [A B]. auto.
  - apply bind_ok in H as ([os h1] & s1 & H1 & H). cbn [fst snd] in H. rewrite (below_list vars l (BOr l) eq_refl) in N.
    destruct (Ls l IH _ _ _ _ _ _ X N H1) as (L1 & E1 & O1 & O2). pose proof L1 as [M1 _].
    rewrite <- (below_list vars l (BOr l) eq_refl) in O2.
    destruct (Nw OOr vars (BOr l) h h1 os _ _ _ _ (or_intror eq_refl) M1 E1 O1 O2 H) as [A B]. auto.
  - apply bind_ok in H as ([x h1] & s1 & H1 & H). apply bind_ok in H as ([y h2] & s2 & H2 & H). rewrite and_op_parts in H.
    assert (Eb : below vars (BConj a b) = below vars a ++ below vars b) by (apply below_app; reflexivity).
    pose proof N as N0. rewrite Eb in N0. apply NoDup_app_inv in N0 as (N1 & N2 & _).
    destruct (build_ok _ _ _ _ _ _ _ X H1) as (_ & L1 & _).
    destruct (IHa _ _ _ _ _ _ X N1 H1) as [Oa _]. destruct (IHb _ _ _ _ _ _ (all_later _ _ _ L1 X) N2 H2) as [Ob _].
    destruct (Op OAnd vars (BConj a b) a b h _ _ _ _ _ _ _ _ _ _ (or_introl eq_refl) X Eb N H1 H2 Oa Ob H); auto.
  - apply bind_ok in H as ([x h1] & s1 & H1 & H). apply bind_ok in H as ([y h2] & s2 & H2 & H). rewrite or_op_parts in H.
    assert (Eb : below vars (BDisj a b) = below vars a ++ below vars b) by (apply below_app; reflexivity).
    pose proof N as N0. rewrite Eb in N0. apply NoDup_app_inv in N0 as (N1 & N2 & _).
    destruct (build_ok _ _ _ _ _ _ _ X H1) as (_ & L1 & _).
    destruct (IHa _ _ _ _ _ _ X N1 H1) as [Oa _]. destruct (IHb _ _ _ _ _ _ (all_later _ _ _ L1 X) N2 H2) as [Ob _].
    destruct (Op OOr vars (BDisj a b) a b h _ _ _ _ _ _ _ _ _ _ (or_intror eq_refl) X Eb N H1 H2 Oa Ob H); auto.
Qed.
End B.

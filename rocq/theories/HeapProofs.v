(** Expression objects: when the in-place addition can be seen. *)
From Coq Require Import String.
From Verif Require Import Base World Val Expr Heap Lib ArithProofs.
Open Scope Z_scope.
Open Scope list_scope.

Section H.
Context {W : World}.

Lemma hset_len h : forall i x, List.length (hset h i x) = List.length h.
Proof. induction h as [|y h IH]; intros [|i] x; simpl; auto. Qed.
Lemma hset_same h : forall i x, (i < List.length h)%nat -> nth_error (hset h i x) i = Some x.
Proof. induction h as [|y h IH]; intros [|i] x L; simpl in *; try lia; auto. apply IH. lia. Qed.
Lemma hset_other h : forall i j x, i <> j -> nth_error (hset h i x) j = nth_error h j.
Proof. induction h as [|y h IH]; intros [|i] [|j] x N; simpl; auto; congruence. Qed.

(** One addition: the result is the left object, extended; the others are as before. *)
Lemma add_effect i j h x y : nth_error h i = Some x -> nth_error h j = Some y ->
  exists h', h_add i j h = Ok (i, h') /\ nth_error h' i = Some (eadd x y) /\ List.length h' = List.length h /\
    forall k, k <> i -> nth_error h' k = nth_error h k.
Proof.
  intros A B. unfold h_add. rewrite A, B. eexists. split; [reflexivity|]. split.
  - apply hset_same. apply nth_error_Some. congruence.
  - split; [apply hset_len|]. intros k N. apply hset_other. auto.
Qed.
Lemma eadd_grows x y : e_secs y <> [] -> eadd x y <> x.
Proof. intros N E. apply (f_equal (fun e => List.length (e_secs e))) in E. simpl in E. rewrite app_length in E. destruct (e_secs y); simpl in *; [congruence|lia]. Qed.

(** Every object has a term. *)
Definition nonempty (h : heap) : Prop := Forall (fun x => e_secs x <> [] /\ List.length (e_secs x) = List.length (e_bases x)) h.
Lemma hset_nonempty h : forall i x, nonempty h -> e_secs x <> [] -> List.length (e_secs x) = List.length (e_bases x) -> nonempty (hset h i x).
Proof. induction h as [|y h IH]; intros [|i] x N E L; simpl; auto; inversion N; subst; constructor; auto. now apply IH. Qed.
Lemma run_nonempty t : forall h i h', nonempty h -> h_run t h = Ok (i, h') -> nonempty h'.
Proof.
  induction t as [s b|i|a IHa b IHb]; intros h k h' N H; simpl in H.
  - injection H as <- <-. apply Forall_app. split; auto. repeat constructor; simpl; discriminate.
  - destruct (nth_error h i); [|discriminate]. now injection H as <- <-.
  - destruct (h_run a h) as [[i1 h1]|] eqn:E1; [|discriminate]. cbn [rbind] in H.
    destruct (h_run b h1) as [[i2 h2]|] eqn:E2; [|discriminate]. cbn [rbind] in H. unfold h_add in H.
    apply IHa in E1; auto. apply IHb in E2; auto.
    destruct (nth_error h2 i1) as [x|] eqn:X; [|discriminate]. destruct (nth_error h2 i2) as [y|] eqn:Y; [|discriminate]. injection H as <- <-.
    assert (F := E2). unfold nonempty in F. rewrite Forall_forall in F. apply nth_error_In in X, Y.
    destruct (F x X) as [Fx Lx], (F y Y) as [Fy Ly]. apply hset_nonempty; auto.
    + simpl. destruct (e_secs x); [congruence|discriminate].
    + simpl. rewrite !app_length. congruence.
Qed.

(** Programs: the result is new or the head; other objects than the heads are not changed. *)
Lemma head_heads_incl t : forall i, In i (head t) -> In i (tvars t).
Proof. induction t; simpl; auto. intros i H. apply in_or_app. auto. Qed.
Lemma heads_incl t : forall i, In i (heads t) -> In i (tvars t).
Proof.
  induction t; simpl; try tauto. intros i H. apply in_app_iff in H as [H|H]; [apply in_or_app; left; now apply head_heads_incl|].
  apply in_app_iff in H. apply in_or_app. firstorder.
Qed.
Lemma run_spec t : forall h, (forall i, In i (tvars t) -> (i < List.length h)%nat) -> NoDup (tvars t) ->
  exists i h' x, h_run t h = Ok (i, h') /\ meaning t h = Ok x /\ nth_error h' i = Some x /\
    (In i (head t) \/ head t = [] /\ (List.length h <= i)%nat) /\ (List.length h <= List.length h')%nat /\ (i < List.length h')%nat /\
    (forall k, (k < List.length h)%nat -> ~ In k (heads t) -> nth_error h' k = nth_error h k).
Proof.
  induction t as [s b|i|a IHa b IHb]; intros h V N; simpl in *.
  - exists (List.length h), (h ++ [emul s b]), (emul s b). split; auto. split; auto. split.
    { rewrite nth_error_app2, Nat.sub_diag by lia. reflexivity. }
    rewrite app_length. simpl. repeat (split; auto; try lia). intros k L _. now rewrite nth_error_app1.
  - assert (L := V i (or_introl eq_refl)). destruct (nth_error h i) as [x|] eqn:E; [|apply nth_error_None in E; lia].
    exists i, h, x. repeat (split; auto).
  - assert (Na : NoDup (tvars a)) by (clear -N; induction (tvars a) as [|y l IH]; [constructor|inversion N; subst; constructor; auto; intros H; apply H1, in_or_app; auto]).
    assert (Nb : NoDup (tvars b)) by (clear -N; induction (tvars a) as [|y l IH]; auto; inversion N; auto).
    assert (D : forall k, In k (tvars a) -> ~ In k (tvars b)).
    { clear -N. induction (tvars a) as [|y l IH]; simpl; [tauto|]. inversion N; subst. intros k [->|H] Hb; [apply H1, in_or_app; auto|exact (IH H2 k H Hb)]. }
    destruct (IHa h) as (i & h1 & x & E1 & M1 & X1 & R1 & L1 & I1 & U1); [intros; apply V, in_or_app; auto|auto|].
    destruct (IHb h1) as (j & h2 & y & E2 & M2 & X2 & R2 & L2 & I2 & U2); [intros k Hk; assert (Y := V k (in_or_app _ _ _ (or_intror Hk))); lia|auto|].
    rewrite E1. cbn [rbind]. rewrite E2. cbn [rbind].
    (* the meaning of b in h1 and in h *)
    assert (MB : meaning b h = meaning b h1).
    { assert (K : forall k, In k (tvars b) -> nth_error h1 k = nth_error h k).
      { intros k Hk. apply U1; [apply V, in_or_app; auto|]. intros Hh. apply heads_incl in Hh. exact (D k Hh Hk). }
      clear -K. induction b as [s0 b0|k|u IHu v IHv]; simpl in *; auto.
      - now rewrite K by auto.
      - rewrite IHu, IHv by (intros; apply K, in_or_app; auto). reflexivity. }
    assert (X1' : nth_error h2 i = Some x).
    { rewrite U2; auto. intros Hh. apply heads_incl in Hh. destruct R1 as [R1|[_ R1]].
      - apply head_heads_incl in R1. exact (D i R1 Hh).
      - assert (Z := V i (in_or_app _ _ _ (or_intror Hh))). lia. }
    destruct (add_effect i j h2 x y X1' X2) as (h3 & E3 & X3 & L3 & U3). exists i, h3, (eadd x y). split; auto.
    rewrite M1, MB, M2. cbn [rbind]. repeat (split; auto; try lia). intros k Lk Nk.
    rewrite U3.
    + rewrite U2; [|lia|intros H; apply Nk; apply in_or_app; right; apply in_or_app; auto].
      apply U1; auto. intros H. apply Nk. apply in_or_app. right. apply in_or_app. auto.
    + intros ->. destruct R1 as [R1|[_ R1]]; [|lia]. apply Nk. apply in_or_app. auto.
Qed.

(** wsum_secrets makes a new object and leaves the others alone. *)
Lemma h_wsum_spec ss bs h : match wsum_secrets ss bs, h_wsum ss bs h with
  | Ok x, Ok (i, h') => i = List.length h /\ nth_error h' i = Some x /\ forall k, (k < List.length h)%nat -> nth_error h' k = nth_error h k
  | Err e, Err e' => e = e'
  | _, _ => False
  end.
Proof.
  unfold wsum_secrets, h_wsum. destruct (Nat.eqb _ _); auto. destruct ss as [|s ss]; auto. destruct bs as [|b bs]; auto.
  assert (K : forall l h1 x, (List.length h < List.length h1)%nat -> nth_error h1 (List.length h) = Some x ->
    (forall k, (k < List.length h)%nat -> nth_error h1 k = nth_error h k) ->
    exists h', fold_left (fun acc sb => let? (i, h) := acc in let (j, h) := h_mul (fst sb) (snd sb) h in h_add i j h) l (Ok (List.length h, h1)) = Ok (List.length h, h') /\
      nth_error h' (List.length h) = Some (fold_left (fun acc sb => eadd acc (emul (fst sb) (snd sb))) l x) /\
      forall k, (k < List.length h)%nat -> nth_error h' k = nth_error h k).
  { induction l as [|[s0 b0] l IH]; intros h1 x L X U; [exists h1; auto|]. simpl fold_left. cbn [rbind h_mul fst snd].
    destruct (add_effect (List.length h) (List.length h1) (h1 ++ [emul s0 b0]) x (emul s0 b0)) as (h2 & E & X2 & L2 & U2).
    { rewrite nth_error_app1; auto. } { rewrite nth_error_app2, Nat.sub_diag by lia. reflexivity. }
    rewrite E. apply IH.
    - rewrite L2, app_length. simpl. lia.
    - exact X2.
    - intros k Lk. rewrite U2 by lia. rewrite nth_error_app1 by lia. auto. }
  destruct (K (combine ss bs) (h ++ [emul s b]) (emul s b)) as (h' & E & X & U).
  - rewrite app_length. simpl. lia.
  - rewrite nth_error_app2, Nat.sub_diag by lia. reflexivity.
  - intros k Lk. now rewrite nth_error_app1.
  - let T := type of E in match T with ?l = _ => match goal with |- match ?f with Ok _ => _ | Err _ => _ end => change f with l end end.
    rewrite E. auto.
Qed.

(** ** The property *)
Lemma add_right_kept i j h x y : nth_error h i = Some x -> nth_error h j = Some y ->
  exists h', h_add i j h = Ok (i, h') /\ nth_error h' i = Some (eadd x y) /\ (forall k, k <> i -> nth_error h' k = nth_error h k).
Proof. intros A B. destruct (add_effect i j h x y A B) as (h' & E & X & _ & U). eauto. Qed.
Lemma wsum_nonempty ss bs h i h' : nonempty h -> h_wsum ss bs h = Ok (i, h') -> nonempty h'.
Proof.
  unfold h_wsum. destruct (Nat.eqb _ _); [|discriminate]. destruct ss as [|s ss]; [discriminate|]. destruct bs as [|b bs]; [discriminate|].
  intros N. set (f := fun acc sb => _). assert (N1 : nonempty (h ++ [emul s b])) by (apply Forall_app; split; auto; repeat constructor; discriminate).
  change (h_mul s b h) with (List.length h, h ++ [emul s b]). revert N1. generalize (List.length h) as k, (h ++ [emul s b]) as h1. clear N.
  assert (Er : forall l e, fold_left f l (Err e) = Err e) by (induction l; auto).
  induction (combine ss bs) as [|[s0 b0] l IH]; intros k h1 N1 H; [now injection H as <- <-|]. simpl fold_left in H.
  unfold h_add in H.
  assert (N2 : nonempty (h1 ++ [emul s0 b0])) by (apply Forall_app; split; auto; repeat constructor; discriminate).
  destruct (nth_error (h1 ++ [emul s0 b0]) k) as [x|] eqn:X; [|rewrite Er in H; discriminate].
  destruct (nth_error (h1 ++ [emul s0 b0]) (List.length h1)) as [y|] eqn:Y; [|rewrite Er in H; discriminate].
  apply (IH k (hset (h1 ++ [emul s0 b0]) k (eadd x y))); auto.
  assert (F := N2). unfold nonempty in F. rewrite Forall_forall in F. apply nth_error_In in X, Y.
  destruct (F x X) as [Fx Lx], (F y Y) as [Fy Ly]. apply hset_nonempty; auto.
  + simpl. destruct (e_secs x); [congruence|discriminate].
  + simpl. rewrite !app_length. congruence.
Qed.
Lemma reached_nonempty h : reached h -> nonempty h.
Proof. induction 1; [constructor|eapply run_nonempty; eauto|eapply wsum_nonempty; eauto]. Qed.
Lemma left_changed h i j x : reached h -> nth_error h i = Some x -> nth_error h j <> None ->
  exists h' x', h_add i j h = Ok (i, h') /\ nth_error h' i = Some x' /\ x' <> x.
Proof.
  intros R X Y. destruct (nth_error h j) as [y|] eqn:E; [|congruence].
  destruct (add_effect i j h x y X E) as (h' & E1 & X1 & _). exists h', (eadd x y). repeat (split; auto). apply eadd_grows.
  apply reached_nonempty in R. unfold nonempty in R. rewrite Forall_forall in R. apply nth_error_In in E. now apply R.
Qed.
(** A sub-expression used in two sums: the second contains the terms of the first. *)
Lemma reuse i a b h x y z : nth_error h i = Some x -> nth_error h a = Some y -> nth_error h b = Some z -> a <> i -> b <> i ->
  exists h1 h2, h_add i a h = Ok (i, h1) /\ h_add i b h1 = Ok (i, h2) /\ nth_error h2 i = Some (eadd (eadd x y) z).
Proof.
  intros X Y Z Na Nb. destruct (add_effect i a h x y X Y) as (h1 & E1 & X1 & _ & U1).
  rewrite <- (U1 b Nb) in Z. destruct (add_effect i b h1 _ z X1 Z) as (h2 & E2 & X2 & _). eauto.
Qed.
End H.

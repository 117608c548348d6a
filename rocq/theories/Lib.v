(** General lemmas: monad inversion, traversals, linear combinations. *)
From Coq Require Import String.
From Verif Require Import Base World Val Expr Utils Stmt Spec Shapes.
Open Scope Z_scope.
Open Scope list_scope.

(** ** Results and monad *)
Lemma rbind_ok {A B} (r : res A) (f : A -> res B) b :
  rbind r f = Ok b <-> exists a, r = Ok a /\ f a = Ok b.
Proof.
  destruct r; simpl; split.
  - intros H; eauto.
  - intros (a' & H & K). inversion H; subst; auto.
  - discriminate.
  - intros (a' & H & K). discriminate.
Qed.

Lemma bind_ok {A B} (m : M A) (f : A -> M B) s r :
  bind m f s = Ok r <-> exists a s1, m s = Ok (a, s1) /\ f a s1 = Ok r.
Proof.
  unfold bind. destruct (m s) as [[a s1]|e]; split.
  - intros H; eauto.
  - intros (a' & s1' & H & K). inversion H; subst; auto.
  - discriminate.
  - intros (a' & s1' & H & K). discriminate.
Qed.
Lemma lift_ok {A} (r : res A) s a s1 : lift r s = Ok (a, s1) <-> r = Ok a /\ s1 = s.
Proof.
  unfold lift. destruct r; split.
  - intros H; inversion H; auto.
  - intros [H ->]; inversion H; auto.
  - discriminate.
  - intros [H _]; discriminate.
Qed.
Lemma ret_ok {A} (a b : A) s s1 : ret a s = Ok (b, s1) <-> a = b /\ s1 = s.
Proof. unfold ret. split; [intros H; inversion H; auto | intros [-> ->]; auto]. Qed.

Lemma bind_lift_ok {A B} (a : A) (f : A -> M B) s : bind (lift (Ok a)) f s = f a s.
Proof. reflexivity. Qed.

(** Inversion of a successful computation. *)
Ltac minv H :=
  repeat match type of H with
  | bind ?m ?f ?s = Ok _ =>
      let a := fresh "a" in let s1 := fresh "s" in let E := fresh "E" in
      apply bind_ok in H; destruct H as (a & s1 & E & H); cbv beta in H
  | ret _ _ = Ok _ => apply ret_ok in H; destruct H as [? ?]; subst
  | raise _ _ = Ok _ => discriminate H
  | lift _ _ = Ok _ => apply lift_ok in H; destruct H as [H ?]; subst
  | get_env _ = Ok _ => unfold get_env in H; injection H as ? ?; subst
  | Err _ = Ok _ => discriminate H
  | rbind ?m ?f = Ok _ =>
      let a := fresh "a" in let E := fresh "E" in
      apply rbind_ok in H; destruct H as (a & E & H); cbv beta in H
  end.

Ltac minvs :=
  repeat match goal with
  | H : bind _ _ _ = Ok _ |- _ => minv H
  | H : ret _ _ = Ok _ |- _ => minv H
  | H : raise _ _ = Ok _ |- _ => discriminate H
  | H : lift _ _ = Ok _ |- _ => minv H
  | H : get_env _ = Ok _ |- _ => minv H
  | H : Err _ = Ok _ |- _ => discriminate H
  | H : rbind _ _ = Ok _ |- _ => minv H
  | H : Ok _ = Ok _ |- _ => injection H; clear H; intros; subst
  | H : (_, _) = (_, _) |- _ => injection H; clear H; intros; subst
  end.

Lemma Forall2_len {A B} (R : A -> B -> Prop) l m : Forall2 R l m -> List.length l = List.length m.
Proof. induction 1; simpl; congruence. Qed.

Lemma rmap_ok {A B} (f : A -> res B) l ys :
  rmap f l = Ok ys <-> Forall2 (fun x y => f x = Ok y) l ys.
Proof.
  revert ys. induction l as [|x l IH]; intros ys; simpl.
  - split; intros H; inversion H; subst; auto.
  - split; intros H.
    + apply rbind_ok in H as (y & Hy & H). apply rbind_ok in H as (ys' & Hys & H).
      injection H as <-. constructor; auto. now apply IH.
    + inversion H; subst. rewrite H2. simpl. apply IH in H4. rewrite H4. reflexivity.
Qed.

Lemma rmap_length {A B} (f : A -> res B) l ys : rmap f l = Ok ys -> List.length ys = List.length l.
Proof. intros H. apply rmap_ok in H. symmetry. eapply Forall2_len; eauto. Qed.

Lemma rmap_ext {A B} (f g : A -> res B) l :
  (forall x, In x l -> f x = g x) -> rmap f l = rmap g l.
Proof.
  induction l; simpl; intros H; auto. rewrite H, IHl; auto.
Qed.

Lemma rimap_ok {A B} (f : nat -> A -> res B) l : forall i ys,
  rimap f i l = Ok ys <->
  List.length ys = List.length l /\
  forall j x, nth_error l j = Some x -> exists y, nth_error ys j = Some y /\ f (i + j)%nat x = Ok y.
Proof.
  induction l as [|x l IH]; intros i ys; simpl.
  - split.
    + intros H; injection H as <-. split; auto. intros [|j] x H; discriminate.
    + intros [H _]. destruct ys; [auto|discriminate].
  - split.
    + intros H. apply rbind_ok in H as (y & Hy & H). apply rbind_ok in H as (ys' & Hys & H).
      injection H as <-. apply IH in Hys as [Hl Hn]. split; [simpl; congruence|].
      intros [|j] x' H; simpl in *.
      * injection H as <-. exists y. rewrite Nat.add_0_r. auto.
      * destruct (Hn _ _ H) as (y' & Hy' & K). exists y'. split; auto.
        now rewrite <- K, Nat.add_succ_r.
    + intros [Hl Hn]. destruct ys as [|y ys]; [discriminate|].
      destruct (Hn O x eq_refl) as (y' & Hy' & K). simpl in Hy'. injection Hy' as <-.
      rewrite Nat.add_0_r in K. rewrite K. simpl.
      replace (rimap f (S i) l) with (@Ok (list B) ys); [reflexivity|]. symmetry.
      apply IH. split; [simpl in Hl; congruence|]. intros j x' H.
      destruct (Hn (S j) x' H) as (y' & Hy' & K'). exists y'. split; auto.
      now rewrite <- K', Nat.add_succ_r.
Qed.

Lemma mapM_ok {A B} (f : A -> M B) l : forall s ys s',
  mapM f l s = Ok (ys, s') ->
  exists ss : list st, List.length ss = S (List.length l) /\ List.length ys = List.length l /\
  nth_error ss 0 = Some s /\ nth_error ss (List.length l) = Some s' /\
  forall i x, nth_error l i = Some x -> exists y a b,
    nth_error ys i = Some y /\ nth_error ss i = Some a /\ nth_error ss (S i) = Some b /\
    f x a = Ok (y, b).
Proof.
  induction l as [|x l IH]; intros s ys s' H; simpl in H; minv H.
  - exists [s]. repeat split; auto. intros [|i] x H; discriminate.
  - apply IH in E0 as (ss & L1 & L2 & N0 & N1 & Hn).
    exists (s :: ss). simpl. repeat split; auto; try congruence.
    intros [|i] y' H; simpl in *.
    + injection H as <-. exists a, s, s0. repeat split; auto.
    + destruct (Hn _ _ H) as (y & u & v & K). exists y, u, v. exact K.
Qed.

(** Relational traversal: an invariant on states is threaded through. *)
Lemma mapM_inv {A B} (f : A -> M B) (I : st -> Prop) (R : A -> B -> Prop) l :
  forall s ys s',
  mapM f l s = Ok (ys, s') -> I s ->
  (forall x a y b, In x l -> I a -> f x a = Ok (y, b) -> I b /\ R x y) ->
  I s' /\ Forall2 R l ys.
Proof.
  induction l as [|x l IH]; intros s ys s' H Hi Hs; simpl in H; minv H; [split; auto|].
  destruct (Hs x s a s0) as [Hi0 Hr]; simpl; auto.
  destruct (IH _ _ _ E0 Hi0) as [Hi' Hr'].
  - intros; eapply Hs; simpl; eauto.
  - split; auto.
Qed.

Lemma zipM_inv {A B C} (f : A -> B -> M C) (I : st -> Prop) (R : A -> B -> C -> Prop) l :
  forall m s zs s', List.length l = List.length m ->
  zipM f l m s = Ok (zs, s') -> I s ->
  (forall x y a z b, In x l -> I a -> f x y a = Ok (z, b) -> I b /\ R x y z) ->
  I s' /\ List.length zs = List.length l /\
  forall i x y z, nth_error l i = Some x -> nth_error m i = Some y -> nth_error zs i = Some z -> R x y z.
Proof.
  induction l as [|x l IH]; intros [|y m] s zs s' HL H Hi Hs; simpl in H; minv H; try discriminate.
  - repeat split; auto. intros [|i] ? ? ? K; discriminate.
  - destruct (Hs x y s a s0) as [Hi0 Hr]; simpl; auto.
    destruct (IH m _ _ _ ltac:(simpl in HL; congruence) E0 Hi0) as (Hi' & HL' & Hr').
    + intros; eapply Hs; simpl; eauto.
    + split; [auto|]. split; [simpl; congruence|].
      intros [|i] u v z K1 K2 K3; simpl in *; [congruence|]. eapply Hr'; eauto.
Qed.

(** ** Python values *)
Lemma as_int_map {W : World} zs : rmap as_int (map VInt zs) = Ok zs.
Proof. induction zs; simpl; auto. now rewrite IHzs. Qed.

(** ** Linear combinations *)
Section LC.
Context {W : World}.

Lemma grp_lincomb g ws ps : in_group g ps -> grp (lincomb g ws ps) = g.
Proof.
  intros H. revert ws. induction H as [|p ps Hp H IH]; intros [|w ws]; simpl; try apply grp_inf.
  rewrite grp_add; rewrite grp_mul; auto. now rewrite IH.
Qed.

Lemma fold_padd_err ps e :
  fold_left (fun acc wp => let? a := acc in padd_chk a (pmul (fst wp) (snd wp))) ps (Err e) = Err e.
Proof. induction ps; simpl; auto. Qed.

Lemma wsum_acc ws : forall ps g a,
  in_group g ps -> grp a = g ->
  fold_left (fun acc wp => let? a := acc in padd_chk a (pmul (fst wp) (snd wp)))
            (combine ws ps) (Ok a) = Ok (padd a (lincomb g ws ps)).
Proof.
  induction ws as [|w ws IH]; intros ps g a Hg Ha; simpl.
  - now rewrite add_inf_r' by auto.
  - destruct Hg as [|p ps Hp Hg]; simpl.
    + now rewrite add_inf_r' by auto.
    + rewrite padd_chk_same by (rewrite grp_mul; congruence).
      rewrite (IH _ g) by (auto; rewrite grp_add; rewrite ?grp_mul; congruence).
      rewrite add_assoc; rewrite ?grp_mul; try congruence.
      rewrite grp_lincomb; auto.
Qed.

Lemma wsum_lincomb g ws ps : in_group g ps -> wsum g ws ps = Ok (lincomb g ws ps).
Proof.
  intros H. unfold wsum. rewrite (wsum_acc ws ps g) by (auto; apply grp_inf).
  f_equal. apply add_inf_l', grp_lincomb; auto.
Qed.

Lemma wsum_ok_group ws : forall ps a b,
  fold_left (fun acc wp => let? a := acc in padd_chk a (pmul (fst wp) (snd wp)))
            (combine ws ps) (Ok a) = Ok b ->
  in_group (grp a) (firstn (List.length ws) ps).
Proof.
  induction ws as [|w ws IH]; intros ps a b H; simpl in *; [constructor|].
  destruct ps as [|p ps]; simpl in *; [constructor|].
  destruct (padd_chk a (pmul w p)) as [c|e] eqn:E.
  - apply padd_chk_ok in E as [E ->]. rewrite grp_mul in E.
    constructor; auto. apply IH in H. rewrite grp_add in H; auto. now rewrite grp_mul.
  - rewrite fold_padd_err in H. discriminate.
Qed.

Lemma wsum_v_ints g ws ps : wsum_v g (map VInt ws) ps = wsum g ws ps.
Proof.
  unfold wsum_v, wsum. generalize (@Ok pt (inf g)). revert ps.
  induction ws as [|w ws IH]; intros ps r; simpl; auto.
  destruct ps as [|p ps]; simpl; auto.
Qed.

Lemma lincomb_add g ps : in_group g ps -> forall us vs,
  List.length us = List.length ps -> List.length vs = List.length ps ->
  lincomb g (map (fun p => fst p + snd p) (combine us vs)) ps =
  padd (lincomb g us ps) (lincomb g vs ps).
Proof.
  induction 1 as [|p ps Hp H IH]; intros [|u us] [|v vs] L1 L2; simpl in *; try discriminate.
  - symmetry; apply add_inf_l', grp_inf.
  - rewrite IH by congruence. rewrite mul_add.
    rewrite add_swap; rewrite ?grp_mul, ?grp_lincomb; auto.
Qed.

Lemma lincomb_scale g ps c : in_group g ps -> forall us,
  lincomb g (map (Z.mul c) us) ps = pmul c (lincomb g us ps).
Proof.
  induction 1 as [|p ps Hp H IH]; intros [|u us]; simpl; rewrite ?mul_inf; auto.
  rewrite IH, mul_distr, mul_mul; auto. rewrite grp_mul, grp_lincomb; auto.
Qed.

Lemma lincomb_mod g ps : in_group g ps -> forall us,
  lincomb g (map (fun u => u mod order g) us) ps = lincomb g us ps.
Proof.
  induction 1 as [|p ps Hp H IH]; intros [|u us]; simpl; auto.
  rewrite IH. f_equal. rewrite <- Hp. apply mul_mod.
Qed.

(** The verification equation of one representation proof. *)
Lemma lincomb_response g ps c : in_group g ps -> forall vs ks,
  List.length vs = List.length ps -> List.length ks = List.length ps ->
  padd (lincomb g (map (fun p => (fst p * c + snd p) mod order g) (combine vs ks)) ps)
       (pmul (- c) (lincomb g vs ps)) = lincomb g ks ps.
Proof.
  intros H vs ks L1 L2.
  rewrite <- (map_map (fun p => fst p * c + snd p) (fun u => u mod order g)).
  rewrite lincomb_mod by auto.
  replace (map (fun p => fst p * c + snd p) (combine vs ks))
    with (map (fun p => fst p + snd p) (combine (map (Z.mul c) vs) ks)).
  2:{ clear L1 L2. revert ks; induction vs; intros [|k ks]; simpl; auto.
      f_equal; auto. lia. }
  rewrite lincomb_add, lincomb_scale by (rewrite ?map_length; auto).
  assert (G := grp_lincomb g vs ps H). assert (G' := grp_lincomb g ks ps H).
  rewrite (add_comm (pmul c _)) by (rewrite grp_mul; congruence).
  rewrite <- add_assoc by (rewrite ?grp_mul; congruence).
  rewrite <- mul_add. replace (c + - c) with 0 by lia. rewrite mul_0, G.
  apply add_inf_r'; auto.
Qed.
End LC.

(** A decision helper for equations between linear combinations in one group. *)
From Coq Require Import String.
From Verif Require Import Base World Val Expr Utils Stmt Spec Shapes Lib.
Open Scope Z_scope.
Open Scope list_scope.

Section L.
Context {W : World}.

Inductive gex := GA (n : nat) | GAdd (a b : gex) | GMul (k : Z) (a : gex) | GI.
Fixpoint gev (g : gid) (ps : list pt) (e : gex) : pt :=
  match e with
  | GA n => nth n ps (inf g)
  | GAdd a b => padd (gev g ps a) (gev g ps b)
  | GMul k a => pmul k (gev g ps a)
  | GI => inf g
  end.
Fixpoint coef (e : gex) (n : nat) : Z :=
  match e with
  | GA m => if Nat.eqb m n then 1 else 0
  | GAdd a b => coef a n + coef b n
  | GMul k a => k * coef a n
  | GI => 0
  end.
Definition coefs (len : nat) (e : gex) : list Z := map (coef e) (seq 0 len).

Lemma gev_grp g ps e : in_group g ps -> grp (gev g ps e) = g.
Proof.
  intros H. induction e; simpl.
  - destruct (nth_in_or_default n ps (inf g)) as [I| ->]; [|apply grp_inf].
    unfold in_group in H. rewrite Forall_forall in H. auto.
  - rewrite grp_add; congruence.
  - now rewrite grp_mul.
  - apply grp_inf.
Qed.
Lemma lincomb_zeros g ps : in_group g ps -> forall ws, Forall (fun w => w = 0) ws -> lincomb g ws ps = inf g.
Proof.
  induction 1 as [|p ps Hp F IH]; intros [|w ws] H; simpl; auto.
  inversion H; subst. rewrite IH, mul_0 by auto. now rewrite add_inf_l' by apply grp_inf.
Qed.
Lemma lincomb_unit g ps : in_group g ps -> forall n k,
  lincomb g (map (fun i => if Nat.eqb n i then 1 else 0) (seq k (List.length ps))) ps =
  if (n <? k)%nat then inf g else nth (n - k) ps (inf g).
Proof.
  induction 1 as [|p ps Hp F IH]; intros n k; simpl.
  - destruct (n <? k)%nat; auto. destruct (n - k)%nat; auto.
  - rewrite IH. destruct (Nat.eqb n k) eqn:E.
    + apply Nat.eqb_eq in E. subst. rewrite Nat.ltb_irrefl, Nat.sub_diag.
      replace (k <? S k)%nat with true by (symmetry; apply Nat.ltb_lt; lia).
      rewrite mul_1. now apply add_inf_r'.
    + apply Nat.eqb_neq in E. rewrite mul_0. rewrite Hp.
      destruct (n <? k)%nat eqn:E2.
      * apply Nat.ltb_lt in E2. replace (n <? S k)%nat with true by (symmetry; apply Nat.ltb_lt; lia).
        apply add_inf_l', grp_inf.
      * apply Nat.ltb_ge in E2. replace (n <? S k)%nat with false by (symmetry; apply Nat.ltb_ge; lia).
        replace (n - k)%nat with (S (n - S k)) by lia. apply add_inf_l'.
        assert (X := gev_grp g ps (GA (n - S k)) F). exact X.
Qed.
Lemma gev_coefs g ps e : in_group g ps -> gev g ps e = lincomb g (coefs (List.length ps) e) ps.
Proof.
  intros H. unfold coefs. induction e; simpl.
  - assert (X := lincomb_unit g ps H n 0). rewrite Nat.sub_0_r in X. simpl in X. now rewrite <- X.
  - rewrite IHe1, IHe2. rewrite <- lincomb_add by (auto; rewrite ?map_length, ?seq_length; auto).
    f_equal. clear. generalize (seq 0 (List.length ps)). induction l; simpl; auto. now rewrite IHl.
  - rewrite IHe, <- lincomb_scale by auto. f_equal. rewrite map_map. auto.
  - symmetry. apply lincomb_zeros; auto. apply Forall_forall. intros x Hx. apply in_map_iff in Hx as (y & <- & _). auto.
Qed.
Lemma gex_eq g ps a b : in_group g ps -> coefs (List.length ps) a = coefs (List.length ps) b ->
  gev g ps a = gev g ps b.
Proof. intros H E. rewrite !gev_coefs, E; auto. Qed.
Lemma gex_eq_mod g ps a b : in_group g ps ->
  Forall2 (fun x y => x mod order g = y mod order g) (coefs (List.length ps) a) (coefs (List.length ps) b) ->
  gev g ps a = gev g ps b.
Proof.
  intros H E. rewrite !gev_coefs by auto.
  rewrite <- (lincomb_mod g ps H (coefs _ a)), <- (lincomb_mod g ps H (coefs _ b)).
  f_equal. clear -E. induction E; simpl; congruence.
Qed.
End L.

(** groups of compound points *)
Ltac gsimp := unfold pneg; repeat first [rewrite grp_inf | rewrite grp_mul | rewrite grp_add by gsolve]
with gsolve := gsimp; congruence.
(** reification *)
Ltac g_mem x l := match l with
  | x :: _ => true | _ :: ?l => g_mem x l | [] => false end.
Ltac g_atoms t l := match t with
  | padd ?a ?b => let l := g_atoms a l in g_atoms b l
  | pmul _ ?a => g_atoms a l
  | inf _ => l
  | _ => match g_mem t l with true => l | false => constr:(t :: l) end
  end.
Ltac g_pos x l := match l with
  | x :: _ => O | _ :: ?l => let n := g_pos x l in constr:(S n) end.
Ltac g_reify t l := match t with
  | padd ?a ?b => let a := g_reify a l in let b := g_reify b l in constr:(GAdd a b)
  | pmul ?k ?a => let a := g_reify a l in constr:(GMul k a)
  | inf _ => constr:(GI)
  | _ => let n := g_pos t l in constr:(GA n)
  end.
Ltac g_setup g := unfold pneg; match goal with |- ?a = ?b =>
  let l := g_atoms a (@nil pt) in let l := g_atoms b l in
  let x := g_reify a l in let y := g_reify b l in
  change (gev g l x = gev g l y) end.
(** equality of integer coefficients *)
Ltac glin g := g_setup g; apply gex_eq;
  [repeat (apply Forall_cons || apply Forall_nil); auto; try congruence
  |cbv [coefs List.length seq map coef Nat.eqb]; repeat (f_equal; try ring); try ring].
(** equality of coefficients modulo the order: leaves one goal per atom *)
Ltac glinm g := g_setup g; apply gex_eq_mod;
  [repeat (apply Forall_cons || apply Forall_nil); auto; try congruence
  |cbv [coefs List.length seq map coef Nat.eqb]; repeat constructor].

Example glin_test {W : World} (a b : pt) x y : grp a = grp b ->
  padd (pmul x a) (pmul y (padd a b)) = padd (pmul (x + y) a) (pmul y b).
Proof. intros E. glin (grp a). Qed.

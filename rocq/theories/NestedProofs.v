(** User-defined primitives in nested compositions: the prover. *)
From Coq Require Import String Znumtheory Lia.
From Verif Require Import Base World Val Expr Utils Stmt Prove Verify Spec Shapes Claims Honest Clauses Supply Extract Lib DictProofs Keeps Sigma Tree Build Process
  Provers Commit Total Total2 Total4 Complete Complete2 Checks2 IdProofs3 History AnswerProofs Sound4 WiProofs Custom CustomProofs Mixed MixedProofs MixedProofs2 MixedOr MixedOrProofs MixedOrProofs2 Nested.
Open Scope Z_scope.
Open Scope list_scope.

Section N.
Context {W : World}.

Lemma mtree_ind' (P : mtree -> Prop) : (forall K b, P (TK K b)) -> (forall s, P (TS s)) -> (forall l b, Forall P l -> P (TA l b)) ->
  (forall l b, Forall P l -> P (TO l b)) -> forall t, P t.
Proof.
  intros H1 H2 H3 H4. fix IH 1. intros [K b|s|l b|l b].
  - apply H1.
  - apply H2.
  - apply H3. induction l; constructor; [apply IH|auto].
  - apply H4. induction l; constructor; [apply IH|auto].
Qed.

Context (U : list secret) (w : bytes -> Z).

(** [s]: [t] with all statements constructed; [c]: the same without primitives *)
Inductive tb : mtree -> stmt -> stmt -> Prop :=
| TbK K b c c0 v b' : made K v c0 -> pstrip c = pstrip c0 -> v <> VNone -> noext c -> wfs c -> incl (svars c) U ->
    tb (TK K b) c (set_simulated b' (obj_of K v (Some c)))
| TbS s0 c : pstrip c = pstrip s0 -> noext c -> wfs c -> incl (svars c) U -> tb (TS s0) c c
| TbA l b cs ss b' : Forall3 tb l cs ss -> tb (TA l b) (SAnd cs b') (SAnd ss b')
| TbO l b cs ss b' ch : Forall3 tb l cs ss -> tb (TO l b) (SOr cs b' ch) (SOr ss b' ch).

Lemma alike_refl s : alike s s.
Proof. repeat split; auto. Qed.
Lemma alike_and ss cs b : Forall2 alike ss cs -> alike (SAnd ss b) (SAnd cs b).
Proof.
  intros F. destruct (alike_rmap _ _ F) as [A B]. repeat split; cbn [get_secret_vars get_bases]; rewrite ?A, ?B; auto.
  intros e f. cbn [validate_reoccurence rbind]. intros H.
  assert (G : rmap (fun p => validate_reoccurence e p (Some f)) cs = Ok (map (fun _ => tt) cs)).
  { destruct (rmap (fun p => validate_reoccurence e p (Some f)) cs) as [y|] eqn:E; [|discriminate H]. f_equal. clear - E. revert y E.
    induction cs as [|c cs IH]; intros y E; cbn [rmap map] in *; [injection E as <-; reflexivity|].
    destruct (validate_reoccurence e c _) as [[]|]; cbn [rbind] in E; [|discriminate E].
    destruct (rmap _ cs) as [ys|]; cbn [rbind] in E; [|discriminate E]. injection E as <-. now rewrite (IH _ eq_refl). }
  assert (Q : rmap (fun p => validate_reoccurence e p (Some f)) ss = Ok (map (fun _ => tt) ss)); [|now rewrite Q].
  clear H A B. induction F as [|s c ss cs (_ & _ & X) F IH]; [reflexivity|]. cbn [rmap map] in *.
  destruct (validate_reoccurence e c _) as [[]|] eqn:E; cbn [rbind] in G; [|discriminate G]. rewrite (X _ _ E). cbn [rbind].
  destruct (rmap _ cs) as [ys|]; cbn [rbind] in G; [|discriminate G]. injection G as G. rewrite IH by (f_equal; exact G). reflexivity.
Qed.
Lemma alike_or ss cs b ch b' ch' : Forall2 alike ss cs -> alike (SOr ss b ch) (SOr cs b' ch').
Proof.
  intros F. destruct (alike_rmap _ _ F) as [A B]. repeat split; cbn [get_secret_vars get_bases]; rewrite ?A, ?B; auto.
  intros e f. cbn [validate_reoccurence get_secret_vars]. rewrite A. auto.
Qed.

Definition good (t : mtree) (c s : stmt) : Prop :=
  noext c /\ wfs c /\ wfs s /\ built s /\ prenn s /\ incl (svars s) U /\ alike s c /\ (forall e, Checked e c -> Checked e s) /\ full_validate s = Ok tt /\
  exists c0, fill t c0 /\ pstrip c = pstrip c0.
Lemma good_list l cs ss : Forall3 good l cs ss -> Forall noext cs /\ Forall wfs cs /\ Forall wfs ss /\ Forall built ss /\ Forall prenn ss /\
  incl (List.concat (map svars ss)) U /\ Forall2 alike ss cs /\ (forall e, Forall (Checked e) cs -> Forall (Checked e) ss) /\
  (exists y, rmap full_validate ss = Ok y) /\ exists cs0, Forall2 fill l cs0 /\ map pstrip cs = map pstrip cs0.
Proof.
  induction 1 as [|t c s l cs ss (A1 & A2 & A3 & A4 & A5 & A6 & A7 & A8 & A9 & c0 & A10 & A11) F (B1 & B2 & B3 & B4 & B5 & B6 & B7 & B8 & (y & B9) & cs0 & B10 & B11)].
  - split; [constructor|]. split; [constructor|]. split; [constructor|]. split; [constructor|]. split; [constructor|]. split; [intros ? []|]. split; [constructor|].
    split; [constructor|]. split; [exists []; reflexivity|]. exists []. split; [constructor|reflexivity].
  - cbn [map List.concat rmap]. split; [constructor; auto|]. split; [constructor; auto|]. split; [constructor; auto|]. split; [constructor; auto|]. split; [constructor; auto|].
    split; [apply incl_app; auto|]. split; [constructor; auto|].
    split; [intros e H; inversion H; subst; constructor; auto|]. split; [rewrite A9, B9; cbn; eauto|]. exists (c0 :: cs0). split; [constructor; auto|cbn; congruence].
Qed.
Lemma tb_good t : forall c s, tb t c s -> good t c s.
Proof.
  assert (G : forall l, Forall (fun t => forall c s, tb t c s -> good t c s) l -> forall cs ss, Forall3 tb l cs ss -> Forall3 good l cs ss).
  { intros l IH cs ss F. induction F as [|t0 c s l cs ss B F IHF]; constructor; inversion IH; subst; auto. }
  induction t as [K b|s0|l b IH|l b IH] using mtree_ind'; intros c s H; inversion H as [? ? ? cc ? ? MA PS|? ? PS| |]; subst.
  - unfold obj_of. cbn [set_simulated]. split; auto. split; auto. split; [now constructor|]. assert (B := Tree.noext_built c ltac:(assumption)).
    split; [now constructor|]. split; [constructor; auto using noext_prenn|]. split; [assumption|].
    split; [repeat split; auto|]. split; [intros e HC; now constructor|]. split; [reflexivity|]. exists cc. split; [econstructor; eauto|assumption].
  - split; auto. split; auto. split; auto. split; [now apply Tree.noext_built|]. split; [now apply noext_prenn|]. split; auto.
    split; [apply alike_refl|]. split; auto. split; [now apply noext_valid'|]. exists s0. split; [constructor|assumption].
  - destruct (good_list l cs ss) as (B1 & B2 & B3 & B4 & B5 & B6 & B7 & B8 & (y & B9) & cs0 & B10 & B11); [now apply G|].
    split; [now constructor|]. split; [now constructor|]. split; [now constructor|]. split; [now constructor|]. split; [now constructor|]. split; [exact B6|].
    split; [now apply alike_and|]. split; [|split; [cbn [full_validate]; now rewrite B9|]].
    + intros e HC. eapply alike_checked; [exact B7| |exact HC]. inversion HC; auto.
    + exists (SAnd cs0 b'). split; [now constructor|]. cbn [pstrip]. now rewrite B11.
  - destruct (good_list l cs ss) as (B1 & B2 & B3 & B4 & B5 & B6 & B7 & B8 & (y & B9) & cs0 & B10 & B11); [now apply G|].
    split; [now constructor|]. split; [now constructor|]. split; [now constructor|]. split; [now constructor|]. split; [now constructor|]. split; [exact B6|].
    split; [now apply alike_or|]. split; [|split; [cbn [full_validate]; now rewrite B9|]].
    + intros e HC. eapply alike_checked_or; [exact B7| |exact HC]. inversion HC; auto.
    + exists (SOr cs0 b' ch). split; [now constructor|]. cbn [pstrip]. now rewrite B11.
Qed.

(** ** Precommitments *)
Lemma tb_noext t : forall c s, tb t c s -> heard t -> noext s -> exists s0, t = TS s0.
Proof.
  induction t as [K b|s0|l b IH|l b IH] using mtree_ind'; intros c s H HE N; inversion H; subst; [inversion N|eauto| |]; exfalso.
  - inversion HE as [| |? ? F (t & I & X)|]; subst. inversion N as [|? ? NE|]; subst. clear H N HE.
    match goal with X : Forall3 tb _ _ _ |- _ => induction X as [|t' c' s' l cs ss B F3 IHF] end; [destruct I|].
    inversion IH; inversion F; inversion NE; subst. destruct I as [<-|I]; [|apply IHF; auto]. destruct (H1 _ _ B) as [s0 ->]; auto. exact (X s0 eq_refl).
  - inversion HE as [| | |? ? F (t & I & X)]; subst. inversion N as [| |? ? ? NE]; subst. clear H N HE.
    match goal with X : Forall3 tb _ _ _ |- _ => induction X as [|t' c' s' l cs ss B F3 IHF] end; [destruct I|].
    inversion IH; inversion F; inversion NE; subst. destruct I as [<-|I]; [|apply IHF; auto]. destruct (H1 _ _ B) as [s0 ->]; auto.
Qed.
(** The precommitment of a composition is a list. *)
Lemma pre_and l b cs ss b' v : Forall3 tb l cs ss -> heard (TA l b) -> PreRel (SAnd ss b') v -> exists vs, v = VList vs /\ Forall2 PreRel ss vs.
Proof.
  intros F HE P. inversion P; subst; eauto. exfalso. destruct (tb_noext (TA l b) (SAnd cs b') (SAnd ss b')) as [s0 Q]; auto; [now constructor|now constructor|discriminate Q].
Qed.
Lemma pre_or l b cs ss b' ch v : Forall3 tb l cs ss -> heard (TO l b) -> PreRel (SOr ss b' ch) v -> exists vs, v = VList vs /\ Forall2 PreRel ss vs.
Proof.
  intros F HE P. inversion P; subst; eauto. exfalso. destruct (tb_noext (TO l b) (SOr cs b' ch) (SOr ss b' ch)) as [s0 Q]; auto; [now constructor|now constructor|discriminate Q].
Qed.
Lemma pre_notnone t c s v : tb t c s -> heard t -> PreRel s v -> (forall s0, t <> TS s0) -> v <> VNone.
Proof.
  intros B HE P X. inversion B; subst.
  - unfold obj_of in P. cbn [set_simulated] in P. inversion P; subst; auto.
  - destruct (X s0 eq_refl).
  - destruct (pre_and _ _ _ _ _ _ ltac:(eassumption) HE P) as (vs & -> & _). discriminate.
  - destruct (pre_or _ _ _ _ _ _ _ ltac:(eassumption) HE P) as (vs & -> & _). discriminate.
Qed.
Lemma pre_truthy t c s v : tb t c s -> heard t -> PreRel s v ->
  match t with TS _ => False | TK K _ => forall pre c, made K pre c -> truthy pre = true | _ => True end -> truthy v = true.
Proof.
  intros B HE P X. inversion B; subst.
  - unfold obj_of in P. cbn [set_simulated] in P. inversion P; subst; eauto.
  - destruct X.
  - destruct (pre_and _ _ _ _ _ _ ltac:(eassumption) HE P) as (vs & -> & F). inversion HE as [| |? ? _ (t & I & _)|]; subst. destruct F; [|reflexivity].
    match goal with X : Forall3 tb _ _ _ |- _ => inversion X; subst end. destruct I.
  - destruct (pre_or _ _ _ _ _ _ _ ltac:(eassumption) HE P) as (vs & -> & F). inversion HE as [| | |? ? _ (t & I & _)]; subst. destruct F; [|reflexivity].
    match goal with X : Forall3 tb _ _ _ |- _ => inversion X; subst end. destruct I.
Qed.
Lemma pre_list_rel l b cs ss b' vs : Forall3 tb l cs ss -> heard (TA l b) -> Forall2 PreRel ss vs -> PreRel (SAnd ss b') (pre_list vs).
Proof.
  intros F HE P. assert (Q : forallb is_none vs = false); [|unfold pre_list; rewrite Q; now constructor].
  inversion HE as [| |? ? H (t & I & X)|]; subst. clear HE. revert vs P. induction F as [|t' c s l cs ss B F IH]; intros vs P; inversion P as [|? v ? vs' P1 P2]; subst; [destruct I|].
  inversion H; subst. cbn [forallb]. destruct I as [<-|I]; [|rewrite (IH ltac:(assumption) I _ P2); apply andb_false_r].
  assert (N := pre_notnone _ _ _ _ B ltac:(assumption) P1 X). destruct v; auto. congruence.
Qed.
Lemma pre_any_rel l b cs ss b' ch vs : Forall3 tb l cs ss -> heard (TO l b) -> Forall2 PreRel ss vs -> PreRel (SOr ss b' ch) (pre_any vs).
Proof.
  intros F HE P. assert (Q : existsb truthy vs = true); [|unfold pre_any; rewrite Q; now constructor].
  inversion HE as [| | |? ? H (t & I & X)]; subst. clear HE. revert vs P. induction F as [|t' c s l cs ss B F IH]; intros vs P; inversion P as [|? v ? vs' P1 P2]; subst; [destruct I|].
  inversion H; subst. cbn [existsb]. destruct I as [<-|I]; [|rewrite (IH ltac:(assumption) I _ P2); apply orb_true_r].
  now rewrite (pre_truthy _ _ _ _ B ltac:(assumption) P1 X).
Qed.
End N.

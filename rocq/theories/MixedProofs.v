(** Conjunctions with primitives defined by users. *)
From Coq Require Import String Znumtheory Lia.
From Verif Require Import Base World Val Expr Utils Stmt Prove Verify Spec Shapes Claims Honest Clauses Supply Extract Lib DictProofs Keeps Sigma Tree Build Process
  Provers Commit Total Total2 Total4 Complete Complete2 Checks2 IdProofs3 History AnswerProofs Sound4 WiProofs Custom CustomProofs Mixed.
Open Scope Z_scope.
Open Scope list_scope.

Section M.
Context {W : World}.

(** ** Statements without primitives *)
Lemma pre_fixed s p : pfit s p -> exists v, forall a, precommit s p a = Ok ((v, p, s), a).
Proof.
  revert s p. apply (pfit_ind' (fun s p => exists v, forall a, precommit s p a = Ok ((v, p, s), a))).
  - intros d k. exists VNone. reflexivity.
  - intros subs b ps F.
    assert (G : exists l, (forall a, zipM precommit subs ps a = Ok (l, a)) /\ map (fun r => snd (fst r)) l = ps /\ map snd l = subs).
    { clear b. induction F as [|x p subs ps [_ [v H]] F (l & E & A & B)]; [exists []; auto|].
      exists ((v, p, x) :: l). split; [|cbn [map fst snd]; now rewrite A, B]. intros a. cbn [zipM]. unfold bind. rewrite H, E. reflexivity. }
    destruct G as (l & E & A & B). eexists. intros a. cbn [precommit]. unfold bind. rewrite E, A, B. reflexivity.
  - intros subs b c i x sp sims N _ [v H].
    assert (G : forall a, or_pre_loop (fun x => precommit x sp) i subs a = Ok ((v, sp, subs), a)).
    { revert i N. induction subs as [|y subs IH]; intros [|i] N a; try discriminate N; cbn [or_pre_loop]; unfold bind.
      - injection N as ->. rewrite H. reflexivity.
      - assert (E := IH i N a). unfold or_pre_loop in E |- *. rewrite E. reflexivity. }
    eexists. intros a. rewrite precommit_or. unfold bind. rewrite G. reflexivity.
Qed.

Definition ready (U : list secret) (w : bytes -> Z) (c s1 : stmt) (p : prover) (v : val) : Prop :=
  pfit s1 p /\ pstrip s1 = pstrip c /\ wfs s1 /\ built s1 /\ ConOK s1 /\ incl (svars s1) U /\ Ready w s1 p /\
  (forall b, precommit s1 p b = Ok ((v, p, s1), b)) /\ PreRel s1 v.

Lemma leaf_ready U w s sd a : noext s -> honest U w s sd (env a) -> Shape s -> Supplied sd w (env a) s ->
  exists p s1 a1 v, get_prover s sd a = Ok ((Some p, s1), a1) /\ agree w (env a1) U /\ ready U w s s1 p v.
Proof.
  intros N HH HS SU. assert (HH' := HH). destruct HH' as [OK NM IN DJ TR VA DI EN].
  assert (KK : kinds s = []) by now apply noext_kinds.
  assert (KI : kints s = []) by (unfold kints; now rewrite KK). rewrite KI, app_nil_r in NM.
  assert (HW : Swf U U s).
  { apply Sok_Swf; auto; rewrite ?KI; intros ? []. }
  destruct (get_prover_total U U U U w s sd a) as (p & s1 & st1 & GP & PR); auto using incl_refl.
  { eapply Vals_Keys; eauto. }
  { rewrite KK. intros ? []. }
  { rewrite KK. intros ? []. }
  destruct (get_prover_built U U U w s sd a _ _ _ HW VA TR DI (incl_refl _) (incl_refl _) NM GP) as (PS1 & ES & BT).
  assert (FIT := get_prover_fit s N _ _ _ _ GP p eq_refl). cbn [snd] in FIT.
  assert (AG1 : agree w (env st1) U) by (apply (estep_agree2 w U U U (env a)); auto using incl_refl).
  destruct (pre_fixed s1 p FIT) as [v PC].
  assert (KE : kints s1 = []) by (unfold kints; now rewrite (kinds_same s1 s PS1)).
  destruct (precommit_ok U U U w s1 p st1 v p s1 st1) as (_ & PO & RD); auto using incl_refl.
  { rewrite KE. constructor. }
  { rewrite KE. intros ? ? []. }
  { rewrite KE. intros ? ? []. }
  destruct PO as (P1 & P2 & P3 & P4 & P5 & P6 & P7 & P8).
  exists p, s1, st1, v. do 2 (split; [assumption|]). unfold ready. do 6 (split; [assumption|]).
  split; [|split; assumption].
  apply RD. right. clear - FIT. revert s1 p FIT.
  refine (pfit_ind' (fun _ p => Full p) _ _ _); intros; constructor; auto.
  match goal with F : Forall2 _ _ _ |- _ => clear - F; induction F as [|? ? ? ? [_ H] _ IH]; constructor; auto end.
Qed.

Definition got (U : list secret) (w : bytes -> Z) (u : upart) (s : stmt) (p : prover) : Prop :=
  match u with
  | UK K => s = obj_of K VNone None /\ exists sv, p = PExt sv None
  | US c => exists v, ready U w c s p v
  end.
Lemma noext_supplied sd w e e' s : noext s -> Supplied sd w e s -> Supplied sd w e' s.
Proof.
  induction s as [d|subs b IH|subs b ch IH|k b q|k b q con IH] using stmt_ind'; intros N H; inversion N; inversion H; subst.
  - apply SuDL. assumption.
  - apply SuAnd. rewrite Forall_forall in *. auto.
  - rewrite Forall_forall in *. eapply SuOr; eauto.
    + intros y Hy Sy. match goal with X : forall y, In y subs -> simulated y = false -> _ |- _ => destruct (X y Hy Sy); auto end.
    + intros y Hy. rewrite (noext_kinds y); auto.
Qed.
Lemma hon_env U w c sd e e' : agree w e' U -> hon U w c sd e -> hon U w c sd e'.
Proof.
  intros A (N & H & S & P). split; auto. split; [destruct H; constructor; auto|]. split; auto. eapply noext_supplied; eauto.
Qed.
Lemma uget_ok U w sd l a : wfL U -> entries_ok U w sd -> agree w (env a) U -> (forall s, In (US s) l -> hon U w s sd (env a)) ->
  exists subs ps a1, uget l sd a = Ok ((Some (PAnd ps), SAnd subs false), a1) /\ Forall3 (got U w) l subs ps.
Proof.
  intros WF EN AG HU. unfold uget. cbn [get_prover]. unfold bind at 1.
  destruct (update_secret_values sd a) as [[u a0]|] eqn:UP; [|discriminate].
  assert (AG0 : agree w (env a0) U).
  { eapply estep_agree2; eauto using incl_refl. eapply estep_update; eauto. }
  assert (HU0 : forall s, In (US s) l -> hon U w s sd (env a0)) by (intros; eapply hon_env; eauto).
  assert (G : exists r a1, mapM (fun s => get_prover s sd) (map shell l) a0 = Ok (r, a1) /\
    exists ps, map fst r = map Some ps /\ Forall3 (got U w) l (map snd r) ps).
  { clear UP AG HU. revert a0 AG0 HU0. induction l as [|x l IH]; intros a0 AG HU.
    - exists [], a0. split; [reflexivity|]. exists []. split; [reflexivity|constructor].
    - assert (H : exists p s1 a1, get_prover (shell x) sd a0 = Ok ((Some p, s1), a1) /\ agree w (env a1) U /\ got U w x s1 p).
      { destruct x as [K|s].
        - cbn [shell]. unfold obj_of. cbn [get_prover]. unfold bind, get_env, ret.
          destruct (update_secret_values sd a0) as [[u' a1]|] eqn:UP; [|discriminate].
          do 3 eexists. split; [reflexivity|]. split; [eapply estep_agree2; eauto using incl_refl; eapply estep_update; eauto|].
          split; [reflexivity|eauto].
        - destruct (HU s (or_introl eq_refl)) as (N & H & S & P).
          destruct (leaf_ready U w s sd a0 N H S P) as (p & s1 & a1 & v & E & A & R). exists p, s1, a1. split; auto. split; auto. exists v. exact R. }
      destruct H as (p & s1 & a1 & E & A & R).
      destruct (IH a1 A) as (r & a2 & E2 & ps & F & F3); [intros s I; eapply hon_env; [exact A|]; apply HU; now right|].
      exists ((Some p, s1) :: r), a2. split; [|exists (p :: ps); split; [cbn [map fst]; now rewrite F|constructor; auto]].
      cbn [map mapM]. unfold bind. rewrite E, E2. reflexivity. }
  destruct G as (r & a1 & E & ps & F & F3). unfold bind. rewrite E.
  assert (X : forallb (fun r : option prover * stmt => is_some (fst r)) r = true /\
    flat_map (fun r : option prover * stmt => match fst r with Some p => [p] | None => [] end) r = ps).
  { clear - F. revert ps F. induction r as [|[o s] r IH]; intros [|p ps] F; try discriminate F; [auto|]. cbn [map fst] in F.
    injection F as -> F. destruct (IH ps F) as [A B]. cbn. rewrite A, B. auto. }
  destruct X as [-> ->]. unfold ret. eauto.
Qed.

(** ** precommit() *)
Inductive opens (U : list secret) (w : bytes -> Z) : list upart -> list stmt -> list val -> list stmt -> list (val * prover * stmt) -> Prop :=
| OpN : opens U w [] [] [] [] []
| OpU K l c cs pre pres c1 fs sv q v t : ready U w c c1 q v -> noext c -> opens U w l cs pres fs t ->
    opens U w (UK K :: l) (c :: cs) (pre :: pres) (c1 :: fs) ((pre, PExt sv (Some (Some q)), obj_of K pre (Some c1)) :: t)
| OpS l c cs pres c1 fs p v t : ready U w c c1 p v -> noext c -> opens U w l cs pres fs t ->
    opens U w (US c :: l) (c :: cs) pres (c1 :: fs) ((v, p, c1) :: t).
Lemma upre_ok U w l : forall subs ps a pres cs, Forall3 (got U w) l subs ps -> (forall s, In (US s) l -> noext s) -> sincere (hon U w) l ps a pres cs ->
  exists t fs a', upre l subs ps a = Ok (t, a') /\ opens U w l cs pres fs t.
Proof.
  induction l as [|u l IH]; intros subs ps a pres cs G NX S; inversion G as [|? x p ? subs' ps' G1 G2]; subst.
  - destruct cs; [|destruct S]. cbn [sincere] in S. subst pres. exists [], [], a. split; [reflexivity|constructor].
  - assert (NX' : forall s, In (US s) l -> noext s) by (intros; apply NX; now right). destruct u as [K|s].
    + destruct G1 as [-> [sv ->]]. destruct cs as [|c cs]; [destruct S|]. cbn [sincere] in S.
      destruct S as (pre & rest & a1 & a2 & -> & CP & CC & (N & H & SH & SU) & S).
      destruct (leaf_ready U w c sv a2 N H SH SU) as (q & c1 & a3 & v & E & A & R).
      destruct (IH subs' ps' a3 rest cs G2 NX' (S _ _ E)) as (t & fs & a' & E2 & O).
      do 3 eexists. split; [|eapply OpU; eauto].
      cbn [upre upre1]. unfold bind. rewrite CP, CC, E. cbn [fst snd]. rewrite inner_same by (intros ? [= <-]; apply R). cbn [fst snd ret].
      unfold ret. rewrite E2. reflexivity.
    + destruct G1 as [v R]. destruct cs as [|c cs]; [destruct p; destruct S|]. cbn [sincere] in S.
      assert (S' : c = s /\ sincere (hon U w) l ps' a pres cs) by exact S. destruct S' as [-> S'].
      destruct (IH subs' ps' a pres cs G2 NX' S') as (t & fs & a' & E2 & O).
      do 3 eexists. split; [|eapply OpS; eauto; apply NX; now left].
      cbn [upre upre1]. unfold bind. destruct R as (R1 & R2 & R3 & R4 & R5 & R6 & R7 & R8 & R9). rewrite R8, E2. reflexivity.
Qed.
End M.

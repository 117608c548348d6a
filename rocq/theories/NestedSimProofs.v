(** Simulation of nested compositions with primitives defined by users: proofs. *)
From Coq Require Import String Znumtheory Lia.
From Verif Require Import Base World Val Expr Utils Stmt Prove Verify Spec Shapes Claims Honest Clauses Supply Extract Lib DictProofs Keeps Sigma Tree Build Process
  Provers Commit Total Total2 Total4 Complete Complete2 Checks2 IdProofs3 History AnswerProofs Sound4 WiProofs Custom CustomProofs Mixed MixedProofs MixedProofs2 MixedOr MixedLink MixedOrProofs MixedOrProofs2 Nested NestedProofs NestedProofs2 NestedProofs3 MixedOrLink NestedLink NestedSim.
Open Scope Z_scope.
Open Scope list_scope.

Section N.
Context {W : World}.

Definition mark (t : mtree) : mtree :=
  match t with TK K _ => TK K true | TS s => TS (set_simulated true s) | TA l _ => TA l true | TO l _ => TO l true end.
Lemma mark_shell t : tshell (mark t) = set_simulated true (tshell t).
Proof. destruct t; reflexivity. Qed.
Lemma mark_prep t s : tprep (mark t) s = tprep t s.
Proof. destruct t; reflexivity. Qed.
Lemma mark_sim U w t : tsim U w t -> tsim U w (mark t).
Proof.
  destruct 1 as [K b S|s N O H|l b F|l b NE F]; cbn [mark]; constructor; auto.
  - destruct N; constructor; auto.
  - destruct O; constructor; auto.
  - destruct H; constructor; auto.
Qed.
Lemma mark_heard t : heard t -> heard (mark t).
Proof. destruct 1; cbn [mark]; constructor; auto. Qed.
Lemma mark_tb U t c s : tb U (mark t) c s -> tb U t c s.
Proof.
  intros H. destruct t; cbn [mark] in H; inversion H; subst; econstructor; eauto.
  match goal with E : pstrip _ = _ |- _ => rewrite E end. apply set_simulated_pstrip.
Qed.

Theorem nested_simulation U w t c a : wfL U -> tsim U w t -> heard t -> agree w (env a) U ->
  (exists x h a', tsimulate t c a = Ok ((x, h), a') /\ tpres t (t_pre x) /\ (forall ch, c = Some ch -> t_chal x = ch) /\
     forall f g tv stv, tmeets f g t (t_pre x) tv -> exists stv', tverify_simulation tv x h stv = Ok (true, stv')) \/ tsim_oversized t a.
Proof.
  intros WF TS HE AG. destruct (tprep_ok U w (mark t) WF (mark_sim U w t TS) (mark_heard t HE) a AG) as (S & c0 & a1 & E & A1 & B & T).
  rewrite mark_prep, mark_shell in E. apply mark_tb in B.
  destruct (tb_good U t c0 S B) as (B1 & B2 & B3 & BT & B5 & B6 & B7 & B8 & FU & _).
  assert (CO : coh (env a1) (svars S)) by (apply wfL_coh; eapply wfL_incl; eauto).
  destruct (simulate_total S None c a1 T CO) as (x & a2 & E2); [discriminate|].
  destruct (simulate_ok S None c a1 x a2) as (RC & CH & _ & [R CS] & PR); auto. { discriminate. }
  destruct (proof_id_total S BT) as ((n & EI) & _).
  destruct (encode (VStr (pystr n))) as [h|] eqn:EH.
  2:{ right. exists S, a1, n. do 2 (split; [assumption|]). eapply encode_big; eauto. }
  assert (PH : prehash_input S = Ok h) by (unfold prehash_input; rewrite EI; cbn [rbind]; exact EH).
  left. exists x, (VBytes (sha256 h)), a2. split; [|split; [exact (tb_pres U t c0 S _ B PR HE)|split; [auto|]]].
  - unfold tsimulate, bind, lift, stmt_digest. rewrite E, E2, PH. reflexivity.
  - intros f g tv stv MT. destruct (tproc_ok U f g t c0 S _ tv B PR HE MT stv) as (sv & stv' & EP & SS & VL). exists stv'.
    assert (V := pre_validation_ok (env stv') f g _ S _ (t_resp x) SS FU CS).
    unfold tverify_simulation, bind. rewrite EP. unfold lift, check_statement. rewrite <- (Sim_prehash f g _ _ SS), PH. cbn [rbind]. rewrite val_eqb_refl. unfold get_env.
    unfold tverify_resp, tpre_validation. rewrite VL. cbn [rbind].
    unfold pre_validation in V. destruct (full_validate sv) as [[]|]; [|discriminate V]. cbn [rbind] in V.
    destruct (consistent _ _ _ _ _) as [[rd|]|]; try discriminate V. cbn [rbind].
    rewrite <- (Sim_recompute f g _ _ _ _ SS), RC. cbn [rbind]. rewrite val_eqb_refl. reflexivity.
Qed.

(** ** The library's primitives *)
Lemma gt_set t s s' : gt t s s' -> gt t (set_simulated true s) (set_simulated true s').
Proof. destruct 1; cbn [set_simulated]; constructor; auto. Qed.
Theorem tlink_simulate t s c a : tlib t s -> tsimulate t c a = match simulate s c a with Ok ((x, h, _), a') => Ok ((x, h), a') | Err e => Err e end.
Proof.
  intros H. assert (L := tprep_linked t _ _ a (gt_set _ _ _ (gt_start t s H))). unfold tsimulate, simulate, bind. unfold rres in L.
  destruct (tprep t _ a) as [[x a1]|e], (prepare_sim _ a) as [[y a1']|e']; try contradiction; [|now subst]. destruct L as [<- G]. assert (SS := gt_same _ _ _ G).
  rewrite (sa_simulate _ _ SS). destruct (simulate_proof x None c a1) as [[q a2]|]; [|reflexivity]. unfold lift, stmt_digest. rewrite (same_prehash _ _ SS).
  destruct (prehash_input y); reflexivity.
Qed.
Theorem tlink_verify_simulation t s x h a : tlib t s -> tverify_simulation t x h a = verify_simulation s x h a.
Proof.
  intros H. assert (L := tproc_linked t s (t_pre x) a H). unfold tverify_simulation, verify_simulation, bind. unfold rres in L.
  destruct (tproc t _ a) as [[[v y] a1]|e], (process_pre s _ _ a) as [[[v' y'] a1']|e']; try contradiction; [|now subst].
  destruct L as (<- & E & G). cbn [fst snd] in E, G. subst v'. assert (SS := gt_same _ _ _ G). unfold lift, check_statement. rewrite (same_prehash _ _ SS).
  destruct (prehash_input y') as [b|]; cbn [rbind]; [|reflexivity]. destruct (val_eqb _ _); [|reflexivity]. unfold get_env.
  unfold tverify_resp, verify_resp. now rewrite (tpre_valid_linked _ _ _ _ _ _ G), (sa_recompute _ _ SS).
Qed.
End N.

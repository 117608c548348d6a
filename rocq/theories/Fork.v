(** Two accepted non-interactive proofs with the same first messages. *)
From Coq Require Import String Znumtheory.
From Verif Require Import Base World Val Expr Utils Stmt Prove Verify Spec Shapes Claims Extract Ident Honest Lib Tree Sound Sound2 Sound3 Sound4 IdProofs2.
Open Scope Z_scope.
Open Scope list_scope.

Section F.
Context {W : World}.

Lemma pre_ext_none e k b q con r : pre_validation e (SExt k b q con) (RExt None) r <> Ok tt.
Proof. unfold pre_validation. cbn [consistent full_validate]. intros H. apply rbind_ok in H as (u & _ & H). destruct con; discriminate H. Qed.
(** without a precommitment the verifier works with the object as it is *)
Lemma processed_process s pre a v s1 a1 e r : processed s pre a = Ok ((v, s1), a1) -> pre_validation e s1 v r = Ok tt ->
  process_pre s (get_verifier s) pre a = Ok ((v, s1), a1).
Proof.
  unfold processed. destruct (is_none pre) eqn:N; [|auto]. intros H V. injection H as <- <- <-.
  destruct s as [d|subs b|subs b ch|k b q con]; cbn [process_pre get_verifier].
  - reflexivity.
  - now rewrite N.
  - now rewrite N.
  - exfalso. exact (pre_ext_none e k b q con r V).
Qed.

(** the pair of proofs as two answers to one commitment *)
Lemma forked s0 z z' msg msg' a s a1 s' a1' com :
  verify s0 z msg a = Ok ((true, s), a1) -> verify s0 z' msg' a = Ok ((true, s'), a1') -> n_pre z = n_pre z' ->
  recompute s (n_chal z) (n_resp z) = Ok com -> recompute s (n_chal z') (n_resp z') = Ok com ->
  exists v h i i', process_pre s0 (get_verifier s0) (n_pre z) a = Ok ((v, s), a1) /\
    verify_resp (env a1) s v com (n_chal z) (n_resp z) = Ok true /\ verify_resp (env a1) s v com (n_chal z') (n_resp z') = Ok true /\
    prehash_input s = Ok h /\ fs_input h [n_pre z; com] msg = Ok i /\ fs_input h [n_pre z; com] msg' = Ok i' /\
    n_chal z = be_int (sha256 i) /\ n_chal z' = be_int (sha256 i').
Proof.
  intros H H' EP R R'.
  destruct (verify_inv _ _ _ _ _ _ _ H) as (v & h & com1 & i & P & PH & _ & V & R1 & FI & B).
  destruct (verify_inv _ _ _ _ _ _ _ H') as (v' & h' & com2 & i' & P' & PH' & _ & V' & R2 & FI' & B').
  rewrite <- EP in P'. rewrite P in P'. injection P' as <- <- <-. rewrite R in R1. injection R1 as <-. rewrite R' in R2. injection R2 as <-.
  rewrite PH in PH'. injection PH' as <-. rewrite <- EP in FI'.
  exists v, h, i, i'. split; [eapply processed_process; eauto|].
  split; [unfold verify_resp; rewrite V; cbn [rbind]; rewrite R; cbn [rbind]; now rewrite val_eqb_refl|].
  split; [unfold verify_resp; rewrite V'; cbn [rbind]; rewrite R'; cbn [rbind]; now rewrite val_eqb_refl|].
  symmetry in B, B'. apply Z.eqb_eq in B, B'. repeat (split; [assumption|]). assumption.
Qed.

Theorem fork_sound s0 z z' msg msg' a s a1 s' a1' com :
  wfs s0 -> verify s0 z msg a = Ok ((true, s), a1) -> verify s0 z' msg' a = Ok ((true, s'), a1') -> n_pre z = n_pre z' ->
  recompute s (n_chal z) (n_resp z) = Ok com -> recompute s (n_chal z') (n_resp z') = Ok com ->
  coh (env a1) (svars s) -> noor s -> orders_in (fun q => prime q /\ ~ (q | n_chal z - n_chal z')) s ->
  exists w, Extr w s (n_chal z) (n_chal z') (n_resp z) (n_resp z') /\ Sat w s.
Proof.
  intros Wf H H' EP R R' C N O. destruct (forked _ _ _ _ _ _ _ _ _ _ _ H H' EP R R') as (v & h & i & i' & P & V & V' & _).
  eapply soundness; eauto.
Qed.
Theorem fork_sound_or s0 z z' msg msg' a s a1 s' a1' com :
  wfs s0 -> verify s0 z msg a = Ok ((true, s), a1) -> verify s0 z' msg' a = Ok ((true, s'), a1') -> n_pre z = n_pre z' ->
  recompute s (n_chal z) (n_resp z) = Ok com -> recompute s (n_chal z') (n_resp z') = Ok com ->
  coh (env a1) (svars s) -> orders_in (fun q => prime q /\ ~ (q | n_chal z - n_chal z') /\ 2 ^ 129 <= q) s ->
  canonical s (n_resp z) -> canonical s (n_resp z') -> ~ (2 ^ 128 | n_chal z - n_chal z') ->
  exists w, Extr w s (n_chal z) (n_chal z') (n_resp z) (n_resp z') /\ Sat w s.
Proof.
  intros Wf H H' EP R R' C O K K' D. destruct (forked _ _ _ _ _ _ _ _ _ _ _ H H' EP R R') as (v & h & i & i' & P & V & V' & _).
  eapply or_soundness; eauto.
Qed.
Theorem fork_false s0 z z' msg msg' a s a1 s' a1' com q :
  wfs s0 -> verify s0 z msg a = Ok ((true, s), a1) -> verify s0 z' msg' a = Ok ((true, s'), a1') -> n_pre z = n_pre z' ->
  recompute s (n_chal z) (n_resp z) = Ok com -> recompute s (n_chal z') (n_resp z') = Ok com ->
  coh (env a1) (svars s) -> noor s -> prime q -> orders_in (eq q) s -> (forall w, ~ Sat w s) ->
  exists h i i', prehash_input s = Ok h /\ fs_input h [n_pre z; com] msg = Ok i /\ fs_input h [n_pre z; com] msg' = Ok i' /\
    be_int (sha256 i) mod q = be_int (sha256 i') mod q.
Proof.
  intros Wf H H' EP R R' C N Q O F.
  destruct (forked _ _ _ _ _ _ _ _ _ _ _ H H' EP R R') as (v & h & i & i' & P & V & V' & PH & FI & FI' & E & E').
  exists h, i, i'. do 3 (split; [assumption|]). rewrite <- E, <- E'.
  destruct (Zdivide_dec q (n_chal z - n_chal z')) as [D|D].
  - apply prime_ge_2 in Q. destruct D as [k D]. replace (n_chal z) with (n_chal z' + k * q) by lia. apply Z_mod_plus_full.
  - exfalso. destruct (soundness_one s0 _ _ _ _ _ _ _ _ _ _ _ q P Wf C N Q D O V V') as (w & _ & S). eapply F; eauto.
Qed.
End F.

(** The interactive protocol is about one statement (C59). *)
From Coq Require Import String Znumtheory.
From Verif Require Import Base World Val Expr Utils Stmt Prove Verify Spec Shapes Ident Lib Keeps Tree IdProofs IdProofs2.
Open Scope Z_scope.
Open Scope list_scope.

Section T.
Context {W : World}.

Lemma check_ok s h b : check_statement s h = Ok b -> prehash_input s = Ok b /\ h = VBytes (sha256 b).
Proof.
  intros H. unfold check_statement in H. apply rbind_ok in H as (b' & E & H).
  destruct (val_eqb h _) eqn:V; [|discriminate]. injection H as <-. apply val_eqb_eq in V. auto.
Qed.
Lemma check_mismatch s h b : prehash_input s = Ok b -> h <> VBytes (sha256 b) -> check_statement s h = Err EStatementMismatch.
Proof.
  intros E N. unfold check_statement. rewrite E. cbn [rbind]. destruct (val_eqb h _) eqn:V; [|reflexivity].
  apply val_eqb_eq in V. contradiction.
Qed.
Lemma send_checked s v h com st c st' : send_challenge s v h com st = Ok (c, st') ->
  exists b, prehash_input s = Ok b /\ h = VBytes (sha256 b).
Proof.
  intros H. unfold send_challenge in H. apply bind_ok in H as (b & st1 & E & _). apply lift_ok in E as [E _].
  exists b. now apply check_ok.
Qed.
Lemma send_mismatch s v h com st b : prehash_input s = Ok b -> h <> VBytes (sha256 b) ->
  send_challenge s v h com st = Err EStatementMismatch.
Proof. intros E N. unfold send_challenge, bind, lift. now rewrite (check_mismatch _ _ _ E N). Qed.
Lemma simulation_checked s t h st b st' : verify_simulation s t h st = Ok (b, st') ->
  exists v s1 st1 i, process_pre s (get_verifier s) (t_pre t) st = Ok ((v, s1), st1) /\ prehash_input s1 = Ok i /\ h = VBytes (sha256 i).
Proof.
  intros H. unfold verify_simulation in H. apply bind_ok in H as ([v s1] & st1 & E & H).
  apply bind_ok in H as (i & st2 & E1 & _). apply lift_ok in E1 as [E1 _]. apply check_ok in E1 as [E1 E2].
  exists v, s1, st1, i. auto.
Qed.
Lemma talk_bound sp p sv st b st' : repr_ok -> run_interactive sp p sv st = Ok (b, st') ->
  exists pre p1 sp1 st1 v sv1 st2 h h',
    precommit sp p st = Ok ((pre, p1, sp1), st1) /\ process_pre sv (get_verifier sv) pre st1 = Ok ((v, sv1), st2) /\
    prehash_input sp1 = Ok h /\ prehash_input sv1 = Ok h' /\ sha256 h = sha256 h' /\ (h = h' -> exists f g, alike f g sp1 sv1).
Proof.
  intros RO H. unfold run_interactive in H. apply bind_ok in H as ([[pre p1] sp1] & st1 & E & H).
  apply bind_ok in H as ([v sv1] & st2 & E1 & H). apply bind_ok in H as ([[hh com] p2] & st3 & E2 & H).
  apply bind_ok in H as (c & st4 & E3 & _). apply send_checked in E3 as (h' & Eh' & ->).
  unfold commit in E2. apply bind_ok in E2 as (dg & st5 & Ed & E2). apply lift_ok in Ed as [Ed ->].
  apply bind_ok in E2 as ([cm q] & st6 & _ & E2). injection E2 as E2 _ _ _. unfold stmt_digest in Ed. apply rbind_ok in Ed as (h & Eh & Ed).
  injection Ed as <-. exists pre, p1, sp1, st1, v, sv1, st2, h, h'. repeat (split; [assumption|]).
  intros ->. eapply same_prehash; eauto.
Qed.
End T.

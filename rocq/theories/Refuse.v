(** What constructors refuse, and what becomes of the statements with two groups that they do not refuse. *)
From Coq Require Import String.
From Verif Require Import Base World Val Expr Utils Stmt Prove Verify Spec Shapes Claims Extract Ident Occur
  Lib DictProofs Keeps Tree Sigma Validate Commit ArithProofs Build Process Sound Sound2 IdProofs2 IdProofs3 IdProofs4 History.
Open Scope Z_scope.
Open Scope list_scope.

Section R.
Context {W : World}.

Lemma mixed_bases lhs x sim st b b' : In b (e_bases x) -> In b' (e_bases x) -> grp b <> grp b' ->
  mk_dlrep lhs x sim st = Err EInvalidExpression.
Proof.
  intros H H' N. unfold mk_dlrep. destruct (e_bases x) as [|b0 bs] eqn:E; [destruct H|].
  destruct (forallb _ (b0 :: bs)) eqn:F; auto. exfalso. rewrite forallb_forall in F.
  apply F in H, H'. apply gid_eqb_spec in H, H'. congruence.
Qed.
Lemma one_group lhs x sim st : e_bases x <> [] -> (forall b b', In b (e_bases x) -> In b' (e_bases x) -> grp b = grp b') ->
  exists d, mk_dlrep lhs x sim st = Ok (d, st).
Proof.
  intros N H. unfold mk_dlrep. destruct (e_bases x) as [|b0 bs] eqn:E; [congruence|].
  replace (forallb _ (b0 :: bs)) with true; [unfold bind, get_env, ret; eauto|]. symmetry. apply forallb_forall. intros b Hb.
  apply gid_eqb_spec. apply H; auto. now left.
Qed.
Lemma few_parts subs : (List.length subs < 2)%nat -> mk_and subs = Err EValueErr /\ mk_or subs = Err EValueErr.
Proof. intros H. unfold mk_and, mk_or. now rewrite (proj2 (Nat.ltb_lt _ _) H). Qed.

Lemma foreign_pstrip s : foreign s -> foreign (pstrip s).
Proof.
  induction 1; cbn [pstrip].
  - eapply FoDL; eauto.
  - eapply FoAnd; eauto. now apply in_map.
  - eapply FoOr; eauto. now apply in_map.
Qed.
Lemma foreign_back s : foreign (pstrip s) -> foreign s.
Proof.
  induction s as [d|subs b IH|subs b ch IH|k b q|k b q con IH] using stmt_ind'; cbn [pstrip]; intros H; inversion H; subst.
  - eapply FoDL; eauto.
  - rewrite Forall_forall in IH. match goal with A : In _ (map _ _) |- _ => apply in_map_iff in A as (y & <- & A); eapply FoAnd; eauto end.
  - rewrite Forall_forall in IH. match goal with A : In _ (map _ _) |- _ => apply in_map_iff in A as (y & <- & A); eapply FoOr; eauto end.
Qed.
Lemma foreign_recompute s : foreign s -> forall c r com, wfs s -> Rshape s r -> recompute s c r = Ok com -> False.
Proof.
  induction 1 as [d b I N|subs f s I F IH|subs f ch s I F IH]; intros c r com HW RS H.
  - inversion HW; subst. assert (G := dl_group d c r com H1 H RS). unfold in_group in G. rewrite Forall_forall in G. apply N. now apply G.
  - apply recompute_and_inv in H as (l & _ & H). apply In_nth_error in I as [i I]. destruct (H _ _ I) as (ri & y & I1 & _ & R).
    inversion HW; subst. inversion RS; subst. eapply IH; [| |exact R].
    + eapply Forall_forall; eauto using nth_error_In.
    + match goal with A : forall i s, nth_error subs i = Some s -> _ |- _ => destruct (A _ _ I) as (rj & J1 & J2) end. congruence.
  - apply recompute_or_inv in H as (chv & rs & cs & l & _ & _ & I1 & _ & _ & H). apply In_nth_error in I as [i I].
    destruct (H _ _ I) as (ci & ri & y & _ & I2 & _ & R).
    inversion HW; subst. inversion RS; subst. eapply IH; [| |exact R].
    + eapply Forall_forall; eauto using nth_error_In.
    + match goal with A : forall i s, nth_error subs i = Some s -> _ |- _ => destruct (A _ _ I) as (rj & ri' & J1 & J2 & J3) end. congruence.
Qed.
Lemma foreign_verify s z msg st v : wfs s -> foreign s -> verify s z msg st <> Ok v.
Proof.
  intros HW F H. destruct v as [[b s1] st1]. apply verify_inv in H as (v & h & com & i & P & _ & _ & V & R & _).
  assert (M := processed_match _ _ _ _ _ _ P). unfold pre_validation in V. apply rbind_ok in V as (u & _ & V).
  apply rbind_ok in V as ([d|] & C & V); [|discriminate]. apply consistent_sound in C; auto. destruct C as (_ & RS & _).
  assert (E : pstrip s1 = pstrip s).
  { unfold processed in P. destruct (is_none (n_pre z)); [|eapply process_pstrip; eauto]. apply ret_ok in P as [P _]. now injection P as _ <-. }
  eapply foreign_recompute; [|eapply processed_wfs; eauto|exact RS|exact R].
  apply foreign_back. rewrite E. now apply foreign_pstrip.
Qed.
End R.

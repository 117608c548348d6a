(** Zero-knowledge of conjunctions with shared secrets: property C49. *)
From Coq Require Import String.
From Verif Require Import Base World Val Expr Utils Stmt Prove Verify Spec Shapes Claims Honest Clauses Supply Extract Runs Views
  DictProofs Ktruth Provers ZqWorld Ex ExTree ZkTree.
Open Scope Z_scope.
Open Scope list_scope.

(** C49: for a statement without disjunctions whose honest prover has precommitted and can commit, and for every
    challenge: the conversations (commitment, response) of the prover and of simulate_proof correspond to each other
    via a bijection of the random numbers. [n] random numbers are used, the j-th one modulo [q j]. *)
Theorem C49_conjunction_zk : forall (W : World) U w s0 sd a0 p0 s1 a1 pre p s a2 x a3 c,
  honest U w s0 sd (env a0) -> get_prover s0 sd a0 = Ok ((Some p0, s1), a1) ->
  precommit s1 p0 a1 = Ok ((pre, p, s), a2) -> internal_commit s p None a2 = Ok (x, a3) -> noor s ->
  let e := env a2 in
  exists (n : nat) (q : nat -> Z) (to of : (nat -> Z) -> nat -> Z),
    (forall j, (j < n)%nat -> 1 < q j) /\
    (forall t, exists com r, outcome (honest_view s p c) e t = Ok (com, r)) /\
    (forall t, outcome (honest_view s p c) e t = outcome (sim_view s c) e (to t)) /\
    (forall t, outcome (sim_view s c) e t = outcome (honest_view s p c) e (of t)) /\
    (forall t t', outcome (honest_view s p c) e t = outcome (honest_view s p c) e t' <-> forall j, (j < n)%nat -> (q j | t j - t' j)) /\
    (forall t t', outcome (sim_view s c) e t = outcome (sim_view s c) e t' <-> forall j, (j < n)%nat -> (q j | t j - t' j)).
Proof. exact @hvzk_conj. Qed.
Print Assumptions C49_conjunction_zk.

(** x*3 + y*5 + x*7 ; DLNotEqual with the secret u ; u*9 + x*2 *)
Definition exZk := SAnd [exDL; SExt exNeqK false VNone None; SDL (mkDL (Pt (7*9 + 4*2)) [Pt 9; Pt 2] [su; sx] [] false)] false.
Fixpoint noorb {W : World} (s : stmt) : bool :=
  match s with
  | SDL _ => true
  | SAnd subs _ => forallb noorb subs
  | SExt _ _ _ (Some con) => noorb con
  | _ => false
  end.
Lemma noorb_ok {W : World} s : noorb s = true -> noor s.
Proof.
  induction s as [d|subs b IH|subs b ch IH|k b q|k b q con IH] using stmt_ind'; simpl; intros H; try discriminate; constructor; auto.
  rewrite forallb_forall in H. rewrite Forall_forall in *. auto.
Qed.
(** the hypotheses, as one run *)
Definition exZk_run (c : Z) (go : stmt -> prover -> st -> bool) : bool :=
  match get_prover exZk exsd st0 with
  | Ok ((Some p0, s1), a1) =>
      match precommit s1 p0 a1 with
      | Ok ((pre, p, s), a2) => match internal_commit s p None a2 with Ok _ => noorb s && go s p a2 | _ => false end
      | _ => false end
  | _ => false end.
Example C49_ex :
  honest exU exw exZk exsd (env st0) /\
  (exists p0 s1 a1 pre p s a2 x a3, get_prover exZk exsd st0 = Ok ((Some p0, s1), a1) /\
    precommit s1 p0 a1 = Ok ((pre, p, s), a2) /\ internal_commit s p None a2 = Ok (x, a3) /\ noor s) /\
  (* random numbers 0, 7, 14, ..: the honest conversation for the challenge 3 *)
  exZk_run 3 (fun s p a => match outcome (honest_view s p 3) (env a) (fun i => 7 * Z.of_nat i) with
    | Ok (VList [VPt k; _; VPt l], VList [VList [VInt x; VInt y; VInt x']; _; VList [VInt u; VInt x'']]) =>
        (x =? 4 * 3) && (y =? (-6 * 3 + 7) mod 101) && (x' =? x) && (x'' =? x) && (zv k =? (7 * 5) mod 101)
    | _ => false end) = true.
Proof.
  split.
  { constructor.
    - apply SoAnd. constructor; [exact exDL_ok|constructor; [|constructor; [|constructor]]].
      + apply SoExt. incl_list.
      + apply SoDL; [incl_list|reflexivity|discriminate].
    - apply wfLb_ok. vm_compute. reflexivity.
    - vm_compute. repeat constructor; simpl; intuition discriminate.
    - intros x y Hx Hy. assert (forallb (fun x => forallb (fun y => negb (Nat.eqb (sid x) (sid y))) exU) (kints exZk) = true) as C
        by (vm_compute; reflexivity).
      rewrite forallb_forall in C. specialize (C x Hx). rewrite forallb_forall in C. specialize (C y Hy).
      apply Bool.negb_true_iff, Nat.eqb_neq in C. exact C.
    - apply TrAnd. constructor; [exact exDL_true|constructor; [apply TrExt; exact exNeq_true|constructor; [|constructor]]].
      apply TrDL. split; [repeat constructor|pteq].
    - apply VaAnd. constructor; [constructor; intros k v []|constructor; [constructor|constructor; [|constructor]]].
      constructor. intros k v [].
    - exact exsd_ok.
    - intros x v _ H. discriminate H. }
  split; [|vm_compute; reflexivity].
  assert (H : exZk_run 3 (fun _ _ _ => true) = true) by (vm_compute; reflexivity). unfold exZk_run in H.
  destruct (get_prover exZk exsd st0) as [[[[p0|] s1] a1]|] eqn:E1; try discriminate H.
  destruct (precommit s1 p0 a1) as [[[[pre p] s] a2]|] eqn:E2; try discriminate H.
  destruct (internal_commit s p None a2) as [[x a3]|] eqn:E3; try discriminate H.
  apply andb_prop in H as [H _]. apply noorb_ok in H.
  exists p0, s1, a1, pre, p, s, a2, x, a3. auto.
Qed.

(** Property C92: many non-interactive proofs say nothing but that the statements hold, in the random oracle model. *)
From Coq Require Import String Znumtheory Lia.
From Verif Require Import Base World Val Expr Utils Stmt Prove Verify Spec Shapes Claims Honest Clauses Supply Extract Ident Alike Distrib Custom Mixed MixedOr Nested TreeZk
  Oracle OracleZk Chance OracleTree OracleTreeSim OracleMany OracleManyProofs ZqWorld ZqFacts Ex ExTree PropZk PropSound PropOracle PropZk2 PropOracleZk
  PropCustom PropMixed PropMixedOr PropTreeZk PropOracleTreeSim.
Open Scope Z_scope.
Open Scope list_scope.

(** C92: a sequence of statements as in C89 and C91, with groups of order at least [Q]. Someone asks questions [m], and then at most [a] questions and, between them, for
    proofs of these statements, with any messages; messages, and which statements they want proofs of, depend on what they have seen.
    Provers make the proofs, or simulators, which know no secrets. For every event, the probabilities differ by at most
    p * (k + a + 2*p) / Q, with p statements and k questions in [m]. *)
Theorem C92_many_proofs : forall (W : World) Q Ks, 0 <= Q -> Forall (proves Q) Ks ->
  exists sz, List.length sz = List.length Ks /\ Forall (fun s => forall j, (j < fst s)%nat -> 1 < snd s j) sz /\
  forall R (v : obs R) a m tp, oasks a v -> (a + 2 * List.length Ks <= List.length tp)%nat ->
  let f ts := sample (oreal v (combine Ks ts)) m tp in let g ts := oideal v (combine Ks ts) m tp in
  (forall ps, Forall2 (fun s p => congr (fst s) (snd s) (fst p) (snd p)) sz ps -> f (map fst ps) = f (map snd ps) /\ g (map fst ps) = g (map snd ps)) /\
  forall E, Q * Z.abs (all_chances sz E f - all_chances sz E g) <= len Ks * (len m + Z.of_nat a + 2 * len Ks) * len (boxes sz).
Proof. exact @many_zk. Qed.
Print Assumptions C92_many_proofs.

(** ** Example: the statements of C89 and C91, and the first one again. *)
Definition manyKs : list (@party Zq) := [stmt_party exZk exsd (env st0) (fun _ => None); tree_party zT zsd (env st0) (fun _ => None); stmt_party exZk exsd (env st0) (fun _ => None)].
(** verify(), and what follows it *)
Fixpoint and_then {A R} (p : prog A) (k : A -> @obs Zq R) : obs R := match p with Ret a => k a | Ask b f => OAsk b (fun y => and_then (f y) k) end.
(** A proof of the first statement, which is verified; the message for the second statement is the challenge of the first; if the first was rejected, no second proof;
    a third one, which is verified. *)
Definition chal_of (z : res (@nizk Zq)) : bytes := match z with Ok z => [byte_of (n_chal z)] | Err _ => [] end.
Definition check2 (z : res (@nizk Zq)) (msg : bytes) : prog bool :=
  match z with Ok z => pbind (tverify_ro zT z msg st0) (fun r => Ret match r with Ok (b, _) => b | Err _ => false end) | Err _ => Ret false end.
Definition curious : @obs Zq (bool * bool * bool) :=
  OProof (lit "m") (fun z1 => and_then (exJudge z1) (fun b1 =>
    let third b2 := OProof (lit "m") (fun z3 => and_then (exJudge z3) (fun b3 => ODone (b1, b2, b3))) in
    if b1 then OProof (chal_of z1) (fun z2 => and_then (check2 z2 (chal_of z1)) third) else OSkip (third false))).
Lemma then_asks {A R} (p : prog A) (k : A -> @obs Zq R) n a : asks n p -> (forall x, oasks a (k x)) -> oasks (n + a) (and_then p k).
Proof.
  revert n. induction p as [x|b f IH]; intros n H K; cbn [and_then].
  - clear H. specialize (K x). revert a K. assert (G : forall (v : @obs Zq R) a a', (a <= a')%nat -> oasks a v -> oasks a' v).
    { induction v as [r|b0 k0 IHv|msg k0 IHv|v0 IHv]; intros a a' L O; cbn [oasks] in *; [exact Logic.I| |intros z; eapply IHv; eauto|].
      - destruct a as [|a]; [destruct O|]. destruct a' as [|a']; [lia|]. intros y. apply (IHv y a); [lia|auto].
      - eapply IHv; eauto. }
    intros a K. apply (G _ a); [lia|exact K].
  - destruct n as [|n]; [destruct H|]. cbn. intros y. apply IH; auto.
Qed.
Lemma judge_asks z : asks 2 (exJudge z).
Proof.
  destruct z as [z|]; [|exact Logic.I]. unfold exJudge, verify_ro. destruct (processed _ _ st0) as [[[v s] a]|]; [|exact Logic.I]. destruct (prehash_input s); [|exact Logic.I].
  cbn [pbind]. intros y. destruct (val_eqb _ _); [|exact Logic.I]. destruct (pre_validation _ _ _ _); [|exact Logic.I]. destruct (recompute _ _ _); [|exact Logic.I]. destruct (fs_input _ _ _); [|exact Logic.I].
  cbn [pbind]. intros y'. exact Logic.I.
Qed.
Lemma check2_asks z msg : asks 2 (check2 z msg).
Proof.
  destruct z as [z|]; [|exact Logic.I]. unfold check2, tverify_ro. destruct ((if is_none (n_pre z) then ret (get_verifier (tshell zT), tshell zT) else tproc zT (n_pre z)) st0) as [[[v s] a]|]; [|exact Logic.I]. destruct (prehash_input s); [|exact Logic.I].
  cbn [pbind]. intros y. destruct (val_eqb _ _); [|exact Logic.I]. destruct (tpre_validation _ _ _ _ _); [|exact Logic.I]. destruct (recompute _ _ _); [|exact Logic.I]. destruct (fs_input _ _ _); [|exact Logic.I].
  cbn [pbind]. intros y'. exact Logic.I.
Qed.
Definition manyTape : list bytes := map (fun i => [byte_of (Z.of_nat i)]) (seq 1 12).
Definition manyTs : list (nat -> Z) := [exT; zt; (fun i => 8 + Z.of_nat i)].
Example C92_ex :
  Forall (proves 101) manyKs /\ oasks 6 curious /\ (6 + 2 * List.length manyKs <= List.length manyTape)%nat /\
  match sample (oreal curious (combine manyKs manyTs)) [] manyTape with Some (Some (true, true, true), m) => Nat.eqb (List.length m) 6 | _ => false end = true /\
  match oideal curious (combine manyKs manyTs) [] manyTape with Some (Some (true, true, true), m) => Nat.eqb (List.length m) 6 | _ => false end = true.
Proof.
  destruct C89_ex as (H1 & H2 & H3 & H4 & H5 & _ & H6 & H7 & _).
  destruct C86_ex as (Z1 & Z2 & Z3 & Z4 & Z5 & Z6 & Z7). destruct C91_ex as (_ & Z8 & Z9 & _).
  assert (P1 : proves 101 (stmt_party exZk exsd (env st0) (fun _ => None))) by (eapply PrStmt; eauto; apply Z.le_refl).
  assert (P2 : proves 101 (tree_party zT zsd (env st0) (fun _ => None))) by (eapply PrTree; eauto; [exact Logic.I|apply Z.le_refl]).
  split; [repeat constructor; assumption|]. split; [|split; [cbn; lia|split; vm_compute; reflexivity]].
  cbn [curious oasks]. intros z1. apply (then_asks _ _ 2 4); [apply judge_asks|]. intros b1.
  assert (TH : forall b2 : bool, oasks 2 (OProof (lit "m") (fun z3 => and_then (exJudge z3) (fun b3 => ODone (b1, b2, b3))))).
  { intros b2. cbn [oasks]. intros z3. apply (then_asks _ _ 2 0); [apply judge_asks|]. intros; exact Logic.I. }
  destruct b1.
  - cbn [oasks]. intros z2. apply (then_asks _ _ 2 2); [apply check2_asks|]. exact TH.
  - cbn [oasks]. intros z3. apply (then_asks _ _ 2 2); [apply judge_asks|]. intros; exact Logic.I.
Qed.

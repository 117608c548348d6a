(** Zero-knowledge of conjunctions with primitives defined by users in the random oracle model. *)
From Coq Require Import String Znumtheory Lia.
From Verif Require Import Base World Val Expr Utils Stmt Prove Verify Spec Claims Shapes Honest Clauses Supply Extract Runs Views Distrib
  Ident Alike Lib DictProofs Keeps Tree ArithProofs Sigma Validate Commit Build Process Lin Ktruth Provers Complete Compose Total Total2 Total3 Total4
  Frame SimIndep Sound Sound2 Sound3 ZkTree ZkPre Custom Mixed MixedOr Nested NestedProofs TreeZk TreeZkProofs Oracle Forking OracleZk OracleZkProofs
  OracleTree OracleTreeSim.
Open Scope Z_scope.
Open Scope list_scope.

Section O.
Context {W : World}.

Section D.
Context {R : Type} (D : res nizk -> prog R) (m : memo) (t0 : list bytes) (msg : bytes).
Lemma treal_form T sd e t : (forall c, exists pre com r a, outcome (run_with (topen T sd) (fun _ => c)) e t = Ok (pre, com, r, a)) ->
  forall C pre com r ph, outcome (run_with (topen T sd) C) e t = Ok (pre, com, r, ph) ->
  treal T sd msg D m t0 (mkSt e t 0) =
  rest D m t0 msg pre com ph (fun c => match outcome (run_with (topen T sd) (fun _ => c)) e t with Ok (_, _, r, _) => Some r | Err _ => None end).
Proof.
  intros RU C pre com r ph H. unfold outcome in *. unfold run_with in *. unfold treal, tprove_ro.
  unfold bind in *. destruct (topen T sd (mkSt e t 0)) as [[[[pre' p2] s2] a2]|] eqn:PC; cbn [fst snd] in *; try discriminate H.
  destruct (internal_commit s2 p2 None a2) as [[[com' p3] a3]|] eqn:IC; cbn [fst snd] in *; try discriminate H.
  unfold ret in *. destruct (compute_response s2 p3 (C s2) a3) as [[r' a4]|] eqn:CR; [|discriminate H]. injection H as -> -> -> <-.
  unfold rest. destruct (prehash_input s2) as [h|]; [|reflexivity]. cbn [pbind]. rewrite sample_ask. destruct (reply m t0 h) as [[[y m1] t1]|]; [|reflexivity].
  destruct (fs_input h [pre; com] msg) as [i|]; [|reflexivity]. cbn [pbind]. rewrite sample_ask. destruct (reply m1 t1 i) as [[[y' m2] t2]|]; [|reflexivity].
  cbn [pbind]. destruct (RU (be_int y')) as (? & ? & ? & ? & X). destruct (compute_response s2 p3 (be_int y') a3) as [[r2 a5]|]; [|discriminate X]. reflexivity.
Qed.
Lemma tsimulator_form T e t x : outcome (sim_with (tprep T (set_simulated true (tshell T))) (tsent T) (taken m t0)) e t = Ok x ->
  tsimulator T msg m t0 (mkSt e t 0) = shown m t0 msg x.
Proof.
  unfold outcome, sim_with, tsimulator, bind, taken. destruct (tprep T _ (mkSt e t 0)) as [[s1 a1]|]; [|discriminate].
  destruct (prehash_input s1) as [h|] eqn:PH.
  - destruct (reply m t0 h) as [[[y m1] [|y' t1]]|] eqn:RP.
    + destruct (simulate_proof s1 None (Some 0) a1) as [[tr a2]|]; [|discriminate]. intros [= <-]. cbn [shown]. now rewrite RP.
    + destruct (simulate_proof s1 None (Some (be_int y')) a1) as [[tr a2]|]; [|discriminate]. intros [= <-]. cbn [shown]. rewrite RP. reflexivity.
    + destruct (simulate_proof s1 None (Some 0) a1) as [[tr a2]|]; [|discriminate]. intros [= <-]. cbn [shown]. now rewrite RP.
  - destruct (simulate_proof s1 None (Some 0) a1) as [[tr a2]|]; [|discriminate]. intros [= <-]. reflexivity.
Qed.
End D.

Lemma tb_inner U T : forall c s path d, tb U T c s -> conjunct c path d -> inner s path d.
Proof.
  induction T as [K b|s0|l b IH|l b IH] using mtree_ind'; intros c s path d B C; inversion B as [? ? ? c0 v b' MA PS NN NE WF IN|? ? PS NE WF IN|? ? cs ss b' F|]; subst.
  - unfold obj_of. cbn [set_simulated]. constructor. now apply conjunct_inner.
  - now apply conjunct_inner.
  - inversion C as [|? ? i s1 path1 ? N C1]; subst.
    assert (G : exists s2, nth_error ss i = Some s2 /\ inner s2 path1 d).
    { clear B C. revert i N. induction F as [|T c s l cs ss B F IHF]; intros [|i] N; try discriminate.
      - injection N as ->. exists s. split; [reflexivity|]. exact (Forall_inv IH _ _ _ _ B C1).
      - apply (IHF (Forall_inv_tail IH) i N). }
    destruct G as (s2 & N2 & I2). econstructor; eauto.
  - inversion C.
Qed.

Section T.
Context (U V : list secret) (w0 : bytes -> Z) (HU : wfL U) (VU : incl V U).
Context (T : mtree) (sd : dict Z) (ord : bytes -> Z) (e e0 : nat -> option Z).
Hypothesis HC : conjs (hiding V w0) T.
Hypothesis NT : match T with TS _ => False | _ => True end.
Hypothesis HE : heard T.
Hypothesis FI : forall c0, fill T c0 -> Ords ord c0.
Hypothesis GV : forall x, In x V -> In x (map fst sd) \/ e (sid x) <> None.
Hypothesis HT : forall t, exists w, (forall x, In x V -> w (sname x) = w0 (sname x)) /\ entries_ok U w sd /\ agree w e U /\ tok U w sd e T /\
     forall p s a, tget T sd (mkSt e t 0) = Ok ((Some p, s), a) -> tsincere U w T s p a.

Lemma trom_couple : exists n q, (forall j, (j < n)%nat -> 1 < q j) /\
  forall R (D : res nizk -> prog R) m tp msg,
  let f t := treal T sd msg D m tp (mkSt e t 0) in let g t := tideal T msg D m tp (mkSt e0 t 0) in let bad t := treused T msg m tp (mkSt e0 t 0) in
  exists to of, bijection n q to of /\
    (forall t t', congr n q t t' -> f t = f t') /\
    (forall t t', congr n q t t' -> tsimulator T msg m tp (mkSt e0 t 0) = tsimulator T msg m tp (mkSt e0 t' 0)) /\
    ((2 <= List.length tp)%nat -> forall t, bad (to t) = false -> f t = g (to t)) /\
    forall path x G, tspans T path x G -> distinguished G ->
    exists j, (j < n)%nat /\ q j = order G /\
      forall t vs, NoDup vs -> (forall v, In v vs -> 0 <= v < order G) -> count (fun v => bad (put t j v)) vs <= len m.
Proof.
  destruct (tree_phase U V w0 HU VU T sd ord e e0 HC NT HE FI GV HT) as (n & q & to & of & X & P).
  destruct (phase_couple _ _ _ _ n q to of X ord e e0 P) as (n' & q' & Q1 & PC). exists n', q'. split; [exact Q1|].
  intros R D m tp msg f g bad.
  destruct (PC R D m tp msg f (fun t => tsimulator T msg m tp (mkSt e0 t 0))) as (to' & of' & B & F1 & F2 & F4 & F5).
  - intros t. apply treal_form.
  - intros t x. apply tsimulator_form.
  - exists to', of'. do 4 (split; [assumption|]). intros path x G SP DI. apply (F5 x G); [|exact DI].
    intros s' (c & TB). destruct (tb_good U T c s' TB) as (_ & _ & _ & _ & _ & _ & _ & _ & _ & c0 & F0 & PS).
    destruct (SP c0 F0) as (d & CJ & S & GD). destruct (conjunct_same _ _ _ CJ c PS) as (d' & C' & D1 & D2 & D3).
    exists path, d'. split; [eapply tb_inner; eauto|]. split; [eapply spans_same; eauto|now rewrite D1].
Qed.
Lemma trom_zk_at path x G : tspans T path x G -> distinguished G ->
  exists n q, forall R (D : res nizk -> prog R) m tp msg,
  (forall t t', congr n q t t' -> treal T sd msg D m tp (mkSt e t 0) = treal T sd msg D m tp (mkSt e t' 0)) /\
  (forall t t', congr n q t t' -> tsimulator T msg m tp (mkSt e0 t 0) = tsimulator T msg m tp (mkSt e0 t' 0)) /\
  ((2 <= List.length tp)%nat -> until_at n q (len m) (order G) (fun t => treal T sd msg D m tp (mkSt e t 0)) (fun t => tideal T msg D m tp (mkSt e0 t 0))
    (fun t => treused T msg m tp (mkSt e0 t 0))).
Proof.
  intros SP DI. destruct trom_couple as (n & q & _ & RC). exists n, q. intros R D m tp msg.
  destruct (RC R D m tp msg) as (to & of & B & F1 & F2 & F4 & F5). split; [exact F1|]. split; [exact F2|]. intros LT.
  exists to, of. split; [exact B|]. split; [exact F1|]. split; [intros t t' C; unfold tideal; now rewrite (F2 t t' C)|].
  split; [intros t t' C; unfold treused; now rewrite (F2 t t' C)|]. split; [exact (F4 LT)|]. exact (F5 path x G SP DI).
Qed.
Theorem trom_zk {R} (D : res nizk -> prog R) tp msg m path x G : (2 <= List.length tp)%nat -> tspans T path x G -> distinguished G ->
  until (len m) (order G) (fun t => treal T sd msg D m tp (mkSt e t 0)) (fun t => tideal T msg D m tp (mkSt e0 t 0)) (fun t => treused T msg m tp (mkSt e0 t 0)).
Proof. intros LT SP DI. destruct (trom_zk_at path x G SP DI) as (n & q & H). exists n, q. exact (proj2 (proj2 (H R D m tp msg)) LT). Qed.
Theorem trom_zk_first {R} (D : res nizk -> prog R) tp msg : (2 <= List.length tp)%nat ->
  same_distribution (fun t => treal T sd msg D [] tp (mkSt e t 0)) (fun t => tideal T msg D [] tp (mkSt e0 t 0)).
Proof.
  intros LT. destruct trom_couple as (n & q & _ & RC).
  destruct (RC R D [] tp msg) as (to & of & (B1 & B2 & B3 & B4 & B5) & F1 & F2 & F4 & _).
  exists n, q, to, of. split; [assumption|]. split; [assumption|]. split; [intros t t' C; unfold tideal; now rewrite (F2 t t' C)|].
  repeat (split; [assumption|]). intros t. apply (F4 LT). unfold treused. destruct (tsimulator _ _ _ _ _) as [[[[? ?] ?] [i|]]|]; reflexivity.
Qed.
End T.
End O.

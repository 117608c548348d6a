(** Property C91: non-interactive proofs about conjunctions with primitives defined by users say nothing but that the statement
    holds, in the random oracle model. *)
From Coq Require Import String Znumtheory Lia.
From Verif Require Import Base World Val Expr Utils Stmt Prove Verify Spec Shapes Claims Honest Clauses Supply Extract Runs Distrib Alike Lib Custom Mixed MixedOr Nested
  Tutorial TreeZk TreeZkProofs Oracle OracleZk Chance ChanceProofs OracleTree OracleTreeSim OracleTreeSimProofs ZqWorld ZqFacts Ex ExTree PropSound PropCustom PropMixed PropMixedOr PropZk2 PropTreeZk PropOracle.
Open Scope Z_scope.
Open Scope list_scope.

(** C91, partial: the statements and provers of C86. Someone who has asked the questions [m] gets a proof of prove(), or one of the simulator,
    which has no secrets; they may go on asking questions, in any way, and see everything: [D]. Let [G] be the group of a representation
    at [path], which may be part of what a class constructs, with a secret whose bases add up to an element of the order of [G].
    No event has probabilities that differ by more than the number of earlier questions divided by the order of [G]. *)
Theorem C91_zero_knowledge_partial : forall (W : World) U V w0, wfL U -> incl V U -> forall T sd ord e e0,
  conjs (hiding V w0) T -> match T with TS _ => False | _ => True end -> heard T ->
  (forall c0, fill T c0 -> Ords ord c0) -> (forall x, In x V -> In x (map fst sd) \/ e (sid x) <> None) ->
  (forall t, exists w, (forall x, In x V -> w (sname x) = w0 (sname x)) /\ entries_ok U w sd /\ agree w e U /\ tok U w sd e T /\
     forall p s a, tget T sd (mkSt e t 0) = Ok ((Some p, s), a) -> tsincere U w T s p a) ->
  forall R (D : res nizk -> prog R) tp msg m path x G, (2 <= List.length tp)%nat -> tspans T path x G -> distinguished G ->
  let f := fun t => treal T sd msg D m tp (mkSt e t 0) in let g := fun t => tideal T msg D m tp (mkSt e0 t 0) in
  exists n q, (forall j, (j < n)%nat -> 1 < q j) /\ (forall t t', congr n q t t' -> f t = f t' /\ g t = g t') /\
    forall E, order G * Z.abs (chances n q E f - chances n q E g) <= len m * len (box n q).
Proof.
  intros W U V w0 H1 H2 T sd ord e e0 H3 H4 H5 H6 H7 H8 R D tp msg m path x G H9 H10 H11.
  exact (until_chances _ _ _ _ _ (trom_zk U V w0 H1 H2 T sd ord e e0 H3 H4 H5 H6 H7 H8 D tp msg m path x G H9 H10 H11)).
Qed.
Print Assumptions C91_zero_knowledge_partial.
(** No earlier questions: no difference. *)
Theorem C91_first_proof_partial : forall (W : World) U V w0, wfL U -> incl V U -> forall T sd ord e e0,
  conjs (hiding V w0) T -> match T with TS _ => False | _ => True end -> heard T ->
  (forall c0, fill T c0 -> Ords ord c0) -> (forall x, In x V -> In x (map fst sd) \/ e (sid x) <> None) ->
  (forall t, exists w, (forall x, In x V -> w (sname x) = w0 (sname x)) /\ entries_ok U w sd /\ agree w e U /\ tok U w sd e T /\
     forall p s a, tget T sd (mkSt e t 0) = Ok ((Some p, s), a) -> tsincere U w T s p a) ->
  forall R (D : res nizk -> prog R) tp msg, (2 <= List.length tp)%nat ->
  same_distribution (fun t => treal T sd msg D [] tp (mkSt e t 0)) (fun t => tideal T msg D [] tp (mkSt e0 t 0)).
Proof. exact @trom_zk_first. Qed.
Print Assumptions C91_first_proof_partial.

(** ** Example: the conjunction of C86, which meets the hypotheses (C86_ex). The representation is the one of the class, C = x*3 + t*5; the secret is t. *)
Definition zJudge (z : res (@nizk Zq)) : prog bool :=
  match z with
  | Ok z => pbind (tverify_ro zT z (lit "m") st0) (fun r => Ret match r with Ok (b, _) => b | Err _ => false end)
  | Err _ => Ret false
  end.
Definition zTape : list bytes := [lit "digest"; [byte_of 9]].
Definition zt (i : nat) : Z := 7 + Z.of_nat i.
Definition zempty : st := mkSt (fun _ => None) zt 0.
(** the question that the simulator answers, and the simulated proof *)
Definition zQuestion : bytes := match tsimulator zT (lit "m") [] zTape zempty with Some (_, _, _, Some i) => i | _ => [] end.
Definition zSimulated : res (@nizk Zq) := match tsimulator zT (lit "m") [] zTape zempty with Some (z, _, _, _) => z | None => Err EException end.
Definition said {B} (x : option (bool * B)) : bool := match x with Some (b, _) => b | None => false end.
Example C91_ex :
  (2 <= List.length zTape)%nat /\ tspans zT [1; 1]%nat stx (grp (Pt 3)) /\ @distinguished Zq (grp (Pt 3)) /\
  (* the verifier accepts the real and the simulated proof *)
  said (treal zT zsd (lit "m") zJudge [] zTape (mkSt (env st0) zt 0)) = true /\ said (tideal zT (lit "m") zJudge [] zTape zempty) = true /\
  (* the simulated proof is accepted if the oracle answers as the simulator has chosen, not otherwise *)
  said (sample (zJudge zSimulated) [] zTape) = true /\ said (sample (zJudge zSimulated) [] [lit "digest"; [byte_of 8]]) = false /\
  (* the case that must be rare: the simulator's question has been asked *)
  treused zT (lit "m") [] zTape zempty = false /\ treused zT (lit "m") [(zQuestion, lit "asked")] zTape zempty = true /\
  treused zT (lit "m") [(zQuestion, lit "asked")] zTape (mkSt (fun _ => None) (fun i => 8 + Z.of_nat i) 0) = false.
Proof.
  split; [cbn; lia|]. split; [|split; [apply Zq_distinguished|]].
  - intros c F. inversion F as [| |? ? cs b' F2|]; subst. inversion F2 as [|? c1 ? cs1 F3 F4]; subst. inversion F4 as [|? c2 ? cs2 F5 F6]; subst. inversion F6; subst.
    inversion F5 as [? ? pre ? M| | |]; subst. assert (M' := M). apply exCom_made in M as (C & d1 & d2 & -> & ->).
    eexists. split; [eapply Alike.CjAnd; [reflexivity|]; eapply Alike.CjAnd; [reflexivity|constructor]|].
    assert (G : grp C = grp (Pt 3)).
    { destruct M' as (a & a1 & a2 & [M|M] & _); unfold exCom in M; cbn [c_pre c_sim] in M.
      - apply bind_ok in M as (u & b1 & _ & M). apply bind_ok in M as (v & b2 & _ & M). apply bind_ok in M as (? & b3 & _ & M). apply bind_ok in M as (C0 & b4 & L & M).
        apply ret_ok in M as [M _]. injection M as ->. unfold padd_chk, lift in L. change (gid_eqb _ _) with true in L. injection L as <- _. reflexivity.
      - apply bind_ok in M as (v & b1 & _ & M). apply ret_ok in M as [M _]. injection M as <-. reflexivity. }
    split; [|exact G].
    split; [right; now left|]. cbn [dl_lhs dl_secs dl_bases]. rewrite G. set (b := lincomb _ _ _). intros k E. apply (f_equal zv) in E.
    replace (zv (pmul k b)) with ((k * 5) mod 101) in E.
    2:{ transitivity ((k * zv b) mod 101); [|reflexivity]. f_equal. }
    change (zv (inf (grp (Pt 3)))) with 0 in E. change (order (grp (Pt 3))) with 101.
    apply Z.mod_divide in E; [|discriminate]. apply (Gauss 101 5); [now rewrite Z.mul_comm|].
    apply Zgcd_1_rel_prime. reflexivity.
  - repeat (split; [vm_compute; reflexivity|]). vm_compute. reflexivity.
Qed.

(** Property C89: non-interactive proofs in the random oracle model are complete and zero-knowledge. *)
From Coq Require Import String Znumtheory Lia.
From Verif Require Import Base World Val Expr Utils Stmt Prove Verify Spec Shapes Claims Honest Clauses Supply Extract Ident Alike Distrib TreeZk
  Oracle OracleZk OracleZkProofs Chance ChanceProofs ZqWorld ZqFacts Ex ExTree PropZk PropSound PropOracle PropZk2.
Open Scope Z_scope.
Open Scope list_scope.

(** The prover that asks for hash values is the prover of the library if sha256 answers. *)
Theorem C89_prover : forall (W : World) s sd msg a, with_fun sha256 (prove_ro s sd msg a) =
  match prove s sd msg a with Ok ((z, s'), a') => Ok (z, s', a') | Err e => Err e end.
Proof. exact @prove_ro_fun. Qed.
Print Assumptions C89_prover.
(** Whatever function is used for hashing, verify() accepts what prove() makes from values that satisfy the statement. *)
Theorem C89_complete : forall (W : World) (H : bytes -> bytes) U w s sd msg a z s' a',
  honest U w s sd (env a) -> with_fun H (prove_ro s sd msg a) = Ok (z, s', a') -> nonneutral s' ->
  forall f g sv av, Pat f g s sv -> Forall (vkOK (env av)) (kinds sv) ->
  exists sv', with_fun H (verify_ro sv z msg av) = Ok (true, sv', av).
Proof. exact @rom_complete. Qed.
Print Assumptions C89_complete.

(** Someone asks questions [m], then gets a proof, then goes on asking as they like ([D]). What they see (result, all questions
    and answers) and what they see if the simulator, which knows no value, makes the proof, are the same up to a bijection of the
    random numbers, unless the simulator happens on a question in [m]. *)
Theorem C89_coupling : forall (W : World) R (D : res nizk -> prog R) m tp msg U w s sd ord e e0 x G,
  honest U w s sd e -> Shape s -> Supplied sd w e s -> Ords ord s -> conj_of (blinded w) s ->
  (2 <= List.length tp)%nat -> spanned x G s -> distinguished G ->
  until (len m) (order G) (fun t => real s sd msg D m tp (mkSt e t 0)) (fun t => ideal s msg D m tp (mkSt e0 t 0))
    (fun t => reused s msg m tp (mkSt e0 t 0)).
Proof. exact @rom_zk. Qed.
Print Assumptions C89_coupling.
(** So, for every event, the two probabilities differ by at most (number of earlier questions) / (group order). *)
Theorem C89_zero_knowledge : forall (W : World) R (D : res nizk -> prog R) m tp msg U w s sd ord e e0 x G,
  honest U w s sd e -> Shape s -> Supplied sd w e s -> Ords ord s -> conj_of (blinded w) s ->
  (2 <= List.length tp)%nat -> spanned x G s -> distinguished G ->
  let f := fun t => real s sd msg D m tp (mkSt e t 0) in let g := fun t => ideal s msg D m tp (mkSt e0 t 0) in
  exists n q, (forall j, (j < n)%nat -> 1 < q j) /\ (forall t t', congr n q t t' -> f t = f t' /\ g t = g t') /\
    forall E, order G * Z.abs (chances n q E f - chances n q E g) <= len m * len (box n q).
Proof.
  intros W R D m tp msg U w s sd ord e e0 x G H1 H2 H3 H4 H5 H6 H7 H8.
  exact (until_chances _ _ _ _ _ (rom_zk D m tp msg U w s sd ord e e0 x G H1 H2 H3 H4 H5 H6 H7 H8)).
Qed.
Print Assumptions C89_zero_knowledge.
(** No earlier questions: no difference. *)
Theorem C89_first_proof : forall (W : World) R (D : res nizk -> prog R) tp msg U w s sd ord e e0,
  honest U w s sd e -> Shape s -> Supplied sd w e s -> Ords ord s -> conj_of (blinded w) s -> (2 <= List.length tp)%nat ->
  same_distribution (fun t => real s sd msg D [] tp (mkSt e t 0)) (fun t => ideal s msg D [] tp (mkSt e0 t 0)).
Proof. exact @rom_zk_first. Qed.
Print Assumptions C89_first_proof.
(** What [same_distribution] (here, in C49, C58, ...) means: as many random numbers lead to any event. *)
Theorem C89_same_probabilities : forall A (f g : (nat -> Z) -> A), same_distribution f g -> exists n q, (forall j, (j < n)%nat -> 1 < q j) /\
  (forall t t', congr n q t t' -> f t = f t' /\ g t = g t') /\ forall E, chances n q E f = chances n q E g.
Proof. exact @same_chances. Qed.
Print Assumptions C89_same_probabilities.

(** ** Examples *)
(** The statement of C58. The first conjunct is x*3 + y*5 + x*7. *)
Definition exJudge (z : res (@nizk Zq)) : prog bool :=
  match z with
  | Ok z => pbind (verify_ro exZk z (lit "m") st0) (fun r => Ret match r with Ok (b, _, _) => b | Err _ => false end)
  | Err _ => Ret false
  end.
Definition exTape : list bytes := [lit "digest"; [byte_of 9]].
Definition exT (i : nat) : Z := 7 + Z.of_nat i.
(** the question that the simulator answers *)
Definition exQuestion : bytes := match simulator exZk (lit "m") [] exTape (mkSt (fun _ => None) exT 0) with Some (_, _, _, Some i) => i | _ => [] end.
Definition verdict {B} (x : option (bool * B)) : bool := match x with Some (b, _) => b | None => false end.
Example C89_ex :
  honest exU exw exZk exsd (env st0) /\ Shape exZk /\ Supplied exsd exw (env st0) exZk /\ Ords exord exZk /\ conj_of (blinded exw) exZk /\
  (2 <= List.length exTape)%nat /\ spanned sx (grp (dl_lhs exD)) exZk /\ distinguished (grp (dl_lhs exD)) /\
  (* the verifier accepts the real and the simulated proof *)
  verdict (real exZk exsd (lit "m") exJudge [] exTape (mkSt (env st0) exT 0)) = true /\
  verdict (ideal exZk (lit "m") exJudge [] exTape (mkSt (fun _ => None) exT 0)) = true /\
  (* the simulated proof is accepted if the oracle answers as the simulator has chosen, not otherwise *)
  verdict (sample (exJudge match simulator exZk (lit "m") [] exTape (mkSt (fun _ => None) exT 0) with Some (z, _, _, _) => z | None => Err EException end)
    [] exTape) = true /\
  verdict (sample (exJudge match simulator exZk (lit "m") [] exTape (mkSt (fun _ => None) exT 0) with Some (z, _, _, _) => z | None => Err EException end)
    [] [lit "digest"; [byte_of 8]]) = false /\
  (* the case that must be rare: the simulator's question has been asked *)
  reused exZk (lit "m") [] exTape (mkSt (fun _ => None) exT 0) = false /\
  reused exZk (lit "m") [(exQuestion, lit "asked")] exTape (mkSt (fun _ => None) exT 0) = true /\
  reused exZk (lit "m") [(exQuestion, lit "asked")] exTape (mkSt (fun _ => None) (fun i => 8 + Z.of_nat i) 0) = false.
Proof.
  destruct C58_ex as (H1 & H2 & H3 & H4 & H5 & _). do 5 (split; [assumption|]). split; [cbn; lia|].
  split; [|split; [apply Zq_distinguished|]].
  - apply (SpAnd _ _ _ _ exDL); [now left|]. apply SpDL; [|reflexivity]. split; [now left|]. intros b k E. apply (f_equal zv) in E.
    replace (zv (pmul k b)) with ((k * 10) mod 101) in E.
    2:{ transitivity ((k * zv b) mod 101); [|reflexivity]. f_equal. }
    change (zv (inf (grp (dl_lhs exD)))) with 0 in E. change (order (grp (dl_lhs exD))) with 101.
    apply Z.mod_divide in E; [|discriminate]. apply (Gauss 101 10); [now rewrite Z.mul_comm|].
    apply Zgcd_1_rel_prime. reflexivity.
  - repeat (split; [vm_compute; reflexivity|]). vm_compute. reflexivity.
Qed.
(** The signature of C35: a credential, shown on its own. *)
Lemma ex_order (p : @pt Zq) : order (grp p) = 101 -> rel_prime 101 (zv p) -> forall k, pmul k p = inf (grp p) -> (order (grp p) | k).
Proof.
  intros O R k E. apply (f_equal zv) in E. rewrite O. change (zv (inf (grp p))) with 0 in E.
  replace (zv (pmul k p)) with ((k * zv p) mod 101) in E.
  2:{ change (zv (pmul k p)) with ((k * zv p) mod order (grp p)). now rewrite O. }
  apply Z.mod_divide in E; [|discriminate]. apply (Gauss 101 (zv p)); [now rewrite Z.mul_comm|exact R].
Qed.
Definition sigJudge (z : res (@nizk Zq)) : prog bool :=
  match z with
  | Ok z => pbind (verify_ro exBV z (lit "m") st0) (fun r => Ret match r with Ok (b, _, _) => b | Err _ => false end)
  | Err _ => Ret false
  end.
Example C89_ex_signature :
  honest exBs exBw exBB exBsd (env stB) /\ Shape exBB /\ Supplied exBsd exBw (env stB) exBB /\ Ords exord exBB /\ conj_of (blinded exBw) exBB /\
  spanned (X 36 "d1") (grp (B1 3)) exBB /\ distinguished (grp (B1 3)) /\ order (grp (B1 3)) = 101 /\
  verdict (real exBB exBsd (lit "m") sigJudge [] exTape (mkSt (env stB) exT 0)) = true /\
  verdict (ideal exBB (lit "m") sigJudge [] exTape (mkSt (fun _ => None) exT 0)) = true.
Proof.
  destruct C58_ex_sig as (H1 & H2 & H3 & H4 & H5). do 5 (split; [assumption|]). split; [|split; [apply Zq_distinguished|split; [reflexivity|split; vm_compute; reflexivity]]].
  apply SpSig; [reflexivity|reflexivity|intros E; vm_compute in E; discriminate E|intros E; vm_compute in E; discriminate E|].
  apply (ex_order (B1 3)); [reflexivity|]. apply Zgcd_1_rel_prime. reflexivity.
Qed.
(** C08's example, with another function instead of sha256 *)
Definition exHash (b : bytes) : bytes := firstn 2 (rev b).
Example C89_ex_complete :
  honest exU exw exS exsd (env st0) /\ Pat tick untick exS exV /\ Forall (vkOK (env st0)) (kinds exV) /\
  match with_fun exHash (prove_ro exS exsd (lit "msg") st0) with
  | Ok (z, _, _) => match with_fun exHash (verify_ro exV z (lit "msg") st0) with Ok (b, _, _) => b | Err _ => false end
  | Err _ => false
  end = true.
Proof. split; [exact exS_honest|]. split; [exact exV_pat|]. split; [exact (exV_vals (env st0))|]. vm_compute. reflexivity. Qed.
(** Two numbers below 2 and 3: of the six pairs, two have the sum 1. *)
Example C89_ex_chances : box 2 (fun j => Z.of_nat (2 + j)) = [[0; 0]; [0; 1]; [0; 2]; [1; 0]; [1; 1]; [1; 2]] /\
  chances 2 (fun j => Z.of_nat (2 + j)) (Z.eqb 1) (fun t => t 0%nat + t 1%nat) = 2.
Proof. split; reflexivity. Qed.

(** Property C94: proofs by those who have seen proofs of others, in the random oracle model. *)
From Coq Require Import String Znumtheory Lia.
From Verif Require Import Base World Val Expr Utils Stmt Prove Verify Spec Shapes Claims Clauses Honest Supply Extract Ident Alike Lib Distrib Custom Mixed MixedOr Nested TreeZk Oracle OracleZk Chance
  OracleTree OracleTreeSim OracleMany OracleManyProofs Forking OracleProofs OracleTreeProofs Chosen ChosenTree ChosenTreeProofs Forgery ForgeryProofs Sound ZqWorld ZqFacts Ex ExTree Proth
  PropZk PropSound PropCustom PropMixed PropMixedOr PropNested PropWire PropId PropZk2 PropTreeZk PropOracle PropOraclePrim PropOracleTree PropOracleZk PropOracleTreeSim PropOracleMany PropChosenTree.
Open Scope Z_scope.
Open Scope list_scope.

(** C94: proofs with a message are signatures. A sequence of statements as in C92, of which provers make proofs; someone asks at most [b] questions and, between them, for proofs with
    messages of their choice (one of each statement; a statement may occur several times). In the end they hand over a composition of their choice, a proof and a message, for
    which they have asked for no proof. If verify() accepts with a probability of more than n*K/N + p*n/Q, with p statements and n = b + 2 + 2*p, then the equations of the composition are
    met by numbers that are computed from two runs of this someone with simulators, which know no secret: they could have made the proof without the proofs of others. [sz]: the probability
    is over all answers and all random numbers of the provers, of which only the remainders modulo these numbers matter. *)
Theorem C94_forgery : forall (W : World) Q Ks, 0 <= Q -> Forall (OracleMany.proves Q) Ks -> Forall sends_framed Ks ->
  exists sz, List.length sz = List.length Ks /\ Forall (fun s => forall j, (j < fst s)%nat -> 1 < snd s j) sz /\
  (forall ok a v ps y b, oasks b v -> (b + 2 + 2 * List.length Ks <= List.length y)%nat -> Forall2 (fun s p => congr (fst s) (snd s) (fst p) (snd p)) sz ps ->
    forges ok a v Ks (map fst ps) y = forges ok a v Ks (map snd ps) y) /\
  forall ok a v A qs K b, readable -> (forall g, distinguished g) -> tusual ok qs a -> (forall t z v s a1, reached (ok t) t a z v s a1 -> noor s) ->
  oasks b v -> spread A qs K -> 0 <= K -> let n := (b + 2 + 2 * List.length Ks)%nat in
  (Q * Z.of_nat n * K + len A * len Ks * Z.of_nat n) * (len (boxes sz) * len A ^ Z.of_nat n) <
    len A * Q * count (fun p => forges ok a v Ks (map vec (fst p)) (snd p)) (list_prod (boxes sz) (tapes A n)) ->
  exists ts t t' z z' v' s a1 w, two_forgeries ok a v Ks ts A n t t' z z' /\ reached (ok t) t a z v' s a1 /\
    Extr w s (n_chal z) (n_chal z') (n_resp z) (n_resp z') /\ tholds w t (n_pre z) s (n_chal z) (n_chal z') (n_resp z) (n_resp z').
Proof. exact @forge_extract. Qed.
Print Assumptions C94_forgery.
(** The probability of a proof of a composition that does not hold *)
Theorem C94_false : forall (W : World) Q Ks, 0 <= Q -> Forall (OracleMany.proves Q) Ks -> Forall sends_framed Ks ->
  exists sz, List.length sz = List.length Ks /\ Forall (fun s => forall j, (j < fst s)%nat -> 1 < snd s j) sz /\
  (forall ok a v ps y b, oasks b v -> (b + 2 + 2 * List.length Ks <= List.length y)%nat -> Forall2 (fun s p => congr (fst s) (snd s) (fst p) (snd p)) sz ps ->
    forges ok a v Ks (map fst ps) y = forges ok a v Ks (map snd ps) y) /\
  forall ok a v A qs K b, readable -> (forall g, distinguished g) -> tusual ok qs a ->
  (forall t z v s a1, reached (ok t) t a z v s a1 -> noor s /\ forall w c c' r r', tholds w t (n_pre z) s c c' r r' -> ~ Sat w s) ->
  oasks b v -> spread A qs K -> 0 <= K -> let n := (b + 2 + 2 * List.length Ks)%nat in
  len A * Q * count (fun p => forges ok a v Ks (map vec (fst p)) (snd p)) (list_prod (boxes sz) (tapes A n)) <=
  (Q * Z.of_nat n * K + len A * len Ks * Z.of_nat n) * (len (boxes sz) * len A ^ Z.of_nat n).
Proof. exact @forge_false. Qed.
Print Assumptions C94_false.
(** For all digests of 32 bytes, in groups of order q: at most n * (1/q + 1/2^256 + p/Q). *)
Theorem C94_sha256 : forall (W : World) Q Ks, 0 <= Q -> Forall (OracleMany.proves Q) Ks -> Forall sends_framed Ks ->
  exists sz, List.length sz = List.length Ks /\ Forall (fun s => forall j, (j < fst s)%nat -> 1 < snd s j) sz /\
  (forall ok a v ps y b, oasks b v -> (b + 2 + 2 * List.length Ks <= List.length y)%nat -> Forall2 (fun s p => congr (fst s) (snd s) (fst p) (snd p)) sz ps ->
    forges ok a v Ks (map fst ps) y = forges ok a v Ks (map snd ps) y) /\
  forall ok a v q b, readable -> (forall g, distinguished g) -> tusual ok [q] a -> 1 < q ->
  (forall t z v s a1, reached (ok t) t a z v s a1 -> noor s /\ forall w c c' r r', tholds w t (n_pre z) s c c' r r' -> ~ Sat w s) ->
  oasks b v -> let n := (b + 2 + 2 * List.length Ks)%nat in
  2 ^ 256 * Q * count (fun p => forges ok a v Ks (map vec (fst p)) (snd p)) (list_prod (boxes sz) (tapes digests n)) <=
  (Q * Z.of_nat n * (2 ^ 256 / q + 1) + 2 ^ 256 * len Ks * Z.of_nat n) * (len (boxes sz) * (2 ^ 256) ^ Z.of_nat n).
Proof. exact @forge_sha. Qed.
Print Assumptions C94_sha256.
(** With disjunctions. Partial: only answers with parts of the challenge below 2^128, in groups of at least 2^129 elements (C11). *)
Theorem C94_forgery_or_partial : forall (W : World) Q Ks, 0 <= Q -> Forall (OracleMany.proves Q) Ks -> Forall sends_framed Ks ->
  exists sz, List.length sz = List.length Ks /\ Forall (fun s => forall j, (j < fst s)%nat -> 1 < snd s j) sz /\
  (forall ok a v ps y b, oasks b v -> (b + 2 + 2 * List.length Ks <= List.length y)%nat -> Forall2 (fun s p => congr (fst s) (snd s) (fst p) (snd p)) sz ps ->
    forges ok a v Ks (map fst ps) y = forges ok a v Ks (map snd ps) y) /\
  forall ok a v A qs K b, readable -> (forall g, distinguished g) -> tusual ok qs a -> (forall q, In q qs -> 2 ^ 129 <= q) ->
  (forall t z v s a1, reached (ok t) t a z v s a1 -> canonical s (n_resp z)) ->
  oasks b v -> spread A (2 ^ 128 :: qs) K -> 0 <= K -> let n := (b + 2 + 2 * List.length Ks)%nat in
  (Q * Z.of_nat n * K + len A * len Ks * Z.of_nat n) * (len (boxes sz) * len A ^ Z.of_nat n) <
    len A * Q * count (fun p => forges ok a v Ks (map vec (fst p)) (snd p)) (list_prod (boxes sz) (tapes A n)) ->
  exists ts t t' z z' v' s a1 w, two_forgeries ok a v Ks ts A n t t' z z' /\ reached (ok t) t a z v' s a1 /\
    Extr w s (n_chal z) (n_chal z') (n_resp z) (n_resp z') /\ tholds w t (n_pre z) s (n_chal z) (n_chal z') (n_resp z) (n_resp z').
Proof. exact @forge_extract_or. Qed.
Print Assumptions C94_forgery_or_partial.
(** The condition on precommitments is met by all statements of the library, and by conjunctions and disjunctions with user-defined primitives. *)
Theorem C94_library_framed : forall (W : World) s sd e e0, sends_framed (stmt_party s sd e e0).
Proof. exact @stmt_framed. Qed.
Print Assumptions C94_library_framed.
Theorem C94_tree_framed : forall (W : World) l b sd e e0, sends_framed (tree_party (TA l b) sd e e0) /\ sends_framed (tree_party (TO l b) sd e e0).
Proof. exact @tree_framed. Qed.
Print Assumptions C94_tree_framed.
(** Compositions that do not hold, with any message, also one of those before, any values of the provers, also wrong ones, and for every choice of their random numbers *)
Theorem C94_false_any_message : forall (W : World) ok a v l d A qs K b, readable -> (forall g, distinguished g) -> tusual ok qs a ->
  (forall t z v s a1, reached (ok t) t a z v s a1 -> noor s /\ forall w c c' r r', tholds w t (n_pre z) s c c' r r' -> ~ Sat w s) ->
  Forall (fun p => provers (fst p)) l -> oasks b v -> spread A qs K -> 0 <= K -> let n := (b + 2 * List.length l + 2)%nat in
  len A * count (tcwon ok a (seen_proofs v l d)) (tapes A n) <= Z.of_nat n * K * len A ^ Z.of_nat n.
Proof. exact @after_false. Qed.
Print Assumptions C94_false_any_message.

(** ** Examples *)
Definition seven : list bytes := map (fun i => [byte_of i]) [1; 2; 3; 4; 5; 6; 7].
Definition oneK : list (@party Zq) := [stmt_party exZk exsd (env st0) (fun _ => None)].
Lemma oneK_proves : Forall (OracleMany.proves 101) oneK /\ Forall sends_framed oneK.
Proof.
  destruct C92_ex as (F & _). inversion F; subst. split; constructor; [assumption|constructor|apply stmt_framed|constructor].
Qed.
Lemma spread_seven qs : forallb (fun y => count (fun y' => negb (apart qs y y')) seven <=? 1) seven = true -> spread seven qs 1.
Proof. intros H y I. rewrite forallb_forall in H. apply H in I. now apply Z.leb_le. Qed.
Lemma boxes_some sz : Forall (fun s => forall j, (j < fst s)%nat -> 1 < snd s j) sz -> 0 < len (boxes sz).
Proof.
  intros F. assert (E : exists l, In l (boxes sz)).
  { induction F as [|[n q] sz H F (l & I)]; [exists []; now left|]. cbn [fst snd] in H.
    assert (B : exists x, In x (box n q)).
    { clear - H. induction n as [|n IH]; [exists []; now left|]. cbn [box].
      destruct IH as (x & I); [intros j L; apply H; lia|]. assert (Q := H n ltac:(lia)). exists (x ++ [0]). apply in_flat_map. exists x. split; [exact I|].
      apply in_map_iff. exists O. split; [reflexivity|]. apply in_seq. lia. }
    destruct B as (x & B). exists (x :: l). cbn [boxes]. apply in_flat_map. exists x. split; [exact B|]. now apply in_map. }
  destruct E as (l & I). destruct (boxes sz); [destruct I|]. unfold len. cbn [List.length]. lia.
Qed.
Lemma count_all {A} (f : A -> bool) l : (forall x, In x l -> f x = true) -> count f l = len l.
Proof.
  intros H. induction l as [|x l IH]; [reflexivity|]. rewrite OracleManyProofs.count_cons, OracleManyProofs.len_cons, (H x (or_introl eq_refl)), IH; [reflexivity|]. intros y I. apply H. now right.
Qed.
(** Someone who asks for no proof and succeeds with all pairs of answers *)
Definition alone (adv : prog (@mtree Zq * @nizk Zq * bytes)) : @obs Zq (mtree * nizk * bytes) := OSkip (othen adv ODone).
Lemma alone_forges ok adv ts y : List.length ts = 1%nat -> In y (tapes seven 6) ->
  forallb (fun u => forged ok (sample (oreal (onote (othen adv ODone) [] (fun x ms => othen (tverify_ro (fst (fst x)) (snd (fst x)) (snd x) st0) (fun r => ODone (Some (taccepts r, x, ms))))) []) [] u)) (tapes seven 2) = true ->
  forges ok st0 (alone adv) oneK ts y = true.
Proof.
  intros L I H. unfold forges, forgery, alone. destruct ts as [|t [|? ?]]; try discriminate L. cbn [oneK combine onote oreal].
  apply tapes_in in I as [Ly Fy]. rewrite forallb_forall in H. destruct y as [|y1 [|y2 y]]; try discriminate Ly. inversion Fy as [|? ? F1 Fy1]; subst. inversion Fy1 as [|? ? F2 Fy2]; subst.
  specialize (H [y1; y2]). destruct (sample _ [] [y1; y2]) as [[o m]|] eqn:S.
  - change (y1 :: y2 :: y) with ([y1; y2] ++ y). rewrite (sample_more _ _ _ _ _ _ S). apply H. apply tapes_in. split; [reflexivity|]. constructor; [exact F1|constructor; [exact F2|constructor]].
  - assert (X : false = true); [|discriminate X]. apply H. apply tapes_in. split; [reflexivity|]. constructor; [exact F1|constructor; [exact F2|constructor]].
Qed.
Lemma alone_count ok adv sz : List.length sz = List.length oneK -> Forall (fun s => forall j, (j < fst s)%nat -> 1 < snd s j) sz ->
  forallb (fun u => forged ok (sample (oreal (onote (othen adv ODone) [] (fun x ms => othen (tverify_ro (fst (fst x)) (snd (fst x)) (snd x) st0) (fun r => ODone (Some (taccepts r, x, ms))))) []) [] u)) (tapes seven 2) = true ->
  (101 * Z.of_nat (2 + 2 + 2 * List.length oneK) * 1 + len seven * len oneK * Z.of_nat (2 + 2 + 2 * List.length oneK)) * (len (boxes sz) * len seven ^ Z.of_nat (2 + 2 + 2 * List.length oneK)) <
    len seven * 101 * count (fun p => forges ok st0 (alone adv) oneK (map vec (fst p)) (snd p)) (list_prod (boxes sz) (tapes seven (2 + 2 + 2 * List.length oneK))).
Proof.
  intros L F H. rewrite count_all.
  - unfold len at 6. rewrite prod_length, Nat2Z.inj_mul. change (Z.of_nat (List.length (boxes sz))) with (len (boxes sz)).
    change (Z.of_nat (List.length (tapes seven (2 + 2 + 2 * List.length oneK)))) with (len (tapes seven (2 + 2 + 2 * List.length oneK))). rewrite tapes_len.
    assert (B := boxes_some sz F). change (2 + 2 + 2 * List.length oneK)%nat with 6%nat. change (len seven) with 7. change (len oneK) with 1. set (X := len (boxes sz)) in *. set (P := 7 ^ Z.of_nat 6).
    assert (PP : 0 < P) by (vm_compute; reflexivity). change (Z.of_nat 6) with 6. nia.
  - intros [l y] I. apply in_prod_iff in I as [I1 I2]. cbn [fst snd]. apply alone_forges; [rewrite map_length, (boxes_length sz l I1); exact L|exact I2|exact H].
Qed.
Lemma othen_asks {A R} (p : prog A) (k : A -> @obs Zq R) n : asks n p -> (forall x, oasks 0 (k x)) -> oasks n (othen p k).
Proof.
  revert n. induction p as [x|b f IH]; intros n H K; cbn [othen].
  - clear H. specialize (K x). assert (G : forall (v : @obs Zq R) a a', (a <= a')%nat -> oasks a v -> oasks a' v).
    { induction v as [r|b0 k0 IHv|msg k0 IHv|v0 IHv]; intros a a' L O; cbn [oasks] in *; [exact Logic.I| |intros z; eapply IHv; eauto|].
      - destruct a as [|a]; [destruct O|]. destruct a' as [|a']; [lia|]. intros y. apply (IHv y a); [lia|auto].
      - eapply IHv; eauto. }
    apply (G _ O); [lia|exact K].
  - destruct n as [|n]; [destruct H|]. cbn. intros y. apply IH; auto.
Qed.
(** A proof of the statement of C89 with the message "a"; then the prover of C93 makes a proof of another composition, whose secrets they know, with the message "m". *)
Definition other : @obs Zq (mtree * nizk * bytes) := OProof (lit "a") (fun _ => othen advCt ODone).
Definition oneTape (c : Z) : list bytes := map (fun i => [byte_of i]) [11; 12; 13; c; 15; 16].
Example C94_ex_forgery :
  Forall (OracleMany.proves 101) oneK /\ Forall sends_framed oneK /\ @readable Zq /\ tusual (okT (fun _ => true)) [101] st0 /\
  (forall t z v s a1, reached (okT (fun _ => true) t) t st0 z v s a1 -> noor s) /\
  oasks 2 (alone advCt) /\ oasks 2 other /\ spread seven [101] 1 /\
  (forall sz, List.length sz = List.length oneK -> Forall (fun s => forall j, (j < fst s)%nat -> 1 < snd s j) sz ->
   let n := (2 + 2 + 2 * List.length oneK)%nat in
   (101 * Z.of_nat n * 1 + len seven * len oneK * Z.of_nat n) * (len (boxes sz) * len seven ^ Z.of_nat n) <
    len seven * 101 * count (fun p => forges (okT (fun _ => true)) st0 (alone advCt) oneK (map vec (fst p)) (snd p)) (list_prod (boxes sz) (tapes seven n))) /\
  map (fun c => forges (okT (fun _ => true)) st0 other oneK [exT] (oneTape c)) [14; 15] = [true; true] /\
  map (fun c => forged (okT (fun _ => true)) (oideal (forgery st0 other) (combine oneK [exT]) [] (oneTape c))) [14; 15] = [true; true].
Proof.
  destruct oneK_proves as [P T]. destruct C93_ex_user_extract as (R & U & N & A & _). split; [exact P|]. split; [exact T|]. split; [exact R|]. split; [exact U|]. split; [exact N|].
  split; [change (oasks 2 (othen advCt ODone)); apply othen_asks; [exact A|intros; exact Logic.I]|]. split; [intros z; apply othen_asks; [exact A|intros; exact Logic.I]|].
  split; [apply spread_seven; vm_compute; reflexivity|]. split; [|split; vm_compute; reflexivity].
  intros sz L F n. apply alone_count; [exact L|exact F|vm_compute; reflexivity].
Qed.
(** Those who hand over the proof they have got, do not succeed: its message is not new. With another message verify() rejects. *)
Definition copying (msg : bytes) : @obs Zq (mtree * nizk * bytes) :=
  OProof (lit "a") (fun z => ODone (TS exZk, match z with Ok z => z | Err _ => mkNizk 0 VNone VNone VNone end, msg)).
Definition taken_over (msg : bytes) : bool :=
  match sample (oreal (forgery st0 (copying msg)) (combine oneK [exT])) [] (oneTape 14) with Some (Some (Some (acc, _, _)), _) => acc | _ => false end.
Example C94_ex_copy : map taken_over [lit "a"; lit "b"] = [true; false] /\
  map (fun msg => forges (fun _ _ => true) st0 (copying msg) oneK [exT] (oneTape 14)) [lit "a"; lit "b"] = [false; false].
Proof. split; vm_compute; reflexivity. Qed.
(** The composition of C93 that does not hold; a proof of another statement before *)
Definition liar : @obs Zq (mtree * nizk * bytes) := OProof (lit "a") (fun _ => othen advF ODone).
Definition liarTape (c : Z) : list bytes := map (fun i => [byte_of i]) [11; 12; 1; 13; c; 15].
Example C94_ex_false :
  tusual (okT contra) [101] st0 /\
  (forall t z v s a1, reached (okT contra t) t st0 z v s a1 -> noor s /\ forall w c c' r r', tholds w t (n_pre z) s c c' r r' -> ~ Sat w s) /\
  oasks 2 liar /\ Forall (fun p => provers (fst p)) (combine oneK [exT]) /\
  map (fun c => forges (okT contra) st0 liar oneK [exT] (liarTape c)) [9; 8] = [true; false] /\
  map (fun c => tcwon (okT contra) st0 (seen_proofs liar (combine oneK [exT]) (ct, mkNizk 0 VNone VNone VNone, [])) (liarTape c)) [9; 8] = [true; false].
Proof.
  destruct C93_ex_user_false as (U & N & A & _). split; [exact U|]. split; [exact N|]. split; [intros z; apply othen_asks; [exact A|intros; exact Logic.I]|].
  split; [repeat constructor|]. split; vm_compute; reflexivity.
Qed.
Example C94_ex_or :
  tusual okO [bigp] st0 /\ (forall q, In q [bigp] -> 2 ^ 129 <= q) /\ (forall t z v s a1, reached (okO t) t st0 z v s a1 -> canonical s (n_resp z)) /\
  oasks 2 (alone advO) /\ spread seven [2 ^ 128; bigp] 1 /\
  forall sz, List.length sz = List.length oneK -> Forall (fun s => forall j, (j < fst s)%nat -> 1 < snd s j) sz ->
   let n := (2 + 2 + 2 * List.length oneK)%nat in
   (101 * Z.of_nat n * 1 + len seven * len oneK * Z.of_nat n) * (len (boxes sz) * len seven ^ Z.of_nat n) <
    len seven * 101 * count (fun p => forges okO st0 (alone advO) oneK (map vec (fst p)) (snd p)) (list_prod (boxes sz) (tapes seven n)).
Proof.
  destruct C93_ex_user_or as (U & B & C & A & _). split; [exact U|]. split; [exact B|]. split; [exact C|].
  split; [change (oasks 2 (othen advO ODone)); apply othen_asks; [exact A|intros; exact Logic.I]|]. split; [apply spread_seven; vm_compute; reflexivity|].
  intros sz L F n. apply alone_count; [exact L|exact F|vm_compute; reflexivity].
Qed.

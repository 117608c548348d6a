(** Disjunctions: properties C11 (the refuted part), C12, C24, C25, C26, C37, C42. *)
From Coq Require Import String Znumtheory.
From Verif Require Import Base World Val Expr Utils Stmt Prove Verify Spec Shapes Claims Honest Clauses Supply Extract Runs
  Complete2 Forge Leak Again OrMore ZqWorld Ex ExTree Prims Proth Sound Sound2 Sound3 Sound4 PropSound.
Open Scope Z_scope.
Open Scope list_scope.

(** C11 is false. Without any secret, whether or not the statement is true: one commitment such that
    every challenge has an accepted response. The statement only needs to have all its
    representations inside disjunctions. The responses contain one sub-challenge more than there
    are branches. *)
Theorem C11_or_forgery_refuted : forall (W : World) s0 pre st v s st1,
  process_pre s0 (get_verifier s0) pre st = Ok ((v, s), st1) -> vready v -> full_validate s = Ok tt -> guarded s ->
  groups_ok s -> exists com, forall e c, exists r, verify_resp e s v com c r = Ok true.
Proof. exact @or_forgery. Qed.
Print Assumptions C11_or_forgery_refuted.
(** Counting the sub-challenges would not be enough: in a group of odd order they can be large numbers. *)
Theorem C11_large_challenges_refuted : forall (W : World) subs b ch q e,
  Forall noext subs -> subs <> [] -> Forall groups_ok subs -> Forall (orders_in (eq q)) subs -> Z.odd q = true ->
  let s := SOr subs b ch in exists com, forall c, exists r, counted s r /\ verify_resp e s (get_verifier s) com c r = Ok true.
Proof. exact @or_crt_forgery. Qed.
Print Assumptions C11_large_challenges_refuted.
(** The non-interactive proofs. *)
Theorem C11_nizk_forgery_refuted : forall (W : World) s0 pre st v s st1 h msg,
  process_pre s0 (get_verifier s0) pre st = Ok ((v, s), st1) -> vready v -> (pre = VNone -> noext s0) ->
  (forall b, pre <> VStr b) -> full_validate s = Ok tt -> guarded s -> groups_ok s -> prehash_input s = Ok h ->
  (exists z, verify s0 z msg st = Ok ((true, s), st1)) \/ Big pre \/ Big (neutral_com s).
Proof. exact @nizk_forgery. Qed.
Print Assumptions C11_nizk_forgery_refuted.

(** x = 1 and x = 2, or the same again *)
Definition exFa := SAnd [SDL (mkDL (Pt 3) [Pt 3] [sx] [] false); SDL (mkDL (Pt 10) [Pt 5] [sx] [] false)] false.
Definition exF := SOr [exFa; exFa] false None.
Definition exFz : res nizk :=
  let? h := prehash_input exF in
  let? c := fs_challenge h [VNone; neutral_com exF] (lit "msg") in
  let zeros := VList [VList [VInt 0]; VList [VInt 0]] in
  Ok (mkNizk c (VTuple [VList [VInt 0; VInt 0; VInt c]; VList [zeros; zeros]]) VNone (VBytes (sha256 h))).
Lemma exFa_false w : ~ Sat w exFa.
Proof.
  intros H. inversion H as [|subs b F| |]; subst. inversion F as [|x1 l1 S1 F1]; subst. inversion F1 as [|x2 l2 S2 F2]; subst.
  inversion S1 as [d1 _ H1| | |]; subst. inversion S2 as [d2 _ H2| | |]; subst. clear - H1 H2.
  apply (f_equal zv) in H1. apply (f_equal zv) in H2.
  assert (P : forall v b, zv (@lincomb Zq G101 [v] [Pt b]) = ((v * (b mod 101)) mod 101 + 0) mod 101) by reflexivity.
  change (3 mod 101 = zv (@lincomb Zq G101 [w 101 (sname sx)] [Pt 3])) in H1.
  change (10 mod 101 = zv (@lincomb Zq G101 [w 101 (sname sx)] [Pt 5])) in H2.
  rewrite P in H1, H2. set (v := w 101 (sname sx)) in *. clearbody v.
  change (3 mod 101) with 3 in *. change (5 mod 101) with 5 in *. change (10 mod 101) with 10 in *.
  Z.div_mod_to_equations. lia.
Qed.
Example C11_false_statement_proved : (forall w, ~ Sat w exF) /\
  match exFz with
  | Ok z => match verify exF z (lit "msg") st0 with Ok ((b, _), _) => b | Err _ => false end
  | Err _ => false end = true.
Proof.
  split; [|vm_compute; reflexivity]. intros w H.
  inversion H as [| |subs b c x w' I S|]; subst. destruct I as [<-|[<-|[]]]; exact (exFa_false _ S).
Qed.
Ltac nobig H := inversion H; subst; clear H;
  try (match goal with K : 2 ^ 32 <= _ |- _ => exfalso; vm_compute in K; apply K; reflexivity end);
  match goal with I : In _ _, B : Big _ |- _ => simpl in I; repeat (destruct I as [<-|I]; [nobig B|]); destruct I end.
Example C11_forgery_ex :
  run (process_pre exF (get_verifier exF) VNone) st0 = Ok (get_verifier exF, exF) /\ vready (get_verifier exF) /\
  full_validate exF = Ok tt /\ guarded exF /\ groups_ok exF /\ noext exF /\ Forall (orders_in (eq 101)) [exFa; exFa] /\
  Z.odd 101 = true /\ ~ Big (neutral_com exF).
Proof.
  split; [reflexivity|]. split; [repeat constructor|]. split; [reflexivity|]. split; [constructor|].
  split; [repeat (constructor || discriminate)|]. split; [repeat constructor|]. split; [repeat constructor|].
  split; [reflexivity|]. intros H.
  change (Big (VList [VList [VPt (inf G101); VPt (inf G101)]; VList [VPt (inf G101); VPt (inf G101)]])) in H. nobig H.
Qed.

(** C12 is false: one function finds the branch proved for real in the response of every or-proof, except
    if its sub-challenge is 0 (one residue modulo 2^128). The sub-challenge of the real branch is
    -((sum of the others - c) mod 2^128), the others are not negative. *)
Theorem C12_branch_hidden_refuted : forall W : World, exists guess : val -> option nat,
  forall subs b ch sd msg st z s' st', prove (SOr subs b ch) sd msg st = Ok ((z, s'), st') ->
  exists subs' i x, s' = SOr subs' false (Some i) /\ nth_error subs i = Some x /\ simulated x = false /\
    (guess (n_resp z) = Some i \/ zero_at (n_resp z) i).
Proof. exact @branch_revealed. Qed.
Print Assumptions C12_branch_hidden_refuted.
(** branches z*3 = 50 (z unknown), v*3 + r*5 = 115 and v*3 + r*5 = 115 *)
Definition exO := SOr [exZ; exVR; exVR] false None.
Example C12_ex : match prove exO exsd (lit "msg") st0 with
  | Ok ((mkNizk _ (VTuple [VList [VInt a; VInt b; VInt c]; _]) _ _, SOr _ _ (Some i)), _) =>
      (0 <=? a) && (b <? 0) && (0 <=? c) && Nat.eqb i 1
  | _ => false end = true.
Proof. vm_compute. reflexivity. Qed.

(** C24: the prover object [q] used for the chosen branch is what get_prover returned for it in
    this call. *)
Theorem C24_real_branch_not_simulated : forall (W : World) subs b ch sd st o s' st',
  get_prover (SOr subs b ch) sd st = Ok ((o, s'), st') ->
  match o with
  | Some p => b = false /\ exists i q sims subs' x x' sta stb, p = POr i q sims /\ s' = SOr subs' b (Some i) /\
      nth_error subs i = Some x /\ simulated x = false /\ get_prover x sd sta = Ok ((Some q, x'), stb)
  | None => b = true \/ forall x, In x subs -> simulated x = false ->
      exists sta x' stb, get_prover x sd sta = Ok ((None, x'), stb)
  end.
Proof. exact @or_choice. Qed.
Print Assumptions C24_real_branch_not_simulated.
(** ... whatever kind of statement was marked with set_simulated() before the composition *)
Theorem C24_marked_not_chosen : forall (W : World) l1 x l2 s sd msg st z s' st',
  mk_or (l1 ++ set_simulated true x :: l2) = Ok s -> prove s sd msg st = Ok ((z, s'), st') ->
  exists subs' i, s' = SOr subs' false (Some i) /\ i <> List.length l1.
Proof. exact @marked_not_chosen. Qed.
Print Assumptions C24_marked_not_chosen.
(** a marked inequality, which could be proven *)
Example C24_ex_marked : match mk_or [set_simulated true (SExt exNeqK false VNone None); exVR] with
  | Ok s => match prove s exsd (lit "msg") st0 with Ok ((_, SOr _ _ (Some i)), _) => Nat.eqb i 1 | _ => false end
  | Err _ => false end = true.
Proof. vm_compute. reflexivity. Qed.
Example C24_ex :
  (* the second branch is marked, the first one lacks a value *)
  match get_prover (SOr [exZ; set_simulated true exVR; exVR] false None) exsd st0 with
  | Ok ((Some (POr i _ _), _), _) => Nat.eqb i 2 | _ => false end = true /\
  match get_prover (SOr [exZ; set_simulated true exVR; exZ] false None) exsd st0 with
  | Ok ((None, _), _) => true | _ => false end = true.
Proof. split; vm_compute; reflexivity. Qed.

(** C25, partial: the branches are representations or disjunctions of such, nested in any way. Then the
    values for one branch are enough (up to messages too large for the binary format). For
    arbitrary branches it is false, see below. *)
Theorem C25_one_branch_enough_partial : forall (W : World) U w subs ch sd ord msg a x, let s := SOr subs false ch in
  honest U w s sd (env a) -> Shape s -> Ords ord s -> alternatives s ->
  In x subs -> simulated x = false -> Supplied sd w (env a) x ->
  (exists z s' a', prove s sd msg a = Ok ((z, s'), a')) \/ oversized s sd a.
Proof. exact @or_enough. Qed.
Print Assumptions C25_one_branch_enough_partial.
Example C25_ex :
  honest exU exw exO exsd (env st0) /\ Shape exO /\ Ords exord exO /\ alternatives exO /\
  In exVR [exZ; exVR; exVR] /\ simulated exVR = false /\ Supplied exsd exw (env st0) exVR.
Proof.
  split.
  { ex_honest.
    - apply SoOr; [|repeat constructor].
      constructor; [|constructor; [|constructor; [|constructor]]]; (apply SoDL; [incl_list|reflexivity|discriminate]).
    - apply TrOr. intros x [<-|[<-|[<-|[]]]] _; [left; exact exZ_refuses|right; exact exVR_true|right; exact exVR_true].
    - apply VaOr. constructor; [|constructor; [|constructor; [|constructor]]]; (constructor; intros k v []). }
  split.
  { apply ShOr; [discriminate|]. constructor; [|constructor; [|constructor; [|constructor]]];
        (apply ShDL; split; [reflexivity|]; split; [discriminate|]; repeat constructor). }
  split; [apply OrOr; constructor; [ex_ords|constructor; [ex_ords|constructor; [ex_ords|constructor]]]|].
  split; [repeat constructor|]. split; [in_list|]. split; [reflexivity|apply exVR_supplied].
Qed.
(** C25 is false: if the random choice first tries a conjunction that lacks a value, a ValueError is raised,
    whatever the other branches [rest] are. *)
Theorem C25_missing_value_refuted : forall (W : World) sd l rest ch msg a,
  Forall is_dl l -> (exists x, In x l /\ Refuses sd x) -> tape a (pos a) = 0 ->
  prove (SOr (SAnd l false :: rest) false ch) sd msg a = Err EValueErr.
Proof. exact @or_missing. Qed.
Print Assumptions C25_missing_value_refuted.
Example C25_refuted_ex :
  let s := SOr [SAnd [exVR; exZ] false; exVR] false None in
  Forall is_dl [exVR; exZ] /\ Refuses exsd exZ /\ Supplied exsd exw (env st0) exVR /\
  match prove s exsd (lit "msg") (mkSt (env st0) (fun _ => 0) 0) with Err EValueErr => true | _ => false end = true /\
  (* with another random choice it succeeds *)
  match prove s exsd (lit "msg") (mkSt (env st0) (fun _ => 1) 0) with Ok _ => true | Err _ => false end = true.
Proof.
  cbv zeta. split; [repeat (constructor; [eexists; reflexivity|]); constructor|]. split; [exact exZ_refuses|].
  split; [apply exVR_supplied|]. split; vm_compute; reflexivity.
Qed.

(** Nor for a branch that is an inequality or range with a missing value, or a signature proof without a
    signature: get_prover() of such statements never refuses (extended.py:95-113), so the choice is
    not revised. *)
Theorem C25_primitive_refuted : forall (W : World) sd k pre con rest ch msg a,
  lacks k sd (env a) -> tape a (pos a) = 0 ->
  forall z, prove (SOr (SExt k false pre con :: rest) false ch) sd msg a <> Ok z.
Proof. exact @or_missing_ext. Qed.
Print Assumptions C25_primitive_refuted.
Example C25_refuted_ex2 :
  (* the value of the secret u of the inequality is missing, the one of the representation is given *)
  let sd := [(sx, 4)] in
  let other := SDL (mkDL (Pt 12) [Pt 3] [sx] [] false) in
  lacks exNeqK sd (env st0) /\
  match prove (SOr [SExt exNeqK false VNone None; other] false None) sd (lit "msg") (mkSt (env st0) (fun _ => 0) 0) with
  | Err ETypeErr => true | _ => false end = true /\
  match prove (SOr [SExt exNeqK false VNone None; other] false None) sd (lit "msg") (mkSt (env st0) (fun _ => 1) 0) with
  | Ok _ => true | Err _ => false end = true.
Proof. cbv zeta. split; [split; [reflexivity|intros y v [[= <- <-]|[]]; discriminate]|]. split; vm_compute; reflexivity. Qed.

(** C26, partial: without disjunctions outside of primitives, prove() succeeds after any number of successful
    calls with the same values (up to messages too large for the binary format). *)
Theorem C26_prove_again_partial : forall (W : World) U w sd ord s a s' a' msg,
  history sd s a s' a' -> honest U w s sd (env a) -> orfree s -> Shape s -> Supplied sd w (env a) s -> Ords ord s ->
  (exists z s2 a2, prove s' sd msg a' = Ok ((z, s2), a2)) \/ oversized s' sd a'.
Proof. exact @again_total. Qed.
Print Assumptions C26_prove_again_partial.
Definition exAgain := SAnd [exDL; SExt exNeqK false VNone None; SExt exRangeK false VNone None] false.
Fixpoint prove_times (n : nat) (s : stmt) (sd : dict Z) (a : st) : nat :=
  match n with
  | O => O
  | S n => match prove s sd (lit "msg") a with Ok ((_, s), a) => S (prove_times n s sd a) | Err _ => O end
  end.
Example C26_ex : orfree exAgain /\ prove_times 3 exAgain exsd st0 = 3%nat.
Proof. split; [repeat constructor|vm_compute; reflexivity]. Qed.
(** C26 is false: on a disjunction of representations, prove() cannot succeed more often than there are
    branches not marked as simulated (every success sets at least one mark for good). *)
Theorem C26_prove_again_refuted : forall (W : World) n s s', proved n s s' ->
  forall subs b ch, s = SOr subs b ch -> Forall is_dl subs -> (n <= live subs)%nat.
Proof. exact @or_calls. Qed.
Print Assumptions C26_prove_again_refuted.
Example C26_refuted_ex : Forall is_dl [exZ; exVR; exVR] /\ live [exZ; exVR; exVR] = 3%nat /\ prove_times 9 exO exsd st0 = 2%nat.
Proof. split; [repeat (constructor; [eexists; reflexivity|]); constructor|]. split; vm_compute; reflexivity. Qed.

(** C37, partial: in conjunctions (with anything but disjunctions) custom primitives work. *)
Theorem C37_in_conjunction_partial : forall (W : World) U w l1 cls rows l2 sd ord msg st,
  let s := SAnd (l1 ++ SExt (KCustom cls rows) false VNone None :: l2) false in
  honest U w s sd (env st) -> Shape s -> Supplied sd w (env st) s -> Ords ord s -> Apart s ->
  (exists z s' st', prove s sd msg st = Ok ((z, s'), st') /\
     (nonneutral s' -> forall f g sv stv, Pat f g s sv -> Forall (vkOK (env stv)) (kinds sv) ->
      exists sv', verify sv z msg stv = Ok ((true, sv'), stv))) \/
  oversized s sd st.
Proof. intros W U w l1 cls rows l2 sd ord msg st s. exact (nizk_complete U w s sd ord msg st). Qed.
Print Assumptions C37_in_conjunction_partial.
(** C37 is false: custom primitives cannot be simulated, neither alone nor inside of other statements *)
Theorem C37_simulate_refuted : forall (W : World) s c a y,
  (exists cls rows, In (KCustom cls rows) (kinds s)) -> simulate s c a <> Ok y.
Proof. exact @custom_no_simulation. Qed.
Print Assumptions C37_simulate_refuted.
(** and if a proof of a disjunction of one custom primitive and representations is produced at all, no
    verifier's statement with an unused primitive at some place can verify it: the empty
    precommitment is replaced by None (composition.py:603), so the verifier does not construct the
    primitive's statement. *)
Theorem C37_in_disjunction_refuted : forall (W : World) l1 cls rows b0 pre0 con0 l2 b ch sd msg a z s' a',
  Forall is_dl l1 -> Forall is_dl l2 ->
  prove (SOr (l1 ++ SExt (KCustom cls rows) b0 pre0 con0 :: l2) b ch) sd msg a = Ok ((z, s'), a') ->
  forall m1 k' b' q' m2 b1 ch1 msg' av y, verify (SOr (m1 ++ SExt k' b' q' None :: m2) b1 ch1) z msg' av <> Ok y.
Proof. exact @custom_or. Qed.
Print Assumptions C37_in_disjunction_refuted.
Definition exC := SExt (KCustom (lit "Mine") [(Pt 12, [(sx, Pt 3)]); (Pt (4*3 - 6*5), [(sx, Pt 3); (sy, Pt 5)])]) false VNone None.
Definition exCV := SExt (KCustom (lit "Mine") [(Pt 12, [(T 20 "x", Pt 3)]);
  (Pt (4*3 - 6*5), [(T 20 "x", Pt 3); (T 21 "y", Pt 5)])]) false VNone None.
Example C37_ex :
  match prove (SAnd [exDL; exC] false) exsd (lit "msg") st0 with
  | Ok ((z, _), _) => match verify (SAnd [exDLV; exCV] false) z (lit "msg") st0 with Ok ((b, _), _) => b | Err _ => false end
  | Err _ => false end = true /\
  match prove (SOr [exZ; exC] false None) exsd (lit "msg") st0 with
  | Ok ((z, _), _) =>
      match verify (SOr [SDL (mkDL (Pt 50) [Pt 3] [T 22 "z"] [] false); exCV] false None) z (lit "msg") st0 with
      | Err EAttributeErr => true | _ => false end
  | Err _ => false end = true.
Proof. split; vm_compute; reflexivity. Qed.

(** C42 is false. First part: after a second call of get_prover with other values ([sd2]) the first
    prover [p1] computes with them. If they do not satisfy the statement, its proofs are rejected. *)
Theorem C42_own_values_refuted : forall (W : World) d sd1 sd2 w2 a p1 d1 a1 p2 d2 a2 com p a3 a4 c r a5 d',
  get_prover (SDL d) sd1 a = Ok ((Some p1, SDL d1), a1) -> get_prover (SDL d1) sd2 a1 = Ok ((Some p2, SDL d2), a2) ->
  (forall k v, In (k, v) sd2 -> v = w2 (sname k)) -> (forall x, In x (dl_secs d) -> exists v, In (x, v) sd2) ->
  internal_commit (SDL d2) p1 None a2 = Ok ((com, p), a3) -> compute_response (SDL d2) p c a4 = Ok (r, a5) -> env a4 = env a3 ->
  dl_shape d -> prime (order (grp (dl_lhs d))) -> ~ (order (grp (dl_lhs d)) | c) -> ~ dl_holds w2 d ->
  dl_lhs d' = dl_lhs d -> dl_bases d' = dl_bases d -> forall e v, verify_resp e (SDL d') v com c r <> Ok true.
Proof. exact @second_dictionary. Qed.
Print Assumptions C42_own_values_refuted.
Definition exTwo := mkDL (Pt 12) [Pt 3] [sx] [] false.
Example C42_ex : (* 4*3 = 12; the second dictionary says 5 *)
  match get_prover (SDL exTwo) [(sx, 4)] st0 with
  | Ok ((Some p1, SDL d1), a1) =>
    match get_prover (SDL d1) [(sx, 5)] a1 with
    | Ok ((Some _, SDL d2), a2) =>
      match internal_commit (SDL d2) p1 None a2 with
      | Ok ((com, p), a3) =>
        match compute_response (SDL d2) p 7 a3 with
        | Ok (r, _) => match verify_resp (env st0) (SDL exTwo) RDL com 7 r with Ok b => negb b | Err _ => false end
        | _ => false end
      | _ => false end
    | _ => false end
  | _ => false end = true /\
  dl_shape exTwo /\ prime (order (grp (dl_lhs exTwo))) /\ ~ (order (grp (dl_lhs exTwo)) | 7) /\ ~ dl_holds (fun _ => 5) exTwo.
Proof.
  split; [vm_compute; reflexivity|]. split; [split; [reflexivity|split; [discriminate|repeat constructor]]|].
  split; [exact prime101|]. split; [apply (nd_small 101 7); vm_compute; split; reflexivity|].
  intros H. apply (f_equal zv) in H. vm_compute in H. discriminate.
Qed.
(** Second part: one function finds the real branch by comparing the responses of two proofs made with one
    or-prover (all sub-challenges but that one are equal), except if the two challenges are equal
    modulo 2^128. *)
Theorem C42_reuse_refuted : forall W : World, exists guess : val -> val -> option nat,
  forall subs b ch sd msg1 msg2 a p s a1 z1 p1 s1 a2 a3 z2 p2 s2 a4,
  get_prover (SOr subs b ch) sd a = Ok ((Some p, s), a1) ->
  get_nizk_proof s p msg1 a1 = Ok ((z1, p1, s1), a2) -> get_nizk_proof s1 p1 msg2 a3 = Ok ((z2, p2, s2), a4) ->
  exists i x subs', s = SOr subs' false (Some i) /\ nth_error subs i = Some x /\ simulated x = false /\
    (guess (n_resp z1) (n_resp z2) = Some i \/ (2 ^ challenge_length | n_chal z1 - n_chal z2)).
Proof. exact @reuse_reveals. Qed.
Print Assumptions C42_reuse_refuted.
Example C42_reuse_ex :
  match get_prover exO exsd st0 with
  | Ok ((Some p, s), a1) =>
    match get_nizk_proof s p (lit "one") a1 with
    | Ok ((z1, p1, s1), a2) =>
      match get_nizk_proof s1 p1 (lit "two") a2 with
      | Ok ((z2, _, _), _) =>
        match n_resp z1, n_resp z2 with
        | VTuple [VList [VInt a; VInt b; VInt c]; _], VTuple [VList [VInt a'; VInt b'; VInt c']; _] =>
            (a =? a') && negb (b =? b') && (c =? c') && match p with POr i _ _ => Nat.eqb i 1 | _ => false end
        | _, _ => false end
      | _ => false end
    | _ => false end
  | _ => false end = true.
Proof. vm_compute. reflexivity. Qed.

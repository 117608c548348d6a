(** Composition and shared secrets: properties C21, C22, C23, C43, C48. *)
From Coq Require Import String Znumtheory.
From Verif Require Import Base World Val Expr Utils Stmt Prove Verify Spec Shapes Claims Honest Clauses Supply Extract Runs
  Checks Checks2 ZqWorld Ex ExTree Sound Sound2 Sound3 Sound4 PropSound.
Open Scope Z_scope.
Open Scope list_scope.

(** C21, the prover: InvalidSecretsError is raised only if a conjunction that is really proved commits the
    offence; if a proof is returned, none does. *)
Theorem C21_only_if_offence : forall (W : World) s sd msg a, wfs s ->
  (prove s sd msg a = Err EInvalidSecrets -> exists e s', part s sd a e s' /\ bad_secrets e s') /\
  (forall r a', prove s sd msg a = Ok (r, a') -> forall e s', part s sd a e s' -> ~ bad_secrets e s').
Proof. exact @secrets_checked. Qed.
Print Assumptions C21_only_if_offence.
(** For a statement without primitives whose prover exists, in terms of the statement itself and of the values
    after [sd] has been supplied. (The check of the group orders comes first.) *)
Theorem C21_offence_refused : forall (W : World) s sd msg a p s1 a1, noext s -> wfs s ->
  get_prover s sd a = Ok ((Some p, s1), a1) -> bad_secrets (after_giving sd (env a)) s ->
  ~ bad_orders (after_giving sd (env a)) s -> prove s sd msg a = Err EInvalidSecrets.
Proof. intros W s sd msg a p s1 a1 N V G. exact (proj2 (prove_root s sd msg a p s1 a1 N V G)). Qed.
Print Assumptions C21_offence_refused.

(** x*3 = 3 and (x*5 = 10 or x*5 = 5) *)
Definition exIo := SAnd [SDL (mkDL (Pt 3) [Pt 3] [sx] [] false);
  SOr [SDL (mkDL (Pt 10) [Pt 5] [sx] [] false); SDL (mkDL (Pt 5) [Pt 5] [sx] [] false)] false None] false.
Lemma exIo_bad e : bad_secrets e exIo.
Proof.
  exists [sx], (SOr [SDL (mkDL (Pt 10) [Pt 5] [sx] [] false); SDL (mkDL (Pt 5) [Pt 5] [sx] [] false)] false None), [], sx, sx.
  split; [|split; [now left|split; [now left|split; reflexivity]]].
  apply (ClAnd svars [SDL (mkDL (Pt 3) [Pt 3] [sx] [] false)] _ [] false [] _ []). constructor.
Qed.
Example C21_ex : noext exIo /\ wfs exIo /\ bad_secrets (after_giving [(sx, 1)] (env st0)) exIo /\
  ~ bad_orders (after_giving [(sx, 1)] (env st0)) exIo /\
  match get_prover exIo [(sx, 1)] st0 with Ok ((Some _, _), _) => true | _ => false end = true /\
  match prove exIo [(sx, 1)] (lit "msg") st0 with Err EInvalidSecrets => true | _ => false end = true.
Proof.
  split; [repeat constructor|]. split; [repeat constructor|]. split; [apply exIo_bad|].
  split; [|split; vm_compute; reflexivity]. intros (bs & B & x & b & y & c & Hx & Hy & _ & N). injection B as <-.
  simpl in Hx, Hy. destruct Hx as [Hx|[Hx|[Hx|[]]]], Hy as [Hy|[Hy|[Hy|[]]]]; injection Hx as _ <-; injection Hy as _ <-; apply N; reflexivity.
Qed.

(** C21 is false for the verifier: it joins the checks of a representation and of an or-clause and never
    compares them; so it accepts secrets inside and outside, with different values. *)
Theorem C21_verifier_refuted : forall (W : World) e d subs b ch vs f com1 com2 c r1 r2,
  verify_resp e (SDL d) RDL com1 c r1 = Ok true -> verify_resp e (SOr subs b ch) (ROr vs) com2 c r2 = Ok true ->
  verify_resp e (SAnd [SDL d; SOr subs b ch] f) (RAnd [RDL; ROr vs]) (VList [com1; com2]) c (VList [r1; r2]) = Ok true.
Proof. exact @verify_join. Qed.
Print Assumptions C21_verifier_refuted.

(** x*3 = 3 and (x*5 = 10 or x*5 = 10): accepted with x = 1 outside and x = 2 inside; no value is right. The
    sub-challenges are those of an honest prover (c1 + c2 = c, one per branch). *)
Definition exIoD := mkDL (Pt 3) [Pt 3] [sx] [] false.
Definition exIoB := mkDL (Pt 10) [Pt 5] [sx] [] false.
Definition exIo2 := SAnd [SDL exIoD; SOr [SDL exIoB; SDL exIoB] false None] false.
Definition exIoz : res nizk :=
  let? h := prehash_input exIo2 in
  let com := VList [VPt (Pt (10 * 3)); VList [VPt (Pt (20 * 5)); VPt (Pt (30 * 5))]] in
  let? c := fs_challenge h [VNone; com] (lit "msg") in
  Ok (mkNizk c (VList [VList [VInt (1 * c + 10)];
                       VTuple [VList [VInt 9; VInt (c - 9)]; VList [VList [VInt (2 * 9 + 20)]; VList [VInt (2 * (c - 9) + 30)]]]])
            VNone (VBytes (sha256 h))).
Lemma exIo_one v : exIoD.(dl_lhs) = @lincomb Zq G101 [v] [Pt 3] -> (101 | v - 1).
Proof.
  intros H. apply (f_equal zv) in H. change (3 mod 101 = ((v * (3 mod 101)) mod 101 + 0) mod 101) in H.
  change (3 mod 101) with 3 in H. Z.div_mod_to_equations. exists ((v - 1) / 101). Z.div_mod_to_equations. lia.
Qed.
Lemma exIo_two v : exIoB.(dl_lhs) = @lincomb Zq G101 [v] [Pt 5] -> (101 | v - 2).
Proof.
  intros H. apply (f_equal zv) in H. change (10 mod 101 = ((v * (5 mod 101)) mod 101 + 0) mod 101) in H.
  change (10 mod 101) with 10 in H. change (5 mod 101) with 5 in H. Z.div_mod_to_equations. exists ((v - 2) / 101). Z.div_mod_to_equations. lia.
Qed.
Example C21_verifier_ex :
  (forall w : bytes -> Z, ~ (dl_holds w exIoD /\ dl_holds w exIoB)) /\
  match exIoz with
  | Ok z => match verify exIo2 z (lit "msg") st0 with Ok ((b, _), _) => b | Err _ => false end
  | Err _ => false end = true.
Proof.
  split; [|vm_compute; reflexivity]. intros w [H1 H2]. apply (exIo_one (w (lit "x"))) in H1. apply (exIo_two (w (lit "x"))) in H2.
  assert (D := Z.divide_sub_r _ _ _ H1 H2). replace (w (lit "x") - 1 - (w (lit "x") - 2)) with 1 in D by ring.
  apply Z.divide_1_r in D. lia.
Qed.

(** C22 *)
Theorem C22_only_if_offence : forall (W : World) s sd msg a, wfs s ->
  (prove s sd msg a = Err EGroupMismatch -> exists e s', part s sd a e s' /\ bad_orders e s') /\
  (forall r a', prove s sd msg a = Ok (r, a') -> forall e s', part s sd a e s' -> ~ bad_orders e s').
Proof. exact @orders_checked. Qed.
Print Assumptions C22_only_if_offence.
Theorem C22_offence_refused : forall (W : World) s sd msg a p s1 a1, noext s -> wfs s ->
  get_prover s sd a = Ok ((Some p, s1), a1) -> bad_orders (after_giving sd (env a)) s -> prove s sd msg a = Err EGroupMismatch.
Proof. intros W s sd msg a p s1 a1 N V G. exact (proj1 (prove_root s sd msg a p s1 a1 N V G)). Qed.
Print Assumptions C22_offence_refused.
(** The verifier (statements without disjunctions): one integer per secret, for all groups together. *)
Theorem C22_one_integer : forall (W : World) s0 pre st v s st1 e com c c' r r',
  process_pre s0 (get_verifier s0) pre st = Ok ((v, s), st1) -> wfs s0 -> coh e (svars s) -> noor s ->
  orders_in (fun q => prime q /\ ~ (q | c - c')) s ->
  verify_resp e s v com c r = Ok true -> verify_resp e s v com c' r' = Ok true ->
  exists w : bytes -> Z, Extr (fun _ => w) s c c' r r' /\ Sat (fun _ => w) s.
Proof. exact @one_integer. Qed.
Print Assumptions C22_one_integer.

(** x*3 = 12 in the group of order 101, x*2 = 8 in the group of order 103 *)
Definition G103 : zgid := (0%N, 101%N).
Definition exOc := SAnd [SDL (mkDL (Pt 12) [Pt 3] [sx] [] false);
  SDL (mkDL (zmk G103 8 : @pt Zq) [zmk G103 2 : @pt Zq] [sx] [] false)] false.
Lemma prime103 : prime 103.
Proof. apply prime_check; [lia|vm_compute; reflexivity]. Qed.
Example C22_ex : noext exOc /\ wfs exOc /\ bad_orders (after_giving [(sx, 4)] (env st0)) exOc /\
  match get_prover exOc [(sx, 4)] st0 with Ok ((Some _, _), _) => true | _ => false end = true /\
  match prove exOc [(sx, 4)] (lit "msg") st0 with Err EGroupMismatch => true | _ => false end = true /\
  (* the verifier, nevertheless, accepts responses 4*c + 10 *)
  coh (env st0) (svars exOc) /\ noor exOc /\ orders_in (fun q => prime q /\ ~ (q | 2 - 5)) exOc /\
  verify_resp (env st0) exOc (get_verifier exOc) (VList [VPt (Pt 30); VPt (zmk G103 20 : @pt Zq)]) 2 (VList [VList [VInt 18]; VList [VInt 18]]) = Ok true /\
  verify_resp (env st0) exOc (get_verifier exOc) (VList [VPt (Pt 30); VPt (zmk G103 20 : @pt Zq)]) 5 (VList [VList [VInt 30]; VList [VInt 30]]) = Ok true.
Proof.
  split; [repeat constructor|]. split; [repeat constructor|]. split.
  { exists [Pt 3; zmk G103 2 : @pt Zq]. split; [reflexivity|]. exists sx, (Pt 3), sx, (zmk G103 2 : @pt Zq).
    split; [now left|]. split; [now right; left|]. split; [split; reflexivity|]. vm_compute. discriminate. }
  split; [vm_compute; reflexivity|]. split; [vm_compute; reflexivity|]. split; [apply any_coh|]. split; [repeat constructor|].
  split; [|split; vm_compute; reflexivity].
  constructor. constructor; [|constructor; [|constructor]]; constructor; (split; [exact prime101 || exact prime103|]);
    apply nd_small; vm_compute; split; reflexivity.
Qed.

(** C23 *)
Theorem C23_and_associative : forall (W : World) a b c, sized a -> sized b -> sized c ->
  let s := SAnd (ands a ++ ands b ++ ands c) false in
  (let? x := and_op a b in and_op x c) = Ok s /\ (let? x := and_op b c in and_op a x) = Ok s /\
  (flat_and a -> flat_and b -> flat_and c -> flat_and s).
Proof. exact @and_assoc. Qed.
Print Assumptions C23_and_associative.
Theorem C23_or_associative : forall (W : World) a b c, sized a -> sized b -> sized c ->
  let s := SOr (ors a ++ ors b ++ ors c) false None in
  (let? x := or_op a b in or_op x c) = Ok s /\ (let? x := or_op b c in or_op a x) = Ok s /\
  (flat_or a -> flat_or b -> flat_or c -> flat_or s).
Proof. exact @or_assoc. Qed.
Print Assumptions C23_or_associative.
Example C23_ex : sized exIo /\ flat_and exIo /\ ands exIo <> [exIo] /\ sized exZ /\ flat_and exZ /\
  (let? x := and_op exIo exZ in and_op x exVR) = Ok (SAnd (ands exIo ++ [exZ; exVR]) false).
Proof.
  split; [simpl; lia|]. split; [intros x [<-|[<-|[]]] (l & b & H); discriminate H|]. split; [discriminate|].
  split; [exact I|]. split; [intros x [<-|[]] (l & b & H); discriminate H|reflexivity].
Qed.

(** C43, partial: occurrences in the same part (not one inside and one outside of an or-clause) and Secret
    objects of the same name that also have the same value (or none). *)
Theorem C43_same_name_partial : forall (W : World) s0 z msg st b s st', verify s0 z msg st = Ok ((b, s), st') ->
  coh (env st') (svars s) -> forall s' r' x y u v, scope s (n_resp z) s' r' -> Occ s' r' x u -> Occ s' r' y v ->
  sname x = sname y -> u = v.
Proof. exact @same_name. Qed.
Print Assumptions C43_same_name_partial.
(** C43 is false. The identifier numbers secrets by name; the check of the responses also compares their
    values in the verifier's process. Representations over Secret objects of the same name but
    different values are accepted or not independently of each other (for or-clauses: C21). *)
Theorem C43_same_name_refuted : forall (W : World) e d d' f com1 com2 c r1 r2,
  (forall x y, In x (dl_secs d) -> In y (dl_secs d') -> ~ same_secret e x y) ->
  verify_resp e (SDL d) RDL com1 c r1 = Ok true -> verify_resp e (SDL d') RDL com2 c r2 = Ok true ->
  verify_resp e (SAnd [SDL d; SDL d'] f) (RAnd [RDL; RDL]) (VList [com1; com2]) c (VList [r1; r2]) = Ok true.
Proof. exact @verify_join_names. Qed.
Print Assumptions C43_same_name_refuted.
(** x*3 = 3 and x*5 = 10 with two objects named x that have the values 1 and 2: proved and accepted, and the
    two occurrences have the number 0 in the identifier. *)
Definition exN := SAnd [SDL (mkDL (Pt 3) [Pt 3] [X 0 "x"] [] false); SDL (mkDL (Pt 10) [Pt 5] [X 1 "x"] [] false)] false.
Definition exNsd : dict Z := [(X 0 "x", 1); (X 1 "x", 2)].
Example C43_ex :
  (forall x y, In x [X 0 "x"] -> In y [X 1 "x"] -> ~ same_secret (env (with_vals [(0%nat, 1); (1%nat, 2)])) x y) /\
  match get_proof_id exN None with
  | Ok (VTuple [_; VList [VList [_; _; VList [VInt 0]; _]; VList [_; _; VList [VInt 0]; _]]]) => true
  | _ => false end = true /\
  match prove exN exNsd (lit "msg") (with_vals [(0%nat, 1); (1%nat, 2)]) with
  | Ok ((z, s), a) => match verify s z (lit "msg") a with Ok ((b, _), _) => b | Err _ => false end
  | Err _ => false end = true /\
  (* with one Secret object, the same proof is rejected *)
  match prove exN exNsd (lit "msg") (with_vals [(0%nat, 1); (1%nat, 2)]) with
  | Ok ((z, _), a) =>
      match verify (SAnd [SDL (mkDL (Pt 3) [Pt 3] [X 5 "x"] [] false); SDL (mkDL (Pt 10) [Pt 5] [X 5 "x"] [] false)] false) z (lit "msg") a with
      | Err EValidation => true | _ => false end
  | Err _ => false end = true.
Proof.
  split; [intros x y [<-|[]] [<-|[]] [_ H]; vm_compute in H; discriminate H|].
  split; [vm_compute; reflexivity|]. split; vm_compute; reflexivity.
Qed.

(** C48 is false for |: a disjunction that is an operand of | is dissolved, and with it its mark. (A conjunction
    keeps it.) *)
Theorem C48_mark_kept_partial : forall (W : World) l f c r, ~ is_or c -> or_op (set_simulated true (SAnd l f)) c = Ok r ->
  exists rest, r = SOr (SAnd l true :: rest) false None.
Proof. exact @or_mark_kept. Qed.
Print Assumptions C48_mark_kept_partial.
Theorem C48_mark_kept_refuted : forall (W : World) l f ch c, or_op (set_simulated true (SOr l f ch)) c = or_op (SOr l false ch) c.
Proof. exact @or_mark_lost. Qed.
Print Assumptions C48_mark_kept_refuted.
Example C48_ex : (* the branches of a disjunction marked as simulated can be chosen *)
  match or_op (set_simulated true (SOr [exVR; exVR] false None)) exZ with
  | Ok s => match get_prover s exsd st0 with Ok ((Some (POr i _ _), _), _) => Nat.leb i 1 | _ => false end
  | Err _ => false end = true.
Proof. vm_compute. reflexivity. Qed.

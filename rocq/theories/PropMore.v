(** Properties C50 (groups without subtraction) and C51 (statement objects that have been used before). *)
From Coq Require Import String.
From Verif Require Import Base World Val Expr Utils Stmt Prove Verify Spec Shapes Claims Honest Clauses Supply Extract Runs Ident
  ZqWorld Ex ExTree Gt History.
Open Scope Z_scope.
Open Scope list_scope.

(** ** C50: inequalities and ranges can be proven in all groups *)

(** In a group without subtraction prove() of an inequality raises a TypeError, whatever the points and values. *)
Theorem C50_inequality_refuted : forall (W : World) H0 g H1 h x al be bnd sim sd msg st,
  has_sub (grp h) = false -> prove (mk_neq H0 g H1 h x al be bnd sim) sd msg st = Err ETypeErr.
Proof. exact @neq_gt. Qed.
Print Assumptions C50_inequality_refuted.

(** A power-of-two range can neither be proven nor verified there. *)
Theorem C50_power_two_refuted : forall (W : World) com g h n isp x r rs b pre con sd msg z st v v',
  has_sub (grp g) = false ->
  prove (SExt (KRange com g h n isp x r rs) b pre con) sd msg st <> Ok v /\
  verify (SExt (KRange com g h n isp x r rs) b pre con) z msg st <> Ok v'.
Proof. intros. split; [now apply range2_prove_gt|now apply range2_verify_gt]. Qed.
Print Assumptions C50_power_two_refuted.

(** RangeStmt cannot even be constructed. *)
Theorem C50_range_refuted : forall (W : World) com g h a b x r x1 x2 rs1 rs2 st,
  has_sub (grp com) = false -> mk_range com g h a b x r x1 x2 rs1 rs2 st = Err ETypeErr.
Proof. exact @range_gt. Qed.
Print Assumptions C50_range_refuted.

(** The same values in the group of tag 1 (order 101) are proven and accepted, in the group of tag 3 (GT) they are not. *)
Definition GtPt (t : N) (v : Z) : @pt Zq := zmk (t, 99%N) v.
Definition exGtNeq (t : N) : stmt := mk_neq (GtPt t 8) (GtPt t 2) (GtPt t 9) (GtPt t 3) (X 1 "x") (X 2 "alpha") (X 3 "beta") false false.
Example C50_ex :
  @has_sub Zq (3%N, 99%N) = false /\
  (match run (prove (exGtNeq 1) [(X 1 "x", 4)] []) st0 with Ok (z, _) => match run (verify (exGtNeq 1) z []) st0 with Ok (b, _) => b | _ => false end | _ => false end) = true /\
  (match run (prove (exGtNeq 3) [(X 1 "x", 4)] []) st0 with Err ETypeErr => true | _ => false end) = true.
Proof. split; [reflexivity|]. split; vm_compute; reflexivity. Qed.

(** ** C51: the verdict does not depend on earlier uses of the statement object *)

(** An object that has been used, and one that is new, give the same verdicts. *)
Theorem C51_used_object : forall (W : World) s s' z msg st b, life s s' ->
  ((exists s1 st1, verify s z msg st = Ok ((b, s1), st1)) <-> (exists s1 st1, verify s' z msg st = Ok ((b, s1), st1))).
Proof. exact @life_verdict. Qed.
Print Assumptions C51_used_object.

(** Also if the Secret objects have got other values in the meantime. *)
Theorem C51_other_values : forall (W : World) s s' z msg st st' b, life s s' ->
  coh (env st) (secrets s) -> coh (env st') (secrets s) -> Forall (vkOK (env st)) (kinds s) -> Forall (vkOK (env st')) (kinds s) ->
  ((exists s1 st1, verify s z msg st = Ok ((b, s1), st1)) <-> (exists s1 st1, verify s' z msg st' = Ok ((b, s1), st1))).
Proof. exact @life_values. Qed.
Print Assumptions C51_other_values.

(** The object exV has processed a precommitment and verified a proof, then it got the flag of a simulation: a later
    proof is accepted as by a new object. *)
Definition lifeb {W : World} (s v : stmt) (sd : dict Z) (m : bytes) (a : st) (go : nizk -> stmt -> bool) : bool :=
  match prove s sd [] a with
  | Ok ((z, s1), a1) =>
    match verify v z [] a1 with
    | Ok ((true, v1), a2) =>
      match prove s1 sd m a2 with
      | Ok ((z2, _), _) => go z2 (set_simulated true v1)
      | _ => false
      end
    | _ => false
    end
  | _ => false
  end.
Lemma lifeb_ok {W : World} s v sd m a go : lifeb s v sd m a go = true -> exists z2 v2, life v v2 /\ go z2 v2 = true.
Proof.
  unfold lifeb. destruct (prove s sd [] a) as [[[z s1] a1]|] eqn:E1; [|discriminate].
  destruct (verify v z [] a1) as [[[[] v1] a2]|] eqn:E2; try discriminate.
  destruct (prove s1 sd m a2) as [[[z2 s2] a3]|] eqn:E3; [|discriminate]. intros H.
  exists z2, (set_simulated true v1). split; auto. eapply LiVerify; [exact E2|]. apply (LiFlag _ true), LiStart.
Qed.
Example C51_ex : exists z2 v2, life exV v2 /\
  (match run (verify exV z2 (lit "m")) st0 with Ok (true, _) => true | _ => false end) = true /\
  (match run (verify v2 z2 (lit "m")) st0 with Ok (true, _) => true | _ => false end) = true /\
  (match run (verify v2 z2 (lit "other")) st0 with Ok (false, _) => true | _ => false end) = true.
Proof.
  destruct (lifeb_ok exS exV exsd (lit "m") st0 (fun z2 v2 =>
    match run (verify exV z2 (lit "m")) st0 with Ok (true, _) => true | _ => false end &&
    (match run (verify v2 z2 (lit "m")) st0 with Ok (true, _) => true | _ => false end &&
    match run (verify v2 z2 (lit "other")) st0 with Ok (false, _) => true | _ => false end))) as (z & v & L & H).
  - vm_compute. reflexivity.
  - apply andb_prop in H as [H1 H]. apply andb_prop in H as [H2 H3]. exists z, v. exact (conj L (conj H1 (conj H2 H3))).
Qed.

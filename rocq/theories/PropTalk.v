(** Property C59: the interactive protocol, and checked simulations, are about one statement. *)
From Coq Require Import String.
From Verif Require Import Base World Val Expr Utils Stmt Prove Verify Spec Shapes Claims Honest Clauses Supply Ident
  ZqWorld ZqFacts Ex ExTree Talk.
Open Scope Z_scope.
Open Scope list_scope.

(** A verifier who sends a challenge has compared the received statement hash with the one of their own statement, in
    the state in which it is after the precommitment ... *)
Theorem C59_hash_compared : forall (W : World) s v h com st c st', send_challenge s v h com st = Ok (c, st') ->
  exists b, prehash_input s = Ok b /\ h = VBytes (sha256 b).
Proof. exact @send_checked. Qed.
Print Assumptions C59_hash_compared.

(** ... and raises StatementMismatch if it is another one, whatever the commitment is. *)
Theorem C59_mismatch : forall (W : World) s v h com st b, prehash_input s = Ok b -> h <> VBytes (sha256 b) ->
  send_challenge s v h com st = Err EStatementMismatch.
Proof. exact @send_mismatch. Qed.
Print Assumptions C59_mismatch.

(** So if a run of the whole protocol has a verdict, accepting or not, then the statements of both parties have one
    digest: they are alike, or the hash function collides on their identifiers. *)
Theorem C59_one_statement : forall (W : World) sp p sv st b st', repr_ok -> run_interactive sp p sv st = Ok (b, st') ->
  exists pre p1 sp1 st1 v sv1 st2 h h',
    precommit sp p st = Ok ((pre, p1, sp1), st1) /\ process_pre sv (get_verifier sv) pre st1 = Ok ((v, sv1), st2) /\
    prehash_input sp1 = Ok h /\ prehash_input sv1 = Ok h' /\ sha256 h = sha256 h' /\ (h = h' -> exists f g, alike f g sp1 sv1).
Proof. exact @talk_bound. Qed.
Print Assumptions C59_one_statement.

(** The same for verify_simulation_consistency. *)
Theorem C59_simulation : forall (W : World) s t h st b st', verify_simulation s t h st = Ok (b, st') ->
  exists v s1 st1 i, process_pre s (get_verifier s) (t_pre t) st = Ok ((v, s1), st1) /\ prehash_input s1 = Ok i /\ h = VBytes (sha256 i).
Proof. exact @simulation_checked. Qed.
Print Assumptions C59_simulation.

(** A tree with an inequality and a range; the verifier has the same statement with other names, or one in which the
    point 50 of the first branch of the disjunction is 51. *)
Definition exOther : stmt := SAnd
  [exDLV;
   SOr [SDL (mkDL (Pt 51) [Pt 3] [T 22 "z"] [] false);
        SExt (KNeq (Pt 21) (Pt 3) (Pt 36) (Pt 5) (T 23 "u") (T 30 "alpha") (T 31 "beta") true) false VNone None] false None;
   SExt (KRange (Pt (5*3 + 20*5)) (Pt 3) (Pt 5) 3 false (T 24 "v") (T 25 "r") [T 32 "r0"; T 33 "r1"; T 34 "r2"]) false VNone None] false.
Definition talk (sv : stmt) : res bool :=
  match get_prover exS exsd st0 with
  | Ok ((Some p, s), a) => match run_interactive s p sv a with Ok (b, _) => Ok b | Err e => Err e end
  | Ok _ => Err EAttributeErr
  | Err e => Err e
  end.
Example C59_ex : @repr_ok Zq /\ talk exV = Ok true /\ talk exOther = Err EStatementMismatch.
Proof. split; [exact zq_repr_ok|]. split; vm_compute; reflexivity. Qed.

(** Completeness: properties C06, C07, C08, C13, C25. Two parties: the verifier's statement [sv] was
    built independently of the prover's [s]; they agree up to a renaming of secrets ([Pat], where
    [f] and [g] translate names in both directions).

    Hypotheses (see Honest.v, Supply.v): [honest]: the prover's values satisfy everything it may have
    to prove for real; [Shape]: bases are in the right groups; [Supplied]: values are there;
    [Ords], [Apart]: one group order per secret, no secret both inside and outside of an or-clause.
    [nonneutral]: no inequality proof of the run has drawn the blinder zero. [Big]: some part of the
    messages has at least 2^32 bytes, which the binary format cannot represent. *)
From Coq Require Import String.
From Verif Require Import Base World Val Expr Utils Stmt Prove Verify Spec Shapes Claims Honest Clauses Supply
  Complete Complete2 SimIndep ZqWorld Ex ExTree.
Open Scope Z_scope.
Open Scope list_scope.

(** C06: one representation; any number of terms, secrets may repeat. *)
Theorem C06_dlrep_complete : forall (W : World) U w d sd st f g d',
  honest U w (SDL d) sd (env st) -> dl_shape d ->
  (forall x, In x (dl_secs d) -> known (dl_vals d) x \/ known sd x) ->
  Pat f g (SDL d) (SDL d') ->
  exists p d1 st1 com p1 st2,
    get_prover (SDL d) sd st = Ok ((Some p, SDL d1), st1) /\
    internal_commit (SDL d1) p None st1 = Ok ((com, p1), st2) /\
    forall c e st3, exists r, compute_response (SDL d1) p1 c st3 = Ok (r, st3) /\
      verify_resp e (SDL d') (get_verifier (SDL d')) com c r = Ok true.
Proof. exact @dlrep_complete. Qed.
Print Assumptions C06_dlrep_complete.

(** C07: trees of & and | over representations. The whole run of the protocol is accepted, the
    verifier's challenge coming from the random source; and every challenge is answered. *)
Theorem C07_interactive_complete : forall (W : World) U w s sd ord st f g sv i,
  noext s -> honest U w s sd (env st) -> Shape s -> Supplied sd w (env st) s -> Ords ord s -> Apart s ->
  Pat f g s sv -> get_proof_id s None = Ok i -> ~ Big (VStr (pystr i)) ->
  exists p s1 st1 st2, get_prover s sd st = Ok ((Some p, s1), st1) /\
    run_interactive s1 p sv st1 = Ok (true, st2).
Proof. exact @tree_complete. Qed.
Print Assumptions C07_interactive_complete.

Theorem C07_every_challenge : forall (W : World) U w s sd ord st f g sv,
  honest U w s sd (env st) -> Shape s -> Supplied sd w (env st) s -> Ords ord s -> Apart s ->
  Pat f g s sv ->
  exists p s1 st1 pre p2 s2 st2 com p3 st3,
    get_prover s sd st = Ok ((Some p, s1), st1) /\ precommit s1 p st1 = Ok ((pre, p2, s2), st2) /\
    internal_commit s2 p2 None st2 = Ok ((com, p3), st3) /\
    (nonneutral s2 -> forall stv, Forall (vkOK (env stv)) (kinds sv) ->
       exists v sv', process_pre sv (get_verifier sv) pre stv = Ok ((v, sv'), stv) /\
       forall c e st4, exists r, compute_response s2 p3 c st4 = Ok (r, st4) /\ verify_resp e sv' v com c r = Ok true) /\
    (noext s -> nonneutral s2).
Proof. exact @challenge_complete. Qed.
Print Assumptions C07_every_challenge.

(** C08: whatever prove() returns is accepted; prove() returns something. *)
Theorem C08_nizk_accepted : forall (W : World) U w s sd msg st z s' st',
  honest U w s sd (env st) -> prove s sd msg st = Ok ((z, s'), st') -> nonneutral s' ->
  forall f g sv stv, Pat f g s sv -> Forall (vkOK (env stv)) (kinds sv) ->
  exists sv', verify sv z msg stv = Ok ((true, sv'), stv).
Proof. exact @prove_complete. Qed.
Print Assumptions C08_nizk_accepted.

Theorem C08_prove_succeeds : forall (W : World) U w s sd ord msg st,
  honest U w s sd (env st) -> Shape s -> Supplied sd w (env st) s -> Ords ord s -> Apart s ->
  (exists z s' st', prove s sd msg st = Ok ((z, s'), st') /\
     (nonneutral s' -> forall f g sv stv, Pat f g s sv -> Forall (vkOK (env stv)) (kinds sv) ->
      exists sv', verify sv z msg stv = Ok ((true, sv'), stv))) \/
  exists p s1 st1 pre p2 s2 st2 com p3 st3 i,
    get_prover s sd st = Ok ((Some p, s1), st1) /\ precommit s1 p st1 = Ok ((pre, p2, s2), st2) /\
    internal_commit s2 p2 None st2 = Ok ((com, p3), st3) /\ get_proof_id s2 None = Ok i /\
    (Big (VStr (pystr i)) \/ Big pre \/ Big com).
Proof. exact @nizk_complete. Qed.
Print Assumptions C08_prove_succeeds.

(** The hypotheses of C07 and C08 hold for a statement with a conjunction, a disjunction with one
    unknown branch, repeated secrets, an inequality proof and a range proof. *)
Example C08_ex_hypotheses :
  honest exU exw exS exsd (env st0) /\ Shape exS /\ Supplied exsd exw (env st0) exS /\ Ords exord exS /\
  Apart exS /\ Pat tick untick exS exV /\ Forall (vkOK (env st0)) (kinds exV).
Proof.
  exact (conj exS_honest (conj exS_shape (conj exS_supplied (conj exS_ords (conj exS_apart (conj exV_pat (exV_vals (env st0)))))))).
Qed.
Example C08_ex_run :
  match prove exS exsd (lit "msg") st0 with
  | Ok ((z, s'), _) => match verify exV z (lit "msg") st0 with Ok ((b, _), _) => b | Err _ => false end
  | Err _ => false
  end = true.
Proof. vm_compute. reflexivity. Qed.
(** an and/or tree without primitives *)
Example C07_ex_run :
  match get_prover exT exsd st0 with
  | Ok ((Some p, s1), st1) => run (run_interactive s1 p exTV) st1
  | _ => Err ETypeErr
  end = Ok true.
Proof. vm_compute. reflexivity. Qed.
Example C07_ex_hypotheses :
  noext exT /\ honest exU exw exT exsd (env st0) /\ Shape exT /\ Supplied exsd exw (env st0) exT /\ Ords exord exT /\
  Apart exT /\ Pat tick untick exT exTV.
Proof. exact exT_all. Qed.
Example C06_ex_hypotheses :
  honest exU exw exDL exsd (env st0) /\ dl_shape exD /\
  (forall x, In x (dl_secs exD) -> known (dl_vals exD) x \/ known exsd x) /\ Pat tick untick exDL exDLV.
Proof. exact exDL_all. Qed.

(** C13: the transcript of simulate() satisfies the verification equation, simulate() succeeds,
    and its result does not depend on values of secrets: neither on those of the Secret objects
    ([env]) nor on those captured by the statement (ignored by [pstrip]). A range statement that was
    built with values needs them in range to be constructed at all ([vkOK]). *)
Theorem C13_simulation_verifies : forall (W : World) U s c st t h s' st',
  Sok U s -> wfL (U ++ kints s) -> NoDup (map sid (kints s)) ->
  (forall x y, In x (kints s) -> In y U -> sid x <> sid y) ->
  simulate s c st = Ok ((t, h, s'), st') -> nonneutral s' ->
  forall f g sv stv, Pat f g s sv -> Forall (vkOK (env stv)) (kinds sv) ->
  verify_simulation sv t h stv = Ok (true, stv).
Proof. exact @simulate_complete. Qed.
Print Assumptions C13_simulation_verifies.

Theorem C13_simulate_succeeds : forall (W : World) U s c st,
  Sok U s -> wfL (U ++ kints s) -> NoDup (map sid (kints s)) ->
  (forall x y, In x (kints s) -> In y U -> sid x <> sid y) -> Shape s -> Forall notcustom (kinds s) ->
  Forall (vkOK (env st)) (kinds s) ->
  exists s1 i, (exists st1, prepare_sim (set_simulated true s) st = Ok (s1, st1)) /\ get_proof_id s1 None = Ok i /\
   (Big (VStr (pystr i)) \/ exists t h st', simulate s c st = Ok ((t, h, s1), st')).
Proof. exact @simulate_succeeds. Qed.
Print Assumptions C13_simulate_succeeds.

Theorem C13_no_secret_value : forall (W : World) U s s' c st st' t h s1 st1,
  Sok U s -> wfL (U ++ kints s) -> NoDup (map sid (kints s)) ->
  (forall x y, In x (kints s) -> In y U -> sid x <> sid y) ->
  pstrip s = pstrip s' -> tape st = tape st' -> pos st = pos st' -> Forall (vkOK (env st')) (kinds s) ->
  simulate s c st = Ok ((t, h, s1), st1) -> exists s1' st1', simulate s' c st' = Ok ((t, h, s1'), st1').
Proof. exact @simulate_indep. Qed.
Print Assumptions C13_no_secret_value.

Example C13_ex_hypotheses :
  Sok exVU exV /\ wfL (exVU ++ kints exV) /\ NoDup (map sid (kints exV)) /\
  (forall x y, In x (kints exV) -> In y exVU -> sid x <> sid y) /\ Shape exV /\ Forall notcustom (kinds exV) /\
  Forall (vkOK (env st0)) (kinds exV).
Proof. exact exV_all. Qed.
Example C13_ex_run :
  match simulate exV None st0 with
  | Ok ((t, h, _), _) => run (verify_simulation exS t h) (with_vals [(4%nat, 5)])
  | Err e => Err e
  end = Ok true.
Proof. vm_compute. reflexivity. Qed.

(** Property C85: simulation of compositions with primitives defined by users. *)
From Coq Require Import String Znumtheory Lia.
From Verif Require Import Base World Val Expr Utils Stmt Prove Verify Spec Shapes Claims Honest Clauses Supply Extract Lib Custom Mixed MixedOr Nested NestedSim NestedSimProofs
  ZqWorld Ex ExTree PropSound PropCustom PropMixed PropMixedOr PropNested.
Open Scope Z_scope.
Open Scope list_scope.

(** simulate() and verify_simulation_consistency() of compositions of objects of any classes do, for the library's own primitives and for
    the other statements, the same as those of the main model. *)
Theorem C85_library_simulate : forall (W : World) t s c a, tlib t s ->
  tsimulate t c a = match simulate s c a with Ok ((x, h, _), a') => Ok ((x, h), a') | Err e => Err e end.
Proof. exact @tlink_simulate. Qed.
Print Assumptions C85_library_simulate.
Theorem C85_library_consistency : forall (W : World) t s x h a, tlib t s -> tverify_simulation t x h a = verify_simulation s x h a.
Proof. exact @tlink_verify_simulation. Qed.
Print Assumptions C85_library_consistency.

(** C85, partial. Take any tree of conjunctions and disjunctions of objects whose classes override simulate_precommit such that
    construct_stmt makes a statement of its results ([simulable]), and of statements without primitives. Then simulate() returns a
    transcript, for the challenge that it is given, and verify_simulation_consistency() of every object of the same form accepts it.
    The statement need not be true. Excluded: identifiers of 2^32 bytes, precommitments that are None or, in disjunctions, all
    empty ([heard]). *)
Theorem C85_simulation_partial : forall (W : World) U w t c a, wfL U -> tsim U w t -> heard t -> agree w (env a) U ->
  (exists x h a', tsimulate t c a = Ok ((x, h), a') /\ tpres t (t_pre x) /\ (forall ch, c = Some ch -> t_chal x = ch) /\
     forall f g tv stv, tmeets f g t (t_pre x) tv -> exists stv', tverify_simulation tv x h stv = Ok (true, stv')) \/ tsim_oversized t a.
Proof. exact @nested_simulation. Qed.
Print Assumptions C85_simulation_partial.
(** The tree of C84, without any values; the verifier as there. *)
Definition simround (tv : mtree) : bool :=
  match tsimulate nt (Some 77) st0 with
  | Ok ((x, h), _) => (t_chal x =? 77) && match tverify_simulation tv x h st0 with Ok (b, _) => b | Err _ => false end
  | Err _ => false end.
Example C85_ex :
  wfL nU /\ tsim nU nw nt /\ heard nt /\ agree nw (env st0) nU /\ simround ntv = true /\ simround ntx = false.
Proof.
  split; [exact n_wfL|]. split; [|split; [exact (proj1 (proj2 (proj2 (proj2 (proj2 C84_ex)))))|split; [intros x v _ H; discriminate H|split; vm_compute; reflexivity]]].
  apply TsA. constructor; [apply TsK, n_simulable; in_list|constructor; [|constructor]]. apply TsO; [discriminate|].
  constructor; [apply TsK, n_simulable; in_list|constructor; [|constructor]]. apply TsA.
  constructor; [apply TsS; [constructor| |]|constructor; [apply TsK, n_simulable; in_list|constructor]].
  - apply SoDL; [incl_list|reflexivity|discriminate].
  - apply ShDL; split; [reflexivity|split; [discriminate|repeat constructor]].
Qed.

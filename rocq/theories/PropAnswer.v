(** Property C67: what a verifier answers to arbitrary messages. *)
From Coq Require Import String.
From Verif Require Import Base World Val Expr Utils Stmt Prove Verify Spec Shapes Supply Ident Answers AnswerProofs ZqWorld Ex ExTree.
Open Scope Z_scope.
Open Scope list_scope.

(** C67, partial: only for messages of the right form. If the precommitment has the form that provers produce, whatever points and numbers are in it, it is
    processed; and if then the responses have the right form, whatever numbers are in them and whatever the challenge and
    the hash are, verify() returns a verdict or raises one of the three exceptions meant for it (up to values too large for
    the binary format). *)
Theorem C67_answers_partial : forall (W : World) s z msg st,
  Shape s -> Forall (vkOK (env st)) (kinds s) -> preformed s (n_pre z) ->
  exists v s', processed s (n_pre z) st = Ok ((v, s'), st) /\
    (formed s' (n_resp z) -> answered (verify s z msg st) \/ overflow s' z).
Proof. exact @verifier_answers. Qed.
Print Assumptions C67_answers_partial.

(** z*3 = 50, or an inequality. All four answers occur. *)
Definition exA := SOr [exZ; SExt (KNeq (Pt 21) (Pt 3) (Pt 36) (Pt 5) su sal sbe true) false VNone None] false None.
Definition exApre : val := VList [VNone; VPt (Pt 9)].
Definition exAresp (c1 c2 : Z) (a : Z) : val :=
  VTuple [VList [VInt c1; VInt c2];
          VList [VList [VInt 4]; VList [VList [VInt 1; VInt 2]; VList [VInt a; VInt 2]; VTuple [VInt 77]]]].
Definition exAhash (pre : val) : val :=
  match processed exA pre st0 with
  | Ok ((_, s), _) => match prehash_input s with Ok b => VBytes (sha256 b) | Err _ => VNone end
  | Err _ => VNone end.
Definition exAz (c1 c2 a : Z) (pre h : val) : nizk := mkNizk 12 (exAresp c1 c2 a) pre h.
Example C67_ex : Shape exA /\ Forall (vkOK (env st0)) (kinds exA) /\ preformed exA exApre.
Proof.
  split; [|split].
  - apply ShOr; [discriminate|]. constructor; [|constructor; [|constructor]].
    + apply ShDL. split; [reflexivity|]. split; [discriminate|]. repeat constructor.
    + apply ShExt. repeat split; reflexivity.
  - repeat constructor.
  - apply (PfOr _ _ _ _ [VNone; VPt (Pt 9)] []); [now left|]. constructor; [apply PfNone; constructor|]. constructor; [|constructor].
    apply PfExt. exists (Pt 9). split; reflexivity.
Qed.
Example C67_ex_formed :
  match processed exA exApre st0 with Ok ((_, s), _) => forall c1 c2 a, formed s (exAresp c1 c2 a) | Err _ => False end.
Proof.
  assert (E : exists d1 d2 d3, match processed exA exApre st0 with Ok ((_, s), _) =>
      s = SOr [exZ; SExt exNeqK false (VPt (Pt 9)) (Some (SAnd [SDL d1; SDL d2; SDL d3] false))] false None /\
      List.length (dl_secs d1) = 2%nat /\ List.length (dl_secs d2) = 2%nat /\ List.length (dl_secs d3) = 1%nat
    | Err _ => False end).
  { cbn. eexists. eexists. eexists. repeat split. }
  destruct E as (d1 & d2 & d3 & E). destruct (processed exA exApre st0) as [[[v s] a0]|]; [|exact E].
  destruct E as (-> & L1 & L2 & L3). intros c1 c2 a.
  eapply (FmOr _ _ _ _ _ _ [VList [VInt 4]; VList [VList [VInt 1; VInt 2]; VList [VInt a; VInt 2]; VTuple [VInt 77]]] [] []).
  - now right.
  - repeat (constructor; [eexists; reflexivity|]); constructor.
  - simpl. auto.
  - now left.
  - constructor; [|constructor; [|constructor]].
    + apply (FmDL _ _ [VInt 4]); [now left| |simpl; auto]. repeat (constructor; [eexists; reflexivity|]); constructor.
    + apply FmExt. eapply (FmAnd _ _ _ [VList [VInt 1; VInt 2]; VList [VInt a; VInt 2]; VTuple [VInt 77]] []); [now left|].
      constructor; [|constructor; [|constructor; [|constructor]]].
      * apply (FmDL _ _ [VInt 1; VInt 2]); [now left| |simpl; lia]. repeat (constructor; [eexists; reflexivity|]); constructor.
      * apply (FmDL _ _ [VInt a; VInt 2]); [now left| |simpl; lia]. repeat (constructor; [eexists; reflexivity|]); constructor.
      * apply (FmDL _ _ [VInt 77]); [now right| |simpl; lia]. repeat (constructor; [eexists; reflexivity|]); constructor.
Qed.
Definition exAns (z : nizk) : Z :=
  match verify exA z (lit "msg") st0 with
  | Ok ((true, _), _) => 1 | Ok ((false, _), _) => 2
  | Err EStatementMismatch => 3 | Err EValidation => 4 | Err EInconsistentChallenge => 5 | Err _ => 6 end.
Example C67_ex_answers :
  map exAns [exAz 5 7 1 exApre (exAhash exApre); exAz 5 7 1 exApre (VBytes []);
             exAz 5 7 3 exApre (exAhash exApre); (* two responses for one secret *)
             exAz 5 8 1 exApre (exAhash exApre);
             exAz 5 7 1 (VList [VNone; VPt (inf (grp (Pt 3)))]) (exAhash (VList [VNone; VPt (inf (grp (Pt 3)))]))] = [2; 3; 4; 5; 4].
Proof. vm_compute. reflexivity. Qed.

(** C67 is false: other messages raise TypeError, IndexError or ValueError. Missing responses: *)
Theorem C67_responses_refuted : forall (W : World) d z msg st h,
  prehash_input (SDL d) = Ok h -> n_pre z = VNone -> n_hash z = VBytes (sha256 h) -> dl_secs d <> [] ->
  (n_resp z = VNone -> verify (SDL d) z msg st = Err ETypeErr) /\
  (n_resp z = VList [] -> verify (SDL d) z msg st = Err EIndexErr) /\
  (forall b l, dl_secs d = [b] -> dl_bases d <> [] -> n_resp z = VList (VStr l :: nil) -> verify (SDL d) z msg st = Err ETypeErr).
Proof. exact @malformed_responses. Qed.
Print Assumptions C67_responses_refuted.
(** a missing precommitment, or a number in place of a point: *)
Theorem C67_precommitment_refuted : forall (W : World) H0 g H1 h x al be bd b z msg st,
  let s := mk_neq H0 g H1 h x al be bd b in
  (n_pre z = VNone -> verify s z msg st = Err EValueErr) /\ (forall n, n_pre z = VInt n -> verify s z msg st = Err ETypeErr).
Proof. exact @malformed_precommitment. Qed.
Print Assumptions C67_precommitment_refuted.
Example C67_refuted_ex :
  let h := match prehash_input exZ with Ok b => VBytes (sha256 b) | Err _ => VNone end in
  match verify exZ (mkNizk 3 VNone VNone h) (lit "msg") st0, verify exZ (mkNizk 3 (VList []) VNone h) (lit "msg") st0,
        verify (SExt exNeqK false VNone None) (mkNizk 3 VNone VNone VNone) (lit "msg") st0 with
  | Err ETypeErr, Err EIndexErr, Err EValueErr => true | _, _, _ => false end = true.
Proof. vm_compute. reflexivity. Qed.

(** Where the values of secrets come from: property C79. The two snippets that docs/usage.rst calls equivalent put the values into the
    Secret objects or pass them to prove() in a dictionary. [two_ways] (Sources.v) lets every secret choose its way. *)
From Coq Require Import String.
From Verif Require Import Base World Val Expr Utils Stmt Prove Verify Spec Shapes Honest Sources SourceProofs SourceEx ZqWorld ZqFacts Ex ExTree.
Open Scope Z_scope.
Open Scope list_scope.

(** Same proof, or same exception. *)
Theorem C79_same_proof : forall (W : World) U s1 s2 sd1 sd2 msg a1 a2,
  two_ways U s1 s2 sd1 sd2 (env a1) (env a2) -> tape a2 = tape a1 -> pos a2 = pos a1 ->
  match prove s1 sd1 msg a1 with
  | Ok ((z, _), _) => exists s' a', prove s2 sd2 msg a2 = Ok ((z, s'), a')
  | Err x => prove s2 sd2 msg a2 = Err x
  end.
Proof. exact @same_proof'. Qed.
Print Assumptions C79_same_proof.

(** What DLRep makes of an expression is new in the sense of [two_ways]; and the recorded values are all that depends on the state. *)
Theorem C79_new_representation : forall (W : World) lhs x b st d st', mk_dlrep lhs x b st = Ok (d, st') -> newly (env st) (SDL d).
Proof. exact @new_dlrep. Qed.
Print Assumptions C79_new_representation.

(** x, y and u have their values in the objects, v and r in the dictionary; or all are in the dictionary. z has no value. *)
Definition ex79a := with_vals [(0%nat, 4); (1%nat, -6); (3%nat, 7)].
Definition ex79 := SAnd [SDL (mkDL (Pt (4*3 - 6*5 + 4*7)) [Pt 3; Pt 5; Pt 7] [sx; sy; sx] [(sx, 4); (sy, -6)] false);
  exOr; SExt exRangeK false VNone None] false.
Example C79_ex_hypotheses : two_ways exU ex79 exS [(sv, 5); (sr, 20)] exsd (env ex79a) (env st0) /\ tape st0 = tape ex79a /\ pos st0 = pos ex79a.
Proof.
  split; [|split; reflexivity]. constructor.
  - reflexivity.
  - apply NwAnd. apply Forall_cons; [|apply Forall_cons; [|apply Forall_cons; [apply NwExt|apply Forall_nil]]].
    + apply NwDL.
      * intros k v [H|[H|[]]]; injection H as <- <-; (split; [cbn; tauto|reflexivity]).
      * intros x v [<-|[<-|[<-|[]]]] H; injection H as <-; [exists sx|exists sy|exists sx]; (split; [cbn; tauto|reflexivity]).
    + apply NwOr. apply Forall_cons; [|apply Forall_cons; [apply NwExt|apply Forall_nil]].
      apply NwDL; [intros k v []|]. intros x v [<-|[]] H. discriminate H.
  - apply NwAnd. apply Forall_cons; [|apply Forall_cons; [|apply Forall_cons; [apply NwExt|apply Forall_nil]]].
    + apply NwDL; [intros k v []|]. intros x v _ H. discriminate H.
    + apply NwOr. apply Forall_cons; [|apply Forall_cons; [apply NwExt|apply Forall_nil]].
      apply NwDL; [intros k v []|]. intros x v _ H. discriminate H.
  - repeat constructor; discriminate.
  - intros x Hx. vm_compute in Hx. repeat (destruct Hx as [<-|Hx]; [vm_compute; tauto|]). destruct Hx.
  - apply wfLb_ok. vm_compute. reflexivity.
  - intros x y Hx Hy. vm_compute in Hx, Hy. intuition subst; vm_compute in *; discriminate.
  - intros x [<-|[<-|[]]]; vm_compute; tauto.
  - intros x [<-|[<-|[<-|[<-|[<-|[]]]]]]; vm_compute; tauto.
  - vm_compute. repeat constructor; simpl; intuition discriminate.
  - vm_compute. repeat constructor; simpl; intuition discriminate.
  - intros x v Hx. vm_compute in Hx. unfold total. split.
    + intros [(k & H & E)|[N H]].
      * left. exists k. split; auto. destruct H as [H|[H|[]]]; injection H as <- <-; vm_compute; tauto.
      * destruct Hx as [<-|[<-|[<-|[<-|[<-|[<-|[]]]]]]]; try (discriminate H); injection H as <-; left; eexists; (split; [|reflexivity]); vm_compute; tauto.
    + intros [(k & H & E)|[N H]]; [|discriminate H].
      destruct Hx as [<-|[<-|[<-|[<-|[<-|[<-|[]]]]]]]; destruct H as [H|[H|[H|[H|[H|[]]]]]]; injection H as <- <-; try (vm_compute in E; discriminate E);
        try (right; split; [intros k u [H|[H|[]]]; injection H as <- <-; vm_compute; discriminate|reflexivity]);
        left; eexists; (split; [|reflexivity]); vm_compute; tauto.
  - intros i H. assert (A := H sx (or_introl eq_refl)). assert (B := H sy (or_intror (or_introl eq_refl))).
    assert (C := H su (or_intror (or_intror (or_intror (or_introl eq_refl))))). cbn in A, B, C.
    destruct i as [|[|[|[|i]]]]; try (exfalso; congruence); reflexivity.
Qed.
Example C79_ex : match prove ex79 [(sv, 5); (sr, 20)] (lit "m") ex79a with Ok _ => true | Err _ => false end = true.
Proof. vm_compute. reflexivity. Qed.

(** It is false of ranges (for all of them: C47): the class looks at the objects when the statement is built. *)
Theorem C79_range_refuted : exists (W : World) com g h n x r rs v w msg a,
  env a (sid x) = None /\ env a (sid r) = None /\
  let a1 := mkSt (upd (upd (env a) (sid x) (Some v)) (sid r) (Some w)) (tape a) (pos a) in
  (exists s z, mk_range2 com g h n x r rs a1 = Ok (s, a1) /\ prove s [] msg a1 = Ok z) /\
  (exists s, mk_range2 com g h n x r rs a = Ok (s, a) /\ prove s [(x, v); (r, w)] msg a = Err EAttributeErr).
Proof. exact range_two_ways. Qed.
Print Assumptions C79_range_refuted.

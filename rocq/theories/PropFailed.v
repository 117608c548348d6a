(** Property C72: what failed attempts leave behind. *)
From Coq Require Import String.
From Verif Require Import Base World Val Expr Utils Stmt Prove Verify Spec Shapes Runs Failed FailedProofs Session Used UsedProofs ZqWorld Ex ExTree.
Open Scope Z_scope.
Open Scope list_scope.

(** [attempt] is the [get_prover] of the other theorems, with the object that an exception leaves. *)
Theorem C72_attempt_get_prover : forall (W : World) s sd a,
  get_prover s sd a = match attempt s sd a with (Ok o, s', a') => Ok ((o, s'), a') | (Err e, _, _) => Err e end.
Proof. exact @attempt_get_prover. Qed.
Print Assumptions C72_attempt_get_prover.

(** C72, partial: representations and conjunctions of such in any nesting. After any number of failed calls on the object, with any
    values and in any states of the process, a call of prove() that gives all values does what it would have done before them: it
    returns the same proof, or raises the same exception. For other statements and for calls that do not give all values it is false,
    see below. *)
Theorem C72_failed_calls_partial : forall (W : World) s s' sd msg a,
  conjunctive s -> failed_calls s s' -> all_given sd s ->
  (exists x, prove s sd msg a = Err x /\ prove s' sd msg a = Err x) \/
  exists z t t' a', prove s sd msg a = Ok ((z, t), a') /\ prove s' sd msg a = Ok ((z, t'), a').
Proof. exact @again. Qed.
Print Assumptions C72_failed_calls_partial.
(** A conjunction; two calls fail, the first with a value missing (ValueError after the first part got values), the second without any *)
Definition exFA : stmt := SAnd [SDL (mkDL (Pt 12) [Pt 3] [sx] [] false); SDL (mkDL (Pt 32) [Pt 3; Pt 5] [sx; sy] [] false)] false.
Definition exF1 := attempt exFA [(sx, 9)] st0.
Definition exF2 := attempt (left_by exF1) [] st0.
Example C72_ex :
  conjunctive exFA /\ failed_calls exFA (left_by exF2) /\ all_given [(sx, 4); (sy, 4)] exFA /\
  match exF1 with (Err EValueErr, _, _) => true | _ => false end = true /\
  (* values of the first failed call are left in both parts *)
  match left_by exF2 with SAnd [SDL d1; SDL d2] _ => negb (empty_dict (dl_vals d1)) && negb (empty_dict (dl_vals d2)) | _ => false end = true /\
  match prove (left_by exF2) [(sx, 4); (sy, 4)] (lit "msg") st0 with
  | Ok ((z, t), _) => match verify exFA z (lit "msg") st0 with Ok ((b, _), _) => b | _ => false end
  | Err _ => false end = true.
Proof.
  split; [repeat constructor|]. split; [apply failed_twice; vm_compute; reflexivity|].
  split; [split; [discriminate|]|].
  - intros ss x [= <-] [<-|[<-|[<-|[]]]]; [exists 4; now left|exists 4; now left|exists 4; right; now left].
  - split; [vm_compute; reflexivity|]. split; vm_compute; reflexivity.
Qed.

(** The same with primitives, and for anything the object was used for before: calls of get_prover() that succeeded or failed, and the
    later parts of prove(), and verify(), also when interrupted by an exception; the values are given under the same objects or names
    throughout ([wfL]). *)
Theorem C72_used_objects_partial : forall (W : World) U s s' sd msg a,
  wfL U -> orfree s -> over U s -> uses U s s' -> keyed_by U sd -> sd <> [] -> gives sd s ->
  (exists x, prove s sd msg a = Err x /\ prove s' sd msg a = Err x) \/
  exists z t t' a', prove s sd msg a = Ok ((z, t), a') /\ prove s' sd msg a = Ok ((z, t'), a').
Proof. exact @reuse. Qed.
Print Assumptions C72_used_objects_partial.
(** Calls of prove() and verify() that return are such uses. *)
Theorem C72_prove_is_use : forall (W : World) U s sd msg a z t a',
  orfree s -> keyed_by U sd -> prove s sd msg a = Ok ((z, t), a') -> uses U s t.
Proof. exact @prove_use. Qed.
Print Assumptions C72_prove_is_use.
Theorem C72_verify_is_use : forall (W : World) U s z msg a b t a', verify s z msg a = Ok ((b, t), a') -> uses U s t.
Proof. exact @verify_use. Qed.
Print Assumptions C72_verify_is_use.
(** A representation, an inequality and a range: a call with other values and none for the primitives fails in precommit(), after
    get_prover() has returned a prover; then the constructed statements are something else *)
Definition exFP : stmt := SAnd [exDL; SExt exNeqK false VNone None; SExt exRangeK false VNone None] false.
Definition exFP1 := attempt exFP [(sx, 9); (sy, 8)] st0.
Definition change (s : stmt) : stmt := match s with
  | SAnd [d; SExt k b _ _; r] c => SAnd [d; SExt k b (VInt 5) (Some exZ); r] c
  | s => s end.
Definition exFP2 := change (left_by exFP1).
Definition exFPU := [sx; sy; su; sv; sr].
Example C72_used_ex :
  wfL exFPU /\ orfree exFP /\ over exFPU exFP /\ uses exFPU exFP exFP2 /\ keyed_by exFPU exsd /\ exsd <> [] /\ gives exsd exFP /\
  match exFP1 with (Ok (Some _), SAnd (SDL d :: _) _, _) => negb (empty_dict (dl_vals d)) | _ => false end = true /\
  match prove exFP [(sx, 9); (sy, 8)] (lit "msg") st0 with Err _ => true | Ok _ => false end = true /\
  match prove exFP2 exsd (lit "msg") st0 with
  | Ok ((z, t), a) => match verify exFP z (lit "msg") a with Ok ((b, _), _) => b | _ => false end
  | Err _ => false end = true.
Proof.
  assert (CH : forall s, bare (change s) = bare s) by (intros [|[|d [|[| | |k b q con] [|r [|]]]] c| |]; reflexivity).
  split; [apply wfLb_ok; vm_compute; reflexivity|]. split; [repeat constructor|].
  split; [constructor; refine (Forall_cons _ _ (Forall_cons _ _ (Forall_cons _ _ (Forall_nil _)))); constructor|].
  - intros x [<-|[<-|[<-|[]]]]; [now left|right; now left|now left].
  - intros k v [].
  - split; [apply (used_then exFPU exFP [(sx, 9); (sy, 8)] st0); [intros k v [[= <- <-]|[[= <- <-]|[]]]; [now left|right; now left]|apply CH]|].
    split; [intros k v [[= <- <-]|[[= <- <-]|[[= <- <-]|[[= <- <-]|[[= <- <-]|[]]]]]]; cbn; tauto|]. split; [discriminate|].
    split; [constructor; refine (Forall_cons _ _ (Forall_cons _ _ (Forall_cons _ _ (Forall_nil _)))); constructor;
            intros x [<-|[<-|[<-|[]]]]; eexists; [now left|right; now left|now left]|].
    split; [vm_compute; reflexivity|]. split; vm_compute; reflexivity.
Qed.

(** C72 is false for disjunctions of representations: once get_prover() has refused because no branch had its values, no later call of
    prove() on the object succeeds, whatever values it is given (every branch stays marked as simulated). *)
Theorem C72_disjunctions_refuted : forall (W : World) subs b ch sd a s' a',
  alternatives (SOr subs b ch) -> attempt (SOr subs b ch) sd a = (Ok None, s', a') ->
  forall sd2 msg a2 z, prove s' sd2 msg a2 <> Ok z.
Proof. exact @refused_dead. Qed.
Print Assumptions C72_disjunctions_refuted.
Example C72_refuted_ex :
  let s := SOr [exZ; SDL (mkDL (Pt 12) [Pt 3] [sx] [] false)] false None in
  alternatives s /\
  (* no values are given *)
  match attempt s [] st0 with (Ok None, _, _) => true | _ => false end = true /\
  (* before, the values of the second branch were enough *)
  match prove s [(sx, 4)] (lit "msg") st0 with Ok _ => true | Err _ => false end = true.
Proof. cbv zeta. split; [repeat constructor|]. split; vm_compute; reflexivity. Qed.

(** Nor does it hold for values: those given to a failed call are used by later ones. *)
Theorem C72_values_stay_refuted : forall (W : World) lhs g h x y v w msg a a2,
  sec_eqb (env a) x y = false -> sec_eqb (env a2) x y = false ->
  let d := SDL (mkDL lhs [g; h] [x; y] [] false) in
  exists s' a1, attempt d [(x, v)] a = (Ok None, s', a1) /\ prove d [(y, w)] msg a2 = Err EAttributeErr /\
    prove s' [(y, w)] msg a2 = prove d [(x, v); (y, w)] msg a2.
Proof. exact @leftover. Qed.
Print Assumptions C72_values_stay_refuted.
Example C72_refuted_ex2 : sec_eqb (env st0) sx sy = false /\
  match prove (SDL (mkDL (Pt 32) [Pt 3; Pt 5] [sx; sy] [] false)) [(sx, 4); (sy, 4)] (lit "msg") st0 with Ok _ => true | Err _ => false end = true.
Proof. split; vm_compute; reflexivity. Qed.

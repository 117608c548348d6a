(** Proofs of two provers of one public statement: properties C70 and C71. *)
From Coq Require Import String Znumtheory.
From Verif Require Import Base World Val Expr Utils Stmt Prove Verify Spec Shapes Claims Honest Clauses Supply Extract Runs Views Distrib Unlink
  DictProofs Ktruth Provers ZqWorld Ex ExTree PropZk PropSound PropZk2 ZkTree ZkPre UnlinkProofs ExUnlink.
Open Scope Z_scope.
Open Scope list_scope.

(** C70: two provers of conjunctions of representations, inequalities and signatures, each with their own statement, values,
    signatures and names of secrets; a verifier who has the statement [v] can talk to both. For every challenge the
    conversations, precommitments included, have the same distribution, and so do the results of prove(), for every message. *)
Theorem C70_unlinkable : forall (W : World) U w s sd e f g U' w' s' sd' e' f' g' v ord,
  honest U w s sd e -> Shape s -> Supplied sd w e s -> conj_of (blinded w) s -> Pat f g s v ->
  honest U' w' s' sd' e' -> Shape s' -> Supplied sd' w' e' s' -> conj_of (blinded w') s' -> Pat f' g' s' v ->
  Ords ord v ->
  (forall c, same_distribution (outcome (whole_run s sd c) e) (outcome (whole_run s' sd' c) e')) /\
  (forall msg, same_distribution (outcome (proof_of s sd msg) e) (outcome (proof_of s' sd' msg) e')).
Proof. exact @unlinkable. Qed.
Print Assumptions C70_unlinkable.

Example C70_ex :
  honest exBs exBw exBB exBsd (env stB) /\ Shape exBB /\ Supplied exBsd exBw (env stB) exBB /\ conj_of (blinded exBw) exBB /\ Pat idb idb exBB exBV /\
  honest ex2Bs ex2Bw ex2BB ex2Bsd (env st2B) /\ Shape ex2BB /\ Supplied ex2Bsd ex2Bw (env st2B) ex2BB /\ conj_of (blinded ex2Bw) ex2BB /\ Pat untick tick ex2BB exBV /\
  Ords exord exBV /\ mk_bbs ex2Bs exPk (Some ex2Sig) (X 44 "r1'") (X 45 "r2'") (X 46 "d1'") (X 47 "d2'") false st0 = Ok (ex2BB, st2B) /\
  (* both proofs are made, and differ with the same random numbers *)
  match outcome (proof_of exBB exBsd (lit "m")) (env stB) (fun i => 7 + Z.of_nat i),
        outcome (proof_of ex2BB ex2Bsd (lit "m")) (env st2B) (fun i => 7 + Z.of_nat i) with
  | Ok z, Ok z' => match getitem (n_pre z) (lit "A2"), getitem (n_pre z') (lit "A2") with
                   | Ok (VPt p), Ok (VPt p') => negb (zv p =? zv p')
                   | _, _ => false
                   end
  | _, _ => false
  end = true.
Proof.
  destruct C58_ex_sig as (E1 & E2 & E3 & E4 & E5).
  split; [exact E1|]. split; [exact E2|]. split; [exact E3|]. split; [exact E5|]. split.
  { apply PaExt. constructor; repeat constructor; vm_compute; reflexivity. }
  split; [|split; [|split; [|split; [|split; [|split; [|split]]]]]].
  - constructor.
    + apply SoExt. incl_list.
    + apply wfLb_ok; vm_compute; reflexivity.
    + repeat constructor; simpl; lia.
    + intros x y; simpl; intuition (subst; simpl in *; lia).
    + apply TrExt. apply (KT_BBS ex2Bw exPk ex2Sig (X 40 "e'") (X 41 "s'") [X 42 "m1'"; X 43 "m2'"]).
      * exists (1%N, 99%N), (2%N, 99%N), (3%N, 99%N). repeat split; try reflexivity. repeat constructor.
      * repeat constructor.
      * reflexivity.
      * reflexivity.
      * apply zpt_eq; vm_compute; reflexivity.
    + constructor.
    + intros k v [E|[E|[]]]; injection E as <- <-; (split; [simpl; auto|reflexivity]).
    + intros x v Hx E. simpl in Hx. repeat (destruct Hx as [<-|Hx]; [vm_compute in E; try discriminate E; injection E as <-; reflexivity|]). destruct Hx.
  - apply ShExt. exists (1%N, 99%N), (2%N, 99%N), (3%N, 99%N), 4%nat. split; [reflexivity|]. split; [repeat constructor|].
    repeat (split; [reflexivity|]). split; [split; apply Nat.leb_le; reflexivity|]. repeat (split; [reflexivity|]). intros a E. injection E as <-. reflexivity.
  - apply SuExt; [|discriminate]. intros x [<-|[<-|[<-|[<-|[]]]]]; [right; discriminate|right; discriminate|left|left].
    + exists (X 42 "m1'"), 1. split; [in_list|reflexivity].
    + exists (X 43 "m2'"), 2. split; [in_list|reflexivity].
  - apply CoExt. split; [exact prime101|]. split; [apply Zq_generated|]. intros E. apply (f_equal zv) in E. vm_compute in E. discriminate E.
  - apply PaExt. constructor; repeat constructor; vm_compute; reflexivity.
  - apply OrExt. intros y p _ H. simpl in H. repeat (destruct H as [<-|H]; [reflexivity|]). destruct H.
  - reflexivity.
  - vm_compute. reflexivity.
Qed.

(** C71: nothing checks the generators of an issuer's key. If the third is the neutral element, every proof shows the
    element A of the signature, whatever the random numbers. *)
Theorem C71_neutral_generator_shows : forall (W : World) pk sg b0 b1 b2 bs sv r1 r2 d1 d2 b q con sd c e t pre com r,
  b2 = inf (grp (sig_A sg)) ->
  outcome (whole_run (SExt (KBBS pk (Some sg) (b0 :: b1 :: b2 :: bs) sv r1 r2 d1 d2) b q con) sd c) e t = Ok (pre, com, r) ->
  getitem pre (lit "A2") = Ok (VPt (sig_A sg)).
Proof. exact @neutral_shows. Qed.
Print Assumptions C71_neutral_generator_shows.

(** C71 refuted (generators 2, 3, 0, 7): honest provers of one public statement whose conversations cannot be confused. *)
Theorem C71_any_key_refuted : exists (W : World) U w s sd e f g U' w' s' sd' e' f' g' v ord,
  honest U w s sd e /\ Shape s /\ Supplied sd w e s /\ Pat f g s v /\
  honest U' w' s' sd' e' /\ Shape s' /\ Supplied sd' w' e' s' /\ Pat f' g' s' v /\
  Ords ord v /\ (exists pk bs sv r1 r2 d1 d2 b pre con, v = SExt (KBBS pk None bs sv r1 r2 d1 d2) b pre con) /\
  forall c, (exists t x, outcome (whole_run s sd c) e t = Ok x) /\
    forall t t' x, outcome (whole_run s sd c) e t = Ok x -> outcome (whole_run s' sd' c) e' t' <> Ok x.
Proof. exact any_key. Qed.
Print Assumptions C71_any_key_refuted.
Example C71_ex : (* the proof with the random numbers 7, 8, 9, .. shows A = 42 *)
  match outcome (whole_run bd1 exBsd 3) (env stB) (fun i => 7 + Z.of_nat i) with
  | Ok (pre, _, _) => match getitem pre (lit "A2") with Ok (VPt p) => zv p =? 42 | _ => false end
  | Err _ => false
  end = true.
Proof. vm_compute. reflexivity. Qed.

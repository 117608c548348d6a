(** Zero-knowledge of whole conversations, precommitments included: property C58. *)
From Coq Require Import String Znumtheory.
From Verif Require Import Base World Val Expr Utils Stmt Prove Verify Spec Shapes Claims Honest Clauses Supply Extract Runs Views Distrib
  DictProofs Ktruth Provers ZqWorld Ex ExTree PropZk PropSound ZkTree ZkPre.
Open Scope Z_scope.
Open Scope list_scope.

(** C58: conjunctions of representations, inequalities and signatures, for every challenge: the prover always answers,
    and precommitment, commitment and response together are distributed as those made by prepare_simulate_proof and
    simulate_proof, which know no value (any [e0]). *)
Theorem C58_whole_conversation_zk : forall (W : World) U w s sd ord e e0 c,
  honest U w s sd e -> Shape s -> Supplied sd w e s -> Ords ord s -> conj_of (blinded w) s ->
  (forall t, exists pre com r, outcome (whole_run s sd c) e t = Ok (pre, com, r)) /\
  same_distribution (outcome (whole_run s sd c) e) (outcome (whole_sim s c) e0).
Proof. exact @whole_zk_ok. Qed.
Print Assumptions C58_whole_conversation_zk.

Lemma Zq_generated g : @generated Zq g.
Proof.
  intros p <-. exists (zv p). apply zpt_eq; [reflexivity|]. destruct p as [g v H]. cbn [zv].
  destruct (andb_prop _ _ H) as [H1 H2]. apply Z.leb_le in H1. apply Z.ltb_lt in H2. change (v = (v * (1 mod zorder g)) mod zorder g).
  rewrite Zmult_mod_idemp_r, Z.mul_1_r. symmetry. apply Z.mod_small. auto.
Qed.
(** x*3 + y*5 + x*7 ; u is the discrete log of 21 to the base 3 and not that of 36 to the base 5 ; u*9 + x*2 *)
Example C58_ex :
  honest exU exw exZk exsd (env st0) /\ Shape exZk /\ Supplied exsd exw (env st0) exZk /\ Ords exord exZk /\ conj_of (blinded exw) exZk /\
  (* random numbers 7, 8, 9, ..: the precommitment is 7 * (7 * 5 - 36), which the simulator makes from the number 101 - 7 *)
  match outcome (whole_run exZk exsd 3) (env st0) (fun i => 7 + Z.of_nat i),
        outcome (whole_sim exZk 3) (fun _ => None) (fun i => 94 + Z.of_nat i) with
  | Ok (VList [VNone; VPt p; VNone], _, _), Ok (VList [VNone; VPt p'; VNone], _, _) => (zv p =? 94) && (zv p' =? 94)
  | _, _ => false
  end = true.
Proof.
  split; [exact (proj1 C49_ex)|]. split; [|split; [|split; [|split]]].
  - apply ShAnd. constructor; [|constructor; [|constructor; [|constructor]]].
    + apply ShDL. split; [reflexivity|]. split; [discriminate|]. repeat constructor.
    + apply ShExt. repeat split.
    + apply ShDL. split; [reflexivity|]. split; [discriminate|]. repeat constructor.
  - apply SuAnd. constructor; [apply exDL_supplied|constructor; [|constructor; [|constructor]]].
    + apply SuExt; [|exact I]. intros x [<-|[]]. left. apply (exknown _ 7). in_list.
    + apply SuDL. intros x [<-|[<-|[]]]; right; [apply (exknown _ 7)|apply (exknown _ 4)]; in_list.
  - apply OrAnd. constructor; [ex_ords|constructor; [|constructor; [ex_ords|constructor]]].
    apply OrExt. intros y p _ H. simpl in H. repeat (destruct H as [<-|H]; [reflexivity|]). destruct H.
  - apply CoAnd. constructor; [constructor|constructor; [|constructor; [constructor|constructor]]].
    apply CoExt. split; [exact prime101|]. split; [apply Zq_generated|]. intros E. apply (f_equal zv) in E. vm_compute in E. discriminate E.
  - vm_compute. reflexivity.
Qed.
(** the signature of the example of C35, whose constructor has set the values of e and s *)
Example C58_ex_sig :
  honest exBs exBw exBB exBsd (env stB) /\ Shape exBB /\ Supplied exBsd exBw (env stB) exBB /\
  Ords exord exBB /\ conj_of (blinded exBw) exBB.
Proof.
  destruct C35_ex as (_ & W1 & W2 & W3 & W4 & W5 & W6 & _ & W7 & W8 & _).
  split; [|split; [|split; [|split]]].
  - constructor; auto.
    + apply SoExt. incl_list.
    + apply TrExt. apply (KT_BBS exBw exPk exSig (X 30 "e") (X 31 "s") [X 32 "m1"; X 33 "m2"]); auto.
    + constructor.
    + intros x v Hx E. simpl in Hx. repeat (destruct Hx as [<-|Hx]; [vm_compute in E; try discriminate E; injection E as <-; reflexivity|]). destruct Hx.
  - apply ShExt. exists (1%N, 99%N), (2%N, 99%N), (3%N, 99%N), 4%nat. split; [reflexivity|]. split; [repeat constructor|].
    repeat (split; [reflexivity|]). split; [split; apply Nat.leb_le; reflexivity|]. repeat (split; [reflexivity|]). intros a E. injection E as <-. reflexivity.
  - apply SuExt; [|discriminate]. intros x [<-|[<-|[<-|[<-|[]]]]]; [right; discriminate|right; discriminate|left|left].
    + exists (X 32 "m1"), 8. split; [in_list|reflexivity].
    + exists (X 33 "m2"), 9. split; [in_list|reflexivity].
  - apply OrExt. intros y p _ H. simpl in H. repeat (destruct H as [<-|H]; [reflexivity|]). destruct H.
  - apply CoExt. split; [exact prime101|]. split; [apply Zq_generated|]. intros E. apply (f_equal zv) in E. vm_compute in E. discriminate E.
Qed.

(** A concrete statement, its prover's situation and an independent verifier's statement, meeting
    the hypotheses of the completeness theorems. *)
From Coq Require Import String.
From Verif Require Import Base World Val Expr Utils Stmt Prove Verify Spec Shapes Claims DictProofs Tree Build Process Ktruth
  Provers Honest Clauses Supply ZqWorld Ex.
Open Scope Z_scope.
Open Scope list_scope.

(** Secrets of the prover (object identity, name); those with numbers from 10 belong to primitives. *)
Definition sx := X 0 "x". Definition sy := X 1 "y". Definition sz := X 2 "z". Definition su := X 3 "u".
Definition sv := X 4 "v". Definition sr := X 5 "r".
Definition sal := X 10 "alpha". Definition sbe := X 11 "beta".
Definition sr0 := X 12 "r0". Definition sr1 := X 13 "r1". Definition sr2 := X 14 "r2".
Definition exU := [sx; sy; sz; su; sv; sr].
(** values by name; z is not known to the prover *)
Definition exw (n : bytes) : Z :=
  if bytes_eqb n (lit "x") then 4 else if bytes_eqb n (lit "y") then -6 else if bytes_eqb n (lit "u") then 7
  else if bytes_eqb n (lit "v") then 5 else if bytes_eqb n (lit "r") then 20 else 0.
Definition exsd : dict Z := [(sx, 4); (sy, -6); (su, 7); (sv, 5); (sr, 20)].

(** x*3 + y*5 + x*7 ;  z*3 = 50 or (u is the discrete log of 21 to the base 3 and not that of 36 to
    the base 5) ; v in [0, 8) for the commitment v*3 + r*5 *)
Definition exD := mkDL (Pt (4*3 - 6*5 + 4*7)) [Pt 3; Pt 5; Pt 7] [sx; sy; sx] [] false.
Definition exDL := SDL exD.
Definition exZ := SDL (mkDL (Pt 50) [Pt 3] [sz] [] false).
Definition exNeqK := KNeq (Pt 21) (Pt 3) (Pt 36) (Pt 5) su sal sbe true.
Definition exRangeK := KRange (Pt (5*3 + 20*5)) (Pt 3) (Pt 5) 3 true sv sr [sr0; sr1; sr2].
Definition exOr := SOr [exZ; SExt exNeqK false VNone None] false None.
Definition exS := SAnd [exDL; exOr; SExt exRangeK false VNone None] false.

(** The verifier: other names, no values. *)
Definition tick (n : bytes) : bytes := n ++ lit "'".
Definition untick (n : bytes) : bytes := removelast n.
Definition T (i : nat) (n : string) := X i (n ++ "'").
Definition exDLV := SDL (mkDL (Pt (4*3 - 6*5 + 4*7)) [Pt 3; Pt 5; Pt 7] [T 20 "x"; T 21 "y"; T 20 "x"] [] false).
Definition exV := SAnd
  [exDLV;
   SOr [SDL (mkDL (Pt 50) [Pt 3] [T 22 "z"] [] false);
        SExt (KNeq (Pt 21) (Pt 3) (Pt 36) (Pt 5) (T 23 "u") (T 30 "alpha") (T 31 "beta") true) false VNone None] false None;
   SExt (KRange (Pt (5*3 + 20*5)) (Pt 3) (Pt 5) 3 false (T 24 "v") (T 25 "r") [T 32 "r0"; T 33 "r1"; T 34 "r2"]) false VNone None] false.

Definition wfLb (L : list secret) : bool :=
  forallb (fun s => forallb (fun t => Bool.eqb (bytes_eqb (sname s) (sname t)) (Nat.eqb (sid s) (sid t))) L) L.
Lemma wfLb_ok L : wfLb L = true -> wfL L.
Proof.
  unfold wfLb. rewrite forallb_forall. intros H s t Hs Ht. specialize (H s Hs). rewrite forallb_forall in H.
  specialize (H t Ht). apply Bool.eqb_prop in H. rewrite <- bytes_eqb_eq, <- Nat.eqb_eq. now rewrite H.
Qed.

Lemma exS_names : wfL (exU ++ kints exS).
Proof. apply wfLb_ok. vm_compute. reflexivity. Qed.

Ltac pteq := apply zpt_eq; vm_compute; reflexivity.
Ltac in_list := simpl; repeat (first [left; reflexivity | right]).
Ltac incl_list := let x := fresh in let H := fresh in intros x H; simpl in H;
  repeat (destruct H as [<-|H]; [in_list|]); destruct H.

Lemma exZ_refuses : Refuses exsd exZ.
Proof.
  apply (RfDL _ _ sz); [now left| |].
  - intros (k & v & [] & _).
  - intros (k & v & H & E). simpl in H. repeat (destruct H as [H|H]; [injection H as <- <-; discriminate E|]). destruct H.
Qed.
Lemma exNeq_true : KTrue exw exNeqK.
Proof. apply KT_Neq; [reflexivity|reflexivity|pteq]. Qed.
Lemma exRange_true : KTrue exw exRangeK.
Proof. apply KT_Range; [reflexivity|reflexivity|pteq]. Qed.
Lemma exDL_true : Tru exsd exw exDL.
Proof.
  apply TrDL. split.
  - repeat constructor.
  - pteq.
Qed.
Lemma exOr_true : Tru exsd exw exOr.
Proof.
  apply TrOr. intros x [<-|[<-|[]]] _; [left; exact exZ_refuses|right; apply TrExt; exact exNeq_true].
Qed.
Lemma exsd_ok : entries_ok exU exw exsd.
Proof.
  intros k v H. simpl in H.
  repeat (destruct H as [H|H]; [injection H as <- <-; split; [in_list|vm_compute; reflexivity]|]). destruct H.
Qed.
Lemma exOr_ok : Sok exU exOr.
Proof.
  apply SoOr.
  - constructor; [|constructor; [|constructor]].
    + apply SoDL; [incl_list|reflexivity|discriminate].
    + apply SoExt. incl_list.
  - repeat constructor.
Qed.
Lemma exDL_ok : Sok exU exDL.
Proof. apply SoDL; [incl_list|reflexivity|discriminate]. Qed.

Lemma exS_honest : honest exU exw exS exsd (env st0).
Proof.
  constructor.
  - apply SoAnd. constructor; [exact exDL_ok|constructor; [exact exOr_ok|constructor; [|constructor]]].
    apply SoExt. incl_list.
  - exact exS_names.
  - vm_compute. repeat constructor; simpl; intuition discriminate.
  - intros x y Hx Hy. assert (forallb (fun x => forallb (fun y => negb (Nat.eqb (sid x) (sid y))) exU) (kints exS) = true) as C
      by (vm_compute; reflexivity).
    rewrite forallb_forall in C. specialize (C x Hx). rewrite forallb_forall in C. specialize (C y Hy).
    apply Bool.negb_true_iff, Nat.eqb_neq in C. exact C.
  - apply TrAnd. constructor; [exact exDL_true|constructor; [exact exOr_true|constructor; [|constructor]]].
    apply TrExt. exact exRange_true.
  - apply VaAnd. constructor; [|constructor; [|constructor; [|constructor]]].
    + apply VaDL. intros k v [].
    + apply VaOr. constructor; [|constructor; [|constructor]]; constructor. intros k v [].
    + constructor.
  - exact exsd_ok.
  - intros x v _ H. discriminate H.
Qed.

Lemma exS_shape : Shape exS.
Proof.
  apply ShAnd. constructor; [|constructor; [|constructor; [|constructor]]].
  - apply ShDL. split; [reflexivity|]. split; [discriminate|]. repeat constructor.
  - apply ShOr; [discriminate|]. constructor; [|constructor; [|constructor]].
    + apply ShDL. split; [reflexivity|]. split; [discriminate|]. repeat constructor.
    + apply ShExt. repeat split.
  - apply ShExt. repeat split; auto; lia.
Qed.
Lemma exknown x v : In (x, v) exsd -> known exsd x.
Proof. intros H. exists x, v. auto. Qed.
Lemma exOr_supplied e : Supplied exsd exw e exOr.
Proof.
  apply (SuOr _ _ _ _ _ (SExt exNeqK false VNone None)).
  - right. now left.
  - reflexivity.
  - apply SuExt; [|exact I]. intros x [<-|[]]. left. apply (exknown _ 7). in_list.
  - intros y [<-|[<-|[]]] _; [left; exact exZ_refuses|right].
    apply SuExt; [|exact I]. intros x [<-|[]]. left. apply (exknown _ 7). in_list.
  - intros y [<-|[<-|[]]]; repeat constructor.
Qed.
Lemma exS_supplied : Supplied exsd exw (env st0) exS.
Proof.
  apply SuAnd. constructor; [|constructor; [|constructor; [|constructor]]].
  - apply SuDL. intros x [<-|[<-|[<-|[]]]]; right; [apply (exknown _ 4)|apply (exknown _ (-6))|apply (exknown _ 4)]; in_list.
  - apply exOr_supplied.
  - apply SuExt.
    + intros x [<-|[<-|[]]]; left; [apply (exknown _ 5)|apply (exknown _ 20)]; in_list.
    + split; [reflexivity|]. vm_compute. split; [discriminate|reflexivity].
Qed.
Definition exord (n : bytes) : Z := 101.
Lemma exS_ords : Ords exord exS.
Proof.
  apply OrAnd. constructor; [|constructor; [|constructor; [|constructor]]].
  - apply OrDL. intros x b H. simpl in H. repeat (destruct H as [H|H]; [injection H as <- <-; reflexivity|]). destruct H.
  - apply OrOr. constructor; [|constructor; [|constructor]].
    + apply OrDL. intros x b H. simpl in H. repeat (destruct H as [H|H]; [injection H as <- <-; reflexivity|]). destruct H.
    + apply OrExt. intros y p _ H. simpl in H. repeat (destruct H as [<-|H]; [reflexivity|]). destruct H.
  - apply OrExt. intros y _. reflexivity.
Qed.

(** An or-clause of a conjunction of which only one member is a disjunction. *)
Lemma exS_apart : Apart exS.
Proof.
  apply ApAnd.
  - constructor; [constructor|constructor; [|constructor; [constructor|constructor]]].
    apply ApOr. repeat constructor.
  - intros pre o post x y H Hx Hy.
    assert (o = exOr /\ incl (pre ++ post) [sx; sy; sv; sr; sr0; sr1; sr2]) as [-> I].
    { inversion H as [|l1 s l2 b pr oo po C E1]; subst.
      destruct l1 as [|a1 [|a2 [|a3 l1]]]; simpl in E1; injection E1; intros; subst; inversion C; subst; simpl in *.
      1: { split; auto. incl_list. }
      all: exfalso; match goal with K : [] = ?l ++ _ :: _ |- _ => destruct l; discriminate K | K : ?l ++ _ :: _ = [] |- _ => destruct l; discriminate K end. }
    specialize (I y Hy). simpl in Hx, I.
    repeat (destruct Hx as [<-|Hx]; [repeat (destruct I as [<-|I]; [discriminate|]); destruct I|]). destruct Hx.
Qed.
Lemma exV_pat : Pat tick untick exS exV.
Proof.
  unfold exS, exV. apply PaAnd. constructor; [|constructor; [|constructor; [|constructor]]].
  - apply PaDL; [reflexivity|reflexivity|]. repeat constructor; vm_compute; reflexivity.
  - apply PaOr. constructor; [|constructor; [|constructor]].
    + apply PaDL; [reflexivity|reflexivity|]. repeat constructor; vm_compute; reflexivity.
    + apply PaExt. constructor; split; vm_compute; reflexivity.
  - apply PaExt. constructor. repeat constructor; vm_compute; reflexivity.
Qed.
Lemma exV_vals e : Forall (vkOK e) (kinds exV).
Proof. repeat constructor. Qed.

(** Without primitives: (x*3 + y*5 + x*7) and ((z*3 = 50) or (v*3 + r*5)). *)
Definition exVR := SDL (mkDL (Pt (5*3 + 20*5)) [Pt 3; Pt 5] [sv; sr] [] false).
Definition exT := SAnd [exDL; SOr [exZ; exVR] false None] false.
Definition exTV := SAnd [exDLV;
  SOr [SDL (mkDL (Pt 50) [Pt 3] [T 22 "z"] [] false);
       SDL (mkDL (Pt (5*3 + 20*5)) [Pt 3; Pt 5] [T 24 "v"; T 25 "r"] [] false)] false None] false.
Lemma exVR_true : Tru exsd exw exVR.
Proof. apply TrDL. split; [repeat constructor|pteq]. Qed.
Lemma exVR_supplied e : Supplied exsd exw e exVR.
Proof. apply SuDL. intros x [<-|[<-|[]]]; right; [apply (exknown _ 5)|apply (exknown _ 20)]; in_list. Qed.
Lemma exDL_supplied e : Supplied exsd exw e exDL.
Proof. apply SuDL. intros x [<-|[<-|[<-|[]]]]; right; [apply (exknown _ 4)|apply (exknown _ (-6))|apply (exknown _ 4)]; in_list. Qed.
Ltac ex_honest := constructor;
  [|apply wfLb_ok; vm_compute; reflexivity|vm_compute; repeat constructor; simpl; intuition discriminate
   |intros x y []| | |exact exsd_ok|intros x v _ H; discriminate H].
Ltac ex_ords := apply OrDL; let H := fresh in intros ? ? H; simpl in H;
  repeat (destruct H as [H|H]; [injection H as <- <-; reflexivity|]); destruct H.
Lemma exT_all :
  noext exT /\ honest exU exw exT exsd (env st0) /\ Shape exT /\ Supplied exsd exw (env st0) exT /\ Ords exord exT /\
  Apart exT /\ Pat tick untick exT exTV.
Proof.
  repeat match goal with |- _ /\ _ => split end.
  - repeat constructor.
  - ex_honest.
    + apply SoAnd. constructor; [exact exDL_ok|constructor; [|constructor]]. apply SoOr; [|repeat constructor].
      constructor; [|constructor; [|constructor]]; (apply SoDL; [incl_list|reflexivity|discriminate]).
    + apply TrAnd. constructor; [exact exDL_true|constructor; [|constructor]]. apply TrOr.
      intros x [<-|[<-|[]]] _; [left; exact exZ_refuses|right; exact exVR_true].
    + apply VaAnd. constructor; [|constructor; [|constructor]]; [constructor; intros k v []|].
      apply VaOr. constructor; [|constructor; [|constructor]]; (constructor; intros k v []).
  - apply ShAnd. constructor; [|constructor; [|constructor]].
    + apply ShDL. split; [reflexivity|]. split; [discriminate|]. repeat constructor.
    + apply ShOr; [discriminate|]. constructor; [|constructor; [|constructor]];
        (apply ShDL; split; [reflexivity|]; split; [discriminate|]; repeat constructor).
  - apply SuAnd. constructor; [apply exDL_supplied|constructor; [|constructor]].
    apply (SuOr _ _ _ _ _ exVR); [in_list|reflexivity|apply exVR_supplied| |].
    + intros y [<-|[<-|[]]] _; [left; exact exZ_refuses|right; apply exVR_supplied].
    + intros y [<-|[<-|[]]]; constructor.
  - apply OrAnd. constructor; [ex_ords|constructor; [|constructor]]. apply OrOr.
    constructor; [ex_ords|constructor; [ex_ords|constructor]].
  - apply ApAnd.
    + constructor; [constructor|constructor; [|constructor]]. apply ApOr. repeat constructor.
    + intros pre o post x y H Hx Hy.
      assert (o = SOr [exZ; exVR] false None /\ incl (pre ++ post) [sx; sy]) as [-> I].
      { inversion H as [|l1 s l2 b pr oo po C E1]; subst.
        destruct l1 as [|a1 [|a2 l1]]; simpl in E1; injection E1; intros; subst; inversion C; subst; simpl in *.
        1: { split; auto. incl_list. }
        all: exfalso; match goal with K : ?l ++ _ :: _ = [] |- _ => destruct l; discriminate K end. }
      specialize (I y Hy). simpl in Hx, I.
      repeat (destruct Hx as [<-|Hx]; [repeat (destruct I as [<-|I]; [discriminate|]); destruct I|]). destruct Hx.
  - apply PaAnd. constructor; [|constructor; [|constructor]].
    + apply PaDL; [reflexivity|reflexivity|]. repeat constructor; vm_compute; reflexivity.
    + apply PaOr. constructor; [|constructor; [|constructor]];
        (apply PaDL; [reflexivity|reflexivity|]; repeat constructor; vm_compute; reflexivity).
Qed.
Lemma exDL_all : honest exU exw exDL exsd (env st0) /\ dl_shape exD /\
  (forall x, In x (dl_secs exD) -> known (dl_vals exD) x \/ known exsd x) /\ Pat tick untick exDL exDLV.
Proof.
  repeat match goal with |- _ /\ _ => split end; try (now repeat constructor); try discriminate.
  - ex_honest; [exact exDL_ok|exact exDL_true|constructor; intros k v []].
  - assert (H := exDL_supplied (env st0)). now inversion H.
Qed.

Definition exVU := [T 20 "x"; T 21 "y"; T 22 "z"; T 23 "u"; T 24 "v"; T 25 "r"].
Lemma exV_all :
  Sok exVU exV /\ wfL (exVU ++ kints exV) /\ NoDup (map sid (kints exV)) /\
  (forall x y, In x (kints exV) -> In y exVU -> sid x <> sid y) /\ Shape exV /\ Forall notcustom (kinds exV) /\
  Forall (vkOK (env st0)) (kinds exV).
Proof.
  repeat match goal with |- _ /\ _ => split end.
  - apply SoAnd. constructor; [|constructor; [|constructor; [|constructor]]].
    + apply SoDL; [incl_list|reflexivity|discriminate].
    + apply SoOr; [|repeat constructor]. constructor; [|constructor; [|constructor]].
      * apply SoDL; [incl_list|reflexivity|discriminate].
      * apply SoExt. incl_list.
    + apply SoExt. incl_list.
  - apply wfLb_ok. vm_compute. reflexivity.
  - vm_compute. repeat constructor; simpl; intuition discriminate.
  - intros x y Hx Hy. assert (forallb (fun x => forallb (fun y => negb (Nat.eqb (sid x) (sid y))) exVU) (kints exV) = true) as C
      by (vm_compute; reflexivity).
    rewrite forallb_forall in C. specialize (C x Hx). rewrite forallb_forall in C. specialize (C y Hy).
    apply Bool.negb_true_iff, Nat.eqb_neq in C. exact C.
  - apply ShAnd. constructor; [|constructor; [|constructor; [|constructor]]].
    + apply ShDL. split; [reflexivity|]. split; [discriminate|]. repeat constructor.
    + apply ShOr; [discriminate|]. constructor; [|constructor; [|constructor]].
      * apply ShDL. split; [reflexivity|]. split; [discriminate|]. repeat constructor.
      * apply ShExt. repeat split.
    + apply ShExt. repeat split; auto; lia.
  - repeat constructor.
  - apply exV_vals.
Qed.

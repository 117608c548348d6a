(** Examples for C70 and C71: holders of two signatures under one key. *)
From Coq Require Import String Znumtheory.
From Verif Require Import Base World Val Expr Utils Stmt Prove Verify Spec Shapes Claims Honest Clauses Supply Extract Runs Views Distrib Unlink
  DictProofs Ktruth Provers ZqWorld Ex ExTree PropZk PropSound PropZk2 ZkTree ZkPre UnlinkProofs.
Open Scope Z_scope.
Open Scope list_scope.

(** Someone else has the signature A = 2, e = 8, s = 5 on the messages 1, 2 under the key of the example of C35; their secrets
    have other names. The verifier has the statement exBV without a signature. *)
Definition ex2Sig := mkSig (B1 2) 8 5.
Definition ex2Bs := [X 40 "e'"; X 41 "s'"; X 42 "m1'"; X 43 "m2'"].
Definition ex2Bsd : dict Z := [(X 42 "m1'", 1); (X 43 "m2'", 2)].
Definition ex2Bw (n : bytes) : Z :=
  if bytes_eqb n (lit "e'") then 8 else if bytes_eqb n (lit "s'") then 5 else if bytes_eqb n (lit "m1'") then 1 else 2.
Definition ex2Bi := [X 44 "r1'"; X 45 "r2'"; X 46 "d1'"; X 47 "d2'"].
Definition ex2BB : stmt :=
  SExt (KBBS exPk (Some ex2Sig) (pk_gens exPk) ex2Bs (X 44 "r1'") (X 45 "r2'") (X 46 "d1'") (X 47 "d2'")) false VNone None.
Definition st2B : st := mkSt (upd (upd (env st0) 40 (Some 8)) 41 (Some 5)) (tape st0) 0.
Definition idb (n : bytes) : bytes := n.
(** generators 2, 3, 0, 7: A = 42, e = 4, s = 6 signs 8, 9 and A = 41, e = 8, s = 5 signs 1, 2 *)
Definition bdPk := let gs := [B1 2; B1 3; B1 0; B1 7] in mkPk (B2 10) (B2 1) gs (map (fun g => pairing g (B2 1)) gs).
Definition bdS (sg : option bbs_sig) (ss : list secret) (l : list secret) : stmt :=
  match l with [r1; r2; d1; d2] => SExt (KBBS bdPk sg (pk_gens bdPk) ss r1 r2 d1 d2) false VNone None | _ => SAnd [] false end.
Definition bd1 := bdS (Some (mkSig (B1 42) 4 6)) exBs exBi.
Definition bd2 := bdS (Some (mkSig (B1 41) 8 5)) ex2Bs ex2Bi.
Definition bdV := bdS None exBs exBi.

Lemma any_key : exists (W : World) U w s sd e f g U' w' s' sd' e' f' g' v ord,
  honest U w s sd e /\ Shape s /\ Supplied sd w e s /\ Pat f g s v /\
  honest U' w' s' sd' e' /\ Shape s' /\ Supplied sd' w' e' s' /\ Pat f' g' s' v /\
  Ords ord v /\ (exists pk bs sv r1 r2 d1 d2 b pre con, v = SExt (KBBS pk None bs sv r1 r2 d1 d2) b pre con) /\
  forall c, (exists t x, outcome (whole_run s sd c) e t = Ok x) /\
    forall t t' x, outcome (whole_run s sd c) e t = Ok x -> outcome (whole_run s' sd' c) e' t' <> Ok x.
Proof.
  exists Zq, exBs, exBw, bd1, exBsd, (env stB), idb, idb, ex2Bs, ex2Bw, bd2, ex2Bsd, (env st2B), untick, tick, bdV, exord.
  assert (HH : @honest Zq exBs exBw bd1 exBsd (env stB)).
  { constructor.
    + apply SoExt. incl_list.
    + apply wfLb_ok; vm_compute; reflexivity.
    + repeat constructor; simpl; lia.
    + intros x y; simpl; intuition (subst; simpl in *; lia).
    + apply TrExt. apply (KT_BBS exBw bdPk (mkSig (B1 42) 4 6) (X 30 "e") (X 31 "s") [X 32 "m1"; X 33 "m2"]).
      * exists (1%N, 99%N), (2%N, 99%N), (3%N, 99%N). repeat split; try reflexivity. repeat constructor.
      * repeat constructor.
      * reflexivity.
      * reflexivity.
      * apply zpt_eq; vm_compute; reflexivity.
    + constructor.
    + intros k v [E|[E|[]]]; injection E as <- <-; (split; [simpl; auto|reflexivity]).
    + intros x v Hx E. simpl in Hx. repeat (destruct Hx as [<-|Hx]; [vm_compute in E; try discriminate E; injection E as <-; reflexivity|]). destruct Hx. }
  assert (SH : @Shape Zq bd1).
  { apply ShExt. exists (1%N, 99%N), (2%N, 99%N), (3%N, 99%N), 4%nat. split; [reflexivity|]. split; [repeat constructor|].
    repeat (split; [reflexivity|]). split; [split; apply Nat.leb_le; reflexivity|]. repeat (split; [reflexivity|]). intros a E. injection E as <-. reflexivity. }
  assert (SU : @Supplied Zq exBsd exBw (env stB) bd1).
  { apply SuExt; [|discriminate]. intros x [<-|[<-|[<-|[<-|[]]]]]; [right; discriminate|right; discriminate|left|left].
    + exists (X 32 "m1"), 8. split; [in_list|reflexivity].
    + exists (X 33 "m2"), 9. split; [in_list|reflexivity]. }
  assert (OR : @Ords Zq exord bd1).
  { apply OrExt. intros y p _ H. simpl in H. repeat (destruct H as [<-|H]; [reflexivity|]). destruct H. }
  split; [exact HH|split; [exact SH|split; [exact SU|split; [|split; [|split; [|split; [|split; [|split; [|split]]]]]]]]].
  - apply PaExt. constructor; repeat constructor; vm_compute; reflexivity.
  - constructor.
    + apply SoExt. incl_list.
    + apply wfLb_ok; vm_compute; reflexivity.
    + repeat constructor; simpl; lia.
    + intros x y; simpl; intuition (subst; simpl in *; lia).
    + apply TrExt. apply (KT_BBS ex2Bw bdPk (mkSig (B1 41) 8 5) (X 40 "e'") (X 41 "s'") [X 42 "m1'"; X 43 "m2'"]).
      * exists (1%N, 99%N), (2%N, 99%N), (3%N, 99%N). repeat split; try reflexivity. repeat constructor.
      * repeat constructor.
      * reflexivity.
      * reflexivity.
      * apply zpt_eq; vm_compute; reflexivity.
    + constructor.
    + intros k v [E|[E|[]]]; injection E as <- <-; (split; [simpl; auto|reflexivity]).
    + intros x v Hx E. simpl in Hx. repeat (destruct Hx as [<-|Hx]; [vm_compute in E; try discriminate E; injection E as <-; reflexivity|]). destruct Hx.
  - apply ShExt. exists (1%N, 99%N), (2%N, 99%N), (3%N, 99%N), 4%nat. split; [reflexivity|]. split; [repeat constructor|].
    repeat (split; [reflexivity|]). split; [split; apply Nat.leb_le; reflexivity|]. repeat (split; [reflexivity|]). intros a E. injection E as <-. reflexivity.
  - apply SuExt; [|discriminate]. intros x [<-|[<-|[<-|[<-|[]]]]]; [right; discriminate|right; discriminate|left|left].
    + exists (X 42 "m1'"), 1. split; [in_list|reflexivity].
    + exists (X 43 "m2'"), 2. split; [in_list|reflexivity].
  - apply PaExt. constructor; repeat constructor; vm_compute; reflexivity.
  - apply OrExt. intros y p _ H. simpl in H. repeat (destruct H as [<-|H]; [reflexivity|]). destruct H.
  - repeat eexists.
  - intros c. split.
    + exists (fun _ => 0). apply (whole_run_ok exBs exBw bd1 exBsd exord (env stB)); auto. constructor.
    + intros t t' [[pre com] r] H H'.
      assert (E1 := neutral_shows _ _ _ _ _ _ _ _ _ _ _ _ _ _ _ _ _ _ _ _ _ eq_refl H).
      assert (E2 := neutral_shows _ _ _ _ _ _ _ _ _ _ _ _ _ _ _ _ _ _ _ _ _ eq_refl H').
      rewrite E1 in E2. injection E2 as E2. discriminate E2.
Qed.

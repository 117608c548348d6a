(** Property C86: conversations about primitives defined by users, in conjunctions, say nothing but that the statement holds. *)
From Coq Require Import String Znumtheory Lia.
From Verif Require Import Base World Val Expr Utils Stmt Prove Verify Spec Shapes Claims Honest Clauses Supply Extract Runs Distrib Lib Custom Mixed MixedOr Nested
  Tutorial TreeZk TreeZkProofs ZqWorld Ex ExTree PropSound PropCustom PropMixed PropMixedOr PropZk2.
Open Scope Z_scope.
Open Scope list_scope.

(** C86, partial. Take a conjunction, nested in any way, of statements and of objects of classes whose precommitments hide the values
    [w0] of the secrets [V] (the ones that the prover supplies). For every challenge: the honest prover always answers, and its
    precommitment, commitment and response have the distribution of those that simulate_proof() makes, whatever values the secrets
    have there, or none. (The honest prover: whatever the random numbers, the statements that the classes construct hold for some
    values that agree with [w0].) Excluded: disjunctions, primitives in constructed statements, precommitments None. *)
Theorem C86_zero_knowledge_partial : forall (W : World) U V w0, wfL U -> incl V U -> forall T sd ord e e0 c,
  conjs (hiding V w0) T -> match T with TS _ => False | _ => True end -> heard T ->
  (forall c0, fill T c0 -> Ords ord c0) -> (forall x, In x V -> In x (map fst sd) \/ e (sid x) <> None) ->
  (forall t, exists w, (forall x, In x V -> w (sname x) = w0 (sname x)) /\ entries_ok U w sd /\ agree w e U /\ tok U w sd e T /\
     forall p s a, tget T sd (mkSt e t 0) = Ok ((Some p, s), a) -> tsincere U w T s p a) ->
  (forall t, exists pre com r, outcome (tconv T sd c) e t = Ok (pre, com, r)) /\
  same_distribution (outcome (tconv T sd c) e) (outcome (tsimconv T c) e0).
Proof. exact @tree_zk. Qed.
Print Assumptions C86_zero_knowledge_partial.

(** Classes with such precommitments: the library's inequality and signature proof (as in C58: the inequality holds, the base of the
    blinding of the signature is not the neutral element) and the inequality of the documentation. *)
Theorem C86_library_classes : forall (W : World) V w k,
  kshape k -> kreal w k -> blinded w k -> incl (kuser k) V -> wfL (kuser k ++ kint k) ->
  NoDup (map sid (kint k)) -> (forall x y, In x (kint k) -> In y V -> sid x <> sid y) -> hiding V w (class_of k).
Proof. exact @lib_hiding. Qed.
Print Assumptions C86_library_classes.
Theorem C86_documented_class : forall (W : World) H0 g H1 h x al be V w, let q := order (grp g) in
  has_sub (grp g) = true -> grp H0 = grp g -> grp H1 = grp g -> grp h = grp g -> prime q -> generated (grp g) -> H1 <> pmul (w (sname x)) h ->
  wfL [x; al; be] -> sid al <> sid be -> In x V -> (forall y, In y V -> sid y <> sid al /\ sid y <> sid be) ->
  hiding V w (tutorial_neq H0 g H1 h x al be).
Proof. exact @neq_hiding. Qed.
Print Assumptions C86_documented_class.

(** 12 = x*3 and an object of the class of C73: precommitment x*3 + t*5, of the simulation u*3. *)
Definition zT : mtree := TA [TS (SDL (mkDL (Pt 12) [Pt 3] [sx] [] false)); TK (exCom sx stx) false] false.
Definition zU := [sx; stx].
Definition zw (d : Z) (n : bytes) : Z := if bytes_eqb n (lit "x") then 4 else d.
Definition zsd : dict Z := [(sx, 4)].
Definition zto (t : nat -> Z) (j : nat) : Z := 4 + 69 * t j.
Definition zof (u : nat -> Z) (j : nat) : Z := (u j - 4) * 41.
Lemma z_wfL : wfL zU. Proof. apply wfLb_ok. reflexivity. Qed.
Lemma z_con C e : exists d1 d2, forall tp p, c_con (exCom sx stx) (VPt C) (mkSt e tp p) =
  Ok (SAnd [SDL (mkDL (Pt 12) [Pt 3] [sx] d1 false); SDL (mkDL C [Pt 3; Pt 5] [sx; stx] d2 false)] false, mkSt e tp p).
Proof.
  exists (fold_left (fun d s => match e (sid s) with Some v => dset e d s v | None => d end) [sx] []),
    (fold_left (fun d s => match e (sid s) with Some v => dset e d s v | None => d end) [sx; stx] []). reflexivity.
Qed.
Lemma z_pre e tp p : e 0%nat = Some 4 -> c_pre (exCom sx stx) (mkSt e tp p) =
  Ok (VPt (padd (pmul 4 (Pt 3)) (pmul (tp p mod 101) (Pt 5))), mkSt (upd e 6%nat (Some (tp p mod 101))) tp (S p)).
Proof.
  intros E. unfold exCom. cbn [c_pre]. unfold draw, value_of, get_env, set_value, lift, bind, ret. cbn [env tape pos].
  change (sid sx) with 0%nat. rewrite E. reflexivity.
Qed.
Lemma z_pt d u : (101 | u - (4 + 69 * d)) -> @padd Zq (pmul 4 (Pt 3)) (pmul (d mod 101) (Pt 5)) = pmul (u mod 101) (Pt 3).
Proof.
  intros [k K]. assert (Q : forall a b, a mod 101 = b mod 101 <-> exists k, a - b = k * 101).
  { intros a b. split.
    - intros H. exists (a / 101 - b / 101). rewrite (Z.div_mod a 101), (Z.div_mod b 101) at 1 by lia. lia.
    - intros [k' H]. replace a with (b + k' * 101) by lia. apply Z.mod_add. lia. }
  assert (D : exists i, d mod 101 = d + i * 101) by (exists (- (d / 101)); rewrite (Z.div_mod d 101) at 2 by lia; lia).
  assert (U' : exists i, u mod 101 = u + i * 101) by (exists (- (u / 101)); rewrite (Z.div_mod u 101) at 2 by lia; lia).
  destruct D as [i ->], U' as [j ->]. apply zpt_eq; [reflexivity|].
  change (((4 * 3) mod 101 + ((d + i * 101) * 5) mod 101) mod 101 = ((u + j * 101) * 3) mod 101).
  rewrite <- Zplus_mod. apply Q. exists (5 * i - 3 * j - 3 * k - 2 * d). lia.
Qed.
Lemma z_hiding : hiding [sx] (zw 0) (exCom sx stx).
Proof.
  exists 1%nat, (fun _ => 101), zto, zof, [sx; sx; stx]. split.
  { unfold zto, zof. split; [|split; [|split; [|split]]]; unfold congr.
    - intros j _. reflexivity.
    - intros t t' H j Hj. destruct (H j Hj) as [k K]. exists (69 * k). lia.
    - intros t t' H j Hj. destruct (H j Hj) as [k K]. exists (41 * k). lia.
    - intros t j Hj. exists (28 * t j). lia.
    - intros t j Hj. exists (28 * t j - 112). lia. }
  intros e t a u b VI C. specialize (C 0%nat ltac:(lia)). unfold from, zto in C. rewrite !Nat.add_0_r in C.
  specialize (VI sx (or_introl eq_refl)). change (zw 0 (sname sx)) with 4 in VI.
  destruct (z_con (padd (pmul 4 (Pt 3)) (pmul (t a mod 101) (Pt 5))) (upd e 6%nat (Some (t a mod 101)))) as (d1 & d2 & CON).
  do 3 eexists. exists (upd e 6%nat (Some (t a mod 101))). split; [|split; [|split; [|split]]].
  - intros t' Ct. specialize (Ct 0%nat ltac:(lia)). unfold from in Ct. rewrite !Nat.add_0_r in Ct. rewrite !Nat.add_1_r.
    assert (E : t' a mod 101 = t a mod 101).
    { destruct Ct as [k K]. replace (t a) with (t' a + k * 101) by lia. symmetry. apply Z.mod_add. lia. }
    split; [|apply CON]. rewrite (z_pre e t' a VI), E. reflexivity.
  - intros x [<-|[]]. exact VI.
  - reflexivity.
  - repeat constructor.
  - intros e0. rewrite !Nat.add_1_r. split.
    + rewrite (z_pt _ _ C). reflexivity.
    + destruct (z_con (padd (pmul 4 (Pt 3)) (pmul (t a mod 101) (Pt 5))) e0) as (d1' & d2' & CON'). eexists. split; [apply CON'|reflexivity].
Qed.
Lemma z_entries d l : incl l [(sx, 4); (stx, d)] -> entries_ok zU (zw d) l.
Proof. intros H k v I. apply H in I. destruct I as [[= <- <-]|[[= <- <-]|[]]]; (split; [in_list|reflexivity]). Qed.
Lemma z_true d sd vs : Tru sd (zw d) (SDL (mkDL (Pt 12) [Pt 3] [sx] vs false)).
Proof. apply TrDL. split; [repeat constructor|pteq]. Qed.
Example C86_ex : wfL zU /\ incl [sx] zU /\ conjs (hiding [sx] (zw 0)) zT /\ heard zT /\ (forall c, fill zT c -> Ords exord c) /\
  (forall x, In x [sx] -> In x (map fst zsd) \/ env st0 (sid x) <> None) /\
  forall t, exists w, (forall x, In x [sx] -> w (sname x) = zw 0 (sname x)) /\ entries_ok zU w zsd /\ agree w (env st0) zU /\ tok zU w zsd (env st0) zT /\
    forall p s a, tget zT zsd (mkSt (env st0) t 0) = Ok ((Some p, s), a) -> tsincere zU w zT s p a.
Proof.
  split; [exact z_wfL|]. split; [incl_list|]. split.
  { apply CjA. constructor; [apply CjS; [constructor|constructor]|constructor; [apply CjK, z_hiding|constructor]]. }
  split.
  { apply HeA; [constructor; [apply HeS|constructor; [apply HeK|constructor]]|].
    - intros pre c M. apply exCom_made in M as (C & d1 & d2 & -> & _). discriminate.
    - eexists. split; [right; left; reflexivity|discriminate]. }
  split.
  { intros c F. inversion F as [| |? ? cs b' F2|]; subst. inversion F2 as [|? c1 ? cs1 F3 F4]; subst. inversion F4 as [|? c2 ? cs2 F5 F6]; subst. inversion F6; subst.
    inversion F3; subst. inversion F5 as [? ? pre ? M| | |]; subst. apply exCom_made in M as (C & d1 & d2 & -> & ->).
    apply OrAnd. constructor; [ex_ords|constructor; [|constructor]]. apply OrAnd. constructor; [ex_ords|constructor; [ex_ords|constructor]]. }
  split; [intros x [<-|[]]; left; left; reflexivity|].
  intros t. set (d := t 0%nat mod 101). exists (zw d). split; [intros x [<-|[]]; reflexivity|].
  assert (AG : forall e, e = env st0 \/ e = upd (env st0) 0%nat (Some 4) -> agree (zw d) e zU).
  { intros e E x v [<-|[<-|[]]] H; destruct E as [-> | ->]; cbv in H; try discriminate H. injection H as <-. reflexivity. }
  assert (SO : forall vs, Sok zU (SDL (mkDL (Pt 12) [Pt 3] [sx] vs false))) by (intros vs; apply SoDL; [incl_list|reflexivity|discriminate]).
  assert (SH : forall vs, Shape (SDL (mkDL (Pt 12) [Pt 3] [sx] vs false))) by (intros vs; apply ShDL; split; [reflexivity|split; [discriminate|repeat constructor]]).
  split; [apply z_entries; incl_list|]. split; [apply AG; auto|]. split.
  { apply ToA. constructor; [apply ToS|constructor; [apply ToK|constructor]]. split; [constructor|]. split; [|split; [apply SH|]].
    - constructor; [apply SO|exact z_wfL|exact (NoDup_nil _)|intros y z []|apply z_true|apply VaDL; intros k v []|apply z_entries; incl_list|apply AG; auto].
    - apply SuDL. intros x [<-|[]]. right. exists sx, 4. split; [now left|reflexivity]. }
  intros p s a G.
  assert (Q : exists S1 e1, tget zT zsd (mkSt (env st0) t 0) = Ok ((Some (PAnd [PDL None; PExt zsd None]), SAnd [S1; tshell (TK (exCom sx stx) false)] false), mkSt e1 t 0) /\
     e1 0%nat = Some 4 /\ e1 6%nat = None) by (do 2 eexists; split; [reflexivity|split; reflexivity]).
  destruct Q as (S1 & e1 & Q & E0 & E6). rewrite Q in G. injection G as <- <- <-. unfold zT. cbn [tsincere each]. split; [exact Logic.I|]. intros r a' P. cbn [Nested.tpre] in P.
  assert (a' = mkSt e1 t 0) as -> by (destruct S1; cbn [precommit] in P; try discriminate P; injection P as _ <-; reflexivity). split; [|intros; exact Logic.I].
  set (C := padd (pmul 4 (Pt 3)) (pmul d (Pt 5))).
  exists (VPt C), (mkSt (upd e1 6%nat (Some d)) t 1).
  exists (SAnd [SDL (mkDL (Pt 12) [Pt 3] [sx] [(sx, 4)] false); SDL (mkDL C [Pt 3; Pt 5] [sx; stx] [(sx, 4); (stx, d)] false)] false).
  exists (mkSt (upd e1 6%nat (Some d)) t 1). split; [exact (z_pre e1 t 0%nat E0)|]. split.
  { assert (U1 : upd e1 6%nat (Some d) (sid sx) = Some 4) by exact E0.
    assert (U2 : upd e1 6%nat (Some d) (sid stx) = Some d) by reflexivity.
    generalize dependent (upd e1 6%nat (Some d)). intros e' U1 U2.
    unfold exCom. cbn [c_con]. unfold lift2, mk_dlrep, get_env, lift, bind, ret. cbn [as_pt emul eadd e_bases e_secs app forallb fold_left env].
    change (gid_eqb (grp (Pt 3)) (grp (Pt 3))) with true. change (gid_eqb (grp (Pt 5)) (grp (Pt 3))) with true. cbn [andb env]. rewrite U1, U2. reflexivity. }
  assert (A : agree (zw d) (upd e1 6%nat (Some d)) zU).
  { intros x v [<-|[<-|[]]] H; unfold upd in H; cbn in H; [rewrite E0 in H|]; injection H as <-; reflexivity. }
  split; [repeat constructor|]. split; [|split].
  + constructor; [|exact z_wfL|exact (NoDup_nil _)|intros y z []| | |apply z_entries; incl_list|exact A].
    * apply SoAnd. constructor; [apply SO|constructor; [|constructor]]. apply SoDL; [incl_list|reflexivity|discriminate].
    * apply TrAnd. constructor; [apply z_true|constructor; [|constructor]]. apply TrDL. split; [repeat constructor|]. unfold dl_holds. cbn [dl_lhs dl_bases dl_secs map].
      change (zw d (sname sx)) with 4. change (zw d (sname stx)) with d. apply zpt_eq; [reflexivity|].
      change (((4 * 3) mod 101 + (d * 5) mod 101) mod 101 = ((4 * 3) mod 101 + ((d * 5) mod 101 + 0) mod 101) mod 101). rewrite Z.add_0_r, Z.mod_mod by lia. reflexivity.
    * apply VaAnd. constructor; [|constructor; [|constructor]]; apply VaDL; apply z_entries; incl_list.
  + apply ShAnd. constructor; [apply SH|constructor; [|constructor]]. apply ShDL; split; [reflexivity|split; [discriminate|repeat constructor]].
  + apply SuAnd. constructor; [|constructor; [|constructor]]; apply SuDL; cbn [dl_secs dl_vals].
    * intros y [<-|[]]. left. exists sx, 4. split; [now left|reflexivity].
    * intros y [<-|[<-|[]]]; left; [exists sx, 4|exists stx, d]; (split; [cbn; tauto|reflexivity]).
Qed.

(** The values 7 of x in 21 = x*3, 36 <> x*5; the library's class, with the binding, and the documentation's. *)
Example C86_classes_ex :
  (kshape exNeqK /\ kreal exw exNeqK /\ blinded exw exNeqK /\ incl (kuser exNeqK) [su] /\ wfL (kuser exNeqK ++ kint exNeqK) /\ NoDup (map sid (kint exNeqK)) /\
   forall x y, In x (kint exNeqK) -> In y [su] -> sid x <> sid y) /\
  (@has_sub Zq (grp (Pt 3)) = true /\ prime (@order Zq (grp (Pt 3))) /\ @generated Zq (grp (Pt 3)) /\ Pt 36 <> pmul (exw (sname su)) (Pt 5) /\
   wfL [su; sal; sbe] /\ sid sal <> sid sbe /\ forall y, In y [su] -> sid y <> sid sal /\ sid y <> sid sbe).
Proof.
  assert (NE : Pt 36 <> pmul (exw (sname su)) (Pt 5)) by (intros E; apply (f_equal zv) in E; vm_compute in E; discriminate E).
  assert (WF : wfL [su; sal; sbe]) by (apply wfLb_ok; reflexivity).
  assert (D : forall y, In y [su] -> sid y <> sid sal /\ sid y <> sid sbe) by (intros y [<-|[]]; split; discriminate).
  split.
  - split; [repeat split|]. split; [exact Logic.I|]. split; [split; [exact prime101|split; [apply Zq_generated|exact NE]]|].
    split; [incl_list|]. split; [exact WF|]. split.
    + constructor; [intros [E|[]]; discriminate E|constructor; [intros []|constructor]].
    + intros x y [<-|[<-|[]]] H; destruct (D y H); congruence.
  - split; [reflexivity|]. split; [exact prime101|]. split; [apply Zq_generated|]. split; [exact NE|]. split; [exact WF|]. split; [discriminate|exact D].
Qed.

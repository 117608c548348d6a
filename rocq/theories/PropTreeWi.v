(** Property C87: what proofs about primitives defined by users depend on. *)
From Coq Require Import String Znumtheory Lia.
From Verif Require DictProofs.
From Verif Require Import Base World Val Expr Utils Stmt Prove Verify Spec Shapes Claims Honest Clauses Supply Extract Runs Views Distrib Lib Custom Mixed MixedOr Nested
  TreeWi TreeWiProofs ZqWorld Ex ExTree PropSound PropCustom PropMixed PropMixedOr.
Open Scope Z_scope.
Open Scope list_scope.

(** C87, partial. Two provers of one composition of any form, with primitives of users (or of the library, as classes) anywhere in it,
    have different values ([w], [w']). If they get to the same precommitment with the same choices (of branches, and of simulated
    transcripts for the others), then from there on nothing that they send depends on who of them it is: every challenge is
    answered, commitments and responses have the same distribution, and so have the non-interactive proofs. Partial: the statements
    constructed have no primitives (C75), precommitments are not None. *)
Theorem C87_values_hidden_partial : forall (W : World) U w w' T T' sd sd' ord a a' pre p s a1 p' s' a1',
  wfL U -> tpair T T' -> heard T -> heard T' -> (forall c, fill T c -> Ords ord c /\ Apart c) ->
  thonest U w T sd a -> thonest U w' T' sd' a' ->
  topen T sd a = Ok ((pre, p, s), a1) -> topen T' sd' a' = Ok ((pre, p', s'), a1') -> choices p = choices p' ->
  (forall c, (forall t, exists com r, outcome (honest_view s p c) (env a1) t = Ok (com, r)) /\
     same_distribution (outcome (honest_view s p c) (env a1)) (outcome (honest_view s' p' c) (env a1'))) /\
  (forall msg, same_distribution (outcome (rest pre p s msg) (env a1)) (outcome (rest pre p' s' msg) (env a1'))).
Proof. exact @tree_wi. Qed.
Print Assumptions C87_values_hidden_partial.
(** [rest] is what prove() does after precommit(). *)
Theorem C87_rest : forall (W : World) T sd msg a,
  tprove T sd msg a = match topen T sd a with Ok ((pre, p, s), a1) => rest pre p s msg a1 | Err x => Err x end.
Proof. exact @prove_rest. Qed.
Print Assumptions C87_rest.
(** The library's classes construct one statement of one precommitment, whatever the values: they are among the classes of C87. *)
Theorem C87_library_classes : forall (W : World) k pre c c',
  wfL (kuser k ++ kint k) -> made (class_of k) pre c -> made (class_of k) pre c' -> pstrip c = pstrip c'.
Proof. exact @lib_made. Qed.
Print Assumptions C87_library_classes.

(** A class that says 25 = x*3 + y*5, with the precommitment C = x*3 + t*5. *)
Definition exOpen (x y t : secret) : cls := mkCls (lit "Opened")
  (let! u := draw 101 in
   let! v := value_of x in
   set_value (sid t) u ;;
   let! C := lift (padd_chk (pmul v (Pt 3)) (pmul u (Pt 5))) in ret (VPt C))
  (fun pre => let! C := lift (as_pt pre) in
              let! p1 := lift2 (mk_dlrep (Pt 25) (eadd (emul x (Pt 3)) (emul y (Pt 5))) false) in
              let! p2 := lift2 (mk_dlrep C (eadd (emul x (Pt 3)) (emul t (Pt 5))) false) in lift (mk_and [p1; p2]))
  (let! u := draw 101 in ret (VPt (pmul u (Pt 3))))
  (fun pre => if val_eqb pre (VPt (Pt 0)) then Err EValidation else Ok tt).
(** 50 = z*3 (simulated) or an object of this class; x = 5, y = 2, t = 7 or x = 10, y = -1, t = 4. *)
Definition vT : mtree := TO [TS (SDL (mkDL (Pt 50) [Pt 3] [sz] [] true)); TK (exOpen sx sy stx) false] false.
Definition vU := [sx; sy; stx; sz].
Definition vsd (x y : Z) : dict Z := [(sx, x); (sy, y)].
Definition va (u : Z) : st := mkSt (fun _ => None) (fun i => match i with 3%nat => u | _ => Z.of_nat i + 20 end) 0.
Definition vw (x y u : Z) (n : bytes) : Z := if bytes_eqb n (lit "x") then x else if bytes_eqb n (lit "y") then y else u.
Lemma v_wfL : wfL vU. Proof. apply wfLb_ok. reflexivity. Qed.
Definition vcap (e : nat -> option Z) (l : list secret) : dict Z := fold_left (fun d s => match e (sid s) with Some v => dset e d s v | None => d end) l [].
Definition vcon (C : @pt Zq) (e : nat -> option Z) : stmt :=
  SAnd [SDL (mkDL (Pt 25) [Pt 3; Pt 5] [sx; sy] (vcap e [sx; sy]) false); SDL (mkDL C [Pt 3; Pt 5] [sx; stx] (vcap e [sx; stx]) false)] false.
Lemma v_con C e tp p : c_con (exOpen sx sy stx) (VPt C) (mkSt e tp p) = Ok (vcon C e, mkSt e tp p).
Proof. reflexivity. Qed.
Lemma v_made pre c : made (exOpen sx sy stx) pre c -> exists C e, pre = VPt C /\ c = vcon C e.
Proof.
  intros (a & a1 & a2 & P & Q). assert (E : exists C, pre = VPt C).
  { destruct P as [P|P]; cbn [exOpen c_pre c_sim] in P.
    - apply bind_ok in P as (u & b1 & _ & P). apply bind_ok in P as (v & b2 & _ & P). apply bind_ok in P as ([] & b3 & _ & P).
      apply bind_ok in P as (C & b4 & _ & P). unfold ret in P. injection P as <- _. eauto.
    - apply bind_ok in P as (u & b1 & _ & P). unfold ret in P. injection P as <- _. eauto. }
  destruct E as [C ->]. destruct a1 as [e tp p]. rewrite v_con in Q. injection Q as <- _. eauto.
Qed.
Lemma v_pre e tp p x : e 0%nat = Some x -> c_pre (exOpen sx sy stx) (mkSt e tp p) =
  Ok (VPt (padd (pmul x (Pt 3)) (pmul (tp p mod 101) (Pt 5))), mkSt (upd e 6%nat (Some (tp p mod 101))) tp (S p)).
Proof.
  intros E. unfold exOpen. cbn [c_pre]. unfold draw, value_of, get_env, set_value, lift, bind, ret. cbn [env tape pos].
  change (sid sx) with 0%nat. rewrite E. reflexivity.
Qed.
Lemma v_pair : tpair vT vT.
Proof.
  apply PaO. constructor; [apply PaS; reflexivity|constructor; [|constructor]]. apply PaK; [reflexivity|].
  intros pre c c' M M'. apply v_made in M as (C & e & -> & ->). apply v_made in M' as (C' & e' & [= <-] & ->). reflexivity.
Qed.
Lemma v_heard : heard vT.
Proof.
  apply HeO.
  - constructor; [apply HeS|constructor; [|constructor]]. apply HeK. intros pre c M. apply v_made in M as (C & e & -> & _). discriminate.
  - eexists. split; [right; left; reflexivity|]. intros pre c M. apply v_made in M as (C & e & -> & _). reflexivity.
Qed.
(** get_prover(): the same for all values *)
Definition vsims (u : Z) : list sim := match tget vT (vsd 0 0) (va u) with Ok ((Some (POr _ _ ts), _), _) => ts | _ => [] end.
Lemma v_get x y u : exists S1 e1, tget vT (vsd x y) (va u) =
  Ok ((Some (POr 1 (PExt (vsd x y) None) (vsims 7)), SOr [S1; tshell (TK (exOpen sx sy stx) false)] false (Some 1%nat)), mkSt e1 (tape (va u)) 3) /\
  e1 0%nat = Some x /\ e1 1%nat = Some y /\ e1 6%nat = None /\ e1 (sid sz) = None.
Proof. do 2 eexists. split; [reflexivity|repeat split]. Qed.
Lemma v_entries x y u l : incl l [(sx, x); (sy, y); (stx, u)] -> entries_ok vU (vw x y u) l.
Proof. intros H k v I. apply H in I. destruct I as [[= <- <-]|[[= <- <-]|[[= <- <-]|[]]]]; (split; [in_list|reflexivity]). Qed.
Lemma v_hon x y u e : 0 <= u < 101 -> (x * 3 + y * 5) mod 101 = 25 -> e 0%nat = Some x -> e 1%nat = Some y -> e 6%nat = Some u -> e (sid sz) = None ->
  hon vU (vw x y u) (vcon (padd (pmul x (Pt 3)) (pmul u (Pt 5))) e) (vsd x y) e.
Proof.
  intros HU HE E0 E1 E6 Ez.
  assert (V1 : vcap e [sx; sy] = [(sx, x); (sy, y)]) by (unfold vcap; cbn [fold_left]; change (sid sx) with 0%nat; change (sid sy) with 1%nat; rewrite E0, E1; reflexivity).
  assert (V2 : vcap e [sx; stx] = [(sx, x); (stx, u)]) by (unfold vcap; cbn [fold_left]; change (sid sx) with 0%nat; change (sid stx) with 6%nat; rewrite E0, E6; reflexivity).
  unfold vcon. rewrite V1, V2. split; [repeat constructor|]. split; [|split].
  - constructor; [|exact v_wfL|exact (NoDup_nil _)|intros ? ? []| | |apply v_entries; incl_list|].
    + apply SoAnd. constructor; [|constructor; [|constructor]]; (apply SoDL; [incl_list|reflexivity|discriminate]).
    + apply TrAnd. constructor; [|constructor; [|constructor]]; apply TrDL; (split; [repeat constructor|]); unfold dl_holds; cbn [dl_lhs dl_bases dl_secs map];
        change (vw x y u (sname sx)) with x; change (vw x y u (sname sy)) with y; change (vw x y u (sname stx)) with u; (apply zpt_eq; [reflexivity|]).
      * change (25 mod 101 = ((x * 3) mod 101 + ((y * 5) mod 101 + 0) mod 101) mod 101). rewrite Z.add_0_r, Z.mod_mod, <- Zplus_mod by lia. symmetry. exact HE.
      * change (((x * 3) mod 101 + (u * 5) mod 101) mod 101 = ((x * 3) mod 101 + ((u * 5) mod 101 + 0) mod 101) mod 101). rewrite Z.add_0_r, Z.mod_mod by lia. reflexivity.
    + apply VaAnd. constructor; [|constructor; [|constructor]]; apply VaDL; apply v_entries; incl_list.
    + intros z v [<-|[<-|[<-|[<-|[]]]]] H; cbn in H; [rewrite E0 in H|rewrite E1 in H|rewrite E6 in H|change (e (sid sz) = Some v) in H; rewrite Ez in H; discriminate H]; injection H as <-; reflexivity.
  - apply ShAnd. constructor; [|constructor; [|constructor]]; (apply ShDL; split; [reflexivity|split; [discriminate|repeat constructor]]).
  - apply SuAnd. constructor; [|constructor; [|constructor]]; apply SuDL; cbn [dl_secs dl_vals].
    + intros z [<-|[<-|[]]]; left; [exists sx, x|exists sy, y]; (split; [cbn; tauto|reflexivity]).
    + intros z [<-|[<-|[]]]; left; [exists sx, x|exists stx, u]; (split; [cbn; tauto|reflexivity]).
Qed.
Lemma v_honest x y u : 0 <= u < 101 -> (x * 3 + y * 5) mod 101 = 25 -> thonest vU (vw x y u) vT (vsd x y) (va u).
Proof.
  intros HU HE. split; [apply v_entries; incl_list|]. split; [intros z v _ H; discriminate H|]. split.
  - apply ToO.
    + constructor; [|constructor; [|constructor]].
      * apply TsS; [constructor|apply SoDL; [incl_list|reflexivity|discriminate]|apply ShDL; split; [reflexivity|split; [discriminate|repeat constructor]]].
      * apply TsK. intros [e tp p] AG. eexists _, _, _, _. split; [reflexivity|]. cbn [env tape pos]. split; [apply v_con|]. split; [repeat constructor|]. split; [|split; [|exact AG]].
        -- apply SoAnd. constructor; [|constructor; [|constructor]]; (apply SoDL; [incl_list|reflexivity|discriminate]).
        -- apply ShAnd. constructor; [|constructor; [|constructor]]; (apply ShDL; split; [reflexivity|split; [discriminate|repeat constructor]]).
    + eexists. split; [right; left; reflexivity|reflexivity].
    + intros t [<-|[<-|[]]] M; [discriminate M|apply ToK].
  - intros p s a1 G. destruct (v_get x y u) as (S1 & e1 & Q & E0 & E1 & E6 & Ez). rewrite Q in G. injection G as <- <- <-.
    unfold vT. cbn [tsincere nth_part]. cbn [va tape]. eexists _, _, _, _. split; [exact (v_pre e1 _ _ x E0)|]. split; [apply v_con|]. cbn [env].
    rewrite Z.mod_small by lia. apply v_hon; auto.
Qed.
Lemma v_gp C x y u e tp p : e 0%nat = Some x -> e 1%nat = Some y -> e 6%nat = Some u -> exists d1 d2 a1,
  get_prover (vcon C e) (vsd x y) (mkSt e tp p) = Ok ((Some (PAnd [PDL None; PDL None]), SAnd [SDL d1; SDL d2] false), a1).
Proof.
  intros E0 E1 E6. unfold vcon.
  replace (vcap e [sx; sy]) with [(sx, x); (sy, y)] by (unfold vcap; cbn [fold_left]; change (sid sx) with 0%nat; change (sid sy) with 1%nat; rewrite E0, E1; reflexivity).
  replace (vcap e [sx; stx]) with [(sx, x); (stx, u)] by (unfold vcap; cbn [fold_left]; change (sid sx) with 0%nat; change (sid stx) with 6%nat; rewrite E0, E6; reflexivity).
  cbn [get_prover]. unfold bind, update_secret_values. cbn [mapM]. unfold bind, get_prover_dl, get_env, bind, ret. cbn [env dl_vals dl_secs].
  set (e' := fold_left _ _ _). assert (F0 : e' 0%nat = Some x) by reflexivity. assert (F1 : e' 1%nat = Some y) by reflexivity. assert (F6 : e' 6%nat = Some u) by exact E6.
  clearbody e'. clear E0 E1 E6.
  assert (R : forall z, sec_eqb e' z z = true) by apply DictProofs.sec_eqb_refl.
  assert (N1 : sec_eqb e' sx sy = false) by reflexivity. assert (N2 : sec_eqb e' sx stx = false) by reflexivity. assert (N3 : sec_eqb e' stx sy = false) by reflexivity.
  assert (N4 : sec_eqb e' sy stx = false) by reflexivity. assert (N5 : sec_eqb e' stx sx = false) by reflexivity. assert (N6 : sec_eqb e' sy sx = false) by reflexivity.
  cbn [get_prover]. unfold bind, get_prover_dl, get_env, bind, ret, vsd, dupdate. cbn [env dl_vals dl_secs dl_lhs dl_bases fold_left dset fst snd].
  repeat (rewrite ?R, ?N1, ?N2, ?N3, ?N4, ?N5, ?N6; cbn [dset]). unfold dmem. cbn [existsb dget]. repeat (rewrite ?R, ?N1, ?N2, ?N3, ?N4, ?N5, ?N6; cbn [dget]).
  cbn [empty_dict is_some negb orb env tape pos fst snd].
  repeat (rewrite ?R, ?N1, ?N2, ?N3, ?N4, ?N5, ?N6; cbn [dset dget]). do 3 eexists. reflexivity.
Qed.
Example C87_ex : wfL vU /\ tpair vT vT /\ heard vT /\ (forall c, fill vT c -> Ords exord c /\ Apart c) /\
  thonest vU (vw 5 2 7) vT (vsd 5 2) (va 7) /\ thonest vU (vw 10 (-1) 4) vT (vsd 10 (-1)) (va 4) /\
  exists pre p s a1 p' s' a1', topen vT (vsd 5 2) (va 7) = Ok ((pre, p, s), a1) /\ topen vT (vsd 10 (-1)) (va 4) = Ok ((pre, p', s'), a1') /\ choices p = choices p'.
Proof.
  split; [exact v_wfL|]. split; [exact v_pair|]. split; [exact v_heard|]. split; [|split; [|split]].
  - intros c F. inversion F as [| | |? ? cs b' ch F2]; subst. inversion F2 as [|? c1 ? cs1 F3 F4]; subst. inversion F4 as [|? c2 ? cs2 F5 F6]; subst. inversion F6; subst.
    inversion F3; subst. inversion F5 as [? ? pre ? M| | |]; subst. apply v_made in M as (C & e & -> & ->). split.
    + apply OrOr. constructor; [ex_ords|constructor; [|constructor]]. apply OrAnd. constructor; [ex_ords|constructor; [ex_ords|constructor]].
    + apply ApOr. constructor; [apply ApDL|constructor; [apply exCom_apart|constructor]].
  - apply v_honest; [lia|reflexivity].
  - apply v_honest; [lia|reflexivity].
  - assert (G : forall x y u, 0 <= u < 101 -> exists s a1 p1, topen vT (vsd x y) (va u) = Ok ((pre_any (insert_at 1 (VPt (padd (pmul x (Pt 3)) (pmul u (Pt 5)))) (map t_pre (vsims 7))),
       POr 1 (PExt (vsd x y) (Some (Some p1))) (vsims 7), s), a1) /\ choices p1 = PAnd [PDL None; PDL None]).
    { intros x y u HU. destruct (v_get x y u) as (S1 & e1 & Q & E0 & E1 & E6 & Ez).
      destruct (v_gp (padd (pmul x (Pt 3)) (pmul u (Pt 5))) x y u (upd e1 6%nat (Some u)) (tape (va u)) 4 E0 E1 eq_refl) as (d1 & d2 & a1 & G).
      unfold topen, bind. rewrite Q. unfold vT. cbn [Nested.tpre at_nth tshell]. unfold obj_of. cbn [set_simulated]. unfold bind. rewrite (v_pre e1 _ _ x E0). rewrite v_con.
      cbn [va tape] in *. rewrite Z.mod_small by lia. rewrite G. do 3 eexists. split; reflexivity. }
    destruct (G 5 2 7 ltac:(lia)) as (s1 & a1 & p1 & X1 & X2). destruct (G 10 (-1) 4 ltac:(lia)) as (s2 & a2 & p2 & Y1 & Y2).
    assert (E : @padd Zq (pmul 10 (Pt 3)) (pmul 4 (Pt 5)) = padd (pmul 5 (Pt 3)) (pmul 7 (Pt 5))) by pteq. rewrite E in Y1.
    eexists _, _, _, _, _, _, _. split; [exact X1|]. split; [exact Y1|]. cbn [choices]. now rewrite X2, Y2.
Qed.
(** The library's classes *)
Example C87_classes_ex : wfL (kuser exNeqK ++ kint exNeqK) /\ exists pre c, made (class_of exNeqK) pre c.
Proof.
  split; [apply wfLb_ok; reflexivity|]. set (a := mkSt (upd (fun _ => None) (sid su) (Some 7)) (fun _ => 5) 0).
  assert (X : match c_pre (class_of exNeqK) a with Ok (pre, a1) => match c_con (class_of exNeqK) pre a1 with Ok _ => true | Err _ => false end | Err _ => false end = true) by (vm_compute; reflexivity).
  destruct (c_pre (class_of exNeqK) a) as [[pre a1]|] eqn:E1; [|discriminate X]. destruct (c_con (class_of exNeqK) pre a1) as [[c a2]|] eqn:E2; [|discriminate X].
  exists pre, c, a, a1, a2. auto.
Qed.

(** Completeness of proofs for generic ranges. *)
From Coq Require Import String Znumtheory.
From Verif Require Import Base World Val Expr Utils Stmt Prove Verify Spec Shapes Claims Lib Lin DictProofs Keeps Tree Sigma
  Validate Commit ArithProofs Build Process Ktruth Provers Honest Complete Clauses Compose Supply Total Total2 Total3 Total4 Complete2 Sound2 Prims.
Open Scope Z_scope.
Open Scope list_scope.

Section P.
Context {W : World}.

Lemma prove_pstrip U w s sd msg st z s' st' : honest U w s sd (env st) ->
  prove s sd msg st = Ok ((z, s'), st') -> pstrip s' = pstrip s.
Proof.
  intros HH HP. unfold prove in HP.
  apply bind_ok in HP as ([[p|] s1] & st1 & GP & HP); [|discriminate].
  apply bind_ok in HP as ([[z0 p0] s0] & st2 & GN & HP). apply ret_ok in HP as [HP ->]. injection HP as <- <-.
  unfold get_nizk_proof in GN.
  apply bind_ok in GN as ([[pre p2] s2] & st3 & PC & GN).
  apply bind_ok in GN as ([com p3] & st4 & IC & GN).
  apply bind_ok in GN as (h & st5 & Hh & GN). apply lift_ok in Hh as [Hh ->].
  apply bind_ok in GN as (c & st5 & Hc & GN). apply lift_ok in Hc as [Hc ->].
  apply bind_ok in GN as (r & st5 & CR & GN). apply ret_ok in GN as [GN ->]. injection GN as <- <- <-.
  destruct (honest_ready _ _ _ _ _ _ _ _ _ _ _ _ HH GP PC) as (w' & L & HL & _ & PS & PO & RD). auto.
Qed.
Lemma nonneutral_kinds s : Forall (fun k => match k with KNeq _ _ _ _ _ _ _ _ => False | _ => True end) (kinds s) -> nonneutral s.
Proof.
  induction s as [d|subs b IH|subs b ch IH|k b q|k b q con IH] using stmt_ind'; simpl; auto; intros H.
  1, 2: induction IH; simpl in *; auto; apply Forall_app in H as [H1 H2]; auto.
  1, 2: inversion H; destruct k; simpl; auto.
Qed.

Lemma F2_cons {A B} (R : A -> B -> Prop) a l b m : Forall2 R (a :: l) (b :: m) -> R a b /\ Forall2 R l m.
Proof. intros H. inversion H; auto. Qed.
Lemma no_clause d k1 b1 p1 c1 k2 b2 p2 c2 b pre oc post :
  ~ clause dvars (SAnd [SDL d; SExt k1 b1 p1 c1; SExt k2 b2 p2 c2] b) pre oc post.
Proof.
  intros CL. inversion CL as [|l1 s0 l2 bb pr oo po CL2 EE]; subst.
  assert (IN : In s0 (l1 ++ s0 :: l2)) by (apply in_or_app; right; now left). rewrite EE in IN.
  destruct IN as [<-|[<-|[<-|[]]]]; inversion CL2.
Qed.
(** *** Generic ranges *)
Lemma mk_range_inv com g h a b x r x1 x2 rs1 rs2 sb s st : mk_range com g h a b x r x1 x2 rs1 rs2 sb = Ok (s, st) ->
  let n := num_bits (b - a - 1) in let o := 2 ^ Z.of_nat n - (b - a) in
  exists com1 com2, psub_chk com (pmul a g) = Ok com1 /\ padd_chk com1 (pmul o g) = Ok com2 /\
  (env st = match env sb (sid x) with
            | Some v => upd (upd (env sb) (sid x1) (Some (v - a))) (sid x2) (Some (v - a + o))
            | None => env sb end) /\
  let isp y := is_some (env st (sid y)) && is_some (env st (sid r)) in
  s = SAnd [SDL (mkDL com [g; h] [x; r] (snapshot (env st) [x; r]) false);
            SExt (KRange com1 g h n (isp x1) x1 r rs1) false VNone None;
            SExt (KRange com2 g h n (isp x2) x2 r rs2) false VNone None] false.
Proof.
  intros H n o. unfold mk_range in H. fold n o in H.
  apply bind_ok in H as (com1 & s1 & H1 & H). apply lift_ok in H1 as [H1 ->].
  apply bind_ok in H as (com2 & s2 & H2 & H). apply lift_ok in H2 as [H2 ->].
  apply bind_ok in H as (e & s3 & H3 & H). unfold get_env in H3. injection H3 as <- <-.
  apply bind_ok in H as (u & s4 & H4 & H).
  apply bind_ok in H as (c & s5 & H5 & H).
  apply lift2_dl_iff in H5 as (-> & -> & _).
  apply bind_ok in H as (p1 & s6 & H6 & H). rewrite mk_range2_eq in H6. injection H6 as <- <-.
  apply bind_ok in H as (p2 & s7 & H7 & H). rewrite mk_range2_eq in H7. injection H7 as <- <-.
  cbn [and_op dlx] in H. unfold mk_and, bind, lift in H. cbn in H. injection H as <- <-.
  exists com1, com2. split; auto. split; auto. split; [|reflexivity].
  destruct (env sb (sid x)); unfold bind, set_value, ret in H4; injection H4 as <- <-; reflexivity.
Qed.

Lemma range_complete com g h a b x r x1 x2 rs1 rs2 v t sd msg sb st s :
  let n := num_bits (b - a - 1) in let all := x :: r :: x1 :: x2 :: rs1 ++ rs2 in
  mk_range com g h a b x r x1 x2 rs1 rs2 sb = Ok (s, st) ->
  NoDup (map sname all) -> NoDup (map sid all) -> List.length rs1 = n -> List.length rs2 = n -> (2 <= n)%nat ->
  grp h = grp g -> com = padd (pmul v g) (pmul t h) -> a <= v < b ->
  env sb (sid x) = Some v -> env sb (sid r) = Some t -> (forall k u, In (k, u) sd -> (k = x /\ u = v) \/ (k = r /\ u = t)) ->
  (exists z s' st', prove s sd msg st = Ok ((z, s'), st') /\
     forall x' r' x1' x2' rs1' rs2' svst sbv stv, NoDup (map sname (x' :: r' :: x1' :: x2' :: rs1' ++ rs2')) ->
       List.length rs1' = n -> List.length rs2' = n ->
       mk_range com g h a b x' r' x1' x2' rs1' rs2' sbv = Ok (svst, stv) ->
       env sbv (sid x') = None -> env sbv (sid x1') = None -> env sbv (sid x2') = None ->
       exists sv', verify svst z msg stv = Ok ((true, sv'), stv)) \/
  oversized s sd st.
Proof.
  intros n all MK N1 N2 L1 L2 Ln Gh EC RV Ex Er SD.
  apply mk_range_inv in MK as (com1 & com2 & C1 & C2 & ENV & ES). rewrite Ex in ENV. fold n in C2, ENV, ES.
  set (o := 2 ^ Z.of_nat n - (b - a)) in *. cbv zeta in ES.
  destruct (proj1 (range_reduction_l a b v) RV) as [R1 R2]. fold n in R1, R2. fold o in R2.
  assert (D : forall i j p q, i <> j -> nth_error all i = Some p -> nth_error all j = Some q -> sid p <> sid q /\ sname p <> sname q).
  { intros i j p q Nij Hp Hq. split; intros E.
    - apply Nij. apply (proj1 (NoDup_nth_error (map sid all)) N2); [rewrite map_length; apply nth_error_Some; congruence|].
      rewrite !nth_error_map, Hp, Hq. simpl. now rewrite E.
    - apply Nij. apply (proj1 (NoDup_nth_error (map sname all)) N1); [rewrite map_length; apply nth_error_Some; congruence|].
      rewrite !nth_error_map, Hp, Hq. simpl. now rewrite E. }
  assert (Dxr := D 0%nat 1%nat x r ltac:(lia) eq_refl eq_refl). assert (Dx1 := D 0%nat 2%nat x x1 ltac:(lia) eq_refl eq_refl).
  assert (Dx2 := D 0%nat 3%nat x x2 ltac:(lia) eq_refl eq_refl). assert (Dr1 := D 1%nat 2%nat r x1 ltac:(lia) eq_refl eq_refl).
  assert (Dr2 := D 1%nat 3%nat r x2 ltac:(lia) eq_refl eq_refl). assert (D12 := D 2%nat 3%nat x1 x2 ltac:(lia) eq_refl eq_refl).
  assert (Fx : env st (sid x) = Some v) by (rewrite ENV, !upd_other; tauto).
  assert (Fr : env st (sid r) = Some t) by (rewrite ENV, !upd_other; tauto).
  assert (F1 : env st (sid x1) = Some (v - a)) by (rewrite ENV, upd_other, upd_same; tauto).
  assert (F2 : env st (sid x2) = Some (v - a + o)) by (rewrite ENV; apply upd_same).
  rewrite Fr, F1, F2 in ES. simpl (is_some _ && _) in ES.
  set (U := [x; r; x1; x2]).
  set (w := fun m => if bytes_eqb m (sname x) then v else if bytes_eqb m (sname r) then t else
                     if bytes_eqb m (sname x1) then v - a else v - a + o).
  assert (BE : forall p q, sname p <> sname q -> bytes_eqb (sname p) (sname q) = false).
  { intros p q H. destruct (bytes_eqb _ _) eqn:E; auto. apply bytes_eqb_eq in E. congruence. }
  assert (BR : forall m, bytes_eqb m m = true) by (intros; now apply bytes_eqb_eq).
  assert (wx : w (sname x) = v) by (unfold w; now rewrite BR).
  assert (wr : w (sname r) = t) by (unfold w; rewrite BE, BR; [auto|intros E; apply Dxr; auto]).
  assert (w1 : w (sname x1) = v - a).
  { unfold w. rewrite (BE x1 x), (BE x1 r), BR; auto; intros E; [apply Dr1|apply Dx1]; auto. }
  assert (w2 : w (sname x2) = v - a + o).
  { unfold w. rewrite (BE x2 x), (BE x2 r), (BE x2 x1); auto; intros E; [apply D12|apply Dr2|apply Dx2]; auto. }
  assert (AGU : agree w (env st) U).
  { intros y u Hy Hu. destruct Hy as [<-|[<-|[<-|[<-|[]]]]]; congruence. }
  assert (KI : kints s = rs1 ++ rs2) by (rewrite ES; unfold kints; simpl; now rewrite app_nil_r).
  assert (G1 : grp com = grp g) by (rewrite EC, grp_add; rewrite ?grp_mul; congruence).
  assert (HS := psub_has _ _ _ C1). rewrite G1 in HS.
  apply psub_chk_ok in C1 as [_ C1]. apply padd_chk_ok in C2 as [_ C2].
  assert (Q1 : com1 = padd (pmul (v - a) g) (pmul t h)).
  { rewrite C1, EC. unfold pneg. glin (grp g). }
  assert (Q2 : com2 = padd (pmul (v - a + o) g) (pmul t h)) by (rewrite C2, Q1; glin (grp g)).
  assert (GC1 : grp com1 = grp g) by (rewrite Q1, grp_add; rewrite ?grp_mul; congruence).
  assert (GC2 : grp com2 = grp g) by (rewrite Q2, grp_add; rewrite ?grp_mul; congruence).
  set (k1 := KRange com1 g h n true x1 r rs1) in *. set (k2 := KRange com2 g h n true x2 r rs2) in *.
  assert (T1 : KTrue w k1) by (apply KT_Range; auto; now rewrite w1, wr).
  assert (T2 : KTrue w k2) by (apply KT_Range; auto; now rewrite w2, wr).
  assert (NI : NoDup (map sid (rs1 ++ rs2))).
  { unfold all in N2. cbn [map] in N2. do 4 apply NoDup_cons_iff in N2 as [_ N2]. exact N2. }
  assert (DJ : forall p q, In p (rs1 ++ rs2) -> In q U -> sid p <> sid q).
  { intros p q Hp Hq E. unfold all in N2. cbn [map] in N2.
    apply NoDup_cons_iff in N2 as [A1 N2]. apply NoDup_cons_iff in N2 as [A2 N2].
    apply NoDup_cons_iff in N2 as [A3 N2]. apply NoDup_cons_iff in N2 as [A4 _].
    assert (P := in_map sid _ _ Hp). rewrite E in P. simpl in A1, A2, A3.
    destruct Hq as [<-|[<-|[<-|[<-|[]]]]]; tauto. }
  assert (HO : honest U w s sd (env st)).
  { constructor; rewrite ?KI; auto.
    - rewrite ES. apply SoAnd.
      constructor; [|constructor; [|constructor; [|constructor]]]; [apply SoDL; [|reflexivity|discriminate]|apply SoExt|apply SoExt];
        intros y Hy; simpl in Hy |- *; tauto.
    - change (U ++ rs1 ++ rs2) with all. now apply nodup_wfL.
    - rewrite ES. apply TrAnd. constructor; [|constructor; [|constructor; [|constructor]]]; [|now constructor|now constructor].
      constructor. split; [repeat constructor; cbn; congruence|]. unfold dl_holds. cbn [dl_lhs dl_secs dl_bases map lincomb].
      rewrite wx, wr, G1. rewrite EC. now rewrite (add_inf_r' (grp g)) by now rewrite grp_mul.
    - rewrite ES. apply VaAnd. constructor; [|repeat constructor]. constructor. intros y u Hy.
      apply snapshot_in in Hy as [Hy1 Hy2]. split; [simpl in Hy1 |- *; tauto|]. apply AGU; auto. simpl in Hy1 |- *. tauto.
    - intros k u Hk. destruct (SD k u Hk) as [[-> ->]|[-> ->]]; split; auto; simpl; auto. }
  destruct (nizk_complete U w s sd (fun _ => order (grp g)) msg st HO) as [H|H].
  - rewrite ES. apply ShAnd. constructor; [|constructor; [|constructor; [|constructor]]].
    + apply ShDL. split; [reflexivity|]. split; [discriminate|]. repeat constructor; cbn; congruence.
    + apply ShExt. repeat split; auto; congruence.
    + apply ShExt. repeat split; auto; congruence.
  - rewrite ES. apply SuAnd. constructor; [|constructor; [|constructor; [|constructor]]].
    + apply SuDL. cbn [dl_secs dl_vals]. intros y Hy. left.
      apply snapshot_known; auto. destruct Hy as [<-|[<-|[]]]; congruence.
    + apply SuExt; [intros y [<-|[<-|[]]]; right; congruence|]. split; auto. now rewrite w1.
    + apply SuExt; [intros y [<-|[<-|[]]]; right; congruence|]. split; auto. now rewrite w2.
  - rewrite ES. apply OrAnd. constructor; [|constructor; [|constructor; [|constructor]]].
    + apply OrDL. intros y p Hy. cbn in Hy. destruct Hy as [Hy|[Hy|[]]]; injection Hy as <- <-; congruence.
    + apply OrExt. intros y _. congruence.
    + apply OrExt. intros y _. congruence.
  - rewrite ES. apply ApAnd; [repeat constructor|]. intros pre oc post y z CL.
    exfalso. eapply no_clause. exact CL.
  - left. destruct H as (z & s' & st' & P & AC). exists z, s', st'. split; [exact P|].
    intros x' r' x1' x2' rs1' rs2' svst sbv stv N3 L1' L2' MK Ex' Ex1' Ex2'.
    apply mk_range_inv in MK as (com1' & com2' & C1' & C2' & ENV' & ES'). rewrite Ex' in ENV'. fold n in C2', ENV', ES'. fold o in C2'.
    cbv zeta in ES'. rewrite ENV', Ex1', Ex2' in ES'. simpl (is_some _ && _) in ES'.
    apply psub_chk_ok in C1' as [_ C1']. apply padd_chk_ok in C2' as [_ C2'].
    assert (com1' = com1 /\ com2' = com2) as [-> ->] by (split; congruence).
    destruct (rename_exists all (x' :: r' :: x1' :: x2' :: rs1' ++ rs2')) as (f & f' & R); auto.
    { unfold all. simpl. rewrite !app_length. lia. }
    unfold all in R. apply F2_cons in R as [Y1 R]. apply F2_cons in R as [Y2 R]. apply F2_cons in R as [Y3 R]. apply F2_cons in R as [Y4 R6].
    apply Forall2_app_inv_l in R6 as (a1 & b1 & RA & RB & EQ).
    apply app_inv_length in EQ as [<- <-]; [|apply Forall2_len in RA; lia].
    apply (AC) with (f := f) (g := f').
    { apply nonneutral_kinds. rewrite (kinds_same s' s) by (eapply prove_pstrip; eauto). rewrite ES. repeat constructor. }
    { rewrite ES, ES'. apply PaAnd. constructor; [|constructor; [|constructor; [|constructor]]].
      - apply PaDL; [reflexivity|reflexivity|]. cbn [dl_secs]. constructor; [exact Y1|constructor; [exact Y2|constructor]].
      - apply PaExt. unfold k1. apply KSRange. exact RA.
      - apply PaExt. unfold k2. apply KSRange. exact RB. }
    rewrite ES'. repeat constructor.
  - right. exact H.
Qed.

(** Ranges of at most two elements: no proof. *)
Lemma construct_range_2 com g h n isp x r rs pre st c st' :
  construct (KRange com g h n isp x r rs) pre st = Ok (c, st') -> (2 <= n)%nat.
Proof.
  cbn [construct]. unfold construct_range. intros H.
  apply bind_ok in H as (e & s1 & H1 & H). apply bind_ok in H as (bits & s2 & H2 & H).
  apply bind_ok in H as (subs & s3 & H3 & H). apply lift_ok in H as [H _].
  unfold mk_and in H. destruct (Nat.ltb_spec (List.length subs) 2); [discriminate|].
  assert (L : List.length subs = List.length (combine rs bits)).
  { clear - H3. revert H3. generalize 0%nat, s2, subs, s3. induction (combine rs bits) as [|a l IH]; intros i s subs' s' H; simpl in H.
    - apply ret_ok in H as [<- _]. reflexivity.
    - apply bind_ok in H as (y & t1 & Y1 & H). apply bind_ok in H as (ys & t2 & Y2 & H). apply ret_ok in H as [<- _].
      simpl. f_equal. eauto. }
  assert (List.length bits = n).
  { clear - H2. destruct isp; [|apply ret_ok in H2 as [<- _]; apply repeat_length].
    destruct (e (sid x)); [|discriminate]. apply bind_ok in H2 as (l & t & D & H2). apply ret_ok in H2 as [<- _].
    apply lift_ok in D as [D _]. apply decompose_eq in D. rewrite map_length. tauto. }
  rewrite combine_length in L. lia.
Qed.

Lemma zipM_at {A B C} (f : A -> B -> M C) l : forall m s zs s' i x y, zipM f l m s = Ok (zs, s') ->
  nth_error l i = Some x -> nth_error m i = Some y -> exists a z b, f x y a = Ok (z, b).
Proof.
  induction l as [|x0 l IH]; intros [|y0 m] s zs s' i x y H Hx Hy; try (destruct i; discriminate).
  simpl in H. apply bind_ok in H as (z & s1 & H1 & H). apply bind_ok in H as (zs' & s2 & H2 & H).
  destruct i; simpl in *; [injection Hx as <-; injection Hy as <-; eauto|eauto].
Qed.
Lemma get_prover_and_len subs b sd st p s1 st1 : get_prover (SAnd subs b) sd st = Ok ((Some p, s1), st1) ->
  exists ps subs', p = PAnd ps /\ s1 = SAnd subs' b /\ List.length ps = List.length subs'.
Proof.
  simpl. intros H. apply bind_ok in H as (u & s2 & _ & H). destruct b; [discriminate|].
  apply bind_ok in H as (l & s3 & _ & H). destruct (forallb _ l) eqn:F; [|discriminate].
  injection H as <- <- _. do 2 eexists. split; [reflexivity|]. split; [reflexivity|]. rewrite map_length.
  induction l as [|[[q|] x] l IH]; simpl in *; try discriminate; auto.
Qed.
Lemma precommit_and_ext subs b ps i k b' q con st x st' : nth_error subs i = Some (SExt k b' q con) ->
  List.length ps = List.length subs ->
  precommit (SAnd subs b) (PAnd ps) st = Ok (x, st') -> exists pre s1 c s2, construct k pre s1 = Ok (c, s2).
Proof.
  intros N L H. simpl in H. apply bind_ok in H as (l & s1 & Z & _).
  destruct (nth_error ps i) as [pp|] eqn:Np.
  2:{ apply nth_error_None in Np. assert (nth_error subs i <> None) by congruence. apply nth_error_Some in H. lia. }
  destruct (zipM_at _ _ _ _ _ _ _ _ _ Z N Np) as (t1 & y & t2 & E).
  destruct pp; simpl in E; try discriminate.
  apply bind_ok in E as (pre & u1 & E1 & E). apply bind_ok in E as (c & u2 & E2 & E). eauto.
Qed.

Lemma range_small com g h a b x r x1 x2 rs1 rs2 sb s st : a < b <= a + 2 ->
  mk_range com g h a b x r x1 x2 rs1 rs2 sb = Ok (s, st) -> forall sd msg st1 y, prove s sd msg st1 <> Ok y.
Proof.
  intros R MK sd msg st1 y P. apply mk_range_inv in MK as (com1 & com2 & _ & _ & _ & ES). cbv zeta in ES.
  unfold prove in P. apply bind_ok in P as ([[p|] s1] & st2 & GP & P); [|discriminate].
  apply bind_ok in P as ([[z0 p0] s0] & st3 & GN & _).
  unfold get_nizk_proof in GN. apply bind_ok in GN as ([[pre p2] s2] & st4 & PC & _).
  assert (PS := get_prover_pstrip _ _ _ _ _ _ GP). rewrite ES in PS. rewrite ES in GP.
  apply get_prover_and_len in GP as (ps & subs & -> & -> & L). simpl in PS. injection PS as PS.
  destruct subs as [|u1 [|u2 us]]; try discriminate PS. simpl in PS. injection PS as P1 P2 P3.
  destruct u2; try discriminate P2. simpl in P2. injection P2 as ->.
  destruct (precommit_and_ext (_ :: _ :: _) _ _ 1 _ _ _ _ _ _ _ eq_refl L PC) as (pre' & s' & c & s'' & C).
  apply construct_range_2 in C. assert (b - a - 1 = 0 \/ b - a - 1 = 1) as [E|E] by lia; rewrite E in C; vm_compute in C; lia.
Qed.
(** Generic ranges can be formed for commitments in the group of g. *)
Lemma mk_range_total com g h a b x r x1 x2 rs1 rs2 sb : has_sub (grp g) = true -> grp com = grp g -> grp h = grp g ->
  exists s st, mk_range com g h a b x r x1 x2 rs1 rs2 sb = Ok (s, st).
Proof.
  intros HS G1 G2. unfold mk_range. rewrite psub_chk_eq by congruence.
  rewrite (padd_chk_same com) by (unfold pneg; rewrite grp_mul, grp_mul; congruence). rewrite bind_lift_ok.
  rewrite padd_chk_same by (rewrite grp_add; unfold pneg; rewrite ?grp_mul; congruence). rewrite bind_lift_ok.
  assert (MD : forall st b, mk_dlrep com (eadd (emul x g) (emul r h)) b st =
     Ok (mkDL com [g; h] [x; r] (snapshot (env st) [x; r]) b, st)).
  { intros. apply mk_dlrep_total with (grp g); [discriminate|repeat constructor; auto]. }
  unfold bind, get_env, lift2. unfold bind.
  destruct (env sb (sid x)); unfold set_value; cbn [env tape pos]; unfold ret; rewrite MD; do 2 eexists; reflexivity.
Qed.
End P.

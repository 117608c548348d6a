(** More on the primitives: two groups, values supplied late, range-only statements, interactive runs. *)
From Coq Require Import String Znumtheory.
From Verif Require Import Base World Val Expr Utils Stmt Prove Verify Spec Shapes Claims Honest Clauses Extract Ident Lib Lin DictProofs Keeps Tree
  Sigma ArithProofs Build Process Ktruth Supply Provers Total Total2 Total3 Sound Sound2 Sound4 Forge Prims RangeC RangeS IdProofs2.
Open Scope Z_scope.
Open Scope list_scope.

Section P.
Context {W : World}.

(** ** Inequality over two groups *)
Lemma neq_extract2 a b g h H0 H1 P : let q := order (grp g) in prime q -> order (grp h) = q -> grp H0 = grp g -> grp H1 = grp h ->
  g <> inf (grp g) -> inf (grp g) = padd (pmul a g) (pmul b H0) -> P = padd (pmul a h) (pmul b H1) -> P <> inf (grp h) ->
  let y := - a * zinv b q in ~ (q | b) /\ (q | b * y + a) /\ H0 = pmul y g /\ H1 <> pmul y h.
Proof.
  intros q PR Oh G0 G1 Ng E EP NP y.
  assert (Nb : ~ (q | b)).
  { intros D. rewrite (mul_div b H0) in E by (now rewrite G0). rewrite G0, add_inf_r' in E by apply grp_mul.
    destruct (Zdivide_dec q a) as [Da|Da].
    - apply NP. rewrite EP, (mul_div a h), (mul_div b H1) by (now rewrite ?G1, ?Oh). rewrite G1. apply add_inf_l', grp_inf.
    - apply Ng. symmetry in E. eapply prime_mul_inf; eauto. }
  assert (Y := zinv_spec b q PR Nb). fold q in Y.
  assert (D : (q | b * y + a)).
  { unfold y. replace (b * (- a * zinv b q) + a) with (- a * (zinv b q * b - 1)) by ring. now apply Z.divide_mul_r. }
  split; auto. split; auto. split.
  - assert (X : H0 = pmul (zinv b q) (pmul b H0)).
    { rewrite mul_mul. rewrite <- (mul_1 H0) at 1. symmetry. apply mul_cong. now rewrite G0. }
    symmetry in E. rewrite add_comm in E by (rewrite !grp_mul; congruence).
    apply (add_inf_eq (grp g)) in E; rewrite ?grp_mul; auto.
    rewrite X, E. unfold y. glin (grp g).
  - intros X. apply NP. rewrite EP, X.
    transitivity (pmul (b * y + a) h); [glin (grp h)|]. rewrite mul_div by now rewrite Oh. congruence.
Qed.

Lemma neq_sound2 H0 g H1 h x al be bnd sim pre st v s st1 e com c c' r r' :
  process_pre (mk_neq H0 g H1 h x al be bnd sim) (get_verifier (mk_neq H0 g H1 h x al be bnd sim)) pre st = Ok ((v, s), st1) ->
  let q := order (grp g) in prime q -> order (grp h) = q -> pre <> VPt (inf (grp h)) -> g <> inf (grp g) ->
  coh e (svars s) -> ~ (q | c - c') ->
  verify_resp e s v com c r = Ok true -> verify_resp e s v com c' r' = Ok true ->
  exists w y, Extr w s c c' r r' /\ (q | w q (sname be) * y + w q (sname al)) /\ ~ (q | w q (sname be)) /\
    H0 = pmul y g /\ H1 <> pmul y h /\ (bnd = true -> (q | y - w q (sname x))).
Proof.
  intros HP q PR Oh NPre Ng CO ND A A'. assert (V := process_match _ _ _ _ _ _ HP).
  unfold mk_neq in HP. cbn [process_pre get_verifier] in HP. apply bind_ok in HP as (con & st2 & HC & HP).
  apply ret_ok in HP as [HP ->]. injection HP as <- <-.
  destruct (ext_accept _ _ _ _ _ _ _ _ _ V A) as (F & R & RS).
  assert (LW : wfs con) by (apply construct_leafy in HC as [_ L]; eapply leafy_wfs; eauto).
  cbn [construct] in HC. apply construct_neq_inv in HC as (-> & P & -> & K1 & K2 & ->).
  inversion LW as [|? ? LWs| | |]; subst.
  assert (LG := leaf_groups _ _ _ _ _ LWs ltac:(intros y Hy; destruct Hy as [<-|[<-|Hy]]; [eexists; reflexivity|eexists; reflexivity|];
    destruct bnd; [destruct Hy as [<-|[]]; eexists; reflexivity|destruct Hy]) R RS).
  assert (L1 := LG _ (or_introl eq_refl)). assert (L2 := LG _ (or_intror (or_introl eq_refl))). cbn in L1, L2.
  apply in_group_cons in L1 as [_ L1]. apply in_group_cons in L1 as [G0 _]. rewrite grp_inf in G0.
  apply in_group_cons in L2 as [G2 L2]. apply in_group_cons in L2 as [G1 _].
  assert (GP : grp P = grp h) by congruence.
  assert (ORD : forall Q : Z -> Prop, Q q -> orders_in Q (SExt (KNeq H0 g H1 h x al be bnd) sim (VPt P) (Some (SAnd
    (dlx (env st) (inf (grp g)) (eadd (emul al g) (emul be H0)) :: dlx (env st) P (eadd (emul al h) (emul be H1)) ::
            (if bnd then [dlx (env st) H0 (emul x g)] else [])) false)))).
  { intros Q HQ. do 3 constructor.
    - apply OiDL. cbn [dl_lhs]. now rewrite grp_inf.
    - constructor; [apply OiDL; cbn [dl_lhs]; now rewrite GP, Oh|].
      destruct bnd; constructor; [|constructor]. apply OiDL. cbn [dl_lhs]. now rewrite G0. }
  destruct (extract_resp e _ _ com c c' r r' V) as [w EX]; auto.
  { constructor. auto. }
  { left. do 3 constructor; [constructor|]. destruct bnd; repeat constructor. }
  assert (S := Extr_Sat _ _ _ _ _ _ EX). inversion S as [| | |? ? ? ? S1]; subst. inversion S1 as [|? ? S2| |]; subst.
  inversion S2 as [|? ? E1 S3]; subst. inversion S3 as [|? ? E2 S4]; subst. inversion E1 as [? _ E1'| | |]; subst. inversion E2 as [? _ E2'| | |]; subst.
  unfold dl_holds in E1', E2'. cbn [dl_lhs dl_secs dl_bases e_secs e_bases eadd emul List.app map lincomb] in E1', E2'.
  rewrite grp_inf in E1'. rewrite GP, Oh in E2'. fold q in E1', E2'.
  rewrite (add_inf_r' (grp g)) in E1' by (now rewrite grp_mul). rewrite (add_inf_r' (grp h)) in E2' by (rewrite grp_mul; congruence).
  assert (NP : P <> inf (grp h)) by congruence.
  destruct (neq_extract2 (w q (sname al)) (w q (sname be)) g h H0 H1 P) as (Nb & Dy & Y0 & Y1); auto; try congruence.
  exists w, (- w q (sname al) * zinv (w q (sname be)) q). split; auto. split; auto. split; auto. split; auto. split; auto.
  intros ->. assert (E3' := Sat_dl _ _ (Forall_inv S4)). unfold dl_holds in E3'.
  cbn [dl_lhs dl_secs dl_bases e_secs e_bases eadd emul List.app map lincomb] in E3'. rewrite G0 in E3'. fold q in E3'.
  rewrite (add_inf_r' (grp g)) in E3' by (now rewrite grp_mul).
  destruct (Zdivide_dec q (- w q (sname al) * zinv (w q (sname be)) q - w q (sname x))) as [|D]; auto. exfalso. apply Ng.
  eapply prime_mul_inf; eauto. rewrite E3' in Y0. fold q in Y0.
  set (y := - w q (sname al) * zinv (w q (sname be)) q) in *.
  transitivity (padd (pmul y g) (pneg (pmul (w q (sname x)) g))); [glin (grp g)|]. rewrite <- Y0, add_neg_r, grp_mul. reflexivity.
Qed.

(** Accepted without any inequality: the second representation is of the neutral element of the other group. *)
Lemma neq_forgery H0 g H1 h x al be bnd v st : grp H0 = grp g -> grp H1 = grp h -> grp h <> grp g ->
  (bnd = true -> H0 = pmul v g /\ sname x <> sname al /\ sname x <> sname be) ->
  let s0 := mk_neq H0 g H1 h x al be bnd false in
  exists pre u s, process_pre s0 (get_verifier s0) pre st = Ok ((u, s), st) /\
    exists c0, forall e c, exists a, verify_resp e s u c0 c a = Ok true.
Proof.
  intros G0 G1 NG B s0. set (P := inf (grp h)).
  set (subs := dlx (env st) (inf (grp g)) (eadd (emul al g) (emul be H0)) :: dlx (env st) P (eadd (emul al h) (emul be H1)) ::
            (if bnd then [dlx (env st) H0 (emul x g)] else [])).
  set (s := SExt (KNeq H0 g H1 h x al be bnd) false (VPt P) (Some (SAnd subs false))).
  assert (C : construct_neq H0 g H1 h x al be bnd (VPt P) st = Ok (SAnd subs false, st)).
  { apply construct_neq_total; (split; [discriminate|]).
    - exists (grp g). cbn. repeat constructor; auto.
    - exists (grp h). cbn. repeat constructor; auto. }
  exists (VPt P), (fverifier s), s. split.
  { unfold s0, mk_neq. cbn [process_pre get_verifier construct]. unfold bind. rewrite C. unfold ret. unfold s, subs.
    destruct bnd; reflexivity. }
  set (zs := [VPt (inf (grp g)); VPt P] ++ (if bnd then [VPt (inf (grp g))] else [])).
  exists (VList zs). intros e c.
  set (R := fun n => if bnd then (if bytes_eqb n (sname x) then c * v else 0) else 0).
  set (a0 := VList ([VList [VInt 0; VInt 0]; VList [VInt 0; VInt 0]] ++ (if bnd then [VList [VInt (c * v)]] else []))).
  exists a0.
  unfold verify_resp, pre_validation.
  assert (F : full_validate s = Ok tt).
  { cbn [s full_validate kvalidate]. destruct (val_eqb (VPt P) _) eqn:E; auto. apply val_eqb_eq in E. injection E as E.
    exfalso. apply NG. apply (f_equal grp) in E. unfold P in E. now rewrite !grp_inf in E. }
  rewrite F. cbn [rbind].
  assert (K : Cons R s a0).
  { apply CoExt. apply CoAnd. unfold subs, a0.
    assert (Q : forall d, dl_secs d = [al; be] -> Cons R (SDL d) (VList [VInt 0; VInt 0])).
    { intros d E. assert (K := CoDL R d). rewrite E in K. simpl in K.
      assert (Z0 : forall y, y = al \/ y = be -> R (sname y) = 0).
      { intros y Hy. unfold R. destruct bnd; auto. destruct (B eq_refl) as (_ & N1 & N2).
        destruct (bytes_eqb (sname y) (sname x)) eqn:E'; auto. apply bytes_eqb_eq in E'. destruct Hy as [->| ->]; congruence. }
      rewrite !Z0 in K by auto. exact K. }
    constructor; [now apply Q|]. constructor; [now apply Q|]. destruct bnd; constructor; [|constructor].
    assert (K := CoDL R (mkDL H0 [g] [x] (snapshot (env st) [x]) false)). simpl in K. unfold R in K at 2. rewrite (proj2 (bytes_eqb_eq _ _) eq_refl) in K. exact K. }
  destruct (consistent_ok e s R _ [] K) as (rd & -> & _); [intros ? ? []|]. cbn [rbind].
  assert (RC : recompute (SAnd subs false) c a0
    = Ok (VList zs)).
  { assert (L1 := leaf_z (mkDL (inf (grp g)) [g; H0] [al; be] (snapshot (env st) [al; be]) false) c).
    assert (L2 := leaf_z (mkDL P [h; H1] [al; be] (snapshot (env st) [al; be]) false) c).
    cbn [dl_lhs dl_bases dl_secs map] in L1, L2.
    rewrite grp_inf in L1. unfold P in L2. rewrite grp_inf in L2. fold P in L2.
    specialize (L1 ltac:(repeat constructor; auto) (or_introl eq_refl)). specialize (L2 ltac:(repeat constructor; auto) (or_introl eq_refl)).
    unfold subs, zs, a0. cbn [recompute rimap List.app index]. unfold dlx at 1. cbn [recompute e_bases e_secs eadd emul List.app nth_error rbind].
    rewrite L1. cbn [rbind]. unfold dlx at 1. cbn [recompute e_bases e_secs eadd emul List.app nth_error rbind].
    rewrite L2. cbn [rbind]. destruct bnd; [|reflexivity]. destruct (B eq_refl) as (E & _).
    unfold dlx. cbn [rimap recompute e_bases e_secs emul nth_error rbind List.app]. 
    assert (L3 : recompute_dl (mkDL H0 [g] [x] (snapshot (env st) [x]) false) c (VList [VInt (c * v)]) = Ok (VPt (inf (grp g)))).
    { unfold recompute_dl. cbn [dl_lhs dl_bases as_iter rbind]. change [@VInt W (c * v)] with (map (@VInt W) [c * v]).
      rewrite Lib.wsum_v_ints. rewrite wsum_lincomb by (repeat constructor; auto). cbn [rbind lincomb].
      unfold padd_chk. rewrite G0.
      replace (padd (pmul (c * v) g) (inf (grp g))) with (pmul (c * v) g) by (symmetry; apply add_inf_r', grp_mul).
      rewrite !grp_mul, G0, gid_eqb_refl. cbn [rbind]. do 2 f_equal. rewrite E. glin (grp g). }
    rewrite L3. reflexivity. }
  change (recompute s c a0) with (recompute (SAnd subs false) c a0). rewrite RC. cbn [rbind]. f_equal. apply val_eqb_refl.
Qed.

(** ** Range statements without values *)
Lemma precommit_and_pre subs b ps i k b' q con st x st' : nth_error subs i = Some (SExt k b' q con) ->
  List.length ps = List.length subs ->
  precommit (SAnd subs b) (PAnd ps) st = Ok (x, st') -> exists pre s1 s2, kprecommit k s1 = Ok (pre, s2).
Proof.
  intros N L H. simpl in H. apply bind_ok in H as (l & s1 & Z & _).
  destruct (nth_error ps i) as [pp|] eqn:Np.
  2:{ apply nth_error_None in Np. assert (nth_error subs i <> None) by congruence. apply nth_error_Some in H. lia. }
  clear L. revert i ps l st s1 N Np Z. induction subs as [|y subs IH]; intros i ps l st s1 N Np Z; [destruct i; discriminate|].
  destruct ps as [|p ps]; [destruct i; discriminate|]. simpl in Z. apply bind_ok in Z as (a & s2 & Z1 & Z).
  apply bind_ok in Z as (l' & s3 & Z2 & _). destruct i as [|i]; [|eapply IH; eauto].
  simpl in N, Np. injection N as ->. injection Np as ->. simpl in Z1. destruct pp; try discriminate.
  apply bind_ok in Z1 as (pre & s4 & Z1 & _). eauto.
Qed.

Lemma range2_late com g h n x r rs st s : mk_range2 com g h n x r rs st = Ok (s, st) ->
  env st (sid x) = None \/ env st (sid r) = None -> forall sd msg st1, prove s sd msg st1 = Err EAttributeErr.
Proof.
  intros MK E sd msg st1. rewrite mk_range2_eq in MK. injection MK as <-.
  replace (is_some (env st (sid x)) && is_some (env st (sid r))) with false
    by (destruct E as [-> | ->]; [reflexivity|now rewrite andb_false_r]).
  reflexivity.
Qed.
Lemma range_late com g h a b x r x1 x2 rs1 rs2 sb s st : mk_range com g h a b x r x1 x2 rs1 rs2 sb = Ok (s, st) ->
  sid r <> sid x1 -> sid r <> sid x2 ->
  env sb (sid x1) = None -> env sb (sid x) = None \/ env sb (sid r) = None ->
  forall sd msg st1 y, prove s sd msg st1 <> Ok y.
Proof.
  intros MK D1 D2 F E sd msg st1 y P. apply mk_range_inv in MK as (com1 & com2 & _ & _ & EV & ES). cbv beta zeta in ES.
  assert (I : is_some (env st (sid x1)) && is_some (env st (sid r)) = false).
  { destruct (env sb (sid x)) as [v|] eqn:Ex.
    - destruct E as [E|E]; [discriminate|].
      assert (X : env st (sid r) = None) by (rewrite EV, !upd_other; auto). rewrite X. apply andb_false_r.
    - now rewrite EV, F. }
  rewrite I in ES.
  unfold prove in P. apply bind_ok in P as ([[p|] s1] & st2 & GP & P); [|discriminate].
  apply bind_ok in P as ([[z0 p0] s0] & st3 & GN & _).
  unfold get_nizk_proof in GN. apply bind_ok in GN as ([[pre p2] s2] & st4 & PC & _).
  assert (PS := get_prover_pstrip _ _ _ _ _ _ GP). rewrite ES in PS. rewrite ES in GP.
  apply get_prover_and_len in GP as (ps & subs & -> & -> & L). simpl in PS. injection PS as PS.
  destruct subs as [|u1 [|u2 us]]; try discriminate PS. simpl in PS. injection PS as P1 P2 P3.
  destruct u2; try discriminate P2. simpl in P2. injection P2 as ->.
  destruct (precommit_and_pre (_ :: _ :: _) _ _ 1 _ _ _ _ _ _ _ eq_refl L PC) as (pre' & s' & c & C). discriminate C.
Qed.

(** ** Range-only statements *)
Lemma range_only_eq G a b x r x1 x2 rs1 rs2 st v : env st (sid x) = Some v -> sid r <> sid x -> sid x1 <> sid x ->
  let g := hash_to_point G (lit "g") in let h := hash_to_point G (lit "h") in
  let t := tape st (pos st) mod order G in
  let st1 := mkSt (upd (env st) (sid r) (Some t)) (tape st) (S (pos st)) in
  mk_range_only G a b (Some x) r x1 x2 rs1 rs2 st = mk_range (padd (pmul v g) (pmul t h)) g h a b x r x1 x2 rs1 rs2 st1.
Proof.
  intros Ex Nr N1 g h t st1. unfold mk_range_only. fold g h.
  assert (Ex1 : env st1 (sid x) = Some v) by (unfold st1; cbn; rewrite upd_other; auto).
  assert (Er1 : env st1 (sid r) = Some t) by apply upd_same.
  assert (EV : eval (eadd (emul x g) (emul r h)) st1 = Ok (padd (pmul v g) (pmul t h), st1)).
  { unfold eval, bind, get_env. cbn [eadd emul e_secs e_bases List.app mapM]. unfold bind. rewrite Ex1. unfold ret. cbn [mapM]. unfold bind.
    rewrite Er1. unfold ret. cbn [combine fold_left fst snd rbind]. unfold padd_chk. rewrite !grp_mul. unfold g, h. rewrite !grp_hash, gid_eqb_refl.
    reflexivity. }
  unfold bind at 1. change (draw (order G) st) with (@Ok (Z * Base.st) (t, mkSt (env st) (tape st) (S (pos st)))). cbv iota beta.
  unfold bind at 1. change (set_value (sid r) t (mkSt (env st) (tape st) (S (pos st)))) with (@Ok (unit * Base.st) (tt, st1)). cbv iota beta.
  unfold bind at 1. rewrite EV. unfold mk_range. cbv zeta.
  set (com := padd (pmul v g) (pmul t h)). assert (Gc : grp com = grp g).
  { unfold com. rewrite grp_add; rewrite !grp_mul; auto. unfold g, h. now rewrite !grp_hash. }
  unfold psub_chk. destruct (has_sub (grp com)); [|reflexivity].
  rewrite (padd_chk_same com) by (unfold pneg; rewrite !grp_mul; auto). rewrite !bind_lift_ok.
  rewrite padd_chk_same by (rewrite grp_add; unfold pneg; rewrite !grp_mul; auto).
  rewrite !bind_lift_ok. unfold value_of, bind, get_env, ret, set_value. rewrite Ex1. cbn [env tape pos].
  rewrite upd_other, Ex1 by auto. reflexivity.
Qed.

Lemma range_only_fails G a b r x1 x2 rs1 rs2 st :
  (forall x, env st (sid x) = None -> sid r <> sid x -> mk_range_only G a b (Some x) r x1 x2 rs1 rs2 st = Err EIncompleteValues) /\
  mk_range_only G a b None r x1 x2 rs1 rs2 st = Err ETypeErr.
Proof.
  split; [|reflexivity]. intros x Ex N. unfold mk_range_only, draw, bind, set_value. cbn [env tape pos].
  unfold eval, bind, get_env. cbn [eadd emul e_secs e_bases List.app mapM]. unfold bind. cbn [env].
  rewrite upd_other, Ex by auto. reflexivity.
Qed.

Lemma range_only_complete G a b x r x1 x2 rs1 rs2 v sd msg st s st1 :
  let g := hash_to_point G (lit "g") in let h := hash_to_point G (lit "h") in
  let n := num_bits (b - a - 1) in let all := x :: r :: x1 :: x2 :: rs1 ++ rs2 in
  let com := padd (pmul v g) (pmul (tape st (pos st) mod order G) h) in
  mk_range_only G a b (Some x) r x1 x2 rs1 rs2 st = Ok (s, st1) ->
  NoDup (map sname all) -> NoDup (map sid all) -> List.length rs1 = n -> List.length rs2 = n -> (2 <= n)%nat ->
  a <= v < b -> env st (sid x) = Some v -> (forall k u, In (k, u) sd -> k = x /\ u = v) ->
  (exists z s' st', prove s sd msg st1 = Ok ((z, s'), st') /\
     forall x' r' x1' x2' rs1' rs2' svst sbv stv, NoDup (map sname (x' :: r' :: x1' :: x2' :: rs1' ++ rs2')) ->
       List.length rs1' = n -> List.length rs2' = n ->
       mk_range com g h a b x' r' x1' x2' rs1' rs2' sbv = Ok (svst, stv) ->
       env sbv (sid x') = None -> env sbv (sid x1') = None -> env sbv (sid x2') = None ->
       exists sv', verify svst z msg stv = Ok ((true, sv'), stv)) \/
  oversized s sd st1.
Proof.
  intros g h n all com MK N1 N2 L1 L2 Ln R Ex SD.
  assert (Nr : sid r <> sid x) by (simpl in N2; inversion N2; subst; simpl in *; intuition congruence).
  assert (Nx : sid x1 <> sid x) by (simpl in N2; inversion N2; subst; simpl in *; intuition congruence).
  rewrite (range_only_eq _ _ _ _ _ _ _ _ _ _ _ Ex Nr Nx) in MK. fold g h in MK.
  set (t := tape st (pos st) mod order G) in MK. set (sb := mkSt _ _ _) in MK.
  destruct (range_complete (padd (pmul v g) (pmul t h)) g h a b x r x1 x2 rs1 rs2 v t sd msg sb st1 s MK N1 N2 L1 L2 Ln)
    as [(z & s' & st' & P & V)|O]; auto.
  - unfold g, h. now rewrite !grp_hash.
  - unfold sb. cbn. rewrite upd_other; auto.
  - apply upd_same.
  - left. exists z, s', st'. split; [exact P|]. exact V.
Qed.

(** what the first part of a conjunction is after proving and verifying *)
Lemma prove_head d l b sd msg st z s1 st1 : prove (SAnd (SDL d :: l) b) sd msg st = Ok ((z, s1), st1) ->
  exists d' l' b', s1 = SAnd (SDL d' :: l') b' /\ dl_lhs d' = dl_lhs d.
Proof.
  intros P. unfold prove in P. apply bind_ok in P as ([[p|] s2] & st2 & GP & P); [|discriminate].
  apply bind_ok in P as ([[z0 p0] s0] & st3 & GN & P). apply ret_ok in P as [P ->]. injection P as <- <-.
  unfold get_nizk_proof in GN. apply bind_ok in GN as ([[pre p2] s3] & st4 & PC & GN).
  assert (s3 = s0) as <-.
  { apply bind_ok in GN as (x & sx & _ & GN). destruct x. apply bind_ok in GN as (? & ? & _ & GN).
    apply bind_ok in GN as (? & ? & _ & GN). apply bind_ok in GN as (? & ? & _ & GN). apply ret_ok in GN as [GN _]. congruence. }
  clear GN. assert (PS := get_prover_pstrip _ _ _ _ _ _ GP).
  apply get_prover_and_len in GP as (ps & subs & -> & -> & L). simpl in PS. injection PS as PS.
  destruct subs as [|u1 us]; try discriminate PS. simpl in PS. injection PS as P1 P3.
  destruct u1 as [d1| | |]; try discriminate P1. simpl in P1. injection P1 as E1 _ _.
  simpl in PC. apply bind_ok in PC as (l1 & s5 & Z & PC). apply ret_ok in PC as [PC ->]. injection PC as <- <- <-.
  destruct ps as [|pp ps]; [discriminate L|]. simpl in Z. apply bind_ok in Z as (a & s6 & Z1 & Z). apply bind_ok in Z as (l2 & s7 & Z2 & Z).
  apply ret_ok in Z as [Z ->]. subst l1. destruct pp; try discriminate Z1. simpl in Z1. injection Z1 as <- <-. simpl. eauto.
Qed.
Lemma verify_head d l b z msg st v s1 st1 : verify (SAnd (SDL d :: l) b) z msg st = Ok ((v, s1), st1) ->
  exists l' b', s1 = SAnd (SDL d :: l') b'.
Proof.
  intros H. apply verify_inv in H as (u & h & com & i & H & _). unfold processed in H.
  destruct (is_none (n_pre z)).
  - apply ret_ok in H as [H _]. injection H as <- <-. eauto.
  - cbn [process_pre get_verifier map] in H. destruct (is_none (n_pre z)).
    { apply ret_ok in H as [H _]. injection H as <- <-. eauto. }
    apply bind_ok in H as (l1 & s2 & Z & H). apply ret_ok in H as [H _]. injection H as _ <-.
    apply bind_ok in Z as (p & s3 & _ & Z). apply bind_ok in Z as (r & s4 & R & Z). apply ret_ok in R as [R _]. subst r.
    apply bind_ok in Z as (rs & s5 & _ & Z). apply ret_ok in Z as [Z _]. subst l1. simpl. eauto.
Qed.

(** A proof made with one commitment, checked against a range statement about another. *)
Lemma range_other_com com com' g h g' h' a b a' b' x r x1 x2 rs1 rs2 x' r' x1' x2' rs1' rs2' sb s st sb' sv stv
    sd msg st0 z sp st1 msg' stv0 v sv1 st2 : repr_ok ->
  mk_range com g h a b x r x1 x2 rs1 rs2 sb = Ok (s, st) ->
  mk_range com' g' h' a' b' x' r' x1' x2' rs1' rs2' sb' = Ok (sv, stv) ->
  prove s sd msg st0 = Ok ((z, sp), st1) -> verify sv z msg' stv0 = Ok ((v, sv1), st2) ->
  repr_pt com = repr_pt com' \/ exists i i', i <> i' /\ sha256 i = sha256 i'.
Proof.
  intros RO M M' P V. destruct (bound_to_statement _ _ _ _ _ _ _ _ _ _ _ _ _ RO P V) as (i & i' & _ & _ & ES & AL).
  destruct (list_eq_dec ascii_dec i i') as [->|N]; [left|right; eauto].
  destruct (AL eq_refl) as (f & f' & A).
  apply mk_range_inv in M as (c1 & c2 & _ & _ & _ & ->). apply mk_range_inv in M' as (c1' & c2' & _ & _ & _ & ->).
  apply prove_head in P as (d & l & b0 & -> & E). apply verify_head in V as (l' & b1 & ->).
  inversion A as [|? ? ? ? F| |]; subst. inversion F as [|? ? ? ? A1 _]; subst. inversion A1 as [? ? K| | |]; subst.
  unfold alike_pt in K. rewrite E in K. exact K.
Qed.

(** ** Interactive runs of extended statements *)
Lemma custom_interactive sp p cls rw b pre con st x : run_interactive sp p (SExt (KCustom cls [rw]) b pre con) st <> Ok x.
Proof.
  intros H. unfold run_interactive in H. apply bind_ok in H as ([[pr p1] sp1] & s1 & _ & H).
  apply bind_ok in H as ([v sv] & s2 & PP & H). apply bind_ok in H as ([[h com] p2] & s3 & _ & H).
  apply bind_ok in H as (c & s4 & SC & H). clear H.
  cbn [process_pre get_verifier] in PP. apply bind_ok in PP as (c1 & s5 & C & PP). apply ret_ok in PP as [PP _]. injection PP as <- <-.
  cbn [construct] in C. apply construct_custom_inv in C as (_ & _ & C). cbn in C. subst c1.
  unfold send_challenge in SC. apply bind_ok in SC as (? & ? & _ & SC). discriminate SC.
Qed.
End P.

(** Soundness of the primitives. *)
From Coq Require Import String Znumtheory.
From Verif Require Import Base World Val Expr Utils Stmt Prove Verify Spec Shapes Claims Clauses Extract Lib Lin DictProofs Keeps Tree
  Sigma ArithProofs Build Process Ktruth Sound.
Open Scope Z_scope.
Open Scope list_scope.

Section S.
Context {W : World}.

Lemma mul_div k p : (order (grp p) | k) -> pmul k p = inf (grp p).
Proof. intros [j ->]. now rewrite <- mul_mul, mul_order, mul_inf. Qed.
Lemma mul_cong j k p : (order (grp p) | j - k) -> pmul j p = pmul k p.
Proof. intros D. replace j with (k + (j - k)) by lia. rewrite mul_add, (mul_div _ _ D). apply add_inf_r', grp_mul. Qed.
Lemma add_inf_eq g a b : grp a = g -> grp b = g -> padd a b = inf g -> a = pneg b.
Proof.
  intros Ga Gb H. apply (add_cancel_r b); rewrite ?grp_neg; try congruence. rewrite H. rewrite add_neg_l. congruence.
Qed.

Lemma neq_extract a b g h H0 H1 P : let q := order (grp g) in prime q -> grp h = grp g -> grp H0 = grp g -> grp H1 = grp g ->
  g <> inf (grp g) -> inf (grp g) = padd (pmul a g) (pmul b H0) -> P = padd (pmul a h) (pmul b H1) -> P <> inf (grp g) ->
  let y := - a * zinv b q in ~ (q | b) /\ (q | b * y + a) /\ H0 = pmul y g /\ H1 <> pmul y h.
Proof.
  intros q PR Gh G0 G1 Ng E EP NP y.
  assert (Nb : ~ (q | b)).
  { intros D. rewrite (mul_div b H0) in E by (now rewrite G0). rewrite G0, add_inf_r' in E by apply grp_mul.
    destruct (Zdivide_dec q a) as [Da|Da].
    - apply NP. rewrite EP, (mul_div a h), (mul_div b H1) by (now rewrite ?Gh, ?G1). rewrite Gh, G1. apply add_inf_l', grp_inf.
    - apply Ng. symmetry in E. eapply prime_mul_inf; eauto. }
  assert (Y := zinv_spec b q PR Nb). fold q in Y.
  assert (D : (q | b * y + a)).
  { unfold y. replace (b * (- a * zinv b q) + a) with (- a * (zinv b q * b - 1)) by ring. now apply Z.divide_mul_r. }
  split; auto. split; auto. split.
  - assert (X : H0 = pmul (zinv b q) (pmul b H0)).
    { rewrite mul_mul. rewrite <- (mul_1 H0) at 1. symmetry. apply mul_cong. now rewrite G0. }
    symmetry in E. rewrite add_comm in E by (rewrite !grp_mul; congruence).
    apply (add_inf_eq (grp g)) in E; rewrite ?grp_mul; auto.
    rewrite X, E. unfold y. glin (grp g).
  - intros X. apply NP. rewrite EP, X.
    transitivity (pmul (b * y + a) h); [glin (grp g)|]. rewrite mul_div by now rewrite Gh. congruence.
Qed.

(** groups of a leaf that could be recomputed *)
Lemma dl_group d c r com : List.length (dl_secs d) = List.length (dl_bases d) -> recompute_dl d c r = Ok com ->
  Rshape (SDL d) r -> in_group (grp (dl_lhs d)) (dl_bases d).
Proof.
  intros L H RS. unfold recompute_dl in H. apply rbind_ok in H as (ws & I & H). apply rbind_ok in H as (x & S & H). clear H.
  inversion RS as [? ? RS'| | |]; subst.
  apply wsum_v_inv in S as (zs & _ & _ & G & _).
  - now rewrite grp_inf in G.
  - destruct (List.length (dl_bases d)) as [|n] eqn:E; [lia|]. destruct (RS' n) as [a Ha]; [lia|].
    apply (as_iter_index r ws) in Ha; auto. assert (nth_error ws n <> None) by congruence. apply nth_error_Some in H. lia.
Qed.

(** a conjunction of representations *)
Lemma ext_accept k b pre con e v com c r : vmatch (SExt k b pre (Some con)) v ->
  verify_resp e (SExt k b pre (Some con)) v com c r = Ok true -> kvalidate k pre = Ok tt /\ recompute con c r = Ok com /\ Rshape con r.
Proof.
  intros V H. apply verify_resp_inv in H as (F & (d & _ & RS & _) & R); auto. inversion RS; subst. split; [exact F|]. split; auto.
Qed.
Lemma leaf_groups ds b c r com : Forall wfs ds -> (forall x, In x ds -> exists d, x = SDL d) -> recompute (SAnd ds b) c r = Ok com ->
  Rshape (SAnd ds b) r -> forall d, In (SDL d) ds -> in_group (grp (dl_lhs d)) (dl_bases d).
Proof.
  intros WF LF H RS d Hd. apply recompute_and_inv in H as (l & -> & H). inversion RS as [|? ? ? RS'| |]; subst.
  apply In_nth_error in Hd as [i Hi]. destruct (H i _ Hi) as (ri & y & I & _ & R). destruct (RS' i _ Hi) as (ri' & I' & S').
  assert (ri' = ri) by congruence. subst ri'. rewrite Forall_forall in WF. assert (K := WF _ (nth_error_In _ _ Hi)). inversion K; subst.
  eapply dl_group; eauto.
Qed.

Lemma Sat_dl w d : Sat w (SDL d) -> dl_holds (w (order (grp (dl_lhs d)))) d.
Proof. intros H. now inversion H. Qed.
Lemma in_group_cons g p ps : in_group g (p :: ps) -> grp p = g /\ in_group g ps.
Proof. intros H. inversion H; auto. Qed.

Lemma neq_sound H0 g H1 h x al be bnd sim pre st v s st1 e com c c' r r' :
  process_pre (mk_neq H0 g H1 h x al be bnd sim) (get_verifier (mk_neq H0 g H1 h x al be bnd sim)) pre st = Ok ((v, s), st1) ->
  let q := order (grp g) in prime q -> grp h = grp g -> g <> inf (grp g) -> coh e (svars s) -> ~ (q | c - c') ->
  verify_resp e s v com c r = Ok true -> verify_resp e s v com c' r' = Ok true ->
  exists w y, Extr w s c c' r r' /\ (q | w q (sname be) * y + w q (sname al)) /\ ~ (q | w q (sname be)) /\
    H0 = pmul y g /\ H1 <> pmul y h /\ (bnd = true -> (q | y - w q (sname x))).
Proof.
  intros HP q PR Gh Ng CO ND A A'. assert (V := process_match _ _ _ _ _ _ HP).
  unfold mk_neq in HP. cbn [process_pre get_verifier] in HP. apply bind_ok in HP as (con & st2 & HC & HP).
  apply ret_ok in HP as [HP ->]. injection HP as <- <-.
  destruct (ext_accept _ _ _ _ _ _ _ _ _ V A) as (F & R & RS).
  assert (LW : wfs con) by (apply construct_leafy in HC as [_ L]; eapply leafy_wfs; eauto).
  cbn [construct] in HC. apply construct_neq_inv in HC as (-> & P & -> & K1 & K2 & ->).
  inversion LW as [|? ? LWs| | |]; subst.
  assert (LG := leaf_groups _ _ _ _ _ LWs ltac:(intros y Hy; destruct Hy as [<-|[<-|Hy]]; [eexists; reflexivity|eexists; reflexivity|];
    destruct bnd; [destruct Hy as [<-|[]]; eexists; reflexivity|destruct Hy]) R RS).
  assert (L1 := LG _ (or_introl eq_refl)). assert (L2 := LG _ (or_intror (or_introl eq_refl))). cbn in L1, L2.
  apply in_group_cons in L1 as [_ L1]. apply in_group_cons in L1 as [G0 _]. rewrite grp_inf in G0.
  apply in_group_cons in L2 as [G2 L2]. apply in_group_cons in L2 as [G1 _].
  assert (GP : grp P = grp g) by congruence.
  assert (ORD : forall Q : Z -> Prop, Q q -> orders_in Q (SExt (KNeq H0 g H1 h x al be bnd) sim (VPt P) (Some (SAnd
    (dlx (env st) (inf (grp g)) (eadd (emul al g) (emul be H0)) :: dlx (env st) P (eadd (emul al h) (emul be H1)) ::
            (if bnd then [dlx (env st) H0 (emul x g)] else [])) false)))).
  { intros Q HQ. do 3 constructor.
    - apply OiDL. cbn [dl_lhs]. now rewrite grp_inf.
    - constructor; [apply OiDL; cbn [dl_lhs]; now rewrite GP|].
      destruct bnd; constructor; [|constructor]. apply OiDL. cbn [dl_lhs]. now rewrite G0. }
  destruct (extract_resp e _ _ com c c' r r' V) as [w EX]; auto.
  { constructor. auto. }
  { left. do 3 constructor; [constructor|]. destruct bnd; repeat constructor. }
  assert (S := Extr_Sat _ _ _ _ _ _ EX). inversion S as [| | |? ? ? ? S1]; subst. inversion S1 as [|? ? S2| |]; subst.
  inversion S2 as [|? ? E1 S3]; subst. inversion S3 as [|? ? E2 S4]; subst. inversion E1 as [? _ E1'| | |]; subst. inversion E2 as [? _ E2'| | |]; subst.
  unfold dl_holds in E1', E2'. cbn [dl_lhs dl_secs dl_bases e_secs e_bases eadd emul List.app map lincomb] in E1', E2'.
  rewrite grp_inf in E1'. rewrite GP in E2'. fold q in E1', E2'.
  rewrite (add_inf_r' (grp g)) in E1' by (now rewrite grp_mul). rewrite (add_inf_r' (grp g)) in E2' by (rewrite grp_mul; congruence).
  assert (NP : P <> inf (grp g)).
  { cbn [kvalidate] in F. destruct (val_eqb (VPt P) (VPt (inf (grp g)))) eqn:Q; [discriminate|]. intros ->. now rewrite val_eqb_refl in Q. }
  destruct (neq_extract (w q (sname al)) (w q (sname be)) g h H0 H1 P) as (Nb & Dy & Y0 & Y1); auto; try congruence.
  exists w, (- w q (sname al) * zinv (w q (sname be)) q). split; auto. split; auto. split; auto. split; auto. split; auto.
  intros ->. assert (E3' := Sat_dl _ _ (Forall_inv S4)). unfold dl_holds in E3'.
  cbn [dl_lhs dl_secs dl_bases e_secs e_bases eadd emul List.app map lincomb] in E3'. rewrite G0 in E3'. fold q in E3'.
  rewrite (add_inf_r' (grp g)) in E3' by (now rewrite grp_mul).
  destruct (Zdivide_dec q (- w q (sname al) * zinv (w q (sname be)) q - w q (sname x))) as [|D]; auto. exfalso. apply Ng.
  eapply prime_mul_inf; eauto. rewrite E3' in Y0. fold q in Y0.
  set (y := - w q (sname al) * zinv (w q (sname be)) q) in *.
  transitivity (padd (pmul y g) (pneg (pmul (w q (sname x)) g))); [glin (grp g)|]. rewrite <- Y0, add_neg_r, grp_mul. reflexivity.
Qed.

Lemma process_ext k b p o pre st v s st1 : process_pre (SExt k b p o) (get_verifier (SExt k b p o)) pre st = Ok ((v, s), st1) ->
  exists con, construct k pre st = Ok (con, st) /\ st1 = st /\ s = SExt k b pre (Some con) /\ wfs con.
Proof.
  intros HP. cbn [process_pre get_verifier] in HP. apply bind_ok in HP as (con & st2 & HC & HP).
  apply ret_ok in HP as [HP ->]. injection HP as <- <-. exists con.
  assert (L := HC). apply construct_leafy in L as [-> L]. repeat split; auto. eapply leafy_wfs; eauto.
Qed.

Lemma bbs_extract G1 G2 GT g0 g1 g2 (gens : list pt) H Y A1 A2 e r1 r2 d1 d2 (ms : list Z) :
  pairs G1 G2 = Some GT -> in_group G1 (g0 :: g1 :: g2 :: gens) -> grp H = G2 -> grp Y = G2 -> grp A1 = G1 -> grp A2 = G1 ->
  A1 = padd (pmul r1 g1) (pmul r2 g2) ->
  inf G1 = padd (pmul d1 g1) (padd (pmul d2 g2) (pmul e (pmul (-1) A1))) ->
  padd (pairing A2 Y) (pmul (-1) (pairing g0 H)) =
    padd (pmul e (pmul (-1) (pairing A2 H))) (padd (pmul r1 (pairing g2 Y)) (padd (pmul d1 (pairing g2 H))
      (lincomb GT ms (map (fun g => pairing g H) (g1 :: g2 :: gens))))) ->
  let q := order G1 in
  padd (pmul (d1 - e * r1) g1) (pmul (d2 - e * r2) g2) = inf G1 /\
  ((q | d1 - e * r1) -> pairing (padd A2 (pmul (- r1) g2)) (padd Y (pmul e H)) = pairing (padd g0 (lincomb G1 ms (g1 :: g2 :: gens))) H).
Proof.
  intros HP HG Hh Hw GA1 GA2 E1 E2 E3 q. assert (HG' := HG).
  apply in_group_cons in HG' as [I0 HG1]. assert (HG' := HG1). apply in_group_cons in HG' as [I1 HG2].
  apply in_group_cons in HG2 as [I2 _]. split.
  - rewrite E2, E1. glin G1.
  - intros D.
    assert (PA : pairs (grp A2) (grp Y) = Some GT) by congruence. assert (PH : pairs (grp A2) (grp H) = Some GT) by congruence.
    assert (P0 : pairs (grp g0) (grp H) = Some GT) by congruence. assert (P2 : pairs (grp g2) (grp H) = Some GT) by congruence.
    assert (P2Y : pairs (grp g2) (grp Y) = Some GT) by congruence.
    assert (X : pairs (grp (padd A2 (pmul (- r1) g2))) (grp Y) = Some GT) by (rewrite grp_add by (rewrite grp_mul; congruence); exact PA).
    rewrite (pairing_add_r _ _ _ GT X) by (rewrite grp_mul; congruence).
    rewrite (pairing_mul_r _ _ _ GT) by (rewrite grp_add by (rewrite grp_mul; congruence); exact PH).
    rewrite !(pairing_add_l A2 _ _ GT) by (rewrite ?grp_mul; congruence).
    rewrite !(pairing_mul_l _ g2 _ GT) by auto.
    set (L := lincomb G1 ms (g1 :: g2 :: gens)).
    assert (GL : grp L = G1) by (now apply grp_lincomb).
    rewrite (pairing_add_l g0 _ _ GT) by congruence.
    rewrite (lincomb_pairing G1) in E3 by congruence. fold L in E3. clearbody L.
    assert (Q1 : grp (pairing A2 Y) = GT) by now apply grp_pairing. assert (Q2 : grp (pairing A2 H) = GT) by now apply grp_pairing.
    assert (Q3 : grp (pairing g0 H) = GT) by now apply grp_pairing. assert (Q4 : grp (pairing g2 H) = GT) by now apply grp_pairing.
    assert (Q5 : grp (pairing g2 Y) = GT) by now apply grp_pairing. assert (Q6 : grp (pairing L H) = GT) by (apply grp_pairing; congruence).
    assert (OE : order G1 = order GT) by (apply order_pairs in HP; tauto).
    assert (D2 : pmul (d1 - e * r1) (pairing g2 H) = inf GT). { rewrite mul_div; [congruence|]. rewrite Q4, <- OE. exact D. }
    assert (E4 : pairing A2 Y = padd (padd (pmul e (pmul (-1) (pairing A2 H))) (padd (pmul r1 (pairing g2 Y)) (padd (pmul d1 (pairing g2 H)) (pairing L H)))) (pairing g0 H)).
    { rewrite <- E3. glin GT. }
    rewrite E4. transitivity (padd (padd (pairing g0 H) (pairing L H)) (pmul (d1 - e * r1) (pairing g2 H))); [glin GT|].
    rewrite D2. apply add_inf_r'. rewrite grp_add; congruence.
Qed.

Lemma bbs_sound pk sig es ss ms r1 r2 d1 d2 sim pre st v s st1 e com c c' r r' g0 g1 g2 gens :
  let sv := es :: ss :: ms in
  let s0 := SExt (KBBS pk sig (firstn (List.length sv) (pk_gens pk)) sv r1 r2 d1 d2) sim VNone None in
  bbs_pk_ok pk -> pk_gens pk = g0 :: g1 :: g2 :: gens -> (forall G, pairs G (grp (pk_h0 pk)) <> None -> G = grp g0) ->
  process_pre s0 (get_verifier s0) pre st = Ok ((v, s), st1) ->
  let q := order (grp g0) in prime q -> coh e (svars s) -> ~ (q | c - c') ->
  verify_resp e s v com c r = Ok true -> verify_resp e s v com c' r' = Ok true ->
  exists w, Extr w s c c' r r' /\
  let x n := w q (sname n) in
  padd (pmul (x d1 - x es * x r1) g1) (pmul (x d2 - x es * x r2) g2) = inf (grp g0) /\
  (((q | x d1 - x es * x r1) /\ (q | x d2 - x es * x r2)) -> exists A2, getitem pre (lit "A2") = Ok (VPt A2) /\
     bbs_valid pk (mkSig (padd A2 (pmul (- x r1) g2)) (x es) (x ss)) (x es) (x ss) (map x ms)).
Proof.
  intros sv s0 PK EG INJ HP q PR CO ND A A'. assert (V := process_match _ _ _ _ _ _ HP).
  unfold s0 in HP. apply process_ext in HP as (con & HC & -> & -> & LW).
  destruct (ext_accept _ _ _ _ _ _ _ _ _ V A) as (F & R & RS).
  destruct PK as (G1 & G2 & GT & HP & HG & Hw & Hh & HGP). rewrite EG in *.
  cbn [construct] in HC.
  apply construct_bbs_inv in HC as (_ & A1 & A2 & g0' & g1' & g2' & bs' & e' & svs & aw & gp0 & plhs & ah & g2w & gp1 & gp2 & gps & x3 &
     EA1 & EA2 & Ebs' & Esv' & Egp & Paw & Pl & Pah & Pgw & WS & K1 & K2 & K3 & ->).
  injection Esv' as <- <-. unfold sv in Ebs'. cbn [List.length firstn] in Ebs'. destruct ms as [|m0 ms]; [discriminate Ebs'|].
  cbn [List.length firstn] in Ebs'. injection Ebs' as <- <- <- <-.
  rewrite HGP in Egp. cbn [map] in Egp. injection Egp as <- <- <- <-.
  apply wsum_secrets_eq in WS as (W1 & W2 & W3).
  set (H := pk_h0 pk) in *. set (Y := pk_w pk) in *.
  assert (FE : forall n (l : list pt), List.length (es :: r1 :: d1 :: ss :: m0 :: ms) = (3 + List.length (firstn n l))%nat ->
     firstn n l = firstn (List.length (ss :: m0 :: ms)) l).
  { intros n l Hn. rewrite firstn_length in Hn. cbn [List.length] in *. destruct (Nat.le_gt_cases n (List.length l)).
    - f_equal. lia.
    - rewrite !firstn_all2 by lia. reflexivity. }
  rewrite app_length in W3. rewrite (FE _ _ W3) in W2. clear FE.
  assert (HG' := HG). apply in_group_cons in HG' as [I0 HG']. apply in_group_cons in HG' as [I1 HG']. apply in_group_cons in HG' as [I2 _].
  assert (PC : forall a b c, pairing_chk a b = Ok c -> c = pairing a b /\ pairs (grp a) (grp b) <> None).
  { intros a b z X. unfold pairing_chk in X. destruct (pairs (grp a) (grp b)); [injection X as <-; split; auto; discriminate|discriminate]. }
  apply PC in Paw as [-> Paw]. apply PC in Pah as [-> Pah]. apply PC in Pgw as [-> _]. clear PC.
  apply INJ in Pah. apply padd_chk_ok in Pl as [_ ->].
  assert (GA2 : grp A2 = G1) by congruence.
  assert (QA : grp (pairing A2 Y) = GT) by (apply grp_pairing; congruence).
  assert (QA' : grp (pairing A2 H) = GT) by (apply grp_pairing; congruence).
  assert (Q0 : grp (pairing g0 H) = GT) by (apply grp_pairing; congruence).
  inversion LW as [|? ? LWs| | |]; subst b subs.
  assert (LG := leaf_groups _ _ _ _ _ LWs ltac:(intros y Hy; destruct Hy as [<-|[<-|[<-|[]]]]; eexists; reflexivity) R RS).
  assert (L1 := LG _ (or_introl eq_refl)). cbn in L1. apply in_group_cons in L1 as [L1 _].
  assert (GA1 : grp A1 = G1) by congruence. clear LG.
  assert (OE : order G1 = order GT) by (apply order_pairs in HP; tauto).
  assert (QP : grp (padd (pairing A2 Y) (pmul (-1) (pairing g0 H))) = GT) by (rewrite grp_add; rewrite ?grp_mul; congruence).
  assert (Oq : q = order G1) by (unfold q; congruence).
  assert (ORD : forall Q : Z -> Prop, Q q -> orders_in Q (SExt (KBBS pk sig (firstn (List.length sv) (g0 :: g1 :: g2 :: gens)) sv r1 r2 d1 d2) sim pre (Some
     (SAnd [dlx (env st) A1 (eadd (emul r1 g1) (emul r2 g2)); dlx (env st) (inf (grp g0)) (eadd (eadd (emul d1 g1) (emul d2 g2)) (emul es (pmul (-1) A1)));
       dlx (env st) (padd (pairing A2 Y) (pmul (-1) (pairing g0 H))) x3] false)))).
  { intros Q HQ. do 2 constructor. constructor; [|constructor; [|constructor; [|constructor]]]; apply OiDL; cbn [dl_lhs].
    - congruence.
    - now rewrite grp_inf.
    - rewrite QP. congruence. }
  destruct (extract_resp e _ _ com c c' r r' V) as [w EX]; auto.
  { constructor. exact LW. }
  { left. repeat constructor. }
  exists w. split; [exact EX|]. intros x.
  assert (S := Extr_Sat _ _ _ _ _ _ EX). inversion S as [| | |? ? ? ? S1]; subst con. inversion S1 as [|? ? S2| |]; subst b0 subs.
  inversion S2 as [|? ? E1 S3]; subst x0 l. inversion S3 as [|? ? E2 S4]; subst x0 l. apply Forall_inv in S4.
  apply Sat_dl in E1, E2, S4. unfold dl_holds in E1, E2, S4.
  cbn [dl_lhs dl_secs dl_bases e_secs e_bases eadd emul List.app map lincomb] in E1, E2.
  cbn [dl_lhs dl_secs dl_bases] in S4. rewrite W1, W2 in S4.
  rewrite QP in S4. rewrite GA1 in E1. rewrite grp_inf in E2. rewrite <- OE, <- Oq in S4. rewrite <- Oq in E1. fold q in E2.
  rewrite (add_inf_r' G1) in E1 by (rewrite grp_mul; congruence).
  rewrite (add_inf_r' (grp g0)) in E2 by (rewrite !grp_mul; congruence).
  set (gl := map (fun g => pairing g H) (g1 :: g2 :: gens)) in *.
  assert (X : lincomb GT (map (fun s => w q (sname s)) (es :: r1 :: d1 :: ss :: m0 :: ms))
     ([pmul (-1) (pairing A2 H); pairing g2 Y; pairing g2 H] ++ firstn (List.length (ss :: m0 :: ms)) gl) =
     padd (pmul (x es) (pmul (-1) (pairing A2 H))) (padd (pmul (x r1) (pairing g2 Y)) (padd (pmul (x d1) (pairing g2 H))
      (lincomb GT (map x (ss :: m0 :: ms)) gl)))).
  { rewrite <- (lincomb_firstn GT (map x (ss :: m0 :: ms)) gl), map_length. reflexivity. }
  assert (S5 := eq_trans S4 X). clear X S4. rewrite I0 in E2.
  destruct (bbs_extract G1 G2 GT g0 g1 g2 gens H Y A1 A2 (x es) (x r1) (x r2) (x d1) (x d2) (map x (ss :: m0 :: ms))) as [B1 B2]; auto.
  rewrite I0. split; [exact B1|]. intros [D1 _]. exists A2. split.
  - apply rbind_ok in EA2 as (a & EA & EB). destruct a; try discriminate EB. injection EB as ->. exact EA.
  - unfold bbs_valid. rewrite EG. cbn [sig_A]. rewrite I0. apply B2. now rewrite <- Oq.
Qed.
End S.

(** From the key to an accepted proof of possession (C56), and what an accepted blinding shows (C57). *)
From Coq Require Import String Znumtheory.
From Verif Require Import Base World Val Expr Utils Stmt Prove Verify Spec Shapes Claims Honest Clauses Supply Ident Bbs
  Lib Lin DictProofs ArithProofs Build Process Ktruth Provers Complete Complete2 Sound Sound2 IdProofs2 IdProofs4 IdProofs6 Prims BbsProofs.
Open Scope Z_scope.
Open Scope list_scope.

Section C.
Context {W : World}.

Lemma known_combine (l : list secret) : forall vs : list Z, List.length l = List.length vs -> forall m, In m l -> known (combine l vs) m.
Proof.
  intros vs L m Hm. apply In_nth_error in Hm as (i & N).
  destruct (nth_error vs i) as [v|] eqn:Nv.
  2:{ apply nth_error_None in Nv. assert (nth_error l i <> None) by congruence. rewrite nth_error_Some in *. lia. }
  exists m, v. split; auto. revert vs L i N Nv. clear. induction l as [|x l IH]; intros [|u vs] L [|i] N Nv; simpl in *; try discriminate.
  - injection N as ->. injection Nv as ->. auto.
  - right. eapply IH; eauto.
Qed.

Lemma NoDup_left {A} (l m : list A) : NoDup (l ++ m) -> NoDup l.
Proof. induction l as [|x l IH]; simpl; intros H; constructor; inversion H; subst; auto. intros K. apply H2, in_or_app. auto. Qed.
Lemma NoDup_right {A} (l m : list A) : NoDup (l ++ m) -> NoDup m.
Proof. induction l as [|x l IH]; simpl; intros H; auto. inversion H; auto. Qed.

(** Keys, commitment, signature, proof. *)
Lemma possession G1 G2 GT n stk sk pk stk' vals zkp ss st b s1 st1 st2 sg st3 es s ms r1 r2 d1 d2 msg sb stm stp :
  pairs G1 G2 = Some GT -> keygen G1 G2 n stk = Ok ((sk, pk), stk') ->
  commit_messages pk None vals zkp ss st = Ok ((b, s1), st1) -> sign sk (bl_com b) st2 = Ok (sg, st3) ->
  (1 <= List.length vals <= n)%nat -> List.length ms = List.length vals ->
  let all := (es :: s :: ms) ++ [r1; r2; d1; d2] in
  NoDup (map sname all) -> NoDup (map sid all) -> (forall m, In m ms -> env sb (sid m) = None) ->
  mk_bbs (es :: s :: ms) pk (Some (obtain_signature s1 sg)) r1 r2 d1 d2 false sb = Ok (stm, stp) ->
  (exists z stm' stp', prove stm (combine ms vals) msg stp = Ok ((z, stm'), stp') /\
     forall es' s' ms' r1' r2' d1' d2' sb' smv stv,
       List.length ms' = List.length ms -> NoDup (map sname ((es' :: s' :: ms') ++ [r1'; r2'; d1'; d2'])) ->
       mk_bbs (es' :: s' :: ms') pk None r1' r2' d1' d2' false sb' = Ok (smv, stv) ->
       exists smv', verify smv z msg stv = Ok ((true, smv'), stv)) \/
  oversized stm (combine ms vals) stp.
Proof.
  intros P KG CM SG LV LM all N1 N2 FR MK. destruct (issued _ _ _ _ _ _ _ _ _ _ _ _ _ _ _ _ _ _ P KG CM SG) as (_ & PK & IA & BV).
  set (sg' := obtain_signature s1 sg) in *. destruct (keygen_inv _ _ _ _ _ _ _ _ P KG) as [_ LG].
  assert (Nsv : NoDup (map sname (es :: s :: ms))) by (unfold all in N1; rewrite map_app in N1; now apply NoDup_left in N1).
  destruct (valuation_exists (es :: s :: ms) (sig_e sg' :: sig_s sg' :: vals) Nsv) as (w & Hw); [simpl; lia|].
  simpl in Hw. injection Hw as We Ws Wm.
  destruct (bbs_complete pk sg' es s ms r1 r2 d1 d2 w (combine ms vals) msg sb stp stm) as [(z & stm' & stp' & E & V)|O]; auto.
  - apply nodup_wfL; auto.
  - unfold all in N2. rewrite map_app in N2. now apply NoDup_right in N2.
  - intros x y Hx Hy E. unfold all in N2. rewrite map_app in N2.
    assert (K : forall (A B : list nat) u, NoDup (A ++ B) -> In u A -> In u B -> False).
    { clear. induction A as [|a A IH]; simpl; intros B u H Ha Hb; [easy|]. inversion H; subst. destruct Ha as [<-|Ha]; [|eauto].
      apply H2. apply in_or_app. auto. }
    apply (K _ _ (sid x) N2); [rewrite E; now apply in_map|now apply (in_map sid)].
  - simpl. lia.
  - now rewrite Wm.
  - intros k v K. rewrite <- Wm in K. apply in_combine_map in K as [K ->]. simpl. auto.
  - intros x v Hx E. rewrite FR in E by auto. discriminate.
  - intros m Hm. left. apply known_combine; auto.
  - left. exists z, stm', stp'. split; auto. intros es' s' ms' r1' r2' d1' d2' sb' smv stv L N MV.
    destruct (rename_exists all ((es' :: s' :: ms') ++ [r1'; r2'; d1'; d2'])) as (f & g & R); auto.
    { unfold all. rewrite !app_length. simpl. lia. }
    eapply V; eauto.
Qed.

(** ** The proof that goes with a blinded commitment *)
Lemma wsum_v_ok g ps : in_group g ps -> forall ws x, wsum_v g ws ps = Ok x -> (List.length ws <= List.length ps)%nat ->
  exists zs, ws = map VInt zs.
Proof.
  intros _ ws x H L. unfold wsum_v in H.
  assert (K : forall i a, nth_error ws i = Some a -> exists z, a = VInt z).
  { intros i a N. eapply IdProofs4.wsum_v_ints; eauto. apply Nat.lt_le_trans with (List.length ws); auto. apply nth_error_Some. congruence. }
  clear H L. induction ws as [|a ws IH]; [exists []; reflexivity|]. destruct (K 0%nat a eq_refl) as (z & ->).
  destruct IH as (zs & ->); [intros i b N; exact (K (S i) b N)|]. exists (z :: zs). reflexivity.
Qed.

Lemma blinding_inv pk com z ss st st' : verify_blinding (mkBlinded com (Some z)) pk ss st = Ok (true, st') ->
  exists ws, as_iter (n_resp z) = Ok ws /\ ((List.length ws <= List.length ss)%nat -> in_group (grp com) (skipn 1 (pk_gens pk)) ->
    exists zs, ws = map VInt zs /\ (List.length zs <= List.length (skipn 1 (pk_gens pk)))%nat).
Proof.
  intros H. unfold verify_blinding in H. cbn [bl_proof bl_com] in H.
  apply bind_ok in H as (ws & s1 & E & H). apply lift_ok in E as [E ->]. exists ws. split; auto. intros L IG.
  apply bind_ok in H as (x & s2 & Ex & H). apply lift_ok in Ex as [Ex ->]. apply wsum_secrets_eq in Ex as (E1 & E2 & E3).
  rewrite firstn_length_le in E3 by lia.
  assert (LW : (List.length ws <= List.length (skipn 1 (pk_gens pk)))%nat) by (rewrite firstn_length in E3; lia).
  apply bind_ok in H as (d & s3 & Ed & H). apply mk_dlrep_ok in Ed as (-> & -> & _).
  apply bind_ok in H as ([b sv] & s4 & V & H). apply ret_ok in H as [H _]. simpl in H. subst b.
  apply verify_inv in V as (v & h & cm & i & Pr & _ & _ & _ & Rc & _).
  assert (sv = SDL (mkDL com (e_bases x) (e_secs x) (snapshot (env st) (e_secs x)) false)).
  { unfold processed in Pr. destruct (is_none (n_pre z)); apply ret_ok in Pr as [Pr _]; now injection Pr as _ <-. }
  subst sv. change (recompute_dl (mkDL com (e_bases x) (e_secs x) (snapshot (env st) (e_secs x)) false) (n_chal z) (n_resp z) = Ok cm) in Rc.
  unfold recompute_dl in Rc. rewrite E in Rc. cbn [rbind dl_lhs dl_bases] in Rc. rewrite E2 in Rc.
  apply rbind_ok in Rc as (y & Ey & _). apply wsum_v_ok in Ey as (zs & ->); [|now apply in_group_firstn|rewrite firstn_length; lia].
  exists zs. rewrite map_length in LW. auto.
Qed.

Lemma spread i (f g : nat -> Z) l : map (fun j => i * (f j - g j)) l =
  map (Z.mul i) (map (fun p => fst p + snd p) (combine (map f l) (map (Z.mul (-1)) (map g l)))).
Proof. induction l as [|a l IH]; cbn [map combine fst snd]; [reflexivity|]. rewrite IH. f_equal. Qed.

Lemma blinding_extract G1 G2 GT n stk sk pk stk' com z z' ss ss' st st' stv stv' cm :
  pairs G1 G2 = Some GT -> keygen G1 G2 n stk = Ok ((sk, pk), stk') -> prime (order G1) -> grp com = G1 ->
  verify_blinding (mkBlinded com (Some z)) pk ss st = Ok (true, st') ->
  verify_blinding (mkBlinded com (Some z')) pk ss' stv = Ok (true, stv') ->
  (forall l, as_iter (n_resp z) = Ok l -> (List.length l <= List.length ss)%nat) ->
  (forall l, as_iter (n_resp z') = Ok l -> (List.length l <= List.length ss')%nat) ->
  let d := mkDL com (skipn 1 (pk_gens pk)) [] [] false in
  recompute_dl d (n_chal z) (n_resp z) = Ok cm -> recompute_dl d (n_chal z') (n_resp z') = Ok cm ->
  ~ (order G1 | n_chal z - n_chal z') ->
  exists zs zs' t ms g0 g1 gens, as_iter (n_resp z) = Ok (map VInt zs) /\ as_iter (n_resp z') = Ok (map VInt zs') /\
    pk_gens pk = g0 :: g1 :: gens /\ List.length ms = n /\ com = padd (pmul t g1) (lincomb G1 ms gens) /\
    (forall j, (j <= n)%nat -> (order G1 | nth j (t :: ms) 0 * (n_chal z - n_chal z') - (nth j zs 0 - nth j zs' 0))) /\
    forall sta sg stb, sign sk com sta = Ok (sg, stb) ->
      verify_signature (mkSig (sig_A sg) (sig_e sg) (sig_s sg + t)) pk ms = Ok true.
Proof.
  intros P KG PR GC V V' L L' d R R' ND. destruct (keygen_inv _ _ _ _ _ _ _ _ P KG) as [K LG]. assert (I := K). destruct I as (_ & I & _).
  destruct (gens_two n pk LG) as (g0 & g1 & gens & EG & Ln). set (gs := skipn 1 (pk_gens pk)) in *.
  assert (Egs : gs = g1 :: gens) by (unfold gs; now rewrite EG).
  assert (IG : in_group G1 gs). { unfold gs. rewrite EG in I |- *. now inversion I. }
  assert (Lg : List.length gs = S n) by (rewrite Egs; simpl; lia).
  destruct (blinding_inv _ _ _ _ _ _ V) as (ws & E & X). destruct (X (L _ E)) as (zs & -> & Lz); [now rewrite GC|]. clear X.
  destruct (blinding_inv _ _ _ _ _ _ V') as (ws' & E' & X). destruct (X (L' _ E')) as (zs' & -> & Lz'); [now rewrite GC|]. clear X.
  fold gs in Lz, Lz'.
  assert (RC : forall z zs, as_iter (n_resp z) = Ok (map VInt zs) -> recompute_dl d (n_chal z) (n_resp z) = Ok cm ->
     cm = VPt (padd (lincomb G1 zs gs) (pmul (- n_chal z) com))).
  { intros z0 zs0 E0 R0. unfold recompute_dl in R0. rewrite E0 in R0. cbn [rbind dl_lhs dl_bases d] in R0.
    rewrite Lib.wsum_v_ints, GC, (wsum_lincomb _ _ _ IG) in R0. cbn [rbind] in R0.
    rewrite padd_chk_same in R0; [|rewrite grp_mul, GC; now apply grp_lincomb]. cbn [rbind] in R0. congruence. }
  assert (EQ := RC _ _ E R). rewrite (RC _ _ E' R') in EQ. injection EQ as EQ. clear RC.
  set (D := n_chal z - n_chal z') in *. set (i := zinv D (order G1)).
  assert (Hi : (order G1 | i * D - 1)) by (apply zinv_spec; auto).
  set (idx := seq 0 (List.length gs)).
  set (xs := map (fun j => i * (nth j zs 0 - nth j zs' 0)) idx).
  assert (NX : forall j, (j < List.length gs)%nat -> nth j xs 0 = i * (nth j zs 0 - nth j zs' 0)).
  { intros j Hj. unfold xs. rewrite (nth_indep _ 0 (i * (nth 0 zs 0 - nth 0 zs' 0))) by (unfold idx; now rewrite map_length, seq_length).
    rewrite (map_nth (fun j => i * (nth j zs 0 - nth j zs' 0))). unfold idx. rewrite seq_nth by auto. reflexivity. }
  assert (CX : lincomb G1 xs gs = com).
  { assert (XS : xs = map (Z.mul i) (map (fun p => fst p + snd p) (combine (map (fun j => nth j zs 0) idx) (map (Z.mul (-1)) (map (fun j => nth j zs' 0) idx))))).
    { unfold xs. exact (spread i (fun j => nth j zs 0) (fun j => nth j zs' 0) idx). }
    rewrite XS, lincomb_scale by auto.
    rewrite lincomb_add by (auto; unfold idx; now rewrite ?map_length, seq_length).
    rewrite lincomb_scale by auto. unfold idx. rewrite <- !lincomb_nth by auto.
    set (a := lincomb G1 zs gs) in *. set (b := lincomb G1 zs' gs) in *.
    assert (Ga : grp a = G1) by (now apply grp_lincomb). assert (Gb : grp b = G1) by (now apply grp_lincomb).
    assert (E2 : padd a (pmul (-1) b) = pmul D com).
    { transitivity (padd (padd a (pmul (- n_chal z) com)) (padd (pmul (n_chal z) com) (pmul (-1) b))); [glin G1|]. rewrite <- EQ. unfold D. glin G1. }
    rewrite E2, mul_mul. rewrite <- (mul_1 com) at 2. apply mul_cong. now rewrite GC. }
  destruct xs as [|t ms] eqn:EX.
  { exfalso. apply (f_equal (@List.length Z)) in EX. unfold xs, idx in EX. rewrite map_length, seq_length in EX. simpl in EX. lia. }
  assert (LX : List.length ms = n).
  { apply (f_equal (@List.length Z)) in EX. unfold xs, idx in EX. rewrite map_length, seq_length in EX. simpl in EX. lia. }
  exists zs, zs', t, ms, g0, g1, gens. split; auto. split; auto. split; auto. split; auto.
  assert (CE : com = padd (pmul t g1) (lincomb G1 ms gens)) by (rewrite <- CX, Egs; reflexivity).
  split; auto. split.
  { intros j Hj. rewrite NX by lia. replace (i * (nth j zs 0 - nth j zs' 0) * D - (nth j zs 0 - nth j zs' 0)) with ((nth j zs 0 - nth j zs' 0) * (i * D - 1)) by ring.
    now apply Z.divide_mul_r. }
  intros sta sg stb S. eapply sign_valid; eauto.
Qed.
End C.

(** Range proofs: values and openings are computed from two responses. *)
From Coq Require Import String Znumtheory Zpow_facts.
From Verif Require Import Base World Val Expr Utils Stmt Prove Verify Spec Shapes Claims Clauses Extract Lib Lin DictProofs Keeps Tree
  Sigma ArithProofs Build Process Ktruth Supply Total Total2 Total3 Sound Sound2 Sound4 Forge RangeC RangeS RangeS2 Opening.
Open Scope Z_scope.
Open Scope list_scope.

Section R.
Context {W : World}.

Lemma list_choice {A B} (P : nat -> A -> B -> Prop) (l : list A) : (forall j x, nth_error l j = Some x -> exists y, P j x y) ->
  exists ys, List.length ys = List.length l /\ forall j x y, nth_error l j = Some x -> nth_error ys j = Some y -> P j x y.
Proof.
  revert P. induction l as [|x l IH]; intros P H.
  - exists []. split; auto. intros [|j] ? ? E; discriminate E.
  - destruct (H 0%nat x eq_refl) as (y & Hy). destruct (IH (fun j => P (S j))) as (ys & L & F); [intros j; exact (H (S j))|].
    exists (y :: ys). split; [simpl; auto|]. intros [|j] x0 y0 E1 E2; [injection E1 as <-; injection E2 as <-; auto|eapply F; eauto].
Qed.
Lemma psum_opened G g h : grp g = G -> grp h = G -> forall l (bt : list (Z * Z)), List.length bt = List.length l ->
  (forall j C y, nth_error l j = Some C -> nth_error bt j = Some y -> C = padd (pmul (fst y) g) (pmul (snd y) h)) -> forall k,
  psum G k l = padd (pmul (k * value2 (map fst bt)) g) (pmul (k * value2 (map snd bt)) h).
Proof.
  intros Gg Gh. induction l as [|C l IH]; intros [|[b t] bt] L H k; try discriminate L.
  - cbn. rewrite !Z.mul_0_r. glin G.
  - cbn [psum map value2 fst snd]. rewrite (IH bt) by (try (injection L as L; exact L); intros j; exact (H (S j))).
    rewrite (H 0%nat C (b, t) eq_refl eq_refl). cbn [fst snd]. glin G.
Qed.
Lemma value2_bits l : Forall (fun b => b = 0 \/ b = 1) l -> 0 <= value2 l < 2 ^ Z.of_nat (List.length l).
Proof.
  induction 1 as [|b l B _ IH]; [cbn; lia|]. cbn [value2 List.length]. rewrite Nat2Z.inj_succ, Z.pow_succ_r by lia. lia.
Qed.
Lemma bit_extr w e h g C r b c c' a a' : grp C = grp g -> grp h = grp g -> Extr w (bitx e h C (padd C (pneg g)) r b) c c' a a' ->
  exists v t, (v = 0 \/ v = 1) /\ bit_from (order (grp g)) a a' v t /\ C = padd (pmul v g) (pmul t h).
Proof.
  intros GC Gh X. unfold bitx in X. inversion X as [| |subs f ch c0 c0' r0 r0' i s w' cs cs' ci ci' rs rs' ri ri' N I1 I2 I3 I4 I5 I6 I7 I8 ND XS|]; subst.
  assert (GC1 : grp (padd C (pneg g)) = grp g) by (rewrite grp_add; rewrite ?grp_neg; congruence).
  assert (K : forall p vals fl, grp p = grp g -> Extr w' (SDL (mkDL p [h] [r] vals fl)) ci ci' ri ri' -> exists t z z',
    p = pmul t h /\ index ri 0 = Ok (VInt z) /\ index ri' 0 = Ok (VInt z') /\ (order (grp g) | t * (ci - ci') - (z - z'))).
  { intros p vals fl Gp H. inversion H as [d ? ? ? ? IG DH F| | |]; subst. unfold dl_holds in DH. cbn in DH.
    destruct (F 0%nat r eq_refl) as (z & z' & Z1 & Z2 & Z3). cbn [dl_lhs] in Z3. exists (w' (order (grp p)) (sname r)), z, z'.
    split; [|split; [exact Z1|split; [exact Z2|rewrite <- Gp; exact Z3]]]. rewrite DH at 1. apply add_inf_r'. rewrite grp_mul. inversion IG; auto. }
  destruct i as [|[|i]]; [| |destruct i; discriminate N]; injection N as <-; apply K in XS; auto; destruct XS as (t & z & z' & E & Z1 & Z2 & Z3).
  - exists 0, t. split; auto. split; [apply (BitFrom _ _ _ 0 cs cs' rs rs' ci ci' ri ri' z z' t); auto|]. rewrite E. glin (grp g).
  - exists 1, t. split; auto. split; [apply (BitFrom _ _ _ 1 cs cs' rs rs' ci ci' ri ri' z z' t); auto|].
    apply (add_cancel_r (pneg g)); rewrite ?grp_neg, ?grp_add, ?grp_mul; try congruence.
    { rewrite !grp_mul; congruence. } rewrite E. unfold pneg. glin (grp g).
Qed.

Lemma range_parts_from com g h n isp x r rs sim pre st con cs (P : Z -> Prop) :
  construct (KRange com g h n isp x r rs) pre st = Ok (con, st) -> kvalidate (KRange com g h n isp x r rs) pre = Ok tt ->
  List.length rs = n -> grp h = grp g -> getitem pre (lit "Cs") = Ok (VList cs) -> List.length cs = n -> P (order (grp g)) ->
  let s := SExt (KRange com g h n isp x r rs) sim pre (Some con) in
  orders_in P s /\ forall w c c' a a', Extr w s c c' a a' ->
    exists u t, opening (order (grp g)) pre a a' n u t /\ 0 <= u < 2 ^ Z.of_nat n /\ com = padd (pmul u g) (pmul t h).
Proof.
  intros CN V Lr Gh EC Lc HP s. split.
  { destruct (range_parts com g h n isp x r rs sim pre st con cs P) as [O _]; auto. }
  intros w c c' a a' X.
  apply validate_range_inv in V as (Cs & rand & E1 & E2 & l & E3 & IG & Gc & EQ).
  rewrite EC in E1. injection E1 as <-. injection E3 as ->. rewrite map_length in Lc.
  cbn [construct] in CN. apply construct_range_inv in CN as (_ & bits & subs & KB & -> & L2 & LS & F).
  assert (LB := krange_bits_len _ _ _ _ _ KB).
  assert (BIT : forall j C, nth_error l j = Some C -> exists r0 b, nth_error subs j = Some (bitx (env st) h C (padd C (pneg g)) r0 b) /\ grp C = grp g).
  { intros j C HC. assert (Lj : (j < n)%nat) by (rewrite <- Lc; apply nth_error_Some; congruence).
    destruct (nth_error (combine rs bits) j) as [[r0 b]|] eqn:Ej; [|apply nth_error_None in Ej; rewrite combine_length in Ej; lia].
    destruct (F j r0 b Ej) as (C' & C1 & GC & PS & N). unfold get_C in GC. rewrite EC in GC. cbn [rbind] in GC.
    unfold index in GC. cbn in GC. rewrite (map_nth_error VPt _ _ HC) in GC. cbn in GC. injection GC as <-.
    apply psub_chk_ok in PS as [_ ->]. exists r0, b. split; auto.
    unfold in_group in IG. rewrite Forall_forall in IG. apply IG. eapply nth_error_In; eauto. }
  inversion X as [| | |k0 b0 p0 con0 c1 c1' a1 a1' XC]; subst. inversion XC as [|subs0 b0 c1 c1' a1 a1' FX| |]; subst.
  destruct (list_choice (fun j C y => (fst y = 0 \/ fst y = 1) /\ (exists v v', index a j = Ok v /\ index a' j = Ok v' /\ bit_from (order (grp g)) v v' (fst y) (snd y)) /\
    C = padd (pmul (fst y) g) (pmul (snd y) h)) l) as (bt & Lb & Fb).
  { intros j C HC. destruct (BIT j C HC) as (r0 & b & N & GC). destruct (FX j _ N) as (v & v' & V1 & V2 & XB).
    destruct (bit_extr _ _ _ _ _ _ _ _ _ _ _ GC Gh XB) as (bb & t & B1 & B2 & B3). exists (bb, t). cbn [fst snd]. eauto 10. }
  assert (NB : forall j y, nth_error bt j = Some y -> exists C, nth_error l j = Some C).
  { intros j y H. destruct (nth_error l j) eqn:E; eauto. apply nth_error_None in E. assert (j < List.length bt)%nat by (apply nth_error_Some; congruence). lia. }
  assert (PS := psum_opened (grp g) g h eq_refl Gh l bt Lb (fun j C y H1 H2 => proj2 (proj2 (Fb j C y H1 H2))) 1). rewrite !Z.mul_1_l in PS.
  exists (value2 (map fst bt)), (value2 (map snd bt) - rand). split; [|split].
  - exists (map fst bt), (map snd bt), rand. rewrite !map_length. split; [congruence|]. split; [congruence|]. split; [|auto].
    intros j b s0 H1 H2. rewrite nth_error_map in H1, H2. destruct (nth_error bt j) as [y|] eqn:Ey; [|discriminate]. injection H1 as <-. injection H2 as <-.
    destruct (NB j y Ey) as (C & HC). apply (Fb j C y HC Ey).
  - assert (VB := value2_bits (map fst bt)). rewrite map_length, Lb, Lc in VB. apply VB. apply Forall_map, Forall_forall. intros y Hy.
    apply In_nth_error in Hy as (j & Ej). destruct (NB j y Ej) as (C & HC). apply (Fb j C y HC Ej).
  - rewrite PS in EQ. assert (Gv : grp (padd (pmul (value2 (map fst bt)) g) (pmul (value2 (map snd bt) - rand) h)) = grp g) by (rewrite grp_add; rewrite ?grp_mul; congruence).
    apply (add_cancel_r (pmul rand h)); [rewrite grp_mul; congruence|rewrite grp_mul; congruence|].
    rewrite <- EQ. glin (grp g).
Qed.

Theorem range_sound_from com g h n isp x r rs sim pre st v s st1 e c0 c c' a a' cs :
  let s0 := SExt (KRange com g h n isp x r rs) sim VNone None in let q := order (grp g) in
  process_pre s0 (get_verifier s0) pre st = Ok ((v, s), st1) -> List.length rs = n -> grp h = grp g ->
  getitem pre (lit "Cs") = Ok (VList cs) -> List.length cs = n ->
  prime q -> 2 ^ 129 <= q -> ~ (q | c - c') -> ~ (2 ^ 128 | c - c') -> coh e (svars s) -> canonical s a -> canonical s a' ->
  verify_resp e s v c0 c a = Ok true -> verify_resp e s v c0 c' a' = Ok true ->
  exists u t, opening q pre a a' n u t /\ 0 <= u < 2 ^ Z.of_nat n /\ com = padd (pmul u g) (pmul t h).
Proof.
  intros s0 q PP Lr Gh EC Lc P B1 D1 D2 CO K K' A A'.
  assert (PP0 := PP). unfold s0 in PP. apply process_ext in PP as (con & CN & -> & -> & WF).
  assert (V := A). unfold verify_resp, pre_validation in V. apply rbind_ok in V as (u0 & V & _).
  apply rbind_ok in V as (u1 & V & _). cbn [full_validate] in V. destruct u1.
  destruct (range_parts_from com g h n isp x r rs sim pre st con cs (fun q => prime q /\ ~ (q | c - c') /\ 2 ^ 129 <= q) CN V) as [O T]; auto.
  destruct (or_soundness _ _ _ _ _ _ e c0 c c' a a' PP0) as (w & X & _); auto.
  { constructor. }
  exact (T w c c' a a' X).
Qed.

Theorem range_sound_all_from com g h a b x r x1 x2 rs1 rs2 sb s0 pre st v s st1 e c0 c c' z z' p1 p2 cs1 cs2 :
  let n := num_bits (b - a - 1) in let q := order (grp g) in
  mk_range com g h a b x r x1 x2 rs1 rs2 sb = Ok (s0, st) ->
  process_pre s0 (get_verifier s0) pre st = Ok ((v, s), st1) -> List.length rs1 = n -> List.length rs2 = n -> grp h = grp g ->
  index pre 1 = Ok p1 -> getitem p1 (lit "Cs") = Ok (VList cs1) -> List.length cs1 = n ->
  index pre 2 = Ok p2 -> getitem p2 (lit "Cs") = Ok (VList cs2) -> List.length cs2 = n ->
  prime q -> 2 ^ 129 <= q -> a < b -> 2 ^ (Z.of_nat n + 1) <= q ->
  ~ (q | c - c') -> ~ (2 ^ 128 | c - c') -> coh e (svars s) -> canonical s z -> canonical s z' ->
  verify_resp e s v c0 c z = Ok true -> verify_resp e s v c0 c' z' = Ok true ->
  exists w u1 t1 u2 t2 z1 z1' z2 z2',
    Extr w s c c' z z' /\
    index z 1 = Ok z1 /\ index z' 1 = Ok z1' /\ opening q p1 z1 z1' n u1 t1 /\
    index z 2 = Ok z2 /\ index z' 2 = Ok z2' /\ opening q p2 z2 z2' n u2 t2 /\
    com = padd (pmul (w q (sname x)) g) (pmul (w q (sname r)) h) /\
    com = padd (pmul (a + u1) g) (pmul t1 h) /\ com = padd (pmul (b - 2 ^ Z.of_nat n + u2) g) (pmul t2 h) /\
    ((a <= a + u1 < b /\ (q | w q (sname x) - (a + u1))) \/
     ~ (q | w q (sname x) - (a + u1)) \/ ~ (q | a + u1 - (b - 2 ^ Z.of_nat n + u2))).
Proof.
  intros n q MK PP L1 L2 Gh I1 C1 N1 I2 C2 N2 P B1 AB B2 D1 D2 CO K K' A A'.
  apply mk_range_inv in MK as (com1 & com2 & S1 & S2 & _ & ->). fold n in S2, PP |- *. cbv zeta in PP. set (o := 2 ^ Z.of_nat n - (b - a)) in *.
  assert (NP : is_none pre = false) by (destruct pre; auto; discriminate I1).
  assert (PP0 := PP). apply three_processed in PP as (p1' & p2' & k1 & k2 & I1' & I2' & K1 & K2 & -> & ->); auto.
  rewrite I1 in I1'. injection I1' as <-. rewrite I2 in I2'. injection I2' as <-.
  assert (V := A). unfold verify_resp, pre_validation in V. apply rbind_ok in V as (u0 & V & _).
  apply rbind_ok in V as (u1 & V & _). destruct u1.
  change (rbind (rmap full_validate [SDL (mkDL com [g; h] [x; r] (snapshot (env st) [x; r]) false);
    SExt (KRange com1 g h n (is_some (env st (sid x1)) && is_some (env st (sid r))) x1 r rs1) false p1 (Some k1);
    SExt (KRange com2 g h n (is_some (env st (sid x2)) && is_some (env st (sid r))) x2 r rs2) false p2 (Some k2)]) (fun _ => Ok tt) = Ok tt) in V.
  apply rbind_ok in V as (l & V & _). apply rmap_ok in V. inversion V as [|? ? ? ? _ V1]; subst. inversion V1 as [|? ? ? ? E1 V2]; subst.
  inversion V2 as [|? ? ? ? E2 _]; subst. cbn [full_validate] in E1, E2. repeat match goal with y : unit |- _ => destruct y end.
  apply psub_chk_ok in S1 as [S1 Ec1]. rewrite grp_neg, grp_mul in S1. apply padd_chk_ok in S2 as [S2 Ec2]. rewrite grp_mul in S2.
  destruct (range_parts_from com1 g h n _ x1 r rs1 false p1 st k1 cs1 (fun q => prime q /\ ~ (q | c - c') /\ 2 ^ 129 <= q) K1 E1) as [O1 T1]; auto.
  destruct (range_parts_from com2 g h n _ x2 r rs2 false p2 st k2 cs2 (fun q => prime q /\ ~ (q | c - c') /\ 2 ^ 129 <= q) K2 E2) as [O2 T2]; auto.
  destruct (or_soundness _ _ _ _ _ _ e c0 c c' z z' PP0) as (w & X & _); auto.
  { repeat constructor. }
  { constructor. constructor; [|constructor; [exact O1|constructor; [exact O2|constructor]]]. constructor. cbn [dl_lhs]. rewrite S1. auto. }
  assert (X0 := X). inversion X0 as [|subs0 b0 y1 y2 y3 y4 FX| |]; subst.
  destruct (FX 0%nat _ eq_refl) as (z0 & z0' & _ & _ & X1). destruct (FX 1%nat _ eq_refl) as (z1 & z1' & J1 & J1' & X2). destruct (FX 2%nat _ eq_refl) as (z2 & z2' & J2 & J2' & X3).
  apply T1 in X2 as (u1 & t1 & OP1 & U1 & F1). apply T2 in X3 as (u2 & t2 & OP2 & U2 & F2).
  inversion X1 as [d ? ? ? ? IG DH _| | |]; subst. unfold dl_holds in DH. cbn [dl_lhs dl_bases dl_secs map lincomb] in DH. rewrite S1 in DH. fold q in DH.
  exists w, u1, t1, u2, t2, z1, z1', z2, z2'. do 7 (split; [assumption|]).
  assert (EC : com = padd (pmul (a + u1) g) (pmul t1 h)).
  { apply (add_cancel_r (pneg (pmul a g))); rewrite ?grp_neg, ?grp_add, ?grp_mul; try congruence. { rewrite !grp_mul; congruence. }
    rewrite F1. unfold pneg. glin (grp g). }
  assert (EC2 : com = padd (pmul (b - 2 ^ Z.of_nat n + u2) g) (pmul t2 h)).
  { rewrite F1 in F2. apply (add_cancel_r (pmul (2 ^ Z.of_nat n - b) g)); rewrite ?grp_add, ?grp_mul; try congruence.
    { rewrite !grp_mul; congruence. } rewrite EC.
    transitivity (padd (padd (pmul u1 g) (pmul t1 h)) (pmul o g)); [clear F2; unfold o; glin (grp g)|]. rewrite F2. clear F2. glin (grp g). }
  split; [|split; [exact EC|split; [exact EC2|]]].
  - rewrite DH at 1. glin (grp g).
  - destruct (Zdivide_dec q (w q (sname x) - (a + u1))) as [D|D]; [|auto]. destruct (Zdivide_dec q (a + u1 - (b - 2 ^ Z.of_nat n + u2))) as [D'|D']; [|auto].
    left. split; auto.
    assert (NB := num_bits_abs (b - a - 1)). fold n in NB.
    assert (PW : 2 ^ (Z.of_nat n + 1) = 2 * 2 ^ Z.of_nat n) by (rewrite Z.pow_add_r by lia; ring).
    assert (a + u1 = b - 2 ^ Z.of_nat n + u2).
    { destruct D' as [k D']. assert (k = 0) by nia. subst k. lia. }
    lia.
Qed.
End R.

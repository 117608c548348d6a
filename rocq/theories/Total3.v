(** Computations that do not fail: primitives. *)
From Coq Require Import String.
From Verif Require Import Base World Val Expr Utils Stmt Prove Verify Spec Shapes Claims Lib Lin DictProofs Keeps Tree Sigma
  Validate Commit ArithProofs Build Process Ktruth Provers Clauses Compose Supply Total.
Open Scope Z_scope.
Open Scope list_scope.

Section T.
Context {W : World}.

Lemma dlx_typ e lhs x : expr_ok x -> e_bases x <> [] -> in_group (grp lhs) (e_bases x) -> Typ (dlx e lhs x).
Proof. intros H N G. constructor. split; auto. Qed.
Lemma gok_in g x : e_bases x <> [] -> in_group g (e_bases x) -> gok x.
Proof. intros N G. split; eauto. Qed.
Lemma in_group2 g a b : grp a = g -> grp b = g -> in_group g [a; b].
Proof. intros. repeat constructor; auto. Qed.

Lemma neq_con H0 g H1 h x al be bnd P st : kshape (KNeq H0 g H1 h x al be bnd) -> grp P = grp g ->
  exists c, construct (KNeq H0 g H1 h x al be bnd) (VPt P) st = Ok (c, st) /\ Typ c.
Proof.
  intros (HS & E0 & E1 & Eh) EP.
  assert (G1 : in_group (grp g) [g; H0]) by (apply in_group2; auto).
  assert (G2 : in_group (grp g) [h; H1]) by (apply in_group2; auto).
  eexists. split.
  - cbn [construct]. apply construct_neq_total; (eapply gok_in; [discriminate|simpl; eauto]).
  - constructor. constructor; [|constructor].
    + apply dlx_typ; [reflexivity|discriminate|]. rewrite grp_inf. exact G1.
    + apply dlx_typ; [reflexivity|discriminate|]. rewrite EP. exact G2.
    + destruct bnd; constructor; [|constructor]. apply dlx_typ; [reflexivity|discriminate|].
      repeat constructor. auto.
Qed.

Lemma krange_bits_ex e n isp x com g h r rs : vkOK e (KRange com g h n isp x r rs) ->
  exists bits, krange_bits e n isp x bits.
Proof.
  unfold vkOK, krange_bits. destruct isp; [|eauto]. intros (v & E & B).
  destruct (proj1 (decompose_spec_l v n) B) as (l & D & _). eauto 10.
Qed.
Lemma range_con com g h n isp x r rs cs rand st : kshape (KRange com g h n isp x r rs) ->
  vkOK (env st) (KRange com g h n isp x r rs) -> (n <= List.length cs)%nat -> in_group (grp g) cs ->
  exists c, construct (KRange com g h n isp x r rs) (VDict [(lit "Cs", VList (map VPt cs)); (lit "rand", rand)]) st = Ok (c, st) /\ Typ c.
Proof.
  intros (HS & Ec & Eh & N2 & Lr) VK Lc IG.
  destruct (krange_bits_ex _ _ _ _ _ _ _ _ _ VK) as (bits & KB).
  assert (LB := krange_bits_len _ _ _ _ _ KB).
  set (pre := VDict [(lit "Cs", VList (map VPt cs)); (lit "rand", rand)]).
  assert (HC : forall j C, nth_error cs j = Some C -> get_C pre j = Ok C) by (intros; now apply get_C_dict).
  assert (T : exists c, construct (KRange com g h n isp x r rs) pre st = Ok (c, st)).
  { cbn [construct]. unfold construct_range. unfold bind at 1, get_env.
    assert (EB : (if isp then match env st (sid x) with
                  | Some v => let! l := lift (decompose v n) in ret (map Some l)
                  | None => raise ETypeErr end
                else ret (repeat None n)) st = Ok (bits, st)).
    { unfold krange_bits in KB. destruct isp; [|now subst].
      destruct KB as (v & l & -> & D & ->). rewrite D. now rewrite bind_lift_ok. }
    unfold bind at 1. rewrite EB.
    unfold bind at 1.
    rewrite (imapM_total _ (fun i rb => bitx (env st) h (nth i cs (inf (grp g))) (padd (nth i cs (inf (grp g))) (pneg g)) (fst rb) (snd rb)) (combine rs bits) st).
    - set (subs := map _ _). assert (List.length subs = n) as LS.
      { unfold subs. rewrite map_length, combine_length, seq_length, combine_length. lia. }
      unfold mk_and. replace (List.length subs <? 2)%nat with false by (symmetry; apply Nat.ltb_ge; lia).
      simpl. eauto.
    - intros j [r0 b0] Nj. assert (j < n)%nat.
      { apply nth_error_combine in Nj as [Nj _]. rewrite <- Lr. apply nth_error_Some. congruence. }
      assert (NC : nth_error cs j = Some (nth j cs (inf (grp g)))) by (apply nth_error_nth'; lia).
      simpl. rewrite (HC _ _ NC), bind_lift_ok. apply bit_stmt_total.
      assert (GN : grp (nth j cs (inf (grp g))) = grp g)
        by (unfold in_group in IG; rewrite Forall_forall in IG; apply IG; eapply nth_error_In; eauto).
      rewrite psub_chk_eq by congruence. apply padd_chk_same. now rewrite grp_neg. }
  destruct T as (c & T). exists c. split; auto.
  cbn [construct] in T. apply construct_range_inv in T as (_ & bits' & subs & KB' & -> & L2 & LS & N).
  constructor. apply Forall_forall. intros z Hz. apply In_nth_error in Hz as (j & Nj).
  destruct (nth_error (combine rs bits') j) as [[r0 b0]|] eqn:Eb.
  2:{ apply nth_error_None in Eb. assert (j < List.length subs)%nat by (apply nth_error_Some; congruence). lia. }
  destruct (N j r0 b0 Eb) as (C & C1 & GC & PS & Nz). rewrite Nz in Nj. injection Nj as <-.
  assert (grp C = grp g).
  { apply nth_error_combine in Eb as [Er _].
    assert (j < n)%nat by (rewrite <- Lr; apply nth_error_Some; congruence).
    assert (NC : nth_error cs j = Some (nth j cs (inf (grp g)))) by (apply nth_error_nth'; lia).
    assert (E := HC _ _ NC). rewrite E in GC. injection GC as <-.
    unfold in_group in IG. rewrite Forall_forall in IG. apply IG. eapply nth_error_In; eauto. }
  apply psub_chk_ok in PS as [_ ->].
  constructor; [discriminate|]. constructor; [|constructor; [|constructor]]; constructor; split; auto; split; try discriminate; simpl.
  - repeat constructor. congruence.
  - repeat constructor. rewrite grp_add by (now rewrite grp_neg). congruence.
Qed.

Lemma bbs_con pk sg bs sv r1 r2 d1 d2 A1 A2 st : kshape (KBBS pk sg bs sv r1 r2 d1 d2) ->
  (forall b, In b bs -> grp A1 = grp b /\ grp A2 = grp b) ->
  exists c, construct (KBBS pk sg bs sv r1 r2 d1 d2) (VDict [(lit "A1", VPt A1); (lit "A2", VPt A2)]) st = Ok (c, st) /\ Typ c.
Proof.
  intros (I1 & I2 & IT & m & PR & IG & GW & GH & GP & LM & EB & LS & _) HA.
  destruct (pk_gens pk) as [|g0 [|g1 [|g2 gens]]] eqn:EG; simpl in LM; try lia.
  destruct m as [|[|[|m]]]; try lia. simpl in EB. destruct sv as [|e sv]; [simpl in LS; lia|].
  assert (X0 : grp g0 = I1) by (inversion IG; auto).
  unfold in_group in IG. rewrite Forall_forall in IG.
  assert (X1 : grp g1 = I1) by (apply IG; simpl; auto). assert (X2 : grp g2 = I1) by (apply IG; simpl; auto).
  destruct (HA g0) as [XA1 XA2]; [rewrite EB; now left|].
  assert (PA : pairs (grp A2) (grp (pk_w pk)) = Some IT) by (rewrite XA2, X0, GW; auto).
  assert (PH : pairs (grp A2) (grp (pk_h0 pk)) = Some IT) by (rewrite XA2, X0, GH; auto).
  assert (PG : forall g, In g (g0 :: g1 :: g2 :: gens) -> grp (pairing g (pk_h0 pk)) = IT).
  { intros g Hg. apply grp_pairing. rewrite (IG g Hg), GH. auto. }
  cbn [construct]. unfold construct_bbs.
  change (getitem (VDict [(lit "A1", VPt A1); (lit "A2", VPt A2)]) (lit "A1")) with (@Ok val (VPt A1)).
  change (getitem (VDict [(lit "A1", VPt A1); (lit "A2", VPt A2)]) (lit "A2")) with (@Ok val (VPt A2)).
  cbn [rbind as_pt]. rewrite !bind_lift_ok. rewrite EB.
  unfold bind at 1. rewrite lift2_dl_run by (apply (gok_in I1); [discriminate|apply in_group2; auto]).
  unfold bind at 1.
  assert (IG3 : in_group I1 [g1; g2; pmul (-1) A1]) by (repeat constructor; rewrite ?grp_mul; congruence).
  rewrite lift2_dl_run by (apply (gok_in I1); [discriminate|exact IG3]).
  unfold pairing_chk at 1. rewrite PA, bind_lift_ok. rewrite GP. cbn [map].
  rewrite padd_chk_same.
  2:{ rewrite grp_mul, PG by (simpl; auto). now apply grp_pairing. }
  rewrite bind_lift_ok. unfold pairing_chk at 1. rewrite PH, bind_lift_ok.
  unfold pairing_chk at 1. rewrite X2, GW, PR, bind_lift_ok.
  set (bb := [pmul (-1) (pairing A2 (pk_h0 pk)); pairing g2 (pk_w pk); pairing g2 (pk_h0 pk)] ++ _).
  assert (GB : in_group IT bb).
  { unfold bb, in_group. apply Forall_app. split.
    - repeat constructor.
      + rewrite grp_mul. now apply grp_pairing.
      + apply grp_pairing. now rewrite X2, GW.
      + apply PG. simpl; auto.
    - apply Forall_forall. intros p Hp. rewrite <- (map_cons (fun g => pairing g (pk_h0 pk)) g2), <- (map_cons (fun g => pairing g (pk_h0 pk)) g1) in Hp.
      assert (In p (map (fun g => pairing g (pk_h0 pk)) (g1 :: g2 :: gens))).
      { rewrite <- (firstn_skipn (List.length (g0 :: g1 :: g2 :: firstn m gens) - 1)). apply in_app_iff. now left. }
      apply in_map_iff in H as (q & <- & Hq). apply PG. now right. }
  assert (LB : List.length (e :: r1 :: d1 :: sv) = List.length bb).
  { unfold bb. simpl. rewrite firstn_length. simpl in *. rewrite map_length.
    assert (List.length (firstn m gens) = m) by (rewrite firstn_length; lia). lia. }
  assert (WS : exists x3, wsum_secrets (e :: r1 :: d1 :: sv) bb = Ok x3).
  { unfold wsum_secrets. rewrite (proj2 (Nat.eqb_eq _ _) LB). unfold bb. simpl. eauto. }
  destruct WS as (x3 & WS). rewrite WS, bind_lift_ok.
  destruct (wsum_secrets_eq _ _ _ WS) as (E1 & E2 & _).
  assert (NB : e_bases x3 <> []) by (rewrite E2; discriminate).
  unfold bind at 1. rewrite lift2_dl_run by (apply (gok_in IT); [auto|now rewrite E2]).
  unfold mk_and. simpl. eexists. split; [reflexivity|].
  constructor. constructor; [|constructor; [|constructor; [|constructor]]].
  - apply dlx_typ; [reflexivity|discriminate|]. apply in_group2; congruence.
  - apply dlx_typ; [reflexivity|discriminate|]. rewrite grp_inf, X0. exact IG3.
  - apply dlx_typ; auto; [unfold expr_ok; now rewrite E1, E2|]. rewrite E2.
    rewrite grp_add; [rewrite (grp_pairing _ _ _ PA); auto|].
    rewrite grp_mul, PG by (simpl; auto). now apply grp_pairing.
Qed.

Lemma custom_con cls rows pre st : kshape (KCustom cls rows) ->
  exists c, construct (KCustom cls rows) pre st = Ok (c, st) /\ Typ c.
Proof.
  intros (NE & F). cbn [construct]. unfold construct_custom.
  set (f := fun rw : pt * list (secret * pt) => lift2 (mk_dlrep (fst rw) (row_expr (snd rw)) false)).
  assert (E : mapM f rows st = Ok (map (fun rw => dlx (env st) (fst rw) (row_expr (snd rw))) rows, st)).
  { clear NE. induction rows as [|rw rows IH]; [reflexivity|]. apply Forall_cons_iff in F as [[N G] F].
    simpl. unfold bind. unfold f at 1. rewrite lift2_dl_run.
    - rewrite IH by auto. reflexivity.
    - apply (gok_in (grp (fst rw))); auto. simpl. destruct (snd rw); [tauto|discriminate]. }
  unfold bind at 1. rewrite E.
  assert (T : Forall Typ (map (fun rw => dlx (env st) (fst rw) (row_expr (snd rw))) rows)).
  { apply Forall_map. eapply Forall_impl; [|exact F]. intros rw [N G]. apply dlx_typ; auto.
    - unfold expr_ok. simpl. now rewrite !map_length.
    - simpl. destruct (snd rw); [tauto|discriminate]. }
  destruct (map _ rows) as [|a [|b l]] eqn:EM.
  - apply map_eq_nil in EM. tauto.
  - exists a. split; auto. now inversion T.
  - unfold mk_and. simpl. eexists. split; [reflexivity|]. now constructor.
Qed.

(** Simulated precommitments. *)
Lemma ksim_total k st : kshape k -> notcustom k -> vkOK (env st) k ->
  exists pre st1 c, ksim_precommit k st = Ok (pre, st1) /\ construct k pre st1 = Ok (c, st1) /\ Typ c.
Proof.
  intros KS NC VK. destruct k as [H0 g H1 h x al be bnd|com g h n isp x r rs|pk sg bs sv r1 r2 d1 d2|cls rows]; [| | |destruct NC].
  - cbn [ksim_precommit]. unfold bind, draw, ret.
    set (st1 := mkSt _ _ _). edestruct (neq_con H0 g H1 h x al be bnd (pmul (tape st (pos st) mod order (grp g)) (gen (grp g))) st1 KS) as (c & C & T).
    { now rewrite grp_mul, grp_gen. }
    exists (VPt (pmul (tape st (pos st) mod order (grp g)) (gen (grp g)))), st1, c. auto.
  - cbn [ksim_precommit]. cbv zeta.
    destruct (mapM_total (fun _ : nat => draw (order (grp g))) (fun a => env a = env st) (seq 0 n) st eq_refl) as (rv & st1 & E & E1).
    { intros i a _ Ea. unfold draw. eauto. }
    assert (LR := mapM_length _ _ _ _ _ E). rewrite seq_length in LR.
    unfold bind at 1. rewrite E. destruct KS as (HS & Ec & Eh & N2 & Lr).
    destruct rv as [|r0 rv]; [simpl in LR; lia|]. cbn [map].
    rewrite padd_chk_same by (rewrite grp_mul; congruence). rewrite bind_lift_ok.
    edestruct (range_con com g h n isp x r rs (padd (pmul r0 h) com :: map (fun r => pmul r h) rv)
      (VInt (combine_rands (r0 :: rv) (order (grp g)))) st1) as (c & C & T).
    + repeat split; auto.
    + now rewrite E1.
    + simpl in *. rewrite map_length. lia.
    + constructor; [rewrite grp_add, grp_mul by (rewrite grp_mul; congruence); auto|].
      apply Forall_map, Forall_forall. intros q _. now rewrite grp_mul.
    + unfold ret. eauto 10.
  - assert (KS' := KS). destruct KS' as (I1 & I2 & IT & m & PR & IG & GW & GH & GP & LM & EB & LS & _).
    cbn [ksim_precommit]. destruct bs as [|b0 bs0] eqn:EBS.
    { destruct (pk_gens pk); simpl in LM; [lia|]. destruct m; [lia|discriminate]. }
    rewrite <- EBS in *. unfold bind at 1, draw at 1. unfold bind at 1, draw at 1. unfold ret.
    set (st1 := mkSt _ _ _).
    edestruct (bbs_con pk sg bs sv r1 r2 d1 d2) as (c & C & T); [exact KS| |eauto 10].
    intros b Hb. rewrite !grp_mul, !grp_gen.
    assert (forall q, In q bs -> grp q = I1).
    { intros q Hq. unfold in_group in IG. rewrite Forall_forall in IG. apply IG. rewrite EB in Hq.
      rewrite <- (firstn_skipn m). apply in_app_iff. now left. }
    rewrite (H b Hb), (H b0) by (rewrite EBS; now left). auto.
Qed.

(** Honest precommitments; the inner statement can be proved with the values it has recorded. *)
Lemma snapshot_known e ss x : In x ss -> e (sid x) <> None -> known (snapshot e ss) x.
Proof.
  intros Hx Hv. destruct (e (sid x)) as [v|] eqn:E; [|tauto].
  assert (M : dmem e (snapshot e ss) x = true).
  { unfold snapshot.
    assert (G : forall l d, dmem e d x = true \/ In x l ->
      dmem e (fold_left (fun d s => match e (sid s) with Some v => dset e d s v | None => d end) l d) x = true).
    { induction l as [|y l IH]; intros d H; simpl; [destruct H as [H|[]]; auto|].
      apply IH. destruct H as [H|[->|H]]; auto.
      - left. destruct (e (sid y)); auto. rewrite dmem_dset, H. apply orb_true_r.
      - left. rewrite E, dmem_dset, sec_eqb_refl. reflexivity. }
    apply G. auto. }
  unfold dmem in M. destruct (dget e (snapshot e ss) x) as [u|] eqn:G; [|discriminate].
  apply dget_in in G as (k & Hk & Ek). apply sec_eqb_iff in Ek as [Ek _]. exists k, u. auto.
Qed.
Lemma dlx_supplied sv w e lhs x : (forall y, In y (e_secs x) -> e (sid y) <> None) -> Supplied sv w e (dlx e lhs x).
Proof. intros H. constructor. simpl. intros y Hy. left. apply snapshot_known; auto. Qed.

Definition mono (e e' : nat -> option Z) : Prop := forall i, e i <> None -> e' i <> None.
Lemma mono_refl e : mono e e.
Proof. now intros i. Qed.
Lemma mono_trans a b c : mono a b -> mono b c -> mono a c.
Proof. intros H1 H2 i Hi. auto. Qed.
Lemma mono_upd e i v : mono e (upd e i (Some v)).
Proof. intros j Hj. unfold upd. destruct (Nat.eqb j i); [discriminate|auto]. Qed.

Definition defd (e : nat -> option Z) (l : list secret) : Prop := forall x, In x l -> e (sid x) <> None.
Lemma defd_mono e e' l : mono e e' -> defd e l -> defd e' l.
Proof. intros M D x Hx. apply M. auto. Qed.

Lemma mapM_sets_total q rs : forall st, exists us st', 
  mapM (fun r => let! v := draw q in set_value (sid r) v) rs st = Ok (us, st') /\
  mono (env st) (env st') /\ defd (env st') rs.
Proof.
  induction rs as [|r rs IH]; intros st.
  - exists [], st. repeat split; [apply mono_refl|intros x []].
  - set (st1 := mkSt (upd (env st) (sid r) (Some (tape st (pos st) mod q))) (tape st) (S (pos st))).
    destruct (IH st1) as (us & st' & E & M & D). exists (tt :: us), st'. split.
    { assert (E0 : (let! v := draw q in set_value (sid r) v) st = Ok (tt, st1)) by reflexivity.
      cbn [mapM]. unfold bind at 1. rewrite E0. unfold bind at 1. rewrite E. reflexivity. }
    split; [apply (mono_trans _ (env st1)); auto; apply mono_upd|].
    intros x [<-|Hx]; auto. apply M. unfold st1. cbn [env]. rewrite upd_same. discriminate.
Qed.
Lemma mapM_values_total rs st : defd (env st) rs -> exists rv, mapM value_of rs st = Ok (rv, st) /\ List.length rv = List.length rs.
Proof.
  induction rs as [|r rs IH]; intros D; [exists []; auto|].
  destruct IH as (rv & E & L); [intros x Hx; apply D; now right|].
  assert (Dr := D r (or_introl eq_refl)). destruct (env st (sid r)) as [v|] eqn:Ev; [|tauto].
  exists (v :: rv). split; [|simpl; auto]. simpl. unfold bind, value_of at 1. unfold bind, get_env. rewrite Ev.
  unfold ret. rewrite E. reflexivity.
Qed.
Lemma value_of_run x st v : env st (sid x) = Some v -> value_of x st = Ok (v, st).
Proof. intros E. unfold value_of, bind, get_env. rewrite E. reflexivity. Qed.

Lemma kprec_total w k st : kshape k -> kreal w k -> defd (env st) (kuser k) -> agree w (env st) (kuser k) -> kdisj k ->
  exists pre st1 c, kprecommit k st = Ok (pre, st1) /\ construct k pre st1 = Ok (c, st1) /\ Typ c /\
    mono (env st) (env st1) /\ forall sv, Supplied sv w (env st1) c.
Proof.
  intros KS KR D A [ND DJ]. destruct k as [H0 g H1 h x al be bnd|com g h n isp x r rs|pk sg bs sv r1 r2 d1 d2|cls rows].
  - assert (Dx : env st (sid x) <> None) by (apply D; simpl; auto).
    destruct (env st (sid x)) as [v|] eqn:Ex; [|tauto].
    assert (Nxa : sid x <> sid al) by (intros E; apply (DJ al x); simpl; auto).
    assert (Nxb : sid x <> sid be) by (intros E; apply (DJ be x); simpl; auto).
    set (q := order (grp g)). set (b := tape st (pos st) mod q).
    set (st1 := mkSt (upd (upd (env st) (sid al) (Some ((v * b) mod q))) (sid be) (Some ((- b) mod q))) (tape st) (S (pos st))).
    assert (Ex1 : env st1 (sid x) = Some v) by (unfold st1; cbn [env]; rewrite !upd_other by auto; auto).
    assert (GD : grp (padd (pmul v h) (pneg H1)) = grp g).
    { destruct KS as (_ & _ & E1 & Eh). rewrite grp_add; rewrite ?grp_neg, ?grp_mul; congruence. }
    exists (VPt (pmul b (padd (pmul v h) (pneg H1)))), st1.
    destruct (neq_con H0 g H1 h x al be bnd (pmul b (padd (pmul v h) (pneg H1))) st1 KS) as (c & C & T).
    { now rewrite grp_mul. }
    exists c. split; [|split; [auto|split; [auto|split]]].
    + cbn [kprecommit]. cbv zeta. unfold bind at 1, draw. fold q. fold b.
      unfold bind at 1. rewrite (value_of_run x _ v) by auto.
      unfold bind at 1, set_value. cbn [env tape pos]. unfold bind at 1, set_value. cbn [env tape pos]. fold st1.
      unfold bind at 1. rewrite (value_of_run x _ v) by auto.
      rewrite psub_chk_eq by (destruct KS as (HS & _ & E1 & Eh); rewrite grp_mul; congruence). rewrite padd_chk_same by (destruct KS as (_ & _ & E1 & Eh); rewrite grp_neg, grp_mul; congruence).
      rewrite bind_lift_ok. reflexivity.
    + unfold st1. cbn [env]. eapply mono_trans; apply mono_upd.
    + intros sv0. cbn [construct] in C. apply construct_neq_inv in C as (_ & P & _ & _ & _ & ->).
      assert (Da : env st1 (sid al) <> None).
      { unfold st1. cbn [env]. unfold upd. destruct (Nat.eqb (sid al) (sid be)); [discriminate|]. rewrite Nat.eqb_refl. discriminate. }
      assert (Db : env st1 (sid be) <> None) by (unfold st1; cbn [env]; rewrite upd_same; discriminate).
      clearbody st1. constructor. constructor; [|constructor].
      * apply dlx_supplied. simpl. intros y [<-|[<-|[]]]; auto.
      * apply dlx_supplied. simpl. intros y [<-|[<-|[]]]; auto.
      * destruct bnd; constructor; [|constructor]. apply dlx_supplied. simpl. intros y [<-|[]]; rewrite Ex1; discriminate.
  - destruct KR as [-> KR]. assert (KS' := KS). destruct KS' as (HS & Ec & Eh & N2 & Lr).
    assert (Dx : env st (sid x) <> None) by (apply D; simpl; auto).
    destruct (env st (sid x)) as [v|] eqn:Ex; [|tauto].
    assert (v = w (sname x)) as Ev by (apply A; simpl; auto). rewrite <- Ev in KR.
    destruct (proj1 (decompose_spec_l v n) KR) as (bits & DB & LB & FB & _).
    destruct (mapM_sets_total (order (grp g)) rs st) as (us & st1 & ES & M & DR).
    assert (FR := mapM_sets _ _ _ _ _ ES).
    destruct (mapM_values_total rs st1 DR) as (rv & EV & LV).
    assert (Ex1 : env st1 (sid x) = Some v).
    { rewrite FR; auto. intros K. apply in_map_iff in K as (y & Ey & Hy). apply (DJ y x); simpl; auto. }
    assert (Dr : env st1 (sid r) <> None) by (apply M, D; simpl; auto).
    destruct (env st1 (sid r)) as [rr|] eqn:Er; [|tauto].
    set (cs := map (fun br => padd (pmul (fst br) g) (pmul (snd br) h)) (combine bits rv)).
    set (rand := VInt ((combine_rands rv (order (grp g)) - rr) mod order (grp g))).
    destruct (range_con com g h n true x r rs cs rand st1 KS) as (c & C & T).
    { simpl. eauto. }
    { unfold cs. rewrite map_length, combine_length. lia. }
    { unfold cs. apply Forall_map, Forall_forall. intros [a b] _. cbn [fst snd]. rewrite grp_add; rewrite !grp_mul; auto. }
    eexists _, st1, c. split; [|split; [exact C|split; [auto|split; [auto|]]]].
    + cbn [kprecommit]. unfold bind at 1. rewrite (value_of_run x _ v) by auto. rewrite DB, bind_lift_ok. cbv zeta.
      unfold bind at 1. rewrite ES. unfold bind at 1. rewrite EV.
      assert (RM : rmap (fun br => padd_chk (pmul (fst br) g) (pmul (snd br) h)) (combine bits rv) = Ok cs).
      { unfold cs. clear -Eh. induction (combine bits rv) as [|[a b] l IH]; [reflexivity|].
        simpl. rewrite padd_chk_same by (rewrite !grp_mul; auto). simpl. now rewrite IH. }
      rewrite RM, bind_lift_ok. unfold bind at 1. rewrite (value_of_run r _ rr) by auto. reflexivity.
    + intros sv0. cbn [construct] in C. apply construct_range_inv in C as (_ & bits' & subs & KB & -> & L2 & LS & N).
      constructor. apply Forall_forall. intros z Hz. apply In_nth_error in Hz as (j & Nj).
      destruct (nth_error (combine rs bits') j) as [[r0 b0]|] eqn:Eb.
      2:{ apply nth_error_None in Eb. assert (j < List.length subs)%nat by (apply nth_error_Some; congruence). lia. }
      destruct (N j r0 b0 Eb) as (C & C1 & GC & PS & Nz). rewrite Nz in Nj. injection Nj as <-.
      apply nth_error_combine in Eb as [Nr Nb].
      destruct KB as (v' & l & Ev' & DB' & ->). assert (v' = v) by congruence. subst v'. rewrite DB in DB'. injection DB' as <-.
      rewrite nth_error_map in Nb. destruct (nth_error bits j) as [bj|] eqn:Nbj; [|discriminate]. simpl in Nb. injection Nb as <-.
      rewrite Forall_forall in FB. destruct (FB bj (nth_error_In _ _ Nbj)) as [->| ->].
      * unfold bitx. simpl. eapply SuOr; [left; reflexivity|reflexivity| | |].
        -- constructor. simpl. intros y [<-|[]]. left. apply (snapshot_known _ [r0]); [now left|]. apply DR. eapply nth_error_In; eauto.
        -- intros y [<-|[<-|[]]]; simpl; [|discriminate]. intros _. right. constructor. simpl. intros y [<-|[]].
           left. apply (snapshot_known _ [r0]); [now left|]. apply DR. eapply nth_error_In; eauto.
        -- intros y [<-|[<-|[]]]; simpl; constructor.
      * unfold bitx. simpl. eapply SuOr; [right; left; reflexivity|reflexivity| | |].
        -- constructor. simpl. intros y [<-|[]]. left. apply (snapshot_known _ [r0]); [now left|]. apply DR. eapply nth_error_In; eauto.
        -- intros y [<-|[<-|[]]]; simpl; [discriminate|]. intros _. right. constructor. simpl. intros y [<-|[]].
           left. apply (snapshot_known _ [r0]); [now left|]. apply DR. eapply nth_error_In; eauto.
        -- intros y [<-|[<-|[]]]; simpl; constructor.
  - assert (KS' := KS). destruct KS' as (I1 & I2 & IT & m & PR & IG & GW & GH & GP & LM & EB & LS & SA).
    destruct sg as [sg|]; [|now destruct KR]. specialize (SA sg eq_refl).
    assert (BI : forall q, In q bs -> grp q = I1).
    { intros q Hq. unfold in_group in IG. rewrite Forall_forall in IG. apply IG. rewrite EB in Hq.
      rewrite <- (firstn_skipn m). apply in_app_iff. now left. }
    destruct bs as [|b0 [|b1 [|b2 bs]]].
    1-3: exfalso; assert (X := f_equal (@List.length pt) EB); rewrite firstn_length in X; simpl in X; lia.
    set (q := order (grp b0)). set (v1 := tape st (pos st) mod q). set (v2 := tape st (S (pos st)) mod q).
    set (st1 := mkSt (upd (upd (upd (upd (env st) (sid r1) (Some v1)) (sid r2) (Some v2))
       (sid d1) (Some ((v1 * sig_e sg) mod q))) (sid d2) (Some ((v2 * sig_e sg) mod q))) (tape st) (S (S (pos st)))).
    assert (M1 : mono (env st) (env st1)).
    { unfold st1. cbn [env]. repeat (eapply mono_trans; [|apply mono_upd]). apply mono_refl. }
    destruct (bbs_con pk (Some sg) (b0 :: b1 :: b2 :: bs) sv r1 r2 d1 d2 (padd (pmul v1 b1) (pmul v2 b2)) (padd (pmul v1 b2) (sig_A sg)) st1 KS)
      as (c & C & T).
    { intros b Hb. rewrite (BI b Hb). split; rewrite grp_add; rewrite ?grp_mul, ?SA, ?BI by (simpl; auto); auto. }
    eexists _, st1, c. split; [|split; [exact C|split; [auto|split; [auto|]]]].
    + cbn [kprecommit]. cbv zeta. unfold bind at 1, draw. unfold bind at 1. cbn [env tape pos].
      fold q. fold v1. fold v2.
      do 4 (unfold bind at 1, set_value; cbn [env tape pos]). fold st1.
      rewrite padd_chk_same by (rewrite !grp_mul, !BI by (simpl; auto); auto). rewrite bind_lift_ok.
      rewrite padd_chk_same by (rewrite !grp_mul, !BI, SA by (simpl; auto); auto). rewrite bind_lift_ok. reflexivity.
    + intros sv0. assert (DI : defd (env st1) [r1; r2; d1; d2]).
      { intros y Hy. unfold st1. cbn [env]. unfold upd. simpl in Hy.
        repeat (match goal with |- context [Nat.eqb ?a ?b] => destruct (Nat.eqb_spec a b); [discriminate|] end).
        exfalso. destruct Hy as [<-|[<-|[<-|[<-|[]]]]]; auto. }
      assert (DU : defd (env st1) sv) by (eapply defd_mono; eauto).
      cbn [construct] in C.
      apply construct_bbs_inv in C as (_ & A1 & A2 & g0 & g1 & g2 & bs' & e & svs & aw & gp0 & plhs & ah & g2w & gp1 & gp2 & gps & x3 &
        _ & _ & _ & -> & EG & Paw & Ppl & Pah & Pg2 & WS & G1 & G2 & G3 & ->).
      apply wsum_secrets_eq in WS as (E1 & _ & _).
      assert (forall y, In y (r1 :: r2 :: d1 :: d2 :: e :: svs) -> env st1 (sid y) <> None) as DD.
      { intros y Hy. change (r1 :: r2 :: d1 :: d2 :: e :: svs) with ([r1; r2; d1; d2] ++ e :: svs) in Hy.
        apply in_app_iff in Hy as [Hy|Hy]; auto. }
      constructor. constructor; [|constructor; [|constructor; [|constructor]]]; apply dlx_supplied.
      * simpl. intros y Hy. apply DD. simpl. tauto.
      * simpl. intros y Hy. apply DD. simpl. tauto.
      * rewrite E1. intros y Hy. apply DD. simpl in *. tauto.
  - destruct (custom_con cls rows (VList []) st KS) as (c & C & T).
    exists (VList []), st, c. split; [reflexivity|]. split; auto. split; auto. split; [apply mono_refl|].
    intros sv0. cbn [construct] in C. apply construct_custom_inv in C as (_ & _ & C). cbv zeta in C.
    set (ds := map _ rows) in *. assert (FS : Forall (Supplied sv0 w (env st)) ds).
    { unfold ds. apply Forall_map, Forall_forall. intros rw Hr. apply dlx_supplied. simpl. intros y Hy. apply D.
      simpl. apply in_concat. exists (map fst (snd rw)). split; auto. apply in_map_iff. eauto. }
    destruct ds as [|a [|b l]]; [destruct C as [-> _]; constructor; auto| |destruct C as [-> _]; constructor; auto].
    subst c. now inversion FS.
Qed.
End T.

(** Honest precommitments: the inner statement of a primitive is true and passes validation. *)
From Coq Require Import String.
From Verif Require Import Base World Val Expr Utils Stmt Prove Verify Spec Shapes Claims Lib Lin DictProofs Keeps Tree Sigma
  Validate Commit ArithProofs Build Process.
Open Scope Z_scope.
Open Scope list_scope.

Section K.
Context {W : World}.
Variable sd : dict Z.

(** sum of t 2^i c_i *)
Fixpoint psum (G : gid) (t : Z) (cs : list pt) : pt :=
  match cs with [] => inf G | c :: cs => padd (pmul t c) (psum G (t * 2) cs) end.
Lemma grp_psum G cs : in_group G cs -> forall t, grp (psum G t cs) = G.
Proof.
  induction 1 as [|c cs Hc F IH]; intros t; simpl; [apply grp_inf|].
  rewrite grp_add; rewrite grp_mul; auto. now rewrite IH.
Qed.
Definition vstep (acc : res (pt * Z)) (c : val) : res (pt * Z) :=
  let? a := acc in let? c := as_pt c in
  let? s := padd_chk (fst a) (pmul (snd a) c) in Ok (s, snd a * 2).
Lemma kvalidate_range com g h n isp x r rs pre :
  kvalidate (KRange com g h n isp x r rs) pre =
  (let? rand := getitem pre (lit "rand") in
   let? Cs := getitem pre (lit "Cs") in
   let? cs := as_iter Cs in
   let? cb := fold_left vstep cs (Ok (inf (grp g), 1)) in
   let? rand := as_int rand in
   let? rhs := padd_chk com (pmul rand h) in
   if pt_eqb (fst cb) rhs then Ok tt else Err EValidation).
Proof. reflexivity. Qed.
Lemma getitem_Cs cs rand : getitem (VDict [(lit "Cs", cs); (lit "rand", rand)]) (lit "Cs") = Ok cs.
Proof. reflexivity. Qed.
Lemma getitem_rand cs rand : getitem (VDict [(lit "Cs", cs); (lit "rand", rand)]) (lit "rand") = Ok rand.
Proof. reflexivity. Qed.
Lemma vstep_err l e : fold_left vstep l (Err e) = Err e.
Proof. induction l; simpl; auto. Qed.
Lemma vfold_ok G cs : in_group G cs -> forall a t, grp a = G ->
  exists u, fold_left vstep (map VPt cs) (Ok (a, t)) = Ok (padd a (psum G t cs), u).
Proof.
  induction 1 as [|c cs Hc F IH]; intros a t Ha; simpl.
  - exists t. now rewrite add_inf_r'.
  - rewrite padd_chk_same by (rewrite grp_mul; congruence). cbn [rbind].
    destruct (IH (padd a (pmul t c)) (t * 2)) as (u & E).
    { rewrite grp_add; auto. rewrite grp_mul; congruence. }
    exists u. rewrite E. do 2 f_equal.
    rewrite <- add_assoc; rewrite ?grp_mul; try congruence. rewrite grp_psum; auto.
Qed.
Lemma psum_pairs G g h : grp g = G -> grp h = G -> forall bits rv t,
  List.length bits = List.length rv ->
  psum G t (map (fun br => padd (pmul (fst br) g) (pmul (snd br) h)) (combine bits rv)) =
  padd (pmul (t * binval bits) g) (pmul (t * binval rv) h).
Proof.
  intros Hg Hh. induction bits as [|b bits IH]; intros [|r rv] t L; simpl in L; try discriminate.
  - simpl. rewrite !Z.mul_0_r. rewrite !mul_0, Hg, Hh, add_inf_l'; auto. apply grp_inf.
  - cbn [combine map psum fst snd]. rewrite IH by congruence.
    cbn [binval fold_right]. fold (binval bits). fold (binval rv). glin G.
Qed.
Lemma psum_h G h : grp h = G -> forall rv t,
  psum G t (map (fun r => pmul r h) rv) = pmul (t * binval rv) h.
Proof.
  intros Hh. induction rv as [|r rv IH]; intros t.
  - simpl. rewrite Z.mul_0_r, mul_0, Hh. auto.
  - cbn [map psum]. rewrite IH. cbn [binval fold_right]. fold (binval rv). glin G.
Qed.

Lemma combine_rands_mod rs q : 0 < q -> combine_rands rs q mod q = binval rs mod q.
Proof.
  intros Hq. unfold combine_rands.
  assert (G : forall rs a t, fst (fold_left (fun (acc : Z * Z) r => ((fst acc + r * snd acc) mod q, snd acc * 2)) rs (a, t)) mod q
     = (a + t * binval rs) mod q).
  { clear rs. induction rs as [|r rs IH]; intros a t.
    - simpl. now rewrite Z.mul_0_r, Z.add_0_r.
    - cbn [fold_left fst snd]. rewrite IH. cbn [binval fold_right]. fold (binval rs).
      rewrite Zplus_mod_idemp_l. f_equal. ring. }
  rewrite G. f_equal. ring.
Qed.

Lemma get_C_dict cs rand i C : nth_error cs i = Some C ->
  get_C (VDict [(lit "Cs", VList (map VPt cs)); (lit "rand", rand)]) i = Ok C.
Proof.
  intros N. unfold get_C.
  rewrite getitem_Cs. cbn [rbind]. rewrite (index_list (map VPt cs) i (VPt C)); [reflexivity|].
  rewrite nth_error_map, N. reflexivity.
Qed.

(** ** DLRep nodes *)
Lemma dl_true_x w e lhs x : in_group (grp lhs) (e_bases x) ->
  lhs = lincomb (grp lhs) (map (fun s => w (sname s)) (e_secs x)) (e_bases x) -> Tru sd w (dlx e lhs x).
Proof. intros H K. constructor. split; auto. Qed.

Lemma value_of_ok x s v s' : value_of x s = Ok (v, s') -> s' = s /\ env s (sid x) = Some v.
Proof.
  unfold value_of, bind, get_env. destruct (env s (sid x)) eqn:E; [|discriminate].
  intros H. injection H as <- <-. auto.
Qed.
Lemma draw_ok n s v s' : draw n s = Ok (v, s') -> env s' = env s.
Proof. apply keeps_draw. Qed.
Lemma set_value_ok i v s u s' : set_value i v s = Ok (u, s') -> env s' = upd (env s) i (Some v).
Proof. unfold set_value. intros H. injection H as _ <-. auto. Qed.
Lemma upd_same {A} (f : nat -> A) i v : upd f i v i = v.
Proof. unfold upd. now rewrite Nat.eqb_refl. Qed.
Lemma upd_other {A} (f : nat -> A) i v j : j <> i -> upd f i v j = f j.
Proof. unfold upd. intros H. apply Nat.eqb_neq in H. now rewrite H. Qed.
Lemma mapM_values rs : forall s rv s', mapM value_of rs s = Ok (rv, s') ->
  s' = s /\ Forall2 (fun r v => env s (sid r) = Some v) rs rv.
Proof.
  induction rs as [|r rs IH]; intros s rv s' H; simpl in H; [minvs; auto|].
  apply bind_ok in H as (v & s1 & E & H). apply value_of_ok in E as [-> E].
  apply bind_ok in H as (vs & s1 & E2 & H). apply IH in E2 as [-> F]. minvs. auto.
Qed.
Lemma mapM_sets q rs : forall s us s',
  mapM (fun r => let! v := draw q in set_value (sid r) v) rs s = Ok (us, s') ->
  forall i, ~ In i (map sid rs) -> env s' i = env s i.
Proof.
  induction rs as [|r rs IH]; intros s us s' H i Hi; simpl in H; [minvs; auto|].
  apply bind_ok in H as (v & s1 & E & H). apply bind_ok in E as (z & s2 & E1 & E2).
  apply draw_ok in E1. apply set_value_ok in E2.
  apply bind_ok in H as (vs & s3 & E3 & H). minvs. simpl in Hi.
  rewrite (IH _ _ _ E3) by tauto. rewrite E2, E1. apply upd_other. intuition congruence.
Qed.

Definition kdisj (k : kind) : Prop :=
  NoDup (map sid (kint k)) /\ forall x y, In x (kint k) -> In y (kuser k) -> sid x <> sid y.

Lemma kprecommit_frame k st pre st' : kprecommit k st = Ok (pre, st') ->
  forall i, ~ In i (map sid (kint k)) -> env st' i = env st i.
Proof.
  destruct k as [H0 g H1 h x al be bnd|com g h n isp x r rs|pk sig bs sv r1 r2 d1 d2|cls rows];
    simpl kprecommit; simpl kint; intros H i Hi.
  - apply bind_ok in H as (b & s1 & E1 & H). apply draw_ok in E1.
    apply bind_ok in H as (v & s2 & E2 & H). apply value_of_ok in E2 as [-> E2].
    apply bind_ok in H as (u & s2 & E3 & H). apply set_value_ok in E3.
    apply bind_ok in H as (u' & s3 & E4 & H). apply set_value_ok in E4.
    apply bind_ok in H as (v' & s4 & E5 & H). apply value_of_ok in E5 as [-> E5].
    apply bind_ok in H as (d & s4 & E6 & H). apply lift_ok in E6 as [E6 ->]. minvs.
    simpl in Hi. rewrite E4, upd_other, E3, upd_other, E1; intuition congruence.
  - destruct isp; [|discriminate].
    apply bind_ok in H as (v & s1 & E1 & H). apply value_of_ok in E1 as [-> E1].
    apply bind_ok in H as (bits & s1 & E2 & H). apply lift_ok in E2 as [E2 ->].
    apply bind_ok in H as (us & s1 & E3 & H).
    apply bind_ok in H as (rv & s2 & E4 & H). apply mapM_values in E4 as [-> _].
    apply bind_ok in H as (cs & s2 & E5 & H). apply lift_ok in E5 as [E5 ->].
    apply bind_ok in H as (r0 & s2 & E6 & H). apply value_of_ok in E6 as [-> E6]. minvs.
    eapply mapM_sets; eauto.
  - destruct sig as [sg|]; [|discriminate]. destruct bs as [|b0 [|b1 [|b2 bs]]]; try discriminate.
    apply bind_ok in H as (v1 & s1 & E1 & H). apply draw_ok in E1.
    apply bind_ok in H as (v2 & s2 & E2 & H). apply draw_ok in E2.
    apply bind_ok in H as (u & s3 & E3 & H). apply set_value_ok in E3.
    apply bind_ok in H as (u' & s4 & E4 & H). apply set_value_ok in E4.
    apply bind_ok in H as (u'' & s5 & E5 & H). apply set_value_ok in E5.
    apply bind_ok in H as (u3 & s6 & E6 & H). apply set_value_ok in E6.
    apply bind_ok in H as (A1 & s7 & E7 & H). apply lift_ok in E7 as [E7 ->].
    apply bind_ok in H as (A2 & s7 & E8 & H). apply lift_ok in E8 as [E8 ->]. minvs.
    simpl in Hi. rewrite E6, upd_other, E5, upd_other, E4, upd_other, E3, upd_other, E2, E1; intuition congruence.
  - minvs. auto.
Qed.

Lemma mul_mod' k q a : q = order (grp a) -> pmul (k mod q) a = pmul k a.
Proof. intros ->. apply mul_mod. Qed.

Lemma neq_true w st H0 g H1 h x al be bnd pre st1 c st2 :
  kprecommit (KNeq H0 g H1 h x al be bnd) st = Ok (pre, st1) ->
  construct (KNeq H0 g H1 h x al be bnd) pre st1 = Ok (c, st2) ->
  KTrue w (KNeq H0 g H1 h x al be bnd) -> kdisj (KNeq H0 g H1 h x al be bnd) ->
  agree w (env st) [x] -> agree w (env st1) [al; be] ->
  Tru sd w c /\ pre <> VNone /\ truthy pre = true.
Proof.
  simpl kprecommit. intros H C T (ND & DJ) AU AI.
  apply bind_ok in H as (b & s1 & E1 & H). apply draw_ok in E1.
  apply bind_ok in H as (v & s2 & E2 & H). apply value_of_ok in E2 as [-> E2].
  apply bind_ok in H as (u & s2 & E3 & H). apply set_value_ok in E3.
  apply bind_ok in H as (u' & s3 & E4 & H). apply set_value_ok in E4.
  apply bind_ok in H as (v' & s4 & E5 & H). apply value_of_ok in E5 as [-> E5].
  apply bind_ok in H as (d & s4 & E6 & H). apply lift_ok in E6 as [E6 ->].
  apply ret_ok in H as [<- ->].
  inversion T as [? ? ? ? ? ? ? ? G1 G2 G3| | |]; subst.
  apply construct_neq_inv in C as (-> & P & EP & K1 & K2 & ->). injection EP as <-.
  apply psub_chk_ok in E6 as [E6 ->].
  simpl in ND, DJ. inversion ND as [|? ? N1 N2]; subst.
  assert (D1 : sid x <> sid al) by (intros X; eapply (DJ al x); auto).
  assert (D2 : sid x <> sid be) by (intros X; eapply (DJ be x); auto).
  assert (D3 : sid al <> sid be) by (simpl in N1; intuition congruence).
  assert (Vx : v = w (sname x)) by (apply AU; [simpl; auto|now rewrite <- E1]).
  assert (Va : w (sname al) = (v * b) mod order (grp g)).
  { symmetry. apply AI; [simpl; auto|]. rewrite E4, upd_other, E3 by auto. apply upd_same. }
  assert (Vb : w (sname be) = (- b) mod order (grp g)).
  { symmetry. apply AI; [simpl; auto|]. rewrite E4. apply upd_same. }
  assert (Vv : v' = v).
  { rewrite E4, upd_other, E3, upd_other in E5 by auto. congruence. }
  subst v'. clear E1 E2 E3 E4 E5.
  destruct K1 as (_ & ga & K1). destruct K2 as (_ & gb & K2). simpl in K1, K2.
  assert (grp (pmul (w (sname x)) g) = grp g) by apply grp_mul.
  split; [|split; [discriminate|reflexivity]].
  constructor. constructor; [|constructor].
  - apply dl_true_x; simpl.
    + rewrite grp_inf. repeat (apply Forall_cons || apply Forall_nil); auto.
    + rewrite grp_inf, Va, Vb, <- Vx, !mul_mod' by (rewrite ?grp_mul; auto). glin (grp g).
  - apply dl_true_x; simpl; rewrite !grp_mul, grp_add, grp_mul by auto.
    + repeat (apply Forall_cons || apply Forall_nil); auto.
    + rewrite Va, Vb, !mul_mod' by (congruence). glin (grp h).
  - destruct bnd; constructor; auto. apply dl_true_x; simpl; rewrite !grp_mul.
    + repeat (apply Forall_cons || apply Forall_nil); auto.
    + glin (grp g).
Qed.

Lemma range_true w st com g h n isp x r rs pre st1 c st2 :
  kprecommit (KRange com g h n isp x r rs) st = Ok (pre, st1) ->
  construct (KRange com g h n isp x r rs) pre st1 = Ok (c, st2) ->
  KTrue w (KRange com g h n isp x r rs) -> kdisj (KRange com g h n isp x r rs) ->
  agree w (env st) [x; r] -> agree w (env st1) rs ->
  Tru sd w c /\ pre <> VNone /\ truthy pre = true /\ kvalidate (KRange com g h n isp x r rs) pre = Ok tt.
Proof.
  intros H C T (ND & DJ) AU AI.
  assert (FR := kprecommit_frame _ _ _ _ H). simpl kprecommit in H.
  destruct isp; [|discriminate].
  apply bind_ok in H as (v & s1 & E1 & H). apply value_of_ok in E1 as [-> E1].
  apply bind_ok in H as (bits & s1 & E2 & H). apply lift_ok in E2 as [E2 ->].
  apply bind_ok in H as (us & s1 & E3 & H).
  apply bind_ok in H as (rv & s2 & E4 & H). apply mapM_values in E4 as [-> F4].
  apply bind_ok in H as (cs & s2 & E5 & H). apply lift_ok in E5 as [E5 ->].
  apply bind_ok in H as (r0 & s2 & E6 & H). apply value_of_ok in E6 as [-> E6].
  apply ret_ok in H as [<- ->].
  inversion T as [|? ? ? ? ? ? ? ? G1 G2 G3| |]; subst.
  assert (Lr : List.length rv = List.length rs) by (symmetry; eapply Forall2_len; eauto).
  assert (Dx : ~ In (sid x) (map sid rs)).
  { intros X. apply in_map_iff in X as (y & Ey & Hy). apply (DJ y x); simpl; auto. }
  assert (Dr : ~ In (sid r) (map sid rs)).
  { intros X. apply in_map_iff in X as (y & Ey & Hy). apply (DJ y r); simpl; auto. }
  simpl in FR.
  assert (Vx : v = w (sname x)) by (apply AU; simpl; auto).
  assert (Vr : r0 = w (sname r)) by (apply AU; simpl; auto; rewrite <- (FR _ Dr); auto).
  assert (Vrs : rv = map (fun y => w (sname y)) rs).
  { clear -F4 AI. assert (AI' : forall y u, In y rs -> env s1 (sid y) = Some u -> u = w (sname y)) by exact AI.
    clear AI. induction F4; simpl; auto. f_equal; [apply AI'; simpl; auto|]. apply IHF4. intros; apply AI'; simpl; auto. }
  destruct (decompose_eq _ _ _ E2) as (Rv & Lb & Fb & Bv).
  assert (Ecs : cs = map (fun br => padd (pmul (fst br) g) (pmul (snd br) h)) (combine bits rv)).
  { apply rmap_ok in E5. clear -E5 G1. revert E5. generalize (combine bits rv) as l. intros l E5.
    induction E5 as [|y z l cs E5 F IH]; simpl; auto. rewrite padd_chk_same in E5 by (rewrite !grp_mul; auto).
    injection E5 as <-. f_equal. auto. }
  assert (Gcs : in_group (grp g) cs).
  { rewrite Ecs. apply Forall_forall. intros p Hp. apply in_map_iff in Hp as ([b0 r1] & <- & _). simpl.
    rewrite grp_add; rewrite !grp_mul; auto. }
  assert (L2 : List.length bits = List.length rv) by congruence.
  split; [|split; [discriminate|split; [reflexivity|]]].
  - cbn [construct] in C. apply construct_range_inv in C as (-> & bits' & subs & KB & -> & L3 & L4 & FS).
    simpl in KB. destruct KB as (v2 & l2 & Ev2 & D2 & ->). rewrite (FR _ Dx), E1 in Ev2. injection Ev2 as <-.
    rewrite E2 in D2. injection D2 as <-.
    constructor. apply Forall_forall. intros y Hy. apply In_nth_error in Hy as (j & Hj).
    assert (Hl : (j < List.length (combine rs (map Some bits)))%nat).
    { rewrite <- L4. apply nth_error_Some. congruence. }
    destruct (nth_error (combine rs (map Some bits)) j) as [[rj bj]|] eqn:N; [|apply nth_error_None in N; lia].
    destruct (FS _ _ _ N) as (Cj & Cj1 & EC & EC1 & EJ). rewrite Hj in EJ. injection EJ as ->.
    apply nth_error_combine in N as [N1 N2].
    rewrite nth_error_map in N2. destruct (nth_error bits j) as [b|] eqn:N3; [|discriminate].
    injection N2 as <-.
    assert (N4 : nth_error rv j = Some (w (sname rj))) by (rewrite Vrs, nth_error_map, N1; reflexivity).
    assert (N5 : nth_error cs j = Some (padd (pmul b g) (pmul (w (sname rj)) h))).
    { rewrite Ecs, nth_error_map. rewrite (proj2 (nth_error_combine bits rv j b (w (sname rj)))); auto. }
    rewrite (get_C_dict cs _ j _ N5) in EC. injection EC as <-.
    apply psub_chk_ok in EC1 as [EC1 ->].
    assert (Hb : b = 0 \/ b = 1) by (rewrite Forall_forall in Fb; apply Fb; eapply nth_error_In; eauto).
    apply TrOr. intros z [<-|[<-|[]]]; simpl; intros Hs; right.
    + assert (b = 0) by (destruct Hb; auto; subst; discriminate). subst b.
      constructor. split; cbn [dl_lhs dl_bases dl_secs].
      * rewrite grp_add, grp_mul by (rewrite !grp_mul; auto). repeat (apply Forall_cons || apply Forall_nil); auto.
      * unfold dl_holds. cbn [dl_lhs dl_bases dl_secs map lincomb].
        rewrite grp_add, grp_mul by (rewrite !grp_mul; auto). glin (grp g).
    + assert (b = 1) by (destruct Hb; auto; subst; discriminate). subst b.
      constructor. split; cbn [dl_lhs dl_bases dl_secs].
      * gsimp. repeat (apply Forall_cons || apply Forall_nil); auto.
      * unfold dl_holds. cbn [dl_lhs dl_bases dl_secs map lincomb].
        gsimp. glin (grp g).
  - rewrite kvalidate_range, getitem_Cs, getitem_rand.
    cbn [rbind as_iter].
    destruct (vfold_ok (grp g) cs Gcs (inf (grp g)) 1 (grp_inf _)) as (u & ->).
    cbn [rbind as_int fst]. rewrite padd_chk_same.
    2:{ rewrite grp_mul, grp_add; rewrite !grp_mul; auto. }
    cbn [rbind]. replace (pt_eqb _ _) with true; auto. symmetry. apply pt_eqb_spec.
    rewrite add_inf_l' by (now apply grp_psum). rewrite Ecs, psum_pairs by auto.
    rewrite !Z.mul_1_l, Bv, <- Vx, <- Vr, mul_mod' by (now rewrite G1).
    rewrite (mul_mod_eq (binval rv) (combine_rands rv (order (grp g)))).
    2:{ rewrite G1. symmetry. apply combine_rands_mod. assert (O := order_gt1 (grp g)). lia. }
    glin (grp g).
Qed.

Lemma lincomb_firstn g ws : forall ps, lincomb g ws (firstn (List.length ws) ps) = lincomb g ws ps.
Proof. induction ws as [|w ws IH]; intros [|p ps]; simpl; auto. now rewrite IH. Qed.
Lemma pairing_inf G1 h t : pairs G1 (grp h) = Some t -> pairing (inf G1) h = inf t.
Proof.
  intros P. assert (P' : pairs (grp (inf G1)) (grp h) = Some t) by (now rewrite grp_inf).
  rewrite <- (grp_inf G1) at 1. rewrite <- (mul_0 (inf G1)), (pairing_mul_l _ _ _ t), mul_0 by auto.
  f_equal. now apply grp_pairing.
Qed.
Lemma lincomb_pairing G1 h t : forall ws ps, in_group G1 ps -> pairs G1 (grp h) = Some t ->
  lincomb t ws (map (fun p => pairing p h) ps) = pairing (lincomb G1 ws ps) h.
Proof.
  intros ws ps F P. revert ws. induction F as [|p ps Hp F IH]; intros [|w ws]; simpl;
    try (symmetry; now apply pairing_inf).
  assert (P' : pairs (grp p) (grp h) = Some t) by (now rewrite Hp).
  rewrite IH. rewrite (pairing_add_l _ _ _ t), (pairing_mul_l _ _ _ t); auto.
  - now rewrite grp_mul.
  - rewrite grp_lincomb by auto. now rewrite grp_mul.
Qed.

Lemma bbs_true w st pk sig bs sv r1 r2 d1 d2 pre st1 c st2 :
  kprecommit (KBBS pk sig bs sv r1 r2 d1 d2) st = Ok (pre, st1) ->
  construct (KBBS pk sig bs sv r1 r2 d1 d2) pre st1 = Ok (c, st2) ->
  KTrue w (KBBS pk sig bs sv r1 r2 d1 d2) -> kdisj (KBBS pk sig bs sv r1 r2 d1 d2) ->
  agree w (env st) sv -> agree w (env st1) [r1; r2; d1; d2] ->
  Tru sd w c /\ pre <> VNone /\ truthy pre = true.
Proof.
  simpl kprecommit. intros H C T (ND & DJ) AU AI.
  destruct sig as [sg|]; [|discriminate]. destruct bs as [|b0 [|b1 [|b2 bs]]]; try discriminate.
  apply bind_ok in H as (v1 & s1 & E1 & H). apply draw_ok in E1.
  apply bind_ok in H as (v2 & s2 & E2 & H). apply draw_ok in E2.
  apply bind_ok in H as (u & s3 & E3 & H). apply set_value_ok in E3.
  apply bind_ok in H as (u' & s4 & E4 & H). apply set_value_ok in E4.
  apply bind_ok in H as (u'' & s5 & E5 & H). apply set_value_ok in E5.
  apply bind_ok in H as (u3 & s6 & E6 & H). apply set_value_ok in E6.
  apply bind_ok in H as (A1 & s7 & E7 & H). apply lift_ok in E7 as [E7 ->].
  apply bind_ok in H as (A2 & s7 & E8 & H). apply lift_ok in E8 as [E8 ->].
  apply ret_ok in H as [<- ->].
  simpl in ND. inversion ND as [|? ? N1 ND1]; subst. inversion ND1 as [|? ? N2 ND2]; subst.
  inversion ND2 as [|? ? N3 _]; subst. simpl in N1, N2, N3.
  assert (V1 : w (sname r1) = v1).
  { symmetry. apply AI; [simpl; auto|]. rewrite E6, upd_other, E5, upd_other, E4, upd_other, E3 by intuition congruence. apply upd_same. }
  assert (V2 : w (sname r2) = v2).
  { symmetry. apply AI; [simpl; auto|]. rewrite E6, upd_other, E5, upd_other, E4 by intuition congruence. apply upd_same. }
  assert (V3 : w (sname d1) = (v1 * sig_e sg) mod order (grp b0)).
  { symmetry. apply AI; [simpl; auto|]. rewrite E6, upd_other, E5 by intuition congruence. apply upd_same. }
  assert (V4 : w (sname d2) = (v2 * sig_e sg) mod order (grp b0)).
  { symmetry. apply AI; [simpl; auto|]. rewrite E6. apply upd_same. }
  clear E1 E2 E3 E4 E5 E6 N1 N2 N3 ND1 ND2 ND DJ AI AU.
  cbn [construct] in C.
  inversion T; subst. clear T.
  match goal with X : bbs_pk_ok _ |- _ => rename X into PK end.
  match goal with X : Forall _ (pk_gens pk) |- _ => rename X into FG end.
  match goal with X : (_ <= _)%nat |- _ => rename X into LG end.
  match goal with X : w _ = sig_e sg |- _ => rename X into We end.
  match goal with X : bbs_valid _ _ _ _ _ |- _ => rename X into VS end.
  match goal with X : _ = b0 :: b1 :: b2 :: bs |- _ => rename X into Eb end.
  destruct PK as (G1 & G2 & GT & HP & HG & Hw & Hh & HGP).
  unfold bbs_valid in VS.
  destruct (pk_gens pk) as [|g0 [|g1 [|g2 gens]]] eqn:EG; simpl in LG, Eb; try discriminate Eb; try lia;
    destruct ms as [|m0 ms]; try discriminate Eb.
  simpl in Eb. injection Eb as <- <- <- Ebs.
  apply Forall_cons_iff in HG as [I0 HG']. assert (HG1 := HG').
  apply Forall_cons_iff in HG' as [I1 HG'']. apply Forall_cons_iff in HG'' as [I2 HG3].
  apply Forall_cons_iff in FG as [J0 _]. assert (J0' : grp (sig_A sg) = G1) by congruence.
  apply padd_chk_ok in E7 as [_ ->]. apply padd_chk_ok in E8 as [_ ->].
  apply construct_bbs_inv in C as (-> & A1' & A2' & g0' & g1' & g2' & bs' & e' & svs & aw & gp0 & plhs & ah & g2w & gp1 & gp2 & gps & x3 &
     EA1 & EA2 & Ebs' & Esv' & Egp & Paw & Pl & Pah & Pgw & WS & K1 & K2 & K3 & ->).
  change (Ok (padd (pmul (w (sname r1)) g1) (pmul (w (sname r2)) g2)) = Ok A1') in EA1. injection EA1 as <-.
  change (Ok (padd (pmul (w (sname r1)) g2) (sig_A sg)) = Ok A2') in EA2. injection EA2 as <-.
  injection Ebs' as <- <- <- <-. injection Esv' as <- <-.
  rewrite HGP in Egp. simpl in Egp. injection Egp as <- <- <- <-.
  apply wsum_secrets_eq in WS as (W1 & W2 & W3).
  set (H := pk_h0 pk) in *. set (Y := pk_w pk) in *.
  assert (P0 : pairs (grp g0) (grp H) = Some GT) by (now rewrite Hh, I0).
  assert (PA : pairs (grp (sig_A sg)) (grp Y) = Some GT) by congruence.
  assert (PAH : pairs (grp (sig_A sg)) (grp H) = Some GT) by congruence.
  assert (P1 : pairs (grp g1) (grp H) = Some GT) by congruence.
  assert (P2 : pairs (grp g2) (grp H) = Some GT) by congruence.
  assert (P2Y : pairs (grp g2) (grp Y) = Some GT) by congruence.
  assert (PC : forall a b c, pairing_chk a b = Ok c -> c = pairing a b).
  { intros a b z X. unfold pairing_chk in X. destruct (pairs (grp a) (grp b)); [injection X as <-; reflexivity|discriminate]. }
  apply PC in Paw, Pah, Pgw. clear PC. subst aw ah g2w.
  apply padd_chk_ok in Pl as [_ ->].
  assert (Oq : order (grp g0) = order GT) by (apply order_pairs in P0; tauto).
  split; [|split; [discriminate|reflexivity]].
  constructor. constructor; [|constructor; [|constructor; [|constructor]]].
  - apply dl_true_x; simpl; gsimp.
    + repeat (apply Forall_cons || apply Forall_nil); gsolve.
    + glin (grp g1).
  - apply dl_true_x; simpl; gsimp.
    + repeat (apply Forall_cons || apply Forall_nil); gsolve.
    + rewrite V3, V4, We, !mul_mod' by congruence. glin (grp g0).
  - assert (GA : grp (pairing (sig_A sg) Y) = GT) by (now apply grp_pairing).
    assert (GAH : grp (pairing (sig_A sg) H) = GT) by (now apply grp_pairing).
    assert (GP0 : grp (pairing g0 H) = GT) by (now apply grp_pairing).
    assert (GP1 : grp (pairing g1 H) = GT) by (now apply grp_pairing).
    assert (GP2 : grp (pairing g2 H) = GT) by (now apply grp_pairing).
    assert (GPY : grp (pairing g2 Y) = GT) by (now apply grp_pairing).
    rewrite (pairing_add_l _ _ _ GT) in * by (rewrite ?grp_mul; congruence).
    rewrite (pairing_add_l _ _ H GT) in W2 by (rewrite ?grp_mul; congruence).
    rewrite (pairing_mul_l _ _ _ GT) in * by auto.
    rewrite (pairing_mul_l _ _ H GT) in W2 by auto.
    assert (GX : grp (padd (padd (pmul (w (sname r1)) (pairing g2 Y)) (pairing (sig_A sg) Y)) (pmul (-1) (pairing g0 H))) = GT) by gsolve.
    assert (LB : List.length bs = List.length ms).
    { rewrite <- Ebs, firstn_length. simpl in LG. lia. }
    assert (E4 : e_bases x3 = pmul (-1) (padd (pmul (w (sname r1)) (pairing g2 H)) (pairing (sig_A sg) H)) ::
      pairing g2 Y :: pairing g2 H ::
      firstn (List.length (s :: m0 :: ms)) (map (fun g => pairing g H) (g1 :: g2 :: gens))).
    { rewrite W2. simpl. now rewrite LB. }
    clear W2 W3.
    apply dl_true_x; rewrite GX, E4.
    + destruct K3 as (_ & gg & K3). rewrite E4 in K3.
      assert (Eg : gg = GT).
      { apply Forall_cons_iff in K3 as [Q _]. rewrite <- Q. gsolve. }
      now rewrite <- Eg.
    + rewrite W1.
      set (ml := s :: m0 :: ms) in *. set (gl := g1 :: g2 :: gens) in *. cbn [map lincomb].
      rewrite <- (map_length (fun s => w (sname s)) ml), lincomb_firstn. subst ml gl.
      rewrite (lincomb_pairing (grp g0)); auto.
      2:{ eapply Forall_impl; [|exact HG1]. simpl. congruence. }
      change (w (sname s) :: map (fun m : secret => w (sname m)) (m0 :: ms)) with
         (map (fun x => w (sname x)) (s :: m0 :: ms)) in VS.
      set (L := lincomb (grp g0) (map (fun x => w (sname x)) (s :: m0 :: ms)) (g1 :: g2 :: gens)) in *.
      assert (GL : grp L = grp g0).
      { apply grp_lincomb. eapply Forall_impl; [|exact HG1]. simpl. congruence. }
      assert (GLP : grp (pairing L H) = GT) by (apply grp_pairing; congruence).
      clearbody L.
      rewrite (pairing_add_r _ _ _ GT), (pairing_mul_r _ _ _ GT), (pairing_add_l _ _ _ GT) in VS
        by (rewrite ?grp_mul; congruence).
      assert (VS' : pairing (sig_A sg) Y =
        padd (padd (pairing g0 H) (pairing L H)) (pmul (- w (sname e)) (pairing (sig_A sg) H))).
      { rewrite <- VS. glin GT. }
      rewrite VS', V3, mul_mod', <- We by congruence. glin GT.
Qed.

Lemma custom_true w st cls rows pre st1 c st2 :
  kprecommit (KCustom cls rows) st = Ok (pre, st1) ->
  construct (KCustom cls rows) pre st1 = Ok (c, st2) ->
  KTrue w (KCustom cls rows) -> Tru sd w c /\ pre <> VNone.
Proof.
  simpl. intros H C T. apply ret_ok in H as [<- ->].
  apply construct_custom_inv in C as (-> & F & HC).
  inversion T as [| | |? ? HT]; subst.
  assert (FT : Forall (Tru sd w) (map (fun rw => dlx (env st) (fst rw) (row_expr (snd rw))) rows)).
  { apply Forall_forall. intros y Hy. apply in_map_iff in Hy as (rw & <- & Hrw).
    rewrite Forall_forall in HT. apply HT in Hrw as [A B]. apply dl_true_x; auto.
    simpl. rewrite map_map. exact B. }
  split; [|discriminate].
  cbv zeta in HC. destruct (map _ rows) as [|d [|d' ds]].
  - destruct HC as [-> _]. constructor. auto.
  - subst c. inversion FT; auto.
  - destruct HC as [-> _]. constructor. auto.
Qed.

Lemma ktrue_construct w st k pre st1 c st2 :
  kprecommit k st = Ok (pre, st1) -> construct k pre st1 = Ok (c, st2) ->
  KTrue w k -> kdisj k -> agree w (env st) (kuser k) -> agree w (env st1) (kint k) ->
  Tru sd w c /\ pre <> VNone /\ ((exists cls rows, k = KCustom cls rows) \/ truthy pre = true) /\
  (kvalidate k pre = Ok tt \/ neq_neutral k pre).
Proof.
  intros H C T D AU AI.
  destruct k as [H0 g H1 h x al be bnd|com g h n isp x r rs|pk sig bs sv r1 r2 d1 d2|cls rows].
  - destruct (neq_true _ _ _ _ _ _ _ _ _ _ _ _ _ _ H C T D AU AI) as (A & B & E).
    repeat (split; auto). simpl. destruct (val_eqb pre (VPt (inf (grp g)))) eqn:Q; auto.
    right. now apply val_eqb_eq.
  - destruct (range_true _ _ _ _ _ _ _ _ _ _ _ _ _ _ H C T D AU AI) as (A & B & E & F). auto.
  - destruct (bbs_true _ _ _ _ _ _ _ _ _ _ _ _ _ _ H C T D AU AI) as (A & B & E). simpl. auto.
  - destruct (custom_true _ _ _ _ _ _ _ _ H C T) as (A & B). split; auto. split; auto. split; [left; eauto|]. simpl. auto.
Qed.

(** Simulated precommitments pass validation too. *)
Lemma ksim_valid st k pre st1 c st2 :
  ksim_precommit k st = Ok (pre, st1) -> construct k pre st1 = Ok (c, st2) ->
  pre <> VNone /\ truthy pre = true /\ (kvalidate k pre = Ok tt \/ neq_neutral k pre).
Proof.
  intros H C.
  destruct k as [H0 g H1 h x al be bnd|com g h n isp x r rs|pk sig bs sv r1 r2 d1 d2|cls rows]; cbn [ksim_precommit] in H.
  - apply bind_ok in H as (v & s1 & E & H). apply ret_ok in H as [<- ->].
    split; [discriminate|]. split; [reflexivity|]. unfold neq_neutral, kvalidate.
    destruct (val_eqb _ _) eqn:Q; auto. right. now apply val_eqb_eq.
  - apply bind_ok in H as (rv & s1 & E & H).
    destruct (map (fun r0 => pmul r0 h) rv) as [|c0 cs] eqn:EM; [discriminate|].
    apply bind_ok in H as (c0' & s2 & E2 & H). apply lift_ok in E2 as [E2 ->].
    apply ret_ok in H as [<- ->].
    apply padd_chk_ok in E2 as [E2 ->].
    split; [discriminate|]. split; [reflexivity|]. left.
    cbn [construct] in C. apply construct_range_inv in C as (-> & bits & subs & KB & -> & L1 & L2 & F).
    destruct rv as [|r0 rv]; [discriminate|]. simpl in EM. injection EM as <- <-.
    rewrite grp_mul in E2.
    assert (Gg : grp h = grp g).
    { destruct (nth_error (combine rs bits) 0) as [[rr bb]|] eqn:N.
      2:{ apply nth_error_None in N. lia. }
      destruct (F _ _ _ N) as (C & C1 & G1 & G2 & _).
      rewrite (get_C_dict _ _ _ (padd (pmul r0 h) com)) in G1 by reflexivity. injection G1 as <-.
      apply psub_chk_ok in G2 as [G2 _]. rewrite grp_neg in G2. rewrite <- G2. gsolve. }
    rewrite kvalidate_range, getitem_Cs, getitem_rand. cbn [rbind as_iter].
    assert (GC : in_group (grp g) (padd (pmul r0 h) com :: map (fun r1 => pmul r1 h) rv)).
    { constructor; [gsolve|]. apply Forall_forall. intros p Hp. apply in_map_iff in Hp as (y & <- & _). gsolve. }
    destruct (vfold_ok (grp g) _ GC (inf (grp g)) 1 (grp_inf _)) as (u & ->).
    cbn [rbind as_int fst]. rewrite padd_chk_same by gsolve. cbn [rbind].
    replace (pt_eqb _ _) with true; auto. symmetry. apply pt_eqb_spec.
    rewrite add_inf_l' by (now apply grp_psum). cbn [psum]. rewrite psum_h by auto.
    rewrite (mul_mod_eq (combine_rands (r0 :: rv) (order (grp g))) (binval (r0 :: rv))).
    2:{ rewrite Gg. apply combine_rands_mod. assert (O := order_gt1 (grp g)). lia. }
    cbn [binval fold_right]. fold (binval rv). glin (grp g).
  - destruct bs as [|b0 bs]; [discriminate|].
    apply bind_ok in H as (v & s1 & E & H). apply bind_ok in H as (v' & s2 & E' & H).
    apply ret_ok in H as [<- ->]. split; [discriminate|]. split; [reflexivity|]. left. reflexivity.
  - discriminate.
Qed.
End K.

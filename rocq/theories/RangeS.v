(** Range proofs: soundness, and forgeries. *)
From Coq Require Import String Znumtheory Zpow_facts.
From Verif Require Import Base World Val Expr Utils Stmt Prove Verify Spec Shapes Claims Clauses Extract Lib Lin DictProofs Keeps Tree
  Sigma ArithProofs Build Process Ktruth Supply Total Total2 Total3 Sound Sound2 Sound4 Forge RangeC.
Open Scope Z_scope.
Open Scope list_scope.

Section R.
Context {W : World}.

Lemma vfold_inv l : forall a t p u, fold_left vstep l (Ok (a, t)) = Ok (p, u) ->
  exists cs, l = map VPt cs /\ in_group (grp a) cs /\ p = padd a (psum (grp a) t cs).
Proof.
  induction l as [|c l IH]; intros a t p u H; simpl in H.
  - injection H as <- _. exists []. split; auto. split; [constructor|]. simpl. now rewrite add_inf_r.
  - destruct (as_pt c) as [q|] eqn:Ec; [|simpl in H; now rewrite vstep_err in H].
    destruct c; try discriminate Ec. simpl in Ec. injection Ec as ->. simpl in H.
    destruct (padd_chk a (pmul t q)) as [s|] eqn:Es; [|simpl in H; now rewrite vstep_err in H]. simpl in H.
    apply padd_chk_ok in Es as [Eg ->]. rewrite grp_mul in Eg.
    apply IH in H as (cs & -> & G & ->).
    assert (grp (padd a (pmul t q)) = grp a) as GA by (apply grp_add; rewrite grp_mul; auto).
    rewrite GA in *. exists (q :: cs). split; auto. split; [constructor; auto|]. simpl.
    rewrite <- add_assoc; auto; rewrite ?grp_mul; auto. now rewrite grp_psum.
Qed.

Lemma validate_range_inv com g h n isp x r rs pre : kvalidate (KRange com g h n isp x r rs) pre = Ok tt ->
  exists cs rand, getitem pre (lit "Cs") = Ok cs /\ getitem pre (lit "rand") = Ok (VInt rand) /\
    exists l, as_iter cs = Ok (map VPt l) /\ in_group (grp g) l /\ grp com = grp h /\
    psum (grp g) 1 l = padd com (pmul rand h).
Proof.
  rewrite kvalidate_range. intros H.
  apply rbind_ok in H as (rd & E1 & H). apply rbind_ok in H as (Cs & E2 & H). apply rbind_ok in H as (cs & E3 & H).
  apply rbind_ok in H as ([p u] & E4 & H). apply rbind_ok in H as (rand & E5 & H). apply rbind_ok in H as (rhs & E6 & H).
  destruct rd; try discriminate E5. injection E5 as ->.
  apply vfold_inv in E4 as (l & -> & G & ->). rewrite grp_inf in *.
  apply padd_chk_ok in E6 as [E6 ->]. rewrite grp_mul in E6.
  destruct (pt_eqb _ _) eqn:EQ; [|discriminate]. apply pt_eqb_spec in EQ. cbn [fst] in EQ.
  rewrite add_inf_l' in EQ by now apply grp_psum.
  exists Cs, rand. eauto 10.
Qed.

Lemma psum_bits G g h l : grp g = G -> grp h = G ->
  (forall C, In C l -> exists b t, (b = 0 \/ b = 1) /\ C = padd (pmul b g) (pmul t h)) -> forall k,
  exists v t, 0 <= v < 2 ^ Z.of_nat (List.length l) /\ psum G k l = padd (pmul (k * v) g) (pmul t h).
Proof.
  intros Gg Gh. induction l as [|C l IH]; intros H k.
  - exists 0, 0. split; [simpl; lia|]. simpl. glin G.
  - destruct (H C (or_introl eq_refl)) as (b & t & B & ->).
    destruct (IH ltac:(intros; apply H; now right) (k * 2)) as (v & t' & V & E).
    exists (b + 2 * v), (k * t + t'). split.
    + simpl List.length. rewrite Nat2Z.inj_succ, Z.pow_succ_r by lia. lia.
    + cbn [psum]. rewrite E. glin G.
Qed.

Lemma bit_sat w e h C C1 r b : Sat w (bitx e h C C1 r b) -> exists t, C = pmul t h \/ C1 = pmul t h.
Proof.
  intros S. unfold bitx in S. inversion S as [| |subs f ch y w' IN SY|]; subst.
  assert (K : forall p vals fl, Sat w' (SDL (mkDL p [h] [r] vals fl)) -> exists t, p = pmul t h).
  { intros p vals fl H. inversion H as [d IG DH| | |]; subst. unfold dl_holds in DH. cbn in DH.
    exists (w' (order (grp p)) (sname r)). rewrite DH at 1. apply add_inf_r'. rewrite grp_mul. inversion IG; auto. }
  destruct IN as [<-|[<-|[]]]; apply K in SY as [t Ht]; eauto.
Qed.

(** ** Forgeries *)
Lemma con_range_ready e h subs : (forall y, In y subs -> exists C C1 r b, y = bitx e h C C1 r b /\ grp C = grp h /\ grp C1 = grp h) ->
  guarded (SAnd subs false) /\ groups_ok (SAnd subs false) /\ vready (get_verifier (SAnd subs false)).
Proof.
  intros H. split; [|split].
  - constructor. apply Forall_forall. intros y Hy. apply H in Hy as (C & C1 & r & b & -> & _). constructor.
  - constructor. apply Forall_forall. intros y Hy. apply H in Hy as (C & C1 & r & b & -> & G1 & G2).
    constructor; [discriminate|]. repeat constructor; cbn; auto.
  - simpl. constructor. apply Forall_map, Forall_forall. intros y Hy. apply H in Hy as (C & C1 & r & b & -> & _).
    simpl. repeat constructor.
Qed.

Lemma psum_infs G t l : psum G t (map (fun _ : nat => inf G) l) = inf G.
Proof. revert t. induction l as [|x l IH]; intros t; simpl; auto. rewrite IH, mul_inf. apply add_inf_l'. apply grp_inf. Qed.
Lemma infs_group G l : in_group G (map (fun _ : nat => inf G) l).
Proof. apply Forall_map, Forall_forall. intros. apply grp_inf. Qed.

Definition rpre (cs : list pt) (rand : Z) : val := VDict [(lit "Cs", VList (map VPt cs)); (lit "rand", VInt rand)].

Lemma range_built com g h n x r rs cs rand st : has_sub (grp g) = true -> grp com = grp g -> grp h = grp g -> (2 <= n)%nat -> List.length rs = n ->
  (n <= List.length cs)%nat -> in_group (grp g) cs -> psum (grp g) 1 cs = padd com (pmul rand h) ->
  let s0 := SExt (KRange com g h n false x r rs) false VNone None in
  exists subs, let s := SExt (KRange com g h n false x r rs) false (rpre cs rand) (Some (SAnd subs false)) in
    process_pre s0 (get_verifier s0) (rpre cs rand) st = Ok ((RExt (Some (get_verifier (SAnd subs false))), s), st) /\
    List.length subs = n /\
    (forall j C, (j < n)%nat -> nth_error cs j = Some C -> exists r0,
      nth_error subs j = Some (bitx (env st) h C (padd C (pneg g)) r0 None)) /\
    full_validate s = Ok tt.
Proof.
  intros HS Gc Gh Ln Lr Lc IG V s0.
  destruct (range_con com g h n false x r rs cs (VInt rand) st) as (con & CN & _); try exact I; auto.
  { repeat split; auto. }
  assert (CN2 := CN). cbn [construct] in CN. apply construct_range_inv in CN as (_ & bits & subs & KB & -> & L2 & LS & F).
  assert (LB := krange_bits_len _ _ _ _ _ KB). simpl in KB.
  exists subs. split; [|split; [|split]].
  - cbn [s0 process_pre get_verifier]. unfold bind. unfold rpre at 1. rewrite CN2. reflexivity.
  - rewrite LS, combine_length. lia.
  - intros j C Hj HC. destruct (nth_error (combine rs bits) j) as [[r0 b]|] eqn:Ej; [|apply nth_error_None in Ej; rewrite combine_length in Ej; lia].
    destruct (F j r0 b Ej) as (C' & C1 & GC & PS & N). rewrite (get_C_dict _ _ _ _ HC) in GC. injection GC as <-.
    apply psub_chk_ok in PS as [_ ->]. exists r0. rewrite N. apply nth_error_combine in Ej as [_ Ej]. rewrite KB in Ej.
    apply nth_error_In, repeat_spec in Ej. now subst.
  - cbn [full_validate]. rewrite kvalidate_range. unfold rpre. rewrite getitem_rand. cbn [rbind]. rewrite getitem_Cs. cbn [rbind as_iter].
    destruct (vfold_ok (grp g) cs IG (inf (grp g)) 1 (grp_inf _)) as (u & ->). cbn [rbind as_int].
    rewrite padd_chk_same by (rewrite grp_mul; congruence). cbn [rbind fst].
    rewrite add_inf_l' by now apply grp_psum. rewrite V, (proj2 (pt_eqb_spec _ _) eq_refl). reflexivity.
Qed.

(** the commitment itself as the first "bit" *)
Lemma range_forgery com g h n x r rs st : has_sub (grp g) = true -> grp com = grp g -> grp h = grp g -> (2 <= n)%nat -> List.length rs = n ->
  let s0 := SExt (KRange com g h n false x r rs) false VNone None in
  exists pre v s, process_pre s0 (get_verifier s0) pre st = Ok ((v, s), st) /\
    exists c0, forall e c, exists a, verify_resp e s v c0 c a = Ok true.
Proof.
  intros HS Gc Gh Ln Lr s0.
  set (cs := com :: map (fun _ : nat => inf (grp g)) (seq 0 (n - 1))).
  assert (IG : in_group (grp g) cs) by (constructor; [auto|apply infs_group]).
  assert (LC : List.length cs = n) by (unfold cs; simpl; rewrite map_length, seq_length; lia).
  destruct (range_built com g h n x r rs cs 0 st) as (subs & PP & L & B & V); auto; [lia| |].
  { unfold cs. cbn [psum]. rewrite psum_infs. glin (grp g). }
  exists (rpre cs 0), (RExt (Some (get_verifier (SAnd subs false)))), (SExt (KRange com g h n false x r rs) false (rpre cs 0) (Some (SAnd subs false))).
  split; [exact PP|].
  destruct (con_range_ready (env st) h subs) as (G1 & G2 & G3).
  { intros y Hy. apply In_nth_error in Hy as (j & Nj). assert (Lj : (j < List.length subs)%nat) by (apply nth_error_Some; congruence).
    destruct (nth_error cs j) as [C|] eqn:EC; [|apply nth_error_None in EC; lia].
    destruct (B j C ltac:(lia) EC) as (r0 & N). rewrite N in Nj. injection Nj as <-.
    assert (grp C = grp g) by (unfold in_group in IG; rewrite Forall_forall in IG; apply IG; eapply nth_error_In; eauto).
    exists C, (padd C (pneg g)), r0, None. split; auto. split; [congruence|]. rewrite grp_add; rewrite ?grp_neg; congruence. }
  eapply or_forgery; eauto; constructor; auto.
Qed.

(** all bits zero, and one more commitment that makes up the difference *)
Lemma leaf_z d c : in_group (grp (dl_lhs d)) (dl_bases d) -> dl_lhs d = inf (grp (dl_lhs d)) \/ c = 0 ->
  recompute_dl d c (VList (map (fun _ => VInt 0) (dl_secs d))) = Ok (VPt (inf (grp (dl_lhs d)))).
Proof.
  intros I D. unfold recompute_dl. cbv [as_iter]. simpl rbind.
  replace (map (fun _ : secret => @VInt W 0) (dl_secs d)) with (map (@VInt W) (map (fun _ => 0) (dl_secs d))) by now rewrite map_map.
  rewrite wsum_v_ints, (wsum_lincomb _ _ _ I). simpl rbind.
  rewrite lincomb_zeros; auto; [|apply Forall_map, Forall_forall; auto].
  unfold padd_chk. rewrite grp_inf, grp_mul, gid_eqb_refl. simpl.
  replace (pmul (- c) (dl_lhs d)) with (inf (grp (dl_lhs d))).
  { do 2 f_equal. apply add_inf_l'. apply grp_inf. }
  destruct D as [->| ->]; [now rewrite mul_inf, grp_inf|]. glin (grp (dl_lhs d)).
Qed.

Lemma range_extra com g h n x r rs st : has_sub (grp g) = true -> grp com = grp g -> grp h = grp g -> (2 <= n)%nat -> List.length rs = n ->
  Z.odd (order (grp g)) = true ->
  let s0 := SExt (KRange com g h n false x r rs) false VNone None in
  exists pre v s, process_pre s0 (get_verifier s0) pre st = Ok ((v, s), st) /\
    exists c0, forall e c, 0 <= c < 2 ^ 128 -> exists a, canonical s a /\ counted s a /\ verify_resp e s v c0 c a = Ok true.
Proof.
  intros HS Gc Gh Ln Lr OD s0.
  assert (exists k, (order (grp g) | 2 ^ Z.of_nat n * k - 1)) as (k & Hk).
  { assert (R : rel_prime (order (grp g)) (2 ^ Z.of_nat n)).
    { apply Zpow_facts.rel_prime_Zpower_r; [lia|]. apply rel_prime_sym, prime_rel_prime; [exact prime_2|]. intros [m K].
      rewrite K, Z.odd_mul in OD. rewrite andb_false_r in OD. discriminate. }
    apply rel_prime_bezout in R as [u w E]. exists w. exists (- u). lia. }
  set (cs := map (fun _ : nat => inf (grp g)) (seq 0 n) ++ [pmul k com]).
  assert (IG : in_group (grp g) cs).
  { apply Forall_app. split; [apply infs_group|]. repeat constructor. now rewrite grp_mul. }
  assert (LC : List.length cs = S n) by (unfold cs; rewrite app_length, map_length, seq_length; simpl; lia).
  destruct (range_built com g h n x r rs cs 0 st) as (subs & PP & L & B & V); auto; [lia| |].
  { assert (P : forall m t l, psum (grp g) t (map (fun _ : nat => inf (grp g)) (seq m l) ++ [pmul k com]) = pmul (t * 2 ^ Z.of_nat l * k) com).
    { intros m t l. revert m t. induction l as [|l IH]; intros m t.
      - simpl. glin (grp g).
      - cbn [seq map app psum]. rewrite IH, mul_inf, add_inf_l' by (rewrite grp_mul; auto).
        rewrite Nat2Z.inj_succ, Z.pow_succ_r by lia. f_equal. ring. }
    unfold cs. rewrite P. assert (M : pmul (2 ^ Z.of_nat n * k - 1) com = inf (grp g)) by (rewrite mul_div; rewrite ?Gc; auto).
    replace (1 * 2 ^ Z.of_nat n * k) with ((2 ^ Z.of_nat n * k - 1) + 1) by ring.
    rewrite mul_add, M. glin (grp g). }
  set (s := SExt (KRange com g h n false x r rs) false (rpre cs 0) (Some (SAnd subs false))) in *.
  exists (rpre cs 0), (RExt (Some (get_verifier (SAnd subs false)))), s.
  split; [exact PP|]. exists (neutral_com s). intros e c Hc.
  set (a1 := VTuple [VList (map VInt [c; 0]); VList [VList [VInt 0]; VList [VInt 0]]]).
  assert (SB : forall y, In y subs -> exists r0, y = bitx (env st) h (inf (grp g)) (padd (inf (grp g)) (pneg g)) r0 None).
  { intros y Hy. apply In_nth_error in Hy as (j & Nj). assert (Lj : (j < List.length subs)%nat) by (apply nth_error_Some; congruence).
    assert (EC : nth_error cs j = Some (inf (grp g))).
    { unfold cs. rewrite nth_error_app1 by (rewrite map_length, seq_length; lia).
      rewrite nth_error_map. destruct (nth_error (seq 0 n) j) eqn:E; auto. apply nth_error_None in E. rewrite seq_length in E. lia. }
    destruct (B j _ ltac:(lia) EC) as (r0 & N). rewrite N in Nj. injection Nj as <-. eauto. }
  assert (GI : grp (padd (inf (grp g)) (pneg g)) = grp h).
  { rewrite grp_add; rewrite ?grp_inf, ?grp_neg; congruence. }
  assert (REC : forall y, In y subs -> recompute y c a1 = Ok (neutral_com y) /\ Cons (fun _ => 0) y a1 /\ canonical y a1 /\ counted y a1).
  { intros y Hy. destruct (SB y Hy) as (r0 & ->). split; [|split; [|split]].
    - apply or_zcom; [exists 0; simpl; lia|reflexivity|reflexivity|].
      intros [|[|i]] u ci rr N1 N2 N3; simpl in N1, N2, N3; [| |destruct i; discriminate];
        injection N1 as <-; injection N2 as <-; injection N3 as <-.
      + apply (leaf_z (mkDL (inf (grp g)) [h] [r0] (snapshot (env st) [r0]) false) c).
        * cbn. rewrite grp_inf. repeat constructor. auto.
        * left. cbn. now rewrite grp_inf.
      + apply (leaf_z (mkDL (padd (inf (grp g)) (pneg g)) [h] [r0] (snapshot (env st) [r0]) false) 0).
        * cbn. rewrite GI. repeat constructor.
        * now right.
    - constructor. constructor; [|constructor; [|constructor]]; exists (fun _ => 0); match goal with |- Cons _ (SDL ?d) _ => apply (CoDL (fun _ => 0) d) end.
    - eapply CaOr; [left; reflexivity|reflexivity| |].
      + change (2 ^ challenge_length) with (2 ^ 128). repeat constructor; rewrite ?Z.abs_eq; try lia.
      + intros [|[|i]] u ri N _; try (injection N as <-; constructor). destruct i; discriminate.
    - constructor; [reflexivity|]. repeat constructor. }
  exists (VList (map (fun _ => a1) subs)).
  assert (F2 : forall P : stmt -> val -> Prop, (forall y, In y subs -> P y a1) -> Forall2 P subs (map (fun _ => a1) subs)).
  { intros P H. clear - H. induction subs; simpl; constructor; [apply H; now left|apply IHsubs; intros; apply H; now right]. }
  split; [|split].
  - constructor. constructor. intros i u ri N I. unfold index in I. cbn in I. rewrite nth_error_map, N in I. cbn in I. injection I as <-.
    apply REC. eapply nth_error_In; eauto.
  - constructor. constructor. apply F2. intros y Hy. now apply REC.
  - replace (RExt (Some (get_verifier (SAnd subs false)))) with (fverifier s).
    + apply answer_accepted; auto.
      * change (recompute (SAnd subs false) c (VList (map (fun _ => a1) subs)) = Ok (VList (map neutral_com subs))).
        apply and_zcom. apply F2. intros y Hy. now apply REC.
      * constructor. constructor. apply F2. intros y Hy. now apply REC.
    + cbn [s fverifier get_verifier]. do 3 f_equal. apply map_ext_in. intros y Hy. destruct (SB y Hy) as (r0 & ->). reflexivity.
Qed.
End R.

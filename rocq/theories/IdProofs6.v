(** Other accepted responses: what can be changed in an accepted proof (C39). *)
From Coq Require Import String Znumtheory.
From Verif Require Import Base World Val Expr Utils Stmt Prove Verify Spec Claims Shapes Honest Clauses Supply Extract Ident
  Lib DictProofs Keeps Tree Sigma Validate Commit ArithProofs Build Process Ktruth Provers Complete Sound Wire IdProofs IdProofs2 IdProofs3 IdProofs4.
Open Scope Z_scope.
Open Scope list_scope.

Section I.
Context {W : World}.

(** ** Adding a multiple of the group order *)
Lemma wsum_bump g k zs ps : wsum_v g (map (fun z => VInt (z + k * order g)) zs) ps = wsum_v g (map VInt zs) ps.
Proof.
  unfold wsum_v.
  assert (S : forall (r : res pt), (forall a, r = Ok a -> grp a = g) ->
    fold_left (fun acc wp => let? a := acc in let? w := as_int (fst wp) in padd_chk a (pmul w (snd wp))) (combine (map (fun z => VInt (z + k * order g)) zs) ps) r =
    fold_left (fun acc wp => let? a := acc in let? w := as_int (fst wp) in padd_chk a (pmul w (snd wp))) (combine (map VInt zs) ps) r).
  { revert ps. induction zs as [|z zs IH]; intros [|p ps] r G; simpl; auto.
    assert (E : (let? a := r in padd_chk a (pmul (z + k * order g) p)) = (let? a := r in padd_chk a (pmul z p))).
    { destruct r as [a|]; simpl; auto. unfold padd_chk. rewrite !grp_mul. destruct (gid_eqb (grp a) (grp p)) eqn:E; auto.
      apply gid_eqb_spec in E. rewrite (G a eq_refl) in E. subst g. do 2 f_equal. apply mul_mod_eq. apply Z_mod_plus_full. }
    rewrite E. apply IH. intros a Ha. destruct r as [a0|]; simpl in Ha; [|discriminate]. apply padd_chk_ok in Ha as [Ha ->].
    rewrite grp_add by auto. now apply G. }
  apply S. intros a Ha. injection Ha as <-. apply grp_inf.
Qed.

Definition bd (m : Z) (d : dict Z) : dict val := map (fun kx => (fst kx, VInt (snd kx + m))) d.
Lemma dget_bd e m d x : dget e (bd m d) x = option_map (fun z => VInt (z + m)) (dget e d x).
Proof. induction d as [|[k v] d IH]; simpl; auto. destruct (sec_eqb e k x); auto. Qed.
Lemma dset_bd e m d x v : dset e (bd m d) x (VInt (v + m)) = bd m (dset e d x v).
Proof. induction d as [|[k u] d IH]; simpl; auto. destruct (sec_eqb e k x); simpl; auto. now rewrite IH. Qed.
Lemma cdl_bump e m n zs ss : forall i d d', cdl_loop e (VList (map (fun z => VInt (z + n)) zs)) i ss (bd n d) = Ok (Some d') ->
  exists d'', cdl_loop e (VList (map (fun z => VInt (z + m)) zs)) i ss (bd m d) = Ok (Some d'').
Proof.
  induction ss as [|x ss IH]; intros i d d' H; simpl in *; [eauto|]. rewrite dget_bd in *.
  rewrite nth_error_map in *. destruct (dget e d x) as [v|]; cbn [option_map] in *; destruct (nth_error zs i) as [z|]; cbn [option_map rbind] in *; try discriminate.
  - destruct (val_eqb (VInt (z + n)) (VInt (v + n))) eqn:E; [|discriminate]. apply val_eqb_eq in E. injection E as E.
    assert (z = v) by lia. subst v. rewrite val_eqb_refl. eauto.
  - rewrite dset_bd in *. eauto.
Qed.

Lemma bumped d z msg st b s1 st1 zs k : verify (SDL d) z msg st = Ok ((b, s1), st1) -> n_resp z = VList (map VInt zs) ->
  verify (SDL d) (mkNizk (n_chal z) (VList (map (fun x => VInt (x + k * order (grp (dl_lhs d)))) zs)) (n_pre z) (n_hash z)) msg st = Ok ((b, s1), st1).
Proof.
  intros H R. apply verify_inv in H as (v & h & com & i & E1 & E2 & E3 & E4 & E5 & E6 & ->).
  assert (ES : s1 = SDL d /\ v = RDL).
  { unfold processed in E1. destruct (is_none (n_pre z)); apply ret_ok in E1 as [E1 _]; now injection E1. }
  destruct ES as [-> ->].
  apply (verify_run (SDL d) (mkNizk (n_chal z) (VList (map (fun x => VInt (x + k * order (grp (dl_lhs d)))) zs)) (n_pre z) (n_hash z)) msg st RDL (SDL d) st1 h com i); auto.
  - cbn [n_resp]. rewrite R in E4. unfold pre_validation in *. destruct (full_validate (SDL d)); [|discriminate]. cbn [rbind] in *.
    change (consistent (env st1) (SDL d) RDL) with (fun r => cdl_loop (env st1) r 0%nat (dl_secs d)) in *. cbv beta in *.
    destruct (cdl_loop _ _ _ _ _) as [[o|]|] eqn:E in E4; try discriminate.
    destruct (cdl_bump (env st1) (k * order (grp (dl_lhs d))) 0 zs (dl_secs d) 0 [] o) as [o' E'].
    { rewrite (map_ext (fun z0 => VInt (z0 + 0)) VInt (fun a => f_equal VInt (Z.add_0_r a))). exact E. }
    change (bd (k * order (grp (dl_lhs d))) []) with (@nil (secret * val)) in E'. now rewrite E'.
  - cbn [n_resp n_chal]. rewrite R in E5. simpl recompute in *. unfold recompute_dl in *. cbn [as_iter rbind] in *. now rewrite wsum_bump.
Qed.

(** ** Nothing else can be changed without a collision *)
Lemma recompute_dl_group d c zs x : recompute_dl d c (VList (map VInt zs)) = Ok x -> List.length zs = List.length (dl_bases d) ->
  in_group (grp (dl_lhs d)) (dl_bases d) /\
  x = VPt (padd (lincomb (grp (dl_lhs d)) zs (dl_bases d)) (pmul (- c) (dl_lhs d))).
Proof.
  unfold recompute_dl. cbn [as_iter rbind]. rewrite Lib.wsum_v_ints. intros H L. apply rbind_ok in H as (y & E & H).
  assert (I : in_group (grp (dl_lhs d)) (dl_bases d)).
  { unfold wsum in E. apply wsum_ok_group in E. rewrite grp_inf, L, firstn_all in E. exact E. }
  split; auto. rewrite (wsum_lincomb _ _ _ I) in E. injection E as <-. apply rbind_ok in H as (w & E & H). apply padd_chk_ok in E as [_ ->].
  now injection H as <-.
Qed.

Lemma lincomb_diff g ps : in_group g ps -> forall us vs, List.length us = List.length ps -> List.length vs = List.length ps ->
  lincomb g us ps = lincomb g vs ps -> lincomb g (zdiff us vs) ps = inf g.
Proof.
  intros I us vs L1 L2 E.
  assert (K : us = map (fun p => fst p + snd p) (combine (zdiff us vs) vs)).
  { clear E I. revert us vs L1 L2. induction ps as [|p ps IH]; intros [|u us] [|v vs] L1 L2; simpl in *; try discriminate; auto.
    change (map _ (combine (map _ (combine us vs)) vs)) with (map (fun p => fst p + snd p) (combine (zdiff us vs) vs)). rewrite <- IH by congruence. f_equal. lia. }
  rewrite K, lincomb_add in E; auto.
  - rewrite <- (add_inf_l' g (lincomb g vs ps)) in E at 2 by (now apply grp_lincomb).
    apply add_cancel_r in E; auto; rewrite ?grp_inf, ?grp_lincomb; auto.
  - unfold zdiff. rewrite map_length, combine_length. lia.
Qed.

Lemma two_accepted d z z' msg msg' st s1 st1 st' s1' st1' zs zs' :
  (exists n, forall b, List.length (sha256 b) = n) -> (forall p, grp p = grp (dl_lhs d) -> faithful p) ->
  verify (SDL d) z msg st = Ok ((true, s1), st1) -> verify (SDL d) z' msg' st' = Ok ((true, s1'), st1') ->
  n_chal z = n_chal z' -> framed (n_pre z) -> framed (n_pre z') -> Forall faithful (points (n_pre z) ++ points (n_pre z')) ->
  n_resp z = VList (map VInt zs) -> n_resp z' = VList (map VInt zs') ->
  List.length zs = List.length (dl_bases d) -> List.length zs' = List.length (dl_bases d) ->
  (exists h com com' i i', prehash_input (SDL d) = Ok h /\ recompute (SDL d) (n_chal z) (n_resp z) = Ok com /\ recompute (SDL d) (n_chal z') (n_resp z') = Ok com' /\
     fs_input h [n_pre z; com] msg = Ok i /\ fs_input h [n_pre z'; com'] msg' = Ok i' /\ i <> i' /\ sha256 i = sha256 i') \/
  (msg = msg' /\ norm (n_pre z) = norm (n_pre z') /\ n_hash z = n_hash z' /\ lincomb (grp (dl_lhs d)) (zdiff zs zs') (dl_bases d) = inf (grp (dl_lhs d))).
Proof.
  intros [n L] F H1 H2 C P1 P2 FP R1 R2 L1 L2.
  apply verify_inv in H1 as (v1 & h1 & c1 & i1 & A1 & B1 & D1 & _ & Q1 & G1 & S1).
  apply verify_inv in H2 as (v2 & h2 & c2 & i2 & A2 & B2 & D2 & _ & Q2 & G2 & S2).
  assert (ES : s1 = SDL d /\ s1' = SDL d).
  { unfold processed in A1, A2. destruct (is_none (n_pre z)), (is_none (n_pre z')); apply ret_ok in A1 as [A1 _]; apply ret_ok in A2 as [A2 _]; split; congruence. }
  destruct ES as [-> ->]. rewrite B1 in B2. injection B2 as <-.
  symmetry in S1, S2. apply Z.eqb_eq in S1, S2.
  assert (SH : sha256 i1 = sha256 i2) by (apply be_int_inj; [now rewrite !L|congruence]).
  destruct (list_eq_dec ascii_dec i1 i2) as [->|N].
  - right. assert (Q1' := Q1). assert (Q2' := Q2). rewrite R1 in Q1'. rewrite R2 in Q2'. simpl in Q1', Q2'.
    destruct (recompute_dl_group _ _ _ _ Q1' L1) as [I E1]. destruct (recompute_dl_group _ _ _ _ Q2' L2) as [_ E2].
    assert (GL : forall ws, grp (lincomb (grp (dl_lhs d)) ws (dl_bases d)) = grp (dl_lhs d)) by (intros; now apply grp_lincomb).
    destruct (input_framed (SDL d) (SDL d) h1 h1 (n_pre z) (n_pre z') c1 c2 msg msg' i2 B1 B1 P1 P2) as (_ & NP & NC & EM); auto.
    + rewrite E1; exact Logic.I.
    + rewrite E2; exact Logic.I.
    + rewrite Forall_app in FP. destruct FP as [FP1 FP2]. rewrite !Forall_app. repeat split; auto; subst c1 c2; simpl; constructor; auto; apply F; rewrite grp_add; rewrite ?GL, ?grp_mul; auto.
    + subst c1 c2. simpl in NC. injection NC as NC. split; auto. split; auto. split; [congruence|].
      apply lincomb_diff; auto. rewrite C in NC. apply add_cancel_r in NC; auto; rewrite ?GL, ?grp_mul; auto.
  - left. exists h1, c1, c2, i1, i2. auto 10.
Qed.

(** One secret, prime order: the response is determined modulo the order. *)
Lemma one_response d p x x' : dl_bases d = [p] -> grp p = grp (dl_lhs d) -> prime (order (grp p)) -> p <> inf (grp p) ->
  lincomb (grp (dl_lhs d)) (zdiff [x] [x']) (dl_bases d) = inf (grp (dl_lhs d)) -> x mod order (grp p) = x' mod order (grp p).
Proof.
  intros B G P N E. rewrite B in E. simpl in E. rewrite <- G in E. rewrite add_inf_r' in E by apply grp_mul.
  assert (D := order_gt1 (grp p)).
  destruct (Zdivide_dec (order (grp p)) (x - x')) as [[k K]|ND].
  - replace x with (x' + k * order (grp p)) by lia. apply Z_mod_plus_full.
  - destruct N. eapply prime_mul_inf; eauto.
Qed.

(** A precommitment where there should be none (C19): bytes are hashed without a frame. *)
Lemma none_as_bytes d z msg st b s1 st1 : verify (SDL d) z msg st = Ok ((b, s1), st1) -> n_pre z = VNone ->
  verify (SDL d) (mkNizk (n_chal z) (n_resp z) (VBytes [byte_of 192]) (n_hash z)) msg st = Ok ((b, s1), st1).
Proof.
  intros H R. apply verify_inv in H as (v & h & com & i & E1 & E2 & E3 & E4 & E5 & E6 & ->).
  rewrite R in E1, E6. unfold processed in E1. simpl in E1. apply ret_ok in E1 as [E1 ->]. injection E1 as <- <-.
  apply (verify_run (SDL d) (mkNizk (n_chal z) (n_resp z) (VBytes [byte_of 192]) (n_hash z)) msg st RDL (SDL d) st h com i); auto.
Qed.
(** The end of the precommitment can be moved into the message. *)
Lemma moved_message d z x com pc msg y st b s1 st1 : verify (SDL d) z msg st = Ok ((b, s1), st1) -> n_pre z = VNone ->
  recompute (SDL d) (n_chal z) (n_resp z) = Ok com -> encode com = Ok pc -> msg = x ++ pc ++ y ->
  verify (SDL d) (mkNizk (n_chal z) (n_resp z) (VBytes ([byte_of 192] ++ pc ++ x)) (n_hash z)) y st = Ok ((b, s1), st1).
Proof.
  intros H R RC EC ->. apply verify_inv in H as (v & h & com' & i & E1 & E2 & E3 & E4 & E5 & E6 & ->).
  rewrite R in E1, E6. unfold processed in E1. simpl in E1. apply ret_ok in E1 as [E1 ->]. injection E1 as <- <-.
  rewrite RC in E5. injection E5 as <-.
  apply (verify_run (SDL d) (mkNizk (n_chal z) (n_resp z) (VBytes ([byte_of 192] ++ pc ++ x)) (n_hash z)) y st RDL (SDL d) st h com i); auto.
  cbn [n_pre]. rewrite <- (input_unframed h com pc x y); auto.
  simpl in RC. unfold recompute_dl in RC. apply rbind_ok in RC as (ws & _ & RC). apply rbind_ok in RC as (w & _ & RC). apply rbind_ok in RC as (u & _ & RC).
  injection RC as <-. exact I.
Qed.

(** A precommitment whose first point lies in a group object other than the key's (C36). *)
Lemma foreign_bbs pk sig g0 g1 g2 gs es svs r1 r2 d1 d2 sim p0 c0 z msg st A1 A2 :
  let s := SExt (KBBS pk sig (g0 :: g1 :: g2 :: gs) (es :: svs) r1 r2 d1 d2) sim p0 c0 in
  grp g1 = grp g2 -> n_pre z = VDict [(lit "A1", VPt A1); (lit "A2", VPt A2)] -> grp A1 <> grp g1 ->
  verify s z msg st = Err EInvalidExpression.
Proof.
  intros s G P N. unfold verify, verify_nizk. rewrite P. cbn [is_none]. unfold bind at 1. unfold s. cbn [get_verifier process_pre construct].
  assert (C : construct_bbs pk (g0 :: g1 :: g2 :: gs) (es :: svs) r1 r2 d1 d2 (VDict [(lit "A1", VPt A1); (lit "A2", VPt A2)]) st = Err EInvalidExpression).
  { unfold construct_bbs. unfold bind at 1.
    assert (K1 : (let? a := getitem (VDict [(lit "A1", VPt A1); (lit "A2", VPt A2)]) (lit "A1") in as_pt a) = Ok A1) by reflexivity.
    assert (K2 : (let? a := getitem (VDict [(lit "A1", VPt A1); (lit "A2", VPt A2)]) (lit "A2") in as_pt a) = Ok A2) by reflexivity.
    rewrite K1. unfold lift at 1. unfold bind at 1. rewrite K2. unfold lift at 1.
    unfold bind at 1, lift2 at 1. unfold bind at 1. unfold mk_dlrep at 1. cbn [eadd emul e_bases e_secs app forallb].
    rewrite gid_eqb_refl, (proj2 (gid_eqb_spec _ _) (eq_sym G)). cbn [andb]. unfold bind at 1, get_env at 1, ret at 1. unfold ret at 1.
    unfold bind at 1, lift2 at 1. unfold bind at 1. unfold mk_dlrep at 1. cbn [eadd emul e_bases e_secs app forallb].
    rewrite gid_eqb_refl, (proj2 (gid_eqb_spec _ _) (eq_sym G)), grp_mul.
    destruct (gid_eqb (grp A1) (grp g1)) eqn:E; [apply gid_eqb_spec in E; contradiction|]. reflexivity. }
  unfold bind at 1. now rewrite C.
Qed.

(** The commitment of a range statement is not in the identifier, but it is checked. *)
Lemma range_com com com' g h n isp isp' x x' r r' rs rs' sim sim' p0 p0' c0 c0' z msg msg' st b s1 st1 st' b' s1' st1' :
  verify (SExt (KRange com g h n isp x r rs) sim p0 c0) z msg st = Ok ((b, s1), st1) ->
  verify (SExt (KRange com' g h n isp' x' r' rs') sim' p0' c0') z msg' st' = Ok ((b', s1'), st1') -> com = com'.
Proof.
  assert (V : forall com isp x r rs sim p0 c0 msg st b s1 st1,
    verify (SExt (KRange com g h n isp x r rs) sim p0 c0) z msg st = Ok ((b, s1), st1) ->
    kvalidate (KRange com g h n isp x r rs) (n_pre z) = Ok tt).
  { clear. intros com isp x r rs sim p0 c0 msg st b s1 st1 H.
    apply verify_inv in H as (v & hh & cm & i & E1 & _ & _ & E4 & _).
    unfold processed in E1. destruct (is_none (n_pre z)) eqn:N.
    - apply ret_ok in E1 as [E1 ->]. injection E1 as <- <-. unfold pre_validation in E4. apply rbind_ok in E4 as (u & _ & E4).
      apply rbind_ok in E4 as (o & E4 & _). simpl in E4. destruct c0; discriminate E4.
    - cbn [get_verifier process_pre] in E1. apply bind_ok in E1 as (c & stc & _ & E1). apply ret_ok in E1 as [E1 ->]. injection E1 as <- <-.
      unfold pre_validation in E4. apply rbind_ok in E4 as (u & E4 & _). cbn [full_validate] in E4.
      destruct u. exact E4. }
  intros H1 H2. apply V in H1. apply V in H2. cbn [kvalidate] in H1, H2.
  apply rbind_ok in H1 as (rd & E1 & H1). rewrite E1 in H2. cbn [rbind] in H2.
  apply rbind_ok in H1 as (C & E2 & H1). rewrite E2 in H2. cbn [rbind] in H2.
  apply rbind_ok in H1 as (cs & E3 & H1). rewrite E3 in H2. cbn [rbind] in H2.
  apply rbind_ok in H1 as (cb & E4 & H1). rewrite E4 in H2. cbn [rbind] in H2.
  apply rbind_ok in H1 as (ri & E5 & H1). rewrite E5 in H2. cbn [rbind] in H2.
  apply rbind_ok in H1 as (y & E6 & H1). apply rbind_ok in H2 as (y' & E7 & H2).
  destruct (pt_eqb (fst cb) y) eqn:P1; [|discriminate]. destruct (pt_eqb (fst cb) y') eqn:P2; [|discriminate].
  apply pt_eqb_spec in P1, P2. rewrite P2 in P1. apply padd_chk_ok in E6 as [G6 ->]. apply padd_chk_ok in E7 as [G7 ->].
  apply add_cancel_r in P1; auto.
Qed.

(** Range statements about different commitments have one identifier. *)
Lemma range_same_id com com' g h n isp x r rs b p0 c0 pre st v s st1 :
  process_pre (SExt (KRange com g h n isp x r rs) b p0 c0) (RExt None) pre st = Ok ((v, s), st1) ->
  exists s', process_pre (SExt (KRange com' g h n isp x r rs) b p0 c0) (RExt None) pre st = Ok ((v, s'), st1) /\ prehash_input s' = prehash_input s.
Proof.
  intros H. cbn [process_pre] in *. apply bind_ok in H as (c & stc & E & H). apply ret_ok in H as [H ->]. injection H as <- <-.
  exists (SExt (KRange com' g h n isp x r rs) b pre (Some c)). split; [|reflexivity]. unfold bind. 
  change (construct (KRange com' g h n isp x r rs) pre st) with (construct (KRange com g h n isp x r rs) pre st). now rewrite E.
Qed.
End I.

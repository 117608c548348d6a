(** Wrong values in any part of a conjunction are rejected (C55). *)
From Coq Require Import String Znumtheory.
From Verif Require Import Base World Val Expr Utils Stmt Prove Verify Spec Claims Shapes Honest Clauses Supply Extract Ident Alike
  Lib DictProofs Keeps Tree Sigma Validate Commit ArithProofs Build Process Lin Ktruth Provers Complete Sound Sound2 Sound3 Wire IdProofs IdProofs2 IdProofs4 Frame.
Open Scope Z_scope.
Open Scope list_scope.

Section Wr.
Context {W : World}.

(** ** The hash input *)
Lemma input_frame s s' h h' pre pre' com com' msg msg' i :
  prehash_input s = Ok h -> prehash_input s' = Ok h' -> framed pre -> framed pre' -> framed com -> framed com' ->
  fs_input h [pre; com] msg = Ok i -> fs_input h' [pre'; com'] msg' = Ok i ->
  h = h' /\ wire_alike pre pre' /\ wire_alike com com' /\ msg = msg'.
Proof.
  intros Hh Hh' P P' C C' H H'. unfold fs_input in *. simpl rmap in *. rewrite !fs_arg_framed in * by auto.
  destruct (encode pre) as [a|] eqn:E1; [|discriminate]. destruct (encode com) as [b|] eqn:E2; [|discriminate].
  destruct (encode pre') as [a'|] eqn:E1'; [|discriminate]. destruct (encode com') as [b'|] eqn:E2'; [|discriminate].
  simpl in H, H'. injection H as <-. injection H' as H'. rewrite !app_nil_r, <- !app_assoc in H'. symmetry in H'.
  destruct (prehash_prefix _ _ _ _ _ _ Hh Hh' H') as [-> H2]. split; auto.
  destruct (pack_frame pre _ _ _ _ _ E1 E1' H2) as [N1 H3]. split; auto.
  exact (pack_frame com _ _ _ _ _ E2 E2' H3).
Qed.
(** The same precommitment on both sides, framed or not. *)
Lemma input_same_pre s s' h h' pre com com' msg msg' i :
  prehash_input s = Ok h -> prehash_input s' = Ok h' -> framed com -> framed com' ->
  fs_input h [pre; com] msg = Ok i -> fs_input h' [pre; com'] msg' = Ok i ->
  h = h' /\ wire_alike com com' /\ msg = msg'.
Proof.
  intros Hh Hh' C C' H H'. unfold fs_input in *. simpl rmap in *. rewrite !(fs_arg_framed com), !(fs_arg_framed com') in * by auto.
  destruct (fs_arg pre) as [a|] eqn:E1; [|discriminate]. destruct (encode com) as [b|] eqn:E2; [|discriminate].
  destruct (encode com') as [b'|] eqn:E2'; [|discriminate].
  simpl in H, H'. injection H as <-. injection H' as H'. rewrite !app_nil_r, <- !app_assoc in H'. symmetry in H'.
  destruct (prehash_prefix _ _ _ _ _ _ Hh Hh' H') as [-> H2]. split; auto.
  apply app_inv_head in H2. exact (pack_frame com _ _ _ _ _ E2 E2' H2).
Qed.

(** ** Down the path *)
Inductive at_path : val -> list nat -> val -> Prop :=
| ApHere v : at_path v [] v
| ApList l i x path v : nth_error l i = Some x -> at_path x path v -> at_path (VList l) (i :: path) v.
Inductive pat_path : prover -> list nat -> prover -> Prop :=
| PpHere p : pat_path p [] p
| PpAnd ps i q path p : nth_error ps i = Some q -> pat_path q path p -> pat_path (PAnd ps) (i :: path) p.

Lemma mapM_at {A B} (f : A -> M B) l : forall s ys s' i x, mapM f l s = Ok (ys, s') -> nth_error l i = Some x ->
  exists a y b, nth_error ys i = Some y /\ f x a = Ok (y, b).
Proof.
  induction l as [|x0 l IH]; intros s ys s' [|i] x H N; try discriminate; simpl in *; minvs.
  - injection N as ->. eauto 10.
  - simpl. eapply IH; eauto.
Qed.
Lemma zipM_at' {A B C} (f : A -> B -> M C) l : forall m s zs s' i x z, zipM f l m s = Ok (zs, s') ->
  nth_error l i = Some x -> nth_error zs i = Some z -> exists y a b, nth_error m i = Some y /\ f x y a = Ok (z, b).
Proof.
  induction l as [|x0 l IH]; intros [|y0 m] s zs s' i x z H Hx Hz; simpl in H; minvs; try (destruct i; discriminate).
  destruct i; simpl in *; [injection Hx as <-; injection Hz as <-; eauto 10|eauto].
Qed.
Lemma zipM_len {A B C} (f : A -> B -> M C) l : forall m s zs s', zipM f l m s = Ok (zs, s') ->
  List.length zs = Nat.min (List.length l) (List.length m).
Proof. induction l as [|x l IH]; intros [|y m] s zs s' H; simpl in *; minvs; auto. simpl. f_equal. eauto. Qed.

Lemma flat_some {A B} (l : list (option A * B)) : forallb (fun r => is_some (fst r)) l = true -> forall i o b, nth_error l i = Some (o, b) ->
  exists p, o = Some p /\ nth_error (flat_map (fun r => match fst r with Some p => [p] | None => [] end) l) i = Some p.
Proof.
  induction l as [|[[a|] y] l IH]; intros F [|i] o b N; simpl in *; try discriminate.
  - injection N as <- <-. eauto.
  - eauto.
Qed.

Lemma path_get_prover s path d (C : conjunct s path d) : forall sd st p s1 st1, get_prover s sd st = Ok ((Some p, s1), st1) ->
  exists e, conjunct s1 path (mkDL (dl_lhs d) (dl_bases d) (dl_secs d) (dupdate e (dl_vals d) sd) true) /\ pat_path p path (PDL None).
Proof.
  induction C as [d|subs b i s path d N C IH]; intros sd st p s1 st1 H; simpl in H.
  - apply bind_ok in H as ([o d'] & s2 & E & H). apply ret_ok in H as [H _]. simpl in H. injection H as -> <-.
    unfold get_prover_dl in E. apply bind_ok in E as (e & s3 & E1 & E). cbv zeta in E. destruct (_ || _); [discriminate|].
    apply ret_ok in E as [E _]. injection E as <- <-. exists e. split; constructor.
  - apply bind_ok in H as (u & s2 & _ & H). destruct b; [discriminate|].
    apply bind_ok in H as (l & s3 & M & H). destruct (forallb _ l) eqn:F; [|discriminate].
    injection H as <- <- _. destruct (mapM_at _ _ _ _ _ _ _ M N) as (a & [o y] & c & Ny & G).
    destruct (flat_some _ F _ _ _ Ny) as (q & -> & Nq). destruct (IH _ _ _ _ _ G) as (e & C1 & C2).
    exists e. split.
    + econstructor; [|exact C1]. exact (map_nth_error snd _ _ Ny).
    + econstructor; eauto.
Qed.

Lemma path_precommit s path d (C : conjunct s path d) : forall p st pre p' s' st', pat_path p path (PDL None) ->
  precommit s p st = Ok ((pre, p', s'), st') -> conjunct s' path d /\ pat_path p' path (PDL None).
Proof.
  induction C as [d|subs b i s path d N C IH]; intros p st pre p' s' st' P H; inversion P as [|ps j q pa pp Np Pq]; subst; simpl in H.
  - apply ret_ok in H as [H _]. injection H as _ <- <-. split; constructor.
  - apply bind_ok in H as (a & s2 & E & H). apply ret_ok in H as [H _]. injection H as _ <- <-.
    destruct (nth_error a i) as [[[x y] z]|] eqn:Na.
    2:{ apply nth_error_None in Na. rewrite (zipM_len _ _ _ _ _ _ E) in Na.
        assert (nth_error subs i <> None) by congruence. assert (nth_error ps i <> None) by congruence. rewrite nth_error_Some in *. lia. }
    destruct (zipM_at' _ _ _ _ _ _ _ _ _ E N Na) as (q' & u & v & Nq & G). rewrite Np in Nq. injection Nq as <-.
    destruct (IH _ _ _ _ _ _ Pq G) as [C1 C2]. split; econstructor; eauto.
    + exact (map_nth_error snd _ _ Na).
    + exact (map_nth_error (fun r => snd (fst r)) _ _ Na).
Qed.

Lemma path_commit s path d (C : conjunct s path d) : forall p rd st com p' st', pat_path p path (PDL None) ->
  internal_commit s p rd st = Ok ((com, p'), st') ->
  exists ks b0 bs x, dl_bases d = b0 :: bs /\ List.length ks = List.length (dl_secs d) /\ wsum (grp b0) ks (dl_bases d) = Ok x /\
    at_path com path (VPt x) /\ pat_path p' path (PDL (Some ks)).
Proof.
  induction C as [d|subs b i s path d N C IH]; intros p rd st com p' st' P H; inversion P as [|ps j q pa pp Np Pq]; subst.
  - simpl in H. apply commit_dl_inv in H as (ks & b0 & bs & x & B & -> & L & Wx & ->). exists ks, b0, bs, x. repeat split; auto; constructor.
  - rewrite internal_commit_and in H. minvs.
    match goal with Z : zipM _ subs ps _ = Ok (?l, _) |- _ => rename Z into ZZ; rename l into zl end.
    destruct (nth_error zl i) as [[x y]|] eqn:Na.
    2:{ apply nth_error_None in Na. rewrite (zipM_len _ _ _ _ _ _ ZZ) in Na.
        assert (nth_error subs i <> None) by congruence. assert (nth_error ps i <> None) by congruence. rewrite nth_error_Some in *. lia. }
    destruct (zipM_at' _ _ _ _ _ _ _ _ _ ZZ N Na) as (q' & u & v & Nq & G). rewrite Np in Nq. injection Nq as <-.
    destruct (IH _ _ _ _ _ _ Pq G) as (ks & b0 & bs & z & B & L & Wx & A1 & A2). exists ks, b0, bs, z. repeat split; auto; econstructor; eauto.
    + exact (map_nth_error fst _ _ Na).
    + exact (map_nth_error snd _ _ Na).
Qed.

Lemma path_respond s path d (C : conjunct s path d) ks : forall p c st r st', pat_path p path (PDL (Some ks)) ->
  compute_response s p c st = Ok (r, st') ->
  exists ri sta stb, at_path r path ri /\ respond_dl d (Some ks) c sta = Ok (ri, stb).
Proof.
  induction C as [d|subs b i s path d N C IH]; intros p c st r st' P H; inversion P as [|ps j q pa pp Np Pq]; subst.
  - simpl in H. exists r, st, st'. split; auto. constructor.
  - simpl in H. minvs.
    match goal with Z : zipM _ subs ps _ = Ok (?l, _) |- _ => rename Z into ZZ; rename l into zl end.
    destruct (nth_error zl i) as [x|] eqn:Na.
    2:{ apply nth_error_None in Na. rewrite (zipM_len _ _ _ _ _ _ ZZ) in Na.
        assert (nth_error subs i <> None) by congruence. assert (nth_error ps i <> None) by congruence. rewrite nth_error_Some in *. lia. }
    destruct (zipM_at' _ _ _ _ _ _ _ _ _ ZZ N Na) as (q' & u & v & Nq & G). rewrite Np in Nq. injection Nq as <-.
    destruct (IH _ _ _ _ _ Pq G) as (ri & sa & sb & A1 & A2). exists ri, sa, sb. split; auto. econstructor; eauto.
Qed.

Lemma path_process s path d (C : conjunct s path d) : forall v pre st v' s' st',
  process_pre s v pre st = Ok ((v', s'), st') -> v = get_verifier s -> conjunct s' path d.
Proof.
  induction C as [d|subs b i s path d N C IH]; intros v pre st v' s' st' H ->.
  - simpl in H. apply ret_ok in H as [H _]. injection H as _ <-. constructor.
  - change (get_verifier (SAnd subs b)) with (RAnd (map get_verifier subs)) in H. rewrite process_pre_and in H.
    destruct (is_none pre); [apply ret_ok in H as [H _]; injection H as _ <-; econstructor; eauto|].
    apply bind_ok in H as (a & s2 & E & H). apply ret_ok in H as [H _]. injection H as _ <-.
    assert (G : forall k subs0 i0 st l st1, pp_loop process_pre pre k subs0 (map get_verifier subs0) st = Ok (l, st1) -> nth_error subs0 i0 = Some s ->
      exists p a y c, nth_error l i0 = Some y /\ process_pre s (get_verifier s) p a = Ok (y, c)).
    { intros k subs0. revert k. induction subs0 as [|x0 subs0 IHs]; intros k [|i0] sa l sb HH NN; try discriminate; simpl in *; minvs.
      - injection NN as ->. eauto 10.
      - simpl. eapply IHs; eauto. }
    destruct (G _ _ _ _ _ _ E N) as (p & u & [v1 s1] & w & Na & Q). econstructor; [exact (map_nth_error snd _ _ Na)|]. eapply IH; eauto.
Qed.

Lemma at_path_fun v path x y : at_path v path x -> at_path v path y -> x = y.
Proof. intros A. revert y. induction A; intros y B; inversion B; subst; auto. apply IHA. congruence. Qed.

Lemma path_recompute s path d (C : conjunct s path d) : forall c r ri com, at_path r path ri ->
  recompute s c r = Ok com -> exists x, at_path com path x /\ recompute_dl d c ri = Ok x.
Proof.
  induction C as [d|subs b i s path d N C IH]; intros c r ri com A H; inversion A as [|l j y pa v Nl A']; subst.
  - simpl in H. exists com. split; auto. constructor.
  - apply recompute_and_inv in H as (m & -> & H). destruct (H i s N) as (rj & y' & I & Ny & R).
    simpl in I. rewrite Nl in I. injection I as <-. destruct (IH _ _ _ _ A' R) as (z & Z1 & Z2). exists z. split; auto. econstructor; eauto.
Qed.

Lemma F2_nth {A B} (R : A -> B -> Prop) l m : Forall2 R l m -> forall i x, nth_error l i = Some x -> exists y, nth_error m i = Some y /\ R x y.
Proof. induction 1; intros [|i] a N; try discriminate; simpl in *; [injection N as <-; eauto|eauto]. Qed.
Lemma path_alike v path x y : at_path v path x -> forall w, wire_alike v w -> at_path w path y -> wire_alike x y.
Proof.
  induction 1 as [v|l i x path v N A IH]; intros w E B.
  - inversion B; subst. exact E.
  - inversion B as [|m j y' pa v' Nm B']; subst. inversion E as [| | | | |? ? l' m' Q1 Q2 F|]; subst.
    destruct Q1 as [Q1|Q1]; [injection Q1 as <-|discriminate Q1]. destruct Q2 as [Q2|Q2]; [injection Q2 as <-|discriminate Q2].
    destruct (F2_nth _ _ _ F _ _ N) as (y2 & N2 & E2). rewrite Nm in N2. injection N2 as <-. eapply IH; eauto.
Qed.

(** ** One representation *)
Lemma wrong_equation d d' vs ks c x : dl_shape d -> prime (order (grp (dl_lhs d))) ->
  List.length vs = List.length (dl_secs d) -> List.length ks = List.length (dl_secs d) ->
  dl_lhs d <> lincomb (grp (dl_lhs d)) vs (dl_bases d) -> dl_lhs d' = dl_lhs d -> dl_bases d' = dl_bases d ->
  recompute_dl d' c (VList (map VInt (map (fun p => (fst p * c + snd p) mod order (grp (dl_lhs d))) (combine vs ks)))) = Ok x ->
  exists y, x = VPt y /\ grp y = grp (dl_lhs d) /\ (y = lincomb (grp (dl_lhs d)) ks (dl_bases d) -> (order (grp (dl_lhs d)) | c)).
Proof.
  intros S P Lv Lk Hw L B E0. remember (grp (dl_lhs d)) as g eqn:Hg. symmetry in Hg.
  assert (I : in_group g (dl_bases d)) by (subst g; apply S).
  assert (Lv' : List.length vs = List.length (dl_bases d)) by (rewrite Lv; apply S).
  assert (Lk' : List.length ks = List.length (dl_bases d)) by (rewrite Lk; apply S).
  unfold recompute_dl in E0. simpl in E0. rewrite Lib.wsum_v_ints, L, B, Hg in E0.
  rewrite (wsum_lincomb _ _ _ I) in E0. simpl in E0. unfold padd_chk in E0. rewrite grp_mul, (grp_lincomb _ _ _ I), Hg, gid_eqb_refl in E0.
  simpl in E0. injection E0 as <-. eexists. split; [reflexivity|].
  set (z := lincomb g (map _ (combine vs ks)) (dl_bases d)) in *.
  set (y := lincomb g vs (dl_bases d)) in *.
  assert (Gz : grp z = g) by (apply grp_lincomb; auto). assert (Gy : grp y = g) by (apply grp_lincomb; auto).
  split; [gsolve|]. intros E3.
  destruct (Zdivide_dec (order g) c) as [|Hc]; auto. exfalso.
  pose proof (lincomb_response g (dl_bases d) c I vs ks Lv' Lk') as R. rewrite <- R in E3. fold y z in E3. symmetry in E3.
  assert (pmul c (padd (dl_lhs d) (pneg y)) = inf (grp (padd (dl_lhs d) (pneg y)))).
  { assert (E4 : padd (padd (pneg z) (pmul c (dl_lhs d))) (padd z (pmul (- c) y)) =
                 padd (padd (pneg z) (pmul c (dl_lhs d))) (padd z (pmul (- c) (dl_lhs d)))) by now rewrite E3.
    replace (inf (grp (padd (dl_lhs d) (pneg y)))) with (inf g) by (f_equal; gsolve).
    transitivity (padd (padd (pneg z) (pmul c (dl_lhs d))) (padd z (pmul (- c) y))); [glin g|]. rewrite E4. glin g. }
  apply prime_mul_inf in H; auto.
  - apply Hw. replace (dl_lhs d) with (padd (padd (dl_lhs d) (pneg y)) y) by glin g. rewrite H.
    replace (grp (padd (dl_lhs d) (pneg y))) with (grp y) by gsolve. apply add_inf_l.
  - replace (grp (padd (dl_lhs d) (pneg y))) with g by gsolve. auto.
  - replace (grp (padd (dl_lhs d) (pneg y))) with g by gsolve. auto.
Qed.

(** ** A part of a conjunction *)
Lemma values_of e e' sd d w vs : (forall k v, In (k, v) (dl_vals d ++ sd) -> v = w (sname k)) ->
  rmap (fun s => dget_err e' (dupdate e (dl_vals d) sd) s) (dl_secs d) = Ok vs -> vs = map (fun s => w (sname s)) (dl_secs d).
Proof.
  intros Hv Ev. apply rmap_ok in Ev.
  assert (EO : Shapes.entries_ok (map fst (dl_vals d ++ sd)) w (dupdate e (dl_vals d) sd)).
  { apply entries_ok_update; intros k' u' K'; (split; [|apply Hv, in_or_app; auto]); apply in_map_iff; exists (k', u'); rewrite in_app_iff; auto. }
  clear - Ev EO. induction Ev as [|a b l m H]; simpl; auto. f_equal; auto. unfold dget_err in H.
  destruct (dget e' _ a) as [u|] eqn:D; [|discriminate]. injection H as <-. eapply entries_ok_get; eauto.
Qed.

Lemma wrong_part s path d w sd st p s1 st1 sta pre p2 s2 stb rd stc com p3 std c ste r stf sv d' com' :
  conjunct s path d -> dl_shape d -> prime (order (grp (dl_lhs d))) ->
  (forall k v, In (k, v) (dl_vals d ++ sd) -> v = w (sname k)) -> ~ dl_holds w d ->
  get_prover s sd st = Ok ((Some p, s1), st1) -> precommit s1 p sta = Ok ((pre, p2, s2), stb) ->
  internal_commit s2 p2 rd stc = Ok ((com, p3), std) -> compute_response s2 p3 c ste = Ok (r, stf) ->
  conjunct sv path d' -> dl_lhs d' = dl_lhs d -> dl_bases d' = dl_bases d ->
  recompute sv c r = Ok com' ->
  exists x y, at_path com path (VPt x) /\ at_path com' path (VPt y) /\ grp x = grp (dl_lhs d) /\ grp y = grp (dl_lhs d) /\
    (y = x -> (order (grp (dl_lhs d)) | c)).
Proof.
  intros C S P Hv Hw G Pc Ic Rs Cv El Eb Rc.
  destruct (path_get_prover _ _ _ C _ _ _ _ _ G) as (e & C1 & P1).
  destruct (path_precommit _ _ _ C1 _ _ _ _ _ _ P1 Pc) as [C2 P2].
  destruct (path_commit _ _ _ C2 _ _ _ _ _ _ P2 Ic) as (ks & b0 & bs & x & B0 & Lk & Wx & A1 & P3). cbn [dl_bases dl_secs] in *.
  destruct (path_respond _ _ _ C2 _ _ _ _ _ _ P3 Rs) as (ri & sa & sb & A2 & Rd).
  destruct (path_recompute _ _ _ Cv _ _ _ _ A2 Rc) as (y & A3 & Rd').
  apply respond_dl_inv in Rd as (kl & b1 & bs1 & vs & zs & [= <-] & B1 & _ & -> & Ev & ->). cbn [dl_bases dl_secs dl_vals] in *.
  rewrite B0 in B1. injection B1 as <- <-. rewrite Lk, firstn_all in Ev.
  assert (Hg : grp (dl_lhs d) = grp b0). { destruct S as (_ & _ & S3). rewrite B0 in S3. inversion S3; auto. }
  assert (I : in_group (grp b0) (dl_bases d)) by (destruct S as (_ & _ & S3); congruence).
  apply (values_of _ _ _ _ w) in Ev; auto. subst vs. rewrite (wsum_lincomb _ _ _ I) in Wx. injection Wx as <-. rewrite <- Hg in *.
  destruct (wrong_equation d d' _ ks _ y S P ltac:(now rewrite map_length) Lk Hw El Eb Rd') as (y' & -> & Gy & Ey).
  eexists _, y'. split; [exact A1|]. split; [exact A3|]. split; [now apply grp_lincomb|]. auto.
Qed.

(** The interactive protocol, with any challenge. *)
Lemma wrong_interactive s path d w sd st p s1 st1 sta pre p2 s2 stb rd stc com p3 std c ste r stf sv d' e v :
  conjunct s path d -> dl_shape d -> prime (order (grp (dl_lhs d))) ->
  (forall k v, In (k, v) (dl_vals d ++ sd) -> v = w (sname k)) -> ~ dl_holds w d ->
  get_prover s sd st = Ok ((Some p, s1), st1) -> precommit s1 p sta = Ok ((pre, p2, s2), stb) ->
  internal_commit s2 p2 rd stc = Ok ((com, p3), std) -> compute_response s2 p3 c ste = Ok (r, stf) ->
  conjunct sv path d' -> dl_lhs d' = dl_lhs d -> dl_bases d' = dl_bases d ->
  ~ (order (grp (dl_lhs d)) | c) -> verify_resp e sv v com c r <> Ok true.
Proof.
  intros C S P Hv Hw G Pc Ic Rs Cv El Eb Hc V. unfold verify_resp in V. apply rbind_ok in V as (u & _ & V).
  apply rbind_ok in V as (com' & Rc & V). injection V as V. apply val_eqb_eq in V as <-.
  destruct (wrong_part _ _ _ _ _ _ _ _ _ _ _ _ _ _ _ _ _ _ _ _ _ _ _ _ _ _ C S P Hv Hw G Pc Ic Rs Cv El Eb Rc) as (x & y & A1 & A2 & _ & _ & K).
  apply Hc, K. pose proof (at_path_fun _ _ _ _ A1 A2). congruence.
Qed.

(** ** A non-interactive proof *)
Lemma wrong_nizk s path d w sd msg st z s' st' sv d' msg' stv sv' stv' :
  (exists n, forall b, List.length (sha256 b) = n) -> distinguished (grp (dl_lhs d)) ->
  conjunct s path d -> dl_shape d -> prime (order (grp (dl_lhs d))) ->
  (forall k v, In (k, v) (dl_vals d ++ sd) -> v = w (sname k)) -> ~ dl_holds w d ->
  prove s sd msg st = Ok ((z, s'), st') ->
  conjunct sv path d' -> dl_lhs d' = dl_lhs d -> dl_bases d' = dl_bases d ->
  verify sv z msg' stv = Ok ((true, sv'), stv') ->
  (order (grp (dl_lhs d)) | n_chal z) \/
  exists p s1 st1 pre p2 s2 st2 com p3 st3 h h' com' i i',
    get_prover s sd st = Ok ((Some p, s1), st1) /\ precommit s1 p st1 = Ok ((pre, p2, s2), st2) /\
    internal_commit s2 p2 None st2 = Ok ((com, p3), st3) /\ prehash_input s2 = Ok h /\ prehash_input sv' = Ok h' /\
    recompute sv' (n_chal z) (n_resp z) = Ok com' /\
    fs_input h [pre; com] msg = Ok i /\ fs_input h' [n_pre z; com'] msg' = Ok i' /\ i <> i' /\ sha256 i = sha256 i'.
Proof.
  intros [n L] Dst C S P Hv Hw H Cv El Eb V.
  unfold prove in H. apply bind_ok in H as ([o s1] & st1 & G & H). destruct o as [p|]; [|discriminate].
  apply bind_ok in H as ([[z0 q0] s0] & st5 & H & Hr). apply ret_ok in Hr as [Hr ->]. injection Hr as <- <-.
  unfold get_nizk_proof in H. apply bind_ok in H as ([[pre p2] s2] & st2 & Pc & H). apply bind_ok in H as ([com p3] & st3 & Ic & H).
  apply bind_ok in H as (h & st4 & Hh & H). apply lift_ok in Hh as [Hh ->]. apply bind_ok in H as (c & st6 & Hc & H). apply lift_ok in Hc as [Hc ->].
  apply bind_ok in H as (r & st7 & Rs & H). apply ret_ok in H as [H ->]. injection H as <- _ <-.
  unfold fs_challenge in Hc. apply rbind_ok in Hc as (i & Hi & Hc). injection Hc as <-.
  apply verify_inv in V as (v & h' & com' & i' & Pr & Hh' & _ & _ & Rc & Hi' & Hb). cbn [n_chal n_resp n_pre] in *.
  symmetry in Hb. apply Z.eqb_eq in Hb. assert (SH : sha256 i = sha256 i') by (apply be_int_inj; [now rewrite !L|congruence]).
  destruct (list_eq_dec ascii_dec i i') as [<-|Ni].
  2:{ right. exists p, s1, st1, pre, p2, s2, st2, com, p3, st3, h, h', com', i, i'. repeat split; auto. }
  left. assert (Cv' : conjunct sv' path d').
  { unfold processed in Pr. destruct (is_none pre); [apply ret_ok in Pr as [Pr _]; injection Pr as _ <-; exact Cv|]. eapply path_process; eauto. }
  destruct (wrong_part _ _ _ _ _ _ _ _ _ _ _ _ _ _ _ _ _ _ _ _ _ _ _ _ _ _ C S P Hv Hw G Pc Ic Rs Cv' El Eb Rc) as (x & y & A1 & A3 & Gx & Gy & K).
  apply K.
  assert (Fr : forall v path p, at_path v path (VPt p) -> framed v) by (intros ? ? ? A; inversion A; subst; exact Logic.I).
  destruct (input_same_pre _ _ _ _ _ _ _ _ _ _ Hh Hh' (Fr _ _ _ A1) (Fr _ _ _ A3) Hi Hi') as (_ & Al & _).
  pose proof (path_alike _ _ _ _ A1 _ Al A3) as Q. inversion Q as [| |p0 q1 X| | |? ? ? ? [X|X]|]; subst; try discriminate. symmetry. apply Dst; auto.
Qed.
End Wr.

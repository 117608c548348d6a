(** Randomizers and responses of provers. *)
From Coq Require Import String Znumtheory.
From Verif Require Import Base World Val Expr Utils Stmt Prove Verify Spec Shapes Clauses Supply Extract Runs Lib Lin DictProofs
  Keeps Tree Sigma ArithProofs Build Commit Sound.
Open Scope Z_scope.
Open Scope list_scope.

(** ** Random numbers of a representation proof *)
Lemma bytes_eqb_refl a : bytes_eqb a a = true.
Proof. now apply bytes_eqb_eq. Qed.
Fixpoint npos (n : bytes) (l : list bytes) : nat :=
  match l with [] => O | m :: l => if bytes_eqb m n then O else S (npos n l) end.
Lemma npos_in n l : In n l -> (npos n l < List.length l)%nat /\ nth_error l (npos n l) = Some n.
Proof.
  induction l; simpl; [tauto|]. intros H. destruct (bytes_eqb a n) eqn:E.
  - apply bytes_eqb_eq in E. subst. simpl. split; [lia|auto].
  - destruct H as [H|H]; [subst; rewrite bytes_eqb_refl in E; discriminate|]. destruct (IHl H). simpl. split; [lia|auto].
Qed.
Lemma npos_nth l : NoDup l -> forall j n, nth_error l j = Some n -> npos n l = j.
Proof.
  induction 1; intros j n H1; [destruct j; discriminate|]. destruct j; simpl in *.
  - injection H1 as <-. now rewrite bytes_eqb_refl.
  - destruct (bytes_eqb x n) eqn:E; [|f_equal; auto]. apply bytes_eqb_eq in E. subst. exfalso. apply H. eapply nth_error_In; eauto.
Qed.

Lemma sec_mem_iff e s l : sec_mem e s l = true <-> exists t, In t l /\ sec_eqb e t s = true.
Proof.
  induction l; simpl; [split; [discriminate|intros (t & [] & _)]|].
  rewrite orb_true_iff, IHl. split.
  - intros [H|(t & A & B)]; [exists a; auto|exists t; auto].
  - intros (t & [<-|A] & B); [auto|right; exists t; auto].
Qed.
Lemma sec_set_nodup e l : coh e l -> NoDup (map sname (sec_set e l)).
Proof.
  intros C. unfold sec_set.
  assert (G : forall m acc, incl m l -> incl acc l -> NoDup (map sname acc) ->
    NoDup (map sname (fold_left (fun acc s => if sec_mem e s acc then acc else acc ++ [s]) m acc))).
  { induction m; simpl; auto. intros acc I J N. apply IHm; [intros x Hx; apply I; simpl; auto| |].
    - destruct (sec_mem e a acc); auto. intros x Hx. apply in_app_iff in Hx. destruct Hx as [|[<-|[]]]; auto. apply I; simpl; auto.
    - destruct (sec_mem e a acc) eqn:E; auto. rewrite map_app. simpl.
      apply NoDup_Add with (a := sname a) (l := map sname acc); [rewrite <- (app_nil_r (map sname acc)) at 1; apply Add_app|].
      split; auto. intros K. apply in_map_iff in K. destruct K as (t & K1 & K2).
      assert (sec_mem e a acc = true); [|congruence]. apply sec_mem_iff. exists t. split; auto.
      apply (coh_eqb e l); auto. apply I; simpl; auto. }
  apply G; auto using incl_refl. intros x []. constructor.
Qed.

Lemma dget_fold_other {A} e (l : list (secret * A)) s : (forall k v, In (k, v) l -> sec_eqb e k s = false) ->
  forall d, dget e (fold_left (fun o sr => dset e o (fst sr) (snd sr)) l d) s = dget e d s.
Proof.
  induction l as [|[k v] l IH]; simpl; auto. intros H d. rewrite IH; [|intros; eapply H; eauto].
  apply dget_dset_other. eapply H; eauto.
Qed.
Lemma dget_fold_nth {A} e (ss : list secret) : NoDup (map sname ss) -> coh e ss -> forall (rs : list A) j u v s d,
  nth_error ss j = Some u -> nth_error rs j = Some v -> sname u = sname s -> e (sid u) = e (sid s) ->
  dget e (fold_left (fun o sr => dset e o (fst sr) (snd sr)) (combine ss rs) d) s = Some v.
Proof.
  induction ss as [|k ss IH]; intros N C rs j u v s d H1 H2 H3 H4; [destruct j; discriminate|].
  destruct rs as [|r rs]; [destruct j; discriminate|]. simpl. simpl in N. inversion N; subst. destruct j; simpl in *.
  - injection H1 as <-. injection H2 as <-. rewrite dget_fold_other.
    + apply dget_dset_same, sec_eqb_iff. auto.
    + intros k' v' K. apply in_combine_l in K. destruct (sec_eqb e k' s) eqn:E; auto. exfalso. apply sec_eqb_iff in E.
      match goal with X : ~ In _ _ |- _ => apply X end. apply in_map_iff. exists k'. split; [|auto]. destruct E. congruence.
  - apply (IH) with (j := j) (u := u); auto. eapply coh_incl; [|exact C]. intros x Hx; simpl; auto.
Qed.

Lemma mapM_draw {A} q (l : list A) : forall e t p,
  mapM (fun _ => draw q) l (mkSt e t p) =
  Ok (map (fun j => t (p + j)%nat mod q) (seq 0 (List.length l)), mkSt e t (p + List.length l)).
Proof.
  induction l as [|x l IH]; intros; simpl.
  - rewrite Nat.add_0_r. reflexivity.
  - unfold bind at 1, draw at 1. simpl. unfold bind at 1. rewrite IH. unfold ret. do 2 f_equal.
    + f_equal; [now rewrite Nat.add_0_r|]. rewrite <- seq_shift, map_map. apply map_ext. intros. do 2 f_equal. lia.
    + f_equal. lia.
Qed.

Section S.
Context {W : World}.

(** Number of random numbers and which one belongs to which name. *)
Definition rcount (e : nat -> option Z) (d : dlrep) : nat := List.length (sec_set e (dl_secs d)).
Definition rindex (e : nat -> option Z) (d : dlrep) (n : bytes) : nat := npos n (map sname (sec_set e (dl_secs d))).

Lemma rindex_lt e d x : In x (dl_secs d) -> (rindex e d (sname x) < rcount e d)%nat.
Proof.
  intros H. unfold rindex, rcount. rewrite <- (map_length sname). apply npos_in.
  destruct (proj2 (sec_set_spec e (dl_secs d) x)) as (t & A & B); [exists x; split; [auto|apply sec_eqb_refl]|].
  apply in_map_iff. exists t. split; auto. apply sec_eqb_iff in B. tauto.
Qed.
Lemma rindex_onto e d j : coh e (dl_secs d) -> (j < rcount e d)%nat -> exists x, In x (dl_secs d) /\ rindex e d (sname x) = j.
Proof.
  intros C H. destruct (nth_error (sec_set e (dl_secs d)) j) as [x|] eqn:E; [|apply nth_error_None in E; unfold rcount in H; lia].
  exists x. split; [eapply sec_set_incl, nth_error_In; eauto|]. apply npos_nth; [apply sec_set_nodup; auto|].
  now apply map_nth_error.
Qed.

Lemma randomizers_run d b0 bs e t p : dl_bases d = b0 :: bs -> coh e (dl_secs d) -> exists dd,
  randomizers_dl d (mkSt e t p) = Ok (dd, mkSt e t (p + rcount e d)) /\
  covers e dd (fun n => t (p + rindex e d n)%nat mod order (grp b0)) (dl_secs d).
Proof.
  intros B C. unfold randomizers_dl. rewrite B. unfold bind at 1, get_env. simpl. unfold bind at 1. rewrite mapM_draw.
  eexists. split; [reflexivity|]. intros x Hx.
  set (ss := sec_set e (dl_secs d)) in *.
  assert (N : NoDup (map sname ss)) by now apply sec_set_nodup.
  assert (Cs : coh e ss) by (eapply coh_incl; [apply sec_set_incl|auto]).
  destruct (npos_in (sname x) (map sname ss)) as [L E].
  { destruct (proj2 (sec_set_spec e (dl_secs d) x)) as (u & U1 & U2); [exists x; split; [auto|apply sec_eqb_refl]|].
    apply in_map_iff. exists u. split; auto. apply sec_eqb_iff in U2. tauto. }
  destruct (nth_error ss (npos (sname x) (map sname ss))) as [u|] eqn:Eu; [|apply nth_error_None in Eu; rewrite map_length in L; lia].
  assert (Su : sname u = sname x) by (rewrite (map_nth_error sname _ _ Eu) in E; congruence).
  eapply dget_fold_nth; eauto.
  - rewrite map_length in L. unfold rindex. fold ss.
    apply (map_nth_error (fun j => t (p + j)%nat mod order (grp b0))). rewrite (nth_error_nth' _ O) by (rewrite seq_length; auto).
    rewrite seq_nth; auto.
  - apply C; auto. eapply sec_set_incl, nth_error_In; eauto.
Qed.

(** The two runs, as functions of the random numbers. *)
Lemma honest_run_eq d w c e t b0 bs : dl_bases d = b0 :: bs -> dl_shape d -> coh e (dl_secs d) ->
  (forall x, In x (dl_secs d) -> dget e (dl_vals d) x = Some (w (sname x))) ->
  let g := grp b0 in let K := fun n => t (rindex e d n) mod order g in
  outcome (honest_run d c) e t =
  Ok (VPt (lincomb g (map (fun s => K (sname s)) (dl_secs d)) (dl_bases d)),
      VList (map VInt (map (fun s => (w (sname s) * c + K (sname s)) mod order g) (dl_secs d)))).
Proof.
  intros B S C V g K. destruct (randomizers_run d b0 bs e t 0 B C) as (dd & E1 & E2).
  assert (I : in_group g (dl_bases d)).
  { destruct S as (_ & _ & S3). assert (g = grp (dl_lhs d)); [|congruence]. unfold g. rewrite B in S3. inversion S3; auto. }
  assert (E3 : commit_dl d None (mkSt e t 0) = Ok ((VPt (lincomb g (map (fun s => K (sname s)) (dl_secs d)) (dl_bases d)),
     PDL (Some (map (fun s => K (sname s)) (dl_secs d)))), mkSt e t (0 + rcount e d))).
  { unfold commit_dl. rewrite update_randomizers_none.
    unfold bind at 1. rewrite E1. unfold bind at 1, get_env. simpl env. cbv beta iota. unfold bind at 1.
    rewrite (rmap_dget _ _ _ _ E2). unfold lift at 1. cbv beta iota.
    destruct d as [l bb ss vals fl]; simpl in B; subst bb. cbn [dl_bases] in I |- *. unfold bind. fold g.
    unfold lift. rewrite (wsum_lincomb g _ _ I). reflexivity. }
  unfold outcome, honest_run. unfold bind at 1. simpl internal_commit. rewrite E3. cbv beta iota. unfold bind at 1.
  cbn [snd fst]. simpl compute_response.
  destruct d as [l bb ss vals fl]; simpl in B; subst bb. unfold respond_dl. cbn [dl_bases dl_secs dl_vals] in *.
  unfold bind at 1, get_env. simpl env. cbv beta iota. unfold bind at 1. unfold lift.
  rewrite (rmap_respond _ _ w K) by auto. reflexivity.
Qed.
Lemma sim_run_eq d c e t b0 bs : dl_bases d = b0 :: bs -> dl_shape d -> coh e (dl_secs d) ->
  let g := grp b0 in let K := fun n => t (rindex e d n) mod order g in
  outcome (sim_run d c) e t =
  Ok (VPt (padd (lincomb g (map (fun s => K (sname s)) (dl_secs d)) (dl_bases d)) (pmul (- c) (dl_lhs d))),
      VList (map VInt (map (fun s => K (sname s)) (dl_secs d)))).
Proof.
  intros B S C g K. destruct (randomizers_run d b0 bs e t 0 B C) as (dd & E1 & E2).
  unfold outcome, sim_run. unfold bind at 1. simpl simulate_proof. unfold simulate_dl. rewrite update_randomizers_none.
  unfold bind at 1. rewrite E1. unfold bind at 1. simpl. unfold bind at 1, get_env. simpl. unfold bind at 1.
  rewrite (rmap_dget _ _ _ _ E2). simpl lift. unfold lift at 1. 
  assert (Hg : g = grp (dl_lhs d)). { destruct S as (_ & _ & S3). rewrite B in S3. inversion S3; auto. }
  assert (I : in_group g (dl_bases d)) by (destruct S as (_ & _ & S3); congruence).
  unfold recompute_dl. cbv [as_iter]. simpl rbind. rewrite wsum_v_ints, <- Hg, (wsum_lincomb g) by auto. simpl.
  unfold padd_chk. rewrite grp_mul, (grp_lincomb g) by auto. rewrite <- Hg, gid_eqb_refl. reflexivity.
Qed.

Lemma map_VInt_inj a : forall b, map (@VInt W) a = map VInt b -> a = b.
Proof. induction a; destruct b; simpl; intros H; try discriminate; auto. injection H as ? ?. f_equal; auto. Qed.
Lemma map_eq_in {A B} (f g : A -> B) l : map f l = map g l -> forall x, In x l -> f x = g x.
Proof. induction l; simpl; intros H x Hx; [tauto|]. injection H as H1 H2. destruct Hx as [<-|K]; auto. Qed.
Lemma mod_eq_div a b q : q <> 0 -> (a mod q = b mod q <-> (q | a - b)).
Proof.
  intros Hq. split; intros H.
  - rewrite (Z.div_mod a q), (Z.div_mod b q), H by auto. exists (a / q - b / q). ring.
  - destruct H as [k H]. replace a with (b + k * q) by lia. now rewrite Z.mod_add.
Qed.

Lemma hvzk d w c e : dl_shape d -> dl_holds w d -> coh e (dl_secs d) ->
  (forall x, In x (dl_secs d) -> dget e (dl_vals d) x = Some (w (sname x))) ->
  let q := order (grp (dl_lhs d)) in
  exists (n : nat) (to of : (nat -> Z) -> nat -> Z),
    (forall t, exists com r, outcome (honest_run d c) e t = Ok (com, r)) /\
    (forall t, outcome (honest_run d c) e t = outcome (sim_run d c) e (to t)) /\
    (forall t, outcome (sim_run d c) e t = outcome (honest_run d c) e (of t)) /\
    (forall t t', outcome (honest_run d c) e t = outcome (honest_run d c) e t' <-> forall j, (j < n)%nat -> (q | t j - t' j)) /\
    (forall t t', outcome (sim_run d c) e t = outcome (sim_run d c) e t' <-> forall j, (j < n)%nat -> (q | t j - t' j)).
Proof.
  intros S Hd C V q. destruct (dl_bases d) as [|b0 bs] eqn:B; [destruct S as (_ & S & _); congruence|].
  assert (Hg : grp (dl_lhs d) = grp b0). { destruct S as (_ & _ & S3). rewrite B in S3. inversion S3; auto. }
  assert (I : in_group (grp b0) (dl_bases d)) by (destruct S as (_ & _ & S3); congruence).
  assert (Q0 : q <> 0) by (unfold q; pose proof (order_gt1 (grp (dl_lhs d))); lia).
  assert (Len : List.length (dl_secs d) = List.length (dl_bases d)) by apply S.
  pose (u := fun j => match nth_error (sec_set e (dl_secs d)) j with Some x => w (sname x) | None => 0 end).
  assert (Hu : forall x, In x (dl_secs d) -> u (rindex e d (sname x)) = w (sname x)).
  { intros x Hx. pose proof (rindex_lt e d x Hx) as L. unfold u.
    destruct (nth_error (sec_set e (dl_secs d)) (rindex e d (sname x))) as [y|] eqn:E; [|apply nth_error_None in E; unfold rcount in L; lia].
    destruct (npos_in (sname x) (map sname (sec_set e (dl_secs d)))) as [_ E2].
    { destruct (proj2 (sec_set_spec e (dl_secs d) x)) as (z & U1 & U2); [exists x; split; [auto|apply sec_eqb_refl]|].
      apply in_map_iff. exists z. split; auto. apply sec_eqb_iff in U2. tauto. }
    unfold rindex in E. rewrite (map_nth_error sname _ _ E) in E2. congruence. }
  assert (SH : forall t, outcome (sim_run d c) e (fun j => u j * c + t j) = outcome (honest_run d c) e t).
  { intros t. rewrite (sim_run_eq d c e _ b0 bs), (honest_run_eq d w c e _ b0 bs) by auto. cbv zeta. do 2 f_equal.
    - f_equal. rewrite Hd at 1. rewrite Hg.
      pose proof (lincomb_response (grp b0) (dl_bases d) c I (map (fun s => w (sname s)) (dl_secs d))
        (map (fun s => t (rindex e d (sname s)) mod order (grp b0)) (dl_secs d))) as R.
      rewrite !map_length in R. specialize (R Len Len). rewrite <- R. f_equal. f_equal.
      rewrite (combine_maps (fun s => w (sname s)) (fun s => t (rindex e d (sname s)) mod order (grp b0)) (fun a b => (a * c + b) mod order (grp b0))).
      apply map_ext_in. intros x Hx. rewrite Hu by auto. rewrite Zplus_mod_idemp_r. reflexivity.
    - f_equal. f_equal. apply map_ext_in. intros x Hx. rewrite Hu by auto. rewrite Zplus_mod_idemp_r. reflexivity. }
  assert (SI : forall t t', outcome (sim_run d c) e t = outcome (sim_run d c) e t' <-> forall j, (j < rcount e d)%nat -> (q | t j - t' j)).
  { intros t t'. rewrite !(sim_run_eq d c e _ b0 bs) by auto. cbv zeta. split.
    - intros H j Hj. destruct (rindex_onto e d j C Hj) as (x & Hx & <-).
      assert (H2 : map (fun s => t (rindex e d (sname s)) mod order (grp b0)) (dl_secs d) =
                   map (fun s => t' (rindex e d (sname s)) mod order (grp b0)) (dl_secs d)).
      { apply map_VInt_inj. congruence. }
      apply mod_eq_div; auto. unfold q. rewrite Hg. exact (map_eq_in _ _ _ H2 x Hx).
    - intros H. assert (H2 : map (fun s => t (rindex e d (sname s)) mod order (grp b0)) (dl_secs d) =
                   map (fun s => t' (rindex e d (sname s)) mod order (grp b0)) (dl_secs d)).
      { apply map_ext_in. intros x Hx. rewrite <- Hg. apply mod_eq_div; auto. apply H, rindex_lt, Hx. }
      now rewrite H2. }
  exists (rcount e d), (fun t j => u j * c + t j), (fun t j => t j - u j * c). split; [|split; [|split; [|split]]]; auto.
  - intros t. rewrite (honest_run_eq d w c e _ b0 bs) by auto. eauto.
  - intros t. rewrite <- SH. apply SI. intros j _. exists 0. ring.
  - intros t t'. rewrite <- !SH, SI. split; intros H j Hj; destruct (H j Hj) as [k K]; exists k; lia.
Qed.

(** ** Wrong values *)
Lemma respond_dl_inv d ks c st r st' : respond_dl d ks c st = Ok (r, st') -> exists kl b0 bs vs zs,
  ks = Some kl /\ dl_bases d = b0 :: bs /\ st' = st /\ r = VList (map VInt zs) /\
  rmap (fun s => dget_err (env st) (dl_vals d) s) (firstn (List.length kl) (dl_secs d)) = Ok vs /\
  zs = map (fun p => (fst p * c + snd p) mod order (grp b0)) (combine vs kl).
Proof.
  unfold respond_dl. destruct ks as [kl|]; [|intros; minvs]. destruct (dl_bases d) as [|b0 bs]; [intros; minvs|].
  intros H.
  assert (G : forall ss kl a, rmap (fun sk : secret * Z => let? v := dget_err (env st) (dl_vals d) (fst sk) in Ok ((v * c + snd sk) mod order (grp b0)))
     (combine ss kl) = Ok a -> exists vs, rmap (fun s => dget_err (env st) (dl_vals d) s) (firstn (List.length kl) ss) = Ok vs /\
     a = map (fun p => (fst p * c + snd p) mod order (grp b0)) (combine vs kl)).
  { induction ss as [|x ss IH]; intros [|k kl'] a' H'; simpl in *; try (injection H' as <-; exists []; auto).
    - minvs. match goal with X : rmap _ _ = Ok _ |- _ => apply IH in X; destruct X as (vs & X1 & X2) end.
      subst. eexists. match goal with X : dget_err _ _ _ = _ |- _ => rewrite X end. simpl. rewrite X1. simpl. split; reflexivity. }
  minvs. match goal with X : rmap _ _ = Ok _ |- _ => apply G in X; destruct X as (vs & X1 & X2) end.
  eexists kl, b0, bs, vs, _. repeat split; eauto.
Qed.

Lemma commit_dl_inv d rd st com p st' : commit_dl d rd st = Ok ((com, p), st') -> exists ks b0 bs x,
  dl_bases d = b0 :: bs /\ p = PDL (Some ks) /\ List.length ks = List.length (dl_secs d) /\
  wsum (grp b0) ks (dl_bases d) = Ok x /\ com = VPt x.
Proof.
  unfold commit_dl. intros H. minv H.
  destruct (dl_bases d) as [|b0 bs] eqn:B; minv H. injection H as <- <-. subst.
  minvs. match goal with X : rmap _ _ = Ok _ |- _ => apply rmap_length in X; rename X into L end.
  eexists _, b0, bs, _. repeat split; eauto.
Qed.

Lemma wrong_rejected d d' vs c p rd st com p1 st1 st2 r st3 :
  dl_shape d -> prime (order (grp (dl_lhs d))) ->
  Forall2 (fun x v => dget (env st2) (dl_vals d) x = Some v) (dl_secs d) vs ->
  dl_lhs d <> lincomb (grp (dl_lhs d)) vs (dl_bases d) ->
  internal_commit (SDL d) p rd st = Ok ((com, p1), st1) -> compute_response (SDL d) p1 c st2 = Ok (r, st3) ->
  dl_lhs d' = dl_lhs d -> dl_bases d' = dl_bases d -> ~ (order (grp (dl_lhs d)) | c) ->
  forall e v, verify_resp e (SDL d') v com c r <> Ok true.
Proof.
  intros S P V Hw E1 E2 L B Hc e v E3.
  destruct p as [o| | |]; try discriminate E1. simpl in E1. apply commit_dl_inv in E1. destruct E1 as (ks & b0 & bs & x & B0 & -> & Lk & Ex & ->).
  change (respond_dl d (Some ks) c st2 = Ok (r, st3)) in E2. apply respond_dl_inv in E2. destruct E2 as (kl & b1 & bs1 & vs1 & zs & [= <-] & B1 & -> & -> & Ev & ->).
  rewrite B0 in B1. injection B1 as <- <-.
  assert (Hg : grp (dl_lhs d) = grp b0). { destruct S as (_ & _ & S3). rewrite B0 in S3. inversion S3; auto. }
  assert (I : in_group (grp b0) (dl_bases d)) by (destruct S as (_ & _ & S3); congruence).
  rewrite Lk, firstn_all in Ev.
  assert (vs1 = vs).
  { apply rmap_ok in Ev. clear - Ev V. revert vs V. induction Ev; intros vs V; inversion V; subst; auto.
    unfold dget_err in H. match goal with X : dget _ _ _ = Some _ |- _ => rewrite X in H end. injection H as <-. f_equal; auto. }
  subst vs1. clear Ev.
  assert (Lv : List.length vs = List.length (dl_bases d)) by (rewrite <- (Forall2_len _ _ _ V); apply S).
  assert (Lk' : List.length ks = List.length (dl_bases d)) by (rewrite Lk; apply S).
  rewrite (wsum_lincomb _ _ _ I) in Ex. injection Ex as <-.
  unfold verify_resp in E3. minv E3. match goal with X : val_eqb _ _ = true |- _ => idtac | _ => idtac end.
  simpl in E0. unfold recompute_dl in E0. simpl in E0. rewrite wsum_v_ints, L, B, Hg in E0.
  rewrite (wsum_lincomb _ _ _ I) in E0. simpl in E0. unfold padd_chk in E0. rewrite grp_mul, (grp_lincomb _ _ _ I), Hg, gid_eqb_refl in E0.
  simpl in E0. injection E0 as <-. injection E3 as E3. simpl in E3. apply pt_eqb_spec in E3.
  set (g := grp b0) in *. set (y := lincomb g vs (dl_bases d)) in *.
  pose proof (lincomb_response g (dl_bases d) c I vs ks Lv Lk') as R. rewrite <- R in E3 at 1. fold y in E3.
  set (z := lincomb g _ _) in E3.
  assert (Gz : grp z = g) by (apply grp_lincomb; auto). assert (Gy : grp y = g) by (apply grp_lincomb; auto).
  assert (pmul c (padd (dl_lhs d) (pneg y)) = inf (grp (padd (dl_lhs d) (pneg y)))).
  { assert (E4 : padd (padd (pneg z) (pmul c (dl_lhs d))) (padd z (pmul (- c) y)) =
                 padd (padd (pneg z) (pmul c (dl_lhs d))) (padd z (pmul (- c) (dl_lhs d)))) by now rewrite E3.
    replace (inf (grp (padd (dl_lhs d) (pneg y)))) with (inf g) by (f_equal; gsolve).
    transitivity (padd (padd (pneg z) (pmul c (dl_lhs d))) (padd z (pmul (- c) y))); [glin g|]. rewrite E4. glin g. }
  apply prime_mul_inf in H; auto.
  - apply Hw. rewrite Hg. fold g. fold y. replace (dl_lhs d) with (padd (padd (dl_lhs d) (pneg y)) y) by glin g. rewrite H.
    replace (grp (padd (dl_lhs d) (pneg y))) with (grp y) by gsolve. apply add_inf_l.
  - replace (grp (padd (dl_lhs d) (pneg y))) with (grp (dl_lhs d)) by gsolve. auto.
  - replace (grp (padd (dl_lhs d) (pneg y))) with (grp (dl_lhs d)) by gsolve. auto.
Qed.

(** ** Two responses *)
Lemma zipM_nth {A B C} (f : A -> B -> M C) l : forall m s zs s', zipM f l m s = Ok (zs, s') ->
  (forall x y, In x l -> keeps (f x y)) ->
  forall i x y, nth_error l i = Some x -> nth_error m i = Some y ->
  exists z a b, nth_error zs i = Some z /\ f x y a = Ok (z, b) /\ env a = env s.
Proof.
  induction l as [|x0 l IH]; intros [|y0 m] s zs s' H K i x y Hx Hy; try (destruct i; discriminate).
  simpl in H. minvs. destruct i; simpl in *.
  - injection Hx as <-. injection Hy as <-. eauto 10.
  - destruct (IH _ _ _ _ E0 ltac:(intros; apply K; simpl; auto) i x y Hx Hy) as (z & u & v & A1 & A2 & A3).
    exists z, u, v. repeat split; auto. rewrite A3. eapply K; eauto.
Qed.

Inductive Cmt : stmt -> prover -> Prop :=
| CmDL d ks : List.length ks = List.length (dl_secs d) -> Cmt (SDL d) (PDL (Some ks))
| CmAnd subs b ps : (forall i s p, nth_error subs i = Some s -> nth_error ps i = Some p -> Cmt s p) -> Cmt (SAnd subs b) (PAnd ps)
| CmOr subs b ch i sp sims : (forall x, nth_error subs i = Some x -> Cmt x sp) -> Cmt (SOr subs b ch) (POr i sp sims)
| CmExt k b pre con sv q : Cmt con q -> Cmt (SExt k b pre (Some con)) (PExt sv (Some (Some q))).

Lemma zipM_zs {A B C} (f : A -> B -> M C) l : forall m s zs s', zipM f l m s = Ok (zs, s') ->
  forall i x z, nth_error l i = Some x -> nth_error zs i = Some z -> exists y a b, f x y a = Ok (z, b).
Proof.
  induction l as [|x0 l IH]; intros [|y0 m] s zs s' H i x z Hx Hz; simpl in H; minvs; try (destruct i; discriminate).
  destruct i; simpl in *; [injection Hx as <-; injection Hz as <-; eauto|eauto].
Qed.

Lemma commit_Cmt s : forall p rd st com p' st', internal_commit s p rd st = Ok ((com, p'), st') -> Cmt s p'.
Proof.
  induction s as [d|subs f IH|subs f ch IH|k f q|k f q con IH] using stmt_ind'; intros p rd st com p' st' H;
    destruct p; try discriminate H.
  - simpl in H. apply commit_dl_inv in H. destruct H as (ks0 & b0 & bs & x & _ & -> & L & _). now constructor.
  - rewrite internal_commit_and in H. minvs. constructor. intros i x p0 Hs Hp.
    destruct (nth_error a2 i) as [[z pz]|] eqn:Ez; [|rewrite nth_error_None in Ez; assert (X : nth_error (map snd a2) i = None) by (apply nth_error_None; rewrite map_length; auto); congruence].
    rewrite (map_nth_error snd _ _ Ez) in Hp. injection Hp as <-.
    match goal with X : zipM _ _ _ _ = _ |- _ => destruct (zipM_zs _ _ _ _ _ _ X i x _ Hs Ez) as (y & u & v & Y) end.
    rewrite Forall_forall in IH. eapply IH; [eapply nth_error_In; eauto|exact Y].
  - rewrite internal_commit_or in H. minvs. constructor. intros x Hx. rewrite sel_loop_eq, Hx in E1.
    destruct a1 as [z pz]. rewrite Forall_forall in IH. eapply IH; [eapply nth_error_In; eauto|exact E1].
  - simpl in H. destruct con0 as [[q0|]|]; try discriminate H. minvs. destruct a as [z pz]. constructor. eauto.
Qed.

Lemma keeps_response s : forall p c, keeps (compute_response s p c).
Proof.
  induction s as [d|subs f IH|subs f ch IH|k f q|k f q con IH] using stmt_ind'; intros p c; destruct p;
    try (intros st a st' H; discriminate H).
  - simpl. unfold respond_dl. keeps_tac.
  - simpl. apply keeps_bind; [|intros; apply keeps_ret]. apply keeps_zipM. intros x y Hx. rewrite Forall_forall in IH. auto.
  - rewrite compute_response_or. apply keeps_bind; [|intros; apply keeps_ret]. intros st a st' H. rewrite sel_loop_eq in H.
    destruct (nth_error subs idx) eqn:E; [|discriminate]. rewrite Forall_forall in IH. eapply IH; [eapply nth_error_In; eauto|exact H].
  - simpl. destruct con0 as [[q0|]|]; auto; apply keeps_raise.
Qed.

Lemma nth_insert {A} i (x : A) l y : nth_error (insert_at i x l) i = Some y -> y = x.
Proof.
  unfold insert_at. intros H. destruct (Nat.le_gt_cases i (List.length l)) as [L|L].
  - rewrite nth_error_app2 in H by (rewrite firstn_length; lia). rewrite firstn_length, Nat.min_l, Nat.sub_diag in H by auto. simpl in H. congruence.
  - rewrite nth_error_app2 in H by (rewrite firstn_length; lia). rewrite firstn_length, Nat.min_r in H by lia.
    destruct (i - List.length l)%nat as [|n] eqn:E; [lia|]. simpl in H. rewrite skipn_all2 in H by lia. destruct n; discriminate.
Qed.
Lemma index_list l i (a : @val W) : index (VList l) i = Ok a -> nth_error l i = Some a.
Proof. simpl. destruct (nth_error l i); congruence. Qed.

Lemma respond_nth d ks c st r st' i x : List.length ks = List.length (dl_secs d) -> respond_dl d (Some ks) c st = Ok (r, st') ->
  nth_error (dl_secs d) i = Some x -> exists b0 bs k v, dl_bases d = b0 :: bs /\ nth_error ks i = Some k /\
    dget (env st) (dl_vals d) x = Some v /\ index r i = Ok (VInt ((v * c + k) mod order (grp b0))).
Proof.
  intros L H Hx. apply respond_dl_inv in H. destruct H as (kl & b0 & bs & vs & zs & [= <-] & B & -> & -> & Ev & ->).
  rewrite L, firstn_all in Ev. destruct (nth_error ks i) as [k|] eqn:Ek.
  2:{ apply nth_error_None in Ek. assert (nth_error (dl_secs d) i <> None) by congruence. apply nth_error_Some in H. lia. }
  assert (V : exists v, nth_error vs i = Some v /\ dget (env st) (dl_vals d) x = Some v).
  { apply rmap_ok in Ev. clear - Ev Hx. revert i Hx. induction Ev; intros [|i] Hx; try discriminate; simpl in *.
    - injection Hx as <-. exists y. split; auto. unfold dget_err in H. destruct (dget _ _ x0); congruence.
    - apply IHEv; auto. }
  destruct V as (v & V1 & V2). exists b0, bs, k, v. repeat split; auto. simpl.
  assert (N : nth_error (combine vs ks) i = Some (v, k)).
  { clear - V1 Ek. revert ks i V1 Ek. induction vs; intros [|y ks] [|i] H1 H2; simpl in *; try discriminate; [congruence|auto]. }
  rewrite (map_nth_error VInt _ _ (map_nth_error (fun p : Z * Z => (fst p * c + snd p) mod order (grp b0)) _ _ N)). reflexivity.
Qed.

Lemma two_leaf s p c c' r r' d a a' u u' : leaf2 s p c c' r r' d a a' u u' ->
  Cmt s p -> forall st st1 st' st1', env st = env st' ->
  compute_response s p c st = Ok (r, st1) -> compute_response s p c' st' = Ok (r', st1') ->
  forall i x, nth_error (dl_secs d) i = Some x -> exists b0 bs v z z', dl_bases d = b0 :: bs /\
    dget (env st) (dl_vals d) x = Some v /\ index u i = Ok (VInt z) /\ index u' i = Ok (VInt z') /\
    (order (grp b0) | v * (a - a') - (z - z')).
Proof.
  induction 1; intros CM st st1 st' st1' E E1 E2 j x Hj; inversion CM; subst.
  - match goal with X : List.length _ = List.length (dl_secs d) |- _ => rename X into HL end.
    destruct (respond_nth d ks0 c st r st1 j x HL E1 Hj) as (b0 & bs & k & v & B & K1 & V1 & Z1).
    destruct (respond_nth d ks0 c' st' r' st1' j x HL E2 Hj) as (b0' & bs' & k' & v' & B' & K1' & V1' & Z1').
    rewrite B in B'. injection B' as <- <-. rewrite K1 in K1'. injection K1' as <-. rewrite <- E, V1 in V1'. injection V1' as <-.
    eexists b0, bs, v, _, _. repeat split; eauto. pose proof (order_gt1 (grp b0)).
    set (q := order (grp b0)) in *.
    replace (v * (c - c') - ((v * c + k) mod q - (v * c' + k) mod q)) with
      (((v * c + k) - (v * c + k) mod q) - ((v * c' + k) - (v * c' + k) mod q)) by ring.
    apply Z.divide_sub_r; [exists ((v * c + k) / q)|exists ((v * c' + k) / q)]; rewrite Z.mod_eq by lia; ring.
  - simpl in E1, E2. apply bind_ok in E1. destruct E1 as (l1 & t1 & X & E1). apply bind_ok in E2. destruct E2 as (l2 & t2 & Y & E2). minvs.
    match goal with _ =>
      destruct (zipM_nth _ _ _ _ _ _ X ltac:(intros; apply keeps_response) i s p H H0) as (z & s1 & s2 & A1 & A2 & A3);
      destruct (zipM_nth _ _ _ _ _ _ Y ltac:(intros; apply keeps_response) i s p H H0) as (z' & s1' & s2' & A1' & A2' & A3') end.
    apply index_list in H1. apply index_list in H2. rewrite H1 in A1. injection A1 as <-. rewrite H2 in A1'. injection A1' as <-.
    rewrite <- A3. eapply (IHleaf2 ltac:(eauto) s1 s2 s1' s2'); eauto. congruence.
  - match goal with K : forall x, nth_error subs i = Some x -> Cmt x sp |- _ => specialize (K _ H) end.
    rewrite compute_response_or in E1, E2. cbv zeta in E1, E2. minvs.
    rewrite sel_loop_eq, H in *. simpl in H0, H1, H2, H3.
    injection H0 as <-. injection H1 as <-. injection H2 as <-. injection H3 as <-.
    apply index_list in H4. apply index_list in H5. apply index_list in H6. apply index_list in H7.
    apply nth_insert in H6. apply nth_insert in H7. subst.
    assert (Hc : forall A (f : A -> val) l x y, nth_error (map f (insert_at i x l)) i = Some y -> y = f x).
    { intros A f l x0 y0 Hn. destruct (nth_error (insert_at i x0 l) i) eqn:En.
      - rewrite (map_nth_error f _ _ En) in Hn. apply nth_insert in En. congruence.
      - apply nth_error_None in En. assert (nth_error (map f (insert_at i x0 l)) i = None) by (apply nth_error_None; rewrite map_length; auto). congruence. }
    apply Hc in H4. apply Hc in H5. injection H4 as ->. injection H5 as ->.
    eapply IHleaf2; eauto.
  - simpl in E1, E2. eapply IHleaf2; eauto.
Qed.

Lemma two_responses : exists reveal : Z -> Z -> Z -> Z -> Z -> Z,
  forall s p rd com pc st0 st1 st2 st3 st2' st3' c c' r r' d a a' u u',
  internal_commit s p rd st0 = Ok ((com, pc), st1) ->
  env st2 = env st2' -> compute_response s pc c st2 = Ok (r, st3) -> compute_response s pc c' st2' = Ok (r', st3') ->
  leaf2 s pc c c' r r' d a a' u u' ->
  forall i x, nth_error (dl_secs d) i = Some x -> exists b0 bs v z z', dl_bases d = b0 :: bs /\
    dget (env st2) (dl_vals d) x = Some v /\ index u i = Ok (VInt z) /\ index u' i = Ok (VInt z') /\
    let q := order (grp b0) in (q | v * (a - a') - (z - z')) /\
    (prime q -> ~ (q | a - a') -> v mod q = reveal q a a' z z').
Proof.
  exists (fun q a a' z z' => ((z - z') * zinv (a - a') q) mod q).
  intros s p rd com pc st0 st1 st2 st3 st2' st3' c c' r r' d a a' u u' HC E E1 E2 L i x Hx.
  destruct (two_leaf _ _ _ _ _ _ _ _ _ _ _ L (commit_Cmt _ _ _ _ _ _ _ HC) _ _ _ _ E E1 E2 i x Hx) as (b0 & bs & v & z & z' & B & V & I1 & I2 & D).
  exists b0, bs, v, z, z'. split; [auto|]. split; [auto|]. split; [auto|]. split; [auto|]. cbv zeta. split; auto. intros P N.
  assert (Y := zinv_spec _ _ P N). apply mod_eq_div; [pose proof (order_gt1 (grp b0)); lia|].
  set (q := order (grp b0)) in *. set (y := zinv (a - a') q) in *.
  replace (v - (z - z') * y) with (y * (v * (a - a') - (z - z')) - v * (y * (a - a') - 1)) by ring.
  apply Z.divide_sub_r; now apply Z.divide_mul_r.
Qed.

(** ** Fresh random numbers, ranges *)
Lemma npos_inj n m l : In n l -> In m l -> npos n l = npos m l -> n = m.
Proof. intros H1 H2 E. apply npos_in in H1 as [_ H1]. apply npos_in in H2 as [_ H2]. rewrite E in H1. congruence. Qed.
Lemma sec_set_names e l x : In x l -> In (sname x) (map sname (sec_set e l)).
Proof.
  intros H. destruct (proj2 (sec_set_spec e l x)) as (t & A & B); [exists x; split; [auto|apply sec_eqb_refl]|].
  apply in_map_iff. exists t. split; auto. apply sec_eqb_iff in B. tauto.
Qed.
Lemma commit_fresh d b0 bs o e t k : dl_shape d -> dl_bases d = b0 :: bs -> coh e (dl_secs d) -> exists n com (j : bytes -> nat),
  internal_commit (SDL d) (PDL o) None (mkSt e t k) =
    Ok ((com, PDL (Some (map (fun x => t (k + j (sname x))%nat mod order (grp b0)) (dl_secs d)))), mkSt e t (k + n)) /\
  (forall x, In x (dl_secs d) -> (j (sname x) < n)%nat) /\
  (forall x y, In x (dl_secs d) -> In y (dl_secs d) -> j (sname x) = j (sname y) -> sname x = sname y).
Proof.
  intros S B C. destruct (randomizers_run d b0 bs e t k B C) as (dd & E1 & E2).
  assert (I : in_group (grp b0) (dl_bases d)).
  { destruct S as (_ & _ & S3). assert (grp b0 = grp (dl_lhs d)); [|congruence]. rewrite B in S3. inversion S3; auto. }
  eexists (rcount e d), _, (rindex e d). split; [|split].
  - simpl. unfold commit_dl. rewrite update_randomizers_none.
    unfold bind at 1. rewrite E1. unfold bind at 1, get_env. simpl env. cbv beta iota. unfold bind at 1.
    rewrite (rmap_dget _ _ _ _ E2). unfold lift at 1. cbv beta iota.
    destruct d as [l bb ss vals fl]; simpl in B; subst bb. cbn [dl_bases] in I |- *. unfold bind.
    unfold lift. rewrite (wsum_lincomb (grp b0) _ _ I). reflexivity.
  - intros x Hx. now apply rindex_lt.
  - intros x y Hx Hy. unfold rindex. apply npos_inj; now apply sec_set_names.
Qed.

Lemma response_range d p c st r st' : compute_response (SDL d) p c st = Ok (r, st') ->
  exists zs b0 bs, r = VList (map VInt zs) /\ dl_bases d = b0 :: bs /\ Forall (fun z => 0 <= z < order (grp b0)) zs.
Proof.
  intros H. destruct p as [ks| | |]; try discriminate H. change (respond_dl d ks c st = Ok (r, st')) in H.
  apply respond_dl_inv in H. destruct H as (kl & b0 & bs & vs & zs & -> & B & -> & -> & Ev & ->).
  eexists _, b0, bs. split; [reflexivity|]. split; auto. apply Forall_forall. intros z Hz. apply in_map_iff in Hz.
  destruct Hz as (p & <- & _). apply Z.mod_pos_bound. pose proof (order_gt1 (grp b0)). lia.
Qed.
Lemma challenge_range s v h com st c st' : send_challenge s v h com st = Ok (c, st') -> 0 <= c < 2 ^ 128.
Proof.
  intros H. unfold send_challenge in H. minv H.
  assert (G : get_random_num challenge_length s0 = Ok (c, st') -> 0 <= c < 2 ^ 128).
  { unfold get_random_num, draw. intros X. injection X as <- _. apply Z.mod_pos_bound. reflexivity. }
  destruct v as [| | |[[| | |]|]]; minvs; auto.
Qed.
End S.

(** Conversations of conjunctions: the honest ones are those of the simulator. *)
From Coq Require Import String.
From Verif Require Import Base World Val Expr Utils Stmt Prove Verify Spec Claims Shapes Honest Extract Runs Views
  Lib DictProofs Keeps Tree ArithProofs Sigma Validate Commit Build Process Lin Ktruth Provers Complete Total Sound2 Sound3.
Open Scope Z_scope.
Open Scope list_scope.

Lemma mapM_draws {A} (f : A -> Z) (l : list A) : forall e t p,
  mapM (fun x => draw (f x)) l (mkSt e t p) =
  Ok (map (fun jx => t (p + fst jx)%nat mod f (snd jx)) (combine (seq 0 (List.length l)) l), mkSt e t (p + List.length l)).
Proof.
  induction l as [|x l IH]; intros; simpl.
  - rewrite Nat.add_0_r. reflexivity.
  - unfold bind at 1, draw at 1. simpl. unfold bind at 1. rewrite IH. unfold ret. do 2 f_equal.
    + f_equal; [now rewrite Nat.add_0_r|]. rewrite <- seq_shift.
      generalize (seq 0 (List.length l)) as js. clear. intros js. revert l. induction js as [|j js IH]; intros [|y l]; simpl; auto.
      f_equal; auto. do 2 f_equal. lia.
    + f_equal. lia.
Qed.

Section Dict.
Context {B : Type} (e : nat -> option Z) (ss : list secret) (Q : bytes -> B -> Prop).
Hypothesis C : coh e ss.
Definition dinv (d : list (secret * B)) : Prop :=
  NoDup (map sname (map fst d)) /\ incl (map fst d) ss /\ forall k b, In (k, b) d -> Q (sname k) b.
Lemma dset_in (d : list (secret * B)) s v k b : In (k, b) (dset e d s v) ->
  In (k, b) d \/ (b = v /\ (k = s \/ (In k (map fst d) /\ sname k = sname s))).
Proof.
  induction d as [|[k0 w] d IH]; simpl.
  - intros [H|[]]. injection H as <- <-. auto.
  - destruct (sec_eqb e k0 s) eqn:E; simpl.
    + intros [H|H]; [|auto]. injection H as <- <-. right. split; auto. right. split; auto. apply sec_eqb_iff in E. tauto.
    + intros [H|H]; [auto|]. destruct (IH H) as [|(-> & [|[]])]; auto 6.
Qed.
Lemma dset_names (d : list (secret * B)) s v : incl (map fst d) ss -> In s ss ->
  NoDup (map sname (map fst d)) -> NoDup (map sname (map fst (dset e d s v))).
Proof.
  induction d as [|[k0 w] d IH]; simpl; intros I Hs N; [constructor; auto; constructor|].
  destruct (sec_eqb e k0 s) eqn:E; simpl; auto. inversion N as [|? ? N1 N2]; subst.
  constructor; [|apply IH; auto; intros x Hx; apply I; simpl; auto].
  intros K. apply in_map_iff in K as (x & K1 & K2). apply in_map_iff in K2 as ([x' b] & K2 & K3). simpl in K2. subst x'.
  apply dset_in in K3 as [K3|(_ & [->|[K3 K4]])].
  - apply N1, in_map_iff. exists x. split; auto. apply in_map_iff. exists (x, b). auto.
  - assert (sec_eqb e k0 s = true); [|congruence]. apply (coh_eqb e ss); auto. apply I. simpl. auto.
  - apply N1, in_map_iff. exists x. auto.
Qed.
Lemma dset_inv d s v : dinv d -> In s ss -> Q (sname s) v -> dinv (dset e d s v).
Proof.
  intros (D1 & D2 & D3) Hs Hq. split; [now apply dset_names|]. split.
  - intros x Hx. apply in_map_iff in Hx as ([x' b] & X & Hx). simpl in X. subst x'.
    apply dset_in in Hx as [Hx|(_ & [->|[Hx _]])]; auto. apply D2, in_map_iff. exists (x, b). auto.
  - intros k b H. apply dset_in in H as [H|(-> & [->|[_ ->]])]; auto.
Qed.
Lemma fold_inv l : (forall s b, In (s, b) l -> In s ss /\ Q (sname s) b) -> forall d, dinv d ->
  dinv (fold_left (fun o sb => dset e o (fst sb) (snd sb)) l d).
Proof.
  induction l as [|[s b] l IH]; simpl; auto. intros H d D. apply IH; [intros; apply H; auto|].
  destruct (H s b) as [H1 H2]; [auto|]. now apply dset_inv.
Qed.
End Dict.

Lemma dget_combine e ks : NoDup (map sname ks) -> forall (rs : list Z) j u v s,
  nth_error ks j = Some u -> nth_error rs j = Some v -> sname u = sname s -> e (sid u) = e (sid s) ->
  dget e (combine ks rs) s = Some v.
Proof.
  induction ks as [|k ks IH]; intros N rs j u v s H1 H2 H3 H4; [destruct j; discriminate|].
  destruct rs as [|r rs]; [destruct j; discriminate|]. simpl in *. inversion N as [|? ? N1 N2]; subst. destruct j; simpl in *.
  - injection H1 as <-. injection H2 as <-. rewrite (proj2 (sec_eqb_iff e k s)); auto.
  - destruct (sec_eqb e k s) eqn:E; [|eauto]. exfalso. apply sec_eqb_iff in E as [E _]. apply N1.
    rewrite E, <- H3. apply in_map. eapply nth_error_In; eauto.
Qed.

Section Z.
Context {W : World}.

Fixpoint vcom (K : bytes -> Z) (s : stmt) : val :=
  match s with
  | SDL d => VPt (lincomb (grp (dl_lhs d)) (map (fun x => K (sname x)) (dl_secs d)) (dl_bases d))
  | SAnd subs _ => VList (map (vcom K) subs)
  | SExt _ _ _ (Some con) => vcom K con
  | _ => VNone
  end.
Fixpoint vresp (R : bytes -> Z) (s : stmt) : val :=
  match s with
  | SDL d => VList (map VInt (map (fun x => R (sname x)) (dl_secs d)))
  | SAnd subs _ => VList (map (vresp R) subs)
  | SExt _ _ _ (Some con) => vresp R con
  | _ => VNone
  end.
Fixpoint scom (R : bytes -> Z) (c : Z) (s : stmt) : val :=
  match s with
  | SDL d => VPt (padd (lincomb (grp (dl_lhs d)) (map (fun x => R (sname x)) (dl_secs d)) (dl_bases d)) (pmul (- c) (dl_lhs d)))
  | SAnd subs _ => VList (map (scom R c) subs)
  | SExt _ _ _ (Some con) => scom R c con
  | _ => VNone
  end.

(** What is known about a leaf. *)
Definition leafok (w : bytes -> Z) (ord : bytes -> Z) (d : dlrep) : Prop :=
  let g := grp (dl_lhs d) in
  in_group g (dl_bases d) /\ dl_bases d <> [] /\ List.length (dl_secs d) = List.length (dl_bases d) /\
  dl_lhs d = lincomb g (map (fun s => w (sname s)) (dl_secs d)) (dl_bases d) /\
  (forall s, In s (dl_secs d) -> ord (sname s) = order g) /\
  forall s, In s (dl_secs d) -> forall e, dget e (dl_vals d) s = Some (w (sname s)).
Lemma dl_leafok w ord g d : dl_ok w g d -> ordOK ord (SDL d) -> leafok w ord d.
Proof.
  intros (A1 & A2 & A3 & A4 & A5) HO. assert (Eg : grp (dl_lhs d) = g) by (rewrite A4; now apply grp_lincomb).
  unfold leafok. rewrite Eg. repeat split; auto. intros s Hs. inversion HO as [? H1| | |]; subst.
  destruct (in_combine_l_ex (dl_secs d) (dl_bases d) s Hs A3) as (y & Hy).
  rewrite <- (H1 s y Hy). apply in_combine_r in Hy. unfold in_group in A1. rewrite Forall_forall in A1. now rewrite A1.
Qed.

Lemma commit_view w ord e s : forall p, Ready w s p -> noor s -> built s -> Checked e s -> ordOK ord s ->
  forall K dd, covers e dd K (svars s) -> exists p',
    (forall t n, internal_commit s p (Some dd) (mkSt e t n) = Ok ((vcom K s, p'), mkSt e t n)) /\
    forall c st, compute_response s p' c st = Ok (vresp (fun n => (w n * c + K n) mod ord n) s, st).
Proof.
  induction s as [d|subs b IH|subs b ch IH|k b q|k b q con IH] using stmt_ind';
    intros p HR NO HB CK HO K dd CV; inversion HR; subst.
  - change (svars (SDL d)) with (dl_secs d) in CV. match goal with X : dl_ok _ _ d |- _ => pose proof (dl_leafok _ _ _ _ X HO) as (A1 & A2 & A3 & A4 & A5 & A6) end.
    destruct (dl_bases d) as [|b0 bs] eqn:B; [tauto|].
    assert (Hg : grp (dl_lhs d) = grp b0) by (inversion A1; auto).
    exists (PDL (Some (map (fun s => K (sname s)) (dl_secs d)))). split.
    + intros t n. cbn [internal_commit]. unfold commit_dl. unfold bind at 1.
      rewrite (update_randomizers_covered _ _ dd K) by exact CV. unfold bind at 1, get_env. cbn [env]. unfold bind at 1.
      rewrite (rmap_dget _ _ _ _ CV). unfold lift at 1. cbv beta iota. rewrite B. unfold bind. cbn [vcom]. rewrite B.
      unfold lift. rewrite <- Hg, wsum_lincomb by auto. reflexivity.
    + intros c st. cbn [compute_response]. unfold respond_dl. rewrite B. unfold bind at 1, get_env. unfold bind at 1, lift.
      rewrite (rmap_respond _ _ w K) by auto. cbn [vresp]. unfold ret. do 4 f_equal. apply map_ext_in. intros x Hx.
      rewrite <- Hg. now rewrite A5.
  - match goal with X : Forall2 _ _ _ |- _ => rename X into F end.
    assert (N1 : Forall noor subs) by (inversion NO; auto). assert (N2 : Forall built subs) by (inversion HB; auto).
    assert (N3 : Forall (Checked e) subs) by (inversion CK; auto). assert (N4 : Forall (ordOK ord) subs) by (inversion HO; auto).
    assert (VA : validate_and e (SAnd subs b) = Ok tt) by (inversion CK; auto).
    assert (G : exists ps',
      (forall t n, zipM (fun s p => internal_commit s p (Some dd)) subs ps (mkSt e t n) = Ok (combine (map (vcom K) subs) ps', mkSt e t n)) /\
      List.length ps' = List.length subs /\
      forall c st, zipM (fun s p => compute_response s p c) subs ps' st = Ok (map (vresp (fun n => (w n * c + K n) mod ord n)) subs, st)).
    { assert (CV' : forall x, In x subs -> covers e dd K (svars x)).
      { intros x Hx. eapply covers_incl; [|exact CV]. now apply svars_sub. }
      clear HR NO HB CK HO CV VA.
      induction F as [|x p subs ps Hx F IHF].
      - exists []. repeat split; reflexivity.
      - inversion IH as [|? ? IH1 IH2]; inversion N1; inversion N2; inversion N3; inversion N4; subst.
        destruct (IH1 p Hx ltac:(auto) ltac:(auto) ltac:(auto) ltac:(auto) K dd ltac:(apply CV'; simpl; auto)) as (p' & P1 & P2).
        destruct IHF as (ps' & Q1 & Q2 & Q3); auto. { intros y Hy. apply CV'. simpl; auto. }
        exists (p' :: ps'). split; [|split; [simpl; auto|]].
        + intros t n. cbn [zipM]. unfold bind at 1. rewrite P1. unfold bind. rewrite Q1. reflexivity.
        + intros c st. cbn [zipM]. unfold bind at 1. rewrite P2. unfold bind. rewrite Q3. reflexivity. }
    destruct G as (ps' & G1 & G2 & G3). exists (PAnd ps'). split.
    + intros t n. rewrite internal_commit_and. unfold bind at 1, get_env. cbn [env].
      rewrite VA, bind_lift_ok. rewrite (built_svars _ HB). unfold bind at 1. rewrite (update_randomizers_covered _ _ dd K) by exact CV.
      unfold bind. rewrite G1. unfold ret. do 3 f_equal.
      * cbn [vcom]. f_equal. rewrite <- (map_length (vcom K) subs) in G2. clear -G2. revert ps' G2.
        generalize (map (vcom K) subs) as l. induction l; intros [|p ps']; simpl; intros; try discriminate; auto. f_equal; auto.
      * f_equal. rewrite <- (map_length (vcom K) subs) in G2. clear -G2. revert ps' G2.
        generalize (map (vcom K) subs) as l. induction l; intros [|p ps']; simpl; intros; try discriminate; auto. f_equal; auto.
    + intros c st. change (compute_response (SAnd subs b) (PAnd ps') c) with
        (let! l := zipM (fun s p => compute_response s p c) subs ps' in ret (VList l)).
      unfold bind. rewrite G3. reflexivity.
  - inversion NO.
  - inversion NO; inversion HB; inversion CK; inversion HO; subst.
    match goal with X : Ready w con _ |- _ => destruct (IH _ X) with (K := K) (dd := dd) as (p' & P1 & P2); auto end.
    exists (PExt sv (Some (Some p'))). split; [|exact P2].
    intros t n. cbn [internal_commit]. unfold bind. rewrite P1. reflexivity.
Qed.

Lemma sim_view_some w ord e c s : forall p, Ready w s p -> noor s -> built s -> ordOK ord s ->
  forall K dd, covers e dd K (svars s) -> exists pre, forall t n,
    simulate_proof s (Some dd) (Some c) (mkSt e t n) = Ok (mkSim (scom K c s) c (vresp K s) pre, mkSt e t n).
Proof.
  induction s as [d|subs b IH|subs b ch IH|k b q|k b q con IH] using stmt_ind';
    intros p HR NO HB HO K dd CV; inversion HR; subst.
  - change (svars (SDL d)) with (dl_secs d) in CV. match goal with X : dl_ok _ _ d |- _ => pose proof (dl_leafok _ _ _ _ X HO) as (A1 & A2 & A3 & A4 & A5 & A6) end.
    exists VNone. intros t n. cbn [simulate_proof]. unfold simulate_dl. unfold bind at 1.
    rewrite (update_randomizers_covered _ _ dd K) by exact CV. unfold bind at 1. simpl or_draw. unfold ret at 1.
    unfold bind at 1, get_env. cbn [env]. unfold bind at 1. rewrite (rmap_dget _ _ _ _ CV). unfold lift at 1. cbv beta iota.
    unfold recompute_dl. cbv [as_iter]. cbn [rbind]. rewrite wsum_v_ints, (wsum_lincomb _ _ _ A1). cbn [rbind].
    unfold padd_chk. rewrite grp_mul, (grp_lincomb (grp (dl_lhs d))) by auto. rewrite gid_eqb_refl. reflexivity.
  - match goal with X : Forall2 _ _ _ |- _ => rename X into F end.
    assert (N1 : Forall noor subs) by (inversion NO; auto). assert (N2 : Forall built subs) by (inversion HB; auto).
    assert (N4 : Forall (ordOK ord) subs) by (inversion HO; auto).
    assert (G : exists pres, List.length pres = List.length subs /\
      (forall t n, mapM (fun s => simulate_proof s (Some dd) (Some c)) subs (mkSt e t n) =
        Ok (map (fun sp => mkSim (scom K c (fst sp)) c (vresp K (fst sp)) (snd sp)) (combine subs pres), mkSt e t n))).
    { assert (CV' : forall x, In x subs -> covers e dd K (svars x)).
      { intros x Hx. eapply covers_incl; [|exact CV]. now apply svars_sub. }
      clear HR NO HB HO CV.
      induction F as [|x p subs ps Hx F IHF].
      - exists []. repeat split; reflexivity.
      - inversion IH as [|? ? IH1 IH2]; inversion N1; inversion N2; inversion N4; subst.
        destruct (IH1 p Hx ltac:(auto) ltac:(auto) ltac:(auto) K dd ltac:(apply CV'; simpl; auto)) as (p' & P1).
        destruct IHF as (ps' & Q1 & Q2); auto. { intros y Hy. apply CV'. simpl; auto. }
        exists (p' :: ps'). split; [simpl; auto|].
        intros t n. cbn [mapM]. unfold bind at 1. rewrite P1. unfold bind. rewrite Q2. reflexivity. }
    destruct G as (ps' & G1 & G2). exists (VList (map snd (combine subs ps'))).
    intros t n. rewrite simulate_and. rewrite (built_svars _ HB). unfold bind at 1.
    rewrite (update_randomizers_covered _ _ dd K) by exact CV. unfold bind at 1. simpl or_draw. unfold ret at 1.
    unfold bind. rewrite G2. unfold ret. cbn [scom vresp]. rewrite !map_map. cbn [t_com t_resp t_pre].
    assert (E : forall f : stmt -> val, map (fun sp : stmt * val => f (fst sp)) (combine subs ps') = map f subs).
    { intros f. clear -G1. revert ps' G1. induction subs; intros [|p ps']; simpl; intros; try discriminate; auto. f_equal; auto. }
    rewrite (E (scom K c)), (E (vresp K)). reflexivity.
  - inversion NO.
  - inversion NO; inversion HB; inversion HO; subst.
    match goal with X : Ready w con _ |- _ => destruct (IH _ X) with (K := K) (dd := dd) as (p' & P1); auto end.
    exists q. intros t n. cbn [simulate_proof]. unfold bind. rewrite P1. reflexivity.
Qed.

(** One conversation is determined by the response map. *)
Lemma vresp_ext R R' s : (forall x, In x (svars s) -> R (sname x) = R' (sname x)) -> vresp R s = vresp R' s.
Proof.
  induction s as [d|subs b IH|subs b ch IH|k b q|k b q con IH] using stmt_ind'; simpl; intros E; auto.
  - do 2 f_equal. apply map_ext_in. auto.
  - f_equal. apply map_ext_in. intros x Hx. rewrite Forall_forall in IH. apply IH; auto.
    intros y Hy. apply E. apply in_concat. exists (svars x). split; auto. now apply in_map.
Qed.
Lemma scom_ext R R' c s : (forall x, In x (svars s) -> R (sname x) = R' (sname x)) -> scom R c s = scom R' c s.
Proof.
  induction s as [d|subs b IH|subs b ch IH|k b q|k b q con IH] using stmt_ind'; simpl; intros E; auto.
  - do 3 f_equal. apply map_ext_in. auto.
  - f_equal. apply map_ext_in. intros x Hx. rewrite Forall_forall in IH. apply IH; auto.
    intros y Hy. apply E. apply in_concat. exists (svars x). split; auto. now apply in_map.
Qed.
Lemma vresp_inj R R' s : noor s -> vresp R s = vresp R' s -> forall x, In x (svars s) -> R (sname x) = R' (sname x).
Proof.
  induction s as [d|subs b IH|subs b ch IH|k b q|k b q con IH] using stmt_ind'; intros NO E x Hx; inversion NO; subst.
  - simpl in E, Hx. injection E as E. apply map_VInt_inj in E. exact (map_eq_in _ _ _ E x Hx).
  - simpl in E, Hx. injection E as E. apply in_concat in Hx as (l & Hl & Hx). apply in_map_iff in Hl as (y & <- & Hy).
    rewrite Forall_forall in *. apply (IH y Hy); auto. exact (map_eq_in _ _ _ E y Hy).
  - simpl in E, Hx. auto.
Qed.
Lemma scom_vcom w ord c K s : forall p, Ready w s p -> noor s -> ordOK ord s ->
  scom (fun n => (w n * c + K n) mod ord n) c s = vcom K s.
Proof.
  induction s as [d|subs b IH|subs b ch IH|k b q|k b q con IH] using stmt_ind';
    intros p HR NO HO; inversion HR; inversion NO; subst.
  - match goal with X : dl_ok _ _ d |- _ => pose proof (dl_leafok _ _ _ _ X HO) as (A1 & A2 & A3 & A4 & A5 & A6) end.
    cbn [scom vcom]. f_equal. set (g1 := grp (dl_lhs d)) in *.
    pose proof (lincomb_response g1 (dl_bases d) c A1 (map (fun s => w (sname s)) (dl_secs d)) (map (fun s => K (sname s)) (dl_secs d))) as R.
    rewrite !map_length in R. specialize (R A3 A3). rewrite <- R, <- A4. f_equal. f_equal.
    rewrite (combine_maps (fun s => w (sname s)) (fun s => K (sname s)) (fun a b => (a * c + b) mod order g1)).
    apply map_ext_in. intros x Hx. now rewrite A5.
  - assert (N1 : Forall noor subs) by (inversion NO; auto). assert (N4 : Forall (ordOK ord) subs) by (inversion HO; auto).
    cbn [scom vcom]. f_equal. match goal with X : Forall2 _ _ _ |- _ => rename X into F end. clear HR NO HO.
    apply map_ext_in. intros x Hx. rewrite Forall_forall in IH, N1, N4.
    apply In_nth_error in Hx as (i & Hi). apply Forall2_nth in F as [FL F].
    destruct (nth_error ps i) as [p|] eqn:Ep.
    + eapply IH; eauto using nth_error_In.
    + apply nth_error_None in Ep. assert (i < List.length subs)%nat by (apply nth_error_Some; congruence). lia.
  - inversion HO; subst. cbn [scom vcom]. eauto.
Qed.

Lemma ordOK_pairs ord s : noor s -> wfs s -> ordOK ord s -> forall bs, get_bases s = Ok bs -> pairs_ok ord (svars s) bs.
Proof.
  induction s as [d|subs b IH|subs b ch IH|k b q|k b q con IH] using stmt_ind'; intros NO HW HO bs EB; inversion NO; subst.
  - simpl in *. injection EB as <-. inversion HO; subst. intros x y Hxy. eauto.
  - assert (N1 : Forall noor subs) by (inversion NO; auto). assert (N2 : Forall wfs subs) by (inversion HW; auto).
    assert (N4 : Forall (ordOK ord) subs) by (inversion HO; auto).
    simpl in EB. minvs. apply rmap_ok in E. simpl svars. clear NO HW HO H0.
    induction E as [|x y l m X E0 IHE]; simpl; [intros ? ? []|].
    inversion IH as [|? ? IH1 IH2]; inversion N1; inversion N2; inversion N4; subst.
    intros u v Huv. rewrite combine_app in Huv by (apply get_bases_length; auto).
    apply in_app_iff in Huv as [Huv|Huv]; [eapply IH1; eauto|eapply IHE; eauto].
  - inversion HW; inversion HO; subst. simpl in *. auto.
Qed.
Lemma dget_key {A} e (d : dict A) x v : dget e d x = Some v -> exists k, In (k, v) d /\ sname k = sname x.
Proof.
  induction d as [|[k w] d IH]; simpl; [discriminate|]. destruct (sec_eqb e k x) eqn:E.
  - intros H. injection H as <-. exists k. apply sec_eqb_iff in E. tauto.
  - intros H. destruct (IH H) as (k' & H1 & H2). eauto.
Qed.
Lemma nth_combine_seq {A} (l : list A) : forall n j x, nth_error l j = Some x ->
  nth_error (combine (seq n (List.length l)) l) j = Some ((n + j)%nat, x).
Proof.
  induction l as [|y l IH]; intros n [|j] x H; simpl in *; try discriminate.
  - injection H as <-. now rewrite Nat.add_0_r.
  - rewrite (IH (S n) j x H). do 2 f_equal. lia.
Qed.
(** The dictionary drawn by the root. *)
Lemma root_draw w e ord s : forall p, Ready w s p -> noor s -> wfs s -> built s -> coh e (svars s) -> ordOK ord s ->
  exists ks, NoDup (map sname ks) /\ incl ks (svars s) /\ (forall x, In x (svars s) -> In (sname x) (map sname ks)) /\
  forall t, exists dd, covers e dd (fun n => t (npos n (map sname ks)) mod ord n) (svars s) /\
    (forall c, simulate_proof s None (Some c) (mkSt e t 0) = simulate_proof s (Some dd) (Some c) (mkSt e t (List.length ks))) /\
    internal_commit s p None (mkSt e t 0) = internal_commit s p (Some dd) (mkSt e t (List.length ks)).
Proof.
  induction s as [d|subs b IH|subs b ch IH|k b q|k b q con IH] using stmt_ind';
    intros p HR NO HW HB C HO; inversion HR; subst.
  - match goal with X : dl_ok _ _ d |- _ => pose proof (dl_leafok _ _ _ _ X HO) as (A1 & A2 & A3 & A4 & A5 & A6) end.
    destruct (dl_bases d) as [|b0 bs] eqn:B; [tauto|].
    assert (Hg : grp (dl_lhs d) = grp b0) by (inversion A1; auto).
    exists (sec_set e (dl_secs d)). split; [now apply sec_set_nodup|]. split; [apply sec_set_incl|].
    split; [intros x Hx; now apply sec_set_names|]. intros t.
    destruct (randomizers_run d b0 bs e t 0 B C) as (dd & E1 & E2). exists dd. simpl svars.
    assert (E3 : covers e dd (fun n => t (npos n (map sname (sec_set e (dl_secs d)))) mod ord n) (dl_secs d)).
    { intros x Hx. rewrite (E2 x Hx). rewrite A5 by auto. now rewrite Hg. }
    split; [exact E3|]. split; [intros c; cbn [simulate_proof]; unfold simulate_dl|cbn [internal_commit]; unfold commit_dl];
      rewrite update_randomizers_none; unfold bind at 1; rewrite E1; symmetry; unfold bind at 1;
      rewrite (update_randomizers_covered _ _ dd _ (mkSt e t _) E3); reflexivity.
  - destruct (built_bases _ HB) as (bs & EB). pose proof (built_svars _ HB) as ES. set (s := SAnd subs b) in *.
    pose proof (get_bases_length s HW bs EB) as L.
    set (D := fold_left (fun o sb => dset e o (fst sb) (snd sb)) (combine (svars s) bs) []).
    assert (I : dinv (svars s) (fun n b => order (grp b) = ord n) D).
    { apply fold_inv; auto.
      - intros x y Hxy. split; [eapply in_combine_l; eauto|].
        apply (ordOK_pairs ord s) with (bs := bs); auto.
      - split; [constructor|]. split; [intros x []|intros ? ? []]. }
    destruct I as (I1 & I2 & I3). exists (map fst D). split; [auto|]. split; [auto|].
    assert (I4 : forall x, In x (svars s) -> In (sname x) (map sname (map fst D))).
    { intros x Hx. destruct (in_combine_l_ex (svars s) bs x Hx L) as (y & Hy).
      assert (M : dmem e D x = true) by (apply dmem_fold; right; exists x, y; split; [auto|apply sec_eqb_refl]).
      unfold dmem in M. destruct (dget e D x) as [v|] eqn:G; [|discriminate].
      apply dget_key in G as (k & G1 & <-). apply in_map, in_map_iff. exists (k, v). auto. }
    split; [auto|]. intros t.
    exists (combine (map fst D) (map (fun jx => t (fst jx) mod order (grp (snd (snd jx)))) (combine (seq 0 (List.length D)) D))).
    set (dd := combine (map fst D) _).
    assert (ER : randomizers_and s (mkSt e t 0) = Ok (dd, mkSt e t (List.length (map fst D)))).
    { unfold randomizers_and. rewrite ES, EB. rewrite !bind_lift_ok. unfold bind at 1, get_env. cbn [env]. fold D.
      unfold bind. rewrite (mapM_draws (fun sb : secret * pt => order (grp (snd sb)))). rewrite map_length. reflexivity. }
    assert (E3 : covers e dd (fun n => t (npos n (map sname (map fst D))) mod ord n) (svars s)).
    { intros x Hx. destruct (npos_in _ _ (I4 x Hx)) as [J1 J2]. set (j := npos (sname x) _) in *.
      rewrite !map_length in J1. destruct (nth_error D j) as [[k v]|] eqn:Nj; [|apply nth_error_None in Nj; lia].
      assert (K1 : nth_error (map fst D) j = Some k) by now apply (map_nth_error fst _ _ Nj).
      assert (K2 : sname k = sname x) by (rewrite (map_nth_error sname _ _ K1) in J2; congruence).
      apply (dget_combine e (map fst D) I1 _ j k); auto.
      - cbv beta. fold j. replace (ord (sname x)) with (order (grp v)) by (rewrite <- K2; apply I3; eapply nth_error_In; eauto).
        exact (map_nth_error (fun jx => t (fst jx) mod order (grp (snd (snd jx)))) _ _ (nth_combine_seq D 0 j _ Nj)).
      - apply C; auto. apply I2. eapply nth_error_In; eauto. }
    split; [exact E3|]. split.
    + intros c. unfold s. rewrite !simulate_and. fold s. rewrite ES, update_randomizers_none. unfold bind at 1. rewrite ER.
      symmetry. unfold bind at 1. rewrite (update_randomizers_covered _ _ dd _ (mkSt e t _) E3). reflexivity.
    + unfold s. rewrite !internal_commit_and. fold s. unfold bind at 1, get_env. cbn [env]. symmetry. unfold bind at 1, get_env. cbn [env].
      unfold bind at 1, lift. symmetry. unfold bind at 1. destruct (validate_and e s) as [[]|]; [|reflexivity].
      rewrite ES, update_randomizers_none. unfold bind at 1. rewrite ER.
      symmetry. unfold bind at 1. rewrite (update_randomizers_covered _ _ dd _ (mkSt e t _) E3). reflexivity.
  - inversion NO.
  - inversion NO; inversion HW; inversion HB; inversion HO; subst.
    match goal with X : Ready w con _ |- _ => destruct (IH _ X) as (ks & K1 & K2 & K3 & K4); auto end.
    exists ks. split; [auto|]. split; [exact K2|]. split; [exact K3|]. intros t.
    destruct (K4 t) as (dd & D1 & D2 & D3). exists dd. split; [exact D1|]. split.
    + intros c. cbn [simulate_proof]. unfold bind. now rewrite D2.
    + cbn [internal_commit]. unfold bind. now rewrite D3.
Qed.

(** A successful commit passed the checks. *)
Lemma commit_checked w s : forall p rd st x st', Ready w s p -> noor s -> internal_commit s p rd st = Ok (x, st') ->
  Checked (env st) s.
Proof.
  induction s as [d|subs b IH|subs b ch IH|k b q|k b q con IH] using stmt_ind'; intros p rd st x st' HR NO H; inversion HR; subst.
  - constructor.
  - rewrite internal_commit_and in H. minvs. destruct a0. constructor; [auto|].
    match goal with X : Forall2 _ _ _ |- _ => rename X into F end.
    assert (N1 : Forall noor subs) by (inversion NO; auto).
    assert (K : env s1 = env s).
    { eapply keeps_update_randomizers; [|exact E1]. apply keeps_randomizers_and. }
    rewrite Forall_forall in *. intros y Hy. apply In_nth_error in Hy as (i & Hi). apply Forall2_nth in F as [FL F].
    destruct (nth_error ps i) as [p|] eqn:Ep.
    2:{ apply nth_error_None in Ep. assert (i < List.length subs)%nat by (apply nth_error_Some; congruence). lia. }
    destruct (zipM_nth _ _ _ _ _ _ E2 ltac:(intros; apply keeps_internal_commit) i y p Hi Ep) as (z & a & b' & Z1 & Z2 & Z3).
    replace (env s) with (env a) by congruence. eapply IH; eauto using nth_error_In.
  - inversion NO.
  - inversion NO; subst. cbn [internal_commit] in H. minvs. constructor. eauto.
Qed.
Lemma commit_ordOK w s : forall p st x st', Ready w s p -> noor s -> wfs s -> built s -> coh (env st) (svars s) ->
  internal_commit s p None st = Ok (x, st') -> exists ord, ordOK ord s.
Proof.
  induction s as [d|subs b IH|subs b ch IH|k b q|k b q con IH] using stmt_ind'; intros p st x st' HR NO HW HB C H; inversion HR; subst.
  - match goal with X : dl_ok _ _ d |- _ => destruct X as (A1 & _) end. exists (fun _ => order g). constructor. intros y z Hyz.
    apply in_combine_r in Hyz. unfold in_group in A1. rewrite Forall_forall in A1. now rewrite A1.
  - rewrite internal_commit_and in H. minvs. unfold validate_and in E0. minvs. destruct a. eapply vgo_ordOK; eauto.
  - inversion NO.
  - inversion NO; inversion HW; inversion HB; subst. cbn [internal_commit] in H. minvs.
    edestruct IH as (ord & HO); eauto.
    exists ord. now constructor.
Qed.

Lemma ordOK_pos w ord s p : Ready w s p -> noor s -> ordOK ord s -> forall x, In x (svars s) -> 1 < ord (sname x).
Proof.
  revert p. induction s as [d|subs b IH|subs b ch IH|k b q|k b q con IH] using stmt_ind'; intros p HR NO HO x Hx; inversion HR; subst.
  - match goal with X : dl_ok _ _ d |- _ => pose proof (dl_leafok _ _ _ _ X HO) as (A1 & A2 & A3 & A4 & A5 & A6) end.
    rewrite A5 by auto. apply order_gt1.
  - match goal with X : Forall2 _ _ _ |- _ => rename X into F end. apply Forall2_nth in F as [FL F].
    assert (N1 : Forall noor subs) by (inversion NO; auto). assert (N4 : Forall (ordOK ord) subs) by (inversion HO; auto).
    simpl in Hx. apply in_concat in Hx as (l & Hl & Hx). apply in_map_iff in Hl as (y & <- & Hy).
    rewrite Forall_forall in *. apply In_nth_error in Hy as (i & Hi).
    destruct (nth_error ps i) as [p|] eqn:Ep; [eapply IH; eauto using nth_error_In|].
    apply nth_error_None in Ep. assert (i < List.length subs)%nat by (apply nth_error_Some; congruence). lia.
  - inversion NO.
  - inversion NO; inversion HO; subst. eauto.
Qed.

Lemma hvzk_ready w e s p c : Ready w s p -> noor s -> wfs s -> built s -> coh e (svars s) ->
  (exists st x st', env st = e /\ internal_commit s p None st = Ok (x, st')) ->
  exists (n : nat) (q : nat -> Z) (to of : (nat -> Z) -> nat -> Z),
    (forall j, (j < n)%nat -> 1 < q j) /\
    (forall t, exists com r, outcome (honest_view s p c) e t = Ok (com, r)) /\
    (forall t, outcome (honest_view s p c) e t = outcome (sim_view s c) e (to t)) /\
    (forall t, outcome (sim_view s c) e t = outcome (honest_view s p c) e (of t)) /\
    (forall t t', outcome (honest_view s p c) e t = outcome (honest_view s p c) e t' <-> forall j, (j < n)%nat -> (q j | t j - t' j)) /\
    (forall t t', outcome (sim_view s c) e t = outcome (sim_view s c) e t' <-> forall j, (j < n)%nat -> (q j | t j - t' j)).
Proof.
  intros HR NO HW HB C (st & x & st' & Es & H).
  assert (CK : Checked e s) by (rewrite <- Es; eapply commit_checked; eauto).
  destruct (commit_ordOK w s p st x st') as (ord & HO); auto; [now rewrite Es|].
  destruct (root_draw w e ord s p HR NO HW HB C HO) as (ks & K1 & K2 & K3 & K4).
  set (ns := map sname ks) in *.
  set (name := fun j => nth j ns nil).
  assert (NM : forall y, In y (svars s) -> name (npos (sname y) ns) = sname y).
  { intros y Hy. destruct (npos_in _ _ (K3 y Hy)) as [_ N]. unfold name. now apply nth_error_nth. }
  assert (LT : forall y, In y (svars s) -> (npos (sname y) ns < List.length ns)%nat).
  { intros y Hy. now destruct (npos_in _ _ (K3 y Hy)). }
  assert (ON : forall j, (j < List.length ns)%nat -> exists y, In y (svars s) /\ npos (sname y) ns = j).
  { intros j Hj. destruct (nth_error ks j) as [y|] eqn:Ey; [|apply nth_error_None in Ey; unfold ns in Hj; rewrite map_length in Hj; lia].
    exists y. split; [apply K2; eapply nth_error_In; eauto|]. apply npos_nth; auto. now apply map_nth_error. }
  assert (PO : forall y, In y (svars s) -> ord (sname y) <> 0).
  { intros y Hy. pose proof (ordOK_pos w ord s p HR NO HO y Hy). lia. }
  set (KK := fun (t : nat -> Z) n => t (npos n ns) mod ord n).
  assert (HV : forall t, outcome (honest_view s p c) e t =
    Ok (vcom (KK t) s, vresp (fun n => (w n * c + KK t n) mod ord n) s)).
  { intros t. destruct (K4 t) as (dd & D1 & _ & D3).
    destruct (commit_view w ord e s p HR NO HB CK HO _ dd D1) as (p' & P1 & P2).
    unfold outcome, honest_view. unfold bind at 1. rewrite D3, P1. cbn [fst snd]. unfold bind. rewrite P2. reflexivity. }
  assert (SV : forall t, outcome (sim_view s c) e t = Ok (scom (KK t) c s, vresp (KK t) s)).
  { intros t. destruct (K4 t) as (dd & D1 & D2 & _).
    destruct (sim_view_some w ord e c s p HR NO HB HO _ dd D1) as (pre & P1).
    unfold outcome, sim_view. unfold bind. rewrite D2, P1. reflexivity. }
  assert (SH : forall t, outcome (sim_view s c) e (fun j => w (name j) * c + t j) = outcome (honest_view s p c) e t).
  { intros t. rewrite HV, SV.
    assert (E : forall y, In y (svars s) -> KK (fun j => w (name j) * c + t j) (sname y) = (w (sname y) * c + KK t (sname y)) mod ord (sname y)).
    { intros y Hy. unfold KK. rewrite NM by auto. now rewrite Zplus_mod_idemp_r. }
    rewrite (scom_ext _ (fun n => (w n * c + KK t n) mod ord n)) by exact E.
    rewrite (vresp_ext _ (fun n => (w n * c + KK t n) mod ord n)) by exact E.
    now rewrite (scom_vcom w ord c (KK t) s p HR NO HO). }
  assert (EX : forall t t', (forall j, t j = t' j) -> outcome (sim_view s c) e t = outcome (sim_view s c) e t').
  { intros t t' E. rewrite !SV. rewrite (scom_ext (KK t) (KK t')), (vresp_ext (KK t) (KK t')); auto; intros; unfold KK; now rewrite E. }
  assert (SE : forall t t', outcome (sim_view s c) e t = outcome (sim_view s c) e t' <->
    forall j, (j < List.length ns)%nat -> (ord (name j) | t j - t' j)).
  { intros t t'. rewrite !SV. split.
    - intros E j Hj. destruct (ON j Hj) as (y & Hy & <-). injection E as _ E.
      pose proof (vresp_inj _ _ s NO E y Hy) as R. unfold KK in R. rewrite NM by auto. apply mod_eq_div; auto.
    - intros D. assert (E : forall y, In y (svars s) -> KK t (sname y) = KK t' (sname y)).
      { intros y Hy. unfold KK. apply mod_eq_div; [auto|]. pose proof (D _ (LT y Hy)) as X. now rewrite NM in X. }
      now rewrite (scom_ext (KK t) (KK t')), (vresp_ext (KK t) (KK t')). }
  exists (List.length ns), (fun j => ord (name j)), (fun t j => w (name j) * c + t j), (fun t j => t j - w (name j) * c).
  split; [|split; [|split; [|split; [|split]]]].
  - intros j Hj. destruct (ON j Hj) as (y & Hy & <-). rewrite NM by auto. eapply ordOK_pos; eauto.
  - intros t. rewrite HV. eauto.
  - intros t. symmetry. apply SH.
  - intros t. rewrite <- SH. apply EX. intros j. ring.
  - intros t t'. rewrite <- !SH, SE. split; intros D j Hj; specialize (D j Hj).
    + now replace (t j - t' j) with (w (name j) * c + t j - (w (name j) * c + t' j)) by ring.
    + now replace (w (name j) * c + t j - (w (name j) * c + t' j)) with (t j - t' j) by ring.
  - apply SE.
Qed.

Lemma hvzk_conj U w s0 sd a0 p0 s1 a1 pre p s a2 x a3 c :
  honest U w s0 sd (env a0) -> get_prover s0 sd a0 = Ok ((Some p0, s1), a1) ->
  precommit s1 p0 a1 = Ok ((pre, p, s), a2) -> internal_commit s p None a2 = Ok (x, a3) -> noor s ->
  let e := env a2 in
  exists (n : nat) (q : nat -> Z) (to of : (nat -> Z) -> nat -> Z),
    (forall j, (j < n)%nat -> 1 < q j) /\
    (forall t, exists com r, outcome (honest_view s p c) e t = Ok (com, r)) /\
    (forall t, outcome (honest_view s p c) e t = outcome (sim_view s c) e (to t)) /\
    (forall t, outcome (sim_view s c) e t = outcome (honest_view s p c) e (of t)) /\
    (forall t t', outcome (honest_view s p c) e t = outcome (honest_view s p c) e t' <-> forall j, (j < n)%nat -> (q j | t j - t' j)) /\
    (forall t t', outcome (sim_view s c) e t = outcome (sim_view s c) e t' <-> forall j, (j < n)%nat -> (q j | t j - t' j)).
Proof.
  intros HH GP PC IC NO e. destruct (honest_ready _ _ _ _ _ _ _ _ _ _ _ _ HH GP PC) as (w' & L & HL & _ & PS & PO & RD).
  destruct PO as (P1 & P2 & P3 & P4 & P5 & P6 & P7 & P8). destruct x as [com p'].
  assert (R : Ready w' s p) by (apply RD; left; eauto).
  apply (hvzk_ready w' e s p c); auto.
  - apply wfL_coh. eapply wfL_incl; eauto.
  - exists a2, (com, p'), a3. auto.
Qed.
End Z.

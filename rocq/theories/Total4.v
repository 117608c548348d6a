(** Proving does not fail for well-typed true statements whose secrets are supplied. *)
From Coq Require Import String.
From Verif Require Import Base World Val Expr Utils Stmt Prove Verify Spec Shapes Claims Lib Lin DictProofs Keeps Tree Sigma
  Validate Commit ArithProofs Build Process Ktruth Provers Honest Complete Clauses Compose Supply Total Total2 Total3.
Open Scope Z_scope.
Open Scope list_scope.

Lemma mapM_total_q {A B} (f : A -> M B) (I : st -> Prop) (Q : A -> B -> st -> Prop) l :
  (forall x a, In x l -> I a -> exists y b, f x a = Ok (y, b) /\ I b /\ Q x y b /\ mono (env a) (env b)) ->
  (forall x y a b, Q x y a -> mono (env a) (env b) -> Q x y b) -> forall s, I s ->
  exists ys s', mapM f l s = Ok (ys, s') /\ I s' /\ Forall2 (fun x y => Q x y s') l ys /\ mono (env s) (env s').
Proof.
  intros H HQ. induction l as [|x l IH]; intros s Hs.
  - exists [], s. repeat split; auto; try constructor. apply mono_refl.
  - destruct (H x s (or_introl eq_refl) Hs) as (y & b & E & Ib & Qb & Mb).
    destruct IH with (s := b) as (ys & s' & E' & I' & F & M'); auto.
    { intros z a Hz. apply H. now right. }
    exists (y :: ys), s'. split; [cbn [mapM]; unfold bind; rewrite E, E'; reflexivity|].
    split; auto. split; [|eapply mono_trans; eauto]. constructor; eauto.
Qed.
Lemma zipM_total_q {A B C} (f : A -> B -> M C) (I : st -> Prop) (Q : A -> B -> C -> Prop) l : forall m s, I s ->
  (forall x y a, In (x, y) (combine l m) -> I a -> exists z b, f x y a = Ok (z, b) /\ I b /\ Q x y z /\ mono (env a) (env b)) ->
  exists zs s', zipM f l m s = Ok (zs, s') /\ I s' /\ Forall (fun z => exists x y, Q x y z) zs /\ mono (env s) (env s').
Proof.
  induction l as [|x l IH]; intros [|y m] s Hs H; simpl; try (exists [], s; repeat split; auto; apply mono_refl).
  destruct (H x y s) as (z & b & E & Ib & Qb & Mb); [now left|auto|].
  destruct (IH m b) as (zs & s' & E' & I' & F & M'); auto.
  { intros x' y' a Hz. apply H. now right. }
  exists (z :: zs), s'. split; [unfold bind; rewrite E, E'; reflexivity|].
  split; auto. split; [|eapply mono_trans; eauto]. constructor; eauto.
Qed.

Lemma remove_length_lt i (l : list nat) : In i l -> (List.length (remove Nat.eq_dec i l) < List.length l)%nat.
Proof.
  induction l as [|a l IH]; simpl; [tauto|]. intros H. destruct (Nat.eq_dec i a) as [->|N].
  - assert (X := remove_length_le Nat.eq_dec l a). lia.
  - simpl. destruct H as [H|H]; [congruence|]. apply IH in H. lia.
Qed.

Section T.
Context {W : World}.

Lemma Shape_pstrip s : Shape (pstrip s) <-> Shape s.
Proof.
  induction s as [d|subs b IH|subs b c IH|k b q|k b q con IH] using stmt_ind'; simpl.
  - split; intros H; inversion H; subst; now constructor.
  - assert (F : Forall Shape (map pstrip subs) <-> Forall Shape subs).
    { rewrite Forall_map, !Forall_forall. rewrite Forall_forall in IH. split; intros H x Hx; apply IH; auto. }
    split; intros H; inversion H; subst; constructor; tauto.
  - assert (F : Forall Shape (map pstrip subs) <-> Forall Shape subs).
    { rewrite Forall_map, !Forall_forall. rewrite Forall_forall in IH. split; intros H x Hx; apply IH; auto. }
    split; intros H; inversion H; subst; constructor; try tauto.
    + intros ->. now apply H2.
    + destruct subs; [tauto|discriminate].
  - split; intros H; inversion H; subst; now constructor.
  - split; intros H; inversion H; subst; now constructor.
Qed.
Lemma Shape_same_list a b : map pstrip a = map pstrip b -> Forall Shape a -> Forall Shape b.
Proof.
  intros E H. assert (F : Forall Shape (map pstrip b)).
  { rewrite <- E. apply Forall_map. eapply Forall_impl; [|exact H]. intros x Hx. now apply Shape_pstrip. }
  rewrite Forall_map in F. eapply Forall_impl; [|exact F]. intros x Hx. now apply Shape_pstrip.
Qed.
Lemma Typ_Shape s : Typ s -> noext s -> Shape s.
Proof.
  induction s as [d|subs b IH|subs b c IH|k b q|k b q con IH] using stmt_ind'; intros T N; inversion T; inversion N; subst.
  - now constructor.
  - constructor. rewrite Forall_forall in *. auto.
  - constructor; auto. rewrite Forall_forall in *. auto.
Qed.
Lemma kinds_concat x subs k : In x subs -> In k (kinds x) -> In k (List.concat (map kinds subs)).
Proof. intros Hx Hk. apply in_concat. exists (kinds x). split; auto. now apply in_map. Qed.
Lemma Shape_kinds s : Shape s -> Forall kshape (kinds s).
Proof.
  induction s as [d|subs b IH|subs b c IH|k b q|k b q con IH] using stmt_ind'; intros H; inversion H; subst; simpl.
  - constructor.
  - apply Forall_concat, Forall_map. rewrite Forall_forall in *. auto.
  - apply Forall_concat, Forall_map. rewrite Forall_forall in *. auto.
  - repeat constructor; auto.
  - repeat constructor; auto.
Qed.

(** Simulated branches. *)
Lemma prepare_total s : forall st, Shape s -> Forall notcustom (kinds s) -> Forall (vkOK (env st)) (kinds s) ->
  exists s' st', prepare_sim s st = Ok (s', st') /\ env st' = env st /\ Typ s'.
Proof.
  assert (G : forall subs st, Forall (fun s => forall st, Shape s -> Forall notcustom (kinds s) ->
      Forall (vkOK (env st)) (kinds s) -> exists s' st', prepare_sim s st = Ok (s', st') /\ env st' = env st /\ Typ s') subs ->
    Forall Shape subs -> Forall notcustom (List.concat (map kinds subs)) -> Forall (vkOK (env st)) (List.concat (map kinds subs)) ->
    exists l st', mapM prepare_sim subs st = Ok (l, st') /\ env st' = env st /\ Forall Typ l /\ List.length l = List.length subs).
  { induction subs as [|x subs IHs]; intros st IH HS HN HV; [exists [], st; repeat split; auto|].
    simpl in HN, HV. apply Forall_app in HN as [N1 N2]. apply Forall_app in HV as [V1 V2].
    apply Forall_cons_iff in IH as [IH1 IH2]. apply Forall_cons_iff in HS as [S1 S2].
    destruct (IH1 st S1 N1 V1) as (x' & s1 & E1 & Ee & T1).
    rewrite <- Ee in V2. destruct (IHs s1 IH2 S2 N2 V2) as (l & s2 & E2 & Ee2 & T2 & LL).
    exists (x' :: l), s2. split; [cbn [mapM]; unfold bind; rewrite E1, E2; reflexivity|].
    split; [congruence|]. split; [constructor; auto|simpl; auto]. }
  assert (X : forall k b q con st, Shape (SExt k b q con) -> Forall notcustom (kinds (SExt k b q con)) ->
      Forall (vkOK (env st)) (kinds (SExt k b q con)) ->
      exists s' st', prepare_sim (SExt k b q con) st = Ok (s', st') /\ env st' = env st /\ Typ s').
  { intros k b q con st HS HN HV. simpl in HN, HV. apply Forall_cons_iff in HN as [N _]. apply Forall_cons_iff in HV as [V _].
    inversion HS; subst. destruct (ksim_total k st) as (pre & st1 & c & E & C & T); auto.
    assert (env st1 = env st) by (eapply keeps_ksim_precommit; eauto).
    exists (SExt k b pre (Some c)), st1. split; [|split; auto; now constructor].
    cbn [prepare_sim]. unfold bind at 1. rewrite E. unfold full_construct, bind. rewrite C. reflexivity. }
  induction s as [d|subs b IH|subs b c IH|k b q|k b q con IH] using stmt_ind'; intros st HS HN HV; auto.
  - inversion HS; subst. exists (SDL d), st. split; [reflexivity|]. split; auto. now constructor.
  - inversion HS; subst. destruct (G subs st) as (l & st' & E & Ee & T & _); auto.
    exists (SAnd l b), st'. split; [cbn [prepare_sim]; unfold bind; rewrite E; reflexivity|]. split; auto. now constructor.
  - inversion HS; subst. destruct (G subs st) as (l & st' & E & Ee & T & LL); auto.
    exists (SOr l b c), st'. split; [cbn [prepare_sim]; unfold bind; rewrite E; reflexivity|]. split; auto. constructor; auto.
    intros ->. destruct subs; [tauto|discriminate].
Qed.

Lemma setup_total U L idx l : forall i st, Forall (Swf U L) l -> incl U L -> wfL L -> Forall Shape l ->
  Forall notcustom (List.concat (map kinds l)) -> Forall (vkOK (env st)) (List.concat (map kinds l)) ->
  exists l' ts st', setup_loop idx i l st = Ok ((l', ts), st') /\
    forall j x, (i + j)%nat = idx -> nth_error l j = Some x -> nth_error l' j = Some x.
Proof.
  induction l as [|x l IH]; intros i st HW IU HL HS HN HV.
  - exists [], [], st. split; [reflexivity|]. intros [|j] y _ H; discriminate.
  - simpl in HN, HV. apply Forall_app in HN as [N1 N2]. apply Forall_app in HV as [V1 V2].
    apply Forall_cons_iff in HW as [W1 W2]. apply Forall_cons_iff in HS as [S1 S2].
    cbn [setup_loop]. destruct (Nat.eqb i idx) eqn:Ei.
    + apply Nat.eqb_eq in Ei. destruct (IH (S i) st) as (l' & ts & st' & E & K); auto.
      exists (x :: l'), ts, st'. split; [unfold bind; fold (setup_loop idx); rewrite E; reflexivity|].
      intros [|j] y Hj Hy; [exact Hy|]. lia.
    + apply Nat.eqb_neq in Ei. destruct (prepare_total x st) as (x' & s1 & E1 & Ee & T1); auto.
      destruct (prepare_ok U L x st x' s1 W1 IU E1) as ((_ & _ & _ & _ & _ & _ & IX) & _).
      destruct (simulate_total x' None None s1) as (t & s2 & E2); auto; [|discriminate|].
      { apply wfL_coh. intros a b Ha Hb. apply HL; auto. }
      assert (env s2 = env s1) as Ee2 by (eapply keeps_simulate_proof; eauto).
      destruct (IH (S i) s2) as (l' & ts & st' & E & K); auto; [rewrite Ee2, Ee; auto|].
      exists (x' :: l'), (t :: ts), st'. split; [unfold bind; fold (setup_loop idx); rewrite E1, E2, E; reflexivity|].
      intros [|j] y Hj Hy; [lia|]. apply (K j y); [lia|exact Hy].
Qed.

(** The choice loop. *)
Lemma or_loop_total {A} (gps : list (M (option A * stmt))) (I : (nat -> option Z) -> Prop)
    (Q : stmt -> A -> (nat -> option Z) -> Prop) (bad : nat -> Prop) : forall fuel possible cur st,
  (List.length possible <= fuel)%nat -> possible <> [] -> I (env st) -> List.length cur = List.length gps ->
  (forall i a, In i possible -> I (env a) -> exists m o s' b, nth_error gps i = Some m /\ m a = Ok ((o, s'), b) /\ I (env b) /\
     (forall p, o = Some p -> Q s' p (env b)) /\ (o = None -> bad i)) ->
  exists r cur' st', or_loop fuel gps possible cur st = Ok ((r, cur'), st') /\ I (env st') /\
    ((exists i, In i possible /\ ~ bad i) -> r <> None) /\
    (forall i p, r = Some (i, p) -> exists s', nth_error cur' i = Some s' /\ Q s' p (env st')).
Proof.
  induction fuel as [|fuel IH]; intros possible cur st LF NE Is LC H.
  - destruct possible; [tauto|simpl in LF; lia].
  - cbn [or_loop]. unfold bind at 1, draw. set (st1 := mkSt _ _ _).
    set (r := tape st (pos st) mod len possible).
    assert (LP : 0 < len possible) by (unfold len; destruct possible; [tauto|simpl List.length; lia]).
    assert (RB : 0 <= r < len possible) by (apply Z.mod_pos_bound; auto).
    destruct (nth_error possible (Z.to_nat r)) as [i|] eqn:Ni.
    2:{ apply nth_error_None in Ni. unfold len in RB. lia. }
    assert (Hi := nth_error_In _ _ Ni).
    destruct (H i st1 Hi Is) as (m & o & s' & b & Nm & Em & Ib & Qb & Bb). rewrite Nm.
    unfold bind. rewrite Em. cbn [fst snd]. destruct o as [p|].
    + exists (Some (i, p)), (replace i s' cur), b. split; [reflexivity|]. split; auto. split; [discriminate|].
      intros i' p' X. injection X as <- <-. exists s'. split; auto. apply nth_error_replace_same.
      rewrite LC. apply nth_error_Some. congruence.
    + destruct (remove Nat.eq_dec i possible) as [|i1 rest] eqn:ER.
      * exists None, (replace i s' cur), b. split; [reflexivity|]. split; auto. split; [|discriminate].
        intros (j & Hj & Bj). exfalso. apply Bj. destruct (Nat.eq_dec i j) as [->|N]; auto.
        assert (In j (remove Nat.eq_dec i possible)) as K by (apply in_in_remove; auto). rewrite ER in K. destruct K.
      * cbn [empty_dict]. rewrite <- ER.
        destruct (IH (remove Nat.eq_dec i possible) (replace i s' cur) b) as (r' & cur' & st' & E & I' & G1 & G2).
        -- assert (X := remove_length_lt i possible Hi). lia.
        -- rewrite ER. discriminate.
        -- auto.
        -- now rewrite replace_length.
        -- intros j a Hj. apply in_remove in Hj as [Hj _]. auto.
        -- exists r', cur', st'. split; auto. split; auto. split; auto.
           intros (j & Hj & Bj). apply G1. exists j. split; auto. apply in_in_remove; auto.
           intros ->. auto.
Qed.

Lemma refuses_total s : forall sd st, Refuses sd s -> exists s' st', get_prover s sd st = Ok ((None, s'), st').
Proof.
  induction s as [d|subs b IH|subs b ch IH|k b q|k b q con IH] using stmt_ind'; intros sd st R.
  - destruct (get_prover (SDL d) sd st) as [[[o s'] st']|] eqn:E.
    + assert (X := refuses_none _ _ _ _ _ _ R E). subst. eauto.
    + exfalso. cbn [get_prover] in E. unfold get_prover_dl, bind, get_env in E. cbv zeta in E.
      destruct (_ || _) in E; discriminate.
  - inversion R; subst. cbn [get_prover]. unfold bind at 1, update_secret_values. unfold ret. eauto.
  - inversion R; subst.
    + cbn [get_prover]. unfold bind at 1, update_secret_values. unfold ret. eauto.
    + cbn [get_prover]. unfold bind at 1, update_secret_values. cbv zeta.
      set (cands := map fst _). set (st1 := mkSt _ _ _). destruct (empty_dict cands) eqn:EC; [unfold ret; eauto|].
      destruct (or_loop_total (map (fun s => get_prover s sd) subs) (fun _ => True) (fun _ _ _ => False) (fun _ => True)
        (List.length cands) cands subs st1) as (r & cur' & st' & E & _ & _ & G); auto.
      * intros X. rewrite X in EC. discriminate.
      * now rewrite map_length.
      * intros i a Hi _. apply cands_in in Hi as (x & Nx & Sx). assert (Hx := nth_error_In _ _ Nx).
        rewrite Forall_forall in IH.
        match goal with X : forall x, In x subs -> _ -> Refuses _ _ |- _ => specialize (X x Hx Sx); destruct (IH x Hx sd a X) as (s' & b & E) end.
        exists (get_prover x sd), None, s', b. rewrite nth_error_map, Nx. split; [reflexivity|]. split; auto. split; auto. split; auto. discriminate.
      * unfold bind. rewrite E. cbn [fst snd]. destruct r as [[i p]|].
        -- destruct (G i p eq_refl) as (? & _ & []).
        -- unfold ret. eauto.
  - inversion R.
  - inversion R.
Qed.

(** A prover whose extended parts can precommit. *)
Inductive Pready (w : bytes -> Z) (e : nat -> option Z) : stmt -> prover -> Prop :=
| PrDL d o : Pready w e (SDL d) (PDL o)
| PrAnd subs b ps : Forall2 (Pready w e) subs ps -> Pready w e (SAnd subs b) (PAnd ps)
| PrOr subs b c i x sp ts : nth_error subs i = Some x -> Pready w e x sp -> Pready w e (SOr subs b c) (POr i sp ts)
| PrExt k b pre con sv o : kshape k -> kreal w k -> defd e (kuser k) -> Pready w e (SExt k b pre con) (PExt sv o).
Lemma Pready_mono w e e' s : forall p, mono e e' -> Pready w e s p -> Pready w e' s p.
Proof.
  induction s as [d|subs b IH|subs b ch IH|k b q|k b q con IH] using stmt_ind'; intros p M H; inversion H; subst.
  - constructor.
  - constructor. match goal with F : Forall2 _ _ _ |- _ => revert F; clear -IH M end. intros F.
    induction F; constructor; inversion IH; subst; auto.
  - econstructor; eauto. rewrite Forall_forall in IH.
    match goal with X : nth_error _ _ = _ |- _ => apply nth_error_In in X end. auto.
  - constructor; auto. eapply defd_mono; eauto.
  - constructor; auto. eapply defd_mono; eauto.
Qed.

Inductive Keys (U : list secret) : stmt -> Prop :=
| KyDL d : (forall k v, In (k, v) (dl_vals d) -> In k U) -> Keys U (SDL d)
| KyAnd subs b : Forall (Keys U) subs -> Keys U (SAnd subs b)
| KyOr subs b c : Forall (Keys U) subs -> Keys U (SOr subs b c)
| KyExt k b pre con : Keys U (SExt k b pre con).
Lemma Vals_Keys U w s : Vals U w s -> Keys U s.
Proof.
  induction s as [d|subs b IH|subs b ch IH|k b q|k b q con IH] using stmt_ind'; intros H; inversion H; subst; constructor.
  - intros k v Hk. eapply H1; eauto.
  - rewrite Forall_forall in *. auto.
  - rewrite Forall_forall in *. auto.
Qed.
Lemma leafy_Keys e l s : leafy (fresh_leaf e l) s -> Keys l s.
Proof.
  induction s as [d|subs b IH|subs b ch IH|k b q|k b q con IH] using stmt_ind'; intros H; inversion H; subst; constructor.
  - intros k v Hk. destruct H1 as (X0 & X1 & _). rewrite X0 in Hk. apply snapshot_in in Hk as [K1 K2]. auto.
  - rewrite Forall_forall in *. auto.
  - rewrite Forall_forall in *. auto.
Qed.
Lemma Keys_incl U U' s : incl U U' -> Keys U s -> Keys U' s.
Proof.
  intros I. induction s as [d|subs b IH|subs b ch IH|k b q|k b q con IH] using stmt_ind'; intros H; inversion H; subst; constructor.
  - intros k v Hk. apply I. eauto.
  - rewrite Forall_forall in *. auto.
  - rewrite Forall_forall in *. auto.
Qed.

Lemma known_dmem L e (d : dict Z) x : wfL L -> (forall k v, In (k, v) d -> In k L) -> In x L -> known d x ->
  exists k v, In (k, v) d /\ sec_eqb e k x = true.
Proof.
  intros HL HK Hx (k & v & Hk & E). exists k, v. split; auto. apply sec_eqb_iff. split; auto. f_equal. apply HL; eauto.
Qed.
Lemma eqb_dmem e (d : dict Z) k v x : In (k, v) d -> sec_eqb e k x = true -> dmem e d x = true.
Proof.
  unfold dmem. induction d as [|[k0 v0] d IH]; simpl; [tauto|]. intros H E. destruct (sec_eqb e k0 x) eqn:E0; auto.
  apply IH; auto. destruct H as [H|H]; auto. congruence.
Qed.
Lemma supplied_dmem L e (d d' : dict Z) x : wfL L -> (forall k v, In (k, v) d -> In k L) ->
  (forall k v, In (k, v) d' -> In k L) -> In x L -> known d x \/ known d' x -> dmem e (dupdate e d d') x = true.
Proof.
  intros HL H1 H2 Hx [K|K]; unfold dupdate; apply dmem_fold.
  - left. destruct (known_dmem L e d x) as (k & v & Hk & E); auto. eapply eqb_dmem; eauto.
  - right. eapply known_dmem; eauto.
Qed.

Lemma estep_mono w D e e' : estep w D e e' -> mono e e'.
Proof. intros H i Hi. destruct (H i) as [->|(x & _ & _ & ->)]; [auto|discriminate]. Qed.
Lemma estep_agree2 w D V L e e' : wfL L -> incl D L -> incl V L -> estep w D e e' -> agree w e V -> agree w e' V.
Proof.
  intros HL ID IV H A x v Hx E. destruct (H (sid x)) as [K|(y & Hy & Ey & K)].
  - apply A; congruence.
  - rewrite K in E. injection E as <-. f_equal. apply HL; auto.
Qed.
Lemma update_defd sd st k v : In (k, v) sd -> exists st', update_secret_values sd st = Ok (tt, st') /\ env st' (sid k) <> None.
Proof.
  intros H. eexists. split; [reflexivity|]. cbn [env].
  assert (G : forall (l : dict Z) e, e (sid k) <> None \/ In (k, v) l ->
    fold_left (fun e (kv : secret * Z) => upd e (sid (fst kv)) (Some (snd kv))) l e (sid k) <> None).
  { induction l as [|[a z] l IH]; intros e [X|X]; simpl; auto; try (now destruct X).
    - apply IH. left. unfold upd. destruct (Nat.eqb _ _); [discriminate|auto].
    - destruct X as [X|X].
      + injection X as -> ->. apply IH. left. rewrite upd_same. discriminate.
      + apply IH. now right. }
  apply G. now right.
Qed.

Lemma Supplied_mono sd w e e' s : mono e e' -> Supplied sd w e s -> Supplied sd w e' s.
Proof.
  intros M. induction s as [d|subs b IH|subs b ch IH|k b q|k b q con IH] using stmt_ind'; intros H; inversion H; subst.
  - now constructor.
  - constructor. rewrite Forall_forall in *. auto.
  - rewrite Forall_forall in IH. econstructor; eauto.
    + intros y Hy Sy. match goal with X : forall y, In y subs -> simulated y = false -> _ |- _ => destruct (X y Hy Sy) end; auto.
    + intros y Hy. match goal with X : forall y, In y subs -> Forall _ _ |- _ => specialize (X y Hy); eapply Forall_impl; [|exact X] end.
      intros k Hk. destruct k as [| ? ? ? ? [] ? ? ?| |]; auto. destruct Hk. split; auto.
  - constructor; auto. intros x Hx. match goal with X : forall x, In x (kuser k) -> _ |- _ => destruct (X x Hx) end; auto.
  - constructor; auto. intros x Hx. match goal with X : forall x, In x (kuser k) -> _ |- _ => destruct (X x Hx) end; auto.
Qed.
Lemma ksimulable_vk w e k : ksimulable w e k -> agree w e (kuser k) -> vkOK e k /\ notcustom k.
Proof.
  destruct k as [|com g h n isp x r rs| |]; simpl; auto; try tauto. destruct isp; [|auto].
  intros [D B] A. split; auto. destruct (e (sid x)) as [v|] eqn:E; [|tauto]. exists v. split; auto.
  replace v with (w (sname x)); auto. symmetry. apply A; simpl; auto.
Qed.

Lemma get_prover_total U L D V w s : forall sd st, Shape s -> Swf U L s -> Keys U s -> incl U L -> wfL L ->
  entries_ok D w sd -> incl D L -> incl V L -> (forall k, In k (kinds s) -> incl (kuser k) V) ->
  (forall k, In k (kinds s) -> incl (kuser k) L) -> agree w (env st) V ->
  Supplied sd w (env st) s ->
  exists p s' st', get_prover s sd st = Ok ((Some p, s'), st') /\ Pready w (env st') s' p.
Proof.
  assert (X : forall k b q con sd st, Shape (SExt k b q con) -> wfL L -> entries_ok D w sd -> incl D L ->
      incl (kuser k) L -> Supplied sd w (env st) (SExt k b q con) ->
      exists p s' st', get_prover (SExt k b q con) sd st = Ok ((Some p, s'), st') /\ Pready w (env st') s' p).
  { intros k b q con sd st HS HL HD ID IK SU. inversion HS; subst. inversion SU; subst.
    cbn [get_prover]. unfold bind at 1. destruct (update_secret_values sd st) as [[u st1]|] eqn:EU; [|discriminate].
    unfold bind, get_env, ret. eexists _, _, st1. split; [reflexivity|]. constructor; auto.
    intros x Hx. match goal with X : forall x, In x (kuser k) -> known sd x \/ _ |- _ => destruct (X x Hx) as [(a & v & Ha & Ea)|Hd] end.
    - destruct (update_defd sd st a v Ha) as (st' & E & N). rewrite EU in E. injection E as -> ->.
      replace (sid x) with (sid a); auto. apply HL; auto. apply ID. eapply HD; eauto.
    - apply (estep_mono w D (env st) (env st1)); auto. eapply estep_update; eauto. }
  induction s as [d|subs b IH|subs b ch IH|k b q|k b q con IH] using stmt_ind';
    intros sd st HS HW HK IU HL HD ID IV IK IKL HA SU.
  - inversion HS; inversion HW; inversion HK; inversion SU; subst. cbn [get_prover]. unfold get_prover_dl, bind, get_env. cbv zeta.
    assert (M : forall x, In x (dl_secs d) -> dmem (env st) (dupdate (env st) (dl_vals d) sd) x = true).
    { intros x Hx. apply (supplied_dmem L); auto.
      - intros k v Hk. eauto.
      - intros k v Hk. apply ID. eapply HD; eauto. }
    assert (X1 : existsb (fun s => negb (dmem (env st) (dupdate (env st) (dl_vals d) sd) s)) (dl_secs d) = false).
    { destruct (existsb _ _) eqn:E; auto. apply existsb_exists in E as (x & Hx & E). rewrite M in E by auto. discriminate. }
    rewrite X1. destruct (dupdate (env st) (dl_vals d) sd) as [|e0 l0] eqn:EU.
    { exfalso. match goal with Y : dl_shape d |- _ => destruct Y as (Y1 & Y2 & _) end.
      destruct (dl_secs d) as [|x ss]; [destruct (dl_bases d); [tauto|discriminate]|].
      specialize (M x (or_introl eq_refl)). discriminate. }
    cbn [empty_dict orb]. unfold ret. cbn [fst snd]. eexists _, _, st. split; [reflexivity|]. constructor.
  - inversion HS; inversion HW; inversion HK; inversion SU; subst. clear HS HW HK SU.
    cbn [get_prover]. unfold bind at 1. destruct (update_secret_values sd st) as [[u st1]|] eqn:EU; [|discriminate].
    assert (ES := estep_update w D sd st u st1 HD EU). assert (MS := estep_mono _ _ _ _ ES).
    destruct (mapM_total_q (fun s => get_prover s sd) (fun a => mono (env st) (env a) /\ agree w (env a) V)
      (fun _ r a => exists p, fst r = Some p /\ Pready w (env a) (snd r) p) subs) with (s := st1) as (l & s2 & E & _ & F & _).
    + intros x a Hx [Ma Aa]. rewrite Forall_forall in *.
      destruct (IH x Hx sd a) as (p & s' & b & E & P); auto.
      * intros k Hk. apply IK. simpl. eapply kinds_concat; eauto.
      * intros k Hk. apply IKL. simpl. eapply kinds_concat; eauto.
      * eapply Supplied_mono; [exact Ma|]. auto.
      * assert (EX := get_prover_estep w D x sd a _ _ _ HD E). assert (MX := estep_mono _ _ _ _ EX).
        exists (Some p, s'), b. split; auto. split; [split; [eapply mono_trans; eauto|]|].
        { apply (estep_agree2 w D V L (env a)); auto. }
        split; auto. simpl. eauto.
    + intros x y a b (p & E & P) M. exists p. split; auto. eapply Pready_mono; eauto.
    + split; auto. apply (estep_agree2 w D V L (env st)); auto.
    + unfold bind. rewrite E.
      assert (FB : forallb (fun r : option prover * stmt => is_some (fst r)) l = true).
      { apply forallb_forall. intros r Hr. clear -F Hr. induction F as [|x y l0 l1 (p & Ep & _) F IH]; [destruct Hr|].
        destruct Hr as [<-|Hr]; auto. rewrite Ep. reflexivity. }
      rewrite FB. eexists _, _, s2. split; [reflexivity|]. constructor.
      clear -F. induction F as [|x y l0 l1 (p & Ep & P) F IH]; simpl; [constructor|]. rewrite Ep. simpl. now constructor.
  - inversion HS; inversion HW; inversion HK; inversion SU; subst. clear HS HW HK SU.
    cbn [get_prover]. unfold bind at 1. destruct (update_secret_values sd st) as [[u st1]|] eqn:EU; [|discriminate].
    assert (ES := estep_update w D sd st u st1 HD EU). assert (MS := estep_mono _ _ _ _ ES).
    assert (A1 : agree w (env st1) V) by (apply (estep_agree2 w D V L (env st)); auto).
    cbv zeta. set (cands := map fst _).
    match goal with X : In x subs |- _ => destruct (In_nth_error _ _ X) as (ix & Nx) end.
    assert (Hix : In ix cands) by (apply cands_in; eauto).
    destruct (empty_dict cands) eqn:EC; [destruct cands; [destruct Hix|discriminate]|].
    rewrite Forall_forall in *.
    destruct (or_loop_total (map (fun s => get_prover s sd) subs) (fun e => mono (env st) e /\ agree w e V)
      (fun s' p e => Pready w e s' p) (fun i => exists y, nth_error subs i = Some y /\ Refuses sd y)
        (List.length cands) cands subs st1) as (r & cur' & st2 & E & [M2 A2] & G1 & G2); auto.
    + intros Y. rewrite Y in EC. discriminate.
    + now rewrite map_length.
    + intros i a Hi [Ma Aa]. apply cands_in in Hi as (y & Ny & Sy). assert (Hy := nth_error_In _ _ Ny).
      match goal with X : forall y, In y subs -> simulated y = false -> _ \/ _ |- _ => destruct (X y Hy Sy) as [RF|SP] end.
      * destruct (refuses_total y sd a RF) as (s' & b & E).
        exists (get_prover y sd), None, s', b. rewrite nth_error_map, Ny. split; [reflexivity|]. split; auto.
        assert (EX := get_prover_estep w D y sd a _ _ _ HD E). assert (MX := estep_mono _ _ _ _ EX).
        split; [split; [eapply mono_trans; eauto|apply (estep_agree2 w D V L (env a)); auto]|]. split; [discriminate|eauto].
      * destruct (IH y Hy sd a) as (p & s' & b & E & P); auto.
        { intros k Hk. apply IK. simpl. eapply kinds_concat; eauto. }
        { intros k Hk. apply IKL. simpl. eapply kinds_concat; eauto. }
        { eapply Supplied_mono; [exact Ma|]. auto. }
        assert (EX := get_prover_estep w D y sd a _ _ _ HD E). assert (MX := estep_mono _ _ _ _ EX).
        exists (get_prover y sd), (Some p), s', b. rewrite nth_error_map, Ny. split; [reflexivity|]. split; auto.
        split; [split; [eapply mono_trans; eauto|apply (estep_agree2 w D V L (env a)); auto]|]. split; [|discriminate].
        intros p' Ep. injection Ep as <-. auto.
    + unfold bind at 1. rewrite E. cbn [fst snd]. destruct r as [[i p]|].
      2:{ exfalso. apply G1; auto. exists ix. split; auto. intros (y & Ny & RF). rewrite Nx in Ny. injection Ny as <-.
          match goal with SP : Supplied sd w _ x |- _ => destruct (IH x (nth_error_In _ _ Nx) sd st) as (p & s' & b & Eg & _); auto end.
          { intros k Hk. apply IK. simpl. eapply kinds_concat; eauto. }
          { intros k Hk. apply IKL. simpl. eapply kinds_concat; eauto. }
          assert (Y := refuses_none _ _ _ _ _ _ RF Eg). discriminate. }
      destruct (G2 i p eq_refl) as (s' & Ns & Ps).
      assert (PS : map pstrip cur' = map pstrip subs).
      { eapply (or_loop_pstrip sd subs); [|reflexivity|exact E]. intros y Hy a o0 s0 b0. apply get_prover_pstrip. }
      assert (KS : map kinds cur' = map kinds subs).
      { clear -PS. revert subs PS. induction cur' as [|a l IH]; intros [|b m] PS; try discriminate; auto.
        simpl in PS. injection PS as P1 P2. simpl. f_equal; [now apply kinds_same|auto]. }
      destruct (setup_total U L i cur' 0 st2) as (l' & ts & st3 & E3 & K3); auto.
      * eapply Swf_same_list; [symmetry; exact PS|]. apply Forall_forall. auto.
      * eapply Shape_same_list; [symmetry; exact PS|]. apply Forall_forall. auto.
      * rewrite KS. apply Forall_forall. auto.
      * rewrite KS. apply Forall_forall. intros k Hk. apply in_concat in Hk as (ks & Hks & Hk).
        apply in_map_iff in Hks as (y & <- & Hy).
        match goal with X : forall y, In y subs -> Forall (ksimulable _ _) _ |- _ => specialize (X y Hy); rewrite Forall_forall in X; specialize (X k Hk);
          rename X into SK end.
        apply (ksimulable_vk w).
        -- destruct k as [| ? ? ? ? [] ? ? ?| |]; auto. destruct SK. split; auto.
        -- intros z v Hz. apply A2. eapply IK; [|exact Hz]. simpl. eapply kinds_concat; eauto.
      * assert (env st3 = env st2) as E32 by (eapply keeps_setup; eauto).
        unfold bind. rewrite setup_simulations_eq, E3. cbn [fst snd]. eexists _, _, st3. split; [reflexivity|].
        econstructor; [apply (K3 i s'); auto|]. rewrite E32. auto.
  - apply X; auto. apply IKL. simpl; auto.
  - apply X; auto. apply IKL. simpl; auto.
Qed.

Lemma precommit_total U L D w s : forall p st, wfL L -> incl D U -> incl U L -> Built U L D w s p ->
  Pready w (env st) s p -> agree w (env st) U -> NoDup (map sid (kints s)) ->
  (forall x y, In x (kints s) -> In y U -> sid x <> sid y) ->
  exists pre p1 s1 st1, precommit s p st = Ok ((pre, p1, s1), st1) /\ Full p1 /\ mono (env st) (env st1).
Proof.
  assert (X : forall k b q con p st, wfL L -> incl D U -> incl U L -> Built U L D w (SExt k b q con) p ->
    Pready w (env st) (SExt k b q con) p -> agree w (env st) U -> NoDup (map sid (kint k)) ->
    (forall x y, In x (kint k) -> In y U -> sid x <> sid y) ->
    exists pre p1 s1 st1, precommit (SExt k b q con) p st = Ok ((pre, p1, s1), st1) /\ Full p1 /\ mono (env st) (env st1)).
  { intros k b q con p st HL ID IU HB HP HA ND DJ. inversion HB; subst. inversion HP; subst.
    destruct (kprec_total w k st) as (pre & st1 & c & E & C & T & M & SU); auto.
    { intros x v Hx. apply HA; auto. }
    destruct (construct_leafy _ _ _ _ _ C) as (_ & Lf). assert (NE := leafy_noext _ _ Lf).
    assert (IL : incl (kuser k ++ kint k) L) by (apply incl_app; auto; eapply incl_tran; eauto).
    destruct (get_prover_total L L D [] w c sv st1) as (p1 & c' & st2 & G & _); auto.
    - now apply Typ_Shape.
    - eapply Swf_incl; [| |eapply leafy_Swf; eauto]; auto.
    - eapply Keys_incl; [exact IL|]. eapply leafy_Keys; eauto.
    - apply incl_refl.
    - eapply incl_tran; eauto.
    - intros z [].
    - rewrite (noext_kinds c NE). intros k0 [].
    - rewrite (noext_kinds c NE). intros k0 [].
    - intros z v [].
    - exists pre, (PExt sv (Some (Some p1))), (SExt k b pre (Some c')), st2. split; [|split; [constructor|]].
      + cbn [precommit]. unfold bind. rewrite E, C, G. reflexivity.
      + eapply mono_trans; [exact M|]. eapply estep_mono, (get_prover_estep w D c sv); eauto. }
  induction s as [d|subs b IH|subs b ch IH|k b q|k b q con IH] using stmt_ind';
    intros p st HL ID IU HB HP HA ND DJ.
  - inversion HB; subst. exists VNone, (PDL o), (SDL d), st. repeat split; auto; [constructor|apply mono_refl].
  - inversion HB; subst. inversion HP; subst.
    match goal with F : Forall2 (Built _ _ _ _) _ _ |- _ => rename F into FB end.
    match goal with F : Forall2 (Pready _ _) _ _ |- _ => rename F into FP end.
    destruct (zipM_total_q precommit (fun a => mono (env st) (env a) /\ agree w (env a) U)
      (fun _ _ r => Full (snd (fst r))) subs ps st) as (l & st1 & E & [M1 _] & F & _).
    + split; auto. apply mono_refl.
    + intros x y a Hxy [Ma Aa]. assert (Hx := in_combine_l _ _ _ _ Hxy).
      assert (BX : Built U L D w x y) by (clear -FB Hxy; induction FB; simpl in Hxy; [tauto|]; destruct Hxy as [Y|Y]; [injection Y as -> ->; auto|auto]).
      assert (PX : Pready w (env st) x y) by (clear -FP Hxy; induction FP; simpl in Hxy; [tauto|]; destruct Hxy as [Y|Y]; [injection Y as -> ->; auto|auto]).
      rewrite Forall_forall in IH.
      destruct (IH x Hx y a) as (pre & p1 & x1 & b1 & E & FU & MB); auto.
      * eapply Pready_mono; eauto.
      * eapply (kints_nodup_sub x subs b); eauto.
      * intros u v Hu Hv. apply DJ; auto. eapply (kints_sub x subs b); eauto.
      * exists (pre, p1, x1), b1. split; auto. split; [split; [eapply mono_trans; eauto|]|split; auto].
        assert (FS := precommit_fstep U L D w x y a _ _ _ _ BX E).
        eapply (fstep_agree w D U (kints x)); eauto.
        -- intros u v Hu Hv. apply HL; auto.
        -- intros u v Hu Hv. apply DJ; auto. eapply (kints_sub x subs b); eauto.
    + cbn [precommit]. unfold bind. rewrite E. eexists _, _, _, st1. split; [reflexivity|]. split; auto.
      constructor. apply Forall_map. eapply Forall_impl; [|exact F]. intros r (x & y & Y). auto.
  - inversion HB; subst. inversion HP; subst.
    match goal with N : nth_error _ _ = Some ?z |- _ => rewrite nth_error_app2, Nat.sub_diag in N by auto; simpl in N; injection N as <- end.
    assert (Hx : In x (l1 ++ x :: l2)) by (apply in_app_iff; right; now left).
    rewrite Forall_forall in IH. destruct (IH x Hx sp st) as (pre & p1 & x1 & st1 & E & FU & M); auto.
    { eapply (kints_nodup_sub x (l1 ++ x :: l2) b); eauto. }
    { intros u v Hu Hv. apply DJ; auto. eapply (kints_sub x (l1 ++ x :: l2) b); eauto. }
    rewrite precommit_or.
    assert (G : forall l, or_pre_loop (fun x => precommit x sp) (List.length l) (l ++ x :: l2) st = Ok ((pre, p1, l ++ x1 :: l2), st1)).
    { induction l as [|z l IHl]; simpl; unfold bind; [rewrite E; reflexivity|].
      fold (or_pre_loop (fun x => precommit x sp)). rewrite IHl. reflexivity. }
    unfold bind. rewrite G. cbv zeta. cbn [fst snd]. eexists _, _, _, st1. split; [reflexivity|]. split; [now constructor|auto].
  - apply X; auto; rewrite <- (kints_one k b q None); auto.
  - apply X; auto; rewrite <- (kints_one k b q (Some con)); auto.
Qed.

(** * Commitments of honest provers *)
Lemma kint_names s L : wfL L -> incl (kints s) L -> NoDup (map sid (kints s)) ->
  forall k, In k (kinds s) -> NoDup (map sname (kint k)).
Proof.
  intros HL IL ND k Hk. assert (I : incl (kint k) (kints s)).
  { intros x Hx. unfold kints. apply in_concat. exists (kint k). split; auto. now apply in_map. }
  assert (NK : NoDup (map sid (kint k))).
  { unfold kints in ND. clear I IL HL. induction (kinds s) as [|a l IH]; [destruct Hk|]. simpl in ND.
    rewrite map_app in ND. apply NoDup_app_inv in ND as (N1 & N2 & _). destruct Hk as [->|Hk]; auto. }
  revert I NK. clear Hk. induction (kint k) as [|x l IH]; intros I NK; simpl; constructor.
  - inversion NK; subst. intros C. apply in_map_iff in C as (y & Ey & Hy). apply H1. apply in_map_iff. exists y. split; auto.
    apply HL; [apply IL, I; now right|apply IL, I; now left|auto].
  - inversion NK; subst. apply IH; auto. intros y Hy. apply I. now right.
Qed.

Lemma commit_ready U w s sd ord st : honest U w s sd (env st) -> Shape s -> Supplied sd w (env st) s -> Ords ord s -> Apart s ->
  exists p s1 st1 pre p2 s2 st2 com p3 st3,
    get_prover s sd st = Ok ((Some p, s1), st1) /\ precommit s1 p st1 = Ok ((pre, p2, s2), st2) /\
    internal_commit s2 p2 None st2 = Ok ((com, p3), st3) /\ built s2 /\
    forall c st4, exists r, compute_response s2 p3 c st4 = Ok (r, st4).
Proof.
  intros HH HS SU HO HA. assert (HH' := HH). destruct HH' as [OK NM IN DJ TR VA DI EN].
  set (L := U ++ kints s) in *.
  assert (IU : incl U L) by (apply incl_appl, incl_refl).
  assert (IK : incl (kints s) L) by (apply incl_appr, incl_refl).
  assert (HW : Swf U L s) by (apply Sok_Swf; auto).
  assert (KU : forall k, In k (kinds s) -> incl (kuser k) U).
  { clear -OK. induction s as [d|subs b IH|subs b ch IH|k b q|k b q con IH] using stmt_ind'; inversion OK; subst; simpl; intros k0 Hk.
    - destruct Hk.
    - apply in_concat in Hk as (ks & Hks & Hk). apply in_map_iff in Hks as (y & <- & Hy). rewrite Forall_forall in *. eapply IH; eauto.
    - apply in_concat in Hk as (ks & Hks & Hk). apply in_map_iff in Hks as (y & <- & Hy). rewrite Forall_forall in *. eapply IH; eauto.
    - destruct Hk as [<-|[]]; auto.
    - destruct Hk as [<-|[]]; auto. }
  destruct (get_prover_total U L U U w s sd st) as (p & s1 & st1 & GP & PR); auto.
  { eapply Vals_Keys; eauto. }
  { intros k Hk. eapply incl_tran; eauto. }
  destruct (get_prover_built U L U w s sd st _ _ _ HW VA TR DI (incl_refl _) IU NM GP) as (PS1 & ES & BT).
  assert (AG1 : agree w (env st1) U) by (apply (estep_agree2 w U U L (env st)); auto).
  assert (KE : kints s1 = kints s) by (unfold kints; now rewrite (kinds_same s1 s PS1)).
  destruct (precommit_total U L U w s1 p st1) as (pre & p2 & s2 & st2 & PC & FU & _); auto.
  { apply incl_refl. }
  { now rewrite KE. }
  { now rewrite KE. }
  destruct (honest_ready _ _ _ _ _ _ _ _ _ _ _ _ HH GP PC) as (w' & L' & HL & _ & PS & PO & RD).
  assert (RD' := RD (or_intror FU)).
  assert (PO' := PO). destruct PO' as (P1 & P2 & P3 & P4 & P5 & P6 & P7 & P8).
  assert (KG : Forall kgood (kinds s2)).
  { rewrite (kinds_same s2 s PS). apply Forall_forall. intros k Hk. split.
    - assert (X := Shape_kinds s HS). rewrite Forall_forall in X. auto.
    - eapply (kint_names s L); eauto. }
  assert (CK : Checked (env st2) s2).
  { apply (Apart_checked ord); auto.
    - eapply Ords_same; [symmetry; exact PS|auto].
    - eapply Apart_same; [symmetry; exact PS|auto]. }
  destruct (commit_total w' s2 p2 None st2 RD' P2 P3) as (com & p3 & st3 & IC); auto.
  { apply wfL_coh. intros a b Ha Hb. apply HL; auto. }
  { discriminate. }
  exists p, s1, st1, pre, p2, s2, st2, com, p3, st3. repeat split; auto.
  intros c st4. destruct (honest_done w' L' s2 pre p2 None st2 com p3 st3 HL PO RD eq_refl IC) as (K & od & D).
  destruct (respond_ok _ _ _ _ _ _ D c st4) as (r & CR & _). eauto.
Qed.

(** Identifiers of built statements exist. *)
Lemma rmap_total {A B} (f : A -> res B) l : (forall x, In x l -> exists y, f x = Ok y) -> exists ys, rmap f l = Ok ys.
Proof.
  induction l as [|x l IH]; intros H; [exists []; reflexivity|].
  destruct (H x (or_introl eq_refl)) as (y & E). destruct IH as (ys & E'); [intros z Hz; apply H; now right|].
  exists (y :: ys). simpl. rewrite E. simpl. now rewrite E'.
Qed.
Lemma lookup_app m m' n : (exists v, id_lookup m n = Ok v) -> exists v, id_lookup (m ++ m') n = Ok v.
Proof. intros (v & H). induction m as [|[k u] m IH]; simpl in *; [discriminate|]. destruct (bytes_eqb k n); eauto. Qed.
Lemma assign_total ss x : In x ss -> exists v, id_lookup (assign_secret_ids ss) (sname x) = Ok v.
Proof.
  unfold assign_secret_ids. set (F := fun _ _ => _).
  assert (G : forall l n m, (exists v, id_lookup m (sname x) = Ok v) \/ In x l ->
    exists v, id_lookup (snd (fold_left F l (n, m))) (sname x) = Ok v).
  { induction l as [|y l IH]; intros n m [H|H]; simpl; auto; try (now destruct H).
    - destruct (existsb _ m); apply IH; left; auto. now apply lookup_app.
    - destruct (existsb (fun p => bytes_eqb (fst p) (sname y)) m) eqn:E.
      + destruct H as [->|H]; [|apply IH; auto]. apply IH. left.
        clear -E. induction m as [|[k u] m IH]; [discriminate|]. simpl in *. destruct (bytes_eqb k (sname x)); eauto.
      + destruct H as [->|H]; [|apply IH; auto]. apply IH. left.
        clear. induction m as [|[k u] m IH]; simpl.
        * rewrite (proj2 (bytes_eqb_eq _ _) eq_refl). eauto.
        * destruct (bytes_eqb k (sname x)); eauto. }
  intros H. apply G. now right.
Qed.
Lemma proof_id_total s : built s ->
  (exists i, get_proof_id s None = Ok i) /\
  forall m, (forall x, In x (svars s) -> exists v, id_lookup m (sname x) = Ok v) -> exists i, get_proof_id s (Some m) = Ok i.
Proof.
  induction s as [d|subs b IH|subs b ch IH|k b q|k b q con IH] using stmt_ind'; intros HB.
  - assert (G : forall m, (forall x, In x (dl_secs d) -> exists v, id_lookup m (sname x) = Ok v) -> exists i, get_proof_id (SDL d) (Some m) = Ok i).
    { intros m H. cbn [get_proof_id]. destruct (rmap_total (fun s => id_lookup m (sname s)) (dl_secs d) H) as (ys & ->). simpl. eauto. }
    split; [|exact G]. apply (G (assign_secret_ids (dl_secs d))). intros x Hx. now apply assign_total.
  - assert (G : forall m, (forall x, In x (svars (SAnd subs b)) -> exists v, id_lookup m (sname x) = Ok v) -> exists i, get_proof_id (SAnd subs b) (Some m) = Ok i).
    { intros m H. cbn [get_proof_id]. rewrite (built_svars _ HB). destruct (built_bases _ HB) as (bs & ->). cbn [rbind].
      destruct (rmap_total (fun s => get_proof_id s (Some m)) subs) as (ys & ->); [|simpl; eauto].
      intros y Hy. rewrite Forall_forall in IH. inversion HB; subst. rewrite Forall_forall in *.
      apply IH; auto. intros z Hz. apply H. simpl. apply in_concat. exists (svars y). split; auto. now apply in_map. }
    split; [|exact G]. destruct (G (assign_secret_ids (svars (SAnd subs b)))) as (i & E); [intros; now apply assign_total|].
    exists i. cbn [get_proof_id] in E |- *. now rewrite (built_svars _ HB) in E |- *.
  - assert (G : forall m, (forall x, In x (svars (SOr subs b ch)) -> exists v, id_lookup m (sname x) = Ok v) -> exists i, get_proof_id (SOr subs b ch) (Some m) = Ok i).
    { intros m H. cbn [get_proof_id]. rewrite (built_svars _ HB). destruct (built_bases _ HB) as (bs & ->). cbn [rbind].
      destruct (rmap_total (fun s => get_proof_id s (Some m)) subs) as (ys & ->); [|simpl; eauto].
      intros y Hy. rewrite Forall_forall in IH. inversion HB; subst. rewrite Forall_forall in *.
      apply IH; auto. intros z Hz. apply H. simpl. apply in_concat. exists (svars y). split; auto. now apply in_map. }
    split; [|exact G]. destruct (G (assign_secret_ids (svars (SOr subs b ch)))) as (i & E); [intros; now apply assign_total|].
    exists i. cbn [get_proof_id] in E |- *. now rewrite (built_svars _ HB) in E |- *.
  - inversion HB.
  - inversion HB; subst. destruct IH as [IH1 IH2]; auto. split.
    + destruct IH1 as (i & E). cbn [get_proof_id]. rewrite E. simpl. eauto.
    + intros m H. destruct (IH2 m H) as (i & E). cbn [get_proof_id]. rewrite E. simpl. eauto.
Qed.

(** Values that do not fit the binary format. *)
Lemma hdr_big tag n e : hdr tag n = Err e -> 2 ^ 32 <= n.
Proof. unfold hdr. destruct (shdr tag n); [discriminate|]. destruct (_ && _); [discriminate|]. destruct (n <? 2 ^ 16); [discriminate|]. destruct (n <? 2 ^ 32) eqn:E; [discriminate|]. intros _. apply Z.ltb_ge in E. auto. Qed.
Lemma rmap_err {A B} (f : A -> res B) l e : rmap f l = Err e -> exists x, In x l /\ f x = Err e.
Proof.
  induction l as [|x l IH]; simpl; [discriminate|]. destruct (f x) as [y|e0] eqn:E; simpl.
  - destruct (rmap f l) as [ys|e1]; simpl; [discriminate|]. intros H. injection H as ->. destruct IH as (z & Hz & Ez); eauto.
  - intros H. injection H as ->. eauto.
Qed.
Lemma encode_big v : forall e, encode v = Err e -> Big v.
Proof.
  unfold encode. induction v as [|z|p|s|s|l IH|l IH|d IH] using val_ind'; intros e H; cbn [pack] in H; cbv zeta in H.
  - discriminate.
  - destruct (hdr 201 (len (bn_data z))) eqn:E; [discriminate|]. constructor. eapply hdr_big; eauto.
  - destruct (hdr 201 (len (export_pt p))) eqn:E; [discriminate|]. constructor. eapply hdr_big; eauto.
  - destruct (hdr 219 (len s)) eqn:E; [discriminate|]. constructor. eapply hdr_big; eauto.
  - destruct (hdr 198 (len s)) eqn:E; [discriminate|]. constructor. eapply hdr_big; eauto.
  - destruct (hdr 221 (len l)) eqn:E; [|apply BgList; eapply hdr_big; eauto]. simpl in H.
    destruct (rmap pack l) eqn:R; [discriminate|]. apply rmap_err in R as (x & Hx & Ex). rewrite Forall_forall in IH.
    eapply BgIn; eauto.
  - destruct (hdr 221 (len l)) eqn:E; [|apply BgTuple; eapply hdr_big; eauto]. simpl in H.
    destruct (rmap pack l) eqn:R; [discriminate|]. apply rmap_err in R as (x & Hx & Ex). rewrite Forall_forall in IH.
    eapply BgInT; eauto.
  - destruct (hdr 223 (len d)) eqn:E; [|apply BgDict; eapply hdr_big; eauto]. simpl in H.
    destruct (rmap _ d) eqn:R in H; [discriminate|]. apply rmap_err in R as ([k x] & Hx & Ex). rewrite Forall_forall in IH.
    destruct (hdr 219 (len k)) eqn:Ek; [|eapply BgKey; eauto; eapply hdr_big; eauto].
    simpl in Ex. destruct (pack x) eqn:Ep; [discriminate|]. eapply BgInD; eauto. apply (IH (k, x) Hx e1). auto.
Qed.

Lemma precommit_nstr s p st b p2 s2 st2 : precommit s p st = Ok ((VStr b, p2, s2), st2) -> False.
Proof.
  destruct s as [d|subs f|subs f ch|k f q con]; destruct p; try discriminate; intros H.
  - cbn [precommit] in H. apply bind_ok in H as (l & s1 & E & H). apply ret_ok in H as [H ->].
    destruct (forallb _ _) in H; discriminate.
  - rewrite precommit_or in H. apply bind_ok in H as (r & s1 & E & H). cbv zeta in H. apply ret_ok in H as [H ->].
    destruct (existsb _ _) in H; discriminate.
  - cbn [precommit] in H. apply bind_ok in H as (pr & s1 & E & H). apply bind_ok in H as (c & s3 & E1 & H).
    apply bind_ok in H as (r & s4 & E2 & H). apply ret_ok in H as [H ->]. injection H as -> _ _.
    destruct k as [H0 g H1 h x al be bnd|com g h n isp x r0 rs|pk sg bs sv0 r1 r2 d1 d2|cls rows]; cbn [kprecommit] in E; cbv zeta in E.
    + repeat (apply bind_ok in E as (? & ? & _ & E)). apply ret_ok in E as [E ->]. discriminate.
    + destruct isp; [|discriminate]. repeat (apply bind_ok in E as (? & ? & _ & E)). apply ret_ok in E as [E ->]. discriminate.
    + destruct sg as [sg|]; [|discriminate]. destruct bs as [|b0 [|b1 [|b2 bs]]]; try discriminate.
    + apply ret_ok in E as [E ->]. discriminate.
Qed.
Lemma commit_nstr s : forall p rd st b p2 st2, internal_commit s p rd st = Ok ((VStr b, p2), st2) -> False.
Proof.
  induction s as [d|subs f IH|subs f ch IH|k f q|k f q con IH] using stmt_ind'; intros p rd st b p2 st2 H; destruct p; try discriminate.
  - cbn [internal_commit] in H. unfold commit_dl in H. do 3 (apply bind_ok in H as (? & ? & _ & H)).
    destruct (dl_bases d); [discriminate|]. apply bind_ok in H as (? & ? & _ & H). apply ret_ok in H as [H ->]. discriminate.
  - cbn [internal_commit] in H. do 4 (apply bind_ok in H as (? & ? & _ & H)). apply ret_ok in H as [H ->]. discriminate.
  - rewrite internal_commit_or in H. do 3 (apply bind_ok in H as (? & ? & _ & H)). apply ret_ok in H as [H ->]. discriminate.
  - cbn [internal_commit] in H. destruct con0 as [[]|]; try discriminate.
    apply bind_ok in H as ([c p0] & ? & E & H). apply ret_ok in H as [H ->]. injection H as H _. simpl in H. subst. eauto.
Qed.

Lemma prove_total U w s sd ord msg st : honest U w s sd (env st) -> Shape s -> Supplied sd w (env st) s -> Ords ord s -> Apart s ->
  (exists z s' st', prove s sd msg st = Ok ((z, s'), st')) \/
  exists p s1 st1 pre p2 s2 st2 com p3 st3 i,
    get_prover s sd st = Ok ((Some p, s1), st1) /\ precommit s1 p st1 = Ok ((pre, p2, s2), st2) /\
    internal_commit s2 p2 None st2 = Ok ((com, p3), st3) /\ get_proof_id s2 None = Ok i /\
    (Big (VStr (pystr i)) \/ Big pre \/ Big com).
Proof.
  intros HH HS SU HO HA. destruct (commit_ready U w s sd ord st HH HS SU HO HA)
    as (p & s1 & st1 & pre & p2 & s2 & st2 & com & p3 & st3 & GP & PC & IC & BT & RS).
  destruct (proof_id_total s2 BT) as ((i & EI) & _).
  assert (FA : forall v, (exists b, fs_arg v = Ok b) \/ (exists e, encode v = Err e) \/ exists b, v = VStr b).
  { intros v. assert (G : (exists b, encode v = Ok b) \/ exists e, encode v = Err e) by (destruct (encode v); eauto).
    destruct v; cbn [fs_arg]; eauto; destruct G as [G|G]; eauto. }
  assert (NSp : forall b, pre <> VStr b).
  { intros b ->. eapply precommit_nstr; eauto. }
  assert (NSc : forall b, com <> VStr b) by (intros b ->; eapply commit_nstr; eauto).
  destruct (encode (VStr (pystr i))) as [h|] eqn:EH.
  2:{ right. exists p, s1, st1, pre, p2, s2, st2, com, p3, st3, i. repeat split; auto. left. eapply encode_big; eauto. }
  destruct (FA pre) as [(b1 & F1)|[(e & F1)|(b & F1)]].
  2:{ right. exists p, s1, st1, pre, p2, s2, st2, com, p3, st3, i. repeat split; auto. right; left. eapply encode_big; eauto. }
  2:{ now apply NSp in F1. }
  destruct (FA com) as [(b2 & F2)|[(e & F2)|(b & F2)]].
  2:{ right. exists p, s1, st1, pre, p2, s2, st2, com, p3, st3, i. repeat split; auto. right; right. eapply encode_big; eauto. }
  2:{ now apply NSc in F2. }
  left. unfold prove, bind. rewrite GP. unfold get_nizk_proof, bind. rewrite PC, IC.
  assert (PH : prehash_input s2 = Ok h) by (unfold prehash_input; rewrite EI; exact EH). rewrite PH. unfold lift at 1.
  unfold fs_challenge, fs_input. cbn [rmap]. rewrite F1, F2. cbn [rbind]. unfold lift at 1.
  destruct (RS (be_int (sha256 (h ++ List.concat [b1; b2] ++ msg))) st3) as (r & ->). unfold ret. eauto.
Qed.
End T.

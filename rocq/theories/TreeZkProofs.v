(** Whole conversations about conjunctions with primitives defined by users: the honest ones are those of the simulator. *)
From Coq Require Import String Znumtheory Lia.
From Verif Require Import Base World Val Expr Utils Stmt Prove Verify Spec Claims Shapes Honest Clauses Supply Extract Runs Views Distrib
  Lib DictProofs Keeps Tree ArithProofs Sigma Validate Commit Build Process Lin Ktruth Provers Complete Compose Total Total2 Total3 Total4
  Frame SimIndep Sound Sound2 Sound3 ZkTree ZkPre WiCouple
  Complete2 Checks2 AnswerProofs Custom CustomProofs Mixed MixedProofs MixedProofs2 MixedOr MixedOrProofs MixedOrProofs2 Nested NestedProofs NestedProofs2 NestedProofs3 NestedSim NestedSimProofs Tutorial TutorialProofs TreeZk.
Open Scope Z_scope.
Open Scope list_scope.

Section Z.
Context {W : World}.

(** * get_prover *)
Lemma tgp_run P T : conjs P T -> forall sd e t p x st', tget T sd (mkSt e t p) = Ok (x, st') ->
  exists e', st' = mkSt e' t p /\ forall t2 p2, tget T sd (mkSt e t2 p2) = Ok (x, mkSt e' t2 p2).
Proof.
  induction T as [K b|s|l b IH|l b IH] using mtree_ind'; intros HC sd e t p x st' H; inversion HC as [? ? PK|? N1 N2|? ? F]; subst.
  - cbn [tget tshell] in *. unfold obj_of in *. cbn [set_simulated] in *. eapply gp_run; eauto. constructor. exact I.
  - cbn [tget tshell] in *. eapply gp_run; eauto. now apply noor_conj.
  - cbn [tget] in *. set (e1 := fold_left (fun e (kv : secret * Z) => upd e (sid (fst kv)) (Some (snd kv))) sd e).
    assert (E : forall t p, update_secret_values sd (mkSt e t p) = Ok (tt, mkSt e1 t p)) by reflexivity.
    unfold bind at 1 in H. rewrite E in H. destruct b.
    { injection H as <- <-. exists e1. split; auto. }
    apply bind_ok in H as (r & st1 & HM & H).
    assert (G : exists e2, st1 = mkSt e2 t p /\ forall t2 p2, mapM (fun s => tget s sd) l (mkSt e1 t2 p2) = Ok (r, mkSt e2 t2 p2)).
    { clear H HC E. clearbody e1. revert e1 r st1 HM.
      induction l as [|y l IHl]; intros e1 r st1 H1.
      - injection H1 as <- <-. exists e1. auto.
      - cbn [mapM] in H1. apply bind_ok in H1 as (z & st2 & Z1 & H1). apply bind_ok in H1 as (zs & st3 & Z2 & H1). injection H1 as <- <-.
        apply (Forall_inv IH) in Z1 as (e2 & -> & X1); [|exact (Forall_inv F)].
        apply IHl in Z2 as (e3 & -> & X2); [|exact (Forall_inv_tail IH)|exact (Forall_inv_tail F)].
        exists e3. split; auto. intros t2 p2. cbn [mapM]. unfold bind at 1. rewrite X1. unfold bind. now rewrite X2. }
    destruct G as (e2 & -> & G). exists e2. destruct (forallb _ r) eqn:EF; [|discriminate]. injection H as <- <-. split; auto.
    intros t2 p2. unfold bind at 1. rewrite E. unfold bind. rewrite G. now rewrite EF.
Qed.

(** values stay *)
Definition stays {A} (m : M A) : Prop := forall a x a', m a = Ok (x, a') -> forall i, env a i <> None -> env a' i <> None.
Lemma stays_update sd : stays (update_secret_values sd).
Proof.
  intros a x a' H. unfold update_secret_values in H. injection H as _ <-. cbn [env]. intros i. generalize (env a). induction sd as [|[k v] sd IH]; intros e He; cbn [fold_left]; auto.
  apply IH. unfold upd. cbn [fst snd]. destruct (Nat.eqb _ _); [discriminate|auto].
Qed.
Lemma update_given sd a a' x : update_secret_values sd a = Ok (tt, a') -> In x (map fst sd) -> env a' (sid x) <> None.
Proof.
  intros H. unfold update_secret_values in H. injection H as <-. cbn [env]. generalize (env a). induction sd as [|[k v] sd IH]; intros e []; cbn [fold_left map fst] in *.
  - subst. assert (G : forall sd e, e (sid x) <> None -> fold_left (fun e (kv : secret * Z) => upd e (sid (fst kv)) (Some (snd kv))) sd e (sid x) <> None).
    { clear. induction sd as [|[k v] sd IH]; intros e He; cbn [fold_left]; auto. apply IH. unfold upd. cbn [fst snd]. destruct (Nat.eqb _ _); [discriminate|auto]. }
    apply G. unfold upd. cbn [fst snd]. now rewrite Nat.eqb_refl.
  - now apply IH.
Qed.
Lemma stays_mapM {A B} (f : A -> M B) l : Forall (fun x => stays (f x)) l -> stays (mapM f l).
Proof.
  induction 1 as [|y l F _ IH]; intros a x a' H i.
  - injection H as _ <-. auto.
  - cbn [mapM] in H. apply bind_ok in H as (z & a1 & Z1 & H). apply bind_ok in H as (zs & a2 & Z2 & H). injection H as _ <-. eauto.
Qed.
Lemma stays_gp s : conj_of (fun _ => True) s -> forall sd, stays (get_prover s sd).
Proof.
  induction s as [d|subs b IH|subs b ch IH|k b q|k b q con IH] using stmt_ind'; intros HC sd a x a' H i; inversion HC as [|? ? F|]; subst.
  - cbn [get_prover] in *. unfold get_prover_dl in *. unfold bind, get_env, ret in *. destruct (empty_dict _ || _); injection H as _ <-; auto.
  - cbn [get_prover] in *. apply bind_ok in H as ([] & a1 & H1 & H). intros Hi. apply (stays_update _ _ _ _ H1) in Hi. destruct b.
    { injection H as _ <-. auto. }
    apply bind_ok in H as (l & a2 & HM & H). assert (X : env a2 i <> None).
    { refine (stays_mapM _ subs _ _ _ _ HM i Hi). rewrite Forall_forall in *. intros y Hy. apply IH; auto. }
    destruct (forallb _ l); [|discriminate]. injection H as _ <-. auto.
  - cbn [get_prover] in *. apply bind_ok in H as ([] & a1 & H1 & H). intros Hi. apply (stays_update _ _ _ _ H1) in Hi.
    unfold bind, get_env, ret in H. injection H as _ <-. auto.
  - cbn [get_prover] in *. apply bind_ok in H as ([] & a1 & H1 & H). intros Hi. apply (stays_update _ _ _ _ H1) in Hi.
    unfold bind, get_env, ret in H. injection H as _ <-. auto.
Qed.
Lemma stays_tget P T : conjs P T -> forall sd, stays (tget T sd).
Proof.
  induction T as [K b|s|l b IH|l b IH] using mtree_ind'; intros HC sd; inversion HC as [? ? PK|? N1 N2|? ? F]; subst.
  - cbn [tget tshell]. unfold obj_of. cbn [set_simulated]. apply stays_gp. constructor. exact I.
  - cbn [tget tshell]. apply stays_gp. now apply noor_conj.
  - intros a x a' H i Hi. cbn [tget] in H. apply bind_ok in H as ([] & a1 & H1 & H). apply (stays_update _ _ _ _ H1) in Hi. destruct b.
    { injection H as _ <-. auto. }
    apply bind_ok in H as (r & a2 & HM & H). assert (X : env a2 i <> None).
    { refine (stays_mapM _ l _ _ _ _ HM i Hi). rewrite Forall_forall in *. intros y Hy. apply IH; auto. }
    destruct (forallb _ r); [|discriminate]. injection H as _ <-. auto.
Qed.
(** the values given are there after get_prover *)
Lemma tget_given P T sd a x a' y : conjs P T -> match T with TS _ => False | _ => True end -> tget T sd a = Ok (x, a') ->
  In y (map fst sd) \/ env a (sid y) <> None -> env a' (sid y) <> None.
Proof.
  intros HC NT H [G|G]; [|eapply stays_tget; eauto].
  destruct T as [K b|s|l b|l b]; [| destruct NT | |inversion HC].
  - cbn [tget tshell] in H. unfold obj_of in H. cbn [set_simulated get_prover] in H. apply bind_ok in H as ([] & a1 & H1 & H).
    apply (update_given _ _ _ _ H1) in G. unfold bind, get_env, ret in H. injection H as _ <-. auto.
  - inversion HC as [| |? ? F]; subst. cbn [tget] in H. apply bind_ok in H as ([] & a1 & H1 & H). apply (update_given _ _ _ _ H1) in G. destruct b.
    { injection H as _ <-. auto. }
    apply bind_ok in H as (r & a2 & HM & H). assert (X : env a2 (sid y) <> None).
    { refine (stays_mapM _ l _ _ _ _ HM _ G). rewrite Forall_forall in *. intros z Hz. apply (stays_tget P); auto. }
    destruct (forallb _ r); [|discriminate]. injection H as _ <-. auto.
Qed.

(** * precommit *)
Lemma pre_none s p : pfit s p -> noor s -> forall a, precommit s p a = Ok ((VNone, p, s), a).
Proof.
  revert s p. apply (pfit_ind' (fun s p => noor s -> forall a, precommit s p a = Ok ((VNone, p, s), a))).
  - reflexivity.
  - intros subs b ps F N a. inversion N as [|? ? FN|]; subst.
    assert (G : exists l, (forall a, zipM precommit subs ps a = Ok (l, a)) /\ map (fun r => snd (fst r)) l = ps /\ map snd l = subs /\ forallb is_none (map (fun r => fst (fst r)) l) = true).
    { clear b N. induction F as [|x p subs ps [_ H] F IH]; [exists []; auto|]. destruct (IH (Forall_inv_tail FN)) as (l & E & A & B & C).
      exists ((VNone, p, x) :: l). split; [|cbn [map fst snd forallb is_none]; now rewrite A, B, C]. intros a'. cbn [zipM]. unfold bind. rewrite (H (Forall_inv FN)), E. reflexivity. }
    destruct G as (l & E & A & B & C). cbn [precommit]. unfold bind. rewrite E, A, B, C. reflexivity.
  - intros subs b c i x sp sims N _ H NO. inversion NO.
Qed.

Section Stage.
Variables (U V : list secret) (w0 : bytes -> Z).
Hypothesis HU : wfL U.
Hypothesis VU : incl V U.
Definition vals (e : nat -> option Z) : Prop := forall x, In x V -> e (sid x) = Some (w0 (sname x)).
Lemma vals_agree w e : (forall x, In x V -> w (sname x) = w0 (sname x)) -> agree w e U -> (forall x, In x V -> e (sid x) <> None) -> vals e.
Proof. intros WV A D x Hx. destruct (e (sid x)) as [v|] eqn:E; [|now apply D in E]. f_equal. rewrite <- WV by auto. apply A; auto. Qed.

Definition tstage (T : mtree) (n : nat) (q : nat -> Z) (to : (nat -> Z) -> nat -> Z) (X : list secret) : Prop :=
  forall w s p sx e t a u b, (forall x, In x V -> w (sname x) = w0 (sname x)) -> pstrip sx = pstrip (tshell T) ->
    tc U w T s p -> tsincere U w T s p (mkSt e t a) -> vals e ->
    exists pre p2 s2 e2,
      (forall t', congr n q (shift a t) (shift a t') -> Nested.tpre T s p (mkSt e t' a) = Ok ((pre, p2, s2), mkSt e2 t' (a + n))) /\
      vals e2 /\ svars s2 = X /\ noor s2 /\ tsent T (ZkPre.tpre s2) = pre /\
      (congr n q (shift b u) (to (shift a t)) ->
       forall e0, exists s', tprep T sx (mkSt e0 u b) = Ok (s', mkSt e0 u (b + n)) /\ strip s' = strip s2).

Lemma tstage_list l : Forall (fun T => exists n q to of X, bij n q to of /\ tstage T n q to X) l ->
  exists n q to of X, bij n q to of /\
  forall w ss ps lx e t a u b, (forall x, In x V -> w (sname x) = w0 (sname x)) -> map pstrip lx = map pstrip (map tshell l) ->
    Forall3 (tc U w) l ss ps -> each (tsincere U w) l ss ps (mkSt e t a) -> vals e ->
    exists rs e2,
      (forall t', congr n q (shift a t) (shift a t') -> zip3 Nested.tpre l ss ps (mkSt e t' a) = Ok (rs, mkSt e2 t' (a + n))) /\
      vals e2 /\ List.concat (map svars (map snd rs)) = X /\ Forall noor (map snd rs) /\
      tsents tsent l (map ZkPre.tpre (map snd rs)) = map (fun r => fst (fst r)) rs /\
      (congr n q (shift b u) (to (shift a t)) ->
       forall e0, exists l', zipM tprep l lx (mkSt e0 u b) = Ok (l', mkSt e0 u (b + n)) /\ map strip l' = map strip (map snd rs)).
Proof.
  induction l as [|T l IH]; intros F.
  - exists 0%nat, (fun _ => 0), (fun t => t), (fun t => t), []. split; [apply bij_nil|].
    intros w ss ps lx e t a u b WV E F3 SI VI. inversion F3; subst. destruct lx; [|discriminate].
    exists [], e. split; [intros t' _; cbn [zip3]; unfold ret; do 3 f_equal; lia|]. split; [auto|]. split; [reflexivity|]. split; [constructor|]. split; [reflexivity|].
    intros _ e0. exists []. split; [|reflexivity]. cbn [zipM]. unfold ret. do 3 f_equal. lia.
  - destruct (Forall_inv F) as (n & q & to & of & X & B1 & S1). destruct (IH (Forall_inv_tail F)) as (n' & q' & to' & of' & X' & B2 & S2).
    exists (n + n')%nat, (qapp n q q'), (tapp n to to'), (tapp n of of'), (X ++ X'). split; [now apply bij_app|].
    intros w ss ps lx e t a u b WV E F3 SI VI. inversion F3 as [|? s p ? ss' ps' F31 F32]; subst. destruct lx as [|sx lx]; [discriminate|].
    cbn [map] in E. apply cons_inj in E as [E1 E2]. cbn [each] in SI. destruct SI as [SI SI2].
    destruct (S1 w s p sx e t a u b WV E1 F31 SI VI) as (pre & p2 & s2 & e2 & T2 & VI2 & P1 & P2 & P3 & P4).
    destruct (S2 w ss' ps' lx e2 t (a + n)%nat u (b + n)%nat WV E2 F32) as (rs & e3 & T3 & VI3 & Q1 & Q2 & Q3 & Q4).
    { apply (SI2 (pre, p2, s2)). apply T2, congr_refl. }
    { exact VI2. }
    exists ((pre, p2, s2) :: rs), e3. split.
    { intros t' C. apply congr_app in C as [C1 C2]. cbn [zip3]. unfold bind at 1. rewrite (T2 t' C1).
      unfold bind. rewrite T3; [unfold ret; do 3 f_equal; lia|].
      eapply congr_ext; [| |exact C2]; intros; unfold shift; now rewrite Nat.add_assoc. }
    cbn [map fst snd List.concat tsents]. rewrite P1, Q1, P3, Q3. split; [auto|]. split; [auto|]. split; [constructor; auto|]. split; [auto|].
    intros C e0. apply congr_tapp in C as [C1 C2]. destruct (P4 C1 e0) as (s' & X1 & X2).
    destruct Q4 with (e0 := e0) as (l' & Y1 & Y2).
    { eapply congr_trans.
      - eapply congr_ext; [|reflexivity|exact C2]. intros. unfold shift. now rewrite Nat.add_assoc.
      - apply (proj1 (proj2 B2)). intros j _. unfold shift. rewrite Nat.add_assoc. rewrite Z.sub_diag. apply Z.divide_0_r. }
    exists (s' :: l'). split; [|cbn [map]; congruence].
    cbn [zipM]. unfold bind at 1. rewrite X1. unfold bind. rewrite Y1. unfold ret. do 3 f_equal. lia.
Qed.

Lemma tphase T : conjs (hiding V w0) T -> exists n q to of X, bij n q to of /\ tstage T n q to X.
Proof.
  induction T as [K b0|s0|l b0 IH|l b0 IH] using mtree_ind'; intros HC; inversion HC as [? ? HK|? N1 N2|? ? F]; subst.
  - destruct HK as (n & q & to & of & X & B & HK). exists n, q, to, of, X. split; [exact B|].
    intros w s p sx e t a u b WV E TC SI VI. inversion TC as [? ? sv| | |]; subst.
    destruct SI as (pre & a1 & c & a2 & CP & CC & HON).
    destruct (HK e t a (to (from a t)) 0%nat VI) as (pre' & c' & e1 & e2 & R & V2 & SV & NO & _).
    { intros j _. unfold from at 1. rewrite Z.sub_diag. apply Z.divide_0_r. }
    destruct (R t (congr_refl _ _ _)) as [R1 R2]. rewrite R1 in CP. injection CP as <- <-. rewrite R2 in CC. injection CC as <- <-. cbn [env] in HON.
    destruct HON as (N & H & SH & SU).
    destruct (leaf_ready U w c' sv (mkSt e2 t (a + n)) N H SH SU) as (p1 & c1 & a3 & v & GP & A3 & RY).
    assert (GPS := stays_gp c' ltac:(now apply noor_conj) sv _ _ _ GP).
    apply gp_run in GP as (e3 & -> & GP); [|now apply noor_conj]. cbn [env] in *.
    destruct RY as (Y1 & Y2 & Y3 & Y4 & Y5 & Y6 & Y7 & Y8 & Y9).
    assert (NC : noext c1) by (apply noext_pstrip; rewrite Y2; now apply noext_pstrip).
    exists pre', (PExt sv (Some (Some p1))), (set_simulated b0 (obj_of K pre' (Some c1))), e3. split.
    { intros t' C. destruct (R t' C) as [R1' R2']. unfold tshell, obj_of. cbn [set_simulated Nested.tpre]. unfold bind. rewrite R1', R2', GP. cbn [fst snd].
      rewrite inner_same by (intros ? [= <-]; exact Y1). reflexivity. }
    split.
    { apply (vals_agree w); auto. intros x Hx. apply GPS. rewrite (V2 x Hx). discriminate. }
    split; [cbn; rewrite <- SV; now apply svars_same|]. split; [cbn; constructor; now apply (noor_same c')|]. split; [reflexivity|].
    intros C e0. destruct (HK e t a u b VI C) as (pre2 & c2 & e4 & e5 & R' & _ & _ & _ & SM).
    destruct (R' t (congr_refl _ _ _)) as [R1' R2']. rewrite R1 in R1'. injection R1' as <- <-. rewrite R2 in R2'. injection R2' as <- <-.
    destruct (SM e0) as (S1 & c2 & S2 & S3). destruct sx as [| | |kx bx qx cx]; try discriminate E.
    eexists. split; [cbn [tprep]; unfold bind; rewrite S1, S2; reflexivity|].
    unfold obj_of. cbn [set_simulated strip]. do 2 f_equal.
    assert (NC2 : noext c2) by (apply noext_pstrip; rewrite S3; now apply noext_pstrip).
    rewrite (noext_pstrip_strip c2), (noext_pstrip_strip c1) by auto. congruence.
  - exists 0%nat, (fun _ => 0), (fun t => t), (fun t => t), (svars s0). split; [apply bij_nil|].
    intros w s p sx e t a u b WV E TC SI VI. inversion TC as [|? ? ? v N R| |]; subst.
    destruct R as (Y1 & Y2 & Y3 & Y4 & Y5 & Y6 & Y7 & Y8 & Y9). cbn [tshell] in E.
    assert (NO : noor s) by (now apply (noor_same s0)).
    assert (NS : noext s) by (apply noext_pstrip; rewrite Y2; now apply noext_pstrip).
    exists VNone, p, s, e. split; [intros t' _; cbn [Nested.tpre]; rewrite pre_none by auto; do 3 f_equal; lia|]. split; [auto|].
    split; [now apply svars_same|]. split; [auto|]. split; [destruct (ZkPre.tpre s); reflexivity|].
    intros _ e0. assert (NX : noext sx) by (apply noext_pstrip; rewrite E; now apply noext_pstrip). exists sx. split.
    + replace (tprep (TS s0) sx) with (prepare_sim sx) by (destruct sx; reflexivity). rewrite prepare_noext by auto. do 3 f_equal. lia.
    + rewrite !noext_pstrip_strip by auto. congruence.
  - assert (F' : Forall (fun T => exists n q to of X, bij n q to of /\ tstage T n q to X) l).
    { rewrite Forall_forall in *. auto. }
    destruct (tstage_list l F') as (n & q & to & of & X & B & ST). exists n, q, to, of, X. split; [exact B|].
    intros w s p sx e t a u b WV E TC SI VI. inversion TC as [| |? ? ss ps F3|]; subst. destruct sx as [|lx bx| |]; try discriminate E. cbn [tshell pstrip] in E. injection E as E.
    destruct (ST w ss ps lx e t a u b WV E F3 SI VI) as (rs & e2 & T2 & VI2 & Q1 & Q2 & Q3 & Q4).
    exists (pre_list (map (fun r => fst (fst r)) rs)), (PAnd (map (fun r => snd (fst r)) rs)), (SAnd (map snd rs) b0), e2. split.
    { intros t' C. cbn [Nested.tpre]. unfold bind. rewrite (T2 t' C). reflexivity. }
    split; [auto|]. split; [exact Q1|]. split; [now constructor|]. split; [cbn [tsent ZkPre.tpre]; now rewrite Q3|].
    intros C e0. destruct (Q4 C e0) as (l' & X1 & X2). exists (SAnd l' bx). split; [|cbn [strip]; now rewrite X2]. cbn [tprep]. unfold bind. rewrite X1. reflexivity.
Qed.

Lemma tb_noor T : forall c s, tb U T c s -> noor s -> noor c /\ forall ord, ordOK ord c -> ordOK ord s.
Proof.
  induction T as [K b|s0|l b IH|l b IH] using mtree_ind'; intros c s B N; inversion B as [? ? ? c0 v b' MA PS NN NE WF IN|? ? PS NE WF IN|? ? cs ss b' F|]; subst.
  - inversion N; subst. split; [auto|]. intros ord O. cbn. constructor. auto.
  - auto.
  - inversion N as [|? ? FN|]; subst. assert (G : Forall noor cs /\ forall ord, Forall (ordOK ord) cs -> Forall (ordOK ord) ss).
    { clear B N. induction F as [|T c s l cs ss B F IHF]; [split; [constructor|auto]|].
      destruct (Forall_inv IH c s B (Forall_inv FN)) as [X1 X2]. destruct (IHF (Forall_inv_tail IH) (Forall_inv_tail FN)) as [X3 X4].
      split; [now constructor|]. intros ord O. inversion O; subst. constructor; auto. }
    destruct G as [G1 G2]. split; [now constructor|]. intros ord O. inversion O; subst. constructor. auto.
  - inversion N.
Qed.
Lemma shell_pstrip T : pstrip (set_simulated true (tshell T)) = pstrip (tshell T).
Proof. apply set_simulated_pstrip. Qed.

Lemma tree_phase T sd ord e e0 : conjs (hiding V w0) T -> match T with TS _ => False | _ => True end -> heard T ->
  (forall c0, fill T c0 -> Ords ord c0) -> (forall x, In x V -> In x (map fst sd) \/ e (sid x) <> None) ->
  (forall t, exists w, (forall x, In x V -> w (sname x) = w0 (sname x)) /\ entries_ok U w sd /\ agree w e U /\ tok U w sd e T /\
     forall p s a, tget T sd (mkSt e t 0) = Ok ((Some p, s), a) -> tsincere U w T s p a) ->
  exists n q to of X, phase (fun s => exists c, tb U T c s) (topen T sd) (tprep T (set_simulated true (tshell T))) (tsent T) n q to of X ord e e0.
Proof.
  intros HC NT HE FI GV HT. destruct (tphase T HC) as (n & q & to & of & X & B & ST).
  exists n, q, to, of, X. split; [exact B|]. intros t.
  destruct (HT t) as (w & WV & EN & AG & TO & SI).
  destruct (tget_ok U w T sd e HU EN TO HE (mkSt e t 0) AG) as (p & s & a1 & GP & A1 & TC). assert (SI' := SI _ _ _ GP).
  assert (VI : vals (env a1)).
  { apply (vals_agree w); auto. intros x Hx. eapply (tget_given _ T sd (mkSt e t 0)); eauto. }
  destruct (tpre_ok U w T HE s p a1 TC SI') as (v & p' & s' & c' & a2 & E2 & TB & PR & RD).
  apply (tgp_run _ T HC) in GP as (e1 & -> & GP). cbn [env] in *.
  destruct (ST w s p (set_simulated true (tshell T)) e1 t 0%nat t 0%nat WV (shell_pstrip T) TC SI' VI) as (pre & p2 & s2 & e2 & T2 & VI2 & SV & NO & TS' & _).
  assert (E2' := T2 t (congr_refl _ _ _)). rewrite E2 in E2'. injection E2' as <- <- <- ->.
  destruct (tb_good U T c' s' TB) as (N & I2 & I3 & I4 & I5 & I6 & I7 & I8 & I9 & c0 & F0 & PS).
  destruct (tb_noor T c' s' TB NO) as [NOC OC]. assert (OR := FI c0 F0).
  assert (ORc : Ords ord c') by (eapply Ords_same; [symmetry; exact PS|auto]).
  exists v, p', s', e2, w, U. split.
  { intros t' C. unfold topen, bind. rewrite GP. exact (T2 t' C). }
  split; [exact RD|]. split; [exact SV|]. split; [exact NO|]. split; [apply OC, Ords_ordOK; auto|]. split; [exact I4|]. split; [exact I3|]. split; [exact HU|]. split; [exact I6|].
  split.
  { apply I8. apply (Apart_checked ord); auto using Tree.noext_built, noext_ConOK; try (rewrite (noext_kinds _ N); constructor).
    eapply conj_Apart. apply noor_conj; auto. }
  split; [exact TS'|]. split; [now exists c'|]. intros u Cu.
  destruct (ST w s p (set_simulated true (tshell T)) e1 t 0%nat u 0%nat WV (shell_pstrip T) TC SI' VI) as (pre & p2 & s2 & e3 & T2' & _ & _ & _ & _ & SM).
  assert (E3 := T2' t (congr_refl _ _ _)). rewrite E2 in E3. injection E3 as <- <- <- _. exact (SM Cu e0).
Qed.
Theorem tree_zk T sd ord e e0 c : conjs (hiding V w0) T -> match T with TS _ => False | _ => True end -> heard T ->
  (forall c0, fill T c0 -> Ords ord c0) -> (forall x, In x V -> In x (map fst sd) \/ e (sid x) <> None) ->
  (forall t, exists w, (forall x, In x V -> w (sname x) = w0 (sname x)) /\ entries_ok U w sd /\ agree w e U /\ tok U w sd e T /\
     forall p s a, tget T sd (mkSt e t 0) = Ok ((Some p, s), a) -> tsincere U w T s p a) ->
  (forall t, exists pre com r, outcome (tconv T sd c) e t = Ok (pre, com, r)) /\
  same_distribution (outcome (tconv T sd c) e) (outcome (tsimconv T c) e0).
Proof.
  intros HC NT HE FI GV HT. destruct (tree_phase T sd ord e e0 HC NT HE FI GV HT) as (n & q & to & of & X & P). exact (phase_zk _ _ _ _ n q to of X ord e e0 c P).
Qed.
End Stage.

(** * The library's primitives *)
Lemma lib_hiding V w k : kshape k -> kreal w k -> blinded w k -> incl (kuser k) V -> wfL (kuser k ++ kint k) ->
  NoDup (map sid (kint k)) -> (forall x y, In x (kint k) -> In y V -> sid x <> sid y) -> hiding V w (class_of k).
Proof.
  intros KS KR KB IV WF ND DJ. destruct (kpre_bij w k KS KR KB) as (to & of & B & P).
  exists (nd k), (fun _ => qk k), to, of, (kvars k). split; [exact B|]. intros e t a u b VI C.
  assert (KD : kdisj k) by (split; auto).
  destruct (P e t a u b ltac:(auto) KD C) as (pre & e1 & K1 & K2 & K3 & K4). cbn [class_of c_pre c_con c_sim].
  assert (NC : forall k', k' = k -> forall e, vkOK e k').
  { intros k' -> e'. destruct k; simpl in *; auto; contradiction. }
  destruct (prepare_total (SExt k false VNone None) (mkSt (fun _ => None) u b)) as (s' & st' & PR & _).
  { now constructor. }
  { repeat constructor. destruct k; simpl in *; auto; contradiction. }
  { repeat constructor. now apply NC. }
  cbn [prepare_sim] in PR. apply bind_ok in PR as (pre' & a1 & X1 & PR). rewrite K4 in X1. injection X1 as <- <-.
  unfold full_construct in PR. apply bind_ok in PR as (c' & a2 & X2 & _).
  assert (CON : forall st, exists c, construct k pre st = Ok (c, st) /\ Sim idn idn c' c).
  { intros st. destruct (construct_sim idn idn k k pre _ c' _ st (KSim_refl k) X2 ltac:(now apply NC)) as (c & Y1 & Y2). eauto. }
  assert (SAME : forall st c st2 c2, construct k pre st = Ok (c, st) -> construct k pre st2 = Ok (c2, st2) -> pstrip c = pstrip c2).
  { intros st c st2 c2 Y1 Y2. destruct (construct_sim idn idn k k pre _ c _ st2 (KSim_refl k) Y1 ltac:(now apply NC)) as (c3 & Y3 & Y4). rewrite Y2 in Y3. injection Y3 as <-.
    pose proof (construct_leafy _ _ _ _ _ Y1) as [_ L1]. pose proof (construct_leafy _ _ _ _ _ Y2) as [_ L2].
    rewrite <- !noext_pstrip_strip by (eapply leafy_noext; eauto). eapply Sim_id_strip; eauto using leafy_noext; eapply leafy_svars; eauto. }
  destruct (CON (mkSt e1 t (a + nd k))) as (c & Y1 & _). destruct (con_svars w k pre _ c _ KB Y1) as [SV NO].
  exists pre, c, e1, e1. split; [|split; [|split; [exact SV|split; [exact NO|]]]].
  - intros t' Ct. split; [now apply K1|]. apply (construct_calm w k pre KB _ _ _ _ _ Y1).
  - intros x Hx. rewrite <- (VI x Hx). apply (kprecommit_frame k _ _ _ (K1 t (congr_refl _ _ _))). intros I. apply in_map_iff in I as (y & E & I). exact (DJ y x I Hx E).
  - intros e0. split; [now apply K4|]. destruct (CON (mkSt e0 u (b + nd k))) as (c2 & Y2 & _). exists c2. split; [exact Y2|]. eapply SAME; eauto.
Qed.
Lemma hiding_same V w K K' : (forall a, c_pre K a = c_pre K' a) -> (forall p a, c_con K p a = c_con K' p a) -> (forall a, c_sim K a = c_sim K' a) -> hiding V w K' -> hiding V w K.
Proof.
  intros P C S (n & q & to & of & X & B & H). exists n, q, to, of, X. split; [exact B|]. intros e t a u b VI CG.
  destruct (H e t a u b VI CG) as (pre & c & e1 & e2 & R & V2 & SV & NO & SM). exists pre, c, e1, e2. split; [|split; [auto|split; [auto|split; [auto|]]]].
  - intros t' Ct. rewrite P, C. now apply R.
  - intros e0. rewrite S. destruct (SM e0) as (S1 & c' & S2 & S3). split; [exact S1|]. exists c'. rewrite C. auto.
Qed.
Theorem neq_hiding H0 g H1 h x al be V w : let q := order (grp g) in
  has_sub (grp g) = true -> grp H0 = grp g -> grp H1 = grp g -> grp h = grp g -> prime q -> generated (grp g) -> H1 <> pmul (w (sname x)) h ->
  wfL [x; al; be] -> sid al <> sid be -> In x V -> (forall y, In y V -> sid y <> sid al /\ sid y <> sid be) ->
  hiding V w (tutorial_neq H0 g H1 h x al be).
Proof.
  intros q HS G0 G1 G2 PR GN NE WF D IX DJ. destruct (neq_same H0 g H1 h x al be) as (_ & A1 & A2 & _).
  apply (hiding_same V w _ (class_of (KNeq H0 g H1 h x al be false)) A1 A2 ltac:(reflexivity)). apply lib_hiding; simpl; auto.
  - intros y [<-|[]]. exact IX.
  - constructor; [|repeat constructor; simpl; tauto]. intros [E|[]]. congruence.
  - intros y z [<-|[<-|[]]] Hz; destruct (DJ z Hz); congruence.
Qed.
End Z.

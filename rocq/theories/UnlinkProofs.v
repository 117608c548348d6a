(** Two honest provers of one public statement: their conversations and proofs have the same distribution. *)
From Coq Require Import String Znumtheory.
From Verif Require Import Base World Val Expr Utils Stmt Prove Verify Spec Claims Shapes Honest Clauses Supply Extract Runs Views Distrib Unlink
  Lib DictProofs Keeps Tree ArithProofs Sigma Validate Commit Build Process Lin Ktruth Provers Complete Compose Total Total2 Total3 Total4
  Frame SimIndep Sound Sound2 Sound3 ZkTree ZkPre.
Open Scope Z_scope.
Open Scope list_scope.

(** Two experiments whose parts are a public function of moved random numbers; the move depends on the challenge, the
    challenge on the part that is the same for every challenge. *)
Lemma chal_dist {X R A} (N : nat) (Q : nat -> Z) (pub : Z -> (nat -> Z) -> X * R) (ch : X -> Z) (Fn : X -> R -> A)
  (TA OA TB OB : Z -> (nat -> Z) -> nat -> Z) (fA fB : (nat -> Z) -> A) :
  (forall c, bij N Q (TA c) (OA c)) -> (forall c, bij N Q (TB c) (OB c)) ->
  (forall t, exists x rs, (forall c u, congr N Q u (TA c t) -> pub c u = (x, rs c)) /\ fA t = Fn x (rs (ch x))) ->
  (forall t, exists x rs, (forall c u, congr N Q u (TB c t) -> pub c u = (x, rs c)) /\ fB t = Fn x (rs (ch x))) ->
  same_distribution fA fB.
Proof.
  intros BA BB HA HB.
  set (xA t := fst (pub 0 (TA 0 t))). set (xB t := fst (pub 0 (TB 0 t))).
  assert (GA : forall t, (forall c u, congr N Q u (TA c t) -> fst (pub c u) = xA t) /\
      forall u, congr N Q u (TA (ch (xA t)) t) -> fA t = Fn (xA t) (snd (pub (ch (xA t)) u))).
  { intros t. destruct (HA t) as (x & rs & H1 & H2). assert (E : xA t = x) by (unfold xA; rewrite H1 by apply congr_refl; reflexivity).
    rewrite E. split; [intros c u C; now rewrite (H1 c u C)|]. intros u C. now rewrite (H1 _ u C). }
  assert (GB : forall t, (forall c u, congr N Q u (TB c t) -> fst (pub c u) = xB t) /\
      forall u, congr N Q u (TB (ch (xB t)) t) -> fB t = Fn (xB t) (snd (pub (ch (xB t)) u))).
  { intros t. destruct (HB t) as (x & rs & H1 & H2). assert (E : xB t = x) by (unfold xB; rewrite H1 by apply congr_refl; reflexivity).
    rewrite E. split; [intros c u C; now rewrite (H1 c u C)|]. intros u C. now rewrite (H1 _ u C). }
  clear HA HB.
  assert (CA : forall t t', congr N Q t t' -> xA t = xA t').
  { intros t t' C. rewrite <- (proj1 (GA t) 0 (TA 0 t')); [reflexivity|]. apply (BA 0). now apply congr_sym. }
  assert (CB : forall t t', congr N Q t t' -> xB t = xB t').
  { intros t t' C. rewrite <- (proj1 (GB t) 0 (TB 0 t')); [reflexivity|]. apply (BB 0). now apply congr_sym. }
  set (to t := OB (ch (xA t)) (TA (ch (xA t)) t)). set (of t := OA (ch (xB t)) (TB (ch (xB t)) t)).
  assert (XT : forall t, xB (to t) = xA t).
  { intros t. unfold to. set (c := ch (xA t)). destruct (BB c) as (_ & _ & _ & _ & B5).
    rewrite <- (proj1 (GB _) c (TA c t)); [apply (proj1 (GA t)), congr_refl|]. apply congr_sym, B5. }
  assert (XO : forall t, xA (of t) = xB t).
  { intros t. unfold of. set (c := ch (xB t)). destruct (BA c) as (_ & _ & _ & _ & B5).
    rewrite <- (proj1 (GA _) c (TB c t)); [apply (proj1 (GB t)), congr_refl|]. apply congr_sym, B5. }
  exists N, Q, to, of. split; [apply (BA 0)|]. repeat apply conj.
  - intros t t' C. rewrite (proj2 (GA t) _ (congr_refl _ _ _)). symmetry.
    pose proof (proj2 (GA t') (TA (ch (xA t')) t)) as E. rewrite <- (CA t t' C) in E. apply E. now apply (BA (ch (xA t))).
  - intros t t' C. rewrite (proj2 (GB t) _ (congr_refl _ _ _)). symmetry.
    pose proof (proj2 (GB t') (TB (ch (xB t')) t)) as E. rewrite <- (CB t t' C) in E. apply E. now apply (BB (ch (xB t))).
  - intros t t' C. unfold to. rewrite <- (CA t t' C). apply (BB (ch (xA t))). now apply (BA (ch (xA t))).
  - intros t t' C. unfold of. rewrite <- (CB t t' C). apply (BA (ch (xB t))). now apply (BB (ch (xB t))).
  - intros t. unfold of. rewrite XT. unfold to. set (c := ch (xA t)). destruct (BB c) as (_ & _ & _ & _ & B5).
    destruct (BA c) as (_ & _ & A3 & A4 & _). eapply congr_trans; [apply A3, B5|apply A4].
  - intros t. unfold to. rewrite XO. unfold of. set (c := ch (xB t)). destruct (BA c) as (_ & _ & _ & _ & B5).
    destruct (BB c) as (_ & _ & A3 & A4 & _). eapply congr_trans; [apply A3, B5|apply A4].
  - intros t. rewrite (proj2 (GA t) _ (congr_refl _ _ _)). symmetry.
    pose proof (proj2 (GB (to t)) (TA (ch (xA t)) t)) as E. rewrite XT in E. apply E.
    unfold to. apply congr_sym. apply (BB (ch (xA t))).
Qed.

Section P.
Context {W : World}.

(** * What a renaming leaves alone *)
Lemma ksim_same f g w k k' : KSim f g k k' -> blinded w k ->
  nd k = nd k' /\ qk k = qk k' /\ Forall2 (ren f g) (kvars k) (kvars k') /\ (forall st, ksim_precommit k st = ksim_precommit k' st) /\
  forall e, vkOK e k'.
Proof.
  intros H B. destruct H; simpl in B; try (destruct B; fail).
  - repeat (split; [reflexivity|]). split; [simpl; destruct bnd; repeat (constructor; [eassumption|]); constructor|].
    split; [reflexivity|]. intros e. exact Logic.I.
  - repeat (split; [reflexivity|]). split; [|split; [reflexivity|intros e; exact Logic.I]].
    simpl. destruct H as [|x y l m Hx Hl]; simpl; repeat (constructor; [eassumption|]); [constructor|exact Hl].
Qed.
Lemma Pat_nst f g w s : forall v, Pat f g s v -> conj_of (blinded w) s ->
  nst s = nst v /\ qst s = qst v /\ Forall2 (ren f g) (cvars s) (cvars v).
Proof.
  induction s as [d|subs b IH|subs b ch IH|k b q|k b q con IH] using stmt_ind'; intros v H C; inversion H; inversion C; subst.
  - auto.
  - cbn [nst qst cvars]. match goal with X : Forall2 (Pat f g) _ _ |- _ => rename X into HF end.
    match goal with X : Forall (conj_of _) _ |- _ => rename X into HC end. clear H C.
    revert HC. induction HF as [|x y l m Hxy HF IHF]; intros HC; [repeat split; constructor|].
    inversion IH; inversion HC; subst. destruct (H1 y Hxy) as (E1 & E2 & E3); auto. destruct IHF as (F1 & F2 & F3); auto.
    cbn [fold_right map List.concat]. rewrite E1, E2, F1, F2. repeat split. now apply Forall2_app.
  - cbn [nst qst cvars]. match goal with X : KSim _ _ _ _ |- _ => destruct (ksim_same _ _ _ _ _ X ltac:(eassumption)) as (E1 & E2 & E3 & _) end.
    rewrite E1, E2. auto.
  - cbn [nst qst cvars]. match goal with X : KSim _ _ _ _ |- _ => destruct (ksim_same _ _ _ _ _ X ltac:(eassumption)) as (E1 & E2 & E3 & _) end.
    rewrite E1, E2. auto.
Qed.
Lemma Pat_prepare f g w s : forall v, Pat f g s v -> conj_of (blinded w) s -> forall e u b s' st', prepare_sim s (mkSt e u b) = Ok (s', st') ->
  exists v', prepare_sim v (mkSt e u b) = Ok (v', st') /\ Sim f g s' v'.
Proof.
  assert (EXT : forall k k' b b' p p' c c', KSim f g k k' -> blinded w k ->
    forall e u a s' st', prepare_sim (SExt k b p c) (mkSt e u a) = Ok (s', st') ->
    exists v', prepare_sim (SExt k' b' p' c') (mkSt e u a) = Ok (v', st') /\ Sim f g s' v').
  { intros k k' b b' p p' c c' HK HB e u a s' st' H. destruct (ksim_same _ _ _ _ _ HK HB) as (_ & _ & _ & E & VK).
    cbn [prepare_sim] in *. apply bind_ok in H as (pre & st1 & H1 & H). unfold full_construct in H.
    apply bind_ok in H as (con & st2 & H2 & H). apply ret_ok in H as [<- ->].
    pose proof (construct_leafy _ _ _ _ _ H2) as [-> _].
    destruct (construct_sim f g k k' pre st1 con st1 st1 HK H2 (VK _)) as (con' & X1 & X2).
    eexists. split; [|constructor; eassumption]. unfold bind at 1. rewrite <- E, H1. unfold full_construct, bind. rewrite X1. reflexivity. }
  induction s as [d|subs b IH|subs b ch IH|k b q|k b q con IH] using stmt_ind'; intros v H C e u a s' st' R; inversion H; inversion C; subst.
  - cbn [prepare_sim] in *. apply ret_ok in R as [<- ->]. eexists. split; [reflexivity|]. now constructor.
  - cbn [prepare_sim] in *. apply bind_ok in R as (l & st1 & R & X). apply ret_ok in X as [<- ->].
    match goal with X : Forall2 (Pat f g) _ _ |- _ => rename X into HF end.
    match goal with X : Forall (conj_of _) _ |- _ => rename X into HC end. clear H C.
    assert (G : exists l'', mapM prepare_sim l' (mkSt e u a) = Ok (l'', st1) /\ Forall2 (Sim f g) l l'').
    { clear b'. revert HC a e u l st1 R. induction HF as [|x y m m' Hxy HF IHF]; intros HC a e u l st1 R.
      - apply ret_ok in R as [<- ->]. exists []. split; [reflexivity|constructor].
      - inversion IH; inversion HC; subst. cbn [mapM] in R. apply bind_ok in R as (z & sta & Z1 & R). apply bind_ok in R as (zs & stb & Z2 & R).
        apply ret_ok in R as [<- ->]. destruct sta as [e1 u1 a1]. destruct (H1 y Hxy ltac:(auto) _ _ _ _ _ Z1) as (z' & Y1 & Y2).
        destruct (IHF ltac:(auto) ltac:(auto) _ _ _ _ _ Z2) as (zs' & Y3 & Y4). exists (z' :: zs'). split; [|constructor; auto].
        cbn [mapM]. unfold bind at 1. rewrite Y1. unfold bind. rewrite Y3. reflexivity. }
    destruct G as (l'' & G1 & G2). eexists. split; [unfold bind; rewrite G1; reflexivity|]. now constructor.
  - eapply EXT; eauto.
  - eapply EXT; eauto.
Qed.
Lemma Sim_tpre f g s : forall v, Sim f g s v -> tpre s = tpre v.
Proof.
  induction s as [d|subs b IH|subs b ch IH|k b q|k b q con IH] using stmt_ind'; intros v H; inversion H; subst; cbn [tpre]; auto;
    f_equal; match goal with X : Forall2 _ _ _ |- _ => rename X into HF end; clear H;
    induction HF as [|x y m m' Hxy HF IHF]; cbn [map]; auto; inversion IH; subst; f_equal; auto.
Qed.
Lemma ren_map f g (l m : list secret) : Forall2 (ren f g) l m -> map sname m = map f (map sname l) /\ map sname l = map g (map sname m).
Proof. induction 1 as [|x y l m [E1 E2] H [I1 I2]]; simpl; [auto|]. split; f_equal; auto. Qed.
Lemma ren_fun {A} f g (R : bytes -> A) (l m : list secret) : Forall2 (ren f g) l m ->
  map (fun x => R (sname x)) l = map (fun x => R (g (sname x))) m.
Proof. induction 1 as [|x y l m [E1 E2] H I]; simpl; [auto|]. f_equal; auto. now rewrite E2. Qed.
Lemma Sim_views f g R c s : forall v, Sim f g s v -> scom R c s = scom (fun n => R (g n)) c v /\ vresp R s = vresp (fun n => R (g n)) v.
Proof.
  induction s as [d|subs b IH|subs b ch IH|k b q|k b q con IH] using stmt_ind'; intros v H; inversion H; subst; cbn [scom vresp]; auto.
  - match goal with X : Forall2 _ _ _ |- _ => rewrite (ren_fun f g R _ _ X) end. split; congruence.
  - match goal with X : Forall2 _ _ _ |- _ => rename X into HF end. clear H.
    assert (G : map (scom R c) subs = map (scom (fun n => R (g n)) c) l' /\ map (vresp R) subs = map (vresp (fun n => R (g n))) l').
    { induction HF as [|x y m m' Hxy HF IHF]; cbn [map]; auto. inversion IH; subst. destruct (H1 y Hxy) as [E1 E2]. destruct IHF as [F1 F2]; auto.
      split; f_equal; auto. }
    destruct G as [-> ->]. auto.
Qed.
(** names in order, renamed *)
Lemma addn_map f g l n : (forall x, In x (n :: l) -> g (f x) = x) -> addn (map f l) (f n) = map f (addn l n).
Proof.
  intros H. unfold addn. assert (E : existsb (bytes_eqb (f n)) (map f l) = existsb (bytes_eqb n) l).
  { induction l as [|x l IH]; [reflexivity|]. simpl. f_equal; [|apply IH; intros y [<-|Hy]; apply H; simpl; auto].
    destruct (bytes_eqb n x) eqn:E.
    - apply bytes_eqb_eq in E. subst. apply bytes_eqb_refl.
    - destruct (bytes_eqb (f n) (f x)) eqn:E2; [|reflexivity]. apply bytes_eqb_eq in E2. apply (f_equal g) in E2.
      rewrite !H in E2 by (simpl; auto). subst. now rewrite bytes_eqb_refl in E. }
  rewrite E. destruct (existsb _ l); [reflexivity|]. now rewrite map_app.
Qed.
Lemma nubn_map f g l : (forall x, In x l -> g (f x) = x) -> nubn (map f l) = map f (nubn l).
Proof.
  unfold nubn. assert (G : forall l acc, (forall x, In x (l ++ acc) -> g (f x) = x) -> fold_left addn (map f l) (map f acc) = map f (fold_left addn l acc)).
  { clear l. induction l as [|x l IH]; intros acc H; [reflexivity|]. cbn [map fold_left]. rewrite (addn_map f g).
    - apply IH. intros y Hy. apply in_app_iff in Hy as [Hy|Hy]; [apply H; simpl; rewrite in_app_iff; auto|].
      apply addn_in in Hy as [Hy| ->]; apply H; simpl; rewrite ?in_app_iff; auto.
    - intros y [<-|Hy]; apply H; simpl; rewrite ?in_app_iff; auto. }
  intros H. apply (G l []). intros x Hx. rewrite app_nil_r in Hx. auto.
Qed.
Lemma npos_map f g l n : (forall x, In x (n :: l) -> g (f x) = x) -> npos (f n) (map f l) = npos n l.
Proof.
  intros H. induction l as [|x l IH]; [reflexivity|]. cbn [map npos].
  assert (E : bytes_eqb (f n) (f x) = bytes_eqb n x).
  { destruct (bytes_eqb n x) eqn:E.
    - apply bytes_eqb_eq in E. subst. apply bytes_eqb_refl.
    - destruct (bytes_eqb (f n) (f x)) eqn:E2; [|reflexivity]. apply bytes_eqb_eq in E2. apply (f_equal g) in E2.
      rewrite !H in E2 by (simpl; auto). subst. now rewrite bytes_eqb_refl in E. }
  assert (E' : bytes_eqb (f x) (f n) = bytes_eqb x n).
  { destruct (bytes_eqb x n) eqn:E1.
    - apply bytes_eqb_eq in E1. subst. apply bytes_eqb_refl.
    - destruct (bytes_eqb (f x) (f n)) eqn:E2; [|reflexivity]. apply bytes_eqb_eq in E2. apply (f_equal g) in E2.
      rewrite !H in E2 by (simpl; auto). subst. now rewrite bytes_eqb_refl in E1. }
  rewrite ?E, ?E'. rewrite IH; [reflexivity|]. intros y [<-|Hy]; apply H; simpl; auto.
Qed.

Lemma Pat_Ords f g w ord s : forall v, Pat f g s v -> conj_of (blinded w) s -> Ords ord v -> Ords (fun n => ord (f n)) s.
Proof.
  assert (EXT : forall k k' b p c b' p' c', KSim f g k k' -> blinded w k -> Ords ord (SExt k' b' p' c') -> Ords (fun n => ord (f n)) (SExt k b p c)).
  { intros k k' b p c b' p' c' HK HB HO. inversion HO as [| | |? ? ? ? KO]; subst. constructor.
    destruct HK; simpl in HB; try (destruct HB; fail); cbn [kord] in *.
    - intros y q Hy Hq. assert (E : exists y', sname y' = f (sname y) /\ In y' [x'; al'; be']).
      { destruct Hy as [<-|[<-|[<-|[]]]]; match goal with X : ren f g ?a ?b |- exists y', _ = f (sname ?a) /\ _ => exists b; split; [apply X|simpl; auto] end. }
      destruct E as (y' & <- & Hy'). now apply KO.
    - intros y q Hy Hq. assert (E : exists y', In y' (sv' ++ [r1'; r2'; d1'; d2']) /\ ren f g y y').
      { eapply Forall2_in_l_ex; [|exact Hy]. apply Forall2_app; [eassumption|]. repeat (constructor; [eassumption|]). constructor. }
      destruct E as (y' & Hy' & <- & _). now apply KO. }
  induction s as [d|subs b IH|subs b ch IH|k b q|k b q con IH] using stmt_ind'; intros v H C HO; inversion H; inversion C; subst.
  - inversion HO as [? HD| | |]; subst. constructor. intros x b Hxb. match goal with X : dl_bases d = _ |- _ => rewrite X in Hxb end.
    match goal with X : Forall2 (ren f g) _ _ |- _ => rename X into HF end.
    assert (E : exists x', In (x', b) (combine (dl_secs d') (dl_bases d')) /\ ren f g x x').
    { clear -HF Hxb. revert Hxb. generalize (dl_bases d') as bs. induction HF as [|y y' l m R HF IH]; intros [|b0 bs] Hxb; try (destruct Hxb; fail).
      destruct Hxb as [Hxb|Hxb]; [injection Hxb as -> ->; exists y'; simpl; auto|]. destruct (IH bs Hxb) as (x' & H1 & H2). exists x'. simpl. auto. }
    destruct E as (x' & E & <- & _). now apply HD.
  - inversion HO; subst. constructor. match goal with X : Forall2 (Pat f g) _ _ |- _ => rename X into HF end. clear H C HO.
    induction HF as [|x y l m Hxy HF IHF]; constructor;
    repeat match goal with X : Forall _ (_ :: _) |- _ => inversion X; clear X; subst end; eauto.
  - eapply EXT; eauto.
  - eapply EXT; eauto.
Qed.

(** What a simulation of the public statement makes of the random numbers [u]. *)
Definition pub (v : stmt) (ord : bytes -> Z) (c : Z) (u : nat -> Z) : val * res bytes * val * val :=
  let ns := nubn (map sname (cvars v)) in
  let K n := u (nst v + npos n ns)%nat mod ord n in
  match prepare_sim v (mkSt (fun _ => None) u 0) with
  | Ok (v', _) => (sent (tpre v'), prehash_input v', scom K c v', vresp K v')
  | Err x => (VNone, Err x, VNone, VNone)
  end.
Definition fin (msg : bytes) (x : val * res bytes * val) (rs : Z -> val) : res nizk :=
  let '(pre, h, com) := x in
  match h with
  | Err y => Err y
  | Ok h => match fs_challenge h [pre; com] msg with
            | Err y => Err y
            | Ok c => Ok (mkNizk c (rs c) pre (VBytes (sha256 h)))
            end
  end.

Lemma half U w s sd f g v ord e : honest U w s sd e -> Shape s -> Supplied sd w e s -> Ords ord v -> conj_of (blinded w) s -> Pat f g s v ->
  let nsv := nubn (map sname (cvars v)) in
  let N := (nst v + List.length nsv)%nat in let Q := qapp (nst v) (qst v) (fun j => ord (nth j nsv [])) in
  exists TA OA, (forall c, bij N Q (TA c) (OA c)) /\
    forall t, exists x rs, (forall c u, congr N Q u (TA c t) -> pub v ord c u = (x, rs c)) /\
      (forall c, outcome (whole_run s sd c) e t = Ok (fst (fst x), snd x, rs c)) /\
      (forall msg, outcome (proof_of s sd msg) e t = fin msg x rs).
Proof.
  intros HH HS SU HOv HC HP nsv N Q. assert (HH' := HH). destruct HH' as [OK NM IN DJ TR VA DI EN].
  pose proof (Pat_Ords f g w ord s v HP HC HOv) as HO. set (ords := fun n => ord (f n)) in *.
  set (L := U ++ kints s) in *.
  assert (IU : incl U L) by (apply incl_appl, incl_refl).
  assert (IK : incl (kints s) L) by (apply incl_appr, incl_refl).
  assert (HW : Swf U L s) by (apply Sok_Swf; auto).
  pose proof (Sok_kuser U s OK) as KU.
  assert (AP := conj_Apart _ _ HC).
  destruct (get_prover_total U L U U w s sd (mkSt e (fun _ => 0) 0)) as (p & s1 & st1 & GP & PR); auto.
  { eapply Vals_Keys; eauto. }
  { intros k Hk. eapply incl_tran; eauto. }
  destruct (get_prover_built U L U w s sd _ _ _ _ HW VA TR DI (incl_refl _) IU NM GP) as (PS1 & ES & BT).
  assert (AG1 : agree w (env st1) U) by (apply (estep_agree2 w U U L e); auto).
  apply gp_run in GP as (e1 & -> & GP); [|eapply conj_weak; [|exact HC]; auto]. cbn [env] in *.
  assert (KE : kinds s1 = kinds s) by now apply kinds_same.
  assert (KI : kints s1 = kints s) by (unfold kints; now rewrite KE).
  assert (HC1 : conj_of (blinded w) s1) by (eapply conj_same; eauto).
  assert (HP1 : Pat f g s1 v) by (eapply Pat_same; [symmetry; exact PS1|exact HP]).
  destruct (Pat_nst f g w s1 v HP1 HC1) as (EN1 & EQ1 & RV).
  pose proof (Pready_defd w e1 s1 p ltac:(eapply conj_weak; [|exact HC1]; auto) PR) as DF.
  set (V := List.concat (map kuser (kinds s))).
  assert (VU : incl V U).
  { intros x Hx. apply in_concat in Hx as (l & Hl & Hx). apply in_map_iff in Hl as (k & <- & Hk). eapply KU; eauto. }
  assert (VI : vals_in V w e1).
  { intros x Hx. assert (Hx' := Hx). apply in_concat in Hx' as (l & Hl & Hx'). apply in_map_iff in Hl as (k & <- & Hk).
    rewrite <- KE in Hk. destruct (DF k Hk) as [D _]. specialize (D x Hx'). destruct (e1 (sid x)) as [v0|] eqn:E; [|congruence].
    f_equal. apply AG1; auto. }
  destruct (phase1 U L V w NM IU VU ords s1) as (to & of & B & ST).
  { exact HC1. }
  { rewrite KE. now apply Shape_kinds. }
  { apply Forall_forall. intros k Hk. now apply DF. }
  { rewrite KE. intros k Hk x Hx. apply in_concat. exists (kuser k). split; auto. now apply in_map. }
  { rewrite KI. auto. }
  { rewrite KE. intros k Hk. eapply (kint_names s L); eauto. }
  { eapply Ords_same; [symmetry; exact PS1|auto]. }
  rewrite EN1, EQ1 in B, ST. set (n := nst v) in *. set (q := qst v) in *.
  set (ns := nubn (map sname (cvars s1))).
  destruct (ren_map f g _ _ RV) as [RV1 RV2].
  assert (GF : forall x, In x (cvars s1) -> g (f (sname x)) = sname x).
  { intros x Hx. destruct (Forall2_in_l_ex _ _ _ RV x Hx) as (y & _ & <- & E). now symmetry. }
  assert (GN : forall m, In m (map sname (cvars s1)) -> g (f m) = m).
  { intros m Hm. apply in_map_iff in Hm as (x & <- & Hx). auto. }
  assert (NV : nsv = map f ns).
  { unfold nsv, ns. rewrite RV1. apply (nubn_map f g). exact GN. }
  assert (LV : List.length nsv = List.length ns) by (rewrite NV; apply map_length).
  assert (NP : forall x, In x (cvars s1) -> (npos (sname x) ns < List.length ns)%nat /\ nth (npos (sname x) ns) ns [] = sname x).
  { intros x Hx. destruct (npos_in (sname x) ns) as [X1 X2]; [apply nubn_in; now apply in_map|]. split; auto. now apply nth_error_nth. }
  assert (NPV : forall x, In x (cvars s1) -> npos (f (sname x)) nsv = npos (sname x) ns).
  { intros x Hx. rewrite NV. apply (npos_map f g). intros m [<-|Hm]; [auto|]. apply GN. now apply (proj1 (nubn_in _ _)). }
  assert (NTH : forall j, (j < List.length ns)%nat -> nth j nsv [] = f (nth j ns [])).
  { intros j Hj. rewrite NV. rewrite (nth_indep (map f ns) [] (f [])) by now rewrite map_length. apply map_nth. }
  set (PS t := match precommit s1 p (mkSt e1 t 0) with Ok ((_, _, s2), _) => s2 | _ => s1 end).
  assert (RUN : forall t, exists pre p2 s2 e2 w', precommit s1 p (mkSt e1 t 0) = Ok ((pre, p2, s2), mkSt e2 t n) /\ PS t = s2 /\
    (forall t', congr n q t t' -> precommit s1 p (mkSt e1 t' 0) = Ok ((pre, p2, s2), mkSt e2 t' n)) /\
    Ready w' s2 p2 /\ svars s2 = cvars s1 /\ noor s2 /\ ordOK ords s2 /\
    (let K n' := t (n + npos n' ns)%nat mod ords n' in let R c n' := (w' n' * c + K n') mod ords n' in
     (forall c, outcome (whole_run s sd c) e t = Ok (pre, vcom K s2, vresp (R c) s2)) /\
     (forall msg, outcome (proof_of s sd msg) e t = fin msg (pre, prehash_input s2, vcom K s2) (fun c => vresp (R c) s2)) /\
     (forall c, scom (R c) c s2 = vcom K s2)) /\
    (forall u, congr n q u (to t) -> exists v' st', prepare_sim v (mkSt (fun _ => None) u 0) = Ok (v', st') /\ Sim f g s2 v' /\ sent (tpre v') = pre)).
  { intros t. destruct (commit_ready U w s sd ords (mkSt e t 0) HH HS SU HO AP) as (p' & s1' & st1' & pre & p2 & s2 & st2 & com & p3 & st3 & GP' & PC & IC & BU & _).
    assert (GP2 := GP'). rewrite (GP t 0%nat) in GP'. injection GP' as <- <- <-.
    destruct (honest_ready U w s sd (mkSt e t 0) p s1 (mkSt e1 t 0) pre p2 s2 st2 HH GP2 PC) as (w' & L' & HL' & _ & PSS & PO & RD).
    assert (RD' : Ready w' s2 p2) by (apply RD; left; eauto).
    destruct PO as (P1 & P2 & P3 & P4 & P5 & P6 & P7 & P8).
    destruct (ST p s1 e1 t 0%nat t 0%nat pre p2 s2 st2) as ((e2 & -> & VI2 & T2) & SV & NO & OO & SP & _); auto.
    exists pre, p2, s2, e2, w'. split; [exact PC|]. split; [unfold PS; now rewrite PC|]. split; [exact T2|].
    split; [exact RD'|]. split; [exact SV|]. split; [exact NO|]. split; [exact OO|].
    assert (CO : forall e, coh e (svars s2)) by (intros; apply wfL_coh; eapply wfL_incl; eauto).
    split.
    - cbv zeta. destruct (root_draw2 w' e2 ords s2 p2 RD' NO P2 BU (CO e2) OO t n) as (dd & CV & _ & D2).
      rewrite SV in CV, D2. fold ns in CV, D2.
      pose proof (commit_checked w' s2 p2 None _ _ _ RD' NO IC) as CK. cbn [env] in CK.
      rewrite <- SV in CV.
      destruct (commit_view w' ords e2 s2 p2 RD' NO BU CK OO _ dd CV) as (p4 & C1 & C2).
      split; [|split].
      + intros c. unfold outcome, whole_run. unfold bind at 1. rewrite (GP t 0%nat). cbn [fst snd]. unfold bind at 1. rewrite PC. cbn [fst snd].
        unfold bind at 1. simpl Nat.add. rewrite D2. rewrite C1. cbn [fst snd]. unfold bind. rewrite C2. reflexivity.
      + intros msg. unfold outcome, proof_of, prove, get_nizk_proof, fin. unfold bind. rewrite (GP t 0%nat). rewrite PC. simpl Nat.add.
        rewrite D2, C1. unfold lift. destruct (prehash_input s2) as [h|]; [|reflexivity].
        destruct (fs_challenge h _ msg) as [c|]; [|reflexivity]. rewrite C2. reflexivity.
      + intros c. apply (scom_vcom w' ords c _ s2 p2); auto.
    - intros u Cu.
      destruct (ST p s1 e1 t 0%nat u 0%nat pre p2 s2 (mkSt e2 t n)) as (_ & _ & _ & _ & _ & SIM); auto.
      destruct (SIM Cu (fun _ => None)) as (s' & X1 & X2). simpl Nat.add in X1.
      destruct (Pat_prepare f g w s1 v HP1 HC1 _ _ _ _ _ X1) as (v' & Y1 & Y2).
      exists v', (mkSt (fun _ => None) u n). split; [exact Y1|].
      assert (Y3 : Sim f g s2 v') by (eapply Sim_same; eauto).
      split; [exact Y3|]. now rewrite <- (Sim_tpre f g s2 v' Y3). }
  set (fc c t j := wof (PS t) (nth j ns []) * c).
  assert (FC : forall c t t', congr n q t t' -> forall j, (j < List.length nsv)%nat -> fc c t j = fc c t' j).
  { intros c t t' C j _. unfold fc. destruct (RUN t) as (pre & p2 & s2 & e2 & w' & PC & EP & TT & _). rewrite EP. unfold PS. now rewrite (TT t' C). }
  assert (QP : forall j, (j < List.length nsv)%nat -> 1 < ord (nth j nsv [])).
  { intros j Hj. rewrite LV in Hj. rewrite NTH by auto. assert (Hn : In (nth j ns []) ns) by now apply nth_In.
    apply (proj1 (nubn_in (map sname (cvars s1)) _)) in Hn. apply in_map_iff in Hn as (x & <- & Hx).
    destruct (RUN (fun _ => 0)) as (pre & p2 & s2 & e2 & w' & PC & EP & TT & RD & SV & NO & OO & _). rewrite <- SV in Hx.
    change (1 < ords (sname x)). eapply ordOK_pos; eauto. }
  exists (fun c => tmove n to (fc c)), (fun c => tmove n of (fun u j => - fc c (of u) j)). split.
  { intros c. apply (bij_move n q to of (List.length nsv) (fun j => ord (nth j nsv [])) (fc c) B QP (FC c)). }
  intros t. destruct (RUN t) as (pre & p2 & s2 & e2 & w' & PC & EP & TT & RD & SV & NO & OO & (RW & RP & RC) & RS).
  set (K := fun n' => t (n + npos n' ns)%nat mod ords n') in *.
  exists (pre, prehash_input s2, vcom K s2), (fun c => vresp (fun n' => (w' n' * c + K n') mod ords n') s2). split; [|split; [exact RW|exact RP]].
  intros c u C. apply congr_app in C as [C1 C2].
  destruct (RS u) as (v' & st' & X1 & X2 & X3).
  { eapply congr_ext; [reflexivity| |exact C1]. intros j Hj. unfold tmove. destruct (Nat.ltb_spec j n); [auto|lia]. }
  unfold pub. rewrite X1. fold nsv n. rewrite X3, <- (Sim_prehash f g s2 v' X2).
  destruct (Sim_views f g (fun n' => (w' n' * c + K n') mod ords n') c s2 v' X2) as [Y1 Y2].
  assert (RCc : scom (fun n' => (w' n' * c + K n') mod ords n') c s2 = vcom K s2) by apply (RC c).
  rewrite Y1 in RCc. rewrite <- RCc. cbv beta. rewrite Y2.
  assert (X : forall x, In x (svars v') -> u (n + npos (sname x) nsv)%nat mod ord (sname x) = (w' (g (sname x)) * c + K (g (sname x))) mod ords (g (sname x))).
  { intros x Hx. pose proof (Sim_svars f g s2 v' X2) as SVR.
    assert (E : exists y, In y (svars s2) /\ ren f g y x).
    { clear -SVR Hx. induction SVR as [|a b l m R F IH]; [destruct Hx|]. destruct Hx as [<-|Hx]; [exists a; simpl; auto|].
      destruct (IH Hx) as (y & Y1 & Y2). exists y. simpl; auto. }
    destruct E as (y & Hy & E1 & E2). rewrite <- E2, E1. assert (Hy' := Hy). rewrite SV in Hy'. destruct (NP y Hy') as [N1 N2].
    rewrite NPV by auto. change (ord (f (sname y))) with (ords (sname y)).
    assert (OP : 1 < ords (sname y)) by (eapply ordOK_pos; eauto).
    unfold K. rewrite Zplus_mod_idemp_r. apply mod_eq; [exact OP|].
    specialize (C2 (npos (sname y) ns) ltac:(lia)). cbv beta in C2. rewrite NTH, N2 in C2 by auto. change (ord (f (sname y))) with (ords (sname y)) in C2.
    unfold shift, tmove in C2. destruct (Nat.ltb_spec (n + npos (sname y) ns) n); [lia|].
    replace (n + npos (sname y) ns - n)%nat with (npos (sname y) ns) in C2 by lia. unfold fc in C2.
    rewrite N2, EP, (wof_val w' s2 p2) in C2 by auto.
    replace (w' (sname y) * c + t (n + npos (sname y) ns)%nat) with (t (n + npos (sname y) ns)%nat + w' (sname y) * c) by ring. exact C2. }
  set (K1 := fun n' => u (n + npos n' nsv)%nat mod ord n'). set (K2 := fun n' => (w' (g n') * c + K (g n')) mod ords (g n')).
  rewrite (scom_ext K1 K2 c v' X), (vresp_ext K1 K2 v' X). reflexivity.
Qed.

Lemma unlinkable U w s sd e f g U' w' s' sd' e' f' g' v ord :
  honest U w s sd e -> Shape s -> Supplied sd w e s -> conj_of (blinded w) s -> Pat f g s v ->
  honest U' w' s' sd' e' -> Shape s' -> Supplied sd' w' e' s' -> conj_of (blinded w') s' -> Pat f' g' s' v ->
  Ords ord v ->
  (forall c, same_distribution (outcome (whole_run s sd c) e) (outcome (whole_run s' sd' c) e')) /\
  (forall msg, same_distribution (outcome (proof_of s sd msg) e) (outcome (proof_of s' sd' msg) e')).
Proof.
  intros H1 H2 H3 H4 H5 J1 J2 J3 J4 J5 HO.
  destruct (half U w s sd f g v ord e H1 H2 H3 HO H4 H5) as (TA & OA & BA & GA).
  destruct (half U' w' s' sd' f' g' v ord e' J1 J2 J3 HO J4 J5) as (TB & OB & BB & GB).
  split.
  - intros c. apply (chal_dist (nst v + List.length (nubn (map sname (cvars v)))) (qapp (nst v) (qst v) (fun j => ord (nth j (nubn (map sname (cvars v))) []))) (pub v ord) (fun _ => c) (fun (x : val * res bytes * val) (r : val) => Ok (fst (fst x), snd x, r)) TA OA TB OB); auto.
    + intros t. destruct (GA t) as (x & rs & X1 & X2 & _). exists x, rs. auto.
    + intros t. destruct (GB t) as (x & rs & X1 & X2 & _). exists x, rs. auto.
  - intros msg. set (ch := fun x : val * res bytes * val => let '(pre, h, com) := x in
      match h with Ok h => match fs_challenge h [pre; com] msg with Ok c => c | Err _ => 0 end | Err _ => 0 end).
    assert (FE : forall x rs, fin msg x rs = fin msg x (fun _ => rs (ch x))).
    { intros [[pre h] com] rs. unfold fin, ch. destruct h as [h|]; [|reflexivity]. destruct (fs_challenge h [pre; com] msg); reflexivity. }
    apply (chal_dist (nst v + List.length (nubn (map sname (cvars v)))) (qapp (nst v) (qst v) (fun j => ord (nth j (nubn (map sname (cvars v))) []))) (pub v ord) ch (fun (x : val * res bytes * val) (r : val) => fin msg x (fun _ => r)) TA OA TB OB); auto.
    + intros t. destruct (GA t) as (x & rs & X1 & _ & X2). exists x, rs. split; auto. now rewrite X2.
    + intros t. destruct (GB t) as (x & rs & X1 & _ & X2). exists x, rs. split; auto. now rewrite X2.
Qed.

(** * Keys whose third generator is neutral *)
Lemma neutral_shows pk sg b0 b1 b2 bs sv r1 r2 d1 d2 b q con sd c e t pre com r :
  b2 = inf (grp (sig_A sg)) ->
  outcome (whole_run (SExt (KBBS pk (Some sg) (b0 :: b1 :: b2 :: bs) sv r1 r2 d1 d2) b q con) sd c) e t = Ok (pre, com, r) ->
  getitem pre (lit "A2") = Ok (VPt (sig_A sg)).
Proof.
  intros E H. unfold outcome in H. destruct (whole_run _ _ _ _) as [[x st']|] eqn:R; [|discriminate]. injection H as ->.
  unfold whole_run in R. apply bind_ok in R as ([o s1] & st1 & GP & R). cbn [fst snd] in R.
  cbn [get_prover] in GP. minvs.
  match goal with X : precommit _ _ _ = Ok (?y, _) |- _ => destruct y as [[pre0 p2] sx]; rename X into PC end. cbn [fst].
  cbn [precommit] in PC.
  apply bind_ok in PC as (pre1 & st5 & KP & PC). apply bind_ok in PC as (c1 & st6 & _ & PC). apply bind_ok in PC as (x & st7 & _ & PC).
  assert (pre0 = pre1) by (destruct x; apply ret_ok in PC as [PC _]; congruence). subst pre1. clear PC.
  cbn [kprecommit] in KP. cbv zeta in KP.
  apply bind_ok in KP as (v1 & sa & _ & KP). apply bind_ok in KP as (v2 & sb & _ & KP).
  do 4 (apply bind_ok in KP as (? & ? & _ & KP)).
  apply bind_ok in KP as (A1 & sc & _ & KP). apply bind_ok in KP as (A2 & sd' & K2 & KP). apply ret_ok in KP as [<- _].
  apply lift_ok in K2 as [K2 _]. rewrite padd_chk_same in K2 by (rewrite grp_mul, grp_inf; reflexivity).
  injection K2 as <-. change (Ok (VPt (padd (pmul v1 (inf (grp (sig_A sg)))) (sig_A sg))) = Ok (VPt (sig_A sg))).
  rewrite mul_inf, add_inf_l. reflexivity.
Qed.

Lemma whole_run_ok U w s sd ord e c t : honest U w s sd e -> Shape s -> Supplied sd w e s -> Ords ord s -> Apart s ->
  exists x, outcome (whole_run s sd c) e t = Ok x.
Proof.
  intros HH HS SU HO AP.
  destruct (commit_ready U w s sd ord (mkSt e t 0) HH HS SU HO AP) as (p & s1 & st1 & pre & p2 & s2 & st2 & com & p3 & st3 & GP & PC & IC & _ & R).
  destruct (R c st3) as (r & CR). exists (pre, com, r). unfold outcome, whole_run. unfold bind at 1. rewrite GP. cbn [fst snd].
  unfold bind at 1. rewrite PC. cbn [fst snd]. unfold bind at 1. rewrite IC. cbn [fst snd]. unfold bind. rewrite CR. reflexivity.
Qed.
End P.

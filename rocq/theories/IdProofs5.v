(** What prove() outputs looks like; other accepted responses. *)
From Coq Require Import String Znumtheory.
From Verif Require Import Base World Val Expr Utils Stmt Prove Verify Spec Claims Shapes Honest Clauses Supply Extract Ident
  Lib DictProofs Keeps Tree Sigma Validate Commit ArithProofs Build Process Ktruth Provers Complete Sound Wire IdProofs IdProofs2 IdProofs3 IdProofs4.
Open Scope Z_scope.
Open Scope list_scope.

(** ** Results of computations *)
Definition gets {A} (P : A -> Prop) (m : M A) : Prop := forall s a s', m s = Ok (a, s') -> P a.
Lemma gets_ret {A} (P : A -> Prop) a : P a -> gets P (ret a).
Proof. intros H s b s' E. apply ret_ok in E as [<- _]. exact H. Qed.
Lemma gets_raise {A} (P : A -> Prop) e : gets P (raise e). Proof. intros s a s' E. discriminate E. Qed.
Lemma gets_bind {A B} (P : A -> Prop) (Q : B -> Prop) m (f : A -> M B) : gets P m -> (forall a, P a -> gets Q (f a)) -> gets Q (bind m f).
Proof. intros H K s b s' E. apply bind_ok in E as (a & s1 & E1 & E2). eapply K; eauto. Qed.
Lemma gets_bind' {A B} (Q : B -> Prop) (m : M A) (f : A -> M B) : (forall a, gets Q (f a)) -> gets Q (bind m f).
Proof. intros K s b s' E. apply bind_ok in E as (a & s1 & E1 & E2). eapply K; eauto. Qed.
Lemma gets_mapM {A B} (P : B -> Prop) (f : A -> M B) l : (forall x, In x l -> gets P (f x)) -> gets (Forall P) (mapM f l).
Proof.
  intros H s ys s' E. destruct (mapM_inv f (fun _ => True) (fun _ y => P y) l s ys s' E I) as [_ F].
  - intros x a y b Hx _ Ef. split; auto. eapply H; eauto.
  - clear -F. induction F; constructor; auto.
Qed.
Lemma gets_impl {A} (P Q : A -> Prop) m : (forall a, P a -> Q a) -> gets P m -> gets Q m.
Proof. intros H K s a s' E. eauto. Qed.
Lemma gets_zipM {A B C} (P : C -> Prop) (Q : B -> Prop) (f : A -> B -> M C) l :
  (forall x y, In x l -> Q y -> gets P (f x y)) -> forall m, Forall Q m -> gets (Forall P) (zipM f l m).
Proof.
  induction l as [|x l IH]; intros H m F; destruct m as [|y m]; simpl; try (apply gets_ret; constructor).
  inversion F; subst. eapply gets_bind; [apply (H x y); [now left|auto]|]. intros z Pz.
  eapply gets_bind; [apply IH; auto; intros; apply H; auto; now right|]. intros zs Pzs. apply gets_ret. now constructor.
Qed.
Lemma Forall_map' {A B} (P : B -> Prop) (f : A -> B) l : Forall (fun x => P (f x)) l -> Forall P (map f l).
Proof. induction 1; simpl; constructor; auto. Qed.
Lemma Forall_insert {A} (P : A -> Prop) i x l : P x -> Forall P l -> Forall P (insert_at i x l).
Proof.
  intros H F. unfold insert_at. apply Forall_app. split; [|constructor; auto].
  - rewrite Forall_forall in *. intros y Hy. apply F. rewrite <- (firstn_skipn i l). apply in_or_app. now left.
  - rewrite Forall_forall in *. intros y Hy. apply F. rewrite <- (firstn_skipn i l). apply in_or_app. now right.
Qed.

Section I.
Context {W : World}.

Lemma nt_pts ps : Forall notuple (map VPt ps).
Proof. induction ps; constructor; auto. constructor. Qed.
Lemma kprecommit_nt k : gets notuple (kprecommit k).
Proof.
  destruct k as [H0 g H1 h x al be bnd|com g h n isp x r rs|pk sig bs sv r1 r2 d1 d2|cls rows]; simpl.
  - repeat (apply gets_bind'; intros ?). apply gets_ret. constructor.
  - destruct isp; [|apply gets_raise]. repeat (apply gets_bind'; intros ?). apply gets_ret. constructor.
    constructor; [simpl; constructor; apply nt_pts|constructor; [simpl; constructor|constructor]].
  - destruct sig as [sg|]; [|apply gets_raise]. destruct bs as [|b0 [|b1 [|b2 bs]]]; try apply gets_raise.
    repeat (apply gets_bind'; intros ?). apply gets_ret. constructor. repeat constructor.
  - apply gets_ret. constructor. constructor.
Qed.
Lemma ksim_nt k : gets notuple (ksim_precommit k).
Proof.
  destruct k as [H0 g H1 h x al be bnd|com g h n isp x r rs|pk sig bs sv r1 r2 d1 d2|cls rows]; simpl.
  - repeat (apply gets_bind'; intros ?). apply gets_ret. constructor.
  - apply gets_bind'; intros rv. destruct (map _ rv) as [|c0 cs]; [apply gets_raise|]. apply gets_bind'; intros c1. apply gets_ret. constructor.
    constructor; [|constructor; [simpl; constructor|constructor]]. simpl. constructor. constructor; [constructor|apply nt_pts].
  - destruct bs as [|b0 bs]; [apply gets_raise|]. repeat (apply gets_bind'; intros ?). apply gets_ret. constructor. repeat constructor.
  - apply gets_raise.
Qed.

(** precommitments stored in a statement *)
Inductive stored (P : val -> Prop) : stmt -> Prop :=
| StDL d : stored P (SDL d)
| StAnd l b : Forall (stored P) l -> stored P (SAnd l b)
| StOr l b c : Forall (stored P) l -> stored P (SOr l b c)
| StExt k b p c : P p -> stored P (SExt k b p c).
Lemma prepare_stored s : gets (stored notuple) (prepare_sim s).
Proof.
  induction s as [d|subs b IH|subs b ch IH|k b q|k b q con IH] using stmt_ind'; simpl.
  - apply gets_ret. constructor.
  - eapply gets_bind; [apply gets_mapM; rewrite Forall_forall in IH; apply IH|]. intros l F. apply gets_ret. now constructor.
  - eapply gets_bind; [apply gets_mapM; rewrite Forall_forall in IH; apply IH|]. intros l F. apply gets_ret. now constructor.
  - eapply gets_bind; [apply ksim_nt|]. intros p Hp. unfold full_construct. apply gets_bind'. intros c. apply gets_ret. now constructor.
  - eapply gets_bind; [apply ksim_nt|]. intros p Hp. unfold full_construct. apply gets_bind'. intros c. apply gets_ret. now constructor.
Qed.

Lemma po_ints zs : Forall pairs_only (map VInt zs).
Proof. induction zs; constructor; auto. constructor. Qed.
Lemma sim_loop_gets (P : sim -> Prop) f c : (forall a b d e e', P (mkSim a d b e) -> P (mkSim a e' b e)) -> forall l chals,
  (forall x, In x l -> forall c, gets P (f x c)) -> gets (Forall P) (sim_or_loop f c l chals).
Proof.
  intros HP. induction l as [|x l IH]; intros chals H; simpl; [apply gets_raise|]. destruct l as [|y l].
  - eapply gets_bind; [apply H; now left|]. intros t Ht. apply gets_ret. constructor; [|constructor].
    destruct t. simpl. eapply HP; eauto.
  - eapply gets_bind; [apply H; now left|]. intros t Ht. eapply gets_bind; [apply IH; intros; apply H; now right|].
    intros ts Hts. apply gets_ret. now constructor.
Qed.
Lemma simulate_resp s : forall rd c, gets (fun t => pairs_only (t_resp t)) (simulate_proof s rd c).
Proof.
  induction s as [d|subs b IH|subs b ch IH|k b q|k b q con IH] using stmt_ind'; intros rd c; try (rewrite Forall_forall in IH).
  - simpl. unfold simulate_dl. repeat (apply gets_bind'; intros ?). apply gets_ret. simpl. constructor. apply po_ints.
  - simpl. do 2 (apply gets_bind'; intros ?). eapply gets_bind; [apply gets_mapM; intros; apply IH; auto|]. intros ts Hts.
    apply gets_ret. simpl. constructor. now apply Forall_map'.
  - rewrite simulate_or. apply gets_bind'; intros c'. eapply gets_bind; [apply (sim_loop_gets (fun t => pairs_only (t_resp t))); auto|].
    intros ts Hts. apply gets_ret. simpl. constructor; [|now apply Forall_map']. clear. induction ts; simpl; constructor; auto. constructor.
  - simpl. apply gets_raise.
  - simpl. eapply gets_bind; [apply IH|]. intros t Ht. apply gets_ret. exact Ht.
Qed.
Lemma simulate_pre s : stored notuple s -> forall rd c, gets (fun t => notuple (t_pre t)) (simulate_proof s rd c).
Proof.
  induction s as [d|subs b IH|subs b ch IH|k b q|k b q con IH] using stmt_ind'; intros S rd c; inversion S; subst; rewrite ?Forall_forall in *.
  - simpl. unfold simulate_dl. repeat (apply gets_bind'; intros ?). apply gets_ret. simpl. constructor.
  - simpl. do 2 (apply gets_bind'; intros ?). eapply gets_bind; [apply gets_mapM; intros; apply IH; auto|]. intros ts Hts.
    apply gets_ret. simpl. constructor. now apply Forall_map'.
  - rewrite simulate_or. apply gets_bind'; intros c'. eapply gets_bind; [apply (sim_loop_gets (fun t => notuple (t_pre t))); auto; intros; apply IH; auto|].
    intros ts Hts. apply gets_ret. simpl. constructor. now apply Forall_map'.
  - simpl. apply gets_raise.
  - simpl. apply gets_bind'. intros t. apply gets_ret. simpl. auto.
Qed.

(** provers whose simulations are of that form *)
Definition simn (t : sim) : Prop := notuple (t_pre t) /\ pairs_only (t_resp t).
Inductive Pn : prover -> Prop :=
| PnDL ks : Pn (PDL ks)
| PnAnd ps : Forall Pn ps -> Pn (PAnd ps)
| PnOr i p sims : Pn p -> Forall simn sims -> Pn (POr i p sims)
| PnExt sv : Pn (PExt sv None)
| PnExtN sv : Pn (PExt sv (Some None))
| PnExtS sv q : Pn q -> Pn (PExt sv (Some (Some q))).
Lemma setup_simn idx l : forall i, gets (fun r => Forall simn (snd r)) (setup_loop idx i l).
Proof.
  induction l as [|s l IH]; intros i; simpl; [apply gets_ret; constructor|]. destruct (Nat.eqb i idx).
  - eapply gets_bind; [apply IH|]. intros r Hr. apply gets_ret. exact Hr.
  - eapply gets_bind; [apply prepare_stored|]. intros s1 H1. intros st a st' E.
    apply bind_ok in E as (t & s2 & E1 & E2). apply bind_ok in E2 as (r & s3 & E3 & E4). apply ret_ok in E4 as [<- _].
    simpl. constructor; [|eapply IH; eauto]. split; [eapply simulate_pre; eauto|eapply simulate_resp; eauto].
Qed.
Definition opt {A} (P : A -> Prop) (o : option A) : Prop := match o with Some a => P a | None => True end.
Lemma or_loop_gets {A} (P : A -> Prop) fuel gps : (forall gp, In gp gps -> gets (fun r : option A * stmt => opt P (fst r)) gp) ->
  forall possible subs, gets (fun r => opt (fun ip => P (snd ip)) (fst r)) (or_loop fuel gps possible subs).
Proof.
  intros H. induction fuel as [|fuel IH]; intros possible subs; simpl; [apply gets_ret; exact I|].
  apply gets_bind'; intros r. destruct (nth_error possible _) as [i|]; [|apply gets_raise].
  destruct (nth_error gps i) as [gp|] eqn:E; [|apply gets_raise]. apply nth_error_In in E.
  eapply gets_bind; [apply H; exact E|]. intros [[p|] x] Hp; simpl in *; [apply gets_ret; exact Hp|].
  destruct (empty_dict _); [apply gets_ret; exact I|apply IH].
Qed.
Lemma get_prover_Pn s : forall sd, gets (fun r => opt Pn (fst r)) (get_prover s sd).
Proof.
  induction s as [d|subs b IH|subs b ch IH|k b q|k b q con IH] using stmt_ind'; intros sd; try (rewrite Forall_forall in IH).
  - simpl. unfold get_prover_dl. apply (gets_bind (fun r : option prover * dlrep => opt Pn (fst r))); [|intros r Hr; apply gets_ret; exact Hr]. apply gets_bind'; intros e. destruct (empty_dict _ || _); apply gets_ret; simpl; [exact I|constructor].
  - simpl. apply gets_bind'; intros _. destruct b; [apply gets_ret; exact I|].
    eapply gets_bind; [apply gets_mapM; intros; apply IH; auto|]. intros l Hl. destruct (forallb _ l); [|apply gets_raise].
    apply gets_ret. simpl. constructor. clear -Hl. induction Hl as [|[[p|] x] l Hx Hl IHl]; simpl in *; auto.
  - simpl. apply gets_bind'; intros _. destruct b; [apply gets_ret; exact I|]. destruct (empty_dict _); [apply gets_ret; exact I|].
    eapply gets_bind; [apply (or_loop_gets Pn); intros gp Hgp; apply in_map_iff in Hgp as (x & <- & Hx); auto|].
    intros [[[i p]|] l] Hp; simpl in *; [|apply gets_ret; exact I]. eapply gets_bind; [apply setup_simn|].
    intros t Ht. apply gets_ret. simpl. now constructor.
  - simpl. repeat (apply gets_bind'; intros ?). apply gets_ret. simpl. constructor.
  - simpl. repeat (apply gets_bind'; intros ?). apply gets_ret. simpl. constructor.
Qed.
Lemma precommit_Pn s : forall p, Pn p -> gets (fun r => notuple (fst (fst r)) /\ Pn (snd (fst r))) (precommit s p).
Proof.
  assert (EX : forall k b q c p, Pn p -> gets (fun r => notuple (fst (fst r)) /\ Pn (snd (fst r))) (precommit (SExt k b q c) p)).
  { intros k b q c p H. destruct p as [ks|ps|i sp sims|sv cp]; try apply gets_raise. cbn [precommit].
    eapply gets_bind; [apply kprecommit_nt|]. intros pre Hpre. apply gets_bind'; intros c0.
    eapply gets_bind; [apply get_prover_Pn|]. intros [[r|] x] Hr; apply gets_ret; simpl in *; split; auto; constructor; auto. }
  induction s as [d|subs b IH|subs b ch IH|k b q|k b q con IH] using stmt_ind'; intros p H; try (rewrite Forall_forall in IH); auto;
    destruct p as [ks|ps|i sp sims|sv cp]; try apply gets_raise; inversion H; subst.
  - apply gets_ret. simpl. split; constructor.
  - simpl. eapply gets_bind; [eapply gets_zipM; [|eassumption]; intros x y Hx Hy; apply (IH x Hx y Hy)|]. intros l Hl. apply gets_ret. simpl. split.
    + destruct (forallb _ _); constructor. apply Forall_map'. eapply Forall_impl; [|exact Hl]. simpl. tauto.
    + constructor. apply Forall_map'. eapply Forall_impl; [|exact Hl]. simpl. tauto.
  - rewrite precommit_or. intros st a st' E. apply bind_ok in E as ([[v p1] l'] & s1 & E1 & E2). apply ret_ok in E2 as [<- _].
    apply or_pre_loop_ok in E1 as (x & x' & N & F & ->). apply nth_error_In in N. destruct (IH x N sp ltac:(assumption) _ _ _ F) as [A B]. simpl in *.
    split; [|now constructor]. destruct (existsb _ _); constructor. apply Forall_insert; auto. apply Forall_map'.
    match goal with X : Forall simn sims |- _ => eapply Forall_impl; [|exact X] end. intros t [? ?]; auto.
Qed.
Lemma internal_commit_Pn s : forall p rd, Pn p -> gets (fun r => Pn (snd r)) (internal_commit s p rd).
Proof.
  induction s as [d|subs b IH|subs b ch IH|k b q|k b q con IH] using stmt_ind'; intros p rd H; try (rewrite Forall_forall in IH);
    destruct p as [ks|ps|i sp sims|sv cp]; try apply gets_raise; inversion H; subst.
  - simpl. unfold commit_dl. repeat (apply gets_bind'; intros ?). destruct (dl_bases d); [apply gets_raise|]. apply gets_bind'; intros ?. apply gets_ret. constructor.
  - simpl. do 3 (apply gets_bind'; intros ?).
    eapply gets_bind; [eapply gets_zipM; [|eassumption]; intros x y Hx Hy; apply (IH x Hx y _ Hy)|]. intros l Hl. apply gets_ret. simpl. constructor.
    apply Forall_map'. exact Hl.
  - rewrite internal_commit_or. do 2 (apply gets_bind'; intros ?). intros st v st' E. apply bind_ok in E as (r & s1 & E1 & E2). apply ret_ok in E2 as [<- _].
    rewrite sel_loop_eq in E1. destruct (nth_error subs i) as [x|] eqn:N; [|discriminate]. apply nth_error_In in N. simpl. constructor; auto. eapply (IH x N); eauto.
  - simpl. apply gets_raise.
  - simpl. apply gets_raise.
  - simpl. eapply gets_bind; [eapply IH; eauto|]. intros r Hr. apply gets_ret. simpl. now constructor.
Qed.
Lemma response_po s : forall p c, Pn p -> gets pairs_only (compute_response s p c).
Proof.
  induction s as [d|subs b IH|subs b ch IH|k b q|k b q con IH] using stmt_ind'; intros p c H; try (rewrite Forall_forall in IH);
    destruct p as [ks|ps|i sp sims|sv cp]; try apply gets_raise; inversion H; subst.
  - simpl. unfold respond_dl. destruct ks; [|apply gets_raise]. destruct (dl_bases d); [apply gets_raise|].
    repeat (apply gets_bind'; intros ?). apply gets_ret. constructor. apply po_ints.
  - simpl. eapply gets_bind; [eapply gets_zipM; [|eassumption]; intros x y Hx Hy; apply (IH x Hx y _ Hy)|]. intros l Hl. apply gets_ret. now constructor.
  - rewrite compute_response_or. cbv zeta. intros st v st' E. apply bind_ok in E as (r & s1 & E1 & E2). apply ret_ok in E2 as [<- _].
    rewrite sel_loop_eq in E1. destruct (nth_error subs i) as [x|] eqn:N; [|discriminate]. apply nth_error_In in N. constructor; [apply po_ints|].
    apply Forall_insert; [eapply (IH x N); eauto|]. apply Forall_map'.
    match goal with X : Forall simn sims |- _ => eapply Forall_impl; [|exact X] end. intros t [? ?]; auto.
  - simpl. apply gets_raise.
  - simpl. apply gets_raise.
  - simpl. eapply IH; eauto.
Qed.
Lemma prove_shape s sd msg st z s1 st1 : prove s sd msg st = Ok ((z, s1), st1) ->
  notuple (n_pre z) /\ pairs_only (n_resp z) /\ exists h, n_hash z = VBytes h.
Proof.
  intros H. unfold prove in H. apply bind_ok in H as ([[p|] s2] & st2 & E & H); [|discriminate H].
  apply bind_ok in H as ([[z0 p0] s3] & st3 & E0 & H). apply ret_ok in H as [H ->]. injection H as <- <-.
  assert (P0 := get_prover_Pn s sd _ _ _ E). simpl in P0.
  unfold get_nizk_proof in E0. apply bind_ok in E0 as ([[pre p1] s4] & st4 & E1 & E0).
  destruct (precommit_Pn s2 p P0 _ _ _ E1) as [A P1]. simpl in A, P1.
  apply bind_ok in E0 as ([com p2] & st5 & E2 & E0). assert (P2 := internal_commit_Pn s4 p1 None P1 _ _ _ E2). simpl in P2.
  apply bind_ok in E0 as (h & st6 & E3 & E0). apply lift_ok in E3 as [E3 ->].
  apply bind_ok in E0 as (c & st7 & E4 & E0). apply lift_ok in E4 as [E4 ->]. apply bind_ok in E0 as (r & st8 & E5 & E0).
  apply ret_ok in E0 as [E0 ->]. injection E0 as <- <- <-. assert (P3 := response_po s4 p2 c P2 _ _ _ E5). simpl. eauto.
Qed.

(** C36 *)
Lemma wire_same z b : serialize z = Ok b -> Forall faithful (points (n_resp z) ++ points (n_pre z) ++ points (n_hash z)) ->
  notuple (n_pre z) ->
  exists z', deserialize b = Ok z' /\ n_chal z' = n_chal z /\ n_resp z' = norm (n_resp z) /\ n_pre z' = n_pre z /\ n_hash z' = norm (n_hash z) /\
    (forall s msg st x, verify s z msg st = Ok x -> verify s z' msg st = Ok x) /\
    (pairs_only (n_resp z) -> (exists h, n_hash z = VBytes h) -> forall s msg st x, wfs s -> verify s z' msg st = Ok x -> verify s z msg st = Ok x).
Proof.
  intros H F N. eexists. split; [apply roundtrip; eauto|]. cbn [n_chal n_resp n_pre n_hash]. rewrite (notuple_norm _ N).
  repeat (split; [reflexivity|]). split.
  - intros s msg st [[b0 s1] st1] V. assert (V' := V). apply verify_inv in V' as (v & h & com & i & _ & _ & E & _). rewrite E. simpl norm.
    apply verify_norm in V. rewrite E in V. exact V.
  - intros PO (h & E) s msg st [[b0 s1] st1] WF V. rewrite E in V. simpl norm in V. apply verify_unnorm; auto. now rewrite E.
Qed.
Lemma wire_proved sp sd msg0 st0 z sp1 st1 b : prove sp sd msg0 st0 = Ok ((z, sp1), st1) -> serialize z = Ok b ->
  Forall faithful (points (n_resp z) ++ points (n_pre z)) ->
  exists z', deserialize b = Ok z' /\ n_chal z' = n_chal z /\ n_resp z' = norm (n_resp z) /\ n_pre z' = n_pre z /\ n_hash z' = n_hash z /\
    forall s msg st x, wfs s -> (verify s z msg st = Ok x <-> verify s z' msg st = Ok x).
Proof.
  intros HP HS F. destruct (prove_shape _ _ _ _ _ _ _ HP) as (A & B & h & C).
  destruct (wire_same z b HS) as (z' & E & E1 & E2 & E3 & E4 & V1 & V2); auto.
  { rewrite !Forall_app in *. rewrite C. simpl. destruct F; auto. }
  exists z'. split; auto. split; auto. split; auto. split; auto. split; [rewrite E4, C; reflexivity|].
  intros s msg st x WF. split; [apply V1|apply V2; eauto].
Qed.
End I.

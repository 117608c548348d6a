(** The verdict of verify() does not depend on what has been done with the statement object before. *)
From Coq Require Import String.
From Verif Require Import Base World Val Expr Utils Stmt Prove Verify Spec Claims Shapes Honest Clauses Supply Extract Runs Ident
  Lib DictProofs Keeps Tree Sigma Validate Commit ArithProofs Build Process Ktruth Provers Complete Sound Checks2 Wire IdProofs IdProofs2 IdProofs3.
Open Scope Z_scope.
Open Scope list_scope.

Section H.
Context {W : World}.

(** ** Equality of statements, seen through the verifier object *)
Inductive MSame : verifier -> stmt -> stmt -> Prop :=
| MqDL v d d' : dl_lhs d = dl_lhs d' -> dl_bases d = dl_bases d' -> dl_secs d = dl_secs d' -> MSame v (SDL d) (SDL d')
| MqAnd vs l l' b b' : Forall3 MSame vs l l' -> MSame (RAnd vs) (SAnd l b) (SAnd l' b')
| MqOr vs l l' b b' c c' : Forall3 MSame vs l l' -> MSame (ROr vs) (SOr l b c) (SOr l' b' c')
| MqNone k b b' p p' c c' : MSame (RExt None) (SExt k b p c) (SExt k b' p' c')
| MqExt v k b b' p c : noext c -> MSame (RExt (Some v)) (SExt k b p (Some c)) (SExt k b' p (Some c)).

Lemma pstrip_MSame s : forall s', pstrip s = pstrip s' -> MSame (get_verifier s) s s'.
Proof.
  assert (G : forall l, Forall (fun x => forall s', pstrip x = pstrip s' -> MSame (get_verifier x) x s') l ->
    forall l', map pstrip l = map pstrip l' -> Forall3 MSame (map get_verifier l) l l').
  { induction 1 as [|x l Hx F IH]; intros [|y l'] E; try discriminate; simpl; constructor; simpl in E; injection E; auto. }
  induction s as [d|subs b IH|subs b ch IH|k b q|k b q con IH] using stmt_ind'; intros [d'|subs' b'|subs' b' ch'|k' b' q' c'] E;
    try discriminate; cbn [pstrip] in E; cbn [get_verifier].
  - injection E as E1 E2 E3. now constructor.
  - injection E as E. constructor. auto.
  - injection E as E. constructor. auto.
  - injection E as ->. constructor.
  - injection E as ->. constructor.
Qed.
Lemma pstrip_verifier s : forall s', pstrip s = pstrip s' -> get_verifier s = get_verifier s'.
Proof.
  assert (G : forall l, Forall (fun x => forall s', pstrip x = pstrip s' -> get_verifier x = get_verifier s') l ->
    forall l', map pstrip l = map pstrip l' -> map get_verifier l = map get_verifier l').
  { induction 1 as [|x l Hx F IH]; intros [|y l'] E; try discriminate; simpl; auto. simpl in E. injection E; intros. f_equal; auto. }
  induction s as [d|subs b IH|subs b ch IH|k b q|k b q con IH] using stmt_ind'; intros [d'|subs' b'|subs' b' ch'|k' b' q' c'] E;
    try discriminate; cbn [pstrip] in E; cbn [get_verifier]; auto; injection E as E; f_equal; auto.
Qed.
Lemma MSame_pstrip s : forall v s', MSame v s s' -> pstrip s = pstrip s'.
Proof.
  assert (G : forall l, Forall (fun x => forall v s', MSame v x s' -> pstrip x = pstrip s') l ->
    forall vs l', Forall3 MSame vs l l' -> map pstrip l = map pstrip l').
  { induction 1 as [|x l Hx F IH]; intros vs l' E; inversion E; subst; auto. simpl. f_equal; eauto. }
  induction s as [d|subs b IH|subs b ch IH|k b q|k b q con IH] using stmt_ind'; intros v s' H; inversion H; subst; cbn [pstrip]; auto.
  - congruence.
  - f_equal. eauto.
  - f_equal. eauto.
Qed.

Lemma construct_pure k pre st c st' : construct k pre st = Ok (c, st') -> st' = st /\ noext c.
Proof. intros H. split; [now apply construct_leafy in H as [-> _]|]. eapply construct_noext; eauto. Qed.
Lemma pp_same pre st : forall l vs i l' rs st1,
  (forall x, In x l -> forall p x' r st1, pstrip x = pstrip x' ->
     process_pre x (get_verifier x) p st = Ok (r, st1) -> st1 = st /\ exists y, process_pre x' (get_verifier x) p st = Ok ((fst r, y), st) /\ MSame (fst r) (snd r) y) ->
  map pstrip l = map pstrip l' -> vs = map get_verifier l ->
  pp_loop process_pre pre i l vs st = Ok (rs, st1) ->
  st1 = st /\ exists rs', pp_loop process_pre pre i l' vs st = Ok (rs', st) /\ map fst rs' = map fst rs /\
    Forall3 MSame (map fst rs) (map snd rs) (map snd rs').
Proof.
  induction l as [|x l IH]; intros vs i [|x' l'] rs st1 H F EV E; try discriminate; subst.
  - apply ret_ok in E as [<- <-]. split; auto. exists []. split; [reflexivity|]. split; [reflexivity|constructor].
  - simpl in F. injection F as P F. simpl in E. apply bind_ok in E as (p & s1 & E1 & E). apply lift_ok in E1 as [E1 ->].
    apply bind_ok in E as (r & s2 & E2 & E). apply bind_ok in E as (rs' & s3 & E3 & E). apply ret_ok in E as [<- ->].
    destruct (H x (or_introl eq_refl) _ x' _ _ P E2) as [-> (y & Ey & My)].
    destruct (IH _ (S i) l' _ _ (fun z Hz => H z (or_intror Hz)) F eq_refl E3) as [-> (rs2 & Er & Ef & Mr)].
    split; auto. exists ((fst r, y) :: rs2). split; [|split].
    + simpl. rewrite E1, bind_lift_ok. unfold bind at 1. rewrite Ey. unfold bind at 1. rewrite Er. reflexivity.
    + simpl. now rewrite Ef.
    + simpl. constructor; auto.
Qed.
Lemma process_same s : forall pre st r st1 s', pstrip s = pstrip s' ->
  process_pre s (get_verifier s) pre st = Ok (r, st1) ->
  st1 = st /\ exists y, process_pre s' (get_verifier s) pre st = Ok ((fst r, y), st) /\ MSame (fst r) (snd r) y.
Proof.
  assert (EX : forall k b b' q q' c c' pre st r st1,
    process_pre (SExt k b q c) (RExt None) pre st = Ok (r, st1) ->
    st1 = st /\ exists y, process_pre (SExt k b' q' c') (RExt None) pre st = Ok ((fst r, y), st) /\ MSame (fst r) (snd r) y).
  { intros k b b' q q' c c' pre st r st1 E. cbn [process_pre] in E. apply bind_ok in E as (c0 & s1 & E1 & E).
    apply ret_ok in E as [<- ->]. assert (E2 := construct_pure _ _ _ _ _ E1). destruct E2 as [-> N]. split; auto.
    exists (SExt k b' pre (Some c0)). cbn [process_pre]. unfold bind. rewrite E1. split; [reflexivity|]. simpl. now constructor. }
  induction s as [d|subs b IH|subs b ch IH|k b q|k b q con IH] using stmt_ind'; intros pre st r st1 [d'|subs' b'|subs' b' ch'|k' b' q' c'] P E;
    try discriminate P; pose proof (pstrip_MSame _ _ P) as PM; cbn [pstrip get_verifier] in *.
  - apply ret_ok in E as [<- <-]. split; auto. eexists. split; [reflexivity|]. exact PM.
  - rewrite process_pre_and in E |- *. destruct (is_none pre).
    + apply ret_ok in E as [<- <-]. split; auto. eexists. split; [reflexivity|]. exact PM.
    + injection P as P. apply bind_ok in E as (rs & s1 & E1 & E). apply ret_ok in E as [<- ->].
      rewrite Forall_forall in IH. destruct (pp_same pre st subs _ _ subs' _ _ ltac:(intros; eapply IH; eauto) P eq_refl E1) as [-> (rs' & Er & Ef & M)].
      split; auto. exists (SAnd (map snd rs') b'). unfold bind. rewrite Er. simpl. rewrite Ef. split; [reflexivity|]. now constructor.
  - rewrite process_pre_or in E |- *. destruct (is_none pre).
    + apply ret_ok in E as [<- <-]. split; auto. eexists. split; [reflexivity|]. exact PM.
    + injection P as P. apply bind_ok in E as (rs & s1 & E1 & E). apply ret_ok in E as [<- ->].
      rewrite Forall_forall in IH. destruct (pp_same pre st subs _ _ subs' _ _ ltac:(intros; eapply IH; eauto) P eq_refl E1) as [-> (rs' & Er & Ef & M)].
      split; auto. exists (SOr (map snd rs') b' ch'). unfold bind. rewrite Er. simpl. rewrite Ef. split; [reflexivity|]. now constructor.
  - injection P as <-. eapply EX; eauto.
  - injection P as <-. eapply EX; eauto.
Qed.
Lemma processed_same s s' pre st v s1 st1 : processed s pre st = Ok ((v, s1), st1) -> pstrip s = pstrip s' ->
  st1 = st /\ exists s1', processed s' pre st = Ok ((v, s1'), st) /\ MSame v s1 s1'.
Proof.
  unfold processed. intros H P. rewrite <- (pstrip_verifier s s' P). destruct (is_none pre).
  - apply ret_ok in H as [H <-]. injection H as <- <-. split; auto. exists s'. split; [reflexivity|]. now apply pstrip_MSame.
  - destruct (process_same s _ _ _ _ s' P H) as [-> (y & E & M)]. split; auto. exists y. auto.
Qed.

(** ** What verification reads *)
Lemma MSame_strip s : forall v s', MSame v s s' -> vready v -> strip s = strip s'.
Proof.
  assert (G : forall l, Forall (fun x => forall v s', MSame v x s' -> vready v -> strip x = strip s') l ->
    forall vs l', Forall3 MSame vs l l' -> Forall vready vs -> map strip l = map strip l').
  { induction 1 as [|x l Hx F IH]; intros vs l' E R; inversion E; subst; auto. inversion R; subst. simpl. f_equal; eauto. }
  induction s as [d|subs b IH|subs b ch IH|k b q|k b q con IH] using stmt_ind'; intros v s' H R; inversion H; subst; cbn [strip]; auto;
    try (inversion R; subst).
  - congruence.
  - congruence.
  - congruence.
  - congruence.
  - f_equal. eauto.
  - f_equal. eauto.
Qed.
Lemma Sim_refl s : built s -> Sim (fun n => n) (fun n => n) s s.
Proof.
  assert (R : forall l, Forall2 (ren (fun n => n) (fun n => n)) l l) by (induction l; constructor; auto; split; auto).
  assert (KR : forall k, KSim (fun n => n) (fun n => n) k k).
  { destruct k as [H0 g H1 h x al be bnd|com g h n isp x r rs|pk sig bs sv r1 r2 d1 d2|cls rows]; constructor; try (split; auto); auto.
    induction rows as [|[p ts] rows IH]; constructor; auto. split; auto. simpl. clear. induction ts; constructor; auto. split; auto. split; auto. }
  induction s as [d|subs b IH|subs b ch IH|k b q|k b q con IH] using stmt_ind'; intros H; inversion H as [|? ? B|? ? ? B|? ? ? ? B]; subst.
  - constructor; auto.
  - constructor. clear -IH B. induction B; inversion IH; subst; constructor; auto.
  - constructor. clear -IH B. induction B; inversion IH; subst; constructor; auto.
  - constructor; auto.
Qed.
Lemma consistent_strip e s : forall v r d, consistent e (strip s) v r d = consistent e s v r d.
Proof.
  induction s as [d0|subs b IH|subs b ch IH|k b q|k b q con IH] using stmt_ind'; intros v r d; destruct v as [|vs|vs|[w|]]; auto.
  - cbn [strip]. rewrite !consistent_and. revert vs d. generalize 0%nat as i. induction IH as [|x l Hx F IHl]; intros i [|w vs] d; auto.
    simpl. destruct (index r i) as [ri|]; auto. cbn [rbind]. rewrite Hx. destruct (consistent e x w ri d) as [[o|]|]; auto. cbn [rbind]. apply IHl.
  - cbn [strip]. rewrite !consistent_or. revert vs. generalize 0%nat as i. induction IH as [|x l Hx F IHl]; intros i [|w vs]; auto.
    simpl. destruct (index r 1) as [rs|]; auto. cbn [rbind]. destruct (index rs i) as [ri|]; auto. cbn [rbind]. rewrite Hx.
    destruct (consistent e x w ri []) as [[o|]|]; auto. cbn [rbind]. apply IHl.
  - cbn [strip consistent]. apply IH.
Qed.
Lemma match_built s : forall v, vmatch s v -> vready v -> built s.
Proof.
  assert (G : forall l, Forall (fun x => forall v, vmatch x v -> vready v -> built x) l ->
    forall vs, Forall2 vmatch l vs -> Forall vready vs -> Forall built l).
  { induction 1 as [|x l Hx F IH]; intros vs E R; inversion E; subst; auto. inversion R; subst. constructor; eauto. }
  induction s as [d|subs b IH|subs b ch IH|k b q|k b q con IH] using stmt_ind'; intros v H R; inversion H; subst; inversion R; subst; constructor; eauto.
Qed.
Lemma verify_same s s' z msg st b s1 st1 : pstrip s = pstrip s' -> verify s z msg st = Ok ((b, s1), st1) ->
  st1 = st /\ exists s1', verify s' z msg st = Ok ((b, s1'), st) /\ strip s1' = strip s1.
Proof.
  intros P H. apply verify_inv in H as (v & h & com & i & E1 & E2 & E3 & E4 & E5 & E6 & ->).
  destruct (processed_same _ _ _ _ _ _ _ E1 P) as [-> (s1' & E1' & M)]. split; auto.
  unfold pre_validation in E4. apply rbind_ok in E4 as (u & EV & E4). destruct u. apply rbind_ok in E4 as ([d|] & EC & E4); [|discriminate].
  assert (V := processed_match _ _ _ _ _ _ E1). assert (R : vready v) by (eapply consistent_ready; eauto).
  assert (SS := MSame_strip _ _ _ M R). assert (B := match_built _ _ (processed_match _ _ _ _ _ _ E1') R).
  assert (SM := Sim_same _ _ _ _ _ (eq_sym SS) (Sim_refl _ B)).
  exists s1'. split; [|now symmetry].
  apply (verify_run s' z msg st v s1' st h com i); auto.
  - now rewrite <- (Sim_prehash _ _ _ _ SM).
  - unfold pre_validation. rewrite <- (Sim_validate _ _ _ _ SM), EV. cbn [rbind].
    rewrite <- (consistent_strip _ s1'), <- SS, consistent_strip, EC. reflexivity.
  - now rewrite <- (Sim_recompute _ _ _ _ _ _ SM).
Qed.

(** ** Lives of statement objects *)
Inductive pmatch : stmt -> prover -> Prop :=
| PmDL d ks : pmatch (SDL d) (PDL ks)
| PmAnd subs b ps : Forall2 pmatch subs ps -> pmatch (SAnd subs b) (PAnd ps)
| PmOr subs b ch i x sp sims : nth_error subs i = Some x -> pmatch x sp -> pmatch (SOr subs b ch) (POr i sp sims)
| PmExt k b pre con sv o : pmatch (SExt k b pre con) (PExt sv o).
Lemma pmatch_same s : forall s' p, pstrip s = pstrip s' -> pmatch s p -> pmatch s' p.
Proof.
  induction s as [d|subs b IH|subs b ch IH|k b q|k b q con IH] using stmt_ind'; intros [d'|subs' b'|subs' b' ch'|k' b' q' c'] p E H;
    try discriminate; cbn [pstrip] in E; inversion H as [|? ? ps F|? ? ? i x sp sims N P|]; subst; try (constructor; fail).
  - constructor. injection E as E. clear H. revert subs' E. induction F as [|x y l m Px F IHF]; intros [|x' l'] E; try discriminate; constructor;
      inversion IH; subst; simpl in E; injection E; auto.
  - injection E as E. assert (HN := map_nth_error pstrip _ _ N). rewrite E, nth_error_map in HN.
    destruct (nth_error subs' i) as [x'|] eqn:N'; [|discriminate]. injection HN as HN. apply (PmOr _ _ _ _ x' _ _ N').
    rewrite Forall_forall in IH. apply (IH x (nth_error_In _ _ N)); auto.
Qed.
Lemma precommit_pstrip s : forall p st pre p1 s1 st1, pmatch s p -> precommit s p st = Ok ((pre, p1, s1), st1) -> pstrip s1 = pstrip s.
Proof.
  induction s as [d|subs b IH|subs b ch IH|k b q|k b q con IH] using stmt_ind'; intros p st pre p1 s1 st1 M H;
    inversion M as [|? ? ps F|? ? ? i x sp sims N P|]; subst.
  - simpl in H. apply ret_ok in H as [H ->]. injection H as <- <- <-. auto.
  - cbn [precommit] in H. apply bind_ok in H as (l & s2 & E & H). apply ret_ok in H as [H ->]. injection H as <- <- <-.
    edestruct (zipM_F3 precommit (fun _ => True) (fun x q r => pstrip (snd r) = pstrip x) subs ps) as [_ G]; eauto.
    + eapply Forall2_len; eauto.
    + intros i x y a [[z1 z2] z3] a' N1 N2 _ Hc. split; auto. rewrite Forall_forall in IH.
      eapply IH in Hc; [exact Hc|eapply nth_error_In; eauto|].
      clear -F N1 N2. revert i N1 N2. induction F; intros [|i] N1 N2; simpl in *; try discriminate; eauto. congruence.
    + cbn [pstrip]. f_equal. clear -G. induction G; simpl; auto. f_equal; auto.
  - rewrite precommit_or in H. apply bind_ok in H as ([[v p'] l'] & s2 & E & H).
    apply ret_ok in H as [H ->]. cbn [fst snd] in H. injection H as <- <- <-.
    apply or_pre_loop_ok in E as (y & y' & N' & E & ->). rewrite N in N'. injection N' as <-.
    rewrite Forall_forall in IH. eapply IH in E; [|eapply nth_error_In; eauto|auto]. cbn [pstrip]. f_equal.
    rewrite (map_replace pstrip y' subs i x N E). reflexivity.
  - cbn [precommit] in H. apply bind_ok in H as (pr & s2 & E & H). apply bind_ok in H as (c & s3 & C & H).
    apply bind_ok in H as (r & s4 & G & H). apply ret_ok in H as [H ->]. injection H as <- <- <-. reflexivity.
  - cbn [precommit] in H. apply bind_ok in H as (pr & s2 & E & H). apply bind_ok in H as (c & s3 & C & H).
    apply bind_ok in H as (r & s4 & G & H). apply ret_ok in H as [H ->]. injection H as <- <- <-. reflexivity.
Qed.
Lemma or_loop_pmatch sd subs : (forall x, In x subs -> forall st p s' st',
    get_prover x sd st = Ok ((Some p, s'), st') -> pmatch x p) ->
  forall fuel possible cur st i p cur' st',
  or_loop fuel (map (fun s => get_prover s sd) subs) possible cur st = Ok ((Some (i, p), cur'), st') ->
  exists x, nth_error subs i = Some x /\ pmatch x p.
Proof.
  intros HG. induction fuel as [|fuel IH]; intros possible cur st i p cur' st' H; simpl in H.
  - apply ret_ok in H as [H ->]. discriminate.
  - apply bind_ok in H as (z & s1 & E & H).
    destruct (nth_error possible (Z.to_nat z)) as [j|] eqn:Ni; [|discriminate].
    rewrite nth_error_map in H. destruct (nth_error subs j) as [x|] eqn:Nx; [|discriminate]. simpl in H.
    apply bind_ok in H as ([o s'] & s2 & E2 & H). cbn [fst snd] in H. destruct o as [q|].
    + apply ret_ok in H as [H ->]. injection H as <- <- <-. exists x. split; auto. eapply HG; eauto. eapply nth_error_In; eauto.
    + destruct (empty_dict _); [apply ret_ok in H as [H ->]; discriminate|]. eapply IH; eauto.
Qed.
Lemma get_prover_pmatch s : forall sd st p s' st', get_prover s sd st = Ok ((Some p, s'), st') -> pmatch s p.
Proof.
  induction s as [d|subs b IH|subs b ch IH|k b q|k b q con IH] using stmt_ind'; intros sd st p s' st' H.
  - simpl in H. apply bind_ok in H as ([o' d'] & s1 & E & H). apply ret_ok in H as [H ->]. injection H as -> <-.
    unfold get_prover_dl in E. apply bind_ok in E as (e & s2 & E2 & E). unfold get_env in E2. injection E2 as <- <-.
    cbv zeta in E. destruct (_ || _) in E; apply ret_ok in E as [E ->]; [discriminate|]. injection E as <- <-. constructor.
  - cbn [get_prover] in H. apply bind_ok in H as (u & s1 & E & H).
    destruct b; [apply ret_ok in H as [H ->]; discriminate|].
    apply bind_ok in H as (l & s2 & E2 & H). rewrite Forall_forall in IH.
    edestruct (mapM_inv (fun s => get_prover s sd) (fun x => True) (fun x r => forall p, fst r = Some p -> pmatch x p)) as [I F]; eauto.
    { intros x a [o1 x1] c Hx Ha Hc. split; auto. simpl. intros p1 ->. eapply IH in Hc; eauto. }
    destruct (forallb _ l) eqn:FB; [|discriminate]. apply ret_ok in H as [H ->]. injection H as <- <-. constructor.
    clear -F FB. induction F as [|x [o x1] l m Hx F IHF]; simpl in *; [constructor|]. apply andb_prop in FB as [F1 F2].
    destruct o as [q|]; [|discriminate]. simpl. constructor; auto.
  - cbn [get_prover] in H. apply bind_ok in H as (u & s1 & E & H).
    destruct b; [apply ret_ok in H as [H ->]; discriminate|]. cbv zeta in H.
    destruct (empty_dict _) in H; [apply ret_ok in H as [H ->]; discriminate|].
    apply bind_ok in H as ([r cur] & s2 & E2 & H). rewrite Forall_forall in IH. cbn [fst snd] in H.
    destruct r as [[i q]|]; [|apply ret_ok in H as [H ->]; discriminate].
    apply or_loop_pmatch in E2 as (x & N & P); [|intros; eapply IH; eauto].
    apply bind_ok in H as ([l2 ts] & s3 & E3 & H). apply ret_ok in H as [H ->]. injection H as <- <-. econstructor; eauto.
  - simpl in H. apply bind_ok in H as (u & s1 & E & H). apply bind_ok in H as (e & s2 & E2 & H).
    apply ret_ok in H as [H ->]. injection H as <- <-. constructor.
  - simpl in H. apply bind_ok in H as (u & s1 & E & H). apply bind_ok in H as (e & s2 & E2 & H).
    apply ret_ok in H as [H ->]. injection H as <- <-. constructor.
Qed.

Lemma process_keeps s : forall pre st r st1, process_pre s (get_verifier s) pre st = Ok (r, st1) -> st1 = st.
Proof. intros pre st r st1 E. now destruct (process_same _ _ _ _ _ s eq_refl E). Qed.
Lemma process_pstrip s : forall pre st v s1 st1, process_pre s (get_verifier s) pre st = Ok ((v, s1), st1) -> pstrip s1 = pstrip s.
Proof.
  assert (G : forall l, Forall (fun x => forall pre st v s1 st1, process_pre x (get_verifier x) pre st = Ok ((v, s1), st1) -> pstrip s1 = pstrip x) l ->
    forall pre i st rs st1, pp_loop process_pre pre i l (map get_verifier l) st = Ok (rs, st1) -> map pstrip (map snd rs) = map pstrip l).
  { induction 1 as [|x l Hx F IH]; intros pre i st rs st1 E; simpl in E.
    - apply ret_ok in E as [<- _]. auto.
    - apply bind_ok in E as (p & s1 & E1 & E). apply bind_ok in E as ([v y] & s2 & E2 & E).
      apply bind_ok in E as (rs' & s3 & E3 & E). apply ret_ok in E as [<- _]. simpl. f_equal; eauto. }
  induction s as [d|subs b IH|subs b ch IH|k b q|k b q con IH] using stmt_ind'; intros pre st v s1 st1 E.
  - apply ret_ok in E as [E _]. now injection E as _ <-.
  - cbn [get_verifier] in E. rewrite process_pre_and in E. destruct (is_none pre); [apply ret_ok in E as [E _]; now injection E as _ <-|].
    apply bind_ok in E as (rs & s2 & E1 & E). apply ret_ok in E as [E _]. injection E as _ <-. cbn [pstrip]. f_equal. eauto.
  - cbn [get_verifier] in E. rewrite process_pre_or in E. destruct (is_none pre); [apply ret_ok in E as [E _]; now injection E as _ <-|].
    apply bind_ok in E as (rs & s2 & E1 & E). apply ret_ok in E as [E _]. injection E as _ <-. cbn [pstrip]. f_equal. eauto.
  - cbn [process_pre get_verifier] in E. apply bind_ok in E as (c0 & s2 & E1 & E). apply ret_ok in E as [E _]. now injection E as _ <-.
  - cbn [process_pre get_verifier] in E. apply bind_ok in E as (c0 & s2 & E1 & E). apply ret_ok in E as [E _]. now injection E as _ <-.
Qed.
Lemma verify_pstrip s z msg st b s1 st1 : verify s z msg st = Ok ((b, s1), st1) -> pstrip s1 = pstrip s.
Proof.
  intros H. apply verify_inv in H as (v & h & com & i & E1 & _).
  unfold processed in E1. destruct (is_none _); [apply ret_ok in E1 as [E1 _]; now injection E1 as _ <-|].
  eapply process_pstrip; eauto.
Qed.
Lemma prove_pstrip s sd msg st z s1 st1 : prove s sd msg st = Ok ((z, s1), st1) -> pstrip s1 = pstrip s.
Proof.
  unfold prove. intros H. apply bind_ok in H as ([[p|] s0] & a & E & H); [|discriminate].
  assert (PM := get_prover_pmatch _ _ _ _ _ _ E). apply get_prover_pstrip in E.
  apply bind_ok in H as ([[z' p'] s2] & a1 & E1 & H). apply ret_ok in H as [H _]. injection H as <- <-.
  unfold get_nizk_proof in E1. apply bind_ok in E1 as ([[pre p1] s3] & a2 & E2 & E1).
  apply precommit_pstrip in E2; [|eapply pmatch_same; [symmetry; exact E|exact PM]].
  apply bind_ok in E1 as ([com p2] & a3 & _ & E1). do 3 apply bind_ok in E1 as (? & ? & _ & E1).
  apply ret_ok in E1 as [E1 _]. injection E1 as _ _ <-. congruence.
Qed.
Lemma simulate_pstrip s c st t h s1 st1 : simulate s c st = Ok ((t, h, s1), st1) -> pstrip s1 = pstrip s.
Proof.
  unfold simulate. cbv zeta. intros H. apply bind_ok in H as (s0 & a & E & H). apply prepare_pstrip in E.
  rewrite set_simulated_pstrip in E. do 2 apply bind_ok in H as (? & ? & _ & H). apply ret_ok in H as [H _]. injection H as _ _ <-. auto.
Qed.
Lemma life_pstrip s s' : life s s' -> pstrip s' = pstrip s.
Proof.
  induction 1; auto.
  - now rewrite IHlife, (prove_pstrip _ _ _ _ _ _ _ H).
  - now rewrite IHlife, (verify_pstrip _ _ _ _ _ _ _ H).
  - now rewrite IHlife, (get_prover_pstrip _ _ _ _ _ _ H).
  - rewrite IHlife. assert (PM := get_prover_pmatch _ _ _ _ _ _ H). apply get_prover_pstrip in H.
    apply precommit_pstrip in H0; [congruence|]. eapply pmatch_same; [symmetry; exact H|exact PM].
  - now rewrite IHlife, (process_pstrip _ _ _ _ _ _ H).
  - now rewrite IHlife, (simulate_pstrip _ _ _ _ _ _ _ H).
  - now rewrite IHlife, set_simulated_pstrip.
Qed.
Lemma life_verdict s s' z msg st b : life s s' ->
  (exists s1 st1, verify s z msg st = Ok ((b, s1), st1)) <-> (exists s1 st1, verify s' z msg st = Ok ((b, s1), st1)).
Proof.
  intros L. apply life_pstrip in L. split; intros (s1 & st1 & H).
  - edestruct (verify_same s s') as [_ (x & E & _)]; eauto.
  - edestruct (verify_same s' s) as [_ (x & E & _)]; eauto.
Qed.
Lemma Pat_refl s : Pat (fun n => n) (fun n => n) s s.
Proof.
  assert (R : forall l, Forall2 (ren (fun n => n) (fun n => n)) l l) by (induction l; constructor; auto; split; auto).
  assert (KR : forall k, KSim (fun n => n) (fun n => n) k k).
  { destruct k as [H0 g H1 h x al be bnd|com g h n isp x r rs|pk sig bs sv r1 r2 d1 d2|cls rows]; constructor; try (split; auto); auto.
    induction rows as [|[p ts] rows IH]; constructor; auto. split; auto. simpl. clear. induction ts; constructor; auto. split; auto. split; auto. }
  induction s as [d|subs b IH|subs b ch IH|k b q|k b q con IH] using stmt_ind'; constructor; auto.
  - induction IH; constructor; auto.
  - induction IH; constructor; auto.
Qed.
Lemma pstrip_secrets s : forall s', pstrip s = pstrip s' -> secrets s = secrets s'.
Proof.
  assert (G : forall l, Forall (fun x => forall s', pstrip x = pstrip s' -> secrets x = secrets s') l ->
    forall l', map pstrip l = map pstrip l' -> List.concat (map secrets l) = List.concat (map secrets l')).
  { induction 1 as [|x l Hx F IH]; intros [|y l'] E; try discriminate; simpl; auto. simpl in E. injection E; intros. f_equal; auto. }
  induction s as [d|subs b IH|subs b ch IH|k b q|k b q con IH] using stmt_ind'; intros [d'|subs' b'|subs' b' ch'|k' b' q' c'] E;
    try discriminate; cbn [pstrip] in E; cbn [secrets]; auto.
  - now injection E.
  - injection E as E. auto.
  - injection E as E. auto.
  - now injection E as <-.
  - now injection E as <-.
Qed.
Lemma life_values s s' z msg st st' b : life s s' -> coh (env st) (secrets s) -> coh (env st') (secrets s) ->
  Forall (vkOK (env st)) (kinds s) -> Forall (vkOK (env st')) (kinds s) ->
  (exists s1 st1, verify s z msg st = Ok ((b, s1), st1)) <-> (exists s1 st1, verify s' z msg st' = Ok ((b, s1), st1)).
Proof.
  intros L C C' V V'. apply life_pstrip in L. assert (KS := kinds_same _ _ L). assert (SS := pstrip_secrets _ _ L).
  assert (P : Pat (fun n => n) (fun n => n) s s') by (apply (Pat_same _ _ s' s s' L), Pat_refl).
  split; intros (s1 & st1 & H).
  - edestruct (renamed_verify (fun n => n) (fun n => n) s s' z msg st st') as (x & E & _); eauto; rewrite ?KS, ?SS; auto.
  - edestruct (renamed_verify (fun n => n) (fun n => n) s' s z msg st' st) as (x & E & _); eauto; rewrite ?KS, ?SS; auto.
    apply (Pat_same _ _ s s' s (eq_sym L)), Pat_refl.
Qed.
End H.

(** Disjunctions: which secrets are needed, provers used twice, custom primitives. *)
From Coq Require Import String Znumtheory.
From Verif Require Import Base World Val Expr Utils Stmt Prove Verify Spec Shapes Claims Clauses Extract Lib DictProofs Keeps Tree
  Sigma ArithProofs Build Process Ktruth Provers Honest Supply Total Total4 RangeC Leak Sound3 Again Complete2 Runs Commit.
Open Scope Z_scope.
Open Scope list_scope.

Section O.
Context {W : World}.

Lemma known_dec (d : dict Z) x : known d x \/ ~ known d x.
Proof.
  induction d as [|[k v] d IH].
  - right. intros (k & v & [] & _).
  - assert (D : sname k = sname x \/ sname k <> sname x).
    { destruct (bytes_eqb (sname k) (sname x)) eqn:E; [left; now apply bytes_eqb_eq|right].
      intros K. apply bytes_eqb_eq in K. congruence. }
    destruct D as [E|E].
    + left. exists k, v. split; [now left|auto].
    + destruct IH as [(k' & v' & I & N)|IH]; [left; exists k', v'; split; [now right|auto]|].
      right. intros (k' & v' & [I|I] & N); [injection I as <- <-; auto|]. apply IH. exists k', v'. auto.
Qed.
Lemma supplied_or_not (vals sd : dict Z) l :
  (forall x, In x l -> known vals x \/ known sd x) \/ exists x, In x l /\ ~ known vals x /\ ~ known sd x.
Proof.
  induction l as [|x l IH]; [left; intros x []|].
  destruct IH as [IH|(y & I & N)]; [|right; exists y; split; [now right|auto]].
  destruct (known_dec vals x) as [K|K]; [|destruct (known_dec sd x) as [K'|K']].
  - left. intros y [<-|I]; auto.
  - left. intros y [<-|I]; auto.
  - right. exists x. split; [now left|auto].
Qed.
Lemma alternatives_kinds s : alternatives s -> kinds s = [].
Proof.
  induction s as [d|subs b IH|subs b ch IH|k b q|k b q con IH] using stmt_ind'; intros H; inversion H; subst; auto.
  simpl. clear H. induction IH as [|x subs Hx F IHs]; auto. inversion H1; subst. simpl. rewrite Hx; auto.
Qed.
Lemma alternatives_dec sd w e s : alternatives s -> Refuses sd s \/ Supplied sd w e s.
Proof.
  induction s as [d|subs b IH|subs b ch IH|k b q|k b q con IH] using stmt_ind'; intros H; inversion H; subst.
  - destruct (supplied_or_not (dl_vals d) sd (dl_secs d)) as [K|(x & I & N1 & N2)]; [right; now constructor|left; now apply (RfDL _ _ x)].
  - destruct b; [left; constructor|].
    assert (A : forall y, In y subs -> Refuses sd y \/ Supplied sd w e y) by (rewrite Forall_forall in *; auto).
    assert (K : forall y, In y subs -> Forall (ksimulable w e) (kinds y)).
    { intros y Hy. rewrite alternatives_kinds; auto. rewrite Forall_forall in H1. auto. }
    assert (D : (forall x, In x subs -> simulated x = false -> Refuses sd x) \/
                exists x, In x subs /\ simulated x = false /\ Supplied sd w e x).
    { clear - A. induction subs as [|x subs IH]; [left; intros x []|].
      destruct IH as [IH|(y & I & N)]; [intros y Hy; apply A; now right| |right; exists y; split; [now right|auto]].
      destruct (simulated x) eqn:E; [left; intros y [<-|I] S; [congruence|auto]|].
      destruct (A x (or_introl eq_refl)); [left; intros y [<-|I] S; auto|right; exists x; split; [now left|auto]]. }
    destruct D as [D|(x & I & S & D)]; [left; apply RfOr; exact D|right; apply (SuOr _ _ _ _ _ x); auto].
Qed.
Lemma alternatives_Apart s : alternatives s -> Apart s.
Proof.
  induction s as [d|subs b IH|subs b ch IH|k b q|k b q con IH] using stmt_ind'; intros H; inversion H; subst; constructor.
  rewrite Forall_forall in *. auto.
Qed.

Lemma or_enough U w subs ch sd ord msg a x : let s := SOr subs false ch in
  honest U w s sd (env a) -> Shape s -> Ords ord s -> alternatives s ->
  In x subs -> simulated x = false -> Supplied sd w (env a) x ->
  (exists z s' a', prove s sd msg a = Ok ((z, s'), a')) \/ oversized s sd a.
Proof.
  intros s HH SH OR AL I S SU. apply (prove_total U w s sd ord msg a); auto; [|now apply alternatives_Apart].
  inversion AL; subst. rewrite Forall_forall in H0. apply (SuOr _ _ _ _ _ x); auto.
  - intros y Hy _. apply alternatives_dec; auto.
  - intros y Hy. rewrite alternatives_kinds; auto.
Qed.

(** ** The real branch *)
Lemma or_choice subs b ch sd st o s' st' : get_prover (SOr subs b ch) sd st = Ok ((o, s'), st') ->
  match o with
  | Some p => b = false /\ exists i q sims subs' x x' sta stb, p = POr i q sims /\ s' = SOr subs' b (Some i) /\
      nth_error subs i = Some x /\ simulated x = false /\ get_prover x sd sta = Ok ((Some q, x'), stb)
  | None => b = true \/ forall x, In x subs -> simulated x = false ->
      exists sta x' stb, get_prover x sd sta = Ok ((None, x'), stb)
  end.
Proof.
  intros H. apply get_prover_or_inv in H. destruct o; auto.
  destruct H as (-> & i & q & sims & subs' & x & x' & sta & stb & H). split; auto. exists i, q, sims, subs', x, x', sta, stb. tauto.
Qed.

(** ** A conjunction with a missing secret among the branches *)
Lemma dl_prover_total d sd a : exists o d', get_prover (SDL d) sd a = Ok ((o, SDL d'), a).
Proof.
  cbn [get_prover]. unfold get_prover_dl, bind, get_env. cbv zeta.
  destruct (empty_dict _ || existsb _ _); unfold ret; eauto.
Qed.
Lemma and_missing sd l : Forall is_dl l -> (exists x, In x l /\ Refuses sd x) -> forall a,
  get_prover (SAnd l false) sd a = Err EValueErr.
Proof.
  intros DS (x & Hx & R) a. cbn [get_prover]. unfold update_secret_values at 1. unfold bind at 1.
  set (a1 := mkSt _ _ _). clearbody a1.
  assert (K : exists r a2, mapM (fun s => get_prover s sd) l a1 = Ok (r, a2) /\
    (In x l -> forallb (fun r => is_some (fst r)) r = false)).
  { clear Hx. revert a1. induction DS as [|y l (d & ->) DS IH]; intros a1; cbn [mapM].
    - exists [], a1. split; auto. intros [].
    - destruct (dl_prover_total d sd a1) as (o & d' & E). destruct (IH a1) as (r & a2 & E2 & F).
      unfold bind at 1. rewrite E. unfold bind at 1. rewrite E2. unfold ret at 1. eexists. eexists. split; [reflexivity|].
      cbn [forallb fst]. intros [I|I]; [subst x|rewrite F by auto; apply andb_false_r].
      rewrite (refuses_none _ _ _ _ _ _ R E). reflexivity. }
  destruct K as (r & a2 & E & F). unfold bind. rewrite E. rewrite F by auto. reflexivity.
Qed.
Lemma or_missing sd l rest ch msg a : Forall is_dl l -> (exists x, In x l /\ Refuses sd x) -> 
  tape a (pos a) = 0 -> prove (SOr (SAnd l false :: rest) false ch) sd msg a = Err EValueErr.
Proof.
  intros DS R T. unfold prove. unfold bind at 1. cbn [get_prover]. unfold update_secret_values at 1. unfold bind at 1.
  set (a1 := mkSt _ _ _). assert (T1 : tape a1 (pos a1) = 0) by exact T. clearbody a1. cbv zeta.
  change (seq 0 (List.length (SAnd l false :: rest))) with (0%nat :: seq 1 (List.length rest)).
  cbn [combine filter map snd simulated negb fst empty_dict List.length or_loop].
  unfold bind at 1. unfold bind at 1. unfold draw at 1. rewrite T1. rewrite Zmod_0_l. cbn [Z.to_nat nth_error].
  unfold bind at 1. change (map (fun s => get_prover s sd) (SAnd l false :: rest)) with (get_prover (SAnd l false) sd :: map (fun s => get_prover s sd) rest).
  cbn [nth_error]. rewrite and_missing; auto.
Qed.

(** ** A primitive with a missing secret among the branches *)
Lemma lacks_precommit k sd a y : lacks k sd (env a) -> kprecommit k a <> Ok y.
Proof.
  destruct k as [H0 g H1 h x al be bd|com g h n isp x r rs|pk sig bs sv r1 r2 d1 d2|]; cbn [lacks kprecommit]; intros L E.
  - destruct L as [L _]. destruct y as [y a']. cbv zeta in E. apply bind_ok in E as (b & a1 & E1 & E). apply keeps_draw in E1.
    apply bind_ok in E as (v & a2 & E2 & _). unfold value_of, bind, get_env in E2. rewrite E1, L in E2. discriminate.
  - destruct L as [L _]. destruct isp; [|discriminate]. destruct y as [y a']. apply bind_ok in E as (v & a2 & E2 & _).
    unfold value_of, bind, get_env in E2. rewrite L in E2. discriminate.
  - subst. discriminate.
  - auto.
Qed.
Lemma given_other (sd : dict Z) i : (forall k v, In (k, v) sd -> sid k <> i) -> forall e,
  fold_left (fun e (kv : secret * Z) => upd e (sid (fst kv)) (Some (snd kv))) sd e i = e i.
Proof.
  induction sd as [|[k v] sd IH]; intros N e; [reflexivity|]. cbn [fold_left fst snd].
  rewrite IH by (intros k' v' I; apply (N k' v'); now right). unfold upd.
  destruct (Nat.eqb i (sid k)) eqn:E; [|reflexivity]. apply Nat.eqb_eq in E. destruct (N k v); [now left|auto].
Qed.
Lemma lacks_given k sd a u a' : lacks k sd (env a) -> update_secret_values sd a = Ok (u, a') -> lacks k sd (env a').
Proof.
  intros L E. unfold update_secret_values in E. injection E as _ <-. cbn [env].
  destruct k; cbn [lacks] in *; auto; destruct L as [L N]; (split; [rewrite given_other; auto|auto]).
Qed.
Lemma or_missing_ext sd k pre con rest ch msg a : lacks k sd (env a) -> tape a (pos a) = 0 ->
  forall z, prove (SOr (SExt k false pre con :: rest) false ch) sd msg a <> Ok z.
Proof.
  intros L T [z az] H. unfold prove in H. apply bind_ok in H as ([o s'] & a1 & G & H).
  cbn [get_prover] in G. apply bind_ok in G as (u & a2 & G0 & G).
  assert (T2 : tape a2 (pos a2) = 0) by (unfold update_secret_values in G0; injection G0 as _ <-; exact T).
  apply (lacks_given k) in G0; [|exact L]. clear L T. cbv zeta in G.
  change (seq 0 (List.length (SExt k false pre con :: rest))) with (0%nat :: seq 1 (List.length rest)) in G.
  cbn [combine filter map snd simulated negb fst empty_dict List.length or_loop] in G.
  apply bind_ok in G as (r & a3 & G1 & G).
  apply bind_ok in G1 as (d & a4 & D & G1). unfold draw in D. rewrite T2 in D. rewrite Zmod_0_l in D.
  assert (d = 0 /\ env a4 = env a2) as [-> E4] by (injection D as <- <-; auto). clear D T2.
  cbn [Z.to_nat nth_error] in G1.
  apply bind_ok in G1 as ([p x] & a5 & G2 & G1). cbn [fst snd] in G1.
  apply bind_ok in G2 as (u2 & a6 & G3 & G2). apply (lacks_given k) in G3; [|now rewrite E4].
  assert (p = Some (PExt (dupdate (env a6) [] sd) None) /\ x = SExt k false pre con /\ a5 = a6) as (-> & -> & ->)
    by (unfold bind, get_env, ret in G2; injection G2 as <- <- <-; auto).
  apply ret_ok in G1 as [<- ->]. cbn [fst snd replace] in G.
  apply bind_ok in G as (t & a7 & G4 & G).
  rewrite setup_simulations_eq in G4. pose proof (keeps_setup _ _ _ _ _ _ G4) as K7. cbn [setup_loop] in G4. change (0 =? 0)%nat with true in G4. cbv iota in G4.
  apply bind_ok in G4 as (t' & a8 & _ & G4). apply ret_ok in G4 as [<- _]. cbn [fst snd] in G.
  apply ret_ok in G as [E ->]. injection E as <- <-.
  apply bind_ok in H as (y & a9 & H & _). unfold get_nizk_proof in H. apply bind_ok in H as (y1 & b1 & H & _).
  cbn [precommit] in H. apply bind_ok in H as (y2 & b2 & H & _). apply bind_ok in H as (y3 & b3 & H & _).
  apply bind_ok in H as (y4 & b4 & H & _). apply (lacks_precommit k sd) in H; auto. now rewrite K7.
Qed.

(** ** One statement, two provers *)
Lemma dupdate_get e (sd : dict Z) w : (forall k v, In (k, v) sd -> v = w (sname k)) -> forall d x,
  (exists v, In (x, v) sd) \/ dget e d x = Some (w (sname x)) -> dget e (dupdate e d sd) x = Some (w (sname x)).
Proof.
  unfold dupdate. induction sd as [|[k v] sd IH]; intros A d x H; simpl.
  - destruct H as [(v & [])|H]; auto.
  - apply IH; [intros; apply A; now right|]. destruct (sec_eqb e k x) eqn:E.
    + right. rewrite dget_dset_same by auto. rewrite (A k v) by now left. apply sec_eqb_iff in E as [E _]. now rewrite E.
    + destruct H as [(u & [I|I])|H]; [|left; eauto|right; now rewrite dget_dset_other].
      injection I as -> ->. now rewrite sec_eqb_refl in E.
Qed.
Lemma second_dictionary d sd1 sd2 w2 a p1 d1 a1 p2 d2 a2 com p a3 a4 c r a5 d' :
  get_prover (SDL d) sd1 a = Ok ((Some p1, SDL d1), a1) -> get_prover (SDL d1) sd2 a1 = Ok ((Some p2, SDL d2), a2) ->
  (forall k v, In (k, v) sd2 -> v = w2 (sname k)) -> (forall x, In x (dl_secs d) -> exists v, In (x, v) sd2) ->
  internal_commit (SDL d2) p1 None a2 = Ok ((com, p), a3) -> compute_response (SDL d2) p c a4 = Ok (r, a5) -> env a4 = env a3 ->
  dl_shape d -> prime (order (grp (dl_lhs d))) -> ~ (order (grp (dl_lhs d)) | c) -> ~ dl_holds w2 d ->
  dl_lhs d' = dl_lhs d -> dl_bases d' = dl_bases d -> forall e v, verify_resp e (SDL d') v com c r <> Ok true.
Proof.
  intros G1 G2 A B IC CR EN SH PR NC NH E1 E2 e v.
  assert (D : forall d sd a p d' a', get_prover (SDL d) sd a = Ok ((Some p, SDL d'), a') ->
     a' = a /\ dl_lhs d' = dl_lhs d /\ dl_bases d' = dl_bases d /\ dl_secs d' = dl_secs d /\ dl_vals d' = dupdate (env a) (dl_vals d) sd).
  { clear. intros d sd a p d' a' H. cbn [get_prover] in H. unfold get_prover_dl, bind, get_env in H. cbv zeta in H.
    destruct (empty_dict _ || existsb _ _); unfold ret in H; cbn [fst snd] in H; [discriminate|]. injection H as <- <- <-. auto. }
  apply D in G1 as (-> & L1 & B1 & S1 & V1). apply D in G2 as (-> & L2 & B2 & S2 & V2).
  assert (K := keeps_internal_commit _ _ _ _ _ _ IC).
  eapply (wrong_rejected d2 d' (map (fun x => w2 (sname x)) (dl_secs d2))); try eassumption; try (rewrite ?L2, ?L1, ?B2, ?B1; auto; fail).
  - unfold dl_shape in *. rewrite L2, L1, B2, B1, S2, S1. auto.
  - rewrite V2, EN, K. rewrite <- S1, <- S2 in B. clear - A B. induction (dl_secs d2) as [|x l IH]; constructor.
    + apply dupdate_get; auto. left. apply B. now left.
    + apply IH. intros; apply B; now right.
  - rewrite L2, L1, B2, B1, S2, S1. exact NH.
Qed.

(** ** One or-prover, two proofs *)
Fixpoint first_diff (l m : list val) : option nat :=
  match l, m with
  | VInt a :: l, VInt b :: m => if a =? b then option_map S (first_diff l m) else Some O
  | _, _ => None
  end.
Definition diff_branch (r r' : val) : option nat :=
  match r, r' with VTuple [VList l; _], VTuple [VList m; _] => first_diff l m | _, _ => None end.
Lemma first_diff_insert i a b l : (i <= List.length l)%nat -> a <> b ->
  first_diff (map VInt (insert_at i a l)) (map VInt (insert_at i b l)) = Some i.
Proof.
  revert l. induction i as [|i IH]; intros l L N.
  - unfold insert_at. simpl. destruct (Z.eqb_spec a b); congruence.
  - destruct l as [|x l]; [simpl in L; lia|].
    change (insert_at (S i) a (x :: l)) with (x :: insert_at i a l).
    change (insert_at (S i) b (x :: l)) with (x :: insert_at i b l). cbn [map first_diff]. rewrite Z.eqb_refl, IH; auto. simpl in L. lia.
Qed.

Definition OrSims (i : nat) (sims : list sim) (p : prover) : Prop := exists q, p = POr i q sims.
Lemma or_nizk_sims subs b ch i sims p msg a z p' s' a' : OrSims i sims p ->
  get_nizk_proof (SOr subs b ch) p msg a = Ok ((z, p', s'), a') ->
  OrSims i sims p' /\ (exists subs', s' = SOr subs' b ch) /\
  exists rs, n_resp z = VTuple [VList (map VInt (insert_at i (find_residual (map t_chal sims) (n_chal z) challenge_length) (map t_chal sims))); rs].
Proof.
  intros (q & ->) GN. unfold get_nizk_proof in GN. apply bind_ok in GN as ([[pre p1] s1] & st6 & PC & GN).
  rewrite precommit_or in PC. apply bind_ok in PC as ([[v q'] l] & s7 & E & PC). cbv zeta in PC.
  apply ret_ok in PC as [PC _]. cbn [fst snd] in PC. injection PC as <- <- <-.
  apply bind_ok in GN as ([com p2] & st8 & IC & GN).
  rewrite internal_commit_or in IC. apply bind_ok in IC as (e & s1 & _ & IC). apply bind_ok in IC as (u & s2 & _ & IC).
  apply bind_ok in IC as (rr & s3 & _ & IC). apply ret_ok in IC as [IC _]. injection IC as <- <-.
  apply bind_ok in GN as (hh & st9 & _ & GN).
  apply bind_ok in GN as (c & st10 & _ & GN). apply bind_ok in GN as (resp & st11 & CR & GN).
  apply ret_ok in GN as [GN _]. injection GN as <- <- <-. split; [eexists; eauto|]. split; [eauto|]. cbn [n_resp n_chal].
  rewrite compute_response_or in CR. cbv zeta in CR. apply bind_ok in CR as (x & s4 & _ & CR). apply ret_ok in CR as [<- _]. eauto.
Qed.
Lemma residual_inj cs c c' : find_residual cs c challenge_length = find_residual cs c' challenge_length ->
  (2 ^ challenge_length | c - c').
Proof.
  rewrite !find_residual_mod by (unfold challenge_length; lia). intros H.
  assert (E : (zsum cs - c) mod 2 ^ challenge_length = (zsum cs - c') mod 2 ^ challenge_length) by lia.
  apply Z.mod_divide; [discriminate|]. replace (c - c') with ((zsum cs - c') - (zsum cs - c)) by lia.
  rewrite Zminus_mod, E, Z.sub_diag. reflexivity.
Qed.
Lemma reuse_reveals : exists guess : val -> val -> option nat,
  forall subs b ch sd msg1 msg2 a p s a1 z1 p1 s1 a2 a3 z2 p2 s2 a4,
  get_prover (SOr subs b ch) sd a = Ok ((Some p, s), a1) ->
  get_nizk_proof s p msg1 a1 = Ok ((z1, p1, s1), a2) -> get_nizk_proof s1 p1 msg2 a3 = Ok ((z2, p2, s2), a4) ->
  exists i x subs', s = SOr subs' false (Some i) /\ nth_error subs i = Some x /\ simulated x = false /\
    (guess (n_resp z1) (n_resp z2) = Some i \/ (2 ^ challenge_length | n_chal z1 - n_chal z2)).
Proof.
  exists diff_branch. intros subs b ch sd msg1 msg2 a p s a1 z1 p1 s1 a2 a3 z2 p2 s2 a4 GP N1 N2.
  apply get_prover_or_inv in GP as (-> & i & q & sims & subs' & x & x' & sta & stb & -> & -> & Nx & Sx & _ & F & L).
  exists i, x, subs'. repeat (split; auto).
  eapply or_nizk_sims in N1 as (P1 & (subs1 & ->) & r1 & E1); [|eexists; reflexivity].
  eapply or_nizk_sims in N2 as (P2 & (subs2 & ->) & r2 & E2); [|exact P1].
  rewrite E1, E2. cbn [diff_branch].
  destruct (Z.eq_dec (find_residual (map t_chal sims) (n_chal z1) challenge_length)
                     (find_residual (map t_chal sims) (n_chal z2) challenge_length)) as [E|E].
  - right. eapply residual_inj; eauto.
  - left. apply first_diff_insert; auto. rewrite map_length.
    assert (nth_error subs i <> None) as K by congruence. apply nth_error_Some in K. lia.
Qed.

(** ** Custom primitives *)
Lemma custom_no_prepare s : (exists cls rows, In (KCustom cls rows) (kinds s)) -> forall a y, prepare_sim s a <> Ok y.
Proof.
  assert (G : forall subs, Forall (fun s => (exists cls rows, In (KCustom cls rows) (kinds s)) -> forall a y, prepare_sim s a <> Ok y) subs ->
    (exists cls rows, In (KCustom cls rows) (List.concat (map kinds subs))) -> forall a y, mapM prepare_sim subs a <> Ok y).
  { induction 1 as [|x subs Hx F IH]; intros (cls & rows & I) a y E; [destruct I|]. cbn [mapM map List.concat] in *.
    destruct y as [y b]. apply bind_ok in E as (x' & s1 & E1 & E). apply bind_ok in E as (l & s2 & E2 & E).
    apply in_app_or in I as [I|I]; [eapply Hx|eapply IH]; eauto. }
  induction s as [d|subs b IH|subs b ch IH|k b q|k b q con IH] using stmt_ind'; intros (cls & rows & I) a y E; cbn [prepare_sim kinds] in *.
  - destruct I.
  - destruct y as [y b']. apply bind_ok in E as (l & s1 & E1 & E). eapply G; eauto.
  - destruct y as [y b']. apply bind_ok in E as (l & s1 & E1 & E). eapply G; eauto.
  - destruct I as [->|[]]. discriminate.
  - destruct I as [->|[]]. discriminate.
Qed.
Lemma custom_no_simulation s c a y : (exists cls rows, In (KCustom cls rows) (kinds s)) -> simulate s c a <> Ok y.
Proof.
  intros H E. destruct y as [y b]. unfold simulate in E. apply bind_ok in E as (s1 & a1 & E1 & E).
  eapply custom_no_prepare; [|exact E1]. destruct H as (cls & rows & I). exists cls, rows.
  destruct s as [d|subs bb|subs bb ch|k bb q con]; exact I.
Qed.

Lemma secret_vars_built s : forall l, get_secret_vars s = Ok l -> built s.
Proof.
  assert (G : forall subs l, Forall (fun s => forall l, get_secret_vars s = Ok l -> built s) subs ->
     rmap get_secret_vars subs = Ok l -> Forall built subs).
  { intros subs l F. revert l. induction F as [|x subs Hx F IH]; intros l E; constructor; cbn [rmap] in E;
      apply rbind_ok in E as (y & E1 & E); [eauto|]. apply rbind_ok in E as (ys & E2 & E). eauto. }
  induction s as [d|subs b IH|subs b ch IH|k b q|k b q con IH] using stmt_ind'; intros l E; cbn [get_secret_vars] in E;
    try discriminate; try (apply rbind_ok in E as (m & E & _)); constructor; eauto.
Qed.

Definition dlc (s : stmt) : Prop := is_dl s \/ exists cls rows b pre con, s = SExt (KCustom cls rows) b pre con.
Lemma dlc_pstrip s s' : pstrip s' = pstrip s -> dlc s -> dlc s'.
Proof.
  intros E [(d & ->)|(cls & rows & b & pre & con & ->)]; destruct s'; try discriminate.
  - left. eexists. reflexivity.
  - right. injection E as ->. repeat eexists.
Qed.
Lemma dl_pstrip s s' : pstrip s' = pstrip s -> is_dl s' -> is_dl s.
Proof. intros E (d & ->). destruct s; try discriminate. eexists. reflexivity. Qed.
Lemma setup_custom idx l : Forall dlc l -> forall i a l' ts a', setup_loop idx i l a = Ok ((l', ts), a') ->
  l' = l /\ Forall (fun t => t_pre t = VNone) ts /\
  forall j x, nth_error l j = Some x -> (i + j)%nat <> idx -> is_dl x.
Proof.
  induction 1 as [|x l D F IH]; intros i a l' ts a' H; cbn [setup_loop] in H.
  - apply ret_ok in H as [H _]. injection H as <- <-. split; auto. split; auto. intros [|j] x; discriminate.
  - fold (setup_loop idx) in H. destruct (Nat.eqb_spec i idx) as [E|E].
    + apply bind_ok in H as ([l1 t1] & s1 & E1 & H). apply ret_ok in H as [H _]. injection H as <- <-.
      apply IH in E1 as (-> & A & B). split; auto. split; auto. intros [|j] y Ny Hj; [lia|]. apply (B j y); auto. lia.
    + apply bind_ok in H as (x' & s1 & E1 & H). apply bind_ok in H as (t & s2 & E2 & H).
      apply bind_ok in H as ([l1 t1] & s3 & E3 & H). apply ret_ok in H as [H _]. injection H as <- <-.
      apply IH in E3 as (-> & A & B). destruct D as [(d & ->)|(cls & rows & b & pre & con & ->)]; [|discriminate E1].
      cbn [prepare_sim] in E1. apply ret_ok in E1 as [<- _]. split; auto. split.
      * constructor; auto. cbn [simulate_proof] in E2. unfold simulate_dl in E2.
        apply bind_ok in E2 as (rd & u1 & _ & E2). apply bind_ok in E2 as (c & u2 & _ & E2). apply bind_ok in E2 as (e & u3 & _ & E2).
        apply bind_ok in E2 as (rs & u4 & _ & E2). apply bind_ok in E2 as (com & u5 & _ & E2). apply ret_ok in E2 as [<- _]. reflexivity.
      * intros [|j] y Ny Hj; [injection Ny as <-; eexists; reflexivity|]. apply (B j y); auto. lia.
Qed.
Lemma precommit_custom_falsy x p a v p' x' a' : dlc x -> precommit x p a = Ok ((v, p', x'), a') -> truthy v = false.
Proof.
  intros [(d & ->)|(cls & rows & b & pre & con & ->)] H; destruct p; try discriminate; cbn [precommit] in H.
  - apply ret_ok in H as [H _]. injection H as <- _ _. reflexivity.
  - apply bind_ok in H as (q & s1 & E & H). cbn [kprecommit] in E. apply ret_ok in E as [<- _].
    apply bind_ok in H as (c & s2 & _ & H). apply bind_ok in H as (r & s3 & _ & H). apply ret_ok in H as [H _]. injection H as <- _ _. reflexivity.
Qed.
Lemma or_pre_loop_inv f i subs a v l a' : or_pre_loop f i subs a = Ok ((v, l), a') ->
  exists x s1 y s2, nth_error subs i = Some x /\ f x s1 = Ok ((v, y), s2).
Proof.
  revert subs a v l a'. induction i as [|i IH]; intros [|x subs] a v l a' H; cbn [or_pre_loop] in H; try discriminate.
  - apply bind_ok in H as ([w y] & s2 & E & H). apply ret_ok in H as [H _]. cbn [fst snd] in H. injection H as <- _. exists x, a, y, s2. auto.
  - apply bind_ok in H as ([w y] & s2 & E & H). apply ret_ok in H as [H _]. cbn [fst snd] in H. injection H as <- _. apply IH in E. exact E.
Qed.
Lemma nth_error_insert {A} i (x : A) l y : In y (insert_at i x l) -> y = x \/ In y l.
Proof.
  unfold insert_at. intros H. apply in_app_or in H as [H|[H|H]]; auto; right; rewrite <- (firstn_skipn i l); apply in_or_app; auto.
Qed.
Lemma custom_or_pre subs b ch sd msg a z s' a' : Forall dlc subs -> 
  prove (SOr subs b ch) sd msg a = Ok ((z, s'), a') -> n_pre z = VNone.
Proof.
  intros D H.
  unfold prove in H. apply bind_ok in H as ([[p|] s1] & st1 & GP & H); [|discriminate].
  apply bind_ok in H as ([[z0 p0] s0] & st2 & GN & H). apply ret_ok in H as [H _]. injection H as <- <-.
  cbn [get_prover] in GP. apply bind_ok in GP as ([] & st3 & _ & GP).
  destruct b; [apply ret_ok in GP as [GP _]; discriminate|].
  cbv zeta in GP. destruct (empty_dict _); [apply ret_ok in GP as [GP _]; discriminate|].
  apply bind_ok in GP as ([r cur] & st4 & E & GP). cbn [fst snd] in GP.
  assert (PS : map pstrip cur = map pstrip subs).
  { apply or_loop_pstrip with (subs := subs) in E; auto. intros; eapply get_prover_pstrip; eauto. }
  assert (DC : Forall dlc cur).
  { clear - D PS. revert cur PS. induction D as [|x l Dx D IH]; intros [|y cur] PS; try discriminate; constructor; injection PS as P1 P2; auto.
    eapply dlc_pstrip; eauto. }
  destruct r as [[i q]|]; [|apply ret_ok in GP as [GP _]; discriminate].
  apply bind_ok in GP as ([subs' sims] & st5 & ES & GP). apply ret_ok in GP as [GP _]. cbn [fst snd] in GP. injection GP as <- <-.
  rewrite setup_simulations_eq in ES. apply setup_custom in ES as (-> & SP & _); auto.
  unfold get_nizk_proof in GN. apply bind_ok in GN as ([[pre p1] s1] & st6 & PC & GN).
  assert (E' : n_pre z0 = pre).
  { apply bind_ok in GN as ([com p2] & st8 & IC & GN). apply bind_ok in GN as (hh & st9 & _ & GN).
    apply bind_ok in GN as (c & st10 & _ & GN). apply bind_ok in GN as (resp & st11 & CR & GN).
    apply ret_ok in GN as [GN _]. injection GN as <- _ _. reflexivity. }
  rewrite E'. rewrite precommit_or in PC. apply bind_ok in PC as ([[v q'] l] & s7 & EL & PC). cbv zeta in PC.
  apply ret_ok in PC as [PC _]. cbn [fst snd] in PC. injection PC as <- _ _.
  apply or_pre_loop_inv in EL as (x & u1 & y & u2 & Nx & PX).
  assert (TV : truthy v = false).
  { eapply precommit_custom_falsy; [|exact PX]. rewrite Forall_forall in DC. apply DC. eapply nth_error_In; eauto. }
  destruct (existsb truthy _) eqn:EX; auto. apply existsb_exists in EX as (u & Iu & Tu).
  apply nth_error_insert in Iu as [->|Iu]; [congruence|]. apply in_map_iff in Iu as (t & <- & It).
  rewrite Forall_forall in SP. rewrite SP in Tu; [discriminate|auto].
Qed.
Lemma custom_or l1 cls rows b0 pre0 con0 l2 b ch sd msg a z s' a' : Forall is_dl l1 -> Forall is_dl l2 ->
  prove (SOr (l1 ++ SExt (KCustom cls rows) b0 pre0 con0 :: l2) b ch) sd msg a = Ok ((z, s'), a') ->
  forall m1 k' b' q' m2 b1 ch1 msg' av y, verify (SOr (m1 ++ SExt k' b' q' None :: m2) b1 ch1) z msg' av <> Ok y.
Proof.
  intros D1 D2 H m1 k' b' q' m2 b1 ch1 msg' av [y ay] V.
  apply custom_or_pre in H.
  2:{ apply Forall_app. split; [eapply Forall_impl; [|exact D1]; left; auto|].
      constructor; [right; repeat eexists|]. eapply Forall_impl; [|exact D2]; left; auto. }
  unfold verify, verify_nizk in V. rewrite H in V. cbn [is_none] in V. apply bind_ok in V as ([v s] & s1 & E & V).
  apply ret_ok in E as [E _]. injection E as <- <-. apply bind_ok in V as (h & s2 & E & _).
  unfold lift in E. destruct (check_statement _ _) as [hh|] eqn:C; [|discriminate]. unfold check_statement in C.
  apply rbind_ok in C as (b2 & C & _). unfold prehash_input in C. apply rbind_ok in C as (i & C & _).
  cbn [get_proof_id] in C. apply rbind_ok in C as (ss & C & _). apply secret_vars_built in C.
  inversion C; subst. rewrite Forall_app in H1. destruct H1 as [_ H1]. inversion H1; subst. match goal with K : built (SExt _ _ _ None) |- _ => inversion K end.
Qed.

Lemma marked_not_chosen l1 x l2 s sd msg st z s' st' : mk_or (l1 ++ set_simulated true x :: l2) = Ok s ->
  prove s sd msg st = Ok ((z, s'), st') -> exists subs' i, s' = SOr subs' false (Some i) /\ i <> List.length l1.
Proof.
  intros H P. unfold mk_or in H. destruct (_ <? _)%nat; [discriminate|]. injection H as <-.
  destruct branch_revealed as (guess & G). destruct (G _ _ _ _ _ _ _ _ _ P) as (subs' & i & y & -> & N & F & _).
  exists subs', i. split; [reflexivity|]. intros ->. rewrite nth_middle' in N. injection N as <-. destruct x; discriminate F.
Qed.
End O.

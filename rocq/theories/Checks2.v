(** The checks on shared secrets, seen from the statement that the user composed; what the verifier
    checks; infix composition. *)
From Coq Require Import String Znumtheory.
From Verif Require Import Base World Val Expr Utils Stmt Prove Verify Spec Shapes Clauses Extract Lib DictProofs Keeps Tree Sigma Build Validate Compose
  Process Provers Sound Sound2 Sound3 Sound4 OrMore Checks.
Open Scope Z_scope.
Open Scope list_scope.

Section Q.
Context {W : World}.

(** ** Provers of statements without primitives *)
Inductive pfit : stmt -> prover -> Prop :=
| PfDL d k : pfit (SDL d) (PDL k)
| PfAnd subs b ps : Forall2 pfit subs ps -> pfit (SAnd subs b) (PAnd ps)
| PfOr subs b c i x sp sims : nth_error subs i = Some x -> pfit x sp -> pfit (SOr subs b c) (POr i sp sims).

Lemma pfit_ind' (P : stmt -> prover -> Prop) :
  (forall d k, P (SDL d) (PDL k)) ->
  (forall subs b ps, Forall2 (fun s p => pfit s p /\ P s p) subs ps -> P (SAnd subs b) (PAnd ps)) ->
  (forall subs b c i x sp sims, nth_error subs i = Some x -> pfit x sp -> P x sp -> P (SOr subs b c) (POr i sp sims)) ->
  forall s p, pfit s p -> P s p.
Proof.
  intros H1 H2 H3. fix IH 3. intros s p [d k|subs b ps F|subs b c i x sp sims N F].
  - apply H1.
  - apply H2. induction F; constructor; auto.
  - eapply H3; eauto.
Qed.

Lemma replace_same {A} (l : list A) : forall i x, nth_error l i = Some x -> replace i x l = l.
Proof. induction l; intros [|i] x H; try discriminate; simpl in *; [congruence|]. now rewrite IHl. Qed.
Lemma or_pre_eq f l : forall j x st, nth_error l j = Some x ->
  or_pre_loop f j l st = match f x st with Ok (r, st') => Ok ((fst r, replace j (snd r) l), st') | Err e => Err e end.
Proof.
  induction l as [|y l IH]; intros [|j] x st N; try discriminate; simpl in N.
  - injection N as ->. simpl. unfold bind. destruct (f x st) as [[r st']|]; reflexivity.
  - simpl. unfold bind. rewrite (IH j x st N). destruct (f x st) as [[r st']|]; reflexivity.
Qed.

Lemma precommit_fit s p : pfit s p -> forall st, exists pre, precommit s p st = Ok ((pre, p, s), st).
Proof.
  intros H. induction H as [d k|subs b ps F|subs b c i x sp sims N F IH] using pfit_ind'; intros st.
  - exists VNone. reflexivity.
  - assert (G : exists l, zipM precommit subs ps st = Ok (l, st) /\ map (fun r => snd (fst r)) l = ps /\ map snd l = subs).
    { induction F as [|s p subs ps [_ H] F IH]; [exists []; auto|].
      destruct (H st) as (pre & E), IH as (l & E2 & A & B). exists ((pre, p, s) :: l). simpl. unfold bind. rewrite E, E2.
      simpl. rewrite A, B. auto. }
    destruct G as (l & E & A & B). eexists. cbn [precommit]. unfold bind. rewrite E. unfold ret. rewrite A, B. reflexivity.
  - destruct (IH st) as (pre & E). eexists. rewrite precommit_or. unfold bind. rewrite (or_pre_eq _ _ _ x) by auto.
    rewrite E. cbn [fst snd]. rewrite (replace_same subs i x) by auto. reflexivity.
Qed.

Lemma setup_keeps_idx idx l : forall i st r st', setup_loop idx i l st = Ok (r, st') -> forall j x, (i + j = idx)%nat ->
  nth_error l j = Some x -> nth_error (fst r) j = Some x.
Proof.
  induction l as [|y l IH]; intros i st r st' E [|j] x J N; try discriminate; simpl in E, N.
  - injection N as ->. replace (Nat.eqb i idx) with true in E by (symmetry; apply Nat.eqb_eq; lia).
    apply bind_ok in E as (a & s1 & E1 & E). apply ret_ok in E as [<- _]. reflexivity.
  - replace (Nat.eqb i idx) with false in E by (symmetry; apply Nat.eqb_neq; lia).
    apply bind_ok in E as (x' & s1 & E1 & E). apply bind_ok in E as (t & s2 & E2 & E).
    apply bind_ok in E as (a & s3 & E3 & E). apply ret_ok in E as [<- _]. simpl. eapply IH; eauto. lia.
Qed.
Lemma keeps_setup_sim i l : keeps (setup_simulations i l).
Proof. rewrite setup_simulations_eq. apply keeps_setup. Qed.

Lemma or_loop_fit (gps : list (M (option prover * stmt))) n :
  (forall g st r st', In g gps -> g st = Ok (r, st') -> forall p, fst r = Some p -> pfit (snd r) p) ->
  forall pos subs st r st', List.length subs = List.length gps -> or_loop n gps pos subs st = Ok (r, st') ->
  forall i p, fst r = Some (i, p) -> exists x, nth_error (snd r) i = Some x /\ pfit x p.
Proof.
  intros H. induction n as [|n IH]; intros pos subs st r st' L E i p F; simpl in E.
  - apply ret_ok in E as [<- _]. discriminate.
  - apply bind_ok in E as (k & s1 & _ & E). destruct (nth_error pos _) as [j|]; [|discriminate].
    destruct (nth_error gps j) as [g|] eqn:G; [|discriminate]. apply bind_ok in E as ([o x] & s2 & E1 & E).
    assert (E2 := H g _ _ _ (nth_error_In _ _ G) E1). cbn [fst snd] in *.
    assert (J : (j < List.length subs)%nat) by (rewrite L; apply nth_error_Some; congruence).
    destruct o as [q|].
    + apply ret_ok in E as [<- _]. simpl in F. injection F as <- <-. exists x. split; [apply nth_error_replace_same; auto|auto].
    + destruct (empty_dict _); [apply ret_ok in E as [<- _]; discriminate|]. eapply IH; [|exact E|exact F].
      rewrite replace_length. auto.
Qed.

Lemma get_prover_fit s : noext s -> forall sd st r st', get_prover s sd st = Ok (r, st') -> forall p, fst r = Some p -> pfit (snd r) p.
Proof.
  induction s as [d|subs f IH|subs f ch IH|k f q|k f q con IH] using stmt_ind'; intros V sd st r st' E p F; cbn [get_prover] in E; inversion V; subst.
  - apply bind_ok in E as (x & s1 & E1 & E). apply ret_ok in E as [<- _]. unfold get_prover_dl in E1.
    apply bind_ok in E1 as (e & s2 & _ & E1). destruct (_ || _); apply ret_ok in E1 as [<- _]; simpl in *; [discriminate|].
    injection F as <-. constructor.
  - apply bind_ok in E as (u & s1 & _ & E). destruct f; [apply ret_ok in E as [<- _]; discriminate|].
    apply bind_ok in E as (l & s2 & E1 & E). destruct (forallb _ l) eqn:FA; [|discriminate]. apply ret_ok in E as [<- _].
    simpl in *. injection F as <-. constructor. clear V u. revert s1 l s2 E1 FA. induction subs as [|x subs IHs]; intros s1 l s2 E1 FA; simpl in E1.
    + apply ret_ok in E1 as [<- _]. constructor.
    + apply bind_ok in E1 as (y & s3 & E2 & E1). apply bind_ok in E1 as (ys & s4 & E3 & E1). apply ret_ok in E1 as [<- _].
      inversion IH as [|? ? IH1 IH2]; subst. match goal with A : Forall noext _ |- _ => inversion A as [|? ? V1 V2]; subst end.
      simpl in *. apply andb_true_iff in FA as [FA1 FA2]. destruct (fst y) as [p|] eqn:Fy; [|discriminate].
      simpl. constructor; [eapply IH1; eauto|]. eapply IHs; eauto.
  - apply bind_ok in E as (u & s1 & _ & E). destruct f; [apply ret_ok in E as [<- _]; discriminate|].
    match type of E with (if ?x then _ else _) _ = _ => destruct x end; [apply ret_ok in E as [<- _]; discriminate|].
    apply bind_ok in E as ([o l] & s2 & E1 & E). cbn [fst snd] in *. destruct o as [[i q]|]; [|apply ret_ok in E as [<- _]; discriminate].
    apply bind_ok in E as (t & s3 & E2 & E). apply ret_ok in E as [<- _]. simpl in F. injection F as <-.
    eapply or_loop_fit in E1 as (x & N & X); cycle 1.
    { intros g sg rg sg' Hg Eg pg Fg. apply in_map_iff in Hg as (x & <- & Hx). rewrite Forall_forall in *. eapply IH; eauto. }
    { now rewrite map_length. }
    { reflexivity. }
    simpl in N. rewrite setup_simulations_eq in E2. simpl. econstructor; [|exact X].
    eapply setup_keeps_idx; eauto.
Qed.

(** environment *)
Definition eqe (e e' : nat -> option Z) : Prop := forall i, e i = e' i.
Lemma upd_given sd e : eqe (fold_left (fun e (kv : secret * Z) => upd e (sid (fst kv)) (Some (snd kv))) sd e) (after_giving sd e).
Proof.
  unfold eqe, after_giving. revert e. induction sd as [|kv sd IH]; intros e i; simpl; auto. rewrite IH. unfold upd at 1.
  rewrite Nat.eqb_sym. reflexivity.
Qed.
Lemma given_cong sd e e' i : e i = e' i -> after_giving sd e i = after_giving sd e' i.
Proof. unfold after_giving. now intros ->. Qed.
Lemma given_cases sd : forall v i, let f := fold_left (fun v (kv : secret * Z) => if Nat.eqb (sid (fst kv)) i then Some (snd kv) else v) sd in
  f v = v \/ forall v', f v' = f v.
Proof.
  induction sd as [|kv sd IH]; intros v i; simpl; auto.
  destruct (Nat.eqb (sid (fst kv)) i); [right; auto|]. apply IH.
Qed.
Lemma given_idem sd e i : after_giving sd (after_giving sd e) i = after_giving sd e i.
Proof. unfold after_giving. destruct (given_cases sd (e i) i) as [H|H]; simpl in H; [now rewrite H|apply H]. Qed.

Definition enext sd (e e' : nat -> option Z) : Prop := eqe e' e \/ eqe e' (after_giving sd e).
Lemma enext_trans sd a b c : enext sd a b -> enext sd b c -> enext sd a c.
Proof.
  unfold enext, eqe. intros [H|H] [K|K]; [left|right|right|right]; intros i; rewrite K; auto.
  - now apply given_cong.
  - rewrite (given_cong sd _ _ i (H i)). apply given_idem.
Qed.
Lemma enext_given sd a b c : eqe b (after_giving sd a) -> enext sd b c -> eqe c (after_giving sd a).
Proof.
  unfold enext, eqe. intros H [K|K] i; rewrite K; auto. rewrite (given_cong sd _ _ i (H i)). apply given_idem.
Qed.
Lemma enext_keeps {A} sd (m : M A) st a st' : keeps m -> m st = Ok (a, st') -> enext sd (env st) (env st').
Proof. intros K E. left. intros i. now rewrite (K _ _ _ E). Qed.

Lemma or_loop_enext {A} (gps : list (M (option A * stmt))) sd n :
  (forall g st r st', In g gps -> g st = Ok (r, st') -> enext sd (env st) (env st')) ->
  forall pos subs st r st', or_loop n gps pos subs st = Ok (r, st') -> enext sd (env st) (env st').
Proof.
  intros H. induction n as [|n IH]; intros pos subs st r st' E; simpl in E.
  - apply ret_ok in E as [_ ->]. now left.
  - apply bind_ok in E as (k & s1 & E0 & E). apply (enext_trans _ _ (env s1)); [eapply enext_keeps, E0; apply keeps_draw|].
    destruct (nth_error pos _) as [j|]; [|discriminate].
    destruct (nth_error gps j) as [g|] eqn:G; [|discriminate]. apply bind_ok in E as ([o x] & s2 & E1 & E).
    apply (enext_trans _ _ (env s2)); [eapply H; eauto using nth_error_In|]. cbn [fst snd] in E.
    destruct o; [apply ret_ok in E as [_ ->]; now left|]. destruct (empty_dict _); [apply ret_ok in E as [_ ->]; now left|]. eauto.
Qed.
Lemma get_prover_env s : forall sd st r st', get_prover s sd st = Ok (r, st') ->
  match s with SDL _ => enext sd (env st) (env st') | _ => eqe (env st') (after_giving sd (env st)) end.
Proof.
  assert (U : forall sd st u st', update_secret_values sd st = Ok (u, st') -> eqe (env st') (after_giving sd (env st))).
  { intros sd st u st' E. injection E as _ <-. simpl. apply upd_given. }
  assert (N : forall s sd st r st', get_prover s sd st = Ok (r, st') -> 
    match s with SDL _ => enext sd (env st) (env st') | _ => eqe (env st') (after_giving sd (env st)) end -> enext sd (env st) (env st')).
  { intros [| | |] sd st r st' _ H; auto; now right. }
  induction s as [d|subs f IH|subs f ch IH|k f q|k f q con IH] using stmt_ind'; intros sd st r st' E; cbn [get_prover] in E.
  - apply bind_ok in E as (x & s1 & E1 & E). apply ret_ok in E as [_ ->]. eapply enext_keeps; [|exact E1].
    unfold get_prover_dl. keeps_tac.
  - apply bind_ok in E as (u & s1 & E0 & E). eapply enext_given; [eapply U; eauto|]. clear E0.
    destruct f; [apply ret_ok in E as [_ ->]; now left|].
    apply bind_ok in E as (l & s2 & E1 & E). destruct (forallb _ l) eqn:FA; [|discriminate]. apply ret_ok in E as [_ ->].
    clear FA u. revert s1 l s2 E1. induction subs as [|x subs IHs]; intros s1 l s2 E1; simpl in E1.
    + apply ret_ok in E1 as [_ ->]. now left.
    + apply bind_ok in E1 as (y & s3 & E2 & E1). apply bind_ok in E1 as (ys & s4 & E3 & E1). apply ret_ok in E1 as [_ ->].
      inversion IH as [|? ? IH1 IH2]; subst. apply (enext_trans _ _ (env s3)); [eapply N, IH1; eauto|eauto].
  - apply bind_ok in E as (u & s1 & E0 & E). eapply enext_given; [eapply U; eauto|]. clear E0.
    destruct f; [apply ret_ok in E as [_ ->]; now left|].
    match type of E with (if ?x then _ else _) _ = _ => destruct x end; [apply ret_ok in E as [_ ->]; now left|].
    apply bind_ok in E as ([o l] & s2 & E1 & E). apply (enext_trans _ _ (env s2)).
    { eapply or_loop_enext; [|exact E1]. intros g sg rg sg' Hg Eg. apply in_map_iff in Hg as (x & <- & Hx).
      rewrite Forall_forall in IH. eapply N; [exact Eg | eapply IH; eauto]. }
    cbn [fst snd] in *. destruct o as [[i q]|]; [|apply ret_ok in E as [_ ->]; now left].
    apply bind_ok in E as (t & s3 & E2 & E). apply ret_ok in E as [_ ->]. eapply enext_keeps, E2. apply keeps_setup_sim.
  - apply bind_ok in E as (u & s1 & E0 & E). apply bind_ok in E as (e & s2 & E1 & E). apply ret_ok in E as [_ ->].
    eapply enext_given; [eapply U; eauto|]. eapply enext_keeps, E1. apply keeps_get_env.
  - apply bind_ok in E as (u & s1 & E0 & E). apply bind_ok in E as (e & s2 & E1 & E). apply ret_ok in E as [_ ->].
    eapply enext_given; [eapply U; eauto|]. eapply enext_keeps, E1. apply keeps_get_env.
Qed.

(** ** The two offences depend on the public content only *)
Lemma bases_pstrip s : noext s -> get_bases (pstrip s) = get_bases s.
Proof.
  induction s as [d|subs f IH|subs f ch IH|k f q|k f q con IH] using stmt_ind'; intros V; inversion V; subst; auto.
  - cbn [pstrip get_bases]. replace (rmap get_bases (map pstrip subs)) with (rmap get_bases subs); auto.
    clear V. induction subs as [|x subs IHs]; simpl; auto. inversion IH; subst. match goal with A : Forall noext _ |- _ => inversion A; subst end.
    rewrite <- IHs by auto. f_equal. symmetry. auto.
  - cbn [pstrip get_bases]. replace (rmap get_bases (map pstrip subs)) with (rmap get_bases subs); auto.
    clear V. induction subs as [|x subs IHs]; simpl; auto. inversion IH; subst. match goal with A : Forall noext _ |- _ => inversion A; subst end.
    rewrite <- IHs by auto. f_equal. symmetry. auto.
Qed.
Lemma noext_map l : Forall noext l -> map svars (map pstrip l) = map svars l.
Proof. induction 1; simpl; auto. rewrite svars_pstrip by auto. congruence. Qed.
Lemma clause_svars s pre o post : clause svars s pre o post -> noext s ->
  noext o /\ clause svars (pstrip s) pre (pstrip o) post.
Proof.
  induction 1 as [subs b c|l1 s l2 b pre o post C IH]; intros V.
  - split; auto. constructor.
  - inversion V as [|? ? F|]; subst. apply Forall_app in F as [F1 F2]. inversion F2 as [|? ? F3 F4]; subst.
    destruct (IH F3) as [N K]. split; auto. cbn [pstrip]. rewrite map_app. cbn [map].
    rewrite <- (noext_map l1), <- (noext_map l2) by auto. constructor. auto.
Qed.
Lemma clause_back s : forall pre o post, noext s -> clause svars (pstrip s) pre o post ->
  exists o', clause svars s pre o' post /\ noext o' /\ o = pstrip o'.
Proof.
  induction s as [d|subs f IH|subs f ch IH|k f q|k f q con IH] using stmt_ind'; intros pre o post V C; inversion V as [|? ? F|? ? ? F]; subst.
  - inversion C.
  - cbn [pstrip] in C. inversion C as [|l1 s l2 b pre' o' post' C' E]; subst.
    match goal with A : l1 ++ s :: l2 = map pstrip subs |- _ => symmetry in A; apply map_eq_app in A as (m1 & m2 & -> & <- & A);
      apply map_eq_cons in A as (x & m3 & -> & <- & <-) end.
    apply Forall_app in F as [F1 F2]. inversion F2 as [|? ? F3 F4]; subst. apply Forall_app in IH as [_ IH]. inversion IH as [|? ? IH1 _]; subst.
    destruct (IH1 _ _ _ F3 C') as (o2 & C2 & N & ->). exists o2. rewrite !noext_map by auto. split; auto. constructor. auto.
  - cbn [pstrip] in C. inversion C; subst. exists (SOr subs f ch). repeat split; auto. constructor.
Qed.

Lemma io_eqe e e' s : eqe e e' -> inside_and_outside e s -> inside_and_outside e' s.
Proof.
  intros H (pre & o & post & x & y & C & Hx & Hy & N & E). exists pre, o, post, x, y. repeat split; auto. now rewrite <- !H.
Qed.
Lemma io_same e s s' : noext s -> noext s' -> pstrip s' = pstrip s -> inside_and_outside e s -> inside_and_outside e s'.
Proof.
  intros V V' E (pre & o & post & x & y & C & Hx & Hy & N).
  apply clause_svars in C as [No C]; auto. rewrite <- E in C. apply clause_back in C as (o' & C & No' & Eo); auto.
  exists pre, o', post, x, y. repeat split; auto; [|apply N|apply N]. rewrite <- (svars_same o o') by auto. auto.
Qed.
Lemma oc_eqe e e' s : eqe e e' -> order_clash_in e s -> order_clash_in e' s.
Proof.
  intros H (bs & B & x & b & y & c & Hx & Hy & [N E] & O). exists bs. split; auto. exists x, b, y, c. repeat split; auto. now rewrite <- !H.
Qed.
Lemma oc_same e s s' : noext s -> noext s' -> pstrip s' = pstrip s -> order_clash_in e s -> order_clash_in e s'.
Proof.
  intros V V' E (bs & B & O). exists bs. rewrite <- (svars_same s s') by auto. rewrite <- bases_pstrip, E, bases_pstrip by auto. auto.
Qed.

(** ** prove() of a composed statement without primitives *)

Lemma noext_built s : noext s -> built s.
Proof.
  induction s as [d|subs f IH|subs f ch IH|k f q|k f q con IH] using stmt_ind'; intros V; inversion V; subst; constructor;
    rewrite Forall_forall in *; auto.
Qed.

Lemma prove_root s sd msg st p s1 st1 : noext s -> wfs s -> get_prover s sd st = Ok ((Some p, s1), st1) ->
  (bad_orders (after_giving sd (env st)) s -> prove s sd msg st = Err EGroupMismatch) /\
  (bad_secrets (after_giving sd (env st)) s -> ~ bad_orders (after_giving sd (env st)) s -> prove s sd msg st = Err EInvalidSecrets).
Proof.
  intros V Wf GP. assert (P := get_prover_pstrip _ _ _ _ _ _ GP).
  assert (V1 : noext s1) by (rewrite <- noext_pstrip, P, noext_pstrip; auto).
  assert (F := get_prover_fit s V _ _ _ _ GP p eq_refl). cbn [snd] in F.
  assert (W1 := get_prover_wfs _ _ _ _ _ Wf GP). cbn [snd] in W1.
  assert (En := get_prover_env _ _ _ _ _ GP).
  destruct (precommit_fit s1 p F st1) as (pre & PC).
  assert (Q : forall x, internal_commit s1 p None st1 = Err x -> prove s sd msg st = Err x).
  { intros x E. unfold prove, bind at 1. rewrite GP. unfold bind at 1, get_nizk_proof. unfold bind at 1. rewrite PC.
    unfold bind at 1. rewrite E. reflexivity. }
  assert (Bt := noext_built s1 V1).
  destruct (built_bases s1 Bt) as [bs B]. assert (L := get_bases_length s1 W1 bs B).
  destruct s as [d|subs f|subs f ch|k f q con]; try (simpl; tauto).
  - destruct s1 as [|subs1 f1| |]; try discriminate P. inversion F; subst. clear F.
    destruct (validate_and_cases (env st1) subs1 f1 bs Bt B L) as [[E C]|[(C & E & I)|(C & I & E)]].
    + assert (X : internal_commit (SAnd subs1 f1) (PAnd ps) None st1 = Err EGroupMismatch).
      { cbn [internal_commit]. unfold bind at 1, get_env. unfold bind at 1, lift. now rewrite E. }
      split; [auto|]. intros _ N. exfalso. apply N. apply (oc_same _ (SAnd subs1 f1)); auto. eapply oc_eqe; [exact En|]. exists bs; auto.
    + assert (X : internal_commit (SAnd subs1 f1) (PAnd ps) None st1 = Err EInvalidSecrets).
      { cbn [internal_commit]. unfold bind at 1, get_env. unfold bind at 1, lift. now rewrite E. }
      split; [|auto]. intros N. exfalso. apply (oc_eqe _ (env st1)) in N; [|intros i; auto].
      apply (oc_same _ _ (SAnd subs1 f1)) in N as (bs' & B' & N); auto. congruence.
    + split.
      * intros N. exfalso. apply (oc_eqe _ (env st1)) in N; [|intros i; auto].
        apply (oc_same _ _ (SAnd subs1 f1)) in N as (bs' & B' & N); auto. congruence.
      * intros N _. exfalso. apply I. apply (io_same _ (SAnd subs f)); auto. eapply io_eqe; [|exact N]. intros i; auto.
  - destruct s1 as [| |subs1 f1 ch1|]; try discriminate P. inversion F; subst. clear F. split; [|simpl; tauto].
    intros N. apply Q. rewrite internal_commit_or. unfold bind at 1, get_env. unfold bind at 1, lift, validate_or.
    apply (oc_eqe _ (env st1)) in N; [|intros j; auto]. apply (oc_same _ _ (SOr subs1 f1 ch1)) in N as (bs' & B' & N); auto.
    destruct (vgo_cases (env st1) _ bs Bt B L) as [[E C]|[E C]]; [congruence|]. now rewrite E.
Qed.

Lemma prove_parts_ok s sd msg st r st' : wfs s -> prove s sd msg st = Ok (r, st') ->
  forall e s', part s sd st e s' -> ~ bad_secrets e s' /\ ~ bad_orders e s'.
Proof.
  intros Wf E e s' (p & s1 & a1 & pre & p2 & s2 & a2 & GP & PC & -> & R). assert (V := prove_verdict s sd msg st Wf).
  rewrite E in V. destruct V as (p' & s1' & a1' & pre' & p2' & s2' & a2' & GP' & PC' & V).
  rewrite GP in GP'. injection GP' as <- <- <-. rewrite PC in PC'. injection PC' as <- <- <- <-. auto.
Qed.
Lemma prove_parts_err s sd msg st x : wfs s -> prove s sd msg st = Err x -> loud x ->
  exists e s', part s sd st e s' /\ ((x = EInvalidSecrets /\ bad_secrets e s') \/ (x = EGroupMismatch /\ bad_orders e s')).
Proof.
  intros Wf E L. assert (V := prove_verdict s sd msg st Wf). rewrite E in V.
  destruct (V L) as (p' & s1' & a1' & pre' & p2' & s2' & a2' & s' & GP' & PC' & R & B).
  exists (env a2'), s'. split; auto. unfold part. eauto 12.
Qed.
Lemma secrets_checked s sd msg st : wfs s ->
  (prove s sd msg st = Err EInvalidSecrets -> exists e s', part s sd st e s' /\ bad_secrets e s') /\
  (forall r st', prove s sd msg st = Ok (r, st') -> forall e s', part s sd st e s' -> ~ bad_secrets e s').
Proof.
  intros Wf. split.
  - intros E. destruct (prove_parts_err _ _ _ _ _ Wf E) as (e & s' & P & [[_ B]|[B _]]); [now left| |discriminate]. eauto.
  - intros r st' E e s' P. eapply prove_parts_ok; eauto.
Qed.
Lemma orders_checked s sd msg st : wfs s ->
  (prove s sd msg st = Err EGroupMismatch -> exists e s', part s sd st e s' /\ bad_orders e s') /\
  (forall r st', prove s sd msg st = Ok (r, st') -> forall e s', part s sd st e s' -> ~ bad_orders e s').
Proof.
  intros Wf. split.
  - intros E. destruct (prove_parts_err _ _ _ _ _ Wf E) as (e & s' & P & [[B _]|[_ B]]); [now right|discriminate|]. eauto.
  - intros r st' E e s' P. eapply prove_parts_ok; eauto.
Qed.

(** ** The verifier *)
Lemma verify_join e d subs b ch vs f com1 com2 c r1 r2 :
  verify_resp e (SDL d) RDL com1 c r1 = Ok true -> verify_resp e (SOr subs b ch) (ROr vs) com2 c r2 = Ok true ->
  verify_resp e (SAnd [SDL d; SOr subs b ch] f) (RAnd [RDL; ROr vs]) (VList [com1; com2]) c (VList [r1; r2]) = Ok true.
Proof.
  unfold verify_resp, pre_validation. intros H1 H2.
  apply rbind_ok in H1 as ([] & H1 & R1). apply rbind_ok in H1 as ([] & F1 & H1). apply rbind_ok in H1 as ([rd|] & C1 & H1); [|discriminate].
  apply rbind_ok in H2 as ([] & H2 & R2). apply rbind_ok in H2 as ([] & F2 & H2). apply rbind_ok in H2 as ([rd2|] & C2 & H2); [|discriminate].
  apply rbind_ok in R1 as (x1 & X1 & R1). apply rbind_ok in R2 as (x2 & X2 & R2).
  injection R1 as R1. injection R2 as R2.
  change (full_validate (SAnd [SDL d; SOr subs b ch] f)) with
    (let? _ := (let? y := Ok tt in let? ys := (let? y := full_validate (SOr subs b ch) in Ok [y]) in Ok (y :: ys)) in Ok tt).
  rewrite F2. cbn [rbind]. rewrite consistent_and. cbn [cand_loop index nth_error rbind]. rewrite C1. cbn [rbind].
  rewrite consistent_or in C2. rewrite consistent_or.
  assert (G : forall i l vs rd, (exists rd', cor_loop (consistent e) r2 [] i l vs = Ok (Some rd')) -> cor_loop (consistent e) r2 rd i l vs = Ok (Some rd)).
  { clear. intros i l. revert i. induction l as [|x l IH]; intros i vs rd [rd' H]; [reflexivity|]. destruct vs as [|w vs]; [reflexivity|].
    simpl in *. destruct (index r2 1) as [rs|]; cbn [rbind] in *; [|discriminate]. destruct (index rs i) as [ri|]; cbn [rbind] in *; [|discriminate].
    destruct (consistent e x w ri []) as [[o|]|]; cbn [rbind] in *; try discriminate. eapply IH; eauto. }
  rewrite (G 0%nat subs vs rd) by eauto. cbn [rbind].
  change (recompute (SAnd [SDL d; SOr subs b ch] f) c (VList [r1; r2])) with
    (let? l := (let? y := recompute (SDL d) c r1 in let? ys := (let? y := recompute (SOr subs b ch) c r2 in Ok [y]) in Ok (y :: ys)) in Ok (VList l)).
  rewrite X1, X2. cbn [rbind]. simpl. now rewrite R1, R2.
Qed.

Lemma consistent_dl_disjoint e r ss : forall i rd rd',
  (forall x, In x ss -> dget e rd x = dget e rd' x) ->
  let go := fix go i ss rd := match ss with
   | [] => Ok (Some rd)
   | s :: ss =>
     match dget e rd s with
     | Some x => let? ri := index r i in
                 if val_eqb ri x then go (S i) ss rd else Ok None
     | None => let? ri := index r i in go (S i) ss (dset e rd s ri)
     end
   end in
  forall o, go i ss rd = Ok (Some o) -> exists o', go i ss rd' = Ok (Some o').
Proof.
  induction ss as [|s ss IH]; intros i rd rd' H go o E; simpl in *; [eauto|].
  rewrite <- (H s) by auto. destruct (dget e rd s) as [x|] eqn:D.
  - destruct (index r i) as [ri|]; cbn [rbind] in *; [|discriminate]. destruct (val_eqb ri x); [|discriminate].
    eapply IH; [|exact E]. auto.
  - destruct (index r i) as [ri|]; cbn [rbind] in *; [|discriminate]. eapply IH; [|exact E].
    intros x Hx. destruct (sec_eqb e s x) eqn:S.
    + now rewrite !dget_dset_same.
    + rewrite !dget_dset_other by auto. auto.
Qed.
Lemma consistent_dl_keys e r ss : forall i rd o,
  (fix go i ss rd := match ss with
   | [] => Ok (Some rd)
   | s :: ss =>
     match dget e rd s with
     | Some x => let? ri := index r i in
                 if val_eqb ri x then go (S i) ss rd else Ok None
     | None => let? ri := index r i in go (S i) ss (dset e rd s ri)
     end
   end) i ss rd = Ok (Some o) -> forall x, dget e o x <> None -> dget e rd x <> None \/ exists y, In y ss /\ sec_eqb e y x = true.
Proof.
  induction ss as [|s ss IH]; intros i rd o E x Hx; [injection E as <-; auto|]. simpl in E.
  destruct (dget e rd s) as [v|] eqn:D.
  - destruct (index r i) as [ri|]; cbn [rbind] in *; [|discriminate]. destruct (val_eqb ri v); [|discriminate].
    apply IH with (x := x) in E; auto. destruct E as [E|(y & Hy & E)]; auto. right. exists y. simpl; auto.
  - destruct (index r i) as [ri|]; cbn [rbind] in *; [|discriminate]. apply IH with (x := x) in E; auto.
    destruct E as [E|(y & Hy & E)]; [|right; exists y; simpl; auto].
    destruct (sec_eqb e s x) eqn:S; [right; exists s; simpl; auto|]. rewrite dget_dset_other in E by auto. auto.
Qed.
Lemma verify_join_names e d d' f com1 com2 c r1 r2 :
  (forall x y, In x (dl_secs d) -> In y (dl_secs d') -> ~ same_secret e x y) ->
  verify_resp e (SDL d) RDL com1 c r1 = Ok true -> verify_resp e (SDL d') RDL com2 c r2 = Ok true ->
  verify_resp e (SAnd [SDL d; SDL d'] f) (RAnd [RDL; RDL]) (VList [com1; com2]) c (VList [r1; r2]) = Ok true.
Proof.
  intros D. unfold verify_resp, pre_validation. intros H1 H2.
  apply rbind_ok in H1 as ([] & H1 & R1). apply rbind_ok in H1 as ([] & F1 & H1). apply rbind_ok in H1 as ([rd|] & C1 & H1); [|discriminate].
  apply rbind_ok in H2 as ([] & H2 & R2). apply rbind_ok in H2 as ([] & F2 & H2). apply rbind_ok in H2 as ([rd2|] & C2 & H2); [|discriminate].
  apply rbind_ok in R1 as (x1 & X1 & R1). apply rbind_ok in R2 as (x2 & X2 & R2).
  injection R1 as R1. injection R2 as R2. change (full_validate (SAnd [SDL d; SDL d'] f)) with (@Ok unit tt). cbn [rbind].
  rewrite consistent_and. cbn [cand_loop index nth_error rbind]. rewrite C1. cbn [rbind].
  destruct (consistent_dl_disjoint e r2 (dl_secs d') O [] rd) with (o := rd2) as [o' E].
  - intros y Hy. simpl. destruct (dget e rd y) eqn:G; auto. exfalso.
    destruct (consistent_dl_keys e r1 (dl_secs d) O [] rd C1 y) as [K|(x & Hx & S)]; [congruence|now apply K|].
    apply (D x y Hx Hy). unfold sec_eqb in S. apply andb_true_iff in S as [S1 S2]. apply bytes_eqb_eq in S1.
    split; auto. destruct (e (sid x)), (e (sid y)); simpl in S2; try discriminate; auto. apply Z.eqb_eq in S2. congruence.
  - exact C2.
  - change (consistent e (SDL d') RDL r2 rd = Ok (Some o')) in E. rewrite E. cbn [rbind].
    change (recompute (SAnd [SDL d; SDL d'] f) c (VList [r1; r2])) with
      (let? l := (let? y := recompute (SDL d) c r1 in let? ys := (let? y := recompute (SDL d') c r2 in Ok [y]) in Ok (y :: ys)) in Ok (VList l)).
    rewrite X1, X2. cbn [rbind]. simpl. now rewrite R1, R2.
Qed.

Lemma Occ_in s r x a : Occ s r x a -> In x (svars s).
Proof.
  induction 1 as [d r i x a N _|subs b r i s ri x a N _ _ IH|]; simpl; auto.
  - eapply nth_error_In; eauto.
  - apply in_concat. exists (svars s). split; auto. apply in_map. eapply nth_error_In; eauto.
Qed.
Lemma branch_in s r s' r' : branch s r s' r' -> incl (svars s') (svars s).
Proof.
  assert (G : forall subs i x, nth_error subs i = Some x -> incl (svars x) (List.concat (map svars subs))).
  { intros subs i x N y Hy. apply in_concat. exists (svars x). split; auto. apply in_map. eapply nth_error_In; eauto. }
  induction 1; simpl; eauto using incl_tran.
Qed.
Lemma same_name s0 z msg st b s st' : verify s0 z msg st = Ok ((b, s), st') ->
  coh (env st') (svars s) -> forall s' r' x y u v, scope s (n_resp z) s' r' -> Occ s' r' x u -> Occ s' r' y v ->
  sname x = sname y -> u = v.
Proof.
  intros H C s' r' x y u v S Ox Oy N.
  assert (I : incl (svars s') (svars s)). { destruct S as [[-> ->]|B]; [apply incl_refl|eapply branch_in; eauto]. }
  apply (accept_one_nizk s0 z msg st b s st' H s' r' S x y u v Ox Oy). split; auto.
  apply C; auto; apply I; eapply Occ_in; eauto.
Qed.

(** ** One integer for several orders *)
Fixpoint orders (s : stmt) : list Z :=
  match s with
  | SDL d => [order (grp (dl_lhs d))]
  | SAnd subs _ | SOr subs _ _ => List.concat (map orders subs)
  | SExt _ _ _ (Some c) => orders c
  | SExt _ _ _ None => []
  end.
Lemma orders_in_all P s : orders_in P s -> forall q, In q (orders s) -> P q.
Proof.
  induction s as [d|subs f IH|subs f ch IH|k f q|k f q con IH] using stmt_ind'; intros V q' H; inversion V; subst; simpl in H.
  - destruct H as [<-|[]]. auto.
  - apply in_concat in H as (y & Hy & H). apply in_map_iff in Hy as (x & <- & Hx). rewrite Forall_forall in *. eapply IH; eauto.
  - apply in_concat in H as (y & Hy & H). apply in_map_iff in Hy as (x & <- & Hx). rewrite Forall_forall in *. eapply IH; eauto.
  - eauto.
Qed.

Definition zprod (l : list Z) : Z := fold_right Z.mul 1 l.
Lemma zprod_pos l : Forall prime l -> 0 < zprod l.
Proof. induction 1 as [|q l H]; simpl; [lia|]. destruct H. nia. Qed.
Lemma crt qs (f : Z -> Z) : NoDup qs -> Forall prime qs -> exists x, forall q, In q qs -> (q | x - f q).
Proof.
  induction qs as [|q qs IH]; intros ND P; [exists 0; intros q []|].
  inversion ND; inversion P; subst. destruct IH as [x Hx]; auto.
  assert (R : rel_prime q (zprod qs)).
  { assert (~ (q | zprod qs)).
    { intros D. clear - D H1 H5 H6. induction qs as [|p qs IH]; simpl in D.
      - apply Z.divide_1_r in D. destruct H5. lia.
      - inversion H6; subst. apply prime_mult in D; auto. destruct D as [D|D].
        + apply prime_div_prime in D; auto. subst. apply H1. simpl; auto.
        + apply IH; auto. intros K. apply H1. simpl; auto. }
    apply prime_rel_prime; auto. }
  apply rel_prime_bezout in R as [u v E]. exists (x + (f q - x) * v * zprod qs).
  intros p [<-|Hp].
  - exists (- (f q - x) * u).
    replace ((f q - x) * v * zprod qs) with ((f q - x) * (v * zprod qs)) by ring. replace (v * zprod qs) with (1 - u * q) by lia. ring.
  - replace (x + (f q - x) * v * zprod qs - f p) with ((x - f p) + (f q - x) * v * zprod qs) by ring.
    apply Z.divide_add_r; [auto|]. apply Z.divide_mul_r. clear - Hp.
    induction qs as [|q qs IH]; [destruct Hp|]. destruct Hp as [<-|Hp]; simpl; [apply Z.divide_factor_l|apply Z.divide_mul_r; auto].
Qed.

Definition fits (qs : list Z) (f : Z -> Z) (x : Z) : bool := forallb (fun q => (x - f q) mod q =? 0) qs.
Definition pick (qs : list Z) (f : Z -> Z) : Z :=
  match find (fits qs f) (map Z.of_nat (seq 0 (Z.to_nat (zprod qs)))) with Some x => x | None => 0 end.
Lemma pick_ok qs f : NoDup qs -> Forall prime qs -> forall q, In q qs -> (q | pick qs f - f q).
Proof.
  intros ND P. destruct (crt qs f ND P) as [x H]. assert (PP := zprod_pos qs P).
  assert (I : In (x mod zprod qs) (map Z.of_nat (seq 0 (Z.to_nat (zprod qs))))).
  { assert (B := Z.mod_pos_bound x (zprod qs) PP). apply in_map_iff. exists (Z.to_nat (x mod zprod qs)).
    split; [lia|]. apply in_seq. lia. }
  assert (T : fits qs f (x mod zprod qs) = true).
  { unfold fits. apply forallb_forall. intros q Hq. apply Z.eqb_eq. rewrite Forall_forall in P. assert (Pq := P q Hq). destruct Pq as [Pq _].
    apply Z.mod_divide; [lia|]. assert (D : (q | zprod qs)).
    { clear - Hq. induction qs as [|p qs IH]; [destruct Hq|]. destruct Hq as [<-|Hp]; simpl; [apply Z.divide_factor_l|apply Z.divide_mul_r; auto]. }
    rewrite Z.mod_eq by lia. replace (x - zprod qs * (x / zprod qs) - f q) with ((x - f q) - zprod qs * (x / zprod qs)) by ring.
    apply Z.divide_sub_r; auto. now apply Z.divide_mul_l. }
  intros q Hq. unfold pick. destruct (find _ _) as [y|] eqn:F.
  - apply find_some in F as [_ F]. unfold fits in F. rewrite forallb_forall in F. apply F in Hq as E. apply Z.eqb_eq in E.
    apply Z.mod_divide; auto. rewrite Forall_forall in P. destruct (P q Hq). lia.
  - exfalso. eapply find_none in F; eauto. congruence.
Qed.

Lemma Sat_cong w v s : noor s -> wfs s -> (forall q n, In q (orders s) -> (q | v n - w q n)) -> Sat w s -> Sat (fun _ => v) s.
Proof.
  induction s as [d|subs f IH|subs f ch IH|k f q|k f q con IH] using stmt_ind'; intros V Wf H S; inversion V; inversion Wf; inversion S; subst.
  - match goal with A : in_group _ _, B : dl_holds _ _ |- _ => rename A into G; rename B into Hd end.
    constructor; auto. unfold dl_holds in *. rewrite Hd at 1. apply lincomb_ext; auto.
    set (q := order (grp (dl_lhs d))) in *. clear - H. assert (K : forall n, (q | w q n - v n)).
    { intros n. apply Z.divide_opp_r. replace (- (w q n - v n)) with (v n - w q n) by ring. apply H. simpl; auto. }
    induction (dl_secs d); simpl; constructor; auto.
  - constructor. rewrite Forall_forall in *. intros x Hx. apply IH; auto.
    intros q n Hq. apply H. simpl. apply in_concat. exists (orders x). split; auto. now apply in_map.
  - constructor. apply IH; auto.
Qed.

Lemma Extr_cong w v s : noor s -> wfs s -> (forall q n, In q (orders s) -> (q | v n - w q n)) ->
  forall c c' r r', Extr w s c c' r r' -> Extr (fun _ => v) s c c' r r'.
Proof.
  induction s as [d|subs f IH|subs f ch IH|k f q|k f q con IH] using stmt_ind'; intros V Wf H c c' r r' S.
  - inversion S as [? ? ? ? ? G Hd R| | |]; subst.
    assert (SD : Sat (fun _ => v) (SDL d)) by (eapply (Sat_cong w); eauto; now constructor). inversion SD; subst.
    constructor; auto. intros i x N. destruct (R i x N) as (z & z' & Z1 & Z2 & D). exists z, z'. split; [|split]; auto. cbv zeta in *.
    set (q := order (grp (dl_lhs d))) in *.
    replace (v (sname x) * (c - c') - (z - z')) with ((v (sname x) - w q (sname x)) * (c - c') + (w q (sname x) * (c - c') - (z - z'))) by ring.
    apply Z.divide_add_r; auto. apply Z.divide_mul_l, H. simpl; auto.
  - inversion V; inversion Wf; inversion S; subst. rewrite Forall_forall in *. constructor. intros i x N.
    match goal with A : forall i s, nth_error subs i = Some s -> _ |- _ => destruct (A i x N) as (ri & ri' & I1 & I2 & E) end.
    exists ri, ri'. split; [|split]; auto. assert (I := nth_error_In _ _ N). apply IH; auto.
    intros q n Hq. apply H. simpl. apply in_concat. exists (orders x). split; auto. now apply in_map.
  - inversion V.
  - inversion S.
  - inversion V; inversion Wf; inversion S; subst. constructor. apply IH; auto.
Qed.

Lemma one_integer s0 pre st v s st1 e com c c' r r' :
  process_pre s0 (get_verifier s0) pre st = Ok ((v, s), st1) -> wfs s0 -> coh e (svars s) -> noor s ->
  orders_in (fun q => prime q /\ ~ (q | c - c')) s ->
  verify_resp e s v com c r = Ok true -> verify_resp e s v com c' r' = Ok true ->
  exists w : bytes -> Z, Extr (fun _ => w) s c c' r r' /\ Sat (fun _ => w) s.
Proof.
  intros PP Wf C N O V1 V2. assert (Ws := process_wfs _ _ _ _ _ _ Wf PP). cbn [snd] in Ws.
  destruct (soundness s0 pre st v s st1 e com c c' r r' PP Wf C N O V1 V2) as (w & X & S).
  set (qs := nodup Z.eq_dec (orders s)). exists (fun n => pick qs (fun q => w q n)).
  cut (Extr (fun _ n => pick qs (fun q => w q n)) s c c' r r'); [intros X'; split; [exact X'|eapply Extr_Sat; eauto]|].
  eapply (Extr_cong w (fun n => pick qs (fun q => w q n))); eauto. intros q n Hq. apply (pick_ok qs (fun q => w q n)).
  - apply NoDup_nodup.
  - apply Forall_forall. intros p Hp. apply nodup_In in Hp. apply (orders_in_all _ _ O) in Hp. tauto.
  - now apply nodup_In.
Qed.

(** ** Infix composition *)
Lemma and_op_flat a b : and_op a b = mk_and (ands a ++ ands b).
Proof. destruct a, b; reflexivity. Qed.
Lemma or_op_flat a b : or_op a b = mk_or (ors a ++ ors b).
Proof. destruct a, b; reflexivity. Qed.
Lemma ands_pos a : sized a -> (1 <= List.length (ands a))%nat.
Proof. destruct a; simpl; lia. Qed.
Lemma ors_pos a : sized a -> (1 <= List.length (ors a))%nat.
Proof. destruct a; simpl; lia. Qed.
Lemma mk_and_ok l : (2 <= List.length l)%nat -> mk_and l = Ok (SAnd l false).
Proof. intros H. unfold mk_and. destruct (Nat.ltb_spec (List.length l) 2); [lia|auto]. Qed.
Lemma mk_or_ok l : (2 <= List.length l)%nat -> mk_or l = Ok (SOr l false None).
Proof. intros H. unfold mk_or. destruct (Nat.ltb_spec (List.length l) 2); [lia|auto]. Qed.

Lemma and_assoc a b c : sized a -> sized b -> sized c -> let s := SAnd (ands a ++ ands b ++ ands c) false in
  (let? x := and_op a b in and_op x c) = Ok s /\ (let? x := and_op b c in and_op a x) = Ok s /\
  (flat_and a -> flat_and b -> flat_and c -> flat_and s).
Proof.
  intros A B C. apply ands_pos in A, B, C. rewrite !and_op_flat.
  rewrite (mk_and_ok (ands a ++ ands b)), (mk_and_ok (ands b ++ ands c)) by (rewrite app_length; lia).
  cbn [rbind]. rewrite !and_op_flat. cbn [ands]. rewrite <- app_assoc.
  rewrite mk_and_ok by (rewrite !app_length; lia). split; [auto|]. split; [auto|].
  intros Fa Fb Fc x Hx. simpl in Hx. rewrite !in_app_iff in Hx. destruct Hx as [H|[H|H]]; auto.
Qed.
Lemma or_assoc a b c : sized a -> sized b -> sized c -> let s := SOr (ors a ++ ors b ++ ors c) false None in
  (let? x := or_op a b in or_op x c) = Ok s /\ (let? x := or_op b c in or_op a x) = Ok s /\
  (flat_or a -> flat_or b -> flat_or c -> flat_or s).
Proof.
  intros A B C. apply ors_pos in A, B, C. rewrite !or_op_flat.
  rewrite (mk_or_ok (ors a ++ ors b)), (mk_or_ok (ors b ++ ors c)) by (rewrite app_length; lia).
  cbn [rbind]. rewrite !or_op_flat. cbn [ors]. rewrite <- app_assoc.
  rewrite mk_or_ok by (rewrite !app_length; lia). split; [auto|]. split; [auto|].
  intros Fa Fb Fc x Hx. simpl in Hx. rewrite !in_app_iff in Hx. destruct Hx as [H|[H|H]]; auto.
Qed.
(** the mark of an operand that is dissolved is lost *)
Lemma or_mark_lost l f ch c : or_op (set_simulated true (SOr l f ch)) c = or_op (SOr l false ch) c.
Proof. destruct c; reflexivity. Qed.
Lemma or_mark_kept l f c r : ~ is_or c -> or_op (set_simulated true (SAnd l f)) c = Ok r ->
  exists rest, r = SOr (SAnd l true :: rest) false None.
Proof.
  intros N. unfold or_op. destruct c as [| |l' b' c'|]; simpl; try (intros H; injection H as <-; eauto).
  exfalso. apply N. unfold is_or. eauto.
Qed.
End Q.

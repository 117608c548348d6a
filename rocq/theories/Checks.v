(** When the checks on shared secrets make a prover stop: nothing else raises their exceptions. *)
From Coq Require Import String.
From Verif Require Import Base World Val Expr Utils Stmt Prove Spec Shapes Clauses Lib DictProofs Keeps Tree Sigma Build Validate Compose OrMore.
Open Scope Z_scope.
Open Scope list_scope.

Definition loud (x : exn) : Prop := x = EInvalidSecrets \/ x = EGroupMismatch.
Definition rquiet {A} (r : res A) : Prop := forall x, r = Err x -> ~ loud x.
Definition quiet {A} (m : M A) : Prop := forall s, rquiet (m s).

Lemma rquiet_ok {A} (a : A) : rquiet (Ok a).
Proof. intros x H. discriminate. Qed.
Lemma rquiet_bind {A B} (r : res A) (f : A -> res B) : rquiet r -> (forall a, rquiet (f a)) -> rquiet (rbind r f).
Proof. intros H K x E. destruct r; simpl in E; [eapply K; eauto | injection E as ->; eapply H; eauto]. Qed.
Lemma rquiet_rmap {A B} (f : A -> res B) l : (forall x, In x l -> rquiet (f x)) -> rquiet (rmap f l).
Proof.
  induction l as [|x l IH]; simpl; intros H; [apply rquiet_ok|].
  apply rquiet_bind; auto. intros y. apply rquiet_bind; auto. intros ys. apply rquiet_ok.
Qed.
Lemma rquiet_rimap {A B} (f : nat -> A -> res B) l : (forall i x, In x l -> rquiet (f i x)) -> forall i, rquiet (rimap f i l).
Proof.
  induction l as [|x l IH]; simpl; intros H i; [apply rquiet_ok|].
  apply rquiet_bind; auto. intros y. apply rquiet_bind; auto. intros ys. apply rquiet_ok.
Qed.
Lemma rquiet_fold {A B} (f : res A -> B -> res A) l : (forall r x, In x l -> rquiet r -> rquiet (f r x)) ->
  forall r, rquiet r -> rquiet (fold_left f l r).
Proof. induction l as [|x l IH]; simpl; intros H r Q; auto. Qed.

Lemma quiet_ret {A} (a : A) : quiet (ret a).
Proof. intros s x H. discriminate. Qed.
Lemma quiet_raise {A} e : ~ loud e -> quiet (@raise A e).
Proof. intros N s x H. injection H as <-. auto. Qed.
Lemma quiet_lift {A} (r : res A) : rquiet r -> quiet (lift r).
Proof. intros H s x E. unfold lift in E. destruct r; [discriminate | injection E as ->; eapply H; eauto]. Qed.
Lemma quiet_get_env : quiet get_env.
Proof. intros s x H. discriminate. Qed.
Lemma quiet_set_value i v : quiet (set_value i v).
Proof. intros s x H. discriminate. Qed.
Lemma quiet_usv {W : World} d : quiet (update_secret_values d).
Proof. intros s x H. discriminate. Qed.
Lemma quiet_draw n : quiet (draw n).
Proof. intros s x H. discriminate. Qed.
Lemma quiet_bind {A B} (m : M A) (f : A -> M B) : quiet m -> (forall a, quiet (f a)) -> quiet (bind m f).
Proof. intros H K s x E. unfold bind in E. destruct (m s) as [[a s1]|] eqn:Em; [eapply K; eauto | injection E as ->; eapply H; eauto]. Qed.
Lemma quiet_mapM {A B} (f : A -> M B) l : (forall x, In x l -> quiet (f x)) -> quiet (mapM f l).
Proof.
  induction l as [|x l IH]; simpl; intros H; [apply quiet_ret|].
  apply quiet_bind; [apply H; auto|]. intros y. apply quiet_bind; [apply IH; auto|].
  intros ys. apply quiet_ret.
Qed.
Lemma quiet_imapM {A B} (f : nat -> A -> M B) l : (forall i x, In x l -> quiet (f i x)) ->
  forall i, quiet (imapM f i l).
Proof.
  induction l as [|x l IH]; simpl; intros H i; [apply quiet_ret|].
  apply quiet_bind; [apply H; auto|]. intros y. apply quiet_bind; [apply IH; auto|].
  intros ys. apply quiet_ret.
Qed.
Lemma quiet_zipM {A B C} (f : A -> B -> M C) l : forall m,
  (forall x y, In x l -> quiet (f x y)) -> quiet (zipM f l m).
Proof.
  induction l as [|x l IH]; intros [|y m] H; simpl; try apply quiet_ret.
  apply quiet_bind; [apply H; simpl; auto|]. intros z. apply quiet_bind; [apply IH; intros; apply H; simpl; auto|].
  intros zs. apply quiet_ret.
Qed.

Ltac quiet_tac :=
  repeat first
    [ assumption
    | apply quiet_ret | apply quiet_raise; intros [?|?]; discriminate | apply quiet_get_env | apply quiet_set_value
    | apply quiet_usv | apply quiet_draw | apply rquiet_ok
    | apply quiet_bind; [|intros ?] | apply rquiet_bind; [|intros ?]
    | apply quiet_mapM; intros ? ? | apply quiet_imapM; intros ? ? ?
    | apply rquiet_rmap; intros ? ? | apply rquiet_rimap; intros ? ? ?
    | apply rquiet_fold; [intros ? ? ? ?|]
    | solve [auto with quiet nocore]
    | apply quiet_lift
    | match goal with
      | |- rquiet (Err ?e) => let H := fresh in intros ? H; injection H as <-; intros [?|?]; discriminate
      | |- quiet (match ?x with _ => _ end) => destruct x
      | |- quiet (let (_, _) := ?x in _) => destruct x
      | |- quiet (if ?x then _ else _) => destruct x
      | |- rquiet (match ?x with _ => _ end) => destruct x
      | |- rquiet (let (_, _) := ?x in _) => destruct x
      | |- rquiet (if ?x then _ else _) => destruct x
      end ].

Section Q.
Context {W : World}.

Lemma q_padd a b : rquiet (padd_chk a b).
Proof. unfold padd_chk. quiet_tac. Qed.
Hint Resolve q_padd : quiet.
Lemma q_psub a b : rquiet (psub_chk a b).
Proof. unfold psub_chk. quiet_tac. Qed.
Lemma q_pairing a b : rquiet (pairing_chk a b).
Proof. unfold pairing_chk. quiet_tac. Qed.
Lemma q_index v i : rquiet (index v i).
Proof. unfold index. quiet_tac. Qed.
Lemma q_getitem v i : rquiet (getitem v i).
Proof. unfold getitem. quiet_tac. Qed.
Lemma q_as_int v : rquiet (as_int v).
Proof. unfold as_int. quiet_tac. Qed.
Lemma q_as_pt v : rquiet (as_pt v).
Proof. unfold as_pt. quiet_tac. Qed.
Lemma q_as_iter v : rquiet (as_iter v).
Proof. unfold as_iter. quiet_tac. Qed.
Lemma q_hdr t n : rquiet (hdr t n).
Proof. unfold hdr. quiet_tac. Qed.
Hint Resolve q_psub q_pairing q_index q_getitem q_as_int q_as_pt q_as_iter q_hdr : quiet.
Lemma q_pack v : rquiet (pack v).
Proof.
  induction v using val_ind'; simpl; quiet_tac.
  - rewrite Forall_forall in *; auto.
  - rewrite Forall_forall in *; auto.
  - rewrite Forall_forall in *. match goal with K : In (_, _) _ |- _ => apply H in K; exact K end.
Qed.
Lemma q_encode v : rquiet (encode v).
Proof. apply q_pack. Qed.
Lemma q_id_lookup m n : rquiet (id_lookup m n).
Proof. induction m as [|[k v] m IH]; simpl; quiet_tac. Qed.
Lemma q_decompose v n : rquiet (decompose v n).
Proof. unfold decompose. quiet_tac. Qed.
Lemma q_wsum g ws ps : rquiet (wsum g ws ps).
Proof. unfold wsum. quiet_tac. Qed.
Lemma q_wsum_secrets ss bs : rquiet (wsum_secrets ss bs).
Proof. unfold wsum_secrets. quiet_tac. Qed.
Lemma q_wsum_v g ws ps : rquiet (wsum_v g ws ps).
Proof. unfold wsum_v. quiet_tac. Qed.
Hint Resolve q_encode q_id_lookup q_decompose q_wsum q_wsum_secrets q_wsum_v : quiet.
Lemma q_recompute_dl d c r : rquiet (recompute_dl d c r).
Proof. unfold recompute_dl. quiet_tac. Qed.
Lemma q_mk_and l : rquiet (mk_and l).
Proof. unfold mk_and. quiet_tac. Qed.
Lemma q_mk_or l : rquiet (mk_or l).
Proof. unfold mk_or. quiet_tac. Qed.
Hint Resolve q_recompute_dl q_mk_and q_mk_or : quiet.
Lemma q_or_op a b : rquiet (or_op a b).
Proof. unfold or_op. quiet_tac. Qed.
Lemma q_secret_vars s : rquiet (get_secret_vars s).
Proof.
  induction s as [d|subs f IH|subs f ch IH|k f q|k f q con IH] using stmt_ind'; simpl; quiet_tac;
    rewrite Forall_forall in IH; auto.
Qed.
Lemma q_bases s : rquiet (get_bases s).
Proof.
  induction s as [d|subs f IH|subs f ch IH|k f q|k f q con IH] using stmt_ind'; simpl; quiet_tac;
    rewrite Forall_forall in IH; auto.
Qed.
Hint Resolve q_or_op q_secret_vars q_bases : quiet.
Lemma q_proof_id s : forall m, rquiet (get_proof_id s m).
Proof.
  induction s as [d|subs f IH|subs f ch IH|k f q|k f q con IH] using stmt_ind'; intros m; simpl; quiet_tac;
    try (rewrite Forall_forall in IH; auto).
Qed.
Lemma q_prehash s : rquiet (prehash_input s).
Proof. unfold prehash_input. apply rquiet_bind; [apply q_proof_id | intros; apply q_encode]. Qed.
Lemma q_fs h l m : rquiet (fs_challenge h l m).
Proof. unfold fs_challenge, fs_input, fs_arg. quiet_tac. Qed.

Lemma q_random n : quiet (get_random_num n).
Proof. unfold get_random_num. quiet_tac. Qed.
Lemma q_value_of x : quiet (value_of x).
Proof. unfold value_of. quiet_tac. Qed.
Lemma q_mk_dlrep l x b : quiet (mk_dlrep l x b).
Proof. unfold mk_dlrep. quiet_tac. Qed.
Hint Resolve q_random q_value_of q_mk_dlrep : quiet.
Lemma q_bit_stmt g h C r b : quiet (bit_stmt g h C r b).
Proof. unfold bit_stmt. quiet_tac. Qed.
Lemma q_get_C v i : rquiet (get_C v i).
Proof. unfold get_C. quiet_tac. Qed.
Hint Resolve q_bit_stmt q_get_C : quiet.
Lemma q_construct k pre : quiet (construct k pre).
Proof. unfold construct, construct_neq, construct_range, construct_bbs, construct_custom, lift2. quiet_tac. Qed.
Lemma q_kprecommit k : quiet (kprecommit k).
Proof. unfold kprecommit. quiet_tac. Qed.
Lemma q_ksim_precommit k : quiet (ksim_precommit k).
Proof. unfold ksim_precommit. quiet_tac. Qed.
Hint Resolve q_construct q_kprecommit q_ksim_precommit : quiet.
Lemma q_dget_err {A} e (d : dict A) s : rquiet (dget_err e d s).
Proof. unfold dget_err. quiet_tac. Qed.
Hint Resolve q_dget_err : quiet.
Lemma q_randomizers_dl d : quiet (randomizers_dl d).
Proof. unfold randomizers_dl. quiet_tac. Qed.
Lemma q_randomizers_and s : quiet (randomizers_and s).
Proof. unfold randomizers_and. quiet_tac. Qed.
Lemma q_update_randomizers g ss o : quiet g -> rquiet ss -> quiet (update_randomizers g ss o).
Proof. intros. unfold update_randomizers. quiet_tac. Qed.
Lemma q_or_draw o : quiet (or_draw o).
Proof. unfold or_draw. quiet_tac. Qed.
Hint Resolve q_randomizers_dl q_randomizers_and q_or_draw : quiet.
Lemma q_simulate_dl d rd c : quiet (simulate_dl d rd c).
Proof. unfold simulate_dl. quiet_tac. apply q_update_randomizers; quiet_tac. Qed.
Lemma q_prepare_sim s : quiet (prepare_sim s).
Proof.
  induction s as [d|subs f IH|subs f ch IH|k f q|k f q con IH] using stmt_ind'; simpl; unfold full_construct; quiet_tac;
    rewrite Forall_forall in IH; auto.
Qed.
Lemma q_sim_or_loop f c l : (forall x o, In x l -> quiet (f x o)) -> forall chals, quiet (sim_or_loop f c l chals).
Proof.
  induction l as [|x l IH]; intros H chals; [apply quiet_raise; intros [?|?]; discriminate|].
  destruct l as [|y l].
  - simpl. apply quiet_bind; [apply H; simpl; auto|intros; apply quiet_ret].
  - change (quiet (let! t := f x None in let! ts := sim_or_loop f c (y :: l) (chals ++ [t_chal t]) in ret (t :: ts))).
    apply quiet_bind; [apply H; simpl; auto|]. intros t. apply quiet_bind; [apply IH; intros; apply H; simpl; auto|].
    intros; apply quiet_ret.
Qed.
Lemma q_simulate_proof s : forall rd c, quiet (simulate_proof s rd c).
Proof.
  induction s as [d|subs f IH|subs f ch IH|k f q|k f q con IH] using stmt_ind'; intros rd c; try rewrite Forall_forall in IH.
  - apply q_simulate_dl.
  - cbn [simulate_proof]. apply quiet_bind; [apply q_update_randomizers; auto with quiet|].
    intros rd'. quiet_tac; try (apply IH; auto).
  - rewrite simulate_or. quiet_tac. apply q_sim_or_loop. intros. apply IH; auto.
  - cbn [simulate_proof]. quiet_tac.
  - cbn [simulate_proof]. quiet_tac; try apply IH.
Qed.
Lemma q_setup idx l : forall i, quiet (setup_loop idx i l).
Proof.
  induction l as [|x l IH]; intros i; simpl; [apply quiet_ret|].
  destruct (Nat.eqb i idx); quiet_tac; auto using q_prepare_sim, q_simulate_proof.
Qed.
Lemma q_or_loop {A} n gps : (forall g, In g gps -> quiet g) -> forall pos subs, quiet (@or_loop W A n gps pos subs).
Proof.
  intros H. induction n as [|n IH]; intros pos subs; simpl; [apply quiet_ret|].
  apply quiet_bind; [apply quiet_draw|]. intros r.
  destruct (nth_error pos (Z.to_nat r)) as [i|]; [|quiet_tac].
  destruct (nth_error gps i) as [g|] eqn:G; [|quiet_tac].
  apply quiet_bind; [eapply H, nth_error_In; eauto|]. intros ps. quiet_tac; try apply IH.
Qed.
Lemma q_get_prover s : forall sd, quiet (get_prover s sd).
Proof.
  induction s as [d|subs f IH|subs f ch IH|k f q|k f q con IH] using stmt_ind'; intros sd; try rewrite Forall_forall in IH.
  - cbn [get_prover]. unfold get_prover_dl. quiet_tac.
  - cbn [get_prover]. quiet_tac.
  - cbn [get_prover].
    apply quiet_bind; [apply quiet_usv|]. intros _. destruct f; [apply quiet_ret|].
    match goal with |- quiet (if ?x then _ else _) => destruct x end; [apply quiet_ret|].
    apply quiet_bind; [apply q_or_loop; intros g Hg; apply in_map_iff in Hg as (x & <- & Hx); auto|].
    intros [[[i p]|] l]; cbn [fst snd]; [|apply quiet_ret].
    apply quiet_bind; [rewrite setup_simulations_eq; apply q_setup|]. intros; apply quiet_ret.
  - cbn [get_prover]. quiet_tac.
  - cbn [get_prover]. quiet_tac.
Qed.
Lemma q_or_pre_loop f l : (forall x, In x l -> quiet (f x)) -> forall j, quiet (or_pre_loop f j l).
Proof.
  induction l as [|x l IH]; intros H j; simpl; [quiet_tac|]. destruct j.
  - apply quiet_bind; [apply H; simpl; auto|]. intros; apply quiet_ret.
  - apply quiet_bind; [apply IH; intros; apply H; simpl; auto|]. intros; apply quiet_ret.
Qed.
Lemma q_precommit s : forall p, quiet (precommit s p).
Proof.
  induction s as [d|subs f IH|subs f ch IH|k f q|k f q con IH] using stmt_ind'; intros p; try rewrite Forall_forall in IH;
    destruct p; try (cbn [precommit]; quiet_tac; fail).
  - cbn [precommit]. apply quiet_bind; [apply quiet_zipM; intros; apply IH; auto|]. intros; apply quiet_ret.
  - rewrite precommit_or. apply quiet_bind; [apply q_or_pre_loop; intros; apply IH; auto|]. intros; apply quiet_ret.
  - cbn [precommit]. quiet_tac; try apply q_get_prover.
  - cbn [precommit]. quiet_tac; try apply q_get_prover.
Qed.
Lemma q_sel_loop {A} (f : stmt -> M A) l : (forall x, In x l -> quiet (f x)) -> forall j, quiet (sel_loop f j l).
Proof.
  induction l as [|x l IH]; intros H j; simpl; [quiet_tac|]. destruct j; [apply H; simpl; auto|].
  apply IH; intros; apply H; simpl; auto.
Qed.
Lemma q_compute_response s : forall p c, quiet (compute_response s p c).
Proof.
  induction s as [d|subs f IH|subs f ch IH|k f q|k f q con IH] using stmt_ind'; intros p c; try rewrite Forall_forall in IH;
    destruct p; try (cbn [compute_response]; quiet_tac; fail).
  - cbn [compute_response]. unfold respond_dl. quiet_tac.
  - cbn [compute_response]. apply quiet_bind; [apply quiet_zipM; intros; apply IH; auto|]. intros; apply quiet_ret.
  - rewrite compute_response_or. cbv zeta. apply quiet_bind; [apply q_sel_loop; intros; apply IH; auto|]. intros; apply quiet_ret.
Qed.
Lemma q_commit_dl d rd : quiet (commit_dl d rd).
Proof. unfold commit_dl. quiet_tac. apply q_update_randomizers; auto with quiet. apply rquiet_ok. Qed.

(** ** The checks *)

Lemma vgo_bases e s r : validate_group_orders e s = r -> (r = Ok tt \/ r = Err EGroupMismatch) ->
  exists bs ss, get_bases s = Ok bs /\ get_secret_vars s = Ok ss.
Proof.
  unfold validate_group_orders. intros <- C.
  destruct (get_bases s) as [bs|x] eqn:B; [|destruct C as [C|C]; [discriminate|]; injection C as ->;
    exfalso; eapply q_bases; [exact B|right; reflexivity]].
  destruct (get_secret_vars s) as [ss|x] eqn:E; [|destruct C as [C|C]; [discriminate|]; injection C as ->;
    exfalso; eapply q_secret_vars; [exact E|right; reflexivity]].
  eauto.
Qed.

Definition bad_exn e (s : stmt) (x : exn) : Prop :=
  (x = EInvalidSecrets /\ bad_secrets e s) \/ (x = EGroupMismatch /\ bad_orders e s) \/ ~ loud x.

Lemma exn_loud x : loud x \/ ~ loud x.
Proof. destruct x; (left; unfold loud; tauto) || (right; intros [H|H]; discriminate). Qed.

Lemma vgo_check e s : wfs s ->
  match validate_group_orders e s with
  | Ok _ => ~ order_clash_in e s
  | Err x => (x = EGroupMismatch /\ order_clash_in e s) \/ ~ loud x
  end.
Proof.
  intros V.
  assert (U : (exists bs ss, get_bases s = Ok bs /\ get_secret_vars s = Ok ss) ->
    (validate_group_orders e s = Ok tt /\ ~ order_clash_in e s) \/
    (validate_group_orders e s = Err EGroupMismatch /\ order_clash_in e s)).
  { intros (bs & ss & B & S). assert (L := get_bases_length s V bs B). apply secret_vars_built in S.
    destruct (vgo_cases e s bs S B L) as [[E N]|[E N]]; [left|right]; split; auto.
    - intros (bs' & B' & C). congruence.
    - exists bs; auto. }
  destruct (validate_group_orders e s) as [[]|x] eqn:E.
  - destruct U as [[_ N]|[N _]]; [eapply vgo_bases; eauto | auto | discriminate].
  - destruct (exn_loud x) as [L|L]; [left|auto]. destruct L as [-> | ->].
    + exfalso. unfold validate_group_orders in E.
      destruct (get_bases s) as [bs|x] eqn:B; [|injection E as ->; eapply q_bases; [exact B|left; reflexivity]].
      destruct (get_secret_vars s) as [ss|x] eqn:S; [|injection E as ->; eapply q_secret_vars; [exact S|left; reflexivity]].
      destruct U as [[N _]|[N _]]; eauto; discriminate.
    + destruct U as [[N _]|[_ N]]; [eapply vgo_bases; eauto | discriminate | auto].
Qed.

Lemma and_check e subs b : wfs (SAnd subs b) ->
  match validate_and e (SAnd subs b) with
  | Ok _ => ~ bad_secrets e (SAnd subs b) /\ ~ bad_orders e (SAnd subs b)
  | Err x => bad_exn e (SAnd subs b) x
  end.
Proof.
  intros V. assert (G := vgo_check e _ V). unfold validate_and.
  destruct (validate_group_orders e (SAnd subs b)) as [[]|x] eqn:E; cbn [rbind].
  - apply vgo_bases in E as (bs & ss & B & S); auto. apply secret_vars_built in S.
    destruct (reocc_and e subs b S) as [[-> N]|[-> N]]; [auto|left; auto].
  - right. simpl. tauto.
Qed.

Definition verdict e s p {A} (r : res A) : Prop :=
  match r with
  | Ok _ => forall s', really s p s' -> ~ bad_secrets e s' /\ ~ bad_orders e s'
  | Err x => exists s', really s p s' /\ bad_exn e s' x
  end.

Lemma zip_verdict e (f : stmt -> prover -> M (val * prover)) :
  (forall s p, keeps (f s p)) ->
  forall subs ps st,
  (forall s p st, In s subs -> env st = e -> verdict e s p (f s p st)) -> env st = e ->
  match zipM f subs ps st with
  | Ok _ => forall i s p, nth_error subs i = Some s -> nth_error ps i = Some p ->
            forall s', really s p s' -> ~ bad_secrets e s' /\ ~ bad_orders e s'
  | Err x => exists i s p s', nth_error subs i = Some s /\ nth_error ps i = Some p /\ really s p s' /\ bad_exn e s' x
  end.
Proof.
  intros K. induction subs as [|s subs IH]; intros [|p ps] st H E; simpl; try (intros [|i] ? ? ?; discriminate);
    try (intros [|i] ? ? ? ?; discriminate).
  - unfold bind at 1. assert (H1 := H s p st (or_introl eq_refl) E).
    destruct (f s p st) as [[a s1]|x] eqn:F.
    + assert (E1 : env s1 = e) by (rewrite (K _ _ _ _ _ F); auto).
      assert (H2 := IH ps s1 (fun s p st I => H s p st (or_intror I)) E1).
      unfold bind. destruct (zipM f subs ps s1) as [[l s2]|x].
      * simpl. intros [|i] s' p' N1 N2; simpl in N1, N2.
        -- injection N1 as <-. injection N2 as <-. apply H1.
        -- eapply H2; eauto.
      * destruct H2 as (i & s' & p' & s'' & N1 & N2 & R & B). exists (S i). eauto 8.
    + destruct H1 as (s' & R & B). exists O, s, p, s'. auto.
Qed.

Lemma commit_verdict s : forall p rd st, wfs s -> verdict (env st) s p (internal_commit s p rd st).
Proof.
  assert (NQ : forall s p e A (m : M A) st, quiet m -> (forall s', really s p s' -> ~ bad_secrets e s' /\ ~ bad_orders e s') ->
     verdict e s p (m st)).
  { intros s0 p e A m st Q H. destruct (m st) as [a|x] eqn:E; simpl; auto.
    exists s0. split; [constructor|]. right; right. eapply Q; eauto. }
  induction s as [d|subs f IH|subs f ch IH|k f q|k f q con IH] using stmt_ind'; intros p rd st V;
    destruct p; try (exists (SDL d) + exists (SAnd subs f) + exists (SOr subs f ch) + eexists; split; [constructor|];
      right; right; intros [L|L]; discriminate L).
  - apply NQ; [apply q_commit_dl|]. intros s' R. inversion R; subst. simpl. tauto.
  - cbn [internal_commit]. unfold bind at 1, get_env. unfold bind at 1, lift.
    assert (C := and_check (env st) subs f V).
    destruct (validate_and (env st) (SAnd subs f)) as [[]|x]; [|eexists; split; [constructor | exact C]].
    unfold bind at 1.
    match goal with |- context [update_randomizers ?g ?ss ?o st] => assert (Q : quiet (update_randomizers g ss o))
      by (apply q_update_randomizers; auto with quiet);
      assert (K : keeps (update_randomizers g ss o)) by (apply keeps_update_randomizers, keeps_randomizers_and);
      destruct (update_randomizers g ss o st) as [[rd' s1]|x] eqn:U end.
    2: { eexists. split; [constructor|]. right; right. eapply Q; eauto. }
    assert (E1 := K _ _ _ U). rewrite Forall_forall in IH.
    inversion V as [|? ? V1| | |]; subst. rewrite Forall_forall in V1.
    assert (Z := zip_verdict (env st) (fun s p => internal_commit s p (Some rd'))
      (fun s p => keeps_internal_commit s p (Some rd')) subs subs0 s1
      (fun s p st' I E => eq_ind _ (fun e => verdict e s p (internal_commit s p (Some rd') st')) (IH s I p (Some rd') st' (V1 s I)) _ E) E1).
    unfold bind. destruct (zipM _ subs subs0 s1) as [[l s2]|x]; simpl.
    + intros s' R. inversion R; subst; [exact C|]. eapply Z; eauto.
    + destruct Z as (i & s' & p' & s'' & N1 & N2 & R & B). exists s''. split; auto. econstructor; eauto.
  - rewrite internal_commit_or. unfold bind at 1, get_env. unfold bind at 1, lift.
    assert (C := vgo_check (env st) _ V). unfold validate_or.
    destruct (validate_group_orders (env st) (SOr subs f ch)) as [[]|x]; [|eexists; split; [constructor | right; exact C]].
    unfold bind. rewrite sel_loop_eq. destruct (nth_error subs idx) as [x|] eqn:N.
    2: { eexists. split; [constructor|]. right; right. intros [L|L]; discriminate L. }
    rewrite Forall_forall in IH. inversion V as [| |? ? ? V1| |]; subst. rewrite Forall_forall in V1.
    assert (I := nth_error_In _ _ N). assert (H := IH x I p None st (V1 x I)).
    destruct (internal_commit x p None st) as [[a s1]|y]; simpl.
    + intros s' R. inversion R; subst; [split; auto|]. match goal with A : nth_error subs _ = Some ?s |- _ => rewrite N in A; injection A as <- end. auto.
    + destruct H as (s' & R & B). exists s'. split; auto. econstructor; eauto.
  - cbn [internal_commit]. destruct con0 as [[q'|]|]; try (eexists; split; [constructor|]; right; right; intros [L|L]; discriminate L).
    inversion V; subst. assert (H := IH q' rd st ltac:(assumption)). unfold bind.
    destruct (internal_commit con q' rd st) as [[a s1]|y]; simpl.
    + intros s' R. inversion R; subst; [simpl; tauto|]. auto.
    + destruct H as (s' & R & B). exists s'. split; auto. econstructor; eauto.
Qed.

(** ** Well-formed statements stay so *)
Lemma prepare_sim_wfs s : forall st r st', wfs s -> prepare_sim s st = Ok (r, st') -> wfs r.
Proof.
  assert (G : forall subs st l st', Forall (fun s => forall st r st', wfs s -> prepare_sim s st = Ok (r, st') -> wfs r) subs ->
    Forall wfs subs -> mapM prepare_sim subs st = Ok (l, st') -> Forall wfs l).
  { induction subs as [|s0 subs IH]; intros st l st' H V E; simpl in E.
    - apply ret_ok in E as [<- _]. constructor.
    - apply bind_ok in E as (x & s1 & E1 & E). apply bind_ok in E as (xs & s2 & E2 & E). apply ret_ok in E as [<- _].
      inversion H; inversion V; subst. constructor; eauto. }
  induction s as [d|subs f IH|subs f ch IH|k f q|k f q con IH] using stmt_ind'; intros st r st' V E; cbn [prepare_sim] in E.
  - apply ret_ok in E as [<- _]. auto.
  - apply bind_ok in E as (l & s1 & E1 & E). apply ret_ok in E as [<- _]. inversion V; subst. constructor. eapply G; eauto.
  - apply bind_ok in E as (l & s1 & E1 & E). apply ret_ok in E as [<- _]. inversion V; subst. constructor. eapply G; eauto.
  - apply bind_ok in E as (l & s1 & E1 & E). unfold full_construct in E. apply bind_ok in E as (c & s2 & E2 & E).
    apply ret_ok in E as [<- _]. constructor. apply construct_leafy in E2 as [_ L]. eapply leafy_wfs; eauto.
  - apply bind_ok in E as (l & s1 & E1 & E). unfold full_construct in E. apply bind_ok in E as (c & s2 & E2 & E).
    apply ret_ok in E as [<- _]. constructor. apply construct_leafy in E2 as [_ L]. eapply leafy_wfs; eauto.
Qed.
Lemma setup_wfs idx l : forall i st r st', Forall wfs l -> setup_loop idx i l st = Ok (r, st') -> Forall wfs (fst r).
Proof.
  induction l as [|x l IH]; intros i st r st' V E; simpl in E.
  - apply ret_ok in E as [<- _]. constructor.
  - inversion V; subst. destruct (Nat.eqb i idx).
    + apply bind_ok in E as (a & s1 & E1 & E). apply ret_ok in E as [<- _]. constructor; eauto.
    + apply bind_ok in E as (x' & s1 & E1 & E). apply bind_ok in E as (t & s2 & E2 & E).
      apply bind_ok in E as (a & s3 & E3 & E). apply ret_ok in E as [<- _]. constructor; eauto using prepare_sim_wfs.
Qed.
Lemma replace_wfs l : forall i x, Forall wfs l -> wfs x -> Forall wfs (replace i x l).
Proof. induction l; intros [|i] x V H; simpl; inversion V; subst; constructor; auto. Qed.
Lemma or_loop_wfs {A} (gps : list (M (option A * stmt))) n : (forall g st r st', In g gps -> g st = Ok (r, st') -> wfs (snd r)) ->
  forall pos subs st r st', Forall wfs subs -> or_loop n gps pos subs st = Ok (r, st') -> Forall wfs (snd r).
Proof.
  intros H. induction n as [|n IH]; intros pos subs st r st' V E; simpl in E.
  - apply ret_ok in E as [<- _]. auto.
  - apply bind_ok in E as (i & s1 & _ & E). destruct (nth_error pos _) as [j|]; [|discriminate].
    destruct (nth_error gps j) as [g|] eqn:G; [|discriminate]. apply bind_ok in E as ([o x] & s2 & E1 & E).
    apply H in E1; [|eapply nth_error_In; eauto]. assert (V' := replace_wfs subs j x V E1). cbn [fst snd] in E.
    destruct o; [apply ret_ok in E as [<- _]; auto|]. destruct (empty_dict _); [apply ret_ok in E as [<- _]; auto|]. eauto.
Qed.
Lemma get_prover_wfs s : forall sd st r st', wfs s -> get_prover s sd st = Ok (r, st') -> wfs (snd r).
Proof.
  induction s as [d|subs f IH|subs f ch IH|k f q|k f q con IH] using stmt_ind'; intros sd st r st' V E; cbn [get_prover] in E.
  - apply bind_ok in E as (x & s1 & E1 & E). apply ret_ok in E as [<- _]. unfold get_prover_dl in E1.
    apply bind_ok in E1 as (e & s2 & _ & E1). inversion V; subst.
    destruct (_ || _); apply ret_ok in E1 as [<- _]; simpl; constructor; auto.
  - apply bind_ok in E as (u & s1 & _ & E). destruct f; [apply ret_ok in E as [<- _]; auto|].
    apply bind_ok in E as (l & s2 & E1 & E). destruct (forallb _ l); [|discriminate]. apply ret_ok in E as [<- _].
    simpl. constructor. inversion V as [|? ? V1| | |]; subst. clear V u. revert s1 l s2 E1. induction subs as [|x subs IHs]; intros s1 l s2 E1; simpl in E1.
    + apply ret_ok in E1 as [<- _]. constructor.
    + apply bind_ok in E1 as (y & s3 & E2 & E1). apply bind_ok in E1 as (ys & s4 & E3 & E1). apply ret_ok in E1 as [<- _].
      inversion IH; inversion V1; subst. simpl. constructor; eauto.
  - apply bind_ok in E as (u & s1 & _ & E). destruct f; [apply ret_ok in E as [<- _]; auto|].
    match type of E with (if ?x then _ else _) _ = _ => destruct x end; [apply ret_ok in E as [<- _]; auto|].
    apply bind_ok in E as ([o l] & s2 & E1 & E). inversion V as [| |? ? ? V1| |]; subst. rewrite Forall_forall in IH, V1.
    apply or_loop_wfs in E1; cycle 1.
    { intros g sg rg sg' Hg Eg. apply in_map_iff in Hg as (x & <- & Hx). eapply IH; eauto. }
    { rewrite Forall_forall. auto. }
    cbn [fst snd] in *. destruct o as [[i p]|]; [|apply ret_ok in E as [<- _]; constructor; auto].
    apply bind_ok in E as (t & s3 & E2 & E). apply ret_ok in E as [<- _]. rewrite setup_simulations_eq in E2.
    apply setup_wfs in E2; auto. constructor. auto.
  - apply bind_ok in E as (u & s1 & _ & E). apply bind_ok in E as (e & s2 & _ & E). apply ret_ok in E as [<- _]. auto.
  - apply bind_ok in E as (u & s1 & _ & E). apply bind_ok in E as (e & s2 & _ & E). apply ret_ok in E as [<- _]. auto.
Qed.
Lemma precommit_wfs s : forall p st r st', wfs s -> precommit s p st = Ok (r, st') -> wfs (snd r).
Proof.
  induction s as [d|subs f IH|subs f ch IH|k f q|k f q con IH] using stmt_ind'; intros p st r st' V E; destruct p; try discriminate E.
  - apply ret_ok in E as [<- _]. auto.
  - cbn [precommit] in E. apply bind_ok in E as (l & s2 & E1 & E). apply ret_ok in E as [<- _].
    simpl. constructor. inversion V as [|? ? V1| | |]; subst. clear V. revert subs0 st l s2 E1. induction subs as [|x subs IHs]; intros [|p ps] st l s2 E1; simpl in E1;
      try (apply ret_ok in E1 as [<- _]; constructor).
    apply bind_ok in E1 as (y & s3 & E2 & E1). apply bind_ok in E1 as (ys & s4 & E3 & E1). apply ret_ok in E1 as [<- _].
    inversion IH; inversion V1; subst. simpl. constructor; eauto.
  - rewrite precommit_or in E. apply bind_ok in E as ([[v p'] l'] & s2 & E1 & E). apply ret_ok in E as [<- _]. simpl.
    apply or_pre_loop_ok in E1 as (x & x' & N & E1 & ->). inversion V as [| |? ? ? V1| |]; subst. constructor.
    apply replace_wfs; auto. rewrite Forall_forall in *. eapply (IH x) in E1; eauto using nth_error_In.
  - cbn [precommit] in E. apply bind_ok in E as (pre & s1 & _ & E). apply bind_ok in E as (c & s2 & E2 & E).
    apply bind_ok in E as (x & s3 & E3 & E). apply ret_ok in E as [<- _]. simpl. constructor.
    apply construct_leafy in E2 as [_ L]. eapply get_prover_wfs; [|exact E3]. eapply leafy_wfs; eauto.
  - cbn [precommit] in E. apply bind_ok in E as (pre & s1 & _ & E). apply bind_ok in E as (c & s2 & E2 & E).
    apply bind_ok in E as (x & s3 & E3 & E). apply ret_ok in E as [<- _]. simpl. constructor.
    apply construct_leafy in E2 as [_ L]. eapply get_prover_wfs; [|exact E3]. eapply leafy_wfs; eauto.
Qed.

(** ** prove() *)
Lemma prove_verdict s sd msg st : wfs s ->
  match prove s sd msg st with
  | Ok _ => exists p s1 st1 pre p2 s2 st2, get_prover s sd st = Ok ((Some p, s1), st1) /\
      precommit s1 p st1 = Ok ((pre, p2, s2), st2) /\
      forall s', really s2 p2 s' -> ~ bad_secrets (env st2) s' /\ ~ bad_orders (env st2) s'
  | Err x => loud x -> exists p s1 st1 pre p2 s2 st2 s', get_prover s sd st = Ok ((Some p, s1), st1) /\
      precommit s1 p st1 = Ok ((pre, p2, s2), st2) /\
      really s2 p2 s' /\ ((x = EInvalidSecrets /\ bad_secrets (env st2) s') \/ (x = EGroupMismatch /\ bad_orders (env st2) s'))
  end.
Proof.
  intros V. unfold prove. unfold bind at 1.
  destruct (get_prover s sd st) as [[[[p|] s1] st1]|x] eqn:GP.
  2: { intros [L|L]; discriminate L. }
  2: { intros L. exfalso. eapply q_get_prover; eauto. }
  assert (V1 := get_prover_wfs _ _ _ _ _ V GP). cbn [snd] in V1.
  unfold bind at 1, get_nizk_proof. unfold bind at 1.
  destruct (precommit s1 p st1) as [[[[pre p2] s2] st2]|x] eqn:PC.
  2: { intros L. exfalso. eapply q_precommit; eauto. }
  assert (V2 := precommit_wfs _ _ _ _ _ V1 PC). cbn [snd] in V2.
  assert (C := commit_verdict s2 p2 None st2 V2). unfold bind at 1.
  destruct (internal_commit s2 p2 None st2) as [[[com p3] st3]|x]; cbn [verdict] in C.
  2: { destruct C as (s' & R & [B|[B|B]]); intros L; [| |contradiction]; exists p, s1, st1, pre, p2, s2, st2, s'; auto 8. }
  match goal with |- match match ?m st3 with _ => _ end with _ => _ end => assert (Q : quiet m) end.
  { apply quiet_bind; [apply quiet_lift, q_prehash|]. intros h. apply quiet_bind; [apply quiet_lift, q_fs|]. intros c.
    apply quiet_bind; [apply q_compute_response|]. intros; apply quiet_ret. }
  match goal with |- match match ?m with _ => _ end with _ => _ end => destruct m as [[[[z p4] s4] st4]|x] eqn:E end.
  - simpl. exists p, s1, st1, pre, p2, s2, st2. auto.
  - intros L. exfalso. eapply Q; eauto.
Qed.
End Q.

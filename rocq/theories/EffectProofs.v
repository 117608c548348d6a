(** What proving and verifying do to the values of secrets (C68). *)
From Coq Require Import String.
From Verif Require Import Base World Val Expr Utils Stmt Prove Verify Spec Shapes Extract Runs Lib DictProofs Keeps Build Process Provers
  Tree Sound3 History.
Open Scope Z_scope.
Open Scope list_scope.

Section E.
Context {W : World}.
Variable sd : dict Z.
Variable K : nat -> Prop.
Hypothesis one : forall x v x' v', In (x, v) sd -> In (x', v') sd -> sname x = sname x' \/ sid x = sid x' -> v = v'.

(** only the values of the secrets of the dictionary and of [K] change, and given values stay *)
Definition held (e : nat -> option Z) : Prop := forall x v, In (x, v) sd -> ~ K (sid x) -> e (sid x) = Some v.
Definition eff (e e' : nat -> option Z) : Prop :=
  (forall i, (forall x v, In (x, v) sd -> sid x <> i) -> ~ K i -> e' i = e i) /\ (held e -> held e').
Lemma eff_refl e e' : e' = e -> eff e e'.
Proof. intros ->. split; auto. Qed.
Lemma eff_trans a b c : eff a b -> eff b c -> eff a c.
Proof. intros [A1 A2] [B1 B2]. split; auto. intros i H1 H2. rewrite B1, A1; auto. Qed.
Definition tr {A} (m : M A) : Prop := forall s a s', m s = Ok (a, s') -> eff (env s) (env s').
Lemma tr_keeps {A} (m : M A) : keeps m -> tr m.
Proof. intros H s a s' E. apply eff_refl. eapply H; eauto. Qed.
Lemma tr_bind {A B} (m : M A) (f : A -> M B) : tr m -> (forall a, tr (f a)) -> tr (bind m f).
Proof. intros H F s b s' E. apply bind_ok in E as (a & s1 & E1 & E). eapply eff_trans; [eapply H|eapply F]; eauto. Qed.
Lemma tr_mapM {A B} (f : A -> M B) l : (forall x, In x l -> tr (f x)) -> tr (mapM f l).
Proof.
  induction l as [|x l IH]; intros H; cbn [mapM]; [apply tr_keeps, keeps_ret|].
  apply tr_bind; [apply H; now left|]. intros y. apply tr_bind; [apply IH; intros; apply H; now right|].
  intros ys. apply tr_keeps, keeps_ret.
Qed.

(** dictionaries made from the given one *)
Definition made (d : dict Z) : Prop := forall k v, In (k, v) d -> In (k, v) sd.
Lemma made_update e : made (dupdate e [] sd).
Proof.
  assert (G : forall l d, (forall k v, In (k, v) l -> In (k, v) sd) -> made d ->
    made (fold_left (fun d kv => dset e d (fst kv) (snd kv)) l d)).
  { induction l as [|[k v] l IH]; intros d Hl M; [exact M|]. cbn [fold_left fst snd]. apply IH; [intros; apply Hl; now right|].
    intros k' v' I. apply dset_in in I as [I|(-> & E & [->|(w' & I)])]; [auto|apply Hl; now left|].
    assert (I0 := M _ _ I). replace v with w'; auto. eapply one; [exact I0|apply Hl; now left|]. left.
    unfold sec_eqb in E. apply andb_true_iff in E as [E _]. now apply bytes_eqb_eq in E. }
  unfold dupdate. apply G; auto. intros k v [].
Qed.
Lemma made_self : made sd.
Proof. intros k v H. exact H. Qed.
Lemma fold_upd d : made d -> forall e, let e' := fold_left (fun e (kv : secret * Z) => upd e (sid (fst kv)) (Some (snd kv))) d e in
  eff e e' /\ forall x v, In (x, v) d -> e' (sid x) = Some v.
Proof.
  induction d as [|[k v] d IH]; intros M e.
  - split; [now apply eff_refl|intros x v []].
  - cbn [fold_left fst snd]. destruct (IH (fun k v I => M k v (or_intror I)) (upd e (sid k) (Some v))) as [E H]. 
    cbv zeta. split.
    + eapply eff_trans; [|exact E]. split.
      * intros i N _. unfold upd. destruct (Nat.eqb i (sid k)) eqn:X; auto. apply Nat.eqb_eq in X.
        destruct (N k v); auto. apply M. now left.
      * intros He x u I N. unfold upd. destruct (Nat.eqb (sid x) (sid k)) eqn:X; auto. apply Nat.eqb_eq in X. f_equal.
        eapply one; [apply M; now left|exact I|auto].
    + intros x u [[= -> ->]|I]; auto. set (e1 := upd e (sid x) (Some u)) in *.
      assert (Q : forall l e0, (forall k v, In (k, v) l -> sid k = sid x -> v = u) -> e0 (sid x) = Some u ->
         fold_left (fun e (kv : secret * Z) => upd e (sid (fst kv)) (Some (snd kv))) l e0 (sid x) = Some u).
      { clear. induction l as [|[k v] l IH]; intros e0 A B; [exact B|]. cbn [fold_left fst snd].
        apply IH; [intros; eapply A; eauto; now right|]. unfold upd. destruct (Nat.eqb (sid x) (sid k)) eqn:X; auto.
        apply Nat.eqb_eq in X. f_equal. eapply A; [now left|auto]. }
      apply Q; [|unfold e1, upd; now rewrite Nat.eqb_refl].
      intros k v I X. eapply one; [apply M; right; exact I|apply M; now left|auto].
Qed.
Lemma tr_usv d : made d -> tr (update_secret_values d).
Proof. intros M s a s' E. unfold update_secret_values in E. injection E as _ <-. cbn [env]. now apply fold_upd. Qed.
Lemma usv_held s a s' : update_secret_values sd s = Ok (a, s') -> held (env s').
Proof.
  unfold update_secret_values. intros E. injection E as _ <-. cbn [env]. intros x v I _. now apply fold_upd.
Qed.

Lemma tr_set i v : K i -> tr (set_value i v).
Proof.
  intros Ki s a s' E. unfold set_value in E. injection E as _ <-. cbn [env]. split.
  - intros j _ N. unfold upd. destruct (Nat.eqb j i) eqn:X; auto. apply Nat.eqb_eq in X. now subst.
  - intros H x u I N. unfold upd. destruct (Nat.eqb (sid x) i) eqn:X; [|now apply H]. apply Nat.eqb_eq in X. now rewrite X in N.
Qed.
Lemma tr_kprecommit k : (forall x, In x (kint k) -> K (sid x)) -> tr (kprecommit k).
Proof.
  assert (KV : forall x, keeps (value_of x)) by (intros x; unfold value_of; keeps_tac).
  destruct k as [H0 g H1 h x al be bd|com g h n isp x r rs|pk sig bs sv r1 r2 d1 d2|]; cbn [kint kprecommit]; intros HK; cbv zeta.
  - repeat (apply tr_bind; [first [apply tr_keeps; first [apply keeps_draw|apply KV|apply keeps_lift] | apply tr_set; apply HK; simpl; auto]|intros]).
    apply tr_keeps, keeps_ret.
  - destruct isp; [|apply tr_keeps, keeps_raise].
    apply tr_bind; [apply tr_keeps, KV|intros v]. apply tr_bind; [apply tr_keeps, keeps_lift|intros bits]. cbv zeta.
    apply tr_bind; [apply tr_mapM; intros y Hy; apply tr_bind; [apply tr_keeps, keeps_draw|intros; apply tr_set, HK; auto]|intros _].
    apply tr_bind; [apply tr_mapM; intros y Hy; apply tr_keeps, KV|intros rv].
    apply tr_bind; [apply tr_keeps, keeps_lift|intros cs]. apply tr_bind; [apply tr_keeps, KV|intros r0]. apply tr_keeps, keeps_ret.
  - destruct sig as [sg|]; [|apply tr_keeps, keeps_raise]. destruct bs as [|b0 [|b1 [|b2 bs]]]; try (apply tr_keeps, keeps_raise).
    cbv zeta. repeat (apply tr_bind; [first [apply tr_keeps; first [apply keeps_draw|apply keeps_lift] | apply tr_set; apply HK; simpl; auto]|intros]).
    apply tr_keeps, keeps_ret.
  - apply tr_keeps, keeps_ret.
Qed.

(** ** Provers *)
Inductive pmade : prover -> Prop :=
| PmDL k : pmade (PDL k)
| PmAnd l : Forall pmade l -> pmade (PAnd l)
| PmOr i p t : pmade p -> pmade (POr i p t)
| PmExt sv cp : made sv -> pmade (PExt sv cp).

Lemma or_loop_tr (gps : list (M (option prover * stmt))) :
  (forall g, In g gps -> tr g /\ forall a o s b, g a = Ok ((Some o, s), b) -> pmade o) ->
  forall fuel possible cur, tr (or_loop fuel gps possible cur) /\
    forall a i o l b, or_loop fuel gps possible cur a = Ok ((Some (i, o), l), b) -> pmade o.
Proof.
  intros H. induction fuel as [|fuel IH]; intros possible cur; cbn [or_loop].
  - split; [apply tr_keeps, keeps_ret|intros a i o l b E; apply ret_ok in E as [E _]; discriminate].
  - split.
    + apply tr_bind; [apply tr_keeps, keeps_draw|intros r]. destruct (nth_error possible _); [|apply tr_keeps, keeps_raise].
      destruct (nth_error gps n) eqn:N; [|apply tr_keeps, keeps_raise]. apply tr_bind; [apply H; eapply nth_error_In; eauto|].
      intros ps. cbv zeta. destruct (fst ps); [apply tr_keeps, keeps_ret|]. destruct (empty_dict _); [apply tr_keeps, keeps_ret|apply IH].
    + intros a i o l b E. apply bind_ok in E as (r & a1 & _ & E). destruct (nth_error possible _) as [n|]; [|discriminate].
      destruct (nth_error gps n) eqn:N; [|discriminate]. apply bind_ok in E as ([po ps] & a2 & E1 & E). cbn [fst snd] in E. cbv zeta in E.
      destruct po as [p|].
      * apply ret_ok in E as [E _]. injection E as <- <- <-. eapply H; eauto. eapply nth_error_In; eauto.
      * destruct (empty_dict _); [apply ret_ok in E as [E _]; discriminate|]. eapply IH; eauto.
Qed.
Lemma get_prover_tr d s : made d -> (forall e, made (dupdate e [] d)) ->
  tr (get_prover s d) /\ forall a o s' b, get_prover s d a = Ok ((Some o, s'), b) -> pmade o.
Proof.
  intros M MU. induction s as [x|subs f IH|subs f ch IH|k f q|k f q con IH] using stmt_ind'; cbn [get_prover].
  - split.
    + apply tr_bind; [|intros; apply tr_keeps, keeps_ret]. apply tr_keeps. unfold get_prover_dl. keeps_tac.
    + intros a o s' b E. apply bind_ok in E as ([p y] & a1 & E1 & E). apply ret_ok in E as [E _]. cbn [fst snd] in E. injection E as -> _.
      unfold get_prover_dl in E1. apply bind_ok in E1 as (e & a2 & _ & E1). cbv zeta in E1.
      destruct (_ || _); apply ret_ok in E1 as [E1 _]; [discriminate|]. injection E1 as <- _. constructor.
  - split.
    + apply tr_bind; [now apply tr_usv|intros _]. destruct f; [apply tr_keeps, keeps_ret|].
      apply tr_bind; [apply tr_mapM; intros x Hx; rewrite Forall_forall in IH; now apply IH|]. intros l.
      destruct (forallb _ l); [apply tr_keeps, keeps_ret|apply tr_keeps, keeps_raise].
    + intros a o s' b E. apply bind_ok in E as (u & a1 & _ & E). destruct f; [apply ret_ok in E as [E _]; discriminate|].
      apply bind_ok in E as (l & a2 & E1 & E). destruct (forallb _ l); [|discriminate]. apply ret_ok in E as [E _]. injection E as <- _.
      constructor. revert a1 l a2 E1. induction IH as [|x subs Hx IH IHl]; intros a1 l a2 E1; cbn [mapM] in E1.
      * apply ret_ok in E1 as [<- _]. constructor.
      * apply bind_ok in E1 as ([po x'] & a3 & E2 & E1). apply bind_ok in E1 as (l' & a4 & E3 & E1). apply ret_ok in E1 as [<- _].
        cbn [flat_map fst]. apply Forall_app. split; [|eapply IHl; eauto].
        destruct po as [p|]; [|constructor]. constructor; [|constructor]. eapply Hx; eauto.
  - rewrite Forall_forall in IH.
    assert (G : forall g, In g (map (fun s => get_prover s d) subs) -> tr g /\ forall a o s b, g a = Ok ((Some o, s), b) -> pmade o).
    { intros g Hg. apply in_map_iff in Hg as (x & <- & Hx). now apply IH. }
    split.
    + apply tr_bind; [now apply tr_usv|intros _]. destruct f; [apply tr_keeps, keeps_ret|]. cbv zeta.
      destruct (empty_dict _); [apply tr_keeps, keeps_ret|]. apply tr_bind; [apply or_loop_tr; exact G|].
      intros r. destruct (fst r) as [[i p]|]; [|apply tr_keeps, keeps_ret].
      apply tr_bind; [rewrite setup_simulations_eq; apply tr_keeps, keeps_setup|intros; apply tr_keeps, keeps_ret].
    + intros a o s' b E. apply bind_ok in E as (u & a1 & _ & E). destruct f; [apply ret_ok in E as [E _]; discriminate|]. cbv zeta in E.
      destruct (empty_dict _); [apply ret_ok in E as [E _]; discriminate|]. apply bind_ok in E as ([r l] & a2 & E1 & E). cbn [fst snd] in E.
      destruct r as [[i p]|]; [|apply ret_ok in E as [E _]; discriminate]. apply bind_ok in E as (t & a3 & _ & E).
      apply ret_ok in E as [E _]. injection E as <- _. constructor. eapply or_loop_tr; eauto.
  - split.
    + apply tr_bind; [now apply tr_usv|intros _]. apply tr_keeps. keeps_tac.
    + intros a o s' b E. apply bind_ok in E as (u & a1 & _ & E). apply bind_ok in E as (e & a2 & _ & E). apply ret_ok in E as [E _].
      injection E as <- _. constructor. auto.
  - split.
    + apply tr_bind; [now apply tr_usv|intros _]. apply tr_keeps. keeps_tac.
    + intros a o s' b E. apply bind_ok in E as (u & a1 & _ & E). apply bind_ok in E as (e & a2 & _ & E). apply ret_ok in E as [E _].
      injection E as <- _. constructor. auto.
Qed.
Lemma made_twice d : made d -> forall e, made (dupdate e [] d).
Proof.
  intros Md e. 
  assert (G : forall l d0, (forall k v, In (k, v) l -> In (k, v) sd) -> made d0 ->
    made (fold_left (fun d kv => dset e d (fst kv) (snd kv)) l d0)).
  { induction l as [|[k v] l IH]; intros d0 Hl M; [exact M|]. cbn [fold_left fst snd]. apply IH; [intros; apply Hl; now right|].
    intros k' v' I. apply dset_in in I as [I|(-> & E & [->|(w' & I)])]; [auto|apply Hl; now left|].
    assert (I0 := M _ _ I). replace v with w'; auto. eapply one; [exact I0|apply Hl; now left|]. left.
    unfold sec_eqb in E. apply andb_true_iff in E as [E _]. now apply bytes_eqb_eq in E. }
  unfold dupdate. apply G; auto. intros k v [].
Qed.

Lemma precommit_tr s : forall p, (forall x, In x (kints s) -> K (sid x)) -> pmade p -> tr (precommit s p).
Proof.
  induction s as [x|subs f IH|subs f ch IH|k f q|k f q con IH] using stmt_ind'; intros p HK PM.
  - destruct p; try (apply tr_keeps, keeps_raise). apply tr_keeps, keeps_ret.
  - destruct p as [|ps| |]; try (apply tr_keeps, keeps_raise). cbn [precommit]. apply tr_bind; [|intros; cbv zeta; apply tr_keeps, keeps_ret].
    inversion PM as [|? F| |]; subst. clear PM. unfold kints in HK. cbn [kinds] in HK. revert ps F.
    induction IH as [|x subs Hx IH IHl]; intros [|p ps] F; cbn [zipM]; try (apply tr_keeps, keeps_ret).
    cbn [map List.concat] in HK. rewrite map_app, concat_app in HK. inversion F; subst.
    apply tr_bind; [apply Hx; auto; intros y Hy; apply HK; apply in_app_iff; now left|intros z].
    apply tr_bind; [apply IHl; auto; intros y Hy; apply HK; apply in_app_iff; now right|intros zs; apply tr_keeps, keeps_ret].
  - destruct p as [| |i sp sims|]; try (apply tr_keeps, keeps_raise). rewrite precommit_or.
    apply tr_bind; [|intros; cbv zeta; apply tr_keeps, keeps_ret]. inversion PM; subst.
    intros a [[v p'] l'] b E. apply or_pre_loop_ok in E as (x & x' & N & E & _). rewrite Forall_forall in IH.
    apply nth_error_In in N. eapply (IH x N sp); eauto. intros y Hy. apply HK. unfold kints in *. cbn [kinds].
    apply in_concat in Hy as (l & Hl & Hy). apply in_map_iff in Hl as (k & <- & Hk). apply in_concat. exists (kint k). split; auto.
    apply in_map. eapply kinds_sub; eauto.
  - destruct p as [| | |sv cp]; try (apply tr_keeps, keeps_raise). cbn [precommit]. inversion PM; subst.
    apply tr_bind; [apply tr_kprecommit; intros y Hy; apply HK; unfold kints; cbn [kinds map List.concat]; now rewrite app_nil_r|intros pre].
    apply tr_bind; [apply tr_keeps, keeps_construct|intros c]. apply tr_bind; [apply get_prover_tr; auto; now apply made_twice|].
    intros r. apply tr_keeps, keeps_ret.
  - destruct p as [| | |sv cp]; try (apply tr_keeps, keeps_raise). cbn [precommit]. inversion PM; subst.
    apply tr_bind; [apply tr_kprecommit; intros y Hy; apply HK; unfold kints; cbn [kinds map List.concat]; now rewrite app_nil_r|intros pre].
    apply tr_bind; [apply tr_keeps, keeps_construct|intros c]. apply tr_bind; [apply get_prover_tr; auto; now apply made_twice|].
    intros r. apply tr_keeps, keeps_ret.
Qed.
End E.

Section F.
Context {W : World}.
Lemma prove_effects s sd msg st z s' st' :
  (forall x v x' v', In (x, v) sd -> In (x', v') sd -> sname x = sname x' \/ sid x = sid x' -> v = v') ->
  prove s sd msg st = Ok ((z, s'), st') ->
  (forall i, (forall x v, In (x, v) sd -> sid x <> i) -> (forall x, In x (kints s) -> sid x <> i) -> env st' i = env st i) /\
  (forall x v, In (x, v) sd -> (forall y, In y (kints s) -> sid y <> sid x) -> ~ is_dl s -> env st' (sid x) = Some v).
Proof.
  intros one H. set (K := fun i => exists y, In y (kints s) /\ sid y = i).
  unfold prove in H. apply bind_ok in H as ([[p|] s1] & a1 & G & H); [|discriminate].
  apply bind_ok in H as ([[z1 p3] s3] & a2 & E & H). apply ret_ok in H as [H ->]. injection H as -> ->.
  assert (ME := made_update sd one). assert (MS : made sd sd) by (intros k v I; exact I).
  destruct (get_prover_tr sd K one sd s MS ME) as [T PM].
  assert (T1 := T _ _ _ G). apply PM in G as PMp.
  assert (KI : kints s1 = kints s) by (unfold kints; now rewrite (kinds_same _ _ (get_prover_pstrip _ _ _ _ _ _ G))).
  assert (T2 : eff sd K (env a1) (env a2)).
  { unfold get_nizk_proof in E. apply bind_ok in E as ([[pre p2] s2] & b1 & E1 & E).
    apply (precommit_tr sd K one s1 p) in E1; [|intros x Hx; exists x; split; [congruence|auto]|exact PMp].
    eapply eff_trans; [exact E1|]. apply eff_refl.
    apply bind_ok in E as ([com p4] & b2 & E2 & E). apply keeps_internal_commit in E2.
    apply bind_ok in E as (h & b3 & E3 & E). apply lift_ok in E3 as [_ ->].
    apply bind_ok in E as (c & b4 & E4 & E). apply lift_ok in E4 as [_ ->].
    apply bind_ok in E as (r & b5 & E5 & E). apply keeps_response in E5. apply ret_ok in E as [_ ->]. congruence. }
  destruct (eff_trans sd K _ _ _ T1 T2) as [A B]. split.
  - intros i N1 N2. apply A; auto. intros (y & Hy & <-). eapply N2; eauto.
  - intros x v I N ND. destruct T2 as [_ T2]. apply T2; [|exact I|intros (y & Hy & X); exact (N y Hy X)].
    clear T2 A B T1. 
    assert (HU : forall {A} (f : unit -> M A) a r b, bind (update_secret_values sd) f a = Ok (r, b) -> (forall u, tr sd K (f u)) -> held sd K (env b)).
    { intros A f a r b E0 F. apply bind_ok in E0 as (u & a3 & E3 & E0). apply (usv_held sd K one) in E3. eapply F; eauto. }
    destruct s as [d|subs f|subs f ch|k f q con]; [destruct ND; now exists d| | |]; cbn [get_prover] in G; apply HU in G; auto; intros _.
    + destruct f; [apply tr_keeps, keeps_ret|].
      apply tr_bind; [apply tr_mapM; intros y Hy; now apply get_prover_tr|]. intros l.
      destruct (forallb _ l); [apply tr_keeps, keeps_ret|apply tr_keeps, keeps_raise].
    + destruct f; [apply tr_keeps, keeps_ret|]. cbv zeta.
      destruct (empty_dict _); [apply tr_keeps, keeps_ret|]. apply tr_bind.
      { apply or_loop_tr. intros g Hg. apply in_map_iff in Hg as (y & <- & Hy). now apply get_prover_tr. }
      intros r. destruct (fst r) as [[i q]|]; [|apply tr_keeps, keeps_ret].
      apply tr_bind; [rewrite setup_simulations_eq; apply tr_keeps, keeps_setup|intros; apply tr_keeps, keeps_ret].
    + apply tr_keeps. keeps_tac.
Qed.
Lemma verify_effects s z msg st b s' st' : verify s z msg st = Ok ((b, s'), st') -> st' = st.
Proof.
  unfold verify, verify_nizk. intros H. apply bind_ok in H as ([v s1] & a1 & E1 & H).
  assert (a1 = st) as ->.
  { destruct (is_none (n_pre z)); [apply ret_ok in E1 as [_ ->]; reflexivity|]. eapply process_keeps; eauto. }
  apply bind_ok in H as (h & a2 & E2 & H). apply lift_ok in E2 as [_ ->].
  apply bind_ok in H as (e & a3 & E3 & H). injection E3 as _ <-.
  apply bind_ok in H as (u & a4 & E4 & H). apply lift_ok in E4 as [_ ->].
  apply bind_ok in H as (c & a5 & E5 & H). apply lift_ok in E5 as [_ ->].
  apply bind_ok in H as (c2 & a6 & E6 & H). apply lift_ok in E6 as [_ ->]. now apply ret_ok in H as [_ ->].
Qed.
Lemma dl_effects d sd msg st z s' st' : prove (SDL d) sd msg st = Ok ((z, s'), st') -> env st' = env st.
Proof.
  unfold prove. intros H. apply bind_ok in H as ([[p|] s1] & a1 & G & H); [|discriminate].
  apply bind_ok in H as ([[z1 p3] s3] & a2 & E & H). apply ret_ok in H as [_ ->].
  assert (env a1 = env st /\ exists d', s1 = SDL d') as [E1 (d' & ->)].
  { cbn [get_prover] in G. unfold get_prover_dl, bind, get_env in G. cbv zeta in G. destruct (_ || _); unfold ret in G; cbn [fst snd] in G; injection G as _ <- <-; eauto. }
  unfold get_nizk_proof in E. apply bind_ok in E as ([[pre p2] s2] & b1 & E2 & E).
  assert (b1 = a1) as -> by (destruct p; try discriminate E2; cbn [precommit] in E2; apply ret_ok in E2 as [_ ->]; auto).
  apply bind_ok in E as ([com p4] & b2 & E3 & E). apply keeps_internal_commit in E3.
  apply bind_ok in E as (h & b3 & E4 & E). apply lift_ok in E4 as [_ ->].
  apply bind_ok in E as (c & b4 & E5 & E). apply lift_ok in E5 as [_ ->].
  apply bind_ok in E as (r & b5 & E6 & E). apply keeps_response in E6. apply ret_ok in E as [_ ->]. congruence.
Qed.
End F.

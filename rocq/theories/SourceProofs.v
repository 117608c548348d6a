(** Values from Secret objects and values from the dictionary: the proofs of C79. *)
From Coq Require Import String.
From Verif Require Import Base World Val Expr Utils Stmt Prove Verify Spec Shapes Ident Renamed Lib DictProofs Keeps Build FailedProofs Equiv Sources.
Open Scope Z_scope.
Open Scope list_scope.

(** ** Functions that do not read the recorded values *)
Section B.
Context {W : World}.
Variable g : dlrep -> dict Z.
Definition rvd (d : dlrep) : dlrep := mkDL (dl_lhs d) (dl_bases d) (dl_secs d) (g d) (dl_sim d).
Fixpoint rv (s : stmt) : stmt :=
  match s with
  | SDL d => SDL (rvd d)
  | SAnd subs b => SAnd (map rv subs) b
  | SOr subs b c => SOr (map rv subs) b c
  | SExt k b pre con => SExt k b pre (option_map rv con)
  end.
Lemma mapM_same {A B} (h : A -> A) (f : A -> M B) l : Forall (fun x => forall a, f (h x) a = f x a) l -> forall a, mapM f (map h l) a = mapM f l a.
Proof. induction 1 as [|x l H F IH]; intros a; simpl; auto. apply bind_ext; auto. intros y b. apply bind_ext; auto. Qed.
Lemma rmap_same {A B} (h : A -> A) (f : A -> res B) l : Forall (fun x => f (h x) = f x) l -> rmap f (map h l) = rmap f l.
Proof. induction 1 as [|x l H F IH]; simpl; auto. now rewrite H, IH. Qed.
Lemma rv_vars s : get_secret_vars (rv s) = get_secret_vars s.
Proof. induction s as [d|subs b IH|subs b c IH|k b p|k b p c IH] using stmt_ind'; simpl; auto; now rewrite rmap_same. Qed.
Lemma rv_bases s : get_bases (rv s) = get_bases s.
Proof. induction s as [d|subs b IH|subs b c IH|k b p|k b p c IH] using stmt_ind'; simpl; auto; now rewrite rmap_same. Qed.
Lemma rv_simulated s : simulated (rv s) = simulated s.
Proof. destruct s; reflexivity. Qed.
Lemma rv_id s : forall m, get_proof_id (rv s) m = get_proof_id s m.
Proof.
  induction s as [d|subs b IH|subs b c IH|k b p|k b p c IH] using stmt_ind'; intros m; auto.
  - assert (V := rv_vars (SAnd subs b)). assert (B := rv_bases (SAnd subs b)). change (rv (SAnd subs b)) with (SAnd (map rv subs) b) in *.
    cbn [get_proof_id]. rewrite V, B. destruct (get_secret_vars (SAnd subs b)) as [ss|]; cbn [rbind]; auto.
    destruct (get_bases (SAnd subs b)) as [bs|]; cbn [rbind]; auto. rewrite rmap_same; auto. rewrite Forall_forall in *. auto.
  - assert (V := rv_vars (SOr subs b c)). assert (B := rv_bases (SOr subs b c)). change (rv (SOr subs b c)) with (SOr (map rv subs) b c) in *.
    cbn [get_proof_id]. rewrite V, B. destruct (get_secret_vars (SOr subs b c)) as [ss|]; cbn [rbind]; auto.
    destruct (get_bases (SOr subs b c)) as [bs|]; cbn [rbind]; auto. rewrite rmap_same; auto. rewrite Forall_forall in *. auto.
  - cbn [rv option_map get_proof_id]. now rewrite IH.
Qed.
Lemma rv_prehash s : prehash_input (rv s) = prehash_input s.
Proof. unfold prehash_input. now rewrite rv_id. Qed.
Lemma rv_orders e s : validate_group_orders e (rv s) = validate_group_orders e s.
Proof. unfold validate_group_orders. now rewrite rv_vars, rv_bases. Qed.
Lemma rv_reoc e s : forall f, validate_reoccurence e (rv s) f = validate_reoccurence e s f.
Proof.
  induction s as [d|subs b IH|subs b c IH|k b p|k b p c IH] using stmt_ind'; intros f; auto.
  - assert (V := rv_vars (SAnd subs b)). change (rv (SAnd subs b)) with (SAnd (map rv subs) b) in *. cbn [validate_reoccurence]. rewrite V.
    destruct (match f with Some _ => _ | None => _ end) as [f'|]; cbn [rbind]; auto. rewrite rmap_same; auto. rewrite Forall_forall in *. auto.
  - assert (V := rv_vars (SOr subs b c)). change (rv (SOr subs b c)) with (SOr (map rv subs) b c) in *. cbn [validate_reoccurence]. now rewrite V.
Qed.
Lemma rv_validate_and e s : validate_and e (rv s) = validate_and e s.
Proof. unfold validate_and. now rewrite rv_orders, rv_reoc. Qed.
Lemma rv_validate_or e s : validate_or e (rv s) = validate_or e s.
Proof. apply rv_orders. Qed.
Lemma rv_rand s : randomizers_and (rv s) = randomizers_and s.
Proof. unfold randomizers_and. now rewrite rv_vars, rv_bases. Qed.
Lemma rv_simulate s : forall rd c a, simulate_proof (rv s) rd c a = simulate_proof s rd c a.
Proof.
  induction s as [d|subs b IH|subs b ch IH|k b p|k b p con IH] using stmt_ind'; intros rd c; auto.
  - assert (V := rv_vars (SAnd subs b)). assert (R := rv_rand (SAnd subs b)). change (rv (SAnd subs b)) with (SAnd (map rv subs) b) in *.
    cbn [simulate_proof]. rewrite V, R. apply bind_ext; auto. intros rd1. apply bind_ext; auto. intros c1. apply bind_ext; auto.
    apply mapM_same. rewrite Forall_forall in *. auto.
  - change (rv (SOr subs b ch)) with (SOr (map rv subs) b ch). rewrite !simulate_or. apply bind_ext; auto. intros c1. apply bind_ext; auto.
    generalize (@nil Z). induction IH as [|x l Hx F IHl]; intros cs; cbn [map sim_or_loop]; auto.
    destruct l as [|y l]; cbn [map]; apply bind_ext; auto. intros t. apply bind_ext; auto.
  - cbn [rv option_map simulate_proof]. apply bind_ext; auto.
Qed.
End B.

(** ** Renaming nothing *)
Notation same := (same_state (fun i => i)).
Section N.
Context {W : World}.
Notation idb := (fun x : bytes => x).
Notation idn := (fun x : nat => x).
Lemma inj_id : inj idb.
Proof. intros x y H. exact H. Qed.
Lemma rsec_id x : rsec idb idn x = x.
Proof. destruct x; reflexivity. Qed.
Lemma map_rsec l : map (rsec idb idn) l = l.
Proof. rewrite <- (map_id l) at 2. apply map_ext, rsec_id. Qed.
Lemma rdict_id {A} (d : dict A) : rdict idb idn d = d.
Proof. unfold rdict. rewrite <- (map_id d) at 2. apply map_ext. intros [k v]. cbn. now rewrite rsec_id. Qed.
Lemma rkind_id k : rkind idb idn k = k.
Proof.
  destruct k; unfold rkind; rewrite ?map_rsec, ?rsec_id; auto. f_equal. rewrite <- (map_id rows) at 2. apply map_ext. intros [l t]. cbn. f_equal.
  rewrite <- (map_id t) at 2. apply map_ext. intros [x p]. cbn. now rewrite rsec_id.
Qed.
Lemma rename_id s : rename idb idn s = s.
Proof.
  induction s as [d|subs b IH|subs b c IH|k b p|k b p c IH] using stmt_ind'; cbn [rename option_map].
  - destruct d. cbn. rewrite map_rsec. f_equal. f_equal. apply rdict_id.
  - f_equal. rewrite <- (map_id subs) at 2. apply map_ext_in. rewrite Forall_forall in IH. auto.
  - f_equal. rewrite <- (map_id subs) at 2. apply map_ext_in. rewrite Forall_forall in IH. auto.
  - now rewrite rkind_id.
  - now rewrite rkind_id, IH.
Qed.
Lemma same_refl a : same a a.
Proof. repeat split. Qed.
Lemma same_trans a b c : same a b -> same b c -> same a c.
Proof. intros (A & B & C) (A' & B' & C'). split; [|split; congruence]. intros i. now rewrite A', A. Qed.
Lemma same_sym a b : same a b -> same b a.
Proof. intros (A & B & C). split; [|split; congruence]. intros i. now rewrite A. Qed.
End N.

(** ** Dictionaries whose keys are identified by their names *)
Definition e0 : nat -> option Z := fun _ => None.
Section D.
Variable L : list secret.
Hypothesis wf : wfL L.
Definition keyed {A} (d : dict A) : Prop := forall k v, In (k, v) d -> In k L.
Lemma sec_eqb_any e e' x y : In x L -> In y L -> sec_eqb e x y = sec_eqb e' x y.
Proof.
  intros Hx Hy. assert (A := coh_eqb e L x y (wfL_coh e L wf) Hx Hy). assert (B := coh_eqb e' L x y (wfL_coh e' L wf) Hx Hy).
  destruct (sec_eqb e x y), (sec_eqb e' x y); auto; [symmetry; apply B, A; auto|apply A, B; auto].
Qed.
Lemma sec_eqb_name e x y : In x L -> In y L -> (sec_eqb e x y = true <-> sname x = sname y).
Proof. intros Hx Hy. apply (coh_eqb e L); auto. now apply wfL_coh. Qed.
Lemma dget_any {A} e e' (d : dict A) x : keyed d -> In x L -> dget e d x = dget e' d x.
Proof.
  intros K Hx. induction d as [|[k v] d IH]; simpl; auto. rewrite (sec_eqb_any e e') by (auto; apply (K k v); now left).
  rewrite IH; auto. intros k' v' H. apply (K k' v'). now right.
Qed.
Lemma dset_any {A} e e' (d : dict A) x v : keyed d -> In x L -> dset e d x v = dset e' d x v.
Proof.
  intros K Hx. induction d as [|[k u] d IH]; simpl; auto. rewrite (sec_eqb_any e e') by (auto; apply (K k u); now left).
  rewrite IH; auto. intros k' v' H. apply (K k' v'). now right.
Qed.
Lemma keyed_set {A} e (d : dict A) x v : keyed d -> In x L -> keyed (dset e d x v).
Proof. intros K Hx k u H. apply dset_keys in H as [->|(w & H)]; auto. eapply K; eauto. Qed.
Lemma keyed_update {A} e (d' : dict A) : forall d, keyed d -> keyed d' -> keyed (dupdate e d d').
Proof.
  induction d' as [|[k v] d' IH]; intros d K K'; [exact K|]. apply (IH (dset e d k v)).
  - apply keyed_set; auto. apply (K' k v). now left.
  - intros x u H. apply (K' x u). now right.
Qed.
Lemma keyed_nil {A} : keyed (@nil (secret * A)).
Proof. intros ? ? []. Qed.
Lemma name_get {A} e (d : dict A) x y : In x L -> In y L -> keyed d -> sname x = sname y -> dget e d x = dget e d y.
Proof. intros Hx Hy K E. apply dget_cong. now apply sec_eqb_name. Qed.

(** dictionaries filled from a function on secrets *)
Definition canon (g : secret -> option Z) (l : list secret) : dict Z :=
  fold_left (fun D x => match g x with Some v => dset e0 D x v | None => D end) l [].
Lemma fill_any e (g : secret -> option Z) l : incl l L -> forall D : dict Z, keyed D ->
  fold_left (fun D x => match g x with Some v => dset e D x v | None => D end) l D =
  fold_left (fun D x => match g x with Some v => dset e0 D x v | None => D end) l D /\
  keyed (fold_left (fun D x => match g x with Some v => dset e0 D x v | None => D end) l D).
Proof.
  induction l as [|x l IH]; intros H D K; simpl; auto. assert (Hx : In x L) by (apply H; now left). assert (Hl : incl l L) by (intros y Hy; apply H; now right).
  destruct (g x) as [v|]; auto. rewrite (dset_any e e0) by auto. apply IH; auto. now apply keyed_set.
Qed.
Lemma snapshot_canon e l : incl l L -> snapshot e l = canon (fun x => e (sid x)) l.
Proof. intros H. unfold snapshot, canon. apply (fill_any e (fun x => e (sid x))); auto. apply keyed_nil. Qed.
Lemma canon_keyed g l : incl l L -> keyed (canon g l).
Proof. intros H. apply (fill_any e0 g l H []). apply keyed_nil. Qed.
Lemma canon_ext g g' l : (forall x, In x l -> g x = g' x) -> canon g l = canon g' l.
Proof.
  unfold canon. generalize (@nil (secret * Z)). induction l as [|x l IH]; intros D H; simpl; auto. rewrite (H x) by now left.
  destruct (g' x); apply IH; intros; apply H; now right.
Qed.
Definition nameful (g : secret -> option Z) (l : list secret) : Prop := forall x y, In x l -> In y l -> sname x = sname y -> g x = g y.
Lemma canon_get e g l x : incl l L -> nameful g l -> In x l -> dget e (canon g l) x = g x.
Proof.
  intros H N Hx. rewrite (dget_any e e0); [|now apply canon_keyed|auto].
  assert (G : forall l' D, incl l' l -> keyed D -> (dget e0 D x = None \/ dget e0 D x = g x) ->
     dget e0 (fold_left (fun D x => match g x with Some v => dset e0 D x v | None => D end) l' D) x =
     if existsb (fun y => sec_eqb e0 y x) l' then g x else dget e0 D x).
  { induction l' as [|y l' IH]; intros D I K HD; cbn [fold_left existsb]; auto. assert (Hy : In y l) by (apply I; now left).
    assert (I' : incl l' l) by (intros z Hz; apply I; now right).
    destruct (sec_eqb e0 y x) eqn:E.
    - assert (Y : g y = g x) by (apply N; auto; apply sec_eqb_name in E; auto). rewrite Y. destruct (g x) as [v|] eqn:Q.
      + rewrite IH; auto.
        * rewrite dget_dset_same by auto. now destruct (existsb _ l').
        * apply keyed_set; auto.
        * right. now apply dget_dset_same.
      + rewrite IH by auto. destruct (existsb _ l'); auto. now destruct HD.
    - destruct (g y) as [v|]; [|now apply IH]. rewrite IH; auto.
      + now rewrite dget_dset_other.
      + apply keyed_set; auto.
      + now rewrite dget_dset_other. }
  unfold canon. rewrite G; auto; [|intros ? ?; auto|apply keyed_nil].
  replace (existsb (fun y => sec_eqb e0 y x) l) with true; auto. symmetry. apply existsb_exists. exists x. split; auto. apply sec_eqb_refl.
Qed.
Lemma update_get e (sd : dict Z) x : keyed sd -> In x L -> forall D, keyed D ->
  (exists k v, In (k, v) sd /\ sname k = sname x /\ dget e (dupdate e D sd) x = Some v) \/
  ((forall k v, In (k, v) sd -> sname k <> sname x) /\ dget e (dupdate e D sd) x = dget e D x).
Proof.
  intros K Hx. induction sd as [|[k v] sd IH]; intros D KD; [right; split; auto|].
  assert (Hk : In k L) by (apply (K k v); now left). assert (K' : keyed sd) by (intros a b H; apply (K a b); now right).
  destruct (IH K' (dset e D k v)) as [(k' & v' & I & N & G)|[N G]]; [now apply keyed_set| |].
  - left. exists k', v'. split; [now right|auto].
  - change (dupdate e D ((k, v) :: sd)) with (dupdate e (dset e D k v) sd). rewrite G. destruct (sec_eqb e k x) eqn:E.
    + left. exists k, v. split; [now left|]. split; [now apply sec_eqb_name in E|]. now apply dget_dset_same.
    + right. split; [|now apply dget_dset_other]. intros k' v' [Q|I] Q'; [|now apply (N k' v')]. injection Q as -> ->.
      apply (sec_eqb_name e) in Q'; auto. congruence.
Qed.
End D.

(** ** Two runs in step: one with the dictionary [sd], one with all values of the programmer recorded in the representations *)
Section T.
Context {W : World}.
Variables U Kn : list secret.
Variable V : nat -> option Z.
Notation L := (U ++ Kn).
Hypothesis wf : wfL L.
Hypothesis VK : forall x, In x Kn -> V (sid x) = None.
Hypothesis DJ : forall x y, In x Kn -> In y U -> sid x <> sid y.

Definition cv (d : dlrep) (x : secret) : option Z := match V (sid x) with Some v => Some v | None => dget e0 (dl_vals d) x end.
Definition gT (d : dlrep) : dict Z := canon (cv d) (dl_secs d).
Notation Td := (rvd gT).
Notation T := (rv gT).
Fixpoint Tp (p : prover) : prover :=
  match p with
  | PDL ks => PDL ks
  | PAnd l => PAnd (map Tp l)
  | POr i q sims => POr i (Tp q) sims
  | PExt sv con => PExt [] (option_map (option_map Tp) con)
  end.
Definition SDok (sd : dict Z) : Prop := forall k v, In (k, v) sd -> In k U /\ V (sid k) = Some v.
Definition Inv (sd : dict Z) (d : dlrep) : Prop :=
  incl (dl_secs d) L /\ dl_secs d <> [] /\ keyed L (dl_vals d) /\
  forall x v, In x (dl_secs d) -> V (sid x) = Some v ->
    (exists k u, In (k, u) sd /\ sname k = sname x) \/ dget e0 (dl_vals d) x = Some v.
Definition ag (a : st) : Prop := forall x, In x U -> env a (sid x) = V (sid x).
Definition eqw {A B} (P : A -> Prop) (F : A -> B) (m : M A) (m' : M B) : Prop := forall a a', same a a' -> ag a ->
  match m a with Ok (x, a1) => P x /\ ag a1 /\ exists a1', m' a' = Ok (F x, a1') /\ same a1 a1' | Err e => m' a' = Err e end.
Definition anyp {A} (x : A) : Prop := True.

Lemma eqw_ret {A B} (P : A -> Prop) (F : A -> B) x y : P x -> y = F x -> eqw P F (ret x) (ret y).
Proof. intros H -> a a' R G. unfold ret. eauto 6. Qed.
Lemma eqw_raise {A B} (P : A -> Prop) (F : A -> B) e : eqw P F (raise e) (raise e).
Proof. intros a a' R G. reflexivity. Qed.
Lemma eqw_bind {A B C D} (P : A -> Prop) (F : A -> B) (Q : C -> Prop) (H : C -> D) m m' k k' :
  eqw P F m m' -> (forall x, P x -> eqw Q H (k x) (k' (F x))) -> eqw Q H (bind m k) (bind m' k').
Proof.
  intros E K a a' R G. unfold bind. specialize (E a a' R G). destruct (m a) as [[x a1]|e].
  - destruct E as (p & g & a1' & -> & R1). apply K; auto.
  - now rewrite E.
Qed.
Lemma eqw_lift {A} (x : res A) : eqw anyp (fun y => y) (lift x) (lift x).
Proof. intros a a' R G. unfold lift. destruct x; simpl; unfold anyp; eauto 6. Qed.
Lemma eqw_weak {A B} (P Q : A -> Prop) (F : A -> B) m m' : (forall x, P x -> Q x) -> eqw P F m m' -> eqw Q F m m'.
Proof. intros H E a a' R G. specialize (E a a' R G). destruct (m a) as [[x a1]|]; auto. destruct E as (p & E). auto. Qed.
Lemma eqw_fun {A B} (P : A -> Prop) (F F' : A -> B) m m' : (forall x, P x -> F x = F' x) -> eqw P F m m' -> eqw P F' m m'.
Proof.
  intros H E a a' R G. specialize (E a a' R G). destruct (m a) as [[x a1]|]; auto. destruct E as (p & g & a1' & E & R1).
  rewrite <- H by auto. eauto 6.
Qed.
(** what the renaming of nothing gives *)
Lemma eqw_of {A B} (F : A -> B) m m' : eqv (fun i => i) F m m' -> (forall a x a1, m a = Ok (x, a1) -> ag a -> ag a1) -> eqw anyp F m m'.
Proof.
  intros E K a a' R G. specialize (E a a' R). destruct (m a) as [[x a1]|] eqn:H; auto. destruct E as (a1' & E & R1).
  split; [exact Logic.I|]. split; [eapply K; eauto|]. eauto.
Qed.
Lemma ag_keeps {A} (m : M A) : keeps m -> forall a x a1, m a = Ok (x, a1) -> ag a -> ag a1.
Proof. intros K a x a1 H G y Hy. rewrite (K _ _ _ H). auto. Qed.
Lemma eqw_left {A B} (P : A -> Prop) (F : A -> B) m m' m2 : (forall a, m2 a = m' a) -> eqw P F m m' -> eqw P F m m2.
Proof. intros H E a a' R G. specialize (E a a' R G). rewrite H. auto. Qed.
Lemma eqw_mapM {A A' B B'} (P : B -> Prop) (h : A -> A') (F : B -> B') g g' l : (forall x, In x l -> eqw P F (g x) (g' (h x))) ->
  eqw (Forall P) (map F) (mapM g l) (mapM g' (map h l)).
Proof.
  induction l as [|x l IH]; intros H; simpl; [apply eqw_ret; auto|].
  apply (eqw_bind P F); [apply H; now left|]. intros y Hy. apply (eqw_bind (Forall P) (map F)); [apply IH; intros; apply H; now right|].
  intros ys Hys. apply eqw_ret; auto.
Qed.
Lemma eqw_mapM_at {A A' B B'} (P : A -> B -> Prop) (h : A -> A') (F : B -> B') g g' l : (forall x, In x l -> eqw (P x) F (g x) (g' (h x))) ->
  eqw (Forall2 P l) (map F) (mapM g l) (mapM g' (map h l)).
Proof.
  induction l as [|x l IH]; intros H; simpl; [apply eqw_ret; auto|].
  apply (eqw_bind (P x) F); [apply H; now left|]. intros y Hy. apply (eqw_bind (Forall2 P l) (map F)); [apply IH; intros; apply H; now right|].
  intros ys Hys. apply eqw_ret; auto.
Qed.
Lemma eqw_zipM {A A' B B' C C'} (Q : A -> B -> Prop) (P : C -> Prop) (h1 : A -> A') (h2 : B -> B') (F : C -> C') g g' l m :
  Forall2 Q l m -> (forall x y, In x l -> Q x y -> eqw P F (g x y) (g' (h1 x) (h2 y))) ->
  eqw (Forall P) (map F) (zipM g l m) (zipM g' (map h1 l) (map h2 m)).
Proof.
  induction 1 as [|x y l m q Fq IH]; intros H; simpl; [apply eqw_ret; auto|].
  apply (eqw_bind P F); [apply H; auto; now left|]. intros z Hz. apply (eqw_bind (Forall P) (map F)); [apply IH; intros; apply H; auto; now right|].
  intros zs Hzs. apply eqw_ret; auto.
Qed.

(** *** Values of objects *)
Lemma giv_in sd i : forall e, giv sd e i = e i \/ exists k v, In (k, v) sd /\ sid k = i /\ giv sd e i = Some v.
Proof.
  induction sd as [|[k v] sd IH]; intros e; [now left|]. cbn [giv fold_left]. destruct (IH (upd e (sid k) (Some v))) as [E|(k' & v' & I & S & E)].
  - cbn [fst snd] in *. unfold giv in *. rewrite E. unfold upd. destruct (Nat.eqb_spec i (sid k)) as [->|N]; [|now left].
    right. exists k, v. split; [now left|auto].
  - right. exists k', v'. split; [now right|]. auto.
Qed.
Lemma giv_ok sd a : SDok sd -> ag a -> forall i, giv sd (env a) i = env a i.
Proof. intros S G i. destruct (giv_in sd i (env a)) as [E|(k & v & I & <- & E)]; auto. apply S in I as [I E']. rewrite E, <- E'. symmetry. now apply G. Qed.
(** starting the run: the objects get the values of the dictionary first *)
Definition starts (sd : dict Z) {A B} (P : A -> Prop) (F : A -> B) (m : M A) (m' : M B) : Prop := forall a a',
  same (mkSt (giv sd (env a)) (tape a) (pos a)) a' -> ag a' ->
  match m a with Ok (x, a1) => P x /\ ag a1 /\ exists a1', m' a' = Ok (F x, a1') /\ same a1 a1' | Err e => m' a' = Err e end.
Lemma starts_update sd {A B} (P : A -> Prop) (F : A -> B) m m' : eqw P F m m' ->
  starts sd P F (update_secret_values sd ;; m) (update_secret_values [] ;; m').
Proof.
  intros E a a' R G. unfold bind, update_secret_values. cbn [fold_left]. apply E.
  - destruct R as (R1 & R2 & R3). repeat split; auto.
  - intros x Hx. destruct R as (R1 & _). cbn [env] in *. unfold giv in R1. rewrite <- R1. now apply G.
Qed.
Lemma starts_eqw sd {A B} (P : A -> Prop) (F : A -> B) m m' : SDok sd -> starts sd P F m m' -> eqw P F m m'.
Proof.
  intros S E a a' R G. apply E.
  - destruct R as (R1 & R2 & R3). split; [|auto]. intros i. cbn [env]. rewrite giv_ok by auto. apply R1.
  - intros x Hx. destruct R as (R1 & _). rewrite (R1 (sid x)). now apply G.
Qed.

(** *** Representations *)
Lemma cv_name d x y : In x L -> In y L -> keyed L (dl_vals d) -> sname x = sname y -> cv d x = cv d y.
Proof.
  intros Hx Hy K E. unfold cv. rewrite (name_get L wf e0 (dl_vals d) x y) by auto. destruct (wf x y Hx Hy) as [N _]. now rewrite (N E).
Qed.
Lemma gT_get e d x : incl (dl_secs d) L -> keyed L (dl_vals d) -> In x (dl_secs d) -> dget e (gT d) x = cv d x.
Proof. intros H K Hx. apply (canon_get L wf); auto. intros y z Hy Hz. apply cv_name; auto. Qed.
Lemma keyed_sd sd : SDok sd -> keyed L sd.
Proof. intros S k v H. apply in_or_app. left. now apply (S k v). Qed.
Lemma gp_cv sd e d x : SDok sd -> Inv sd d -> In x (dl_secs d) -> dget e (dupdate e (dl_vals d) sd) x = cv d x.
Proof.
  intros S (I & _ & K & J) Hx. assert (HL := I x Hx).
  destruct (update_get L wf e sd x (keyed_sd sd S) HL (dl_vals d) K) as [(k & v & Hk & N & G)|[N G]]; rewrite G; unfold cv.
  - apply S in Hk as [Hk E]. assert (Q : sid k = sid x) by (apply wf; auto; apply in_or_app; now left). rewrite <- Q, E. reflexivity.
  - destruct (V (sid x)) as [v|] eqn:E; [|now apply (dget_any L wf)]. destruct (J x v Hx E) as [(k & u & Hk & M)|D]; [now apply N in Hk|].
    rewrite <- D. now apply (dget_any L wf).
Qed.
Lemma after_dl sd e d b : SDok sd -> Inv sd d -> let d' := mkDL (dl_lhs d) (dl_bases d) (dl_secs d) (dupdate e (dl_vals d) sd) b in
  Inv [] d' /\ gT d' = gT d.
Proof.
  intros S I d'. assert (I' := I). destruct I' as (I1 & I2 & K & J). assert (K' : keyed L (dl_vals d')) by (apply keyed_update; auto; now apply keyed_sd).
  assert (C : forall x, In x (dl_secs d) -> dget e0 (dl_vals d') x = cv d x).
  { intros x Hx. rewrite <- (gp_cv sd e d x S I Hx). apply (dget_any L wf); auto. }
  split.
  - repeat split; auto. intros x v Hx E. right. rewrite C by auto. unfold cv. now rewrite E.
  - apply canon_ext. intros x Hx. unfold cv at 1. rewrite C by auto. unfold cv. now destruct (V (sid x)).
Qed.
Lemma eqw_gp_dl sd d : SDok sd -> Inv sd d ->
  eqw (fun x => Inv [] (snd x) /\ (forall q, fst x = Some q -> q = PDL None)) (fun x => (option_map Tp (fst x), Td (snd x))) (get_prover_dl d sd) (get_prover_dl (Td d) []).
Proof.
  intros S I a a' R G. unfold get_prover_dl, bind, get_env. cbn [rvd dl_vals dl_secs dl_bases dl_lhs dupdate fold_left].
  set (vals := dupdate (env a) (dl_vals d) sd). set (d' := mkDL _ _ _ _ true).
  destruct (after_dl sd (env a) d true S I) as [I1 E1]. fold vals in I1, E1. cbv zeta in I1, E1. fold d' in I1, E1.
  assert (I' := I). destruct I' as (J1 & J2 & K & _).
  assert (X : existsb (fun s => negb (dmem (env a) vals s)) (dl_secs d) = existsb (fun s => negb (dmem (env a') (gT d) s)) (dl_secs d)).
  { clear - wf S I J1 K. assert (H : forall l, incl l (dl_secs d) -> existsb (fun s => negb (dmem (env a) vals s)) l = existsb (fun s => negb (dmem (env a') (gT d) s)) l).
    { induction l as [|x l IH]; intros H; simpl; auto. rewrite IH by (intros y Hy; apply H; now right). f_equal. unfold dmem.
      rewrite gT_get by (auto; apply H; now left). unfold vals. now rewrite (gp_cv sd) by (auto; apply H; now left). }
    apply H. intros x Hx. exact Hx. }
  assert (Y : empty_dict vals || existsb (fun s => negb (dmem (env a) vals s)) (dl_secs d) = empty_dict (gT d) || existsb (fun s => negb (dmem (env a') (gT d) s)) (dl_secs d)).
  { rewrite <- X. destruct (existsb (fun s => negb (dmem (env a) vals s)) (dl_secs d)) eqn:Q; [now rewrite !Bool.orb_true_r|].
    assert (Q' := X). rewrite ?Q in Q'. symmetry in Q'. destruct (dl_secs d) as [|x l]; [contradiction|]. cbn [existsb] in Q, Q'.
    apply Bool.orb_false_iff in Q as [Q _]. apply Bool.orb_false_iff in Q' as [Q' _]. destruct vals; [discriminate Q|]. destruct (gT d); [discriminate Q'|reflexivity]. }
  rewrite <- Y. destruct (_ || _); unfold ret; cbn [fst snd]; (split; [split; [exact I1|intros q Q; now inversion Q]|]; split; [exact G|]; exists a'; split; [|exact R]; cbn [fst snd option_map Tp]; unfold rvd; rewrite E1; reflexivity).
Qed.

(** *** Primitives *)
Definition kok (k : kind) : Prop := incl (kuser k) U /\ incl (kint k) Kn.
Lemma kok_all k : kok k -> incl (kuser k ++ kint k) L.
Proof. intros [A B] x Hx. apply in_app_or in Hx as [Hx|Hx]; apply in_or_app; auto. Qed.
Definition new_leaf (a : st) (d : dlrep) : Prop := forall sd, SDok sd -> Inv sd d.
Inductive Pre (sd : dict Z) : stmt -> Prop :=
| PrDL d : Inv sd d -> Pre sd (SDL d)
| PrAnd l b : Forall (Pre sd) l -> Pre sd (SAnd l b)
| PrOr l b c : Forall (Pre sd) l -> Pre sd (SOr l b c)
| PrExt k b p c : kok k -> Pre sd (SExt k b p c).
Lemma leaf_get a d ss x : fresh_leaf (env a) ss d -> incl ss L -> In x (dl_secs d) -> dget e0 (dl_vals d) x = env a (sid x).
Proof.
  intros (E & I & _) H Hx. rewrite E, (snapshot_canon L wf) by (eapply incl_tran; eauto).
  apply (canon_get L wf _ (fun x => env a (sid x))); auto; [eapply incl_tran; eauto|].
  intros y z Hy Hz N. assert (Q : sid y = sid z) by (apply wf; auto). now rewrite Q.
Qed.
Lemma leaf_inv a d ss : ag a -> fresh_leaf (env a) ss d -> incl ss L -> (forall sd, Inv sd d) /\ Td d = d.
Proof.
  intros G F H. assert (F' := F). destruct F' as (E & I & Len & Bs & _). assert (IL : incl (dl_secs d) L) by (eapply incl_tran; eauto).
  assert (X : forall x v, In x (dl_secs d) -> V (sid x) = Some v -> env a (sid x) = Some v).
  { intros x v Hx Q. assert (J := IL x Hx). apply in_app_or in J as [J|J]; [rewrite (G x J); auto|]. rewrite (VK x J) in Q. discriminate. }
  split.
  - intros sd. split; auto. split; [intros Q; rewrite Q in Len; destruct (dl_bases d); [congruence|discriminate]|]. split.
    + rewrite E, (snapshot_canon L wf) by auto. now apply canon_keyed.
    + intros x v Hx Q. right. rewrite (leaf_get a d ss) by auto. now apply X.
  - destruct d as [lhs bs secs vals sim]. unfold rvd. cbn [dl_lhs dl_bases dl_secs dl_vals dl_sim] in *. f_equal. rewrite E at 2. rewrite (snapshot_canon L wf) by auto.
    unfold gT. cbn [dl_secs]. apply canon_ext. intros x Hx. unfold cv. rewrite (leaf_get a _ ss) by auto. cbn [dl_vals].
    destruct (V (sid x)) as [v|] eqn:Q; auto. symmetry. now apply X.
Qed.
Lemma leafy_inv a c ss : ag a -> leafy (fresh_leaf (env a) ss) c -> incl ss L -> (forall sd, Pre sd c) /\ T c = c /\ kinds c = [].
Proof.
  intros G F H. induction c as [d|subs b IH|subs b ch IH|k b q|k b q con IH] using stmt_ind'; inversion F; subst.
  - destruct (leaf_inv a d ss) as [A B]; auto. split; [intros; constructor; auto|]. split; auto. cbn [rv]. now rewrite B.
  - assert (X : Forall (fun c => (forall sd, Pre sd c) /\ T c = c /\ kinds c = []) subs).
    { rewrite Forall_forall in *. intros x Hx. auto. }
    clear IH F H1. split; [intros sd; constructor; rewrite Forall_forall in *; intros x Hx; now apply X|]. split.
    + cbn [rv]. f_equal. rewrite <- (map_id subs) at 2. apply map_ext_in. rewrite Forall_forall in X. intros x Hx. now apply X.
    + cbn [kinds]. induction X as [|x l (_ & _ & E) X IH]; auto. simpl. now rewrite E.
  - assert (X : Forall (fun c => (forall sd, Pre sd c) /\ T c = c /\ kinds c = []) subs).
    { rewrite Forall_forall in *. intros x Hx. auto. }
    clear IH F H1. split; [intros sd; constructor; rewrite Forall_forall in *; intros x Hx; now apply X|]. split.
    + cbn [rv]. f_equal. rewrite <- (map_id subs) at 2. apply map_ext_in. rewrite Forall_forall in X. intros x Hx. now apply X.
    + cbn [kinds]. induction X as [|x l (_ & _ & E) X IH]; auto. simpl. now rewrite E.
Qed.
Lemma eqw_construct k p : kok k -> eqw (fun c => forall sd, Pre sd c) T (construct k p) (construct k p).
Proof.
  intros K a a' R G. assert (E := eqv_construct (fun x => x) (fun i => i) inj_id k p a a' R). rewrite rkind_id in E.
  destruct (construct k p a) as [[c a1]|] eqn:C; auto. destruct E as (a1' & E & R1). apply construct_leafy in C as [-> F].
  destruct (leafy_inv a c (kuser k ++ kint k) G F (kok_all k K)) as (X & Y & _). split; [exact X|]. split; auto. exists a1'. rewrite Y, rename_id in *. auto.
Qed.
Lemma eqw_sim_precommit k : eqw anyp (fun v => v) (ksim_precommit k) (ksim_precommit k).
Proof.
  apply eqw_of; [|apply ag_keeps, keeps_ksim_precommit]. rewrite <- (rkind_id k) at 2. apply eqv_sim_precommit.
Qed.
(** preparing a precommitment gives values to internal secrets only *)
Definition frees {A} (m : M A) : Prop := forall a x a1, m a = Ok (x, a1) -> ag a -> ag a1.
Lemma frees_bind {A B} (m : M A) (f : A -> M B) : frees m -> (forall x, frees (f x)) -> frees (bind m f).
Proof. intros H K a x a1 E G. apply bind_ok in E as (y & a2 & E1 & E2). eapply K; eauto. Qed.
Lemma frees_keeps {A} (m : M A) : keeps m -> frees m.
Proof. intros K. exact (ag_keeps m K). Qed.
Lemma frees_set x v : In x Kn -> frees (set_value (sid x) v).
Proof.
  intros Hx a u a1 E G y Hy. unfold set_value in E. injection E as <- <-. cbn [env]. unfold upd. destruct (Nat.eqb_spec (sid y) (sid x)) as [Q|_]; auto.
  exfalso. symmetry in Q. revert Q. now apply DJ.
Qed.
Lemma frees_mapM {A B} (f : A -> M B) l : (forall x, In x l -> frees (f x)) -> frees (mapM f l).
Proof.
  induction l as [|x l IH]; intros H; simpl; [apply frees_keeps, keeps_ret|]. apply frees_bind; [apply H; now left|]. intros y.
  apply frees_bind; [apply IH; intros; apply H; now right|]. intros ys. apply frees_keeps, keeps_ret.
Qed.
Lemma keeps_value x : keeps (value_of x).
Proof. unfold value_of. keeps_tac. Qed.
Lemma frees_precommit k : kok k -> frees (kprecommit k).
Proof.
  intros [_ K]. destruct k as [H0 g H1 h x al be bnd|com g h n isp x r rs|pk sig bs sv r1 r2 d1 d2|cls rows]; cbn [kprecommit kint] in *.
  - repeat (apply frees_bind; [first [apply frees_set; apply K; simpl; tauto|apply frees_keeps; first [apply keeps_value|keeps_tac]]|intros ?]).
    apply frees_keeps, keeps_ret.
  - destruct isp; [|apply frees_keeps, keeps_raise].
    apply frees_bind; [apply frees_keeps, keeps_value|intros v]. apply frees_bind; [apply frees_keeps, keeps_lift|intros bits].
    apply frees_bind.
    { apply frees_mapM. intros y Hy. apply frees_bind; [apply frees_keeps, keeps_draw|]. intros u. apply frees_set. auto. }
    intros _. apply frees_keeps. keeps_tac; try apply keeps_value.
  - destruct sig; [|apply frees_keeps, keeps_raise]. destruct bs as [|b0 [|b1 [|b2 bs]]]; try apply frees_keeps, keeps_raise.
    repeat (apply frees_bind; [first [apply frees_set; apply K; simpl; tauto|apply frees_keeps; keeps_tac]|intros ?]).
    apply frees_keeps, keeps_ret.
  - apply frees_keeps, keeps_ret.
Qed.
Lemma eqw_kprecommit k : kok k -> eqw anyp (fun v => v) (kprecommit k) (kprecommit k).
Proof. intros K. apply eqw_of; [|now apply frees_precommit]. rewrite <- (rkind_id k) at 2. apply eqv_precommit. auto. Qed.

(** *** Simulated branches *)
Lemma pre_kok sd s : Pre sd s -> Forall kok (kinds s).
Proof.
  induction s as [d|subs b IH|subs b ch IH|k b q|k b q con IH] using stmt_ind'; intros H; inversion H; subst; cbn [kinds]; auto;
    (apply Forall_concat; apply Forall_map; rewrite Forall_forall in *; auto).
Qed.
Lemma kok_sub l x : Forall kok (List.concat (map kinds l)) -> In x l -> Forall kok (kinds x).
Proof. rewrite !Forall_forall. intros H Hx k Hk. apply H. apply in_concat. exists (kinds x). split; auto. now apply in_map. Qed.
Definition keq (s s' : stmt) : Prop := kinds s' = kinds s.
Lemma keq_concat l l' : Forall2 keq l l' -> List.concat (map kinds l') = List.concat (map kinds l).
Proof. induction 1 as [|x y l l' E F IH]; simpl; auto. now rewrite E, IH. Qed.
Lemma eqw_prepare s : Forall kok (kinds s) -> eqw (keq s) T (prepare_sim s) (prepare_sim (T s)).
Proof.
  induction s as [d|subs b IH|subs b ch IH|k b q|k b q con IH] using stmt_ind'; intros K; cbn [rv prepare_sim option_map kinds] in *.
  - now apply eqw_ret.
  - apply (eqw_bind (Forall2 keq subs) (map T)).
    { apply (eqw_mapM_at keq). rewrite Forall_forall in IH. intros x Hx. apply IH; auto. eapply kok_sub; eauto. }
    intros l F. apply eqw_ret; auto. unfold keq. cbn [kinds]. now apply keq_concat.
  - apply (eqw_bind (Forall2 keq subs) (map T)).
    { apply (eqw_mapM_at keq). rewrite Forall_forall in IH. intros x Hx. apply IH; auto. eapply kok_sub; eauto. }
    intros l F. apply eqw_ret; auto. unfold keq. cbn [kinds]. now apply keq_concat.
  - apply (eqw_bind anyp (fun v => v)); [apply eqw_sim_precommit|]. intros p _. unfold full_construct.
    apply (eqw_bind (fun c => forall sd, Pre sd c) T); [apply eqw_construct; now inversion K|]. intros c _. apply eqw_ret; reflexivity.
  - apply (eqw_bind anyp (fun v => v)); [apply eqw_sim_precommit|]. intros p _. unfold full_construct.
    apply (eqw_bind (fun c => forall sd, Pre sd c) T); [apply eqw_construct; now inversion K|]. intros c _. apply eqw_ret; reflexivity.
Qed.
Lemma eqw_simulate s : eqw anyp (fun t => t) (simulate_proof s None None) (simulate_proof (T s) None None).
Proof.
  apply (eqw_left _ _ _ (simulate_proof s None None)); [intros a; apply rv_simulate|]. apply eqw_of; [|apply ag_keeps, keeps_simulate_proof].
  assert (E := eqv_simulate (fun x => x) (fun i => i) inj_id s None None). now rewrite rename_id in E.
Qed.
Definition Tset (x : list stmt * list sim) := (map T (fst x), snd x).
Lemma eqw_setup idx subs : Forall kok (List.concat (map kinds subs)) ->
  eqw (fun x => Forall2 keq subs (fst x) /\ nth_error (fst x) idx = nth_error subs idx) Tset (setup_simulations idx subs) (setup_simulations idx (map T subs)).
Proof.
  intros K. rewrite !setup_simulations_eq.
  enough (H : forall i, eqw (fun x => Forall2 keq subs (fst x) /\ forall j, (i + j = idx)%nat -> nth_error (fst x) j = nth_error subs j) Tset
     (setup_loop idx i subs) (setup_loop idx i (map T subs))).
  { eapply eqw_weak; [|apply (H 0%nat)]. cbn beta. intros x [A B]. split; auto. }
  induction subs as [|s l IH]; intros i; cbn [map setup_loop].
  - apply eqw_ret; [split; [constructor|auto]|reflexivity].
  - assert (Ks : Forall kok (kinds s)) by (eapply kok_sub; [exact K|now left]).
    assert (Kl : Forall kok (List.concat (map kinds l))) by (cbn [map List.concat] in K; apply Forall_app in K; tauto).
    destruct (Nat.eqb_spec i idx) as [E|N].
    + eapply (eqw_bind _ Tset); [apply (IH Kl (S i))|]. intros x [A B]. apply eqw_ret; [|reflexivity]. cbn [fst snd]. split; [constructor; auto; reflexivity|].
      intros [|j] Q; auto. cbn [nth_error]. apply B. lia.
    + apply (eqw_bind (keq s) T); [now apply eqw_prepare|]. intros s1 E1. apply (eqw_bind anyp (fun t => t)); [apply eqw_simulate|]. intros t _.
      eapply (eqw_bind _ Tset); [apply (IH Kl (S i))|]. intros x [A B]. apply eqw_ret; [|reflexivity]. cbn [fst snd]. split; [constructor; auto|].
      intros [|j] Q; [exfalso; lia|]. cbn [nth_error]. apply B. lia.
Qed.

(** *** Provers *)
Inductive PI : stmt -> prover -> Prop :=
| PiDL d ks : Inv [] d -> PI (SDL d) (PDL ks)
| PiAnd l ps b : Forall2 PI l ps -> PI (SAnd l b) (PAnd ps)
| PiOr l b c i p sims x : nth_error l i = Some x -> PI x p -> PI (SOr l b c) (POr i p sims)
| PiExt k b pre con sv : kok k -> SDok sv -> PI (SExt k b pre con) (PExt sv None)
| PiCon k b pre c sv o : kok k -> SDok sv -> (forall q, o = Some q -> PI c q) -> PI (SExt k b pre (Some c)) (PExt sv (Some o)).
Definition PG (s : stmt) (x : option prover * stmt) : Prop := keq s (snd x) /\ (forall p, fst x = Some p -> PI (snd x) p).
Definition Tgp (x : option prover * stmt) := (option_map Tp (fst x), T (snd x)).
Lemma replace2 {A} (R : A -> A -> Prop) l l' : Forall2 R l l' -> forall i x y, nth_error l i = Some x -> R x y -> Forall2 R l (replace i y l').
Proof. induction 1 as [|u v l l' H F IH]; intros [|i] x y N Q; simpl in *; try discriminate; constructor; auto; [injection N as ->; auto|eauto]. Qed.
Lemma replace_nth {A} (l : list A) i x y : nth_error l i = Some x -> nth_error (replace i y l) i = Some y.
Proof. revert i. induction l as [|z l IH]; intros [|i] H; simpl in *; try discriminate; auto. Qed.
Lemma eqw_or_loop sd subs0 : (forall x, In x subs0 -> eqw (PG x) Tgp (get_prover x sd) (get_prover (T x) [])) ->
  forall n poss subs, Forall2 keq subs0 subs ->
  eqw (fun r => Forall2 keq subs0 (snd r) /\ forall i p, fst r = Some (i, p) -> exists x, nth_error (snd r) i = Some x /\ PI x p)
    (fun r => (option_map (fun ip => (fst ip, Tp (snd ip))) (fst r), map T (snd r)))
    (or_loop n (map (fun s => get_prover s sd) subs0) poss subs) (or_loop n (map (fun s => get_prover s []) (map T subs0)) poss (map T subs)).
Proof.
  intros H. induction n as [|n IH]; intros poss subs F; cbn [or_loop].
  - apply eqw_ret; auto. split; auto. intros i p Q. discriminate Q.
  - apply (eqw_bind anyp (fun v => v)); [apply eqw_of; [apply eqv_draw|apply ag_keeps, keeps_draw]|]. intros r _.
    destruct (nth_error poss (Z.to_nat r)) as [i|]; [|apply eqw_raise]. rewrite map_map, !nth_error_map.
    destruct (nth_error subs0 i) as [x|] eqn:N; cbn [option_map]; [|apply eqw_raise].
    apply (eqw_bind (PG x) Tgp); [apply H; eapply nth_error_In; eauto|]. intros [[p|] y] [E P]; cbn [Tgp fst snd option_map] in *; rewrite replace_map.
    + apply eqw_ret; [|reflexivity]. cbn [fst snd]. split; [eapply replace2; eauto|]. intros i' p' Q. injection Q as <- <-. exists y. split; [|now apply P].
      assert (N' : exists z, nth_error subs i = Some z). { revert i N. clear -F. induction F; intros [|i] N; simpl in *; try discriminate; eauto. }
      destruct N' as (z & N'). eapply replace_nth; eauto.
    + assert (F' : Forall2 keq subs0 (replace i y subs)) by (eapply replace2; eauto).
      destruct (empty_dict _); [apply eqw_ret; auto; split; auto; intros ? ? Q; discriminate Q|]. assert (H2 := IH (remove Nat.eq_dec i poss) _ F'). rewrite map_map in H2. exact H2.
Qed.
Lemma sdok_copy sd e : SDok sd -> SDok (dupdate e [] sd).
Proof.
  intros S. enough (H : forall D, SDok D -> SDok (dupdate e D sd)) by (apply H; intros ? ? []). revert S. induction sd as [|[k v] sd IH]; intros S D HD; auto.
  apply (IH (fun k' v' I => S k' v' (or_intror I))). intros k' v' I. cbn [fst snd] in *. destruct (S k v (or_introl eq_refl)) as [Hk E].
  apply dset_in in I as [I|(-> & Q & Q')]; auto. destruct Q' as [->|(w & I)]; auto. destruct (HD k' w I) as [Hk' _]. split; auto.
  assert (N : sname k' = sname k) by now apply sec_eqb_iff in Q. rewrite <- E. f_equal. apply wf; auto; apply in_or_app; now left.
Qed.
Lemma eqw_get_prover s : forall sd, SDok sd -> Pre sd s ->
  eqw (PG s) Tgp (get_prover s sd) (get_prover (T s) []) /\
  match s with SDL _ => True | _ => starts sd (PG s) Tgp (get_prover s sd) (get_prover (T s) []) end.
Proof.
  induction s as [d|subs b IH|subs b ch IH|k b p|k b p con IH] using stmt_ind'; intros sd S P; inversion P; subst; try rewrite Forall_forall in IH.
  - split; auto. cbn [rv get_prover].
    apply (eqw_bind (fun x => Inv [] (snd x) /\ (forall q, fst x = Some q -> q = PDL None)) (fun x => (option_map Tp (fst x), Td (snd x)))); [now apply eqw_gp_dl|].
    intros [o d'] [I J]. apply eqw_ret; [|reflexivity]. split; [reflexivity|]. cbn [fst snd] in *. intros q Q. rewrite (J q Q). now constructor.
  - assert (X : starts sd (PG (SAnd subs b)) Tgp (get_prover (SAnd subs b) sd) (get_prover (T (SAnd subs b)) [])); [|split; auto; now apply (starts_eqw sd)].
    cbn [rv get_prover]. apply starts_update. destruct b; [apply eqw_ret; [split; [reflexivity|discriminate]|reflexivity]|].
    apply (eqw_bind (Forall2 PG subs) (map Tgp)). { apply (eqw_mapM_at PG). intros x Hx. apply IH; auto. rewrite Forall_forall in H0. auto. }
    intros l F.
    assert (E : forallb (fun r0 => is_some (fst r0)) (map Tgp l) = forallb (fun r0 => is_some (fst r0)) l).
    { clear. induction l as [|[[p|] s] l IH]; simpl; auto. }
    rewrite E. destruct (forallb _ l) eqn:A; [|apply eqw_raise]. apply eqw_ret.
    + split; [unfold keq; cbn [snd kinds]; apply keq_concat; clear - F; induction F as [|x y l m [Q _] F IH]; simpl; constructor; auto|].
      cbn [fst snd]. intros p Q. injection Q as <-. constructor. clear - F A.
      induction F as [|x y l m [_ Q] F IH]; cbn [map flat_map]; [constructor|]. cbn [forallb] in A. apply andb_prop in A as [A1 A2].
      destruct (fst y) as [p|]; [|discriminate]. cbn [app]. constructor; auto.
    + unfold Tgp. cbn [fst snd option_map Tp rv]. f_equal.
      * f_equal. f_equal. clear. induction l as [|[[p|] s] l IH]; simpl; auto. now rewrite IH.
      * f_equal. now rewrite !map_map.
  - assert (X : starts sd (PG (SOr subs b ch)) Tgp (get_prover (SOr subs b ch) sd) (get_prover (T (SOr subs b ch)) [])); [|split; auto; now apply (starts_eqw sd)].
    cbn [rv get_prover]. apply starts_update. destruct b; [apply eqw_ret; [split; [reflexivity|discriminate]|reflexivity]|].
    assert (E : map fst (filter (fun p : nat * stmt => negb (simulated (snd p))) (combine (seq 0 (List.length (map T subs))) (map T subs))) =
                map fst (filter (fun p : nat * stmt => negb (simulated (snd p))) (combine (seq 0 (List.length subs)) subs))).
    { rewrite map_length. generalize (seq 0 (List.length subs)). clear. induction subs as [|x l IH]; intros [|i il]; simpl; auto.
      rewrite rv_simulated. destruct (simulated x); simpl; auto. now rewrite IH. }
    rewrite E. set (cands := map fst _). destruct (empty_dict cands); [apply eqw_ret; [split; [reflexivity|discriminate]|reflexivity]|].
    eapply eqw_bind.
    { apply (eqw_or_loop sd subs); [intros x Hx; apply IH; auto; rewrite Forall_forall in H0; auto|]. clear. induction subs; constructor; auto. reflexivity. }
    intros [[[i p]|] l] [F Q]; cbn [fst snd option_map] in *.
    + eapply (eqw_bind _ Tset). { apply eqw_setup. rewrite (keq_concat subs l F). apply (pre_kok sd (SOr subs false ch)). now constructor. }
      intros [l2 sims] [F2 N]. cbn [fst snd Tset] in *. apply eqw_ret; [|reflexivity]. split; cbn [fst snd].
      * unfold keq. cbn [kinds]. now rewrite (keq_concat l l2), (keq_concat subs l).
      * intros q Z. injection Z as <-. destruct (Q i p eq_refl) as (x & Nx & Px). econstructor; [|exact Px]. now rewrite N.
    + apply eqw_ret; [|reflexivity]. split; [|discriminate]. unfold keq. cbn [snd kinds]. now apply keq_concat.
  - assert (X : starts sd (PG (SExt k b p None)) Tgp (get_prover (SExt k b p None) sd) (get_prover (T (SExt k b p None)) [])); [|split; auto; now apply (starts_eqw sd)].
    cbn [rv get_prover option_map]. apply starts_update. intros a a' R G. cbn. split; [|split; [exact G|exists a'; split; [reflexivity|exact R]]].
    split; [reflexivity|]. cbn [fst snd]. intros q Q. injection Q as <-. constructor; auto. now apply sdok_copy.
  - assert (X : starts sd (PG (SExt k b p (Some con))) Tgp (get_prover (SExt k b p (Some con)) sd) (get_prover (T (SExt k b p (Some con))) [])); [|split; auto; now apply (starts_eqw sd)].
    cbn [rv get_prover option_map]. apply starts_update. intros a a' R G. cbn. split; [|split; [exact G|exists a'; split; [reflexivity|exact R]]].
    split; [reflexivity|]. cbn [fst snd]. intros q Q. injection Q as <-. constructor; auto. now apply sdok_copy.
Qed.
Definition Tpc (x : val * prover * stmt) := (fst (fst x), Tp (snd (fst x)), T (snd x)).
Definition PP (x : val * prover * stmt) : Prop := PI (snd x) (snd (fst x)).
Lemma replace_at {A} (l : list A) i x : nth_error l i <> None -> nth_error (replace i x l) i = Some x.
Proof. revert i. induction l as [|y l IH]; intros [|i] H; simpl in *; try congruence. now apply IH. Qed.
Lemma eqw_pc_loop f f' i : forall l x, nth_error l i = Some x -> eqw PP Tpc (f x) (f' (T x)) ->
  eqw (fun r => exists y, nth_error (snd r) i = Some y /\ PI y (snd (fst r))) (fun r => (fst (fst r), Tp (snd (fst r)), map T (snd r)))
    (or_pre_loop f i l) (or_pre_loop f' i (map T l)).
Proof.
  induction i as [|i IH]; intros [|y l] x N E; try discriminate N; cbn [or_pre_loop map nth_error] in *.
  - injection N as ->. apply (eqw_bind PP Tpc); auto. intros [[v p] z] H. apply eqw_ret; [|reflexivity]. cbn. exists z. split; auto.
  - eapply eqw_bind; [eapply IH; eauto|]. intros [[v p] z] (u & N' & H). apply eqw_ret; [|reflexivity]. cbn in *. exists u. auto.
Qed.
Lemma eqw_pc s : forall p, PI s p -> eqw PP Tpc (precommit s p) (precommit (T s) (Tp p)).
Proof.
  assert (X : forall k b q con sv pc, kok k -> SDok sv -> eqw PP Tpc (precommit (SExt k b q con) (PExt sv pc)) (precommit (T (SExt k b q con)) (Tp (PExt sv pc)))).
  { intros k b q con sv pc K S. cbn [rv Tp precommit option_map]. apply (eqw_bind anyp (fun v => v)); [now apply eqw_kprecommit|]. intros pre _.
    apply (eqw_bind (fun c => forall sd, Pre sd c) T); [now apply eqw_construct|]. intros c Hc.
    apply (eqw_bind (PG c) Tgp); [now apply eqw_get_prover|]. intros [o c'] [_ Q]. apply eqw_ret; [|reflexivity]. unfold PP. cbn [fst snd] in *.
    constructor; auto. }
  induction s as [d|subs b IH|subs b ch IH|k b q|k b q con IH] using stmt_ind'; intros p H; inversion H; subst; try rewrite Forall_forall in IH; auto.
  - cbn [rv Tp precommit]. now apply eqw_ret.
  - cbn [rv Tp precommit]. apply (eqw_bind (Forall PP) (map Tpc)). { apply (eqw_zipM PI); auto. }
    intros l F. apply eqw_ret.
    + unfold PP. cbn [fst snd]. constructor. clear - F. induction F; cbn [map]; constructor; auto.
    + unfold Tpc. cbn [fst snd Tp rv]. rewrite !map_map. reflexivity.
  - change (T (SOr subs b ch)) with (SOr (map T subs) b ch). cbn [Tp]. rewrite !precommit_or. eapply eqw_bind.
    { eapply (eqw_pc_loop (fun x => precommit x p0) (fun x => precommit x (Tp p0))); [eassumption|]. apply IH; auto. eapply nth_error_In; eauto. }
    intros [[v q] l] (y & N & Q). apply eqw_ret; [|reflexivity]. unfold PP. cbn [fst snd] in *. econstructor; eauto.
Qed.
Lemma eqw_env {C D} (P : C -> Prop) (F : C -> D) k k' : (forall e e', same_env (fun i => i) e e' -> eqw P F (k e) (k' e')) -> eqw P F (bind get_env k) (bind get_env k').
Proof. intros K a a' R G. unfold bind, get_env. apply K; auto. apply R. Qed.
Definition Tcm (x : val * prover) := (fst x, Tp (snd x)).
Lemma eqw_commit_dl d o : eqw (fun r => exists ks, snd r = PDL ks) Tcm (commit_dl d o) (commit_dl (Td d) o).
Proof.
  change (commit_dl (Td d) o) with (commit_dl d o).
  assert (E := eqv_commit_dl (fun x => x) (fun i => i) inj_id d o).
  replace (rdl (fun x => x) (fun i => i) d) with d in E.
  2: { unfold rdl. rewrite map_rsec, rdict_id. now destruct d. }
  replace (option_map (rdict (fun x => x) (fun i => i)) o) with o in E by (destruct o; cbn [option_map]; rewrite ?rdict_id; auto).
  intros a a' R G. assert (K := keeps_commit_dl d o). specialize (E a a' R). destruct (commit_dl d o a) as [[[v p] a1]|] eqn:C; auto.
  destruct E as (a1' & E & R1).
  assert (Q : exists ks, p = PDL ks).
  { unfold commit_dl in C. apply bind_ok in C as (? & ? & _ & C). apply bind_ok in C as (? & ? & _ & C). apply bind_ok in C as (? & ? & _ & C).
    destruct (dl_bases d); [discriminate C|]. apply bind_ok in C as (? & ? & _ & C). apply ret_ok in C as [C _]. injection C as _ <-. eauto. }
  destruct Q as (ks & ->). split; [cbn; eauto|]. split; [eapply ag_keeps; eauto|]. exists a1'. split; auto.
Qed.
Lemma eqw_rand s o : eqw anyp (fun d => d) (update_randomizers (randomizers_and s) (get_secret_vars s) o)
  (update_randomizers (randomizers_and (T s)) (get_secret_vars (T s)) o).
Proof.
  rewrite rv_rand, rv_vars. apply eqw_of; [|apply ag_keeps, keeps_update_randomizers, keeps_randomizers_and].
  assert (E := eqv_rand_and (fun x => x) (fun i => i) inj_id s). rewrite rename_id in E.
  assert (E2 := eqv_upd_rand (fun x => x) (fun i => i) inj_id _ _ (get_secret_vars s) o E).
  replace (rres (map (rsec (fun x => x) (fun i => i))) (get_secret_vars s)) with (get_secret_vars s) in E2 by (destruct (get_secret_vars s); cbn; rewrite ?map_rsec; auto).
  replace (option_map (rdict (fun x => x) (fun i => i)) o) with o in E2 by (destruct o; cbn [option_map]; rewrite ?rdict_id; auto).
  eapply eqv_ext; [|exact E2]. apply rdict_id.
Qed.
Lemma eqw_sel {A B} (P : A -> Prop) (F : A -> B) f f' i l x : nth_error l i = Some x -> eqw P F (f x) (f' (T x)) -> eqw P F (sel_loop f i l) (sel_loop f' i (map T l)).
Proof. intros N E a a' R G. rewrite !sel_loop_eq, nth_error_map, N. cbn [option_map]. now apply E. Qed.
Lemma eqw_commit s : forall p o, PI s p -> eqw (fun r => PI s (snd r)) Tcm (internal_commit s p o) (internal_commit (T s) (Tp p) o).
Proof.
  induction s as [d|subs b IH|subs b ch IH|k b q|k b q con IH] using stmt_ind'; intros p o H; inversion H; subst; try rewrite Forall_forall in IH.
  - cbn [rv Tp internal_commit]. eapply eqw_weak; [|apply eqw_commit_dl]. intros [v r] (ks' & Q). cbn [snd] in *. subst. now constructor.
  - assert (RA := fun o => eqw_rand (SAnd subs b) o). assert (VA := fun e => rv_validate_and gT e (SAnd subs b)).
    assert (VB := fun e e' => validate_and_r (fun x => x) (fun i => i) inj_id (fun a b E => E) e e' (SAnd subs b)).
    rewrite rename_id in VB. change (T (SAnd subs b)) with (SAnd (map T subs) b) in *. cbn [internal_commit Tp].
    apply eqw_env. intros e e' R. rewrite VA, (VB e e' R). apply (eqw_bind anyp (fun x => x)); [apply eqw_lift|]. intros _ _.
    apply (eqw_bind anyp (fun x => x)); [apply RA|]. intros rs _.
    apply (eqw_bind (Forall2 (fun x r => PI x (snd r)) subs) (map Tcm)).
    { match goal with F : Forall2 PI _ _ |- _ => rename F into HF end. clear - IH HF. assert (IH' : forall x, In x subs -> forall p, PI x p -> eqw (fun r => PI x (snd r)) Tcm (internal_commit x p (Some rs)) (internal_commit (T x) (Tp p) (Some rs))) by auto.
      clear IH. induction HF as [|x p l ps Q F IHF]; [apply eqw_ret; auto|]. cbn [map zipM].
      eapply eqw_bind; [apply IH'; [now left|exact Q]|]. intros y Hy. eapply eqw_bind; [apply IHF; intros; apply IH'; auto; now right|].
      intros ys Hys. apply eqw_ret; [constructor; auto|reflexivity]. }
    intros l F. apply eqw_ret.
    + cbn [snd]. constructor. clear - F. induction F; cbn [map]; constructor; auto.
    + unfold Tcm. cbn [fst snd Tp]. now rewrite !map_map.
  - assert (VA := fun e => rv_validate_or gT e (SOr subs b ch)).
    assert (VB := fun e e' => validate_or_r (fun x => x) (fun i => i) inj_id e e' (SOr subs b ch)).
    rewrite rename_id in VB. change (T (SOr subs b ch)) with (SOr (map T subs) b ch) in *. cbn [Tp]. rewrite !internal_commit_or.
    apply eqw_env. intros e e' R. rewrite VA, (VB e e' R). apply (eqw_bind anyp (fun x => x)); [apply eqw_lift|]. intros _ _.
    eapply (eqw_bind _ Tcm). { eapply (eqw_sel _ _ (fun x => internal_commit x p0 None) (fun x => internal_commit x (Tp p0) None)); [eassumption|].
      apply IH; auto. eapply nth_error_In; eauto. }
    intros [v q] Q. apply eqw_ret; [|reflexivity]. cbn [snd] in *. econstructor; eauto.
  - cbn [rv Tp internal_commit option_map]. apply eqw_raise.
  - cbn [rv Tp internal_commit option_map]. apply eqw_raise.
  - cbn [rv Tp internal_commit option_map]. destruct o0 as [q0|]; cbn [option_map]; [|apply eqw_raise].
    eapply (eqw_bind _ Tcm); [apply IH; auto|]. intros [v r] Q. apply eqw_ret; [|reflexivity]. cbn [snd] in *. constructor; auto. intros q1 E. now injection E as <-.
Qed.
Lemma eqw_respond_dl d ks c : Inv [] d -> eqw anyp (fun v => v) (respond_dl d ks c) (respond_dl (Td d) ks c).
Proof.
  intros I. unfold respond_dl. cbn [rvd dl_bases dl_vals dl_secs]. destruct ks as [ks|]; [|apply eqw_raise]. destruct (dl_bases d) as [|b0 bs]; [apply eqw_raise|].
  apply eqw_env. intros e e' R.
  replace (rmap (fun sk => let? v := dget_err e' (gT d) (fst sk) in Ok ((v * c + snd sk) mod order (grp b0))) (combine (dl_secs d) ks))
    with (rmap (fun sk => let? v := dget_err e (dl_vals d) (fst sk) in Ok ((v * c + snd sk) mod order (grp b0))) (combine (dl_secs d) ks)).
  - apply (eqw_bind anyp (fun x => x)); [apply eqw_lift|]. intros rs _. now apply eqw_ret.
  - destruct I as (I & _ & K & J). assert (H : forall x, In x (dl_secs d) -> dget_err e (dl_vals d) x = dget_err e' (gT d) x).
    { intros x Hx. unfold dget_err. rewrite gT_get by auto. unfold cv. rewrite (dget_any _ wf e e0) by auto.
      destruct (V (sid x)) as [v|] eqn:Q; auto. destruct (J x v Hx Q) as [(? & ? & [] & _)|E]. now rewrite E. }
    assert (H2 : forall x, In x (combine (dl_secs d) ks) -> dget_err e (dl_vals d) (fst x) = dget_err e' (gT d) (fst x)) by (intros [x y] Hx; apply H; eapply in_combine_l; eauto).
    revert H2. generalize (combine (dl_secs d) ks). induction l as [|x l IHl]; intros H2; simpl; auto. rewrite <- H2 by now left.
    rewrite IHl by (intros; apply H2; now right). reflexivity.
Qed.
Lemma eqw_response s : forall p c, PI s p -> eqw anyp (fun v => v) (compute_response s p c) (compute_response (T s) (Tp p) c).
Proof.
  induction s as [d|subs b IH|subs b ch IH|k b q|k b q con IH] using stmt_ind'; intros p c H; inversion H; subst; try rewrite Forall_forall in IH;
    cbn [rv Tp compute_response option_map].
  - now apply eqw_respond_dl.
  - apply (eqw_bind (Forall anyp) (map (fun v : val => v))). { apply (eqw_zipM PI); auto. } intros l _. rewrite map_id. now apply eqw_ret.
  - change (SOr (map T subs) b ch) with (T (SOr subs b ch)). 
    assert (E := compute_response_or (map T subs) b ch i (Tp p0) sims c). assert (E2 := compute_response_or subs b ch i p0 sims c).
    cbn [compute_response] in E, E2. cbv zeta in *.
    apply (eqw_bind anyp (fun v => v)); [|intros; now apply eqw_ret].
    eapply (eqw_sel _ _ (fun x => compute_response x p0 (find_residual (map t_chal sims) c challenge_length))
             (fun x => compute_response x (Tp p0) (find_residual (map t_chal sims) c challenge_length))); [eassumption|].
    apply IH; auto. eapply nth_error_In; eauto.
  - apply eqw_raise.
  - apply eqw_raise.
  - destruct o as [q0|]; cbn [option_map]; [|apply eqw_raise]. apply IH. auto.
Qed.
Lemma eqw_nizk s p msg : PI s p -> eqw anyp (fun x => (fst (fst x), Tp (snd (fst x)), T (snd x))) (get_nizk_proof s p msg) (get_nizk_proof (T s) (Tp p) msg).
Proof.
  intros H. unfold get_nizk_proof. apply (eqw_bind PP Tpc); [now apply eqw_pc|]. intros [[pre p1] s1] P1. cbn [Tpc fst snd].
  eapply (eqw_bind _ Tcm); [apply eqw_commit; exact P1|]. intros [com p2] P2. cbn [Tcm fst snd] in *. rewrite rv_prehash.
  apply (eqw_bind anyp (fun v => v)); [apply eqw_lift|]. intros h _. apply (eqw_bind anyp (fun v => v)); [apply eqw_lift|]. intros c _.
  apply (eqw_bind anyp (fun v => v)); [now apply eqw_response|]. intros r _. now apply eqw_ret.
Qed.
Definition outcome_of {A B} (m : M (A * B)) (a : st) : res A := match m a with Ok ((x, _), _) => Ok x | Err e => Err e end.
Lemma run_tree s sd msg a a' : SDok sd -> Pre sd s -> match s with SDL _ => False | _ => True end ->
  same (mkSt (giv sd (env a)) (tape a) (pos a)) a' -> ag a' -> outcome_of (prove s sd msg) a = outcome_of (prove (T s) [] msg) a'.
Proof.
  intros S P N R G. destruct (eqw_get_prover s sd S P) as [_ X]. assert (Y : starts sd (PG s) Tgp (get_prover s sd) (get_prover (T s) [])) by (destruct s; tauto).
  clear X. specialize (Y a a' R G). unfold outcome_of, prove, bind at 1 3. destruct (get_prover s sd a) as [[[o s1] a1]|e] eqn:E.
  - destruct Y as ([_ Q] & G1 & a1' & -> & R1). cbn [Tgp fst snd] in *. destruct o as [p|]; cbn [option_map]; auto.
    assert (Z := eqw_nizk s1 p msg (Q p eq_refl) a1 a1' R1 G1). unfold bind. destruct (get_nizk_proof s1 p msg a1) as [[[[z p2] s2] a2]|].
    + destruct Z as (_ & _ & a2' & -> & _). reflexivity.
    + now rewrite Z.
  - now rewrite Y.
Qed.
Lemma run_dl d sd msg a a' : SDok sd -> Inv sd d -> same a a' -> ag a -> outcome_of (prove (SDL d) sd msg) a = outcome_of (prove (T (SDL d)) [] msg) a'.
Proof.
  intros S P R G. assert (Pd : Pre sd (SDL d)) by now constructor. destruct (eqw_get_prover (SDL d) sd S Pd) as [Y _]. specialize (Y a a' R G).
  unfold outcome_of, prove, bind at 1 3. destruct (get_prover (SDL d) sd a) as [[[o s1] a1]|e] eqn:E.
  - destruct Y as ([_ Q] & G1 & a1' & -> & R1). cbn [Tgp fst snd] in *. destruct o as [p|]; cbn [option_map]; auto.
    assert (Z := eqw_nizk s1 p msg (Q p eq_refl) a1 a1' R1 G1). unfold bind. destruct (get_nizk_proof s1 p msg a1) as [[[[z p2] s2] a2]|].
    + destruct Z as (_ & _ & a2' & -> & _). reflexivity.
    + now rewrite Z.
  - now rewrite Y.
Qed.
End T.

(** ** A representation on its own: the values of the objects are not read *)
Section L.
Context {W : World}.
Variable L : list secret.
Hypothesis wf : wfL L.
Definition te (a b : st) : Prop := tape a = tape b /\ pos a = pos b.
Definition eqt {A} (P : A -> Prop) (m m' : M A) : Prop := forall a b, te a b ->
  match m a with Ok (x, a1) => P x /\ exists b1, m' b = Ok (x, b1) /\ te a1 b1 | Err e => m' b = Err e end.
Lemma eqt_ret {A} (P : A -> Prop) x : P x -> eqt P (ret x) (ret x).
Proof. intros p a b R. unfold ret. eauto. Qed.
Lemma eqt_raise {A} (P : A -> Prop) e : eqt P (raise e) (raise e).
Proof. intros a b R. reflexivity. Qed.
Lemma eqt_lift {A} (x : res A) : eqt anyp (lift x) (lift x).
Proof. intros a b R. unfold lift. destruct x; unfold anyp; eauto. Qed.
Lemma eqt_draw n : eqt anyp (draw n) (draw n).
Proof. intros a b [R1 R2]. unfold draw. rewrite R1, R2. split; [exact Logic.I|]. eexists. split; [reflexivity|]. split; simpl; congruence. Qed.
Lemma eqt_bind {A B} (P : A -> Prop) (Q : B -> Prop) (m m' : M A) (f g : A -> M B) : eqt P m m' -> (forall x, P x -> eqt Q (f x) (g x)) -> eqt Q (bind m f) (bind m' g).
Proof.
  intros H K a b R. unfold bind. specialize (H a b R). destruct (m a) as [[x a1]|]; [|now rewrite H]. destruct H as (p & b1 & -> & R1). now apply K.
Qed.
Lemma eqt_env {A} (P : A -> Prop) (f g : (nat -> option Z) -> M A) : (forall e e', eqt P (f e) (g e')) -> eqt P (bind get_env f) (bind get_env g).
Proof. intros H a b R. unfold bind, get_env. now apply H. Qed.
Lemma eqt_mapM {A B} (f : A -> M B) l : (forall x, eqt anyp (f x) (f x)) -> eqt anyp (mapM f l) (mapM f l).
Proof.
  intros H. induction l as [|x l IH]; simpl; [now apply eqt_ret|]. apply (eqt_bind anyp); auto. intros y _. apply (eqt_bind anyp); auto. intros ys _. now apply eqt_ret.
Qed.
Lemma update_any {A} e e' (d' : dict A) : forall d, keyed L d -> keyed L d' -> dupdate e d d' = dupdate e' d d'.
Proof.
  induction d' as [|[k v] d' IH]; intros d K K'; auto. assert (Hk : In k L) by (apply (K' k v); now left).
  cbn [dupdate fold_left fst snd]. rewrite (dset_any L wf e e') by auto. apply (IH (dset e' d k v)); [now apply keyed_set|]. intros a b H. apply (K' a b). now right.
Qed.
Lemma set_any e e' l : incl l L -> sec_set e l = sec_set e' l.
Proof.
  intros H. unfold sec_set. enough (X : forall acc, incl acc L -> fold_left (fun acc s => if sec_mem e s acc then acc else acc ++ [s]) l acc =
    fold_left (fun acc s => if sec_mem e' s acc then acc else acc ++ [s]) l acc) by (apply X; intros ? []).
  induction l as [|x l IH]; intros acc Ha; cbn [fold_left]; auto. assert (Hx : In x L) by (apply H; now left).
  assert (M : sec_mem e x acc = sec_mem e' x acc).
  { clear - wf Ha Hx. induction acc as [|y acc IH]; simpl; auto. rewrite (sec_eqb_any L wf e e') by (auto; apply Ha; now left). rewrite IH; auto. intros z Hz. apply Ha. now right. }
  rewrite M. destruct (sec_mem e' x acc); apply IH; auto; try (intros z Hz; apply H; now right).
  intros z Hz. apply in_app_or in Hz as [Hz|[<-|[]]]; auto.
Qed.
Lemma fold_any {A} e e' (l : list (secret * A)) : keyed L l -> forall D, keyed L D ->
  fold_left (fun o sr => dset e o (fst sr) (snd sr)) l D = fold_left (fun o sr => dset e' o (fst sr) (snd sr)) l D /\
  keyed L (fold_left (fun o sr => dset e' o (fst sr) (snd sr)) l D).
Proof.
  induction l as [|[k v] l IH]; intros K D KD; cbn [fold_left fst snd]; auto. assert (Hk : In k L) by (apply (K k v); now left).
  rewrite (dset_any L wf e e') by auto. apply IH; [intros a b H; apply (K a b); now right|now apply keyed_set].
Qed.
Lemma get_any {A} e e' (d : dict A) x : keyed L d -> In x L -> dget_err e d x = dget_err e' d x.
Proof. intros K Hx. unfold dget_err. now rewrite (dget_any L wf e e'). Qed.
Lemma rmap_in {A B} (f g : A -> res B) l : (forall x, In x l -> f x = g x) -> rmap f l = rmap g l.
Proof. induction l as [|x l IH]; intros H; simpl; auto. rewrite (H x) by now left. now rewrite IH by (intros; apply H; now right). Qed.
Lemma existsb_in {A} (f g : A -> bool) l : (forall x, In x l -> f x = g x) -> existsb f l = existsb g l.
Proof. induction l as [|x l IH]; intros H; simpl; auto. rewrite (H x) by now left. now rewrite IH by (intros; apply H; now right). Qed.
Definition good (d d' : dlrep) : Prop := dl_bases d' = dl_bases d /\ dl_secs d' = dl_secs d /\ keyed L (dl_vals d').
Lemma eqt_dl d sd msg : incl (dl_secs d) L -> keyed L (dl_vals d) -> keyed L sd -> eqt anyp (prove (SDL d) sd msg) (prove (SDL d) sd msg).
Proof.
  intros HL KV KS. unfold prove. apply (eqt_bind (fun r => exists d', snd r = SDL d' /\ good d d' /\ (fst r = None \/ fst r = Some (PDL None)))).
  { cbn [get_prover]. apply (eqt_bind (fun r => good d (snd r) /\ (fst r = None \/ fst r = Some (PDL None)))).
    - unfold get_prover_dl. apply eqt_env. intros e e'.
      rewrite (update_any e e') by auto. cbv zeta. set (vals := dupdate e' (dl_vals d) sd). assert (K : keyed L vals) by now apply keyed_update.
      rewrite (existsb_in (fun s => negb (dmem e vals s)) (fun s => negb (dmem e' vals s))); [|intros x Hx; unfold dmem; now rewrite (dget_any L wf e e') by auto].
      destruct (_ || _); apply eqt_ret; (split; [repeat split; auto|cbn; auto]).
    - intros [o d'] [G P]. apply eqt_ret. cbn [fst snd] in *. eauto. }
  intros [o s] (d' & E & (GB & GS & GV) & P). cbn [fst snd] in *. subst s. destruct P as [->| ->]; [apply eqt_raise|].
  apply (eqt_bind anyp); [|intros [[z q] s'] _; now apply eqt_ret]. unfold get_nizk_proof. cbn [precommit].
  apply (eqt_bind (fun r => r = (VNone, PDL None, SDL d'))); [now apply eqt_ret|]. intros r ->. cbn [internal_commit].
  apply (eqt_bind (fun r => exists ks, snd r = PDL ks)).
  { unfold commit_dl. cbn [update_randomizers]. apply (eqt_bind (keyed L)).
    - unfold randomizers_dl. destruct (dl_bases d') as [|b0 bs]; [apply eqt_raise|]. apply eqt_env. intros e e'. rewrite (set_any e e') by now rewrite GS.
      apply (eqt_bind anyp); [apply eqt_mapM; intros _; apply eqt_draw|]. intros rs _.
      assert (K : keyed L (combine (sec_set e' (dl_secs d')) rs)). { intros k v H. apply in_combine_l in H. apply HL. rewrite <- GS. now apply (sec_set_incl e'). }
      destruct (fold_any e e' _ K [] (keyed_nil L)) as [X Y]. rewrite X. now apply eqt_ret.
    - intros D KD. apply eqt_env. intros e e'. rewrite (rmap_in (dget_err e D) (dget_err e' D)) by (intros x Hx; apply get_any; auto; apply HL; now rewrite <- GS).
      apply (eqt_bind anyp); [apply eqt_lift|]. intros ks _. destruct (dl_bases d'); [apply eqt_raise|]. apply (eqt_bind anyp); [apply eqt_lift|]. intros x _. apply eqt_ret. cbn; eauto. }
  intros [com q] (ks & Q). cbn [snd] in Q. subst q. apply (eqt_bind anyp); [apply eqt_lift|]. intros h _. apply (eqt_bind anyp); [apply eqt_lift|]. intros c _.
  apply (eqt_bind anyp); [|intros; now apply eqt_ret]. cbn [compute_response]. unfold respond_dl. destruct ks as [ks|]; [|apply eqt_raise]. destruct (dl_bases d'); [apply eqt_raise|].
  apply eqt_env. intros e e'. match goal with |- eqt _ (bind (lift ?X) _) (bind (lift ?Y) _) => replace X with Y end.
  - apply (eqt_bind anyp); [apply eqt_lift|]. intros; now apply eqt_ret.
  - apply rmap_in. intros [x k] Hx. apply in_combine_l in Hx. cbn [fst]. rewrite (get_any e' e); auto. apply HL. now rewrite <- GS.
Qed.
End L.

(** ** Two ways *)
Section Two.
Context {W : World}.
Lemma giv_last L sd : wfL L -> incl (map fst sd) L -> NoDup (map (fun kv => sname (fst kv)) sd) -> forall e k v, In (k, v) sd -> giv sd e (sid k) = Some v.
Proof.
  intros wf. induction sd as [|[k' v'] sd IH]; intros H N e k v I; [destruct I|]. cbn [map fst] in *. apply NoDup_cons_iff in N as [N1 N2].
  assert (H' : incl (map fst sd) L) by (intros x Hx; apply H; now right). destruct I as [I|I].
  - injection I as -> ->. change (giv sd (upd e (sid k) (Some v)) (sid k) = Some v).
    destruct (giv_in sd (sid k) (upd e (sid k) (Some v))) as [E|(k2 & v2 & I2 & S & E)].
    + rewrite E. unfold upd. now rewrite Nat.eqb_refl.
    + exfalso. apply N1. apply in_map_iff. exists (k2, v2). split; auto. cbn [fst]. apply wf; auto; [|apply H; now left]. apply H'. now apply (in_map fst) in I2.
  - apply (IH H' N2 (upd e (sid k') (Some v')) k v I).
Qed.
Lemma giv_total L sd e x v : wfL L -> incl (map fst sd) L -> NoDup (map (fun kv => sname (fst kv)) sd) -> In x L -> (giv sd e (sid x) = Some v <-> total sd e x v).
Proof.
  intros wf H N Hx. split.
  - intros E. destruct (giv_in sd (sid x) e) as [Q|(k & u & I & S & Q)].
    + destruct (existsb (fun kv => bytes_eqb (sname (fst kv)) (sname x)) sd) eqn:B.
      * apply existsb_exists in B as ([k u] & I & B). apply bytes_eqb_eq in B. cbn [fst] in B. left. exists k. split; auto.
        assert (S : sid k = sid x) by (apply wf; auto; apply H; now apply (in_map fst) in I).
        assert (G := giv_last L sd wf H N e k u I). rewrite S in G. congruence.
      * right. split; [|congruence]. intros k u I Q'. assert (X : existsb (fun kv => bytes_eqb (sname (fst kv)) (sname x)) sd = true); [|congruence].
        apply existsb_exists. exists (k, u). split; auto. now apply bytes_eqb_eq.
    + left. exists k. split; [congruence|]. apply wf; auto. apply H. now apply (in_map fst) in I.
  - intros [(k & I & Q)|[Q E]].
    + assert (S : sid k = sid x) by (apply wf; auto; apply H; now apply (in_map fst) in I). rewrite <- S. now apply (giv_last L).
    + destruct (giv_in sd (sid x) e) as [Q'|(k & u & I & S & Q')]; [congruence|]. exfalso. apply (Q k u I). apply wf; auto. apply H. now apply (in_map fst) in I.
Qed.
Definition Vof (U : list secret) (e : nat -> option Z) (i : nat) : option Z := if existsb (fun x => Nat.eqb (sid x) i) U then e i else None.
Lemma Vof_in U e x : In x U -> Vof U e (sid x) = e (sid x).
Proof. intros H. unfold Vof. replace (existsb _ U) with true; auto. symmetry. apply existsb_exists. exists x. split; auto. apply Nat.eqb_refl. Qed.
Lemma Vof_out U e i : (forall x, In x U -> sid x <> i) -> Vof U e i = None.
Proof.
  intros H. unfold Vof. destruct (existsb _ U) eqn:E; auto. apply existsb_exists in E as (x & Hx & E). apply Nat.eqb_eq in E. now apply H in E.
Qed.

Section S.
Variables U Kn : list secret.
Variable V : nat -> option Z.
Hypothesis wf : wfL (U ++ Kn).
(** a new statement is ready *)
Lemma wfU : wfL U.
Proof. eapply wfL_incl; [|exact wf]. intros x Hx. apply in_or_app. auto. Qed.
Lemma new_get e d x v : (forall k u, In (k, u) (dl_vals d) -> In k (dl_secs d) /\ e (sid k) = Some u) -> incl (dl_secs d) U ->
  In x (dl_secs d) -> dget e0 (dl_vals d) x = Some v -> e (sid x) = Some v.
Proof.
  intros A H Hx G. apply dget_in in G as (k & I & E). apply sec_eqb_iff in E as [E _]. apply A in I as [Hk I]. rewrite <- I. f_equal. apply wfU; auto.
Qed.
Lemma new_pre e sd s : newly e s -> inhabited s -> incl (public s) U -> incl (kints s) Kn -> incl (map fst sd) U ->
  (forall x v, In x U -> V (sid x) = Some v -> total sd e x v) -> Pre U Kn V sd s.
Proof.
  intros N I P K Hs T. induction s as [d|subs b IH|subs b ch IH|k b q|k b q con IH] using stmt_ind'; inversion N; inversion I; subst; cbn [public] in P.
  - constructor. split; [intros x Hx; apply in_or_app; left; auto|]. split; auto. split; [intros k v Hk; apply in_or_app; left; apply P; now apply (H0 k v)|].
    intros x v Hx E. destruct (T x v (P x Hx) E) as [(k & J & Q)|[Q J]]; [left; eauto|right].
    destruct (H1 x v Hx J) as (k & Hk & Nk). assert (M : dmem e0 (dl_vals d) x = true).
    { assert (M := dmem_in e0 (dl_vals d) k v Hk). unfold dmem in *. now rewrite <- (dget_cong e0 (dl_vals d) k x) by (apply sec_eqb_iff; auto). }
    unfold dmem in M. destruct (dget e0 (dl_vals d) x) as [u|] eqn:G; [|discriminate]. assert (G' := new_get e d x u H0 P Hx G). congruence.
  - constructor. rewrite Forall_forall in *. intros x Hx. apply IH; auto.
    + intros y Hy. apply P. apply in_concat. exists (public x). split; auto. now apply in_map.
    + intros y Hy. apply K. unfold kints in *. cbn [kinds]. apply in_concat in Hy as (l & Hl & Hy). apply in_concat. exists l. split; auto.
      apply in_map_iff in Hl as (k & <- & Hk). apply in_map. apply in_concat. exists (kinds x). split; auto. now apply in_map.
  - constructor. rewrite Forall_forall in *. intros x Hx. apply IH; auto.
    + intros y Hy. apply P. apply in_concat. exists (public x). split; auto. now apply in_map.
    + intros y Hy. apply K. unfold kints in *. cbn [kinds]. apply in_concat in Hy as (l & Hl & Hy). apply in_concat. exists l. split; auto.
      apply in_map_iff in Hl as (k & <- & Hk). apply in_map. apply in_concat. exists (kinds x). split; auto. now apply in_map.
  - constructor. split; auto. intros y Hy. apply K. unfold kints. cbn [kinds map List.concat]. now rewrite app_nil_r.
Qed.
(** what is recorded is the same in the end *)
Lemma new_canon e1 e2 s1 : forall s2, unvalued s1 = unvalued s2 -> newly e1 s1 -> newly e2 s2 -> incl (public s1) U ->
  (forall x, In x U -> V (sid x) = None -> e1 (sid x) = None /\ e2 (sid x) = None) -> rv (gT V) s1 = rv (gT V) s2.
Proof.
  assert (LL : forall subs subs', Forall (fun s1 => forall s2, unvalued s1 = unvalued s2 -> newly e1 s1 -> newly e2 s2 -> incl (public s1) U ->
      (forall x, In x U -> V (sid x) = None -> e1 (sid x) = None /\ e2 (sid x) = None) -> rv (gT V) s1 = rv (gT V) s2) subs ->
      map unvalued subs = map unvalued subs' -> Forall (newly e1) subs -> Forall (newly e2) subs' -> incl (List.concat (map public subs)) U ->
      (forall x, In x U -> V (sid x) = None -> e1 (sid x) = None /\ e2 (sid x) = None) -> map (rv (gT V)) subs = map (rv (gT V)) subs').
  { induction subs as [|x subs IH]; intros [|y subs'] F E N1 N2 P Z; try discriminate E; auto. cbn [map List.concat] in *. injection E as E E'.
    inversion F; inversion N1; inversion N2; subst. f_equal; [|apply IH; auto; intros z Hz; apply P; apply in_or_app; auto].
    apply H1; auto. intros z Hz. apply P. apply in_or_app. auto. }
  induction s1 as [d|subs b IH|subs b ch IH|k b q|k b q con IH] using stmt_ind'; intros [d'|subs' b'|subs' b' ch'|k' b' q' con'] E N1 N2 P Z; try discriminate E;
    inversion N1; inversion N2; subst; cbn [unvalued rv option_map] in *.
  - destruct d as [lhs bs ss vals sim], d' as [lhs' bs' ss' vals' sim']. unfold rvd. cbn [dl_lhs dl_bases dl_secs dl_vals dl_sim public] in *. injection E as -> -> -> ->. f_equal. f_equal.
    unfold gT. cbn [dl_secs]. apply canon_ext. intros x Hx. unfold cv. cbn [dl_vals]. destruct (V (sid x)) eqn:Q; auto. destruct (Z x (P x Hx) Q) as [Z1 Z2].
    destruct (dget e0 vals x) as [u|] eqn:G1.
    + assert (X := new_get e1 (mkDL lhs' bs' ss' vals sim') x u H0 P Hx G1). congruence.
    + destruct (dget e0 vals' x) as [u|] eqn:G2; auto. assert (X := new_get e2 (mkDL lhs' bs' ss' vals' sim') x u H3 P Hx G2). congruence.
  - injection E as E ->. f_equal. now apply LL.
  - injection E as E -> ->. f_equal. now apply LL.
  - injection E as -> -> ->. reflexivity.
Qed.
End S.

Theorem same_proof U s1 s2 sd1 sd2 e1 e2 msg a1 a2 : two_ways U s1 s2 sd1 sd2 e1 e2 -> env a1 = e1 -> env a2 = e2 -> tape a2 = tape a1 -> pos a2 = pos a1 ->
  outcome_of (prove s1 sd1 msg) a1 = outcome_of (prove s2 sd2 msg) a2.
Proof.
  intros [TS N1 N2 IH P WF DJ K1 K2 O1 O2 TT TO] E1 E2 ET EP. subst e1 e2. set (Kn := kints s1) in *.
  assert (wu : wfL U) by (eapply wfU; eauto).
  assert (EQ : forall i, giv sd1 (env a1) i = giv sd2 (env a2) i).
  { intros i. destruct (existsb (fun x => Nat.eqb (sid x) i) U) eqn:B.
    - apply existsb_exists in B as (x & Hx & B). apply Nat.eqb_eq in B. subst i. 
      assert (A1 := fun v => giv_total U sd1 (env a1) x v wu K1 O1 Hx). assert (A2 := fun v => giv_total U sd2 (env a2) x v wu K2 O2 Hx).
      destruct (giv sd1 (env a1) (sid x)) as [v|] eqn:G1.
      + symmetry. apply A2, TT, A1; auto.
      + destruct (giv sd2 (env a2) (sid x)) as [v|] eqn:G2; auto. assert (X : None = Some v) by (apply A1, TT, A2; auto). discriminate X.
    - assert (B' : forall x, In x U -> sid x <> i).
      { intros x Hx Q. assert (C : existsb (fun x => Nat.eqb (sid x) i) U = true); [|congruence]. apply existsb_exists. exists x. split; auto. now apply Nat.eqb_eq. }
      destruct (giv_in sd1 i (env a1)) as [->|(k & v & I & S & _)]; [|exfalso; apply (B' k); auto; apply K1; now apply (in_map fst) in I].
      destruct (giv_in sd2 i (env a2)) as [->|(k & v & I & S & _)]; [|exfalso; apply (B' k); auto; apply K2; now apply (in_map fst) in I]. now apply TO. }
  set (V := Vof U (giv sd1 (env a1))). set (a' := mkSt (giv sd1 (env a1)) (tape a1) (pos a1)).
  assert (VK : forall x, In x Kn -> V (sid x) = None). { intros x Hx. apply Vof_out. intros y Hy Q. symmetry in Q. revert Q. now apply DJ. }
  assert (G : ag U V a') by (intros x Hx; unfold V; now rewrite Vof_in).
  assert (S1 : SDok U V sd1). { intros k v I. assert (Hk : In k U) by (apply K1; now apply (in_map fst) in I). split; auto. unfold V. rewrite Vof_in by auto. now apply (giv_last U). }
  assert (S2 : SDok U V sd2). { intros k v I. assert (Hk : In k U) by (apply K2; now apply (in_map fst) in I). split; auto. unfold V. rewrite Vof_in, EQ by auto. now apply (giv_last U). }
  assert (T1 : forall x v, In x U -> V (sid x) = Some v -> total sd1 (env a1) x v). { intros x v Hx. unfold V. rewrite Vof_in by auto. now apply (giv_total U). }
  assert (T2 : forall x v, In x U -> V (sid x) = Some v -> total sd2 (env a2) x v). { intros x v Hx Q. apply TT; auto. }
  assert (PK : public s2 = public s1 /\ kints s2 = kints s1 /\ inhabited s2).
  { clear - TS IH. assert (X : forall s, public (unvalued s) = public s /\ kinds (unvalued s) = kinds s /\ (inhabited (unvalued s) <-> inhabited s)).
    { clear. induction s as [d|subs b IH|subs b ch IH|k b q|k b q con IH] using stmt_ind'; cbn [unvalued public kinds].
      - split; auto. split; auto. split; intros H; inversion H; constructor; auto.
      - rewrite !map_map. assert (E1 : map (fun x => public (unvalued x)) subs = map public subs) by (apply map_ext_in; rewrite Forall_forall in IH; intros x Hx; now apply IH).
        assert (E2 : map (fun x => kinds (unvalued x)) subs = map kinds subs) by (apply map_ext_in; rewrite Forall_forall in IH; intros x Hx; now apply IH).
        rewrite E1, E2. split; auto. split; auto. rewrite Forall_forall in IH. split; intros H; inversion H; subst; constructor; rewrite Forall_forall in *; intros x Hx.
        + apply IH; auto. apply H1. now apply in_map.
        + apply in_map_iff in Hx as (y & <- & Hy). apply IH; auto.
      - rewrite !map_map. assert (E1 : map (fun x => public (unvalued x)) subs = map public subs) by (apply map_ext_in; rewrite Forall_forall in IH; intros x Hx; now apply IH).
        assert (E2 : map (fun x => kinds (unvalued x)) subs = map kinds subs) by (apply map_ext_in; rewrite Forall_forall in IH; intros x Hx; now apply IH).
        rewrite E1, E2. split; auto. split; auto. rewrite Forall_forall in IH. split; intros H; inversion H; subst; constructor; rewrite Forall_forall in *; intros x Hx.
        + apply IH; auto. apply H1. now apply in_map.
        + apply in_map_iff in Hx as (y & <- & Hy). apply IH; auto.
      - split; auto. split; auto. split; intros; constructor.
      - split; auto. split; auto. split; intros; constructor. }
    destruct (X s1) as (A1 & B1 & C1), (X s2) as (A2 & B2 & C2). rewrite TS in *. unfold kints. rewrite <- A1, <- A2, <- B1, <- B2. split; auto. split; auto. tauto. }
  destruct PK as (PE & KE & IH2).
  assert (P1 : Pre U Kn V sd1 s1) by (eapply new_pre; eauto; intros x Hx; exact Hx).
  assert (P2 : Pre U Kn V sd2 s2) by (eapply new_pre; eauto; [now rewrite PE|rewrite KE; intros x Hx; exact Hx]).
  assert (C : rv (gT V) s1 = rv (gT V) s2).
  { apply (new_canon U Kn V WF (env a1) (env a2)); auto. intros x Hx Q. assert (Q1 := Q). unfold V in Q1. rewrite Vof_in in Q1 by auto. assert (Q2 := Q1). rewrite EQ in Q2.
    assert (Y : forall sd e, giv sd e (sid x) = None -> e (sid x) = None). { intros sd e Z. destruct (giv_in sd (sid x) e) as [Z'|(k & v & _ & _ & Z')]; congruence. }
    split; eapply Y; eauto. }
  assert (R2 : same (mkSt (giv sd2 (env a2)) (tape a2) (pos a2)) a') by (split; [intros i; cbn [env]; apply EQ|split; cbn; auto]).
  destruct (match s1 with SDL _ => true | _ => false end) eqn:D.
  - destruct s1 as [d1| | |]; try discriminate D. destruct s2 as [d2| | |]; try discriminate TS.
    assert (X : forall d sd a, te a a' -> SDok U V sd -> Inv U Kn V sd d -> outcome_of (prove (SDL d) sd msg) a = outcome_of (prove (rv (gT V) (SDL d)) [] msg) a').
    { intros d sd a Q S J. assert (J' := J). destruct J' as (J1 & J2 & J3 & _). assert (Y := eqt_dl (U ++ Kn) WF d sd msg J1 J3 (keyed_sd U Kn V sd S) a a' Q).
      rewrite <- (run_dl U Kn V WF VK DJ d sd msg a' a' S J (same_refl a') G). unfold outcome_of.
      destruct (prove (SDL d) sd msg a) as [[[z s'] b]|]; [|now rewrite Y]. destruct Y as (_ & b1 & -> & _). reflexivity. }
    inversion P1; inversion P2; subst. rewrite (X d1 sd1 a1), (X d2 sd2 a2); auto; [now rewrite C|split; auto|split; auto].
  - rewrite (run_tree U Kn V WF VK DJ s1 sd1 msg a1 a'); auto; [|destruct s1; auto; discriminate D|apply same_refl].
    rewrite (run_tree U Kn V WF VK DJ s2 sd2 msg a2 a'); auto; [now rewrite C|]. destruct s1, s2; auto; discriminate.
Qed.

Lemma dset_has e d (s : secret) (v : Z) : (forall k w, In (k, w) d -> e (sid k) = Some w) -> e (sid s) = Some v ->
  (exists k, In (k, v) (dset e d s v) /\ sname k = sname s) /\ (forall k w, In (k, w) d -> In (k, w) (dset e d s v)).
Proof.
  intros A E. induction d as [|[k0 w0] d IH]; cbn [dset].
  - split; [exists s; split; [now left|auto]|intros k w []].
  - destruct IH as [B C]; [intros k w H; apply A; now right|]. destruct (sec_eqb e k0 s) eqn:Q.
    + unfold sec_eqb in Q. apply Bool.andb_true_iff in Q as [Q1 Q2]. apply bytes_eqb_eq in Q1. assert (A0 := A k0 w0 (or_introl eq_refl)). rewrite A0, E in Q2.
      cbn in Q2. apply Z.eqb_eq in Q2. subst w0. split; [exists k0; split; [now left|auto]|intros k w H; exact H].
    + destruct B as (k & B & N). split; [exists k; split; [now right|auto]|]. intros k1 w1 [H|H]; [now left|right; now apply C].
Qed.
Lemma snapshot_has e ss : forall x v, In x ss -> e (sid x) = Some v -> exists k, In (k, v) (snapshot e ss) /\ sname k = sname x.
Proof.
  unfold snapshot. enough (G : forall d, (forall k w, In (k, w) d -> e (sid k) = Some w) ->
    let d' := fold_left (fun d s => match e (sid s) with Some v => dset e d s v | None => d end) ss d in
    (forall k w, In (k, w) d -> In (k, w) d') /\ forall x v, In x ss -> e (sid x) = Some v -> exists k, In (k, v) d' /\ sname k = sname x).
  { apply (G []). intros k w []. }
  induction ss as [|s ss IH]; intros d A; cbn [fold_left]; [split; auto; intros x v []|].
  destruct (e (sid s)) as [v|] eqn:E.
  - destruct (dset_has e d s v A E) as [(k & B & N) C]. assert (A' : forall k w, In (k, w) (dset e d s v) -> e (sid k) = Some w).
    { intros k1 w1 H. apply DictProofs.dset_in in H as [H|(-> & Q & H)]; [now apply A|]. destruct H as [->|[w' H]]; auto.
      apply sec_eqb_iff in Q as [_ Q]. rewrite <- E. exact Q. }
    destruct (IH _ A') as [X Y]. split; [intros; apply X; now apply C|]. intros x u [->|Hx] Q; [|now apply Y]. assert (u = v) by congruence. subst u. exists k. split; auto.
  - destruct (IH _ A) as [X Y]. split; auto. intros x u [->|Hx] Q; [congruence|now apply Y].
Qed.
Lemma new_dlrep lhs x b st d st' : mk_dlrep lhs x b st = Ok (d, st') -> newly (env st) (SDL d).
Proof.
  intros H. apply mk_dlrep_ok in H as (_ & -> & _). constructor; cbn [dl_secs dl_vals].
  - apply snapshot_in.
  - apply snapshot_has.
Qed.
Corollary same_proof' U s1 s2 sd1 sd2 msg a1 a2 : two_ways U s1 s2 sd1 sd2 (env a1) (env a2) -> tape a2 = tape a1 -> pos a2 = pos a1 ->
  match prove s1 sd1 msg a1 with
  | Ok ((z, _), _) => exists s' a', prove s2 sd2 msg a2 = Ok ((z, s'), a')
  | Err x => prove s2 sd2 msg a2 = Err x
  end.
Proof.
  intros T A B. assert (X := same_proof _ _ _ _ _ _ _ msg a1 a2 T eq_refl eq_refl A B). unfold outcome_of in X.
  destruct (prove s1 sd1 msg a1) as [[[z s'] b]|], (prove s2 sd2 msg a2) as [[[z2 s2'] b2]|]; try congruence. injection X as <-. eauto.
Qed.
End Two.

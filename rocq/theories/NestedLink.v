(** User-defined primitives in nested compositions: the primitives of the library are such classes. *)
From Coq Require Import String Lia.
From Verif Require Import Base World Val Expr Utils Stmt Prove Verify Lib Keeps Tree Commit Sigma History IdProofs3 Checks2 FailedProofs Custom CustomProofs Mixed MixedLink MixedOr MixedOrLink Nested NestedProofs.
Open Scope Z_scope.
Open Scope list_scope.

Section N.
Context {W : World}.

(** Statements that behave in the same way after the construction *)
Record same (x y : stmt) : Prop := mkSame {
  sa_vars : get_secret_vars x = get_secret_vars y;
  sa_bases : get_bases x = get_bases y;
  sa_reoc : forall e f, validate_reoccurence e x f = validate_reoccurence e y f;
  sa_id : forall m, get_proof_id x m = get_proof_id y m;
  sa_recompute : forall c r, recompute x c r = recompute y c r;
  sa_consistent : forall e v r rd, consistent e x v r rd = consistent e y v r rd;
  sa_commit : forall p rd a, internal_commit y p rd a = internal_commit x p rd a;
  sa_respond : forall p c a, compute_response y p c a = compute_response x p c a;
  sa_simulate : forall rd c a, simulate_proof y rd c a = simulate_proof x rd c a }.

Lemma same_refl s : same s s.
Proof. now constructor. Qed.
Lemma same_ext k k' b b' p c : class_name k = class_name k' -> same (SExt k b p c) (SExt k' b' p c).
Proof.
  intros E. constructor; try reflexivity. intros m. destruct c; try reflexivity. cbn [get_proof_id]. now rewrite E.
Qed.
Lemma F2_at {A} (R : A -> A -> Prop) l l' i : Forall2 R l l' -> match nth_error l i, nth_error l' i with Some x, Some y => R x y | None, None => True | _, _ => False end.
Proof. intros F. revert i. induction F as [|x y m m' XY G IH]; intros [|i]; cbn; auto; apply IH. Qed.

Section L.
Context (l l' : list stmt) (F : Forall2 same l l') (b : bool) (ch : option nat).
Let A := SAnd l b.
Let A' := SAnd l' b.
Let O := SOr l b ch.
Let O' := SOr l' b ch.
Lemma l_vars : rmap get_secret_vars l = rmap get_secret_vars l'.
Proof. apply (rmap_F2 _ _ same); auto. apply sa_vars. Qed.
Lemma l_bases : rmap get_bases l = rmap get_bases l'.
Proof. apply (rmap_F2 _ _ same); auto. apply sa_bases. Qed.
Lemma a_vars : get_secret_vars A = get_secret_vars A'. Proof. unfold A, A'. cbn [get_secret_vars]. now rewrite l_vars. Qed.
Lemma a_bases : get_bases A = get_bases A'. Proof. unfold A, A'. cbn [get_bases]. now rewrite l_bases. Qed.
Lemma o_vars : get_secret_vars O = get_secret_vars O'. Proof. unfold O, O'. cbn [get_secret_vars]. now rewrite l_vars. Qed.
Lemma o_bases : get_bases O = get_bases O'. Proof. unfold O, O'. cbn [get_bases]. now rewrite l_bases. Qed.
Lemma a_reoc e f : validate_reoccurence e A f = validate_reoccurence e A' f.
Proof.
  assert (V := a_vars). unfold A, A' in *. cbn [validate_reoccurence]. fold (get_secret_vars (SAnd l b)) (get_secret_vars (SAnd l' b)). rewrite V.
  destruct f as [f|]; [|destruct (get_secret_vars (SAnd l' b)) as [f|]; [|reflexivity]]; cbn [rbind];
    (rewrite (rmap_F2 (fun p => validate_reoccurence e p (Some f)) (fun p => validate_reoccurence e p (Some f)) same l l'); [reflexivity| |exact F]); intros x y H; apply H.
Qed.
Lemma o_reoc e f : validate_reoccurence e O f = validate_reoccurence e O' f.
Proof.
  assert (V := o_vars). unfold O, O' in *. cbn [validate_reoccurence]. fold (get_secret_vars (SOr l b ch)) (get_secret_vars (SOr l' b ch)). now rewrite V.
Qed.
Lemma a_id m : get_proof_id A m = get_proof_id A' m.
Proof.
  assert (V := a_vars). assert (B := a_bases). unfold A, A' in *. cbn [get_proof_id].
  fold (get_secret_vars (SAnd l' b)) (get_bases (SAnd l' b)) (get_secret_vars (SAnd l b)) (get_bases (SAnd l b)). rewrite V, B. clear V B.
  destruct m as [m|]; [|destruct (get_secret_vars _); [|reflexivity]; cbn [rbind]; destruct (get_bases _); [|reflexivity]]; cbn [rbind];
    (erewrite <- (rmap_F2 _ _ same l l'); [reflexivity| |exact F]); intros x y H; apply H.
Qed.
Lemma o_id m : get_proof_id O m = get_proof_id O' m.
Proof.
  assert (V := o_vars). assert (B := o_bases). unfold O, O' in *. cbn [get_proof_id].
  fold (get_secret_vars (SOr l' b ch)) (get_bases (SOr l' b ch)) (get_secret_vars (SOr l b ch)) (get_bases (SOr l b ch)). rewrite V, B. clear V B.
  destruct m as [m|]; [|destruct (get_secret_vars _); [|reflexivity]; cbn [rbind]; destruct (get_bases _); [|reflexivity]]; cbn [rbind];
    (erewrite <- (rmap_F2 _ _ same l l'); [reflexivity| |exact F]); intros x y H; apply H.
Qed.
Lemma a_recompute c r : recompute A c r = recompute A' c r.
Proof.
  unfold A, A'. cbn [recompute]. rewrite (rimap_F2 (fun i s => let? ri := index r i in recompute s c ri) same l l' 0); [reflexivity| |exact F].
  intros i x y H. destruct (index r i); [|reflexivity]. cbn [rbind]. apply H.
Qed.
Lemma o_recompute c r : recompute O c r = recompute O' c r.
Proof.
  unfold O, O'. cbn [recompute]. destruct (index r 0) as [cs|]; [|reflexivity]. cbn [rbind]. destruct (index r 1) as [rs|]; [|reflexivity]. cbn [rbind].
  match goal with |- context [rimap ?f 0 l] => rewrite (rimap_F2 f same l l' 0); [reflexivity| |exact F] end.
  intros i x y H. destruct (index cs i) as [ci|]; [|reflexivity]. cbn [rbind]. destruct (index rs i) as [ri|]; [|destruct ci; reflexivity]. cbn [rbind].
  destruct (as_int ci); [|reflexivity]. cbn [rbind]. apply H.
Qed.
Lemma a_consistent e v r rd : consistent e A v r rd = consistent e A' v r rd.
Proof.
  unfold A, A'. destruct v as [|vs| |]; try reflexivity. cbn [consistent]. generalize 0%nat as i. revert vs rd. clear A A' O O'.
  induction F as [|x y m m' XY G IH]; intros vs rd i; [reflexivity|]. destruct vs as [|v vs]; [reflexivity|].
  destruct (index r i) as [ri|]; [|reflexivity]. cbn [rbind]. rewrite (sa_consistent _ _ XY e v ri rd).
  destruct (consistent e y v ri rd) as [[rd'|]|]; cbn [rbind]; auto.
Qed.
Lemma o_consistent e v r rd : consistent e O v r rd = consistent e O' v r rd.
Proof.
  unfold O, O'. destruct v as [| |vs|]; try reflexivity. cbn [consistent]. generalize 0%nat at 2 4 as i. revert vs. clear A A' O O'.
  induction F as [|x y m m' XY G IH]; intros vs i; [reflexivity|]. destruct vs as [|v vs]; [reflexivity|].
  destruct (index r 1) as [rs|]; [|reflexivity]. cbn [rbind]. destruct (index rs i) as [ri|]; [|reflexivity]. cbn [rbind]. rewrite (sa_consistent _ _ XY e v ri []).
  destruct (consistent e y v ri []) as [[rd'|]|]; cbn [rbind]; auto.
Qed.
Lemma a_rand rd a : update_randomizers (randomizers_and A') (get_secret_vars A') rd a = update_randomizers (randomizers_and A) (get_secret_vars A) rd a.
Proof. unfold update_randomizers, randomizers_and. now rewrite a_vars, a_bases. Qed.
Lemma a_commit p rd a : internal_commit A' p rd a = internal_commit A p rd a.
Proof.
  assert (V := a_vars). assert (B := a_bases). assert (R := a_reoc). assert (RR := a_rand). unfold A, A' in *. destruct p as [|ps| |]; try reflexivity. rewrite !internal_commit_and. apply bind_ext; auto. intros e a1.
  assert (VA : validate_and e (SAnd l' b) = validate_and e (SAnd l b)).
  { unfold validate_and, validate_group_orders. now rewrite V, B, R. }
  rewrite VA. apply bind_ext; auto. intros _ a2. apply bind_ext; auto.
  intros rd' a3. apply bind_ext; auto. intros a4. apply zipM_ext. eapply Forall2_impl; [|exact F]. intros x y H p a5. apply H.
Qed.
Lemma a_respond p c a : compute_response A' p c a = compute_response A p c a.
Proof.
  unfold A, A'. destruct p as [|ps| |]; try reflexivity. cbn [compute_response]. apply bind_ext; auto. intros a1. apply zipM_ext.
  eapply Forall2_impl; [|exact F]. intros x y H p a5. apply H.
Qed.
Lemma o_commit p rd a : internal_commit O' p rd a = internal_commit O p rd a.
Proof.
  assert (V := o_vars). assert (B := o_bases). unfold O, O' in *. destruct p as [| |i sp sims|]; try reflexivity. rewrite !internal_commit_or. apply bind_ext; auto. intros e a1.
  assert (VA : validate_or e (SOr l' b ch) = validate_or e (SOr l b ch)) by (unfold validate_or, validate_group_orders; now rewrite V, B).
  rewrite VA. apply bind_ext; auto. intros _ a2. apply bind_ext; auto. intros a3. rewrite !sel_loop_eq. assert (N := F2_at _ _ _ i F).
  destruct (nth_error l i), (nth_error l' i); try contradiction; auto. apply N.
Qed.
Lemma o_respond p c a : compute_response O' p c a = compute_response O p c a.
Proof.
  unfold O, O'. destruct p as [| |i sp sims|]; try reflexivity. rewrite !compute_response_or. cbv zeta. apply bind_ext; auto. intros a3. rewrite !sel_loop_eq. assert (N := F2_at _ _ _ i F).
  destruct (nth_error l i), (nth_error l' i); try contradiction; auto. apply N.
Qed.
Lemma a_simulate rd c a : simulate_proof A' rd c a = simulate_proof A rd c a.
Proof.
  assert (R := a_rand). unfold A, A' in *. cbn [simulate_proof]. apply bind_ext; auto. intros rd' a1. apply bind_ext; auto. intros c' a2. apply bind_ext; auto. clear - F.
  induction F as [|x y m m' XY G IH]; intros a; [reflexivity|]. cbn [mapM]. apply bind_ext; [intros; apply XY|]. intros t a1. apply bind_ext; auto.
Qed.
Lemma o_simulate rd c a : simulate_proof O' rd c a = simulate_proof O rd c a.
Proof.
  unfold O, O'. rewrite !simulate_or. apply bind_ext; auto. intros c' a1. apply bind_ext; auto. clear - F. generalize (@nil Z) as chals.
  induction F as [|x y m m' XY G IH]; intros chals a; [reflexivity|]. cbn [sim_or_loop]. destruct G as [|x' y' m m' XY' G].
  - apply bind_ext; auto. intros; apply XY.
  - apply bind_ext; [intros; apply XY|]. intros t a1. apply bind_ext; auto.
Qed.
Lemma same_and : same A A'.
Proof. constructor; [exact a_vars|exact a_bases|exact a_reoc|exact a_id|exact a_recompute|exact a_consistent|exact a_commit|exact a_respond|exact a_simulate]. Qed.
Lemma same_or : same O O'.
Proof. constructor; [exact o_vars|exact o_bases|exact o_reoc|exact o_id|exact o_recompute|exact o_consistent|exact o_commit|exact o_respond|exact o_simulate]. Qed.
End L.

(** ** Trees *)
Inductive gt : mtree -> stmt -> stmt -> Prop :=
| GtK k b b' q c : gt (TK (class_of k) b) (SExt (KCustom (class_name k) []) b' q c) (SExt k b' q c)
| GtS s0 s : gt (TS s0) s s
| GtA l b ss ss' b' : Forall3 gt l ss ss' -> gt (TA l b) (SAnd ss b') (SAnd ss' b')
| GtO l b ss ss' b' ch : Forall3 gt l ss ss' -> gt (TO l b) (SOr ss b' ch) (SOr ss' b' ch).
Lemma gt_same t : forall s s', gt t s s' -> same s s'.
Proof.
  assert (G : forall l, Forall (fun t => forall s s', gt t s s' -> same s s') l -> forall ss ss', Forall3 gt l ss ss' -> Forall2 same ss ss').
  { intros l IH ss ss' F. induction F; inversion IH; subst; constructor; auto. }
  induction t as [K b|s0|l b IH|l b IH] using mtree_ind'; intros s s' H; inversion H; subst.
  - now apply same_ext.
  - apply same_refl.
  - apply same_and; eauto.
  - apply same_or; eauto.
Qed.
Lemma gt_marks t s s' : gt t s s' -> simulated s = simulated s'.
Proof. destruct 1; reflexivity. Qed.
Lemma gt_start t : forall s, tlib t s -> gt t (tshell t) s.
Proof.
  induction t as [K b|s0|l b IH|l b IH] using mtree_ind'; intros s H; inversion H as [| |? ? ? F|? ? ? F]; subst; cbn [tshell].
  - unfold obj_of. cbn [set_simulated class_of c_name]. constructor.
  - constructor.
  - constructor. clear H. induction F; inversion IH; subst; constructor; auto.
  - constructor. clear H. induction F; inversion IH; subst; constructor; auto.
Qed.
Lemma tlib_verifier t : forall s, tlib t s -> get_verifier (tshell t) = get_verifier s.
Proof.
  induction t as [K b|s0|l b IH|l b IH] using mtree_ind'; intros s H; inversion H as [| |? ? ? F|? ? ? F]; subst; try reflexivity;
    cbn [tshell get_verifier]; f_equal; clear H; induction F; inversion IH; subst; cbn [map]; f_equal; auto.
Qed.
Lemma gt_valid t : forall s s', gt t s s' -> tvalid t s = full_validate s'.
Proof.
  assert (G : forall l, Forall (fun t => forall s s', gt t s s' -> tvalid t s = full_validate s') l -> forall ss ss', Forall3 gt l ss ss' ->
    vzip tvalid l ss = let? _ := rmap full_validate ss' in Ok tt).
  { intros l IH ss ss' F. induction F as [|t0 s s' l ss ss' H F IHF]; [reflexivity|]. inversion IH as [|? ? H1 H2]; subst. cbn [vzip rmap]. rewrite (H1 _ _ H).
    destruct (full_validate s') as [[]|]; [|reflexivity]. cbn [rbind]. rewrite (IHF H2). destruct (rmap _ ss'); reflexivity. }
  induction t as [K b|s0|l b IH|l b IH] using mtree_ind'; intros s s' H; inversion H; subst; cbn [tvalid full_validate]; auto.
Qed.

Lemma zip_linked {A B C D} (R : A -> B -> C -> Prop) (Q : A -> D -> D -> Prop) (f : A -> B -> M D) (g : C -> M D) l :
  Forall (fun t => forall s s' a, R t s s' -> rres (Q t) (f t s a) (g s' a)) l -> forall ss ss' a, Forall3 R l ss ss' ->
  rres (Forall3 Q l) (zipM f l ss a) (mapM g ss' a).
Proof.
  intros IH ss ss' a F. revert a. induction F as [|t s s' l ss ss' H F IHF]; intros a; [apply rres_ret; constructor|]. inversion IH as [|? ? H1 H2]; subst. cbn [zipM mapM].
  eapply rres_bind; [now apply H1|]. intros x y a1 XY. eapply rres_bind; [now apply IHF|]. intros xs ys a2 F2. apply rres_ret. now constructor.
Qed.
Lemma tprep_linked t : forall s s' a, gt t s s' -> rres (gt t) (tprep t s a) (prepare_sim s' a).
Proof.
  induction t as [K b|s0|l b IH|l b IH] using mtree_ind'; intros s s' a H; inversion H; subst; cbn [tprep prepare_sim].
  - cbn [class_of c_sim c_con]. unfold full_construct. apply (rres_bind eq); [now apply rres_same|]. intros pre ? a1 <-.
    apply (rres_bind eq); [now apply rres_same|]. intros c1 ? a2 <-. apply rres_ret. unfold obj_of. cbn [set_simulated]. constructor.
  - unfold rres. destruct (prepare_sim s' a) as [[x a1]|]; auto. split; auto. constructor.
  - eapply rres_bind; [eapply zip_linked; eauto|]. intros x y a1 F. apply rres_ret. now constructor.
  - eapply rres_bind; [eapply zip_linked; eauto|]. intros x y a1 F. apply rres_ret. now constructor.
Qed.
Lemma tsetup_linked idx l : forall ss ss' i a, Forall3 gt l ss ss' ->
  rres (fun x y => snd x = snd y /\ Forall3 gt l (fst x) (fst y)) (tsetup idx i l ss a) (setup_loop idx i ss' a).
Proof.
  induction l as [|t l IH]; intros ss ss' i a G; inversion G as [|? s s' ? st st' G1 G2]; subst; cbn [tsetup setup_loop].
  - apply rres_ret. split; auto.
  - destruct (Nat.eqb i idx).
    + eapply rres_bind; [apply IH; eauto|]. intros [x1 x2] [y1 y2] b [E H]. cbn [fst snd] in *. subst. apply rres_ret. split; auto. cbn [fst]. now constructor.
    + eapply rres_bind; [apply tprep_linked; eauto|]. intros x y a1 XY. apply (rres_bind eq); [apply rres_same; symmetry; apply (gt_same _ _ _ XY)|]. intros q ? a2 <-.
      eapply rres_bind; [apply IH; eauto|]. intros [x1 x2] [y1 y2] b [E H]. cbn [fst snd] in *. subst. apply rres_ret. split; auto. cbn [fst]. now constructor.
Qed.
(** The provers of objects are new *)
Inductive pk : mtree -> prover -> Prop :=
| PkK K b sv : pk (TK K b) (PExt sv None)
| PkS s p : pk (TS s) p
| PkA l b ps : Forall2 pk l ps -> pk (TA l b) (PAnd ps)
| PkO l b i p sims : (forall t, nth_error l i = Some t -> pk t p) -> pk (TO l b) (POr i p sims).
Definition gl2 (t : mtree) (x y : option prover * stmt) : Prop := fst x = fst y /\ gt t (snd x) (snd y) /\ forall p, fst x = Some p -> pk t p.
Lemma F3_at l ss ss' : Forall3 gt l ss ss' -> forall i, match nth_error l i, nth_error ss i, nth_error ss' i with
  | Some u, Some s, Some s' => gt u s s' | None, None, None => True | _, _, _ => False end.
Proof. induction 1 as [|u s s' l ss ss' G H IH]; intros [|i]; cbn; auto. apply IH. Qed.
Lemma F3_replace l ss ss' : Forall3 gt l ss ss' -> forall i u s s', nth_error l i = Some u -> gt u s s' -> Forall3 gt l (replace i s ss) (replace i s' ss').
Proof.
  induction 1 as [|x y y' l ss ss' G H IH]; intros [|i] u s s' N D; cbn [replace nth_error] in *; try constructor; auto; try discriminate N.
  - injection N as ->. auto.
  - eapply IH; eauto.
Qed.
Lemma tcands_linked l ss : map (fun t => simulated (tshell t)) l = map simulated ss -> tcands l =
  map fst (filter (fun p : nat * stmt => negb (simulated (snd p))) (combine (seq 0 (List.length ss)) ss)).
Proof.
  intros E. unfold tcands. assert (L : List.length l = List.length ss) by (apply (f_equal (@List.length _)) in E; now rewrite !map_length in E).
  rewrite L. clear L. generalize 0%nat. revert ss E. induction l as [|t l IH]; intros [|s ss] E n; try discriminate E; [reflexivity|].
  cbn [map snd] in E. injection E as E1 E. specialize (IH ss E (S n)). cbn [List.length seq combine filter snd map]. rewrite <- E1. destruct (simulated (tshell t)); cbn [negb map fst]; [exact IH|]. f_equal. exact IH.
Qed.
Definition pgl2 (l : list mtree) (x y : option (nat * prover) * list stmt) : Prop :=
  fst x = fst y /\ Forall3 gt l (snd x) (snd y) /\ forall i p t, fst x = Some (i, p) -> nth_error l i = Some t -> pk t p.
Lemma tloop_linked sd l subs : Forall2 (fun t s => forall a, rres (gl2 t) (tget t sd a) (get_prover s sd a)) l subs -> forall fuel possible ss ss' a, Forall3 gt l ss ss' ->
  rres (pgl2 l) (or_loop fuel (map (fun t => tget t sd) l) possible ss a) (or_loop fuel (map (fun s => get_prover s sd) subs) possible ss' a).
Proof.
  intros G0. induction fuel as [|fuel IH]; intros possible ss ss' a G; cbn [or_loop].
  - apply rres_ret. split; auto. split; auto. discriminate.
  - apply (rres_bind eq); [now apply rres_same|]. intros z ? b <-. destruct (nth_error possible _) as [i|]; [|apply rres_raise].
    rewrite !nth_error_map. assert (N : match nth_error l i, nth_error subs i with Some t, Some s => forall a, rres (gl2 t) (tget t sd a) (get_prover s sd a) | None, None => True | _, _ => False end).
    { clear - G0. revert i. induction G0 as [|x y m m' XY G IH]; intros [|i]; cbn; auto; apply IH. }
    destruct (nth_error l i) as [t|] eqn:Nt, (nth_error subs i) as [s|] eqn:Ns; try contradiction; [|apply rres_raise]. cbn [option_map].
    eapply rres_bind; [apply N|]. intros [o x] [o' x'] b1 (E & D & P). cbn [fst snd] in *. subst o'. assert (G' := F3_replace _ _ _ G i t x x' Nt D). destruct o as [p|].
    + apply rres_ret. split; auto. split; auto. intros j q t' [= <- <-] N'. rewrite Nt in N'. injection N' as <-. eauto.
    + destruct (empty_dict _); [apply rres_ret; split; auto; split; auto; discriminate|]. now apply IH.
Qed.
Lemma tget_linked sd t : forall s a, tlib t s -> rres (gl2 t) (tget t sd a) (get_prover s sd a).
Proof.
  induction t as [K b|s0|l b IH|l b IH] using mtree_ind'; intros s a H; assert (GS := gt_start _ _ H); inversion H as [| |? ? subs F|? ? subs F]; subst.
  - cbn [tget tshell]. unfold obj_of. cbn [set_simulated get_prover]. apply (rres_bind eq); [now apply rres_same|]. intros [] ? a1 _.
    apply (rres_bind eq); [now apply rres_same|]. intros e ? a2 <-. apply rres_ret. split; auto. split; [constructor|]. cbn [fst]. intros p [= <-]. constructor.
  - cbn [tget tshell]. unfold rres. destruct (get_prover s sd a) as [[x a1]|] eqn:E; [|reflexivity]. split; auto. split; auto. split; [constructor|]. constructor.
  - cbn [tget get_prover]. apply (rres_bind eq); [now apply rres_same|]. intros [] ? a1 _. destruct b.
    { apply rres_ret. split; auto. split; [exact GS|discriminate]. }
    eapply (rres_bind (fun r r' => map fst r = map fst r' /\ Forall3 gt l (map snd r) (map snd r') /\ Forall2 (fun t o => forall p, o = Some p -> pk t p) l (map fst r))).
    { clear H GS. revert a1. induction F as [|t s l subs H F IHF]; intros a1; [apply rres_ret; repeat split; constructor|]. inversion IH as [|? ? H1 H2]; subst. cbn [mapM].
      eapply rres_bind; [apply H1, H|]. intros x0 y0 a2 (E & G & P). eapply rres_bind; [apply (IHF H2)|]. intros xs ys a3 (E' & G' & P'). apply rres_ret. cbn [map]. repeat split; [congruence| |]; constructor; auto. }
    intros r r' a2 (E & G & P). rewrite !forallb_fst, E, <- forallb_fst. destruct (forallb _ r') eqn:FB; [|apply rres_raise].
    rewrite (flat_fst (fun o => match o with Some p => [p] | None => [] end) r), E, <- flat_fst. apply rres_ret. split; auto. split; [now constructor|]. cbn [fst]. intros p [= <-]. constructor.
    rewrite forallb_fst in FB. rewrite (flat_fst (fun o => match o with Some p => [p] | None => [] end) r'), <- E. rewrite <- E in FB. clear - FB P. induction P as [|t o l m X P IHP]; [constructor|]. cbn [forallb] in FB. apply andb_prop in FB as [F1 F2].
    destruct o as [p|]; [|discriminate F1]. cbn [flat_map app]. constructor; auto.
  - cbn [tget get_prover]. apply (rres_bind eq); [now apply rres_same|]. intros [] ? a1 _. destruct b.
    { apply rres_ret. split; auto. split; [exact GS|discriminate]. }
    assert (GL : Forall3 gt l (map tshell l) subs) by (now inversion GS). cbv zeta.
    rewrite <- (tcands_linked l subs). 2:{ clear - GL. remember (map tshell l) as ss eqn:E. revert E. induction GL as [|t s s' l ss ss' G GL IHG]; [reflexivity|]. cbn [map]. intros [= -> E]. rewrite <- (gt_marks _ _ _ G), IHG; auto. }
    destruct (empty_dict _).
    { apply rres_ret. split; auto. split; [exact GS|discriminate]. }
    eapply rres_bind; [apply tloop_linked; [|exact GL]|].
    { clear - F IH. induction F; inversion IH; subst; constructor; auto. }
    intros [r x] [r' y1] b1 (E1 & G1 & PX). cbn [fst snd] in *. subst r'. destruct r as [[i p]|].
    + rewrite setup_simulations_eq. eapply rres_bind; [apply tsetup_linked; eauto|]. intros [x1 x2] [y3 y2] b2 [E2 G2]. cbn [fst snd] in *. subst y2.
      apply rres_ret. split; auto. split; [now constructor|]. cbn [fst]. intros q [= <-]. constructor. eauto.
    + apply rres_ret. split; auto. split; [now constructor|]. discriminate.
Qed.
Definition pl2 (t : mtree) (x y : val * prover * stmt) : Prop := fst x = fst y /\ gt t (snd x) (snd y).
Lemma tpre_linked t : forall s s' p a, gt t s s' -> pk t p -> rres (pl2 t) (tpre t s p a) (precommit s' p a).
Proof.
  induction t as [K b|s0|l b IH|l b IH] using mtree_ind'; intros s s' p a G P; inversion G as [k ? b' q c| |? ? ss ss' b' F|? ? ss ss' b' ch F]; subst; inversion P as [? ? sv| |? ? ps FP|? ? i sp sims FP]; subst.
  - cbn [tpre precommit class_of c_pre c_con]. unfold bind, rres.
    destruct (kprecommit k a) as [[pre a1]|]; [|reflexivity]. destruct (construct k pre a1) as [[c1 a2]|] eqn:C; [|reflexivity].
    destruct (get_prover c1 sv a2) as [[[o c'] a3]|] eqn:GP; [|reflexivity]. cbn [fst snd]. rewrite inner_same.
    2:{ intros p ->. apply construct_noext in C. exact (get_prover_fit c1 C _ _ _ _ GP p eq_refl). }
    unfold ret. cbn [fst snd]. split; auto. split; auto. unfold obj_of. cbn [snd set_simulated]. constructor.
  - cbn [tpre]. unfold rres. destruct s'; cbn [tpre]; destruct (precommit _ p a) as [[x a1]|]; auto; split; auto; split; auto; constructor.
  - cbn [tpre precommit]. eapply (rres_bind (Forall3 pl2 l)).
    + clear G P. revert ps FP a. induction F as [|t s s' l ss ss' H F IHF]; intros ps FP a; inversion FP as [|? p ? ps' P1 P2]; subst; [apply rres_ret; constructor|].
      inversion IH as [|? ? H1 H2]; subst. cbn [zip3 zipM]. eapply rres_bind; [apply H1; eauto|]. intros x y a1 XY. eapply rres_bind; [apply IHF; eauto|]. intros xs ys a2 F2. apply rres_ret. now constructor.
    + intros x y a1 FX. assert (Q : map fst x = map fst y /\ Forall3 gt l (map snd x) (map snd y)).
      { clear - FX. induction FX as [|? ? ? ? ? ? [E H] FX [I1 I2]]; [split; constructor|]. cbn [map]. split; [congruence|]. constructor; auto. }
      destruct Q as [Q1 Q2]. apply rres_ret. rewrite <- !(map_map fst fst), <- !(map_map fst snd), Q1. split; auto. now constructor.
  - cbn [tpre]. rewrite precommit_or. eapply (rres_bind (fun x y => fst x = fst y /\ Forall3 gt l (snd x) (snd y))).
    + clear G P. revert i FP. induction F as [|t s s' l ss ss' H F IHF]; intros [|i] FP; cbn [at_nth or_pre_loop]; try apply rres_raise; inversion IH as [|? ? H1 H2]; subst.
      * eapply rres_bind; [apply H1; [exact H|apply FP; reflexivity]|]. intros x y a1 [E D]. apply rres_ret. cbn [fst snd]. split; auto. now constructor.
      * eapply rres_bind; [apply (IHF H2 i); exact FP|]. intros x y a1 [E D]. apply rres_ret. cbn [fst snd]. split; auto. now constructor.
    + intros [x1 x2] [y1 y2] a1 [E D]. cbn [fst snd] in *. subst y1. apply rres_ret. split; auto. cbn [snd]. now constructor.
Qed.
Lemma topen_linked t s sd a : tlib t s -> rres (pl2 t) (topen t sd a) (bind (get_prover s sd) (fun r => match r with (Some p, s) => precommit s p | (None, _) => raise EAttributeErr end) a).
Proof.
  intros H. unfold topen. eapply rres_bind; [apply tget_linked; eauto|]. intros [o x] [o' y] a1 (E & G & P). cbn [fst snd] in *. subst o'. destruct o as [p|]; [|apply rres_raise].
  apply tpre_linked; auto.
Qed.
Lemma same_prehash x y : same x y -> prehash_input x = prehash_input y.
Proof. intros H. unfold prehash_input. now rewrite (sa_id _ _ H). Qed.
Theorem tlink_prove t s sd msg a : tlib t s -> tprove t sd msg a = match prove s sd msg a with Ok ((z, _), a') => Ok (z, a') | Err e => Err e end.
Proof.
  intros H. assert (L := topen_linked t s sd a H). unfold tprove, prove. unfold rres, bind in L.
  destruct (get_prover s sd a) as [[[[p|] s1] a1]|e1] eqn:GP; cbn in L.
  - destruct (topen t sd a) as [[[[v q] x] a2]|e] eqn:TO; destruct (precommit s1 p a1) as [[[[v' q'] y] a2']|e'] eqn:PC; try contradiction.
    + destruct L as (<- & E & G). cbn [fst snd] in E, G. injection E as <- <-. apply gt_same in G. unfold get_nizk_proof, bind. rewrite GP, PC, TO.
      rewrite <- (sa_commit _ _ G), (same_prehash _ _ G). destruct (internal_commit _ _ _ _) as [[[com p1] a3]|]; [|reflexivity].
      unfold lift. destruct (prehash_input _) as [h|]; [|reflexivity]. unfold ret. destruct (fs_challenge _ _ _) as [ch|]; [|reflexivity].
      rewrite <- (sa_respond _ _ G). destruct (compute_response _ _ _ _) as [[r a4]|]; reflexivity.
    + subst. unfold get_nizk_proof, bind. now rewrite GP, PC, TO.
  - destruct (topen t sd a) as [[? ?]|e] eqn:TO; [contradiction|]. subst. unfold bind. now rewrite GP, TO.
  - destruct (topen t sd a) as [[? ?]|e] eqn:TO; [contradiction|]. subst. unfold bind. now rewrite GP, TO.
Qed.

(** ** verify() *)
Definition vl2 (t : mtree) (x y : verifier * stmt) : Prop := fst x = fst y /\ gt t (snd x) (snd y).
Lemma tproc_linked t : forall s pre a, tlib t s -> rres (vl2 t) (tproc t pre a) (process_pre s (get_verifier s) pre a).
Proof.
  assert (G : forall l, Forall (fun t => forall s pre a, tlib t s -> rres (vl2 t) (tproc t pre a) (process_pre s (get_verifier s) pre a)) l -> forall subs pre, Forall2 tlib l subs ->
    forall i a, rres (Forall3 vl2 l) (tloop tproc pre i l a) (pp_loop process_pre pre i subs (map get_verifier subs) a)).
  { intros l IH subs pre F. induction F as [|t0 s l subs H F IHF]; intros i a; [apply rres_ret; constructor|]. inversion IH as [|? ? H1 H2]; subst. cbn [tloop map pp_loop].
    apply (rres_bind eq); [now apply rres_same|]. intros p ? a1 <-. eapply rres_bind; [apply H1; eauto|]. intros x y a2 XY. eapply rres_bind; [apply (IHF H2)|]. intros xs ys a3 F2. apply rres_ret. now constructor. }
  assert (Q : forall l x y, Forall3 vl2 l x y -> map fst x = map fst y /\ Forall3 gt l (map snd x) (map snd y)).
  { induction 1 as [|? ? ? ? ? ? [E H] FX [I1 I2]]; [split; constructor|]. cbn [map]. split; [congruence|]. constructor; auto. }
  induction t as [K b|s0|l b IH|l b IH] using mtree_ind'; intros s pre a H; assert (GS := gt_start _ _ H); assert (GV := tlib_verifier _ _ H); inversion H as [| |? ? subs F|? ? subs F]; subst.
  - cbn [tproc get_verifier process_pre class_of c_con]. unfold full_construct. eapply (rres_bind eq); [now apply rres_same|]. intros c ? a1 <-. apply rres_ret. split; auto.
    unfold obj_of. cbn [snd set_simulated]. constructor.
  - cbn [tproc]. unfold rres. destruct (process_pre s _ pre a) as [[x a1]|]; auto. split; auto. split; auto. constructor.
  - cbn [tproc get_verifier]. rewrite process_pre_and. destruct (is_none pre); [apply rres_ret; split; [exact GV|exact GS]|].
    eapply rres_bind; [apply G; eauto|]. intros x y a1 FX. destruct (Q _ _ _ FX) as [Q1 Q2]. apply rres_ret. rewrite Q1. split; auto. now constructor.
  - cbn [tproc get_verifier]. rewrite process_pre_or. destruct (is_none pre); [apply rres_ret; split; [exact GV|exact GS]|].
    eapply rres_bind; [apply G; eauto|]. intros x y a1 FX. destruct (Q _ _ _ FX) as [Q1 Q2]. apply rres_ret. rewrite Q1. split; auto. now constructor.
Qed.
Lemma tpre_valid_linked e t v x y r : gt t x y -> tpre_validation e t x v r = pre_validation e y v r.
Proof. intros G. unfold tpre_validation, pre_validation. rewrite (gt_valid _ _ _ G), (sa_consistent _ _ (gt_same _ _ _ G)). reflexivity. Qed.
Theorem tlink_verify t s z msg a : tlib t s -> tverify t z msg a = match verify s z msg a with Ok ((r, _), a') => Ok (r, a') | Err e => Err e end.
Proof.
  intros H. unfold tverify, verify, verify_nizk, bind.
  assert (L : rres (vl2 t) ((if is_none (n_pre z) then ret (get_verifier (tshell t), tshell t) else tproc t (n_pre z)) a)
    ((if is_none (n_pre z) then ret (get_verifier s, s) else process_pre s (get_verifier s) (n_pre z)) a)).
  { destruct (is_none (n_pre z)); [apply rres_ret; split; [now apply tlib_verifier|now apply gt_start]|now apply tproc_linked]. }
  unfold rres in L.
  destruct ((if is_none (n_pre z) then ret (get_verifier (tshell t), tshell t) else tproc t (n_pre z)) a) as [[[v x] a1]|e],
    ((if is_none (n_pre z) then ret (get_verifier s, s) else process_pre s (get_verifier s) (n_pre z)) a) as [[[v' y] a1']|e']; try contradiction; [|now subst].
  destruct L as (<- & E & G). cbn [fst snd] in E, G. subst v'. assert (SS := gt_same _ _ _ G). unfold lift, check_statement. rewrite (same_prehash _ _ SS).
  destruct (prehash_input _) as [h|]; cbn [rbind]; [|reflexivity]. destruct (val_eqb _ _); [|reflexivity]. unfold get_env. rewrite (tpre_valid_linked _ _ _ _ _ _ G), (sa_recompute _ _ SS).
  destruct (pre_validation _ _ _ _) as [[]|]; [|reflexivity]. destruct (recompute _ _ _) as [com|]; [|reflexivity]. destruct (fs_challenge _ _ _); reflexivity.
Qed.
Theorem tlink_run t s sd tv sv a : tlib t s -> tlib tv sv ->
  trun t sd tv a = bind (get_prover s sd) (fun r => match r with (Some p, s) => run_interactive s p sv | (None, _) => raise EAttributeErr end) a.
Proof.
  intros H HV. assert (L := topen_linked t s sd a H). unfold trun. unfold rres, bind in L.
  destruct (get_prover s sd a) as [[[[p|] s1] a1]|e1] eqn:GP; cbn in L.
  - destruct (topen t sd a) as [[[[v q] x] a2]|e] eqn:TO; destruct (precommit s1 p a1) as [[[[v' q'] y] a2']|e'] eqn:PC; try contradiction.
    + destruct L as (<- & E & G). cbn [fst snd] in E, G. injection E as <- <-. apply gt_same in G. unfold run_interactive, bind. rewrite GP, PC, TO.
      assert (LV := tproc_linked tv sv v a2 HV). unfold rres in LV.
      destruct (tproc tv v a2) as [[[vv xv] a3]|e], (process_pre sv _ v a2) as [[[vv' yv] a3']|e']; try contradiction; [|now subst]. destruct LV as (<- & E & GV). cbn [fst snd] in E, GV. subst vv'.
      assert (SV := gt_same _ _ _ GV). unfold commit, bind, lift, stmt_digest. rewrite (same_prehash _ _ G). destruct (prehash_input y) as [h|]; [|reflexivity]. cbn [rbind]. unfold ret.
      rewrite <- (sa_commit _ _ G). destruct (internal_commit _ _ _ _) as [[[com p1] a4]|]; [|reflexivity].
      unfold send_challenge, bind, lift, check_statement. rewrite (same_prehash _ _ SV). destruct (let? h0 := prehash_input yv in _) as [?|]; [|reflexivity].
      match goal with |- context [match ?m with Ok _ => _ | Err _ => _ end] => destruct m as [[c a5]|]; [|reflexivity] end.
      rewrite <- (sa_respond _ _ G). destruct (compute_response _ _ _ _) as [[r a6]|]; [|reflexivity]. unfold get_env.
      unfold tverify_resp, verify_resp. now rewrite (tpre_valid_linked _ _ _ _ _ _ GV), (sa_recompute _ _ SV).
    + subst. unfold run_interactive, bind. now rewrite GP, PC, TO.
  - destruct (topen t sd a) as [[? ?]|e] eqn:TO; [contradiction|]. subst. unfold bind. now rewrite GP, TO.
  - destruct (topen t sd a) as [[? ?]|e] eqn:TO; [contradiction|]. subst. unfold bind. now rewrite GP, TO.
Qed.
End N.

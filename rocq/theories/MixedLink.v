(** Conjunctions with primitives defined by users: the primitives of the library are such classes. *)
From Coq Require Import String Lia.
From Verif Require Import Base World Val Expr Utils Stmt Prove Verify Lib Keeps Tree History IdProofs3 Checks2 FailedProofs Custom CustomProofs Mixed.
Open Scope Z_scope.
Open Scope list_scope.

Section M.
Context {W : World}.

(** Statements that differ in the kind and the flag of primitives. *)
Inductive alk : stmt -> stmt -> Prop :=
| AkS s : alk s s
| AkExt k k' b b' p c : class_name k = class_name k' -> alk (SExt k b p c) (SExt k' b' p c).

Lemma rmap_F2 {A B} (f g : A -> res B) (R : A -> A -> Prop) l l' : (forall x y, R x y -> f x = g y) -> Forall2 R l l' -> rmap f l = rmap g l'.
Proof. intros H. induction 1 as [|x y l l' XY F IH]; [reflexivity|]. cbn [rmap]. now rewrite (H x y XY), IH. Qed.
Lemma rimap_F2 {A B} (f : nat -> A -> res B) (R : A -> A -> Prop) l l' i : (forall i x y, R x y -> f i x = f i y) -> Forall2 R l l' -> rimap f i l = rimap f i l'.
Proof. intros H F. revert i. induction F as [|x y l l' XY F IH]; intros i; [reflexivity|]. cbn [rimap]. now rewrite (H i x y XY), IH. Qed.
Lemma alk_vars x y : alk x y -> get_secret_vars x = get_secret_vars y. Proof. now destruct 1. Qed.
Lemma alk_bases x y : alk x y -> get_bases x = get_bases y. Proof. now destruct 1. Qed.
Lemma alk_reoc e f x y : alk x y -> validate_reoccurence e x f = validate_reoccurence e y f. Proof. now destruct 1. Qed.
Lemma alk_id m x y : alk x y -> get_proof_id x m = get_proof_id y m.
Proof. destruct 1 as [|? ? ? ? ? [c|] E]; try reflexivity. cbn [get_proof_id]. now rewrite E. Qed.
Lemma alk_recompute c r x y : alk x y -> recompute x c r = recompute y c r. Proof. now destruct 1. Qed.
Lemma alk_consistent e v r rd x y : alk x y -> consistent e x v r rd = consistent e y v r rd. Proof. now destruct 1. Qed.
Lemma alk_commit rd x y : alk x y -> forall p a, internal_commit y p rd a = internal_commit x p rd a. Proof. now destruct 1. Qed.
Lemma alk_respond c x y : alk x y -> forall p a, compute_response y p c a = compute_response x p c a. Proof. now destruct 1. Qed.

Section L.
Context (l l' : list stmt) (F : Forall2 alk l l').
Lemma and_vars b : get_secret_vars (SAnd l' b) = get_secret_vars (SAnd l b).
Proof. cbn [get_secret_vars]. now rewrite (rmap_F2 get_secret_vars get_secret_vars alk l l' alk_vars F). Qed.
Lemma and_bases b : get_bases (SAnd l' b) = get_bases (SAnd l b).
Proof. cbn [get_bases]. now rewrite (rmap_F2 get_bases get_bases alk l l' alk_bases F). Qed.
Lemma and_prehash b : prehash_input (SAnd l' b) = prehash_input (SAnd l b).
Proof.
  unfold prehash_input. cbn [get_proof_id]. fold (get_secret_vars (SAnd l' b)) (get_bases (SAnd l' b)) (get_secret_vars (SAnd l b)) (get_bases (SAnd l b)).
  rewrite and_vars, and_bases. destruct (get_secret_vars _); [|reflexivity]. cbn [rbind]. destruct (get_bases _); [|reflexivity]. cbn [rbind].
  erewrite <- (rmap_F2 _ _ alk l l'); [reflexivity| |exact F]. intros x y. apply alk_id.
Qed.
Lemma and_commit b p rd a : internal_commit (SAnd l' b) p rd a = internal_commit (SAnd l b) p rd a.
Proof.
  destruct p as [|ps| |]; try reflexivity. cbn [internal_commit]. apply bind_ext; auto. intros e a1.
  assert (V : validate_and e (SAnd l' b) = validate_and e (SAnd l b)).
  { unfold validate_and, validate_group_orders. rewrite and_bases, and_vars. cbn [validate_reoccurence].
    fold (get_secret_vars (SAnd l' b)) (get_secret_vars (SAnd l b)). rewrite and_vars.
    destruct (get_bases _); [|reflexivity]. cbn [rbind]. destruct (get_secret_vars _) as [l1|]; [|reflexivity]. cbn [rbind].
    erewrite <- (rmap_F2 (fun p => validate_reoccurence e p (Some l1)) _ alk l l'); [reflexivity| |exact F]. intros x y. apply alk_reoc. }
  rewrite V. apply bind_ext; auto. intros _ a2. apply bind_ext.
  - intros a3. unfold update_randomizers, randomizers_and. rewrite and_vars, and_bases. reflexivity.
  - intros rd' a3. apply bind_ext; auto. intros a4. apply zipM_ext. eapply Forall2_impl; [|exact F]. intros x y A p a5. now apply alk_commit.
Qed.
Lemma and_respond b p c a : compute_response (SAnd l' b) p c a = compute_response (SAnd l b) p c a.
Proof.
  destruct p as [|ps| |]; try reflexivity. cbn [compute_response]. apply bind_ext; auto. intros a1. apply zipM_ext.
  eapply Forall2_impl; [|exact F]. intros x y A p a5. now apply alk_respond.
Qed.
Lemma and_recompute b c r : recompute (SAnd l' b) c r = recompute (SAnd l b) c r.
Proof. 
  cbn [recompute]. rewrite (rimap_F2 (fun i s => let? ri := index r i in recompute s c ri) alk l l' 0); [reflexivity| |exact F].
  intros i x y A. destruct (index r i); [|reflexivity]. cbn [rbind]. now apply alk_recompute.
Qed.
Lemma and_consistent e b v r rd : consistent e (SAnd l' b) v r rd = consistent e (SAnd l b) v r rd.
Proof.
  destruct v as [|vs| |]; try reflexivity. cbn [consistent]. generalize 0%nat as i. revert vs rd.
  induction F as [|x y m m' XY G IH]; intros vs rd i; [reflexivity|]. destruct vs as [|v vs]; [reflexivity|].
  destruct (index r i) as [ri|]; [|reflexivity]. cbn [rbind]. rewrite (alk_consistent e v ri rd x y XY).
  destruct (consistent e y v ri rd) as [[rd'|]|]; cbn [rbind]; auto.
Qed.
End L.

(** ** prove() *)
(** After get_prover. *)
Definition gone (u : upart) (o : option prover) (s s' : stmt) : Prop :=
  match u with
  | UK K => exists k b q con sv, K = class_of k /\ s' = SExt k b q con /\ o = Some (PExt sv None)
  | US _ => s = s'
  end.
Inductive gones : list upart -> list (option prover * stmt) -> list (option prover * stmt) -> Prop :=
| GoNil : gones [] [] []
| GoCons u l o s s' r r' : gone u o s s' -> gones l r r' -> gones (u :: l) ((o, s) :: r) ((o, s') :: r').
Lemma get_linked sd l subs : Forall2 libpart l subs -> forall a,
  match mapM (fun s => get_prover s sd) (map shell l) a, mapM (fun s => get_prover s sd) subs a with
  | Ok (r, a1), Ok (r', a1') => a1 = a1' /\ gones l r r'
  | Err e, Err e' => e = e'
  | _, _ => False
  end.
Proof.
  induction 1 as [|u s l subs P F IH]; intros a; [cbn; split; [reflexivity|constructor]|]. cbn [map mapM].
  destruct P as [k b|s].
  - unfold shell, obj_of. cbn [get_prover]. unfold bind, update_secret_values, get_env, ret.
    match goal with |- context [mapM _ (map _ l) ?a] => specialize (IH a) end. unfold bind, update_secret_values, get_env, ret in IH.
    destruct (mapM _ (map _ l) _) as [[r a1]|e], (mapM _ subs _) as [[r' a1']|e']; try contradiction; [|exact IH].
    destruct IH as [-> G]. split; auto. constructor; auto. repeat eexists.
  - unfold bind. cbn [shell]. destruct (get_prover s sd a) as [[[o s'] a1]|]; [|reflexivity]. specialize (IH a1).
    destruct (mapM _ (map _ l) _) as [[r a2]|e], (mapM _ subs _) as [[r' a2']|e']; try contradiction; [|exact IH].
    destruct IH as [-> G]. split; auto. constructor; auto. reflexivity.
Qed.
Lemma gones_fst l r r' : gones l r r' -> map fst r = map fst r'.
Proof. induction 1; cbn; congruence. Qed.
Lemma forallb_fst {A B} (f : A -> bool) (r : list (A * B)) : forallb (fun x => f (fst x)) r = forallb f (map fst r).
Proof. induction r as [|[]]; cbn; congruence. Qed.
Lemma flat_fst {A B C} (f : A -> list C) (r : list (A * B)) : flat_map (fun x => f (fst x)) r = flat_map f (map fst r).
Proof. induction r as [|[]]; cbn; congruence. Qed.
Definition alks (t t' : list (val * prover * stmt)) : Prop := map fst t = map fst t' /\ Forall2 alk (map snd t) (map snd t').
Lemma pre_linked l r r' : gones l r r' -> forallb (fun r => is_some (fst r)) r' = true -> forall a,
  match upre l (map snd r) (flat_map (fun r => match fst r with Some p => [p] | None => [] end) r') a,
        zipM precommit (map snd r') (flat_map (fun r => match fst r with Some p => [p] | None => [] end) r') a with
  | Ok (t, a1), Ok (t', a1') => a1 = a1' /\ alks t t'
  | Err e, Err e' => e = e'
  | _, _ => False
  end.
Proof.
  induction 1 as [|u l o s s' r r' G GS IH]; intros A a; [cbn; split; [reflexivity|split; constructor]|]. cbn [forallb fst] in A.
  apply andb_prop in A as [A1 A2]. destruct o as [p|]; [|discriminate A1]. specialize (IH A2). cbn [map snd flat_map fst app upre zipM].
  destruct u as [K|s0]; cbn [gone] in G.
  - destruct G as (k & b & q & con & sv & -> & -> & [= ->]). cbn [upre1 precommit class_of c_pre c_con]. unfold bind.
    destruct (kprecommit k a) as [[pre a1]|]; [|reflexivity]. destruct (construct k pre a1) as [[c a2]|] eqn:C; [|reflexivity].
    destruct (get_prover c sv a2) as [[[o c'] a3]|] eqn:G; [|reflexivity]. cbn [fst snd]. rewrite inner_same.
    2:{ intros p ->. apply construct_noext in C. exact (get_prover_fit c C _ _ _ _ G p eq_refl). }
    unfold ret. cbn [fst snd]. specialize (IH a3).
    destruct (upre l _ _ _) as [[t a4]|e], (zipM _ _ _ _) as [[t' a4']|e']; try contradiction; [|exact IH].
    destruct IH as (-> & I1 & I2). split; auto. split; cbn [map fst snd]; [congruence|]. constructor; auto. unfold obj_of. constructor. reflexivity.
  - subst s'. cbn [upre1]. unfold bind. destruct (precommit s p a) as [[x a1]|]; [|reflexivity]. specialize (IH a1).
    destruct (upre l _ _ _) as [[t a4]|e], (zipM _ _ _ _) as [[t' a4']|e']; try contradiction; [|exact IH].
    destruct IH as (-> & I1 & I2). split; auto. split; cbn [map fst snd]; [congruence|]. constructor; auto. constructor.
Qed.
Theorem ulink_prove l subs sd msg a : Forall2 libpart l subs ->
  uprove l sd msg a = match prove (SAnd subs false) sd msg a with Ok ((z, _), a') => Ok (z, a') | Err e => Err e end.
Proof.
  intros F. unfold uprove, uopen, uget, prove. cbn [get_prover]. unfold bind. destruct (update_secret_values sd a) as [[[] a0]|]; [|reflexivity].
  assert (G := get_linked sd l subs F a0).
  destruct (mapM _ (map shell l) a0) as [[r a1]|e], (mapM _ subs a0) as [[r' a1']|e']; try contradiction; [|now subst].
  destruct G as [<- G]. rewrite !forallb_fst, (gones_fst _ _ _ G), <- forallb_fst. destruct (forallb _ r') eqn:FB; [|reflexivity].
  unfold ret at 1. rewrite (flat_fst (fun o => match o with Some p => [p] | None => [] end) r), (gones_fst _ _ _ G), <- flat_fst.
  unfold get_nizk_proof. unfold ret. cbn [precommit]. unfold bind. assert (P := pre_linked _ _ _ G FB a1).
  destruct (upre l _ _ a1) as [[t a2]|e], (zipM precommit _ _ a1) as [[t' a2']|e']; try contradiction; [|now subst].
  destruct P as [<- [P1 P2]]. unfold ret.
  assert (Q1 : map (fun r => fst (fst r)) t = map (fun r => fst (fst r)) t') by (rewrite <- !(map_map fst fst); congruence).
  assert (Q2 : map (fun r => snd (fst r)) t = map (fun r => snd (fst r)) t') by (rewrite <- !(map_map fst snd); congruence).
  unfold pre_list. rewrite Q1, Q2, <- (and_commit _ _ P2), <- (and_prehash _ _ P2).
  destruct (internal_commit _ _ _ _) as [[[com p] a3]|]; [|reflexivity]. unfold lift. destruct (prehash_input _) as [h|]; [|reflexivity]. unfold ret.
  destruct (fs_challenge _ _ _) as [c|]; [|reflexivity]. rewrite <- (and_respond _ _ P2). destruct (compute_response _ _ _ _) as [[x a4]|]; reflexivity.
Qed.

(** ** verify() *)
Lemma proc_linked l subs pre : Forall2 libpart l subs -> forall i a,
  match uproc i l pre a, pp_loop process_pre pre i subs (map get_verifier subs) a with
  | Ok (t, a1), Ok (t', a1') => a1 = a1' /\ map fst t = map fst t' /\ Forall2 alk (map snd t) (map snd t') /\
      rmap uvalid1 (combine l (map snd t)) = rmap full_validate (map snd t')
  | Err e, Err e' => e = e'
  | _, _ => False
  end.
Proof.
  induction 1 as [|u s l subs P F IH]; intros i a; [cbn; repeat split; constructor|]. cbn [uproc map pp_loop]. unfold bind, lift.
  destruct (index pre i) as [p|]; [|reflexivity]. destruct P as [k b|s].
  - cbn [uproc1 get_verifier process_pre class_of c_con]. unfold bind. destruct (construct k p a) as [[c a1]|]; [|reflexivity]. unfold ret.
    specialize (IH (S i) a1).
    destruct (uproc (S i) l pre a1) as [[t a2]|e], (pp_loop _ _ (S i) subs _ a1) as [[t' a2']|e']; try contradiction; [|exact IH].
    destruct IH as (-> & I1 & I2 & I3). cbn [map fst snd combine rmap uvalid1 full_validate obj_of class_of c_val]. repeat split.
    + congruence.
    + constructor; auto. constructor. reflexivity.
    + unfold obj_of. cbn [full_validate]. destruct (kvalidate k p); [|reflexivity]. cbn [rbind]. now rewrite I3.
  - cbn [uproc1]. unfold bind. destruct (process_pre s _ p a) as [[[v s'] a1]|]; [|reflexivity]. specialize (IH (S i) a1).
    destruct (uproc (S i) l pre a1) as [[t a2]|e], (pp_loop _ _ (S i) subs _ a1) as [[t' a2']|e']; try contradiction; [|exact IH].
    destruct IH as (-> & I1 & I2 & I3). cbn [map fst snd combine rmap]. repeat split.
    + cbn [map fst]. congruence.
    + constructor; auto. constructor.
    + cbn [map snd combine rmap uvalid1]. destruct (full_validate s'); [|reflexivity]. cbn [rbind]. now rewrite I3.
Qed.
Lemma shell_linked l subs : Forall2 libpart l subs -> Forall2 alk (map shell l) subs /\ map get_verifier (map shell l) = map get_verifier subs /\
  rmap uvalid1 (combine l (map shell l)) = rmap full_validate subs.
Proof.
  induction 1 as [|u s l subs P F (IH1 & IH2 & IH3)]; cbn [map combine rmap]; [repeat split; constructor|]. destruct P as [k b|s].
  - split; [constructor; auto; unfold shell, obj_of; now constructor|]. split; [unfold shell at 1, obj_of; cbn [get_verifier]; congruence|].
    unfold shell at 1, obj_of. cbn [uvalid1 full_validate class_of c_val]. destruct (kvalidate k VNone); [|reflexivity]. cbn [rbind]. now rewrite IH3.
  - split; [constructor; auto; constructor|]. split; [cbn [shell]; congruence|].
    change (uvalid1 (US s, shell (US s))) with (full_validate s). destruct (full_validate s); [|reflexivity]. cbn [rbind]. now rewrite IH3.
Qed.
Theorem ulink_verify l subs z msg a : Forall2 libpart l subs ->
  uverify l z msg a = match verify (SAnd subs false) z msg a with Ok ((r, _), a') => Ok (r, a') | Err e => Err e end.
Proof.
  intros F. assert (H : match uprocess l (n_pre z) a, (if is_none (n_pre z) then ret (get_verifier (SAnd subs false), SAnd subs false)
      else process_pre (SAnd subs false) (get_verifier (SAnd subs false)) (n_pre z)) a with
    | Ok (r, a1), Ok (r', a1') => a1 = a1' /\ fst r = fst r' /\ exists m m', snd r = SAnd m false /\ snd r' = SAnd m' false /\ Forall2 alk m m' /\
        uvalidate l (SAnd m false) = full_validate (SAnd m' false)
    | Err e, Err e' => e = e'
    | _, _ => False end).
  { unfold uprocess. destruct (is_none (n_pre z)) eqn:EN.
    - destruct (shell_linked l subs F) as (A & B & C). unfold ret. split; auto. split; [cbn [fst get_verifier]; congruence|].
      exists (map shell l), subs. do 3 (split; auto). unfold uvalidate. cbn [full_validate]. rewrite C. reflexivity.
    - cbn [get_verifier]. rewrite process_pre_and, EN. unfold bind. assert (P := proc_linked l subs (n_pre z) F 0 a).
      destruct (uproc 0 l _ a) as [[t a2]|e], (pp_loop _ _ 0 subs _ a) as [[t' a2']|e']; try contradiction; [|exact P].
      destruct P as (-> & I1 & I2 & I3). unfold ret. split; auto. split; [cbn [fst]; congruence|].
      exists (map snd t), (map snd t'). do 3 (split; auto). unfold uvalidate. cbn [full_validate]. rewrite I3. reflexivity. }
  unfold uverify, verify, verify_nizk. unfold bind.
  destruct (uprocess l (n_pre z) a) as [[[v s] a1]|e], ((if is_none (n_pre z) then ret (get_verifier (SAnd subs false), SAnd subs false)
      else process_pre (SAnd subs false) (get_verifier (SAnd subs false)) (n_pre z)) a) as [[[v' s'] a1']|e']; try contradiction; [|now subst].
  destruct H as (<- & EV & m & m' & E1 & E2 & A & V). cbn [fst snd] in EV, E1, E2. subst v' s s'. unfold lift, check_statement.
  rewrite (and_prehash _ _ A). destruct (prehash_input _) as [h|]; cbn [rbind]; [|reflexivity]. destruct (val_eqb _ _); [|reflexivity]. unfold get_env.
  unfold upre_validation, pre_validation. rewrite V, (and_consistent _ _ A), (and_recompute _ _ A).
  destruct (full_validate _) as [[]|]; cbn [rbind]; [|reflexivity]. destruct (consistent _ _ _ _ _) as [[rd|]|]; cbn [rbind]; try reflexivity.
  destruct (recompute _ _ _) as [com|]; [|reflexivity]. destruct (fs_challenge _ _ _); reflexivity.
Qed.
End M.

(** Failed calls of get_prover(). *)
From Verif Require Import Base World Val Expr Utils Stmt Prove Spec Shapes Runs Lib DictProofs Keeps Failed.
Open Scope Z_scope.
Open Scope list_scope.

Section F.
Context {W : World}.

(** ** [attempt] is [get_prover] with the object left by an exception *)
Definition as_m (l : leaves (option prover)) : res (option prover * stmt * st) :=
  match l with (Ok o, s, a) => Ok ((o, s), a) | (Err e, _, _) => Err e end.

Lemma update_ok sd a : exists a1, update_secret_values sd a = Ok (tt, a1).
Proof. unfold update_secret_values. eauto. Qed.

Lemma try_all_mapM sd l : Forall (fun s => forall a, get_prover s sd a = as_m (attempt s sd a)) l -> forall a,
  mapM (fun s => get_prover s sd) l a =
  match try_all (fun x => attempt x sd) l a with (Ok os, l', a') => Ok (combine os l', a') | (Err e, _, _) => Err e end /\
  forall os l' a', try_all (fun x => attempt x sd) l a = (Ok os, l', a') -> List.length os = List.length l'.
Proof.
  induction 1 as [|x l Hx F IH]; intros a.
  - split; [reflexivity|]. cbn [try_all]. intros os l' a' [= <- <- _]. reflexivity.
  - cbn [mapM try_all]. unfold bind at 1. rewrite Hx. destruct (attempt x sd a) as [[[o|e] x'] a1]; cbn [as_m].
    + destruct (IH a1) as [E L]. unfold bind. rewrite E.
      destruct (try_all _ l a1) as [[[os|e] l'] a2]; cbn [ret combine]; unfold ret.
      * split; [reflexivity|]. intros os' l2 a' [= <- <- <-]. cbn [List.length]. f_equal. now apply (L os l' a2).
      * split; [reflexivity|discriminate].
    + split; [reflexivity|discriminate].
Qed.

Lemma try_one_loop sd (subs0 : list stmt) : Forall (fun s => forall a, get_prover s sd a = as_m (attempt s sd a)) subs0 ->
  forall fuel possible subs a,
  or_loop fuel (map (fun s => get_prover s sd) subs0) possible subs a =
  match try_one fuel (map (fun x => attempt x sd) subs0) possible subs a with
  | (Ok o, _, l, a') => Ok ((o, l), a') | (Err e, _, _, _) => Err e end /\
  forall i p c l a', try_one fuel (map (fun x => attempt x sd) subs0) possible subs a = (Ok (Some (i, p)), c, l, a') -> c = Some i.
Proof.
  intros F fuel. induction fuel as [|fuel IH]; intros possible subs a; cbn [or_loop try_one].
  - split; [reflexivity|discriminate].
  - unfold bind at 1. destruct (draw (len possible) a) as [[r a1]|e]; [|split; [reflexivity|discriminate]].
    destruct (nth_error possible (Z.to_nat r)) as [i|]; [|split; [reflexivity|discriminate]].
    rewrite !nth_error_map. destruct (nth_error subs0 i) as [x|] eqn:N; cbn [option_map]; [|split; [reflexivity|discriminate]].
    assert (Hx : forall a, get_prover x sd a = as_m (attempt x sd a)).
    { rewrite Forall_forall in F. apply F. eapply nth_error_In, N. }
    unfold bind at 1. rewrite Hx. destruct (attempt x sd a1) as [[[[p|]|e] x'] a2]; cbn [as_m fst snd].
    + split; [reflexivity|]. intros j q c l a' [= <- _ <- _ _]. reflexivity.
    + cbv zeta. destruct (empty_dict (remove Nat.eq_dec i possible)); [split; [reflexivity|discriminate]|]. apply IH.
    + split; [reflexivity|discriminate].
Qed.

Lemma attempt_get_prover s sd : forall a, get_prover s sd a = as_m (attempt s sd a).
Proof.
  induction s as [d|subs b IH|subs b ch IH|k b q|k b q con IH] using stmt_ind'; intros a.
  - cbn [get_prover attempt]. unfold bind. destruct (get_prover_dl d sd a) as [[[o d'] a']|e]; reflexivity.
  - cbn [get_prover attempt]. unfold bind at 1. destruct (update_ok sd a) as [a1 ->]. destruct b; [reflexivity|].
    destruct (try_all_mapM sd subs IH a1) as [E L]. unfold bind. rewrite E.
    destruct (try_all _ subs a1) as [[[os|e] l'] a2]; cbn [as_m]; [|reflexivity].
    specialize (L os l' a2 eq_refl).
    assert (X : forallb (fun r : option prover * stmt => is_some (fst r)) (combine os l') = forallb is_some os /\
      flat_map (fun r : option prover * stmt => match fst r with Some p => [p] | None => [] end) (combine os l') =
      flat_map (fun o => match o with Some p => [p] | None => [] end) os /\ map snd (combine os l') = l').
    { clear - L. revert l' L. induction os as [|o os IH]; intros [|y l'] L; try discriminate L; [now repeat split|].
      injection L as L. destruct (IH l' L) as (A & B & C). cbn [combine forallb flat_map map fst snd]. rewrite A, B, C. auto. }
    destruct X as (-> & -> & ->). destruct (forallb is_some os); reflexivity.
  - cbn [get_prover attempt]. unfold bind at 1. destruct (update_ok sd a) as [a1 ->]. destruct b; [reflexivity|]. cbv zeta.
    destruct (empty_dict _); [reflexivity|].
    match goal with |- bind (or_loop ?f _ ?p ?s) _ _ = _ => destruct (try_one_loop sd subs IH f p s a1) as [E C] end.
    unfold bind at 1. rewrite E. destruct (try_one _ _ _ subs a1) as [[[[[[i p]|]|e] c] l] a2]; cbn [as_m fst snd]; try reflexivity.
    unfold bind. destruct (setup_simulations i l a2) as [[[l' sims] a3]|e]; reflexivity.
  - cbn [attempt]. destruct (get_prover _ sd a) as [[[o s'] a']|e]; reflexivity.
  - cbn [attempt]. destruct (get_prover _ sd a) as [[[o s'] a']|e]; reflexivity.
Qed.

(** ** Values given to Secret objects *)
Definition giv (sd : dict Z) (e : nat -> option Z) : nat -> option Z :=
  fold_left (fun e (kv : secret * Z) => upd e (sid (fst kv)) (Some (snd kv))) sd e.
Lemma giv_cases sd i : (forall e, giv sd e i = e i) \/ (exists v, forall e, giv sd e i = v).
Proof.
  unfold giv. induction sd as [|[k v] sd IH]; [now left|]. cbn [fold_left fst snd].
  destruct IH as [IH|[v' IH]]; [|right; exists v'; intros e; apply IH].
  destruct (Nat.eqb i (sid k)) eqn:E.
  - right. exists (Some v). intros e. rewrite IH. unfold upd. now rewrite E.
  - left. intros e. rewrite IH. unfold upd. now rewrite E.
Qed.
Definition peq (e e' : nat -> option Z) : Prop := forall i, e i = e' i.
Definition stable (sd : dict Z) (e : nat -> option Z) : Prop := peq (giv sd e) e.
Lemma giv_stable sd e : stable sd (giv sd e).
Proof. intros i. destruct (giv_cases sd i) as [H|[v H]]; rewrite H; [auto|now rewrite H]. Qed.
Lemma stable_peq sd e e' : peq e e' -> stable sd e -> stable sd e'.
Proof. intros P S i. destruct (giv_cases sd i) as [H|[v H]]; rewrite H; auto. rewrite <- P, <- S. now rewrite H. Qed.
Lemma peq_trans e1 e2 e3 : peq e1 e2 -> peq e2 e3 -> peq e1 e3.
Proof. intros A B i. now rewrite A. Qed.

Lemma sec_eqb_peq e e' s t : peq e e' -> sec_eqb e s t = sec_eqb e' s t.
Proof. intros P. unfold sec_eqb. now rewrite !P. Qed.
Lemma dget_peq {A} e e' (d : dict A) x : peq e e' -> dget e d x = dget e' d x.
Proof. intros P. induction d as [|[k v] d IH]; [reflexivity|]. cbn [dget]. rewrite (sec_eqb_peq e e'), IH by auto. reflexivity. Qed.

(** what was captured before does not matter for a secret that is given *)
Lemma dupdate_given e (sd : dict Z) x : (exists k v, In (k, v) sd /\ sec_eqb e k x = true) -> forall d d',
  dget e (dupdate e d sd) x = dget e (dupdate e d' sd) x /\ exists v, dget e (dupdate e d sd) x = Some v.
Proof.
  unfold dupdate. intros H d d'.
  assert (K : forall d d', (dget e d x = dget e d' x /\ (exists v, dget e d x = Some v)) \/
              (exists k v, In (k, v) sd /\ sec_eqb e k x = true) ->
    dget e (fold_left (fun d kv => dset e d (fst kv) (snd kv)) sd d) x = dget e (fold_left (fun d kv => dset e d (fst kv) (snd kv)) sd d') x /\
    exists v, dget e (fold_left (fun d kv => dset e d (fst kv) (snd kv)) sd d) x = Some v); [|apply K; now right].
  clear H d d'. induction sd as [|[k v] sd IH]; intros d d' H.
  - cbn [fold_left]. destruct H as [H|(k & v & [] & _)]. exact H.
  - cbn [fold_left fst snd]. apply IH. destruct (sec_eqb e k x) eqn:E.
    + left. rewrite !dget_dset_same by auto. eauto.
    + rewrite !dget_dset_other by auto. destruct H as [H|(k' & v' & [I|I] & E')]; [now left| |right; eauto].
      injection I as -> ->. congruence.
Qed.

(** ** Statements that differ in marks and captured values only *)
Inductive samedl : stmt -> stmt -> Prop :=
| SdDL d d' : dl_lhs d' = dl_lhs d -> dl_bases d' = dl_bases d -> dl_secs d' = dl_secs d -> samedl (SDL d) (SDL d')
| SdAnd subs subs' b : Forall2 samedl subs subs' -> samedl (SAnd subs b) (SAnd subs' b).
Lemma conj_ind (P : stmt -> Prop) : (forall d, P (SDL d)) ->
  (forall subs b, Forall conjunctive subs -> Forall P subs -> P (SAnd subs b)) -> forall s, conjunctive s -> P s.
Proof.
  intros H1 H2. induction s as [d|subs b IH|subs b ch IH|k b q|k b q con IH] using stmt_ind'; intros C; inversion C; subst; auto.
  apply H2; auto. rewrite Forall_forall in *. auto.
Qed.
Lemma samedl_refl s : conjunctive s -> samedl s s.
Proof.
  revert s. apply conj_ind; [constructor; auto|]. intros subs b _ IH. constructor. induction IH; constructor; auto.
Qed.
Lemma samedl_conj s s' : conjunctive s -> samedl s s' -> conjunctive s'.
Proof.
  intros C. revert s'. revert s C. apply (conj_ind (fun s => forall s', samedl s s' -> conjunctive s')).
  - intros d s' H. inversion H. constructor.
  - intros subs b _ IH s' H. inversion H as [|a1 subs' b1 F]; subst. constructor. clear H.
    revert subs' F. induction IH; intros subs' F; inversion F; subst; constructor; auto.
Qed.
Lemma samedl_trans s : conjunctive s -> forall s' s'', samedl s s' -> samedl s' s'' -> samedl s s''.
Proof.
  revert s. apply (conj_ind (fun s => forall s' s'', samedl s s' -> samedl s' s'' -> samedl s s'')).
  - intros d s' s'' A B. inversion A; subst. inversion B; subst. constructor; congruence.
  - intros subs b _ IH s' s'' A B. inversion A as [|a1 subs' b1 F]; subst. inversion B as [|a2 subs'' b2 G]; subst. constructor. clear A B.
    revert subs' subs'' F G. induction IH; intros subs' subs'' F G; inversion F; subst; inversion G; subst; constructor; eauto.
Qed.

Lemma attempt_same sd s : conjunctive s -> forall a r s1 a1, attempt s sd a = (r, s1, a1) -> samedl s s1.
Proof.
  revert s. apply (conj_ind (fun s => forall a r s1 a1, attempt s sd a = (r, s1, a1) -> samedl s s1)).
  - intros d a r s1 a1. cbn [attempt]. unfold get_prover_dl, bind, get_env. cbv zeta.
    destruct (_ || _); unfold ret; intros [= <- <- <-]; constructor; reflexivity.
  - intros subs b CS IH a r s1 a1. cbn [attempt]. destruct (update_ok sd a) as [a2 ->].
    destruct b; [intros [= <- <- <-]; apply samedl_refl; constructor; auto|].
    destruct (try_all _ subs a2) as [[r' l] a3] eqn:E. intros [= <- <- <-]. constructor.
    clear a. revert a2 r' l a3 E CS. induction IH as [|x subs Hx IH IHs]; intros a2 r' l a3 E CS; cbn [try_all] in E.
    + injection E as <- <- <-. constructor.
    + inversion CS as [|x' subs' Cx CS']; subst. destruct (attempt x sd a2) as [[[o|e] y] a4] eqn:Ex.
      * destruct (try_all _ subs a4) as [[r2 l2] a5] eqn:Es. injection E as <- <- <-. constructor; eauto.
      * injection E as <- <- <-. constructor; eauto. clear - CS'. induction CS'; constructor; auto. now apply samedl_refl.
Qed.
Lemma failed_same s s' : failed_calls s s' -> conjunctive s -> samedl s s'.
Proof.
  induction 1 as [s|s sd a r s1 a1 s2 A _ _ IH]; intros C; [now apply samedl_refl|].
  assert (S1 := attempt_same sd s C _ _ _ _ A). apply (samedl_trans s C s1 s2 S1). apply IH. now apply (samedl_conj s).
Qed.

(** ** Everything that does not read the captured values *)
Lemma same_vars s s' : samedl s s' -> get_secret_vars s' = get_secret_vars s /\ get_bases s' = get_bases s.
Proof.
  revert s'. induction s as [d|subs b IH|subs b ch IH|k b q|k b q con IH] using stmt_ind'; intros s' H; inversion H; subst.
  - cbn [get_secret_vars get_bases]. split; congruence.
  - cbn [get_secret_vars get_bases]. assert (K : rmap get_secret_vars subs' = rmap get_secret_vars subs /\ rmap get_bases subs' = rmap get_bases subs).
    { clear H. match goal with F : Forall2 _ _ _ |- _ => revert subs' F end. induction IH as [|x subs Hx IH IHs]; intros subs' F; inversion F; subst; auto.
      destruct (Hx y) as [A1 A2]; [assumption|]. destruct (IHs l') as [A3 A4]; [assumption|].
      split; cbn [rmap]; [rewrite A1, A3|rewrite A2, A4]; reflexivity. }
    destruct K as [-> ->]. auto.
Qed.
Lemma same_id s s' : samedl s s' -> forall m, get_proof_id s' m = get_proof_id s m.
Proof.
  revert s'. induction s as [d|subs b IH|subs b ch IH|k b q|k b q con IH] using stmt_ind'; intros s' H m; destruct (same_vars _ _ H) as [V B]; inversion H; subst.
  - cbn [get_proof_id]. repeat match goal with E : _ = _ d |- _ => rewrite E; clear E end. reflexivity.
  - cbn [get_proof_id]. rewrite V, B.
    assert (K : forall m, rmap (fun s => get_proof_id s m) subs' = rmap (fun s => get_proof_id s m) subs).
    { intros m'. clear H V B. match goal with F : Forall2 _ _ _ |- _ => revert subs' F end.
      induction IH as [|x subs Hx IH IHs]; intros subs' F; inversion F; subst; auto.
      cbn [rmap]. rewrite Hx by assumption. rewrite IHs by assumption. reflexivity. }
    destruct (get_secret_vars (SAnd subs b)) as [u|]; [|reflexivity]. cbn [rbind]. clear V B. destruct (get_bases (SAnd subs b)); [|reflexivity]. cbn [rbind]. cbv zeta.
    rewrite K. reflexivity.
Qed.
Lemma same_prehash s s' : samedl s s' -> prehash_input s' = prehash_input s.
Proof. intros H. unfold prehash_input. now rewrite (same_id s s'). Qed.
Lemma same_reoc e s s' : samedl s s' -> forall f, validate_reoccurence e s' f = validate_reoccurence e s f.
Proof.
  revert s'. induction s as [d|subs b IH|subs b ch IH|k b q|k b q con IH] using stmt_ind'; intros s' H f; destruct (same_vars _ _ H) as [V B]; inversion H; subst; auto.
  cbn [validate_reoccurence]. rewrite V.
  assert (K : forall f, rmap (fun p => validate_reoccurence e p f) subs' = rmap (fun p => validate_reoccurence e p f) subs).
  { intros f'. clear H V B. match goal with F : Forall2 _ _ _ |- _ => revert subs' F end.
    induction IH as [|x subs Hx IH IHs]; intros subs' F; inversion F; subst; auto.
    cbn [rmap]. rewrite Hx by assumption. rewrite IHs by assumption. reflexivity. }
  destruct f as [f|]; cbn [rbind]; [now rewrite K|]. destruct (get_secret_vars (SAnd subs b)); cbn [rbind]; [now rewrite K|reflexivity].
Qed.
Lemma same_validate e s s' : samedl s s' -> validate_and e s' = validate_and e s.
Proof.
  intros H. unfold validate_and, validate_group_orders. destruct (same_vars s s' H) as [-> ->]. now rewrite (same_reoc e s s').
Qed.
Lemma bind_ext {A B} (m m' : M A) (f g : A -> M B) : (forall a, m a = m' a) -> (forall x a, f x a = g x a) -> forall a,
  bind m f a = bind m' g a.
Proof. intros H K a. unfold bind. rewrite H. destruct (m' a) as [[x b]|]; auto. Qed.
Lemma same_rand s s' : samedl s s' -> forall a, randomizers_and s' a = randomizers_and s a.
Proof. intros H a. unfold randomizers_and. destruct (same_vars s s' H) as [-> ->]. reflexivity. Qed.
Lemma same_update s s' : samedl s s' -> forall o a,
  update_randomizers (randomizers_and s') (get_secret_vars s') o a = update_randomizers (randomizers_and s) (get_secret_vars s) o a.
Proof.
  intros H o a. unfold update_randomizers. destruct o as [d|]; [|now apply same_rand]. destruct (same_vars s s' H) as [-> _].
  apply bind_ext; auto. intros ss b. apply bind_ext; auto. intros e c. destruct (existsb _ _); [|reflexivity].
  apply bind_ext; auto. now apply same_rand.
Qed.
Lemma zipM_ext {A A' B C} (f : A -> B -> M C) (g : A' -> B -> M C) l l' :
  Forall2 (fun x y => forall p a, g y p a = f x p a) l l' -> forall ps a, zipM g l' ps a = zipM f l ps a.
Proof.
  induction 1 as [|x y l l' H F IH]; intros ps a; [reflexivity|]. destruct ps as [|p ps]; [reflexivity|]. cbn [zipM].
  apply bind_ext; auto. intros z b. apply bind_ext; auto.
Qed.
Lemma same_commit s s' : samedl s s' -> forall p rd a, internal_commit s' p rd a = internal_commit s p rd a.
Proof.
  revert s'. induction s as [d|subs b IH|subs b ch IH|k b q|k b q con IH] using stmt_ind'; intros s' H p rd a; inversion H; subst.
  - destruct p; cbn [internal_commit]; auto. unfold commit_dl, randomizers_dl.
    repeat match goal with E : _ = _ d |- _ => rewrite E; clear E end. reflexivity.
  - destruct p as [|ps| |]; cbn [internal_commit]; auto. apply bind_ext; auto. intros e c. apply bind_ext; [intros; now rewrite (same_validate e _ _ H)|].
    intros _ a1. apply bind_ext; [intros; now apply same_update|]. intros rd' a2. apply bind_ext; auto.
    intros a3. apply zipM_ext. clear - IH H. inversion H as [|x1 x2 x3 F]; subst. clear H.
    revert subs' F. induction IH as [|x subs Hx IH IHs]; intros subs' F; inversion F; subst; constructor; auto.
Qed.

(** ** The captured values *)
Inductive tied (e : nat -> option Z) : stmt -> stmt -> Prop :=
| TiDL d d' : dl_lhs d' = dl_lhs d -> dl_bases d' = dl_bases d -> dl_secs d' = dl_secs d ->
    (forall x, In x (dl_secs d) -> dget e (dl_vals d') x = dget e (dl_vals d) x) -> tied e (SDL d) (SDL d')
| TiAnd subs subs' b : Forall2 (tied e) subs subs' -> tied e (SAnd subs b) (SAnd subs' b).
Lemma tied_same e s s' : tied e s s' -> samedl s s'.
Proof.
  revert s'. induction s as [d|subs b IH|subs b ch IH|k b q|k b q con IH] using stmt_ind'; intros s' H; inversion H; subst; constructor; auto.
  clear H. match goal with F : Forall2 _ _ _ |- _ => revert subs' F end.
  induction IH; intros subs' F; inversion F; subst; constructor; auto.
Qed.
Lemma tied_peq e e' s s' : peq e e' -> tied e s s' -> tied e' s s'.
Proof.
  intros P. revert s'. induction s as [d|subs b IH|subs b ch IH|k b q|k b q con IH] using stmt_ind'; intros s' H; inversion H; subst.
  - constructor; auto. intros x I. rewrite <- !(dget_peq e e') by auto. auto.
  - constructor. clear H. match goal with F : Forall2 _ _ _ |- _ => revert subs' F end.
    induction IH; intros subs' F; inversion F; subst; constructor; auto.
Qed.

Definition both (s s' : stmt) (sd : dict Z) (a : st) (e : nat -> option Z) : Prop :=
  (exists x, get_prover s sd a = Err x /\ get_prover s' sd a = Err x) \/
  (exists a', get_prover s sd a = Ok ((None, s), a') /\ get_prover s' sd a = Ok ((None, s'), a') /\ peq (env a') e) \/
  (exists p t t' a', get_prover s sd a = Ok ((Some p, t), a') /\ get_prover s' sd a = Ok ((Some p, t'), a') /\
    peq (env a') e /\ tied e t t').
Lemma both_dl d d' sd a : samedl (SDL d) (SDL d') -> all_given sd (SDL d) -> both (SDL d) (SDL d') sd a (env a).
Proof.
  intros H [NE AG]. inversion H as [x y E1 E2 E3|]; subst. specialize (AG (dl_secs d)). cbn [get_secret_vars] in AG.
  right. right. cbn [get_prover]. unfold get_prover_dl, bind, get_env. cbv zeta.
  assert (KM : forall v, empty_dict (dupdate (env a) v sd) || existsb (fun s => negb (dmem (env a) (dupdate (env a) v sd) s)) (dl_secs d) = false).
  { intros v. apply orb_false_iff. split.
    - destruct sd as [|[k w] sd]; [congruence|]. destruct (dupdate_given (env a) ((k, w) :: sd) k) with (d := v) (d' := v) as [_ [u U]].
      { exists k, w. split; [now left|apply sec_eqb_refl]. }
      destruct (dupdate _ v _); [discriminate U|reflexivity].
    - destruct (existsb _ (dl_secs d)) eqn:X; auto. apply existsb_exists in X as (y & I & N). exfalso.
      destruct (AG y eq_refl I) as [w IN]. destruct (dupdate_given (env a) sd y) with (d := v) (d' := v) as [_ [u U]].
      { exists y, w. split; [auto|apply sec_eqb_refl]. }
      unfold dmem in N. rewrite U in N. discriminate N. }
  rewrite KM. rewrite E3, KM. unfold ret. do 4 eexists. split; [reflexivity|]. split; [reflexivity|]. split; [intros i; reflexivity|].
  cbn [fst snd]. constructor; cbn [dl_lhs dl_bases dl_secs dl_vals]; auto. intros y I.
  apply dupdate_given. destruct (AG y eq_refl I) as [w IN]. exists y, w. split; [auto|apply sec_eqb_refl].
Qed.
Lemma all_given_sub sd subs b x : all_given sd (SAnd subs b) -> Forall conjunctive subs -> In x subs -> all_given sd x.
Proof.
  intros [N A] C I. split; auto. intros ss y G J. cbn [get_secret_vars] in A.
  assert (R : exists l, rmap get_secret_vars subs = Ok l /\ In y (List.concat l)).
  { clear - C I G J. induction C as [|z subs Cz C IH]; [destruct I|].
    assert (T : forall s, conjunctive s -> exists ss, get_secret_vars s = Ok ss).
    { clear. apply conj_ind; [cbn; eauto|]. intros subs b _ F. cbn [get_secret_vars].
      assert (K : exists l, rmap get_secret_vars subs = Ok l); [|destruct K as [l ->]; cbn; eauto].
      induction F as [|x subs (ss & Hx) F (l & Hl)]; cbn [rmap]; [eauto|]. rewrite Hx, Hl. cbn. eauto. }
    destruct I as [->|I].
    - assert (K : exists l, rmap get_secret_vars subs = Ok l).
      { clear - C T. induction C as [|x subs Cx C (l & Hl)]; cbn [rmap]; [eauto|]. destruct (T x Cx) as [ss ->]. rewrite Hl. cbn. eauto. }
      destruct K as [l L]. exists (ss :: l). cbn [rmap]. rewrite G, L. split; [reflexivity|]. cbn [List.concat]. apply in_or_app. now left.
    - destruct (IH I) as (l & L & K). destruct (T z Cz) as [sz Z]. exists (sz :: l). cbn [rmap]. rewrite Z, L. split; [reflexivity|].
      cbn [List.concat]. apply in_or_app. now right. }
  destruct R as (l & R & K). rewrite R in A. cbn [rbind] in A. eapply A; eauto.
Qed.
Lemma update_env sd a u a1 : update_secret_values sd a = Ok (u, a1) -> env a1 = giv sd (env a).
Proof. unfold update_secret_values. intros [= _ <-]. reflexivity. Qed.
Lemma both_subs sd subs : Forall conjunctive subs -> (forall x, In x subs -> all_given sd x) ->
  Forall (fun s => forall s' a, samedl s s' -> all_given sd s -> stable sd (env a) -> both s s' sd a (env a)) subs ->
  forall e subs', Forall2 samedl subs subs' -> forall a1, peq (env a1) e -> stable sd (env a1) ->
      (exists x, mapM (fun s => get_prover s sd) subs a1 = Err x /\ mapM (fun s => get_prover s sd) subs' a1 = Err x) \/
      (exists l l' a2, mapM (fun s => get_prover s sd) subs a1 = Ok (l, a2) /\ mapM (fun s => get_prover s sd) subs' a1 = Ok (l', a2) /\
        peq (env a2) e /\ map fst l' = map fst l /\
        (forallb (fun r => is_some (fst r)) l = true -> Forall2 (tied e) (map snd l) (map snd l'))).
Proof.
  intros CS AGs IH e. induction IH as [|x subs Hx IH IHs]; intros subs' F a1 P1 S1; inversion F as [|x0 x' subs0 subs1 Sx F']; subst.
  - right. exists [], [], a1. repeat split; auto. constructor.
  - inversion CS as [|c1 c2 Cx CS']; subst. cbn [mapM]. unfold bind.
    assert (AG' : forall y, In y subs -> all_given sd y) by (intros y I; apply AGs; now right).
    assert (R : forall a2, peq (env a2) (env a1) -> peq (env a2) e /\ stable sd (env a2)).
    { intros a2 P2. split; [exact (peq_trans _ _ _ P2 P1)|]. apply (stable_peq sd (env a1)); auto. intros i. now rewrite P2. }
    destruct (Hx x' a1 Sx (AGs x (or_introl eq_refl)) S1) as [(er & A & B)|[(a2 & A & B & P2)|(p & t & t' & a2 & A & B & P2 & T)]]; rewrite A, B.
    + left. exists er. auto.
    + destruct (R a2 P2) as [Q2 S2].
      destruct (IHs CS' AG' subs1 F' a2 Q2 S2) as [(er & C & D)|(l & l' & a3 & C & D & Q3 & M & T)]; rewrite C, D; unfold ret.
      * left. exists er. auto.
      * right. do 3 eexists. split; [reflexivity|]. split; [reflexivity|]. split; [exact Q3|].
        split; [cbn [map fst]; congruence|]. cbn [forallb fst is_some andb]. discriminate.
    + destruct (R a2 P2) as [Q2 S2].
      destruct (IHs CS' AG' subs1 F' a2 Q2 S2) as [(er & C & D)|(l & l' & a3 & C & D & Q3 & M & T')]; rewrite C, D; unfold ret.
      * left. exists er. auto.
      * right. do 3 eexists. split; [reflexivity|]. split; [reflexivity|]. split; [exact Q3|]. split; [cbn [map fst]; congruence|].
        cbn [forallb fst is_some andb map snd]. intros G. constructor; auto. now apply (tied_peq (env a1)).
Qed.
Lemma both_and sd subs b : Forall conjunctive subs ->
  Forall (fun s => forall s' a, samedl s s' -> all_given sd s -> stable sd (env a) -> both s s' sd a (env a)) subs ->
  forall s' a, samedl (SAnd subs b) s' -> all_given sd (SAnd subs b) -> both (SAnd subs b) s' sd a (giv sd (env a)).
Proof.
  intros CS IH s' a H AG. inversion H as [|y1 subs' y2 F]; subst. unfold both. cbn [get_prover]. unfold bind.
  destruct (update_ok sd a) as [a1 U]. rewrite U. assert (E1 := update_env _ _ _ _ U).
  assert (P1 : peq (env a1) (giv sd (env a))) by (rewrite E1; intros i; reflexivity).
  assert (S1 : stable sd (env a1)) by (rewrite E1; apply giv_stable).
  destruct b; [right; left; exists a1; auto|].
  destruct (both_subs sd subs CS (fun x I => all_given_sub sd subs false x AG CS I) IH _ subs' F a1 P1 S1) as [(x & A & B)|(l & l' & a2 & A & B & P2 & M & T)];
    rewrite A, B; [left; exists x; auto|].
  assert (FB : forallb (fun r : option prover * stmt => is_some (fst r)) l' = forallb (fun r => is_some (fst r)) l /\
      flat_map (fun r : option prover * stmt => match fst r with Some p => [p] | None => [] end) l' =
      flat_map (fun r : option prover * stmt => match fst r with Some p => [p] | None => [] end) l).
  { clear - M. revert l' M. induction l as [|[o x] l IHl]; intros [|[o' x'] l'] M; try discriminate M; auto.
    cbn [map fst] in M. injection M as -> M. destruct (IHl l' M) as [A B]. cbn [forallb flat_map fst]. rewrite A, B. auto. }
  destruct FB as [FB FM]. rewrite FB, FM. destruct (forallb _ l) eqn:G.
  + right. right. unfold ret. do 4 eexists. split; [reflexivity|]. split; [reflexivity|]. split; [exact P2|]. constructor. auto.
  + left. exists EValueErr. auto.
Qed.
Lemma both_peq s s' sd a e e' : peq e e' -> both s s' sd a e -> both s s' sd a e'.
Proof.
  intros P [H|[(a' & A & B & Q)|(p & t & t' & a' & A & B & Q & T)]]; [now left| |]; right; [left|right].
  - exists a'. repeat split; auto. exact (peq_trans _ _ _ Q P).
  - exists p, t, t', a'. repeat split; auto; [exact (peq_trans _ _ _ Q P)|now apply (tied_peq e)].
Qed.
Lemma both_stable sd s : conjunctive s -> forall s' a, samedl s s' -> all_given sd s -> stable sd (env a) -> both s s' sd a (env a).
Proof.
  revert s. apply (conj_ind (fun s => forall s' a, samedl s s' -> all_given sd s -> stable sd (env a) -> both s s' sd a (env a))).
  - intros d s' a H AG _. inversion H; subst. now apply both_dl.
  - intros subs b CS IH s' a H AG ST. apply (both_peq _ _ _ _ (giv sd (env a))); [exact ST|]. now apply both_and.
Qed.
Lemma both_top sd s s' a : conjunctive s -> samedl s s' -> all_given sd s -> exists e, both s s' sd a e.
Proof.
  intros C H AG. destruct C as [d|subs b CS].
  - inversion H; subst. exists (env a). now apply both_dl.
  - exists (giv sd (env a)). apply both_and; auto. rewrite Forall_forall in *. intros x I. apply both_stable. auto.
Qed.

(** ** The rest of a run *)
Lemma zipM_lock {A A' B C} (R : A -> A' -> Prop) (f : A -> B -> M (C * A)) (g : A' -> B -> M (C * A')) l l' :
  Forall2 (fun x y => forall p a, (exists e, f x p a = Err e /\ g y p a = Err e) \/
    exists c x' y' a', f x p a = Ok ((c, x'), a') /\ g y p a = Ok ((c, y'), a') /\ R x' y' /\ env a' = env a) l l' ->
  forall ps a, (exists e, zipM f l ps a = Err e /\ zipM g l' ps a = Err e) \/
    exists r r' a', zipM f l ps a = Ok (r, a') /\ zipM g l' ps a = Ok (r', a') /\ map fst r' = map fst r /\
      Forall2 R (map snd r) (map snd r') /\ env a' = env a.
Proof.
  induction 1 as [|x y l l' H F IH]; intros ps a.
  - right. exists [], [], a. repeat split; auto. constructor.
  - destruct ps as [|p ps]; [right; exists [], [], a; repeat split; auto; constructor|]. cbn [zipM]. unfold bind.
    destruct (H p a) as [(e & E & G)|(c & x' & y' & a1 & E & G & Rx & En)]; rewrite E, G; [left; eauto|].
    destruct (IH ps a1) as [(e & E2 & G2)|(r & r' & a2 & E2 & G2 & M & F2 & En2)]; rewrite E2, G2; [left; eauto|].
    right. unfold ret. do 3 eexists. split; [reflexivity|]. split; [reflexivity|]. cbn [map fst snd]. repeat split; try congruence. now constructor.
Qed.
Lemma tied_precommit e s s' : tied e s s' -> forall p a,
  (exists x, precommit s p a = Err x /\ precommit s' p a = Err x) \/
  exists v t t' a', precommit s p a = Ok ((v, t), a') /\ precommit s' p a = Ok ((v, t'), a') /\ tied e t t' /\ env a' = env a.
Proof.
  revert s'. induction s as [d|subs b IH|subs b ch IH|k b q|k b q con IH] using stmt_ind'; intros s' H p a; inversion H as [d0 d' E1 E2 E3 V|s1 subs' b1 F]; subst.
  - destruct p; cbn [precommit]; try (left; unfold raise; eauto; fail). right. unfold ret. do 4 eexists. repeat split; eauto.
  - destruct p as [|ps| |]; cbn [precommit]; try (left; unfold raise; eauto; fail).
    destruct (zipM_lock (tied e) precommit precommit subs subs') with (ps := ps) (a := a) as [(x & E & G)|(r & r' & a' & E & G & M & F2 & En)].
    + clear H. revert subs' F. induction IH as [|x subs Hx IH IHs]; intros subs' F; inversion F; subst; constructor; auto.
    + left. exists x. unfold bind. rewrite E, G. auto.
    + right. unfold bind. rewrite E, G. unfold ret.
      assert (X : map (fun r => fst (fst r)) r' = map (fun r => fst (fst r)) r /\ map (fun r => snd (fst r)) r' = map (fun r => snd (fst r)) r).
      { clear - M. revert r' M. induction r as [|[[v q] y] r IHr]; intros [|[[v' q'] y'] r'] M; try discriminate M; auto.
        cbn [map fst snd] in *. injection M as -> -> M. destruct (IHr r' M) as [A B]. rewrite A, B. auto. }
      destruct X as [X1 X2]. rewrite X1, X2. do 4 eexists. split; [reflexivity|]. split; [reflexivity|]. split; [now constructor|auto].
Qed.
Lemma zipM_lock2 {A A' B C} (f : A -> B -> M C) (g : A' -> B -> M C) e l l' :
  Forall2 (fun x y => forall p a, peq (env a) e -> g y p a = f x p a /\ (forall c a', f x p a = Ok (c, a') -> a' = a)) l l' ->
  forall ps a, peq (env a) e -> zipM g l' ps a = zipM f l ps a /\ (forall c a', zipM f l ps a = Ok (c, a') -> a' = a).
Proof.
  induction 1 as [|x y l l' H F IH]; intros ps a P.
  - split; [reflexivity|]. intros c a' [= _ <-]. reflexivity.
  - destruct ps as [|p ps]; [split; [reflexivity|]; intros c a' [= _ <-]; reflexivity|]. cbn [zipM]. unfold bind.
    destruct (H p a P) as [-> K]. destruct (f x p a) as [[c a1]|er]; [|split; [auto|discriminate]].
    specialize (K c a1 eq_refl). subst a1. destruct (IH ps a P) as [-> K2].
    destruct (zipM f l ps a) as [[r a2]|er]; [|split; [auto|discriminate]]. specialize (K2 r a2 eq_refl). subst a2.
    unfold ret. split; [reflexivity|]. intros c' a' [= _ <-]. reflexivity.
Qed.
Lemma tied_response e s s' : tied e s s' -> forall c p a, peq (env a) e ->
  compute_response s' p c a = compute_response s p c a /\ (forall v a', compute_response s p c a = Ok (v, a') -> a' = a).
Proof.
  intros H c. revert s' H. induction s as [d|subs b IH|subs b ch IH|k b q|k b q con IH] using stmt_ind'; intros s' H p a P; inversion H as [d0 d' E1 E2 E3 V|s1 subs' b1 F]; subst.
  - destruct p as [ks| | |]; cbn [compute_response]; try (split; [reflexivity|discriminate]). split.
    + unfold respond_dl. rewrite E2. destruct ks as [ks|]; [|reflexivity]. destruct (dl_bases d) as [|b0 bs]; [reflexivity|].
      unfold bind, get_env, lift, ret. rewrite E3.
      assert (K : rmap (fun sk : secret * Z => let? v := dget_err (env a) (dl_vals d') (fst sk) in Ok ((v * c + snd sk) mod order (grp b0))) (combine (dl_secs d) ks) =
                  rmap (fun sk : secret * Z => let? v := dget_err (env a) (dl_vals d) (fst sk) in Ok ((v * c + snd sk) mod order (grp b0))) (combine (dl_secs d) ks)).
      { clear - V P. revert ks. induction (dl_secs d) as [|x ss IHss]; intros [|k ks]; auto. cbn [combine rmap fst snd]. unfold dget_err at 1 3.
        rewrite !(dget_peq (env a) e), V by (auto; now left). rewrite IHss by (intros y I; apply V; now right). reflexivity. }
      rewrite K. reflexivity.
    + intros v a' R. now apply respond_dl_st in R.
  - destruct p as [|ps| |]; cbn [compute_response]; try (split; [reflexivity|discriminate]). unfold bind.
    destruct (zipM_lock2 (fun s p => compute_response s p c) (fun s p => compute_response s p c) e subs subs') with (ps := ps) (a := a) as [-> K]; auto.
    { clear H. revert subs' F. induction IH as [|x subs Hx IH IHs]; intros subs' F; inversion F; subst; constructor; auto. }
    destruct (zipM _ subs ps a) as [[r a1]|er]; [|split; [auto|discriminate]]. specialize (K r a1 eq_refl). subst a1.
    unfold ret. split; [reflexivity|]. intros v a' [= _ <-]. reflexivity.
Qed.

(** the same proof, or the same exception *)
Theorem again s s' sd msg a : conjunctive s -> failed_calls s s' -> all_given sd s ->
  (exists x, prove s sd msg a = Err x /\ prove s' sd msg a = Err x) \/
  exists z t t' a', prove s sd msg a = Ok ((z, t), a') /\ prove s' sd msg a = Ok ((z, t'), a').
Proof.
  intros C F AG. destruct (both_top sd s s' a C (failed_same _ _ F C) AG) as [e [(x & A & B)|[(a1 & A & B & P)|(p & t & t' & a1 & A & B & P & T)]]];
    unfold prove, get_nizk_proof, bind, lift, ret; rewrite A, B; [left; eauto|left; exists EAttributeErr; auto|].
  destruct (tied_precommit e t t' T p a1) as [(x & A2 & B2)|([v q] & u & u' & a2 & A2 & B2 & T2 & E2)]; rewrite A2, B2; [left; eauto|].
  assert (S2 := tied_same _ _ _ T2). rewrite (same_commit u u' S2 q None a2).
  destruct (internal_commit u q None a2) as [[[com q'] a3]|x] eqn:IC; [|left; eauto].
  assert (E3 := keeps_internal_commit _ _ _ _ _ _ IC).
  rewrite (same_prehash u u' S2). destruct (prehash_input u) as [h|x]; [|left; eauto].
  destruct (fs_challenge h [v; com] msg) as [c|x]; [|left; eauto].
  destruct (tied_response e u u' T2 c q' a3) as [-> _]; [intros i; rewrite E3, E2; apply P|].
  destruct (compute_response u q' c a3) as [[r a4]|x]; [|left; eauto].
  right. do 4 eexists. split; reflexivity.
Qed.

(** ** Disjunctions *)
Inductive dead : stmt -> Prop :=
| DeOr subs b ch : Forall (fun x => simulated x = true \/ dead x) subs -> dead (SOr subs b ch).
Definition gone (s : stmt) : Prop := simulated s = true \/ dead s.
Lemma dead_ind' (P : stmt -> Prop) :
  (forall subs b ch, Forall (fun x => simulated x = true \/ (dead x /\ P x)) subs -> P (SOr subs b ch)) -> forall s, dead s -> P s.
Proof.
  intros H. fix IH 2. intros s [subs b ch F]. apply H. induction F as [|x l [K|K] F IHF]; constructor; auto.
Qed.
Lemma cands_in (subs : list stmt) i : In i (map fst (filter (fun p : nat * stmt => negb (simulated (snd p))) (combine (seq 0 (List.length subs)) subs))) <->
  exists x, nth_error subs i = Some x /\ simulated x = false.
Proof.
  rewrite in_map_iff. split.
  - intros ([j x] & <- & I). apply filter_In in I as [I N]. apply negb_true_iff in N. exists x. split; auto. cbn [fst snd] in *.
    apply (In_nth_error) in I as [n I]. clear N.
    assert (G : forall k n, nth_error (combine (seq k (List.length subs)) subs) n = Some (j, x) -> (j = k + n)%nat /\ nth_error subs n = Some x).
    { clear. induction subs as [|y subs IH]; intros k n; [destruct n; discriminate|]. cbn [List.length seq combine]. destruct n as [|n]; cbn [nth_error].
      - intros [= <- <-]. split; [lia|auto].
      - intros H. destruct (IH (S k) n H) as [-> K]. split; [lia|auto]. }
    destruct (G 0%nat n I) as [-> K]. exact K.
  - intros (x & N & S). exists (i, x). split; auto. apply filter_In. split; [|cbn [snd]; now rewrite S].
    assert (G : forall k i, nth_error subs i = Some x -> In ((k + i)%nat, x) (combine (seq k (List.length subs)) subs)).
    { clear. induction subs as [|y subs IH]; intros k i; [destruct i; discriminate|]. cbn [List.length seq combine]. destruct i as [|i]; cbn [nth_error].
      - intros [= ->]. left. f_equal. lia.
      - intros H. right. replace (k + S i)%nat with (S k + i)%nat by lia. now apply IH. }
    exact (G 0%nat i N).
Qed.
Lemma loop_none {A} (gps : list (M (option A * stmt))) fuel : forall possible subs a o l a',
  (forall i gp b r b', In i possible -> nth_error gps i = Some gp -> gp b = Ok (r, b') -> fst r = None) ->
  or_loop fuel gps possible subs a = Ok ((o, l), a') -> o = None.
Proof.
  induction fuel as [|fuel IH]; intros possible subs a o l a' H; cbn [or_loop].
  - intros [= <- _ _]. reflexivity.
  - unfold bind at 1. destruct (draw _ a) as [[r a1]|]; [|discriminate].
    destruct (nth_error possible (Z.to_nat r)) as [i|] eqn:N; [|discriminate]. destruct (nth_error gps i) as [gp|] eqn:G; [|discriminate].
    unfold bind. destruct (gp a1) as [[ps a2]|] eqn:E; [|discriminate]. assert (I := nth_error_In _ _ N).
    rewrite (H i gp a1 ps a2 I G E). destruct (empty_dict _); [intros [= <- _ _]; reflexivity|]. apply IH.
    intros j gp' b r' b' J. apply (H j). now apply in_remove in J.
Qed.
Lemma dead_none s : dead s -> forall sd a o t a', get_prover s sd a = Ok ((o, t), a') -> o = None.
Proof.
  revert s. apply (dead_ind' (fun s => forall sd a o t a', get_prover s sd a = Ok ((o, t), a') -> o = None)).
  intros subs b ch F sd a o t a'. cbn [get_prover]. unfold bind at 1. destruct (update_ok sd a) as [a1 ->].
  destruct b; [intros [= <- _ _]; reflexivity|]. cbv zeta. destruct (empty_dict _); [intros [= <- _ _]; reflexivity|].
  unfold bind at 1. destruct (or_loop _ _ _ subs a1) as [[[r l] a2]|] eqn:L; [|discriminate].
  apply loop_none in L; [subst r; intros [= <- _ _]; reflexivity|].
  intros i gp b r0 b' I N G. apply cands_in in I as (x & X & S). rewrite nth_error_map, X in N. injection N as <-.
  rewrite Forall_forall in F. destruct (F x (nth_error_In _ _ X)) as [K|[_ K]]; [congruence|]. destruct r0 as [o0 t0]. eapply K, G.
Qed.
Lemma nth_replace {A} (l : list A) i j x : nth_error (replace i x l) j = if Nat.eqb i j then match nth_error l j with Some _ => Some x | None => None end else nth_error l j.
Proof. revert i j. induction l as [|y l IH]; intros [|i] [|j]; auto; cbn; [now destruct (Nat.eqb i j)|]. apply IH. Qed.
Lemma try_gone sd (subs0 : list stmt) :
  (forall x, In x subs0 -> forall a y a', attempt x sd a = (Ok None, y, a') -> gone y) ->
  forall fuel possible subs a c l a', (List.length possible <= fuel)%nat ->
  (forall i x, nth_error subs i = Some x -> gone x \/ In i possible) ->
  try_one fuel (map (fun x => attempt x sd) subs0) possible subs a = (Ok None, c, l, a') -> Forall gone l.
Proof.
  intros H. induction fuel as [|fuel IH]; intros possible subs a c l a' Len G; cbn [try_one].
  - intros [= _ <- _]. rewrite Forall_forall. intros x I. apply In_nth_error in I as [n N]. destruct possible; [|cbn in Len; lia].
    destruct (G n x N) as [K|[]]. exact K.
  - destruct (draw _ a) as [[r a1]|]; [|discriminate]. destruct (nth_error possible (Z.to_nat r)) as [i|] eqn:P; [|discriminate].
    rewrite nth_error_map. destruct (nth_error subs0 i) as [x|] eqn:N; cbn [option_map]; [|discriminate].
    destruct (attempt x sd a1) as [[[[p|]|e] y] a2] eqn:A; try discriminate. cbv zeta.
    assert (Gy := H x (nth_error_In _ _ N) _ _ _ A). assert (I := nth_error_In _ _ P).
    assert (K : forall j z, nth_error (replace i y subs) j = Some z -> gone z \/ In j (remove Nat.eq_dec i possible)).
    { intros j z. rewrite nth_replace. destruct (Nat.eqb i j) eqn:E.
      - destruct (nth_error subs j); [|discriminate]. intros [= <-]. now left.
      - apply Nat.eqb_neq in E. intros Nj. destruct (G j z Nj) as [K|K]; [now left|right]. apply in_in_remove; auto. }
    destruct (remove Nat.eq_dec i possible) as [|q0 q] eqn:Q; cbn [empty_dict].
    + intros [= _ <- _]. rewrite Forall_forall. intros z Z. apply In_nth_error in Z as [n Z]. destruct (K n z Z) as [?|[]]. auto.
    + apply IH; auto. assert (L := remove_length_lt Nat.eq_dec possible i I). rewrite Q in L. lia.
Qed.
Lemma none_gone s : alternatives s -> forall sd a t a', attempt s sd a = (Ok None, t, a') -> gone t.
Proof.
  induction s as [d|subs b IH|subs b ch IH|k b q|k b q con IH] using stmt_ind'; intros AL sd a t a' H; inversion AL as [|s1 s2 s3 F]; subst.
  - cbn [attempt] in H. unfold get_prover_dl, bind, get_env in H. cbv zeta in H. unfold ret in H. destruct (_ || _); [injection H as <- _; left; reflexivity|discriminate H].
  - cbn [attempt] in H. destruct (update_ok sd a) as [a1 U]. rewrite U in H. destruct b; [injection H as <- _; left; reflexivity|].
    cbv zeta in H. set (cands := map fst _) in H.
    assert (C : forall i x, nth_error subs i = Some x -> gone x \/ In i cands).
    { intros i x N. destruct (simulated x) eqn:S; [left; now left|right]. apply cands_in. eauto. }
    destruct cands as [|c0 cs] eqn:Ec; cbn [empty_dict] in H.
    + injection H as <- _. right. constructor. rewrite Forall_forall. intros x I. apply In_nth_error in I as [n N]. destruct (C n x N) as [?|[]]. auto.
    + destruct (try_one _ _ (c0 :: cs) subs a1) as [[[[[[i p]|]|e] c] l] a2] eqn:T; try discriminate H.
      * destruct (setup_simulations i l a2) as [[[l' sims] a3]|]; discriminate H.
      * injection H as <- _. right. constructor. eapply (try_gone sd subs); [|apply le_n|exact C|exact T].
        rewrite Forall_forall in IH, F. intros x I a0 y b' K. eapply IH; eauto.
Qed.
(** a disjunction that has refused once refuses for ever *)
Theorem refused_dead subs b ch sd a s' a' : alternatives (SOr subs b ch) -> attempt (SOr subs b ch) sd a = (Ok None, s', a') ->
  forall sd2 msg a2 z, prove s' sd2 msg a2 <> Ok z.
Proof.
  intros AL A sd2 msg a2 z. unfold prove, bind at 1. destruct (get_prover s' sd2 a2) as [[[o t] a3]|] eqn:G; [|discriminate].
  assert (N : o = None); [|subst o; discriminate]. destruct (none_gone _ AL _ _ _ _ A) as [S|D]; [|eapply dead_none; eauto].
  cbn [attempt] in A. destruct (update_ok sd a) as [a4 U]. rewrite U in A. destruct b.
  - injection A as <- _. cbn [get_prover] in G. unfold bind in G. destruct (update_ok sd2 a2) as [a5 U2]. rewrite U2 in G. injection G as <- _ _. reflexivity.
  - cbv zeta in A. destruct (empty_dict _); [injection A as <- _; discriminate S|].
    destruct (try_one _ _ _ subs a4) as [[[[[[i p]|]|e] c] l] a6]; try discriminate A.
    + destruct (setup_simulations i l a6) as [[[l' sims] a7]|]; discriminate A.
    + injection A as <- _. discriminate S.
Qed.

(** values that a failed call has left are used by later calls *)
Theorem leftover lhs g h x y v w msg a a2 : sec_eqb (env a) x y = false -> sec_eqb (env a2) x y = false ->
  let d := SDL (mkDL lhs [g; h] [x; y] [] false) in
  exists s' a1, attempt d [(x, v)] a = (Ok None, s', a1) /\ prove d [(y, w)] msg a2 = Err EAttributeErr /\
    prove s' [(y, w)] msg a2 = prove d [(x, v); (y, w)] msg a2.
Proof.
  intros N1 N2. cbv zeta. assert (S1 : sec_eqb (env a2) y x = false) by (rewrite sec_eqb_sym; auto).
  exists (SDL (mkDL lhs [g; h] [x; y] [(x, v)] true)), a. split; [|split; [|reflexivity]].
  - cbn [attempt]. unfold get_prover_dl, bind, get_env, ret. cbv zeta.
    cbn [dl_vals dl_secs dl_lhs dl_bases]. unfold dupdate. cbn [fold_left fst snd dset empty_dict orb existsb]. unfold dmem. cbn [dget].
    rewrite N1, sec_eqb_refl. reflexivity.
  - unfold prove. cbn [get_prover]. unfold get_prover_dl, bind, get_env, ret. cbv zeta.
    cbn [dl_vals dl_secs dl_lhs dl_bases]. unfold dupdate. cbn [fold_left fst snd dset empty_dict orb existsb]. unfold dmem. cbn [dget].
    rewrite S1, sec_eqb_refl. reflexivity.
Qed.

(** for the examples *)
Definition failsb {A} (r : res (option A)) : bool := match r with Ok (Some _) => false | _ => true end.
Definition left_by {A} (l : leaves A) : stmt := snd (fst l).
Lemma failed_twice s sd1 a1 sd2 a2 : failsb (fst (fst (attempt s sd1 a1))) = true ->
  failsb (fst (fst (attempt (left_by (attempt s sd1 a1)) sd2 a2))) = true ->
  failed_calls s (left_by (attempt (left_by (attempt s sd1 a1)) sd2 a2)).
Proof.
  intros F1 F2. apply (FcCall s sd1 a1 (fst (fst (attempt s sd1 a1))) (left_by (attempt s sd1 a1)) (snd (attempt s sd1 a1))).
  - unfold left_by. destruct (attempt s sd1 a1) as [[r t] b]. reflexivity.
  - destruct (fst (fst (attempt s sd1 a1))) as [[p|]|]; [discriminate F1| |]; exact Logic.I.
  - set (t := left_by (attempt s sd1 a1)) in *.
    apply (FcCall t sd2 a2 (fst (fst (attempt t sd2 a2))) (left_by (attempt t sd2 a2)) (snd (attempt t sd2 a2))); [| |constructor].
    + unfold left_by. destruct (attempt t sd2 a2) as [[r u] b]. reflexivity.
    + destruct (fst (fst (attempt t sd2 a2))) as [[p|]|]; [discriminate F2| |]; exact Logic.I.
Qed.
End F.

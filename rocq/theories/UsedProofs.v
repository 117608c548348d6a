(** Used objects with primitives. *)
From Verif Require Import Base World Val Expr Utils Stmt Prove Verify Spec Shapes Runs Lib DictProofs Keeps SimIndep Failed FailedProofs Session SessionProofs Used.
Open Scope Z_scope.
Open Scope list_scope.

Section R.
Context {W : World}.

(** Statements that differ in marks of representations, captured values and, if [B] does not hold, in the constructed statements. *)
Inductive near (Q : dlrep -> dlrep -> Prop) (B : Prop) : stmt -> stmt -> Prop :=
| NeDL d d' : dl_lhs d' = dl_lhs d -> dl_bases d' = dl_bases d -> dl_secs d' = dl_secs d -> Q d d' -> near Q B (SDL d) (SDL d')
| NeAnd subs subs' b : Forall2 (near Q B) subs subs' -> near Q B (SAnd subs b) (SAnd subs' b)
| NeExt k b pre con pre' con' : (B -> pre' = pre /\ con' = con) -> near Q B (SExt k b pre con) (SExt k b pre' con').
Definition anyQ (d d' : dlrep) : Prop := True.
Definition valQ (d d' : dlrep) : Prop := forall e x, In x (dl_secs d) -> dget e (dl_vals d') x = dget e (dl_vals d) x.
Notation near0 := (near anyQ False).

Lemma near_refl s : orfree s -> near0 s s.
Proof.
  induction s as [d|subs b IH|subs b ch IH|k b q|k b q con IH] using stmt_ind'; intros O; inversion O; subst; constructor; auto; try tauto.
  - exact I.
  - match goal with F : Forall orfree _ |- _ => clear O; induction IH; inversion F; subst; constructor; auto end.
Qed.
Lemma near_trans s : forall s' s'', near0 s s' -> near0 s' s'' -> near0 s s''.
Proof.
  induction s as [d|subs b IH|subs b ch IH|k b q|k b q con IH] using stmt_ind'; intros s' s'' A B; inversion A; subst; inversion B; subst; constructor; try congruence; try tauto; try exact I.
  clear A B. match goal with F : Forall2 _ subs _, G : Forall2 _ _ _ |- _ => revert F G end.
  revert subs'0. revert subs'. induction IH as [|x l Hx IH IHs]; intros m n F G; inversion F; subst; inversion G; subst; constructor; eauto.
Qed.
Lemma near_orfree s : forall s', near0 s s' -> orfree s'.
Proof.
  induction s as [d|subs b IH|subs b ch IH|k b q|k b q con IH] using stmt_ind'; intros s' A; inversion A; subst; constructor.
  match goal with F : Forall2 _ subs _ |- _ => clear A; revert subs' F end. induction IH; intros m F; inversion F; subst; constructor; auto.
Qed.
Lemma bare_near s : orfree s -> forall s', bare s' = bare s -> near0 s s'.
Proof.
  induction s as [d|subs b IH|subs b ch IH|k b q|k b q con IH] using stmt_ind'; intros O s' E; inversion O; subst; destruct s'; try discriminate E; cbn [bare] in E.
  - injection E as ->. apply near_refl. constructor.
  - injection E as E ->. constructor. match goal with F : Forall orfree _ |- _ => clear O; revert F E end. revert subs0.
    induction IH as [|x l Hx IH IHs]; intros m F E; destruct m as [|y m]; try discriminate E; constructor; cbn [map] in E; injection E as E1 E2; inversion F; subst; auto.
  - injection E as -> ->. constructor. tauto.
  - injection E as -> ->. constructor. tauto.
Qed.
Lemma attempt_near sd s : orfree s -> forall a r s1 a1, attempt s sd a = (r, s1, a1) -> near0 s s1.
Proof.
  induction s as [d|subs b IH|subs b ch IH|k b q|k b q con IH] using stmt_ind'; intros O a r s1 a1; inversion O as [|? ? CS|]; subst.
  - cbn [attempt]. unfold get_prover_dl, bind, get_env. cbv zeta. destruct (_ || _); unfold ret; intros [= <- <- <-]; constructor; try reflexivity; exact I.
  - cbn [attempt]. destruct (update_ok sd a) as [a2 ->]. destruct b; [intros [= <- <- <-]; now apply near_refl|].
    destruct (try_all _ subs a2) as [[r' l] a3] eqn:E. intros [= <- <- <-]. constructor.
    clear a O. revert a2 r' l a3 E CS. induction IH as [|x subs Hx IH IHs]; intros a2 r' l a3 E CS; cbn [try_all] in E.
    + injection E as <- <- <-. constructor.
    + inversion CS as [|x' subs' Cx CS']; subst. destruct (attempt x sd a2) as [[[o|e] y] a4] eqn:Ex.
      * destruct (try_all _ subs a4) as [[r2 l2] a5] eqn:Es. injection E as <- <- <-. constructor; eauto.
      * injection E as <- <- <-. constructor; eauto. clear - CS'. induction CS'; constructor; auto. now apply near_refl.
  - cbn [attempt get_prover]. unfold bind, get_env, ret. destruct (update_ok sd a) as [a2 ->]. intros [= <- <- <-]. now apply near_refl.
  - cbn [attempt get_prover]. unfold bind, get_env, ret. destruct (update_ok sd a) as [a2 ->]. intros [= <- <- <-]. now apply near_refl.
Qed.

Section U.
Variable U : list secret.
Hypothesis HU : wfL U.

Lemma keyed_set e d x v : keyed_by U d -> In x U -> keyed_by U (dset e d x v).
Proof. intros K I k w H. apply dset_keys in H as [->|(w' & H)]; eauto. Qed.
Lemma keyed_update e sd : keyed_by U sd -> forall d, keyed_by U d -> keyed_by U (dupdate e d sd).
Proof. intros K d D. exact (proj2 (dupdate_indep U HU e e d sd D K)). Qed.
Lemma attempt_over sd s : keyed_by U sd -> orfree s -> over U s -> forall a r s1 a1, attempt s sd a = (r, s1, a1) -> over U s1.
Proof.
  intros KD. induction s as [d|subs b IH|subs b ch IH|k b q|k b q con IH] using stmt_ind'; intros O V a r s1 a1; inversion O as [|? ? CS|]; subst; inversion V as [? V1 V2|? ? V1| |]; subst.
  - cbn [attempt]. unfold get_prover_dl, bind, get_env. cbv zeta. destruct (_ || _); unfold ret; intros [= <- <- <-]; constructor; auto; cbn [dl_vals]; now apply keyed_update.
  - cbn [attempt]. destruct (update_ok sd a) as [a2 ->]. destruct b; [intros [= <- <- <-]; auto|].
    destruct (try_all _ subs a2) as [[r' l] a3] eqn:E. intros [= <- <- <-]. constructor.
    clear a O V. revert a2 r' l a3 E CS V1. induction IH as [|x subs Hx IH IHs]; intros a2 r' l a3 E CS V1; cbn [try_all] in E.
    + injection E as <- <- <-. constructor.
    + inversion CS as [|x' subs' Cx CS']; subst. inversion V1 as [|? ? Vx Vs]; subst. destruct (attempt x sd a2) as [[[o|e] y] a4] eqn:Ex.
      * destruct (try_all _ subs a4) as [[r2 l2] a5] eqn:Es. injection E as <- <- <-. constructor; eauto.
      * injection E as <- <- <-. constructor; eauto.
  - cbn [attempt get_prover]. unfold bind, get_env, ret. destruct (update_ok sd a) as [a2 ->]. intros [= <- <- <-]. auto.
  - cbn [attempt get_prover]. unfold bind, get_env, ret. destruct (update_ok sd a) as [a2 ->]. intros [= <- <- <-]. auto.
Qed.
Lemma bare_over s : over U s -> forall s', bare s' = bare s -> over U s'.
Proof.
  induction s as [d|subs b IH|subs b ch IH|k b q|k b q con IH] using stmt_ind'; intros V s' E; inversion V as [? V1 V2|? ? V1|? ? ? V1|]; subst; destruct s'; try discriminate E; cbn [bare] in E; try constructor.
  - injection E as ->. auto.
  - injection E as ->. auto.
  - injection E as E _. clear V. revert subs0 E V1. induction IH as [|x l Hx IH IHs]; intros [|y m] E V1; try discriminate E; constructor; cbn [map] in E; injection E as E1 E2; inversion V1; subst; auto.
  - injection E as E _. clear V. revert subs0 E V1. induction IH as [|x l Hx IH IHs]; intros [|y m] E V1; try discriminate E; constructor; cbn [map] in E; injection E as E1 E2; inversion V1; subst; auto.
Qed.
Lemma uses_near s s' : uses U s s' -> orfree s -> over U s -> near0 s s' /\ over U s'.
Proof.
  induction 1 as [s|s sd a r s1 a1 s2 K A _ IH|s s1 s2 E _ IH]; intros O V; [split; [now apply near_refl|auto]| |].
  - assert (N := attempt_near sd s O _ _ _ _ A). assert (V1 := attempt_over sd s K O V _ _ _ _ A). destruct (IH (near_orfree _ _ N) V1) as [N2 V2].
    split; [exact (near_trans _ _ _ N N2)|auto].
  - assert (N := bare_near s O s1 E). assert (V1 := bare_over s V s1 E). destruct (IH (near_orfree _ _ N) V1) as [N2 V2].
    split; [exact (near_trans _ _ _ N N2)|auto].
Qed.

(** ** get_prover() with all values *)
Section G.
Variable sd : dict Z.
Hypothesis KD : keyed_by U sd.
Hypothesis NE : sd <> [].

Definition lock (s s' : stmt) (a : st) : Prop :=
  (exists x, get_prover s sd a = Err x /\ get_prover s' sd a = Err x) \/
  (exists o t t' a', get_prover s sd a = Ok ((o, t), a') /\ get_prover s' sd a = Ok ((o, t'), a') /\ (o <> None -> near valQ False t t')).
Lemma lock_dl d d' a : dl_lhs d' = dl_lhs d -> dl_bases d' = dl_bases d -> dl_secs d' = dl_secs d ->
  incl (dl_secs d) U -> keyed_by U (dl_vals d) -> keyed_by U (dl_vals d') -> gives sd (SDL d) -> lock (SDL d) (SDL d') a.
Proof.
  intros E1 E2 E3 IN K1 K2 G. inversion G as [? GI| | |]; subst. right. cbn [get_prover]. unfold get_prover_dl, bind, get_env. cbv zeta.
  assert (KM : forall v, empty_dict (dupdate (env a) v sd) || existsb (fun s => negb (dmem (env a) (dupdate (env a) v sd) s)) (dl_secs d) = false).
  { intros v. apply orb_false_iff. split.
    - destruct sd as [|[k u] l] eqn:E; [congruence|]. assert (Z : exists w, dget (env a) (dupdate (env a) v ((k, u) :: l)) k = Some w).
      { destruct (dupdate_given (env a) ((k, u) :: l) k) with (d := v) (d' := v) as [_ Z]; auto.
        exists k, u. split; [now left|]. unfold sec_eqb. rewrite (proj2 (bytes_eqb_eq _ _) eq_refl), oz_eqb_refl. reflexivity. }
      destruct Z as [w Z]. destruct (dupdate (env a) v ((k, u) :: l)); [discriminate Z|reflexivity].
    - apply Bool.not_true_is_false. intros X. apply existsb_exists in X as (x & I & N). apply negb_true_iff in N.
      destruct (GI x I) as (w & J). destruct (dupdate_given (env a) sd x) with (d := v) (d' := v) as [_ [z Z]].
      { exists x, w. split; auto. unfold sec_eqb. rewrite (proj2 (bytes_eqb_eq _ _) eq_refl), oz_eqb_refl. reflexivity. }
      unfold dmem in N. rewrite Z in N. discriminate N. }
  rewrite E3, !KM. unfold ret. cbn [fst snd]. do 4 eexists. split; [reflexivity|]. split; [reflexivity|]. intros _. constructor; auto.
  intros e x I. cbn [dl_secs dl_vals] in *. destruct (GI x I) as (w & J).
  assert (IX : In x U) by now apply IN.
  rewrite !(dget_indep U HU e (env a)) by (auto; now apply keyed_update).
  apply dupdate_given. exists x, w. split; auto. unfold sec_eqb. rewrite (proj2 (bytes_eqb_eq _ _) eq_refl), oz_eqb_refl. reflexivity.
Qed.
Lemma lock_all s : over U s -> gives sd s -> forall s', near0 s s' -> over U s' -> forall a, lock s s' a.
Proof.
  induction s as [d|subs b IH|subs b ch IH|k b q|k b q con IH] using stmt_ind'; intros V G s' N V' a; inversion N as [? ? E1 E2 E3 _|? subs' ? F|? ? ? ? ? ? _]; subst.
  - inversion V; subst. inversion V'; subst. now apply lock_dl.
  - inversion V as [|? ? V1| |]; subst. inversion V' as [|? ? V2| |]; subst. inversion G as [|? ? G1| |]; subst. unfold lock. cbn [get_prover]. unfold bind.
    destruct (update_ok sd a) as [a1 UP]. rewrite UP.
    destruct b; [right; unfold ret; do 4 eexists; split; [reflexivity|]; split; [reflexivity|]; intros X; now destruct X|].
    assert (M : forall a1, (exists x, mapM (fun s => get_prover s sd) subs a1 = Err x /\ mapM (fun s => get_prover s sd) subs' a1 = Err x) \/
      (exists l l' a2, mapM (fun s => get_prover s sd) subs a1 = Ok (l, a2) /\ mapM (fun s => get_prover s sd) subs' a1 = Ok (l', a2) /\
        map fst l' = map fst l /\ (forallb (fun r => is_some (fst r)) l = true -> Forall2 (near valQ False) (map snd l) (map snd l')))).
    { clear - IH F V1 V2 G1. revert subs' F V1 V2 G1. induction IH as [|x l Hx IH IHs]; intros m F V1 V2 G1 a1; inversion F as [|? y ? m' Nx F']; subst.
      - right. exists [], [], a1. repeat split; auto. intros _. constructor.
      - inversion V1; subst. inversion V2; subst. inversion G1; subst. cbn [mapM]. unfold bind.
        destruct (Hx ltac:(auto) ltac:(auto) y Nx ltac:(auto) a1) as [(er & A & B)|(o & t & t' & a2 & A & B & T)]; rewrite A, B; [left; eauto|].
        destruct (IHs m' F' ltac:(auto) ltac:(auto) ltac:(auto) a2) as [(er & C & D)|(r & r' & a3 & C & D & M & T')]; rewrite C, D; [left; eauto|].
        right. unfold ret. do 3 eexists. split; [reflexivity|]. split; [reflexivity|]. split; [cbn [map fst]; congruence|].
        cbn [forallb fst map snd]. destruct o as [p|]; [|discriminate]. cbn [is_some andb]. intros X. constructor; auto. apply T. discriminate. }
    destruct (M a1) as [(x & A & B)|(l & l' & a2 & A & B & ME & T)]; rewrite A, B; [left; eauto|].
    assert (FB : forallb (fun r : option prover * stmt => is_some (fst r)) l' = forallb (fun r => is_some (fst r)) l /\
      flat_map (fun r : option prover * stmt => match fst r with Some p => [p] | None => [] end) l' =
      flat_map (fun r : option prover * stmt => match fst r with Some p => [p] | None => [] end) l).
    { clear - ME. revert l' ME. induction l as [|[o x] l IHl]; intros [|[o' x'] l'] M; try discriminate M; auto.
      cbn [map fst] in M. injection M as -> M. destruct (IHl l' M) as [A B]. cbn [forallb flat_map fst]. rewrite A, B. auto. }
    destruct FB as [FB FM]. rewrite FB, FM. destruct (forallb _ l) eqn:X;
      [|left; unfold raise; eauto].
    right. unfold ret. do 4 eexists. split; [reflexivity|]. split; [reflexivity|]. intros _. constructor. now apply T.
  - right. cbn [get_prover]. unfold bind, get_env, ret. destruct (update_ok sd a) as [a1 ->]. do 4 eexists. split; [reflexivity|]. split; [reflexivity|].
    intros _. constructor. tauto.
  - right. cbn [get_prover]. unfold bind, get_env, ret. destruct (update_ok sd a) as [a1 ->]. do 4 eexists. split; [reflexivity|]. split; [reflexivity|].
    intros _. constructor. tauto.
Qed.
End G.
End U.

(** ** precommit() *)
Lemma zipM_locked {A A' B C} (R : A -> A' -> Prop) (f : A -> B -> M (C * A)) (g : A' -> B -> M (C * A')) l l' :
  Forall2 (fun x y => forall p a, (exists e, f x p a = Err e /\ g y p a = Err e) \/
    exists c x' y' a', f x p a = Ok ((c, x'), a') /\ g y p a = Ok ((c, y'), a') /\ R x' y') l l' ->
  forall ps a, (exists e, zipM f l ps a = Err e /\ zipM g l' ps a = Err e) \/
    exists r r' a', zipM f l ps a = Ok (r, a') /\ zipM g l' ps a = Ok (r', a') /\ map fst r' = map fst r /\ Forall2 R (map snd r) (map snd r').
Proof.
  induction 1 as [|x y l l' H F IH]; intros ps a.
  - right. exists [], [], a. repeat split; auto. constructor.
  - destruct ps as [|p ps]; [right; exists [], [], a; repeat split; auto; constructor|]. cbn [zipM]. unfold bind.
    destruct (H p a) as [(e & E & G)|(c & x' & y' & a1 & E & G & Rx)]; rewrite E, G; [left; eauto|].
    destruct (IH ps a1) as [(e & E2 & G2)|(r & r' & a2 & E2 & G2 & M & F2)]; rewrite E2, G2; [left; eauto|].
    right. unfold ret. do 3 eexists. split; [reflexivity|]. split; [reflexivity|]. cbn [map fst snd]. repeat split; try congruence. now constructor.
Qed.
Lemma near_precommit s : forall s', near valQ False s s' -> forall p a,
  (exists x, precommit s p a = Err x /\ precommit s' p a = Err x) \/
  exists v t t' a', precommit s p a = Ok ((v, t), a') /\ precommit s' p a = Ok ((v, t'), a') /\ near valQ True t t'.
Proof.
  assert (EX : forall k b pre con pre' con' p a, (exists x, precommit (SExt k b pre con) p a = Err x /\ precommit (SExt k b pre' con') p a = Err x) \/
    exists v t t' a', precommit (SExt k b pre con) p a = Ok ((v, t), a') /\ precommit (SExt k b pre' con') p a = Ok ((v, t'), a') /\ near valQ True t t').
  { intros k b pre con pre' con' p a. destruct p; cbn [precommit]; try (left; unfold raise; eauto; fail). unfold bind, ret.
    destruct (kprecommit k a) as [[v a1]|x]; [|left; eauto]. destruct (construct k v a1) as [[c a2]|x]; [|left; eauto].
    destruct (get_prover c sv a2) as [[r a3]|x]; [|left; eauto]. right. do 4 eexists. split; [reflexivity|]. split; [reflexivity|]. constructor. auto. }
  induction s as [d|subs b IH|subs b ch IH|k b q|k b q con IH] using stmt_ind'; intros s' H p a; inversion H as [? d' E1 E2 E3 V|? subs' ? F|]; subst; try apply EX.
  - destruct p; cbn [precommit]; try (left; unfold raise; eauto; fail). right. unfold ret. do 4 eexists. split; [reflexivity|]. split; [reflexivity|]. constructor; auto.
  - destruct p as [|ps| |]; cbn [precommit]; try (left; unfold raise; eauto; fail).
    destruct (zipM_locked (near valQ True) precommit precommit subs subs') with (ps := ps) (a := a) as [(x & E & G)|(r & r' & a' & E & G & M & F2)].
    + clear H. revert subs' F. induction IH as [|x subs Hx IH IHs]; intros subs' F; inversion F; subst; constructor; auto.
    + left. exists x. unfold bind. rewrite E, G. auto.
    + right. unfold bind. rewrite E, G. unfold ret.
      assert (X : map (fun r => fst (fst r)) r' = map (fun r => fst (fst r)) r /\ map (fun r => snd (fst r)) r' = map (fun r => snd (fst r)) r).
      { clear - M. revert r' M. induction r as [|[[v q] y] r IHr]; intros [|[[v' q'] y'] r'] M; try discriminate M; auto.
        cbn [map fst snd] in *. injection M as -> -> M. destruct (IHr r' M) as [A B]. rewrite A, B. auto. }
      destruct X as [X1 X2]. rewrite X1, X2. do 4 eexists. split; [reflexivity|]. split; [reflexivity|]. now constructor.
Qed.

(** ** The rest of prove() *)
Notation near1 := (near valQ True).
Ltac ext_case := match goal with H : True -> _ /\ _ |- _ => destruct (H I) as [-> ->] end.
Lemma near_vars s : forall s', near1 s s' -> get_secret_vars s' = get_secret_vars s /\ get_bases s' = get_bases s.
Proof.
  induction s as [d|subs b IH|subs b ch IH|k b q|k b q con IH] using stmt_ind'; intros s' H; inversion H; subst; try (ext_case; auto; fail).
  - cbn [get_secret_vars get_bases]. split; congruence.
  - cbn [get_secret_vars get_bases]. assert (K : rmap get_secret_vars subs' = rmap get_secret_vars subs /\ rmap get_bases subs' = rmap get_bases subs).
    { clear H. match goal with F : Forall2 _ _ _ |- _ => revert subs' F end. induction IH as [|x subs Hx IH IHs]; intros subs' F; inversion F; subst; auto.
      destruct (Hx y) as [A1 A2]; [assumption|]. destruct (IHs l') as [A3 A4]; [assumption|].
      split; cbn [rmap]; [rewrite A1, A3|rewrite A2, A4]; reflexivity. }
    destruct K as [-> ->]. auto.
Qed.
Lemma near_id s : forall s', near1 s s' -> forall m, get_proof_id s' m = get_proof_id s m.
Proof.
  induction s as [d|subs b IH|subs b ch IH|k b q|k b q con IH] using stmt_ind'; intros s' H m; destruct (near_vars _ _ H) as [V B]; inversion H; subst; try (ext_case; auto; fail).
  - cbn [get_proof_id]. repeat match goal with E : _ = _ d |- _ => rewrite E; clear E end. reflexivity.
  - cbn [get_proof_id]. rewrite V, B.
    assert (K : forall m, rmap (fun s => get_proof_id s m) subs' = rmap (fun s => get_proof_id s m) subs).
    { intros m'. clear H V B. match goal with F : Forall2 _ _ _ |- _ => revert subs' F end.
      induction IH as [|x subs Hx IH IHs]; intros subs' F; inversion F; subst; auto.
      cbn [rmap]. rewrite Hx by assumption. rewrite IHs by assumption. reflexivity. }
    destruct (get_secret_vars (SAnd subs b)) as [u|]; [|reflexivity]. cbn [rbind]. clear V B. destruct (get_bases (SAnd subs b)); [|reflexivity]. cbn [rbind]. cbv zeta.
    rewrite K. reflexivity.
Qed.
Lemma near_reoc e s : forall s', near1 s s' -> forall f, validate_reoccurence e s' f = validate_reoccurence e s f.
Proof.
  induction s as [d|subs b IH|subs b ch IH|k b q|k b q con IH] using stmt_ind'; intros s' H f; destruct (near_vars _ _ H) as [V B]; inversion H; subst; auto; try (ext_case; auto; fail).
  cbn [validate_reoccurence]. rewrite V.
  assert (K : forall f, rmap (fun p => validate_reoccurence e p f) subs' = rmap (fun p => validate_reoccurence e p f) subs).
  { intros f'. clear H V B. match goal with F : Forall2 _ _ _ |- _ => revert subs' F end.
    induction IH as [|x subs Hx IH IHs]; intros subs' F; inversion F; subst; auto.
    cbn [rmap]. rewrite Hx by assumption. rewrite IHs by assumption. reflexivity. }
  destruct f as [f|]; cbn [rbind]; [now rewrite K|]. destruct (get_secret_vars (SAnd subs b)); cbn [rbind]; [now rewrite K|reflexivity].
Qed.
Lemma near_validate e s s' : near1 s s' -> validate_and e s' = validate_and e s.
Proof. intros H. unfold validate_and, validate_group_orders. destruct (near_vars s s' H) as [-> ->]. now rewrite (near_reoc e s s'). Qed.
Lemma near_rand s s' : near1 s s' -> forall a, randomizers_and s' a = randomizers_and s a.
Proof. intros H a. unfold randomizers_and. destruct (near_vars s s' H) as [-> ->]. reflexivity. Qed.
Lemma near_update s s' : near1 s s' -> forall o a,
  update_randomizers (randomizers_and s') (get_secret_vars s') o a = update_randomizers (randomizers_and s) (get_secret_vars s) o a.
Proof.
  intros H o a. unfold update_randomizers. destruct o as [d|]; [|now apply near_rand]. destruct (near_vars s s' H) as [-> _].
  apply bind_ext; auto. intros ss b. apply bind_ext; auto. intros e c. destruct (existsb _ _); [|reflexivity].
  apply bind_ext; auto. now apply near_rand.
Qed.
Lemma near_commit s : forall s', near1 s s' -> forall p rd a, internal_commit s' p rd a = internal_commit s p rd a.
Proof.
  induction s as [d|subs b IH|subs b ch IH|k b q|k b q con IH] using stmt_ind'; intros s' H p rd a; inversion H; subst; try (ext_case; auto; fail).
  - destruct p; cbn [internal_commit]; auto. unfold commit_dl, randomizers_dl.
    repeat match goal with E : _ = _ d |- _ => rewrite E; clear E end. reflexivity.
  - destruct p as [|ps| |]; cbn [internal_commit]; auto. apply bind_ext; auto. intros e c. apply bind_ext; [intros; now rewrite (near_validate e _ _ H)|].
    intros _ a1. apply bind_ext; [intros; now apply near_update|]. intros rd' a2. apply bind_ext; auto.
    intros a3. apply zipM_ext. clear - IH H. inversion H as [|x1 x2 x3 F|]; subst. clear H.
    revert subs' F. induction IH as [|x subs Hx IH IHs]; intros subs' F; inversion F; subst; constructor; auto.
Qed.
Lemma near_response s c : forall s', near1 s s' -> forall p a, compute_response s' p c a = compute_response s p c a.
Proof.
  induction s as [d|subs b IH|subs b ch IH|k b q|k b q con IH] using stmt_ind'; intros s' H p a; inversion H as [? d' E1 E2 E3 V|? subs' ? F|]; subst; try (ext_case; auto; fail).
  - destruct p as [ks| | |]; cbn [compute_response]; auto. unfold respond_dl. rewrite E2. destruct ks as [ks|]; [|reflexivity]. destruct (dl_bases d) as [|b0 bs]; [reflexivity|].
    unfold bind, get_env, lift, ret. rewrite E3.
    assert (K : rmap (fun sk : secret * Z => let? v := dget_err (env a) (dl_vals d') (fst sk) in Ok ((v * c + snd sk) mod order (grp b0))) (combine (dl_secs d) ks) =
                rmap (fun sk : secret * Z => let? v := dget_err (env a) (dl_vals d) (fst sk) in Ok ((v * c + snd sk) mod order (grp b0))) (combine (dl_secs d) ks)).
    { unfold valQ in V. clear - V. revert ks. induction (dl_secs d) as [|x ss IHss]; intros [|k ks]; auto. cbn [combine rmap fst snd]. unfold dget_err at 1 3.
      rewrite V by now left. rewrite IHss by (intros e y I; apply V; now right). reflexivity. }
    rewrite K. reflexivity.
  - destruct p as [|ps| |]; cbn [compute_response]; auto. apply bind_ext; auto. intros a1. apply zipM_ext. clear H.
    revert subs' F. induction IH as [|x subs Hx IH IHs]; intros subs' F; inversion F; subst; constructor; auto.
Qed.

Theorem reuse U s s' sd msg a : wfL U -> orfree s -> over U s -> uses U s s' -> keyed_by U sd -> sd <> [] -> gives sd s ->
  (exists x, prove s sd msg a = Err x /\ prove s' sd msg a = Err x) \/
  exists z t t' a', prove s sd msg a = Ok ((z, t), a') /\ prove s' sd msg a = Ok ((z, t'), a').
Proof.
  intros HU O V US KD NE G. destruct (uses_near U HU s s' US O V) as [N V'].
  destruct (lock_all U HU sd KD NE s V G s' N V' a) as [(x & A & B)|(o & t & t' & a1 & A & B & T)];
    unfold prove, get_nizk_proof, bind, lift, ret; rewrite A, B; [left; eauto|]. destruct o as [p|]; [|left; exists EAttributeErr; auto].
  specialize (T ltac:(discriminate)). cbn [fst snd].
  destruct (near_precommit t t' T p a1) as [(x & A2 & B2)|([v q] & u & u' & a2 & A2 & B2 & T2)]; rewrite A2, B2; [left; eauto|].
  rewrite (near_commit u u' T2 q None a2). destruct (internal_commit u q None a2) as [[[com q'] a3]|x] eqn:IC; [|left; eauto].
  unfold prehash_input. rewrite (near_id u u' T2). destruct (get_proof_id u None) as [i|x]; cbn [rbind]; [|left; eauto].
  destruct (encode _) as [h|x]; [|left; eauto].
  destruct (fs_challenge h [v; com] msg) as [c|x]; [|left; eauto].
  rewrite (near_response u c u' T2). destruct (compute_response u q' c a3) as [[r a4]|x]; [|left; eauto].
  right. do 4 eexists. split; reflexivity.
Qed.

(** ** prove() and verify() are such uses *)
Inductive pshape : stmt -> prover -> Prop :=
| PsDL d ks : pshape (SDL d) (PDL ks)
| PsAnd subs b ps : Forall2 pshape subs ps -> pshape (SAnd subs b) (PAnd ps)
| PsExt k b pre con sv r : pshape (SExt k b pre con) (PExt sv r).
Lemma get_prover_shape s : orfree s -> forall sd a p t a', get_prover s sd a = Ok ((Some p, t), a') -> pshape t p.
Proof.
  induction s as [d|subs b IH|subs b ch IH|k b q|k b q con IH] using stmt_ind'; intros O sd a p t a' H; inversion O as [|? ? CS|]; subst; cbn [get_prover] in H.
  - apply bind_ok in H as ([o d'] & a1 & E & H). apply ret_ok in H as [H _]. unfold get_prover_dl in E. apply bind_ok in E as (e & a2 & _ & E).
    cbv zeta in E. destruct (_ || _); apply ret_ok in E as [E _]; injection E as <- <-; cbn [fst snd] in H; [discriminate H|]. injection H as <- <-. constructor.
  - apply bind_ok in H as (u & a1 & _ & H). destruct b; [apply ret_ok in H as [H _]; discriminate H|].
    apply bind_ok in H as (l & a2 & M & H). destruct (forallb _ l) eqn:FB; [|discriminate H]. apply ret_ok in H as [H _]. injection H as <- <-. constructor.
    clear a O. revert a1 l a2 M FB CS. induction IH as [|x m Hx IH IHs]; intros a1 l a2 M FB CS; cbn [mapM] in M.
    + apply ret_ok in M as [<- _]. constructor.
    + apply bind_ok in M as ([o y] & a3 & Ex & M). apply bind_ok in M as (r & a4 & Es & M). apply ret_ok in M as [<- _].
      inversion CS; subst. cbn [forallb fst] in FB. destruct o as [p|]; [|discriminate FB]. cbn [is_some andb] in FB. cbn [map snd flat_map fst app]. constructor; eauto.
  - apply bind_ok in H as (u & a1 & _ & H). apply bind_ok in H as (e & a2 & _ & H). apply ret_ok in H as [H _]. injection H as <- <-. constructor.
  - apply bind_ok in H as (u & a1 & _ & H). apply bind_ok in H as (e & a2 & _ & H). apply ret_ok in H as [H _]. injection H as <- <-. constructor.
Qed.
Lemma precommit_bare s : forall p, pshape s p -> forall a v t a', precommit s p a = Ok ((v, t), a') -> bare t = bare s.
Proof.
  assert (EX : forall k b q con sv r a v t a', precommit (SExt k b q con) (PExt sv r) a = Ok ((v, t), a') -> bare t = bare (SExt k b q con)).
  { intros k b q con sv r a v t a' H. cbn [precommit] in H. apply bind_ok in H as (v0 & a1 & _ & H). apply bind_ok in H as (c & a2 & _ & H).
    apply bind_ok in H as (g & a3 & _ & H). apply ret_ok in H as [H _]. injection H as _ <-. reflexivity. }
  induction s as [d|subs b IH|subs b ch IH|k b q|k b q con IH] using stmt_ind'; intros p P a v t a' H; inversion P as [|? ? ps F|]; subst; try (eapply EX; eauto; fail); cbn [precommit] in H.
  - apply ret_ok in H as [H _]. injection H as _ <-. reflexivity.
  - apply bind_ok in H as (r & a1 & Z & H). apply ret_ok in H as [H _]. injection H as _ <-. cbn [bare]. f_equal.
    clear v P a'. revert ps F a r a1 Z. induction IH as [|x l Hx IH IHs]; intros ps F a r a1 Z; inversion F; subst; cbn [zipM] in Z.
    + apply ret_ok in Z as [<- _]. reflexivity.
    + apply bind_ok in Z as ([v0 y0] & a2 & E & Z). apply bind_ok in Z as (r2 & a3 & Z2 & Z). apply ret_ok in Z as [<- _].
      cbn [map snd]. f_equal; eauto.
Qed.
Lemma prove_use U s sd msg a z t a' : orfree s -> keyed_by U sd -> prove s sd msg a = Ok ((z, t), a') -> uses U s t.
Proof.
  intros O K H. unfold prove in H. apply bind_ok in H as ([o s1] & a1 & GP & H). destruct o as [p|]; [|discriminate H].
  assert (SH := get_prover_shape s O _ _ _ _ _ GP).
  assert (A : exists r a2, attempt s sd a = (r, s1, a2)).
  { rewrite attempt_get_prover in GP. destruct (attempt s sd a) as [[[o|e] s2] a2]; [|discriminate GP]. injection GP as -> -> ->. eauto. }
  destruct A as (r & a2 & A). eapply UsGet; [exact K|exact A|].
  cbn [fst snd] in H. unfold get_nizk_proof in H.
  apply bind_ok in H as ([[z0 q0] u0] & a4 & H0 & H). apply ret_ok in H as [H _]. injection H as _ <-.
  apply bind_ok in H0 as ([[v q] u] & a3 & PC & H). apply bind_ok in H as ([com q2] & a5 & _ & H). apply bind_ok in H as (h & a6 & _ & H).
  apply bind_ok in H as (c & a7 & _ & H). apply bind_ok in H as (r0 & a8 & _ & H). apply ret_ok in H as [H _]. injection H as _ _ <-.
  apply UsIn with (s1 := u); [exact (precommit_bare s1 p SH _ _ _ _ PC)|constructor].
Qed.
Lemma verify_use U s z msg a b t a' : verify s z msg a = Ok ((b, t), a') -> uses U s t.
Proof.
  intros H. apply UsIn with (s1 := t); [|constructor]. unfold verify, verify_nizk in H.
  apply bind_ok in H as ([v2 s2] & a2 & E & H).
  apply bind_ok in H as (h & ? & _ & H). apply bind_ok in H as (e & ? & _ & H). apply bind_ok in H as (u & ? & _ & H).
  apply bind_ok in H as (c & ? & _ & H). apply bind_ok in H as (c2 & ? & _ & H). apply ret_ok in H as [H _]. injection H as _ <-.
  destruct (is_none (n_pre z)); [apply ret_ok in E as [E _]; injection E as _ <-; auto|].
  exact (proj1 (process_bare s _ _ _ _ _ (vbare_get s) E)).
Qed.
Lemma used_then U s sd a s2 : keyed_by U sd -> bare s2 = bare (left_by (attempt s sd a)) -> uses U s s2.
Proof.
  intros K B. apply (UsGet U s sd a (fst (fst (attempt s sd a))) (left_by (attempt s sd a)) (snd (attempt s sd a))); auto.
  - unfold left_by. destruct (attempt s sd a) as [[r t] b]. reflexivity.
  - apply (UsIn U _ s2 _ B). constructor.
Qed.
End R.

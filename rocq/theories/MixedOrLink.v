(** Disjunctions with primitives defined by users: the primitives of the library are such classes. *)
From Coq Require Import String Lia.
From Verif Require Import Base World Val Expr Utils Stmt Prove Verify Lib Keeps Tree History IdProofs3 Checks2 FailedProofs Custom CustomProofs Mixed MixedLink MixedOr.
Open Scope Z_scope.
Open Scope list_scope.

Section M.
Context {W : World}.

(** Runs with the same errors and states, and related results. *)
Definition rres {A B} (R : A -> B -> Prop) (x : res (A * st)) (y : res (B * st)) : Prop :=
  match x, y with
  | Ok (a, s), Ok (b, s') => s = s' /\ R a b
  | Err e, Err e' => e = e'
  | _, _ => False
  end.
Lemma rres_bind {A B C D} (R : A -> B -> Prop) (Q : C -> D -> Prop) (m : M A) (m' : M B) (f : A -> M C) (g : B -> M D) a :
  rres R (m a) (m' a) -> (forall x y b, R x y -> rres Q (f x b) (g y b)) -> rres Q (bind m f a) (bind m' g a).
Proof. unfold rres, bind. destruct (m a) as [[x b]|], (m' a) as [[y b']|]; try contradiction; auto. intros [<- H] K. now apply K. Qed.
Lemma rres_ret {A B} (R : A -> B -> Prop) x y a : R x y -> rres R (ret x a) (ret y a).
Proof. unfold rres, ret. auto. Qed.
Lemma rres_same {A} (m m' : M A) a : m a = m' a -> rres eq (m a) (m' a).
Proof. unfold rres. intros <-. destruct (m a) as [[]|]; auto. Qed.
Lemma rres_raise {A B} (R : A -> B -> Prop) e a : rres R (raise e a) (raise e a).
Proof. reflexivity. Qed.
Lemma rres_eq {A} (x y : res (A * st)) : rres eq x y -> x = y.
Proof. unfold rres. destruct x as [[]|], y as [[]|]; try contradiction; try congruence. intros [-> ->]. reflexivity. Qed.

Section L.
Context (l l' : list stmt) (F : Forall2 alk l l').
Lemma or_vars b c b' c' : get_secret_vars (SOr l' b c) = get_secret_vars (SOr l b' c').
Proof. cbn [get_secret_vars]. now rewrite (rmap_F2 get_secret_vars get_secret_vars alk l l' alk_vars F). Qed.
Lemma or_bases b c b' c' : get_bases (SOr l' b c) = get_bases (SOr l b' c').
Proof. cbn [get_bases]. now rewrite (rmap_F2 get_bases get_bases alk l l' alk_bases F). Qed.
Lemma or_prehash b c b' c' : prehash_input (SOr l' b c) = prehash_input (SOr l b' c').
Proof.
  unfold prehash_input. cbn [get_proof_id]. fold (get_secret_vars (SOr l' b c)) (get_bases (SOr l' b c)) (get_secret_vars (SOr l b' c')) (get_bases (SOr l b' c')).
  rewrite (or_vars b c b' c'), (or_bases b c b' c'). destruct (get_secret_vars _); [|reflexivity]. cbn [rbind]. destruct (get_bases _); [|reflexivity]. cbn [rbind].
  erewrite <- (rmap_F2 _ _ alk l l'); [reflexivity| |exact F]. intros x y. apply alk_id.
Qed.
Lemma F2_nth_r i : match nth_error l i, nth_error l' i with Some x, Some y => alk x y | None, None => True | _, _ => False end.
Proof. revert i. induction F as [|x y m m' XY G IH]; intros [|i]; cbn; auto.
  apply IH, G.
Qed.
Lemma or_commit b c p rd a : internal_commit (SOr l' b c) p rd a = internal_commit (SOr l b c) p rd a.
Proof.
  destruct p as [| |i sp sims|]; try reflexivity. rewrite !internal_commit_or. apply bind_ext; auto. intros e a1.
  assert (V : validate_or e (SOr l' b c) = validate_or e (SOr l b c)).
  { unfold validate_or, validate_group_orders. now rewrite (or_bases b c b c), (or_vars b c b c). }
  rewrite V. apply bind_ext; auto. intros _ a2. apply bind_ext; auto. intros a3. rewrite !sel_loop_eq. assert (N := F2_nth_r i).
  destruct (nth_error l i), (nth_error l' i); try contradiction; auto. now apply alk_commit.
Qed.
Lemma or_respond b c p ch a : compute_response (SOr l' b c) p ch a = compute_response (SOr l b c) p ch a.
Proof.
  destruct p as [| |i sp sims|]; try reflexivity. rewrite !compute_response_or. cbv zeta. apply bind_ext; auto. intros a3. rewrite !sel_loop_eq. assert (N := F2_nth_r i).
  destruct (nth_error l i), (nth_error l' i); try contradiction; auto. now apply alk_respond.
Qed.
Lemma or_recompute b c ch r b' c' : recompute (SOr l' b c) ch r = recompute (SOr l b' c') ch r.
Proof.
  cbn [recompute]. destruct (index r 0) as [cs|]; [|reflexivity]. cbn [rbind]. destruct (index r 1) as [rs|]; [|reflexivity]. cbn [rbind].
  match goal with |- context [rimap ?f 0 l'] => rewrite (rimap_F2 f alk l l' 0); [reflexivity| |exact F] end.
  intros i x y A. destruct (index cs i) as [ci|]; [|reflexivity]. cbn [rbind]. destruct (index rs i) as [ri|]; [|destruct ci; reflexivity]. cbn [rbind].
  destruct (as_int ci); [|reflexivity]. cbn [rbind]. now apply alk_recompute.
Qed.
Lemma or_consistent e b c v r rd b' c' : consistent e (SOr l' b c) v r rd = consistent e (SOr l b' c') v r rd.
Proof.
  destruct v as [| |vs|]; try reflexivity. cbn [consistent]. generalize 0%nat at 2 4 as i. revert vs.
  induction F as [|x y m m' XY G IH]; intros vs i; [reflexivity|]. destruct vs as [|v vs]; [reflexivity|].
  destruct (index r 1) as [rs|]; [|reflexivity]. cbn [rbind]. destruct (index rs i) as [ri|]; [|reflexivity]. cbn [rbind]. rewrite (alk_consistent e v ri [] x y XY).
  destruct (consistent e y v ri []) as [[rd'|]|]; cbn [rbind]; auto.
Qed.
End L.

(** ** prove() *)
Definition gl (u : mpart) (s s' : stmt) : Prop :=
  match fst u with
  | UK K => exists k b b' q c, K = class_of k /\ s' = SExt k b q c /\ s = SExt (KCustom (class_name k) []) b' q c
  | US _ => s = s'
  end.
Inductive gls : list mpart -> list stmt -> list stmt -> Prop :=
| GlN : gls [] [] []
| GlC u l s ss s' ss' : gl u s s' -> gls l ss ss' -> gls (u :: l) (s :: ss) (s' :: ss').
Lemma gls_alk l ss ss' : gls l ss ss' -> Forall2 alk ss ss'.
Proof.
  induction 1 as [|[u b0] l s ss s' ss' G H IH]; constructor; auto. unfold gl in G. cbn [fst] in G. destruct u as [K|s0].
  - destruct G as (k & b & b' & q & c & -> & -> & ->). now constructor.
  - subst. constructor.
Qed.
Lemma gls_start l subs : Forall2 marked l subs -> gls l (map oshell l) subs.
Proof.
  induction 1 as [|[u b] s l subs (s0 & P & ->) F IH]; cbn [map]; constructor; auto. unfold gl, oshell. cbn [fst snd] in *. inversion P; subst; [|reflexivity].
  exists k, b, b, VNone, None. auto.
Qed.
Lemma gls_nth l ss ss' : gls l ss ss' -> forall i, match nth_error l i, nth_error ss i, nth_error ss' i with
  | Some u, Some s, Some s' => gl u s s' | None, None, None => True | _, _, _ => False end.
Proof. induction 1 as [|u l s ss s' ss' G H IH]; intros [|i]; cbn; auto. apply IH. Qed.
Lemma gls_replace l ss ss' : gls l ss ss' -> forall i u s s', nth_error l i = Some u -> gl u s s' -> gls l (replace i s ss) (replace i s' ss').
Proof.
  induction 1 as [|x l y ss y' ss' G H IH]; intros [|i] u s s' N D; cbn [replace nth_error] in *; try constructor; auto; try discriminate N.
  - injection N as ->. auto.
  - eapply IH; eauto.
Qed.
Lemma cands_linked l ss : map (fun u : mpart => snd u) l = map simulated ss -> candidates l =
  map fst (filter (fun p : nat * stmt => negb (simulated (snd p))) (combine (seq 0 (List.length ss)) ss)).
Proof.
  intros E. unfold candidates. assert (L : List.length l = List.length ss) by (apply (f_equal (@List.length _)) in E; now rewrite !map_length in E).
  rewrite L. clear L. generalize 0%nat. revert ss E. induction l as [|[u b] l IH]; intros [|s ss] E n; try discriminate E; [reflexivity|].
  cbn [map snd] in E. injection E as E1 E. specialize (IH ss E (S n)). cbn [List.length seq combine filter snd map]. rewrite <- E1. destruct b; cbn [negb map fst]; [exact IH|]. f_equal. exact IH.
Qed.
Lemma simulated_set b s : simulated (set_simulated b s) = b.
Proof. destruct s; reflexivity. Qed.
Definition pgl (l : list mpart) (x y : option (nat * prover) * list stmt) : Prop :=
  fst x = fst y /\ gls l (snd x) (snd y) /\
  forall i p K b, fst x = Some (i, p) -> nth_error l i = Some (UK K, b) -> exists sv, p = PExt sv None.
Lemma loop_linked sd l ss0 ss0' : gls l ss0 ss0' -> forall fuel possible ss ss' a, gls l ss ss' ->
  rres (pgl l) (or_loop fuel (map (fun s => get_prover s sd) ss0) possible ss a) (or_loop fuel (map (fun s => get_prover s sd) ss0') possible ss' a).
Proof.
  intros G0. induction fuel as [|fuel IH]; intros possible ss ss' a G; cbn [or_loop].
  - apply rres_ret. split; auto. split; auto. discriminate.
  - apply (rres_bind eq); [now apply rres_same|]. intros z ? b <-. destruct (nth_error possible _) as [i|]; [|apply rres_raise].
    rewrite !nth_error_map. assert (N := gls_nth _ _ _ G0 i).
    destruct (nth_error l i) as [u|] eqn:Nu, (nth_error ss0 i) as [s|] eqn:Ns, (nth_error ss0' i) as [s'|] eqn:Ns'; try contradiction; [|apply rres_raise]. cbn [option_map].
    apply (rres_bind (fun x y => fst x = fst y /\ gl u (snd x) (snd y) /\ forall p K b, fst x = Some p -> u = (UK K, b) -> exists sv, p = PExt sv None)).
    + unfold gl in N |- *. destruct u as [[K|s0] bb]; cbn [fst] in *.
      * destruct N as (k & b0 & b0' & q & c & -> & -> & ->). cbn [get_prover]. apply (rres_bind eq); [now apply rres_same|]. intros [] ? b' _.
        apply (rres_bind eq); [now apply rres_same|]. intros e ? b'' <-. apply rres_ret. cbn [fst snd]. split; auto. split; [exists k, b0, b0', q, c; auto|]. intros p K' b1 [= <-] _. eauto.
      * subst s'. destruct (get_prover s sd b) as [[x a1]|]; cbn; auto. split; auto. split; auto. split; auto. discriminate.
    + intros [o x] [o' x'] b1 (E & D & P). cbn [fst snd] in *. subst o'. assert (G' := gls_replace _ _ _ G i u x x' Nu D). destruct o as [p|].
      * apply rres_ret. split; auto. split; auto. intros j q K bb [= <- <-] N'. rewrite Nu in N'. injection N' as ->. eauto.
      * destruct (empty_dict _); [apply rres_ret; split; auto; split; auto; discriminate|]. now apply IH.
Qed.
Lemma setup_linked idx l : forall ss ss' i a, gls l ss ss' ->
  rres (fun x y => snd x = snd y /\ gls l (fst x) (fst y)) (osetup idx i l ss a) (setup_loop idx i ss' a).
Proof.
  induction l as [|u l IH]; intros ss ss' i a G; inversion G as [|? ? s st s' st' G1 G2]; subst; cbn [osetup setup_loop].
  - apply rres_ret. split; auto.
  - destruct (Nat.eqb i idx).
    + eapply rres_bind; [apply IH; eauto|]. intros [x1 x2] [y1 y2] b [E H]. cbn [fst snd] in *. subst. apply rres_ret. split; auto. cbn [fst]. now constructor.
    + unfold osim1, gl in *. destruct u as [[K|s0] bb]; cbn [fst snd] in *.
      * destruct G1 as (k & b0 & b0' & q & c & -> & -> & ->). cbn [class_of c_sim c_con prepare_sim]. unfold full_construct. unfold bind, rres.
        destruct (ksim_precommit k a) as [[pre a1]|]; [|reflexivity]. destruct (construct k pre a1) as [[c1 a2]|]; [|reflexivity]. unfold ret. cbn [simulate_proof]. unfold bind.
        destruct (simulate_proof c1 None None a2) as [[t a3]|]; [|reflexivity]. unfold ret. specialize (IH st st' (S i) a3 G2). unfold rres in IH.
        destruct (osetup idx (S i) l st a3) as [[x a4]|], (setup_loop idx (S i) st' a3) as [[y a4']|]; try contradiction; auto.
        destruct IH as (-> & E & H). cbn [fst snd]. split; auto. split; [congruence|]. constructor; auto. unfold gl. cbn [fst]. exists k, b0, bb, pre, (Some c1). auto.
      * subst s'. unfold bind, rres. destruct (prepare_sim s a) as [[s1 a1]|]; [|reflexivity]. destruct (simulate_proof s1 None None a1) as [[t a2]|]; [|reflexivity]. unfold ret.
        specialize (IH st st' (S i) a2 G2). unfold rres in IH.
        destruct (osetup idx (S i) l st a2) as [[x a4]|], (setup_loop idx (S i) st' a2) as [[y a4']|]; try contradiction; auto.
        destruct IH as (-> & E & H). cbn [fst snd]. split; auto. split; [congruence|]. constructor; auto. unfold gl. reflexivity.
Qed.
Definition ogl (l : list mpart) (x y : option prover * stmt) : Prop :=
  fst x = fst y /\ exists ss ss' c, snd x = SOr ss false c /\ snd y = SOr ss' false c /\ gls l ss ss' /\
  forall p, fst x = Some p -> exists i q sims, p = POr i q sims /\ forall K b, nth_error l i = Some (UK K, b) -> exists sv, q = PExt sv None.
Lemma oget_linked l subs sd a : Forall2 marked l subs -> rres (ogl l) (oget l sd a) (get_prover (SOr subs false None) sd a).
Proof.
  intros F. assert (G := gls_start l subs F). unfold oget. cbn [get_prover]. apply (rres_bind eq); [now apply rres_same|]. intros [] ? a1 _. cbv zeta.
  assert (E : map (fun u : mpart => snd u) l = map simulated subs).
  { clear G. induction F as [|u s l subs (s0 & _ & ->) F IH]; [reflexivity|]. cbn [map]. now rewrite simulated_set, IH. }
  rewrite <- (cands_linked l subs E). destruct (empty_dict _).
  - apply rres_ret. split; auto. do 3 eexists. split; [reflexivity|]. split; [reflexivity|]. split; auto. discriminate.
  - eapply rres_bind; [apply loop_linked; eauto|]. intros [r x] [r' y1] b (E1 & G1 & PX). cbn [fst snd] in *. subst r'. destruct r as [[i p]|].
    + rewrite setup_simulations_eq. eapply rres_bind; [apply setup_linked; eauto|]. intros [x1 x2] [y3 y2] b1 [E2 G2]. cbn [fst snd] in *. subst y2.
      apply rres_ret. split; auto. do 3 eexists. split; [reflexivity|]. split; [reflexivity|]. split; auto. intros q [= <-]. do 3 eexists. split; [reflexivity|]. eauto.
    + apply rres_ret. split; auto. do 3 eexists. split; [reflexivity|]. split; [reflexivity|]. split; auto. discriminate.
Qed.
Lemma opre_linked l ss ss' i q a : gls l ss ss' -> (forall K b, nth_error l i = Some (UK K, b) -> exists sv, q = PExt sv None) ->
  rres (fun x y => fst (fst x) = fst (fst y) /\ snd (fst x) = snd (fst y) /\ Forall2 alk (replace i (snd x) ss) (snd y))
    (match nth_error l i, nth_error ss i with Some u, Some s => upre1 (fst u) s q | _, _ => raise EIndexErr end a)
    (or_pre_loop (fun x => precommit x q) i ss' a).
Proof.
  intros G. revert i. induction G as [|u l s ss s' ss' G1 G2 IH]; intros [|i] H; cbn [nth_error or_pre_loop]; try reflexivity.
  - assert (A := gls_alk _ _ _ G2). unfold gl in G1. destruct u as [[K|s0] b]; cbn [fst] in *.
    + destruct G1 as (k & b0 & b0' & q0 & c0 & -> & -> & ->). destruct (H _ _ eq_refl) as [sv ->].
      cbn [upre1 precommit class_of c_pre c_con]. unfold bind, rres.
      destruct (kprecommit k a) as [[pre a1]|]; [|reflexivity]. destruct (construct k pre a1) as [[c a2]|] eqn:C; [|reflexivity].
      destruct (get_prover c sv a2) as [[[o c'] a3]|] eqn:GP; [|reflexivity]. cbn [fst snd]. rewrite inner_same.
      2:{ intros p ->. apply construct_noext in C. exact (get_prover_fit c C _ _ _ _ GP p eq_refl). }
      unfold ret. cbn [fst snd]. split; auto. split; auto. split; auto. cbn [replace]. constructor; auto. unfold obj_of. now constructor.
    + subst s'. unfold bind, rres. cbn [upre1]. destruct (precommit s q a) as [[[[v p] x] a1]|]; [|reflexivity]. unfold ret. cbn [fst snd]. split; auto. split; auto. split; auto.
      cbn [replace]. constructor; auto. constructor.
  - specialize (IH i H). unfold bind, rres in *. assert (AS : alk s s').
    { assert (X := gls_alk _ _ _ (GlC _ _ _ _ _ _ G1 GlN)). now inversion X. }
    destruct (or_pre_loop _ i ss' a) as [[y a1']|]; match type of IH with match ?m with _ => _ end => destruct m as [[x a1]|] end; try contradiction; auto.
    destruct IH as (-> & E1 & E2 & E3). unfold ret. cbn [fst snd replace]. split; auto.
Qed.
Theorem olink_prove l subs sd msg a : Forall2 marked l subs ->
  oprove l sd msg a = match prove (SOr subs false None) sd msg a with Ok ((z, _), a') => Ok (z, a') | Err e => Err e end.
Proof.
  intros F. unfold oprove, oopen, prove. unfold bind. assert (G := oget_linked l subs sd a F). unfold rres in G.
  destruct (oget l sd a) as [[[o s] a1]|e], (get_prover (SOr subs false None) sd a) as [[[o' s'] a1']|e']; try contradiction; [|now subst].
  destruct G as (<- & E & ss & ss' & c & Es & Es' & GL & P). cbn [fst snd] in *. subst o' s s'. destruct o as [p|]; [|reflexivity].
  destruct (P p eq_refl) as (i & q & sims & -> & PX). unfold get_nizk_proof. rewrite precommit_or. unfold bind.
  assert (L := opre_linked l ss ss' i q a1 GL PX). unfold rres in L.
  destruct (nth_error l i) as [u|]; [destruct (nth_error ss i) as [s|]|]; cbn [raise] in L |- *.
  2-3: destruct (or_pre_loop _ i ss' a1) as [[y b]|]; [contradiction|now subst].
  unfold bind. destruct (upre1 _ s q a1) as [[x a2]|], (or_pre_loop _ i ss' a1) as [[y a2']|]; try contradiction; [|now subst].
  destruct L as (<- & E1 & E2 & A). unfold ret. destruct x as [[v q1] s1], y as [[v' q1'] ss1]. cbn [fst snd] in *. subst v' q1'. unfold pre_any.
  rewrite (or_commit _ _ A), (or_prehash _ _ A false c false c).
  destruct (internal_commit _ _ _ _) as [[[com p] a3]|]; [|reflexivity]. unfold lift. destruct (prehash_input _) as [h|]; [|reflexivity]. unfold ret.
  destruct (fs_challenge _ _ _) as [ch|]; [|reflexivity]. rewrite (or_respond _ _ A). destruct (compute_response _ _ _ _) as [[x a4]|]; reflexivity.
Qed.

(** ** verify() *)
Theorem olink_verify l subs z msg a : Forall2 libpart l subs ->
  overify l z msg a = match verify (SOr subs false None) z msg a with Ok ((r, _), a') => Ok (r, a') | Err e => Err e end.
Proof.
  intros F. assert (H : match oprocess l (n_pre z) a, (if is_none (n_pre z) then ret (get_verifier (SOr subs false None), SOr subs false None)
      else process_pre (SOr subs false None) (get_verifier (SOr subs false None)) (n_pre z)) a with
    | Ok (r, a1), Ok (r', a1') => a1 = a1' /\ fst r = fst r' /\ exists m m', snd r = SOr m false None /\ snd r' = SOr m' false None /\ Forall2 alk m m' /\
        ovalidate l (SOr m false None) = full_validate (SOr m' false None)
    | Err e, Err e' => e = e'
    | _, _ => False end).
  { unfold oprocess. destruct (is_none (n_pre z)) eqn:EN.
    - destruct (shell_linked l subs F) as (A & B & C). unfold ret. split; auto. split; [cbn [fst get_verifier]; congruence|].
      exists (map shell l), subs. do 3 (split; auto). unfold ovalidate. cbn [full_validate]. rewrite C. reflexivity.
    - cbn [get_verifier]. rewrite process_pre_or, EN. unfold bind. assert (P := proc_linked l subs (n_pre z) F 0 a).
      destruct (uproc 0 l _ a) as [[t a2]|e], (pp_loop _ _ 0 subs _ a) as [[t' a2']|e']; try contradiction; [|exact P].
      destruct P as (-> & I1 & I2 & I3). unfold ret. split; auto. split; [cbn [fst]; congruence|].
      exists (map snd t), (map snd t'). do 3 (split; auto). unfold ovalidate. cbn [full_validate]. rewrite I3. reflexivity. }
  unfold overify, verify, verify_nizk. unfold bind.
  destruct (oprocess l (n_pre z) a) as [[[v s] a1]|e], ((if is_none (n_pre z) then ret (get_verifier (SOr subs false None), SOr subs false None)
      else process_pre (SOr subs false None) (get_verifier (SOr subs false None)) (n_pre z)) a) as [[[v' s'] a1']|e']; try contradiction; [|now subst].
  destruct H as (<- & EV & m & m' & E1 & E2 & A & V). cbn [fst snd] in EV, E1, E2. subst v' s s'. unfold lift, check_statement.
  rewrite (or_prehash _ _ A false None false None). destruct (prehash_input _) as [h|]; cbn [rbind]; [|reflexivity]. destruct (val_eqb _ _); [|reflexivity]. unfold get_env.
  unfold opre_validation, pre_validation. rewrite V, (or_consistent _ _ A _ false None _ _ _ false None), (or_recompute _ _ A false None _ _ false None).
  destruct (full_validate _) as [[]|]; cbn [rbind]; [|reflexivity]. destruct (consistent _ _ _ _ _) as [[rd|]|]; cbn [rbind]; try reflexivity.
  destruct (recompute _ _ _) as [com|]; [|reflexivity]. destruct (fs_challenge _ _ _); reflexivity.
Qed.
End M.

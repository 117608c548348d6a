(** Two proofs made with the same random numbers. *)
From Coq Require Import String Znumtheory.
From Verif Require Import Base World Val Expr Utils Stmt Prove Verify Spec Shapes Places Runs Lib Keeps Tree Build Commit Sound Sound3 Leak.
Open Scope Z_scope.
Open Scope list_scope.

Section R.
Context {W : World}.

Lemma zipM_back {A B C} (f : A -> B -> M C) l : forall m s zs s', zipM f l m s = Ok (zs, s') ->
  forall i z, nth_error zs i = Some z -> exists x y a b, nth_error l i = Some x /\ nth_error m i = Some y /\ f x y a = Ok (z, b).
Proof.
  induction l as [|x0 l IH]; intros [|y0 m] s zs s' H i z Hz; simpl in H; minvs; try (destruct i; discriminate Hz).
  destruct i; cbn [nth_error] in *; [injection Hz as <-; eauto 8|eauto].
Qed.
Lemma insert_other {A} (i j : nat) (x y : A) l a b : (i <= List.length l)%nat -> i <> j ->
  nth_error (insert_at i x l) j = Some a -> nth_error (insert_at i y l) j = Some b -> a = b.
Proof.
  unfold insert_at. intros L D H H'. assert (F := firstn_length i l). rewrite Nat.min_l in F by auto.
  destruct (Nat.lt_ge_cases j i) as [K|K].
  - rewrite nth_error_app1 in H, H' by lia. congruence.
  - rewrite nth_error_app2 in H, H' by lia. destruct (j - List.length (firstn i l))%nat as [|n] eqn:E; [lia|cbn [nth_error] in *; congruence].
Qed.
Lemma map_insert {A B} (f : A -> B) i x l : map f (insert_at i x l) = insert_at i (f x) (map f l).
Proof. unfold insert_at. now rewrite map_app, firstn_map, skipn_map. Qed.

(** every or-prover has a simulation for each of the branches before its own *)
Inductive Sims : prover -> Prop :=
| SmDL o : Sims (PDL o)
| SmAnd l : Forall Sims l -> Sims (PAnd l)
| SmOr i p t : (i <= List.length t)%nat -> Sims p -> Sims (POr i p t)
| SmExt0 sv : Sims (PExt sv None)
| SmExt1 sv : Sims (PExt sv (Some None))
| SmExt sv p : Sims p -> Sims (PExt sv (Some (Some p))).

Lemma get_prover_Sims s : forall d a o s' b, get_prover s d a = Ok ((Some o, s'), b) -> Sims o.
Proof.
  induction s as [x|subs f IH|subs f ch IH|k f q|k f q con IH] using stmt_ind'; intros d a o s' b E.
  - cbn [get_prover] in E. apply bind_ok in E as ([p y] & a1 & E1 & E). apply ret_ok in E as [E _]. cbn [fst snd] in E. injection E as -> _.
    unfold get_prover_dl in E1. apply bind_ok in E1 as (e & a2 & _ & E1). cbv zeta in E1.
    destruct (_ || _); apply ret_ok in E1 as [E1 _]; [discriminate|]. injection E1 as <- _. constructor.
  - cbn [get_prover] in E. apply bind_ok in E as (u & a1 & _ & E). destruct f; [apply ret_ok in E as [E _]; discriminate|].
    apply bind_ok in E as (l & a2 & E1 & E). destruct (forallb _ l); [|discriminate]. apply ret_ok in E as [E _]. injection E as <- _.
    constructor. revert a1 l a2 E1. induction IH as [|x subs Hx IH IHl]; intros a1 l a2 E1; cbn [mapM] in E1.
    * apply ret_ok in E1 as [<- _]. constructor.
    * apply bind_ok in E1 as ([po x'] & a3 & E2 & E1). apply bind_ok in E1 as (l' & a4 & E3 & E1). apply ret_ok in E1 as [<- _].
      cbn [flat_map fst]. apply Forall_app. split; [|eapply IHl; eauto].
      destruct po as [p|]; [|constructor]. constructor; [|constructor]. eapply Hx; eauto.
  - apply get_prover_or_inv in E as (-> & i & q & sims & subs' & x & x' & sta & stb & -> & _ & N & _ & E & _ & L).
    rewrite Forall_forall in IH. constructor; [|eapply IH; [eapply nth_error_In|]; eauto].
    assert (nth_error subs i <> None) as M by congruence. apply nth_error_Some in M. lia.
  - cbn [get_prover] in E. apply bind_ok in E as (u & a1 & _ & E). apply bind_ok in E as (e & a2 & _ & E). apply ret_ok in E as [E _].
    injection E as <- _. constructor.
  - cbn [get_prover] in E. apply bind_ok in E as (u & a1 & _ & E). apply bind_ok in E as (e & a2 & _ & E). apply ret_ok in E as [E _].
    injection E as <- _. constructor.
Qed.
Lemma zipM_Sims (f : stmt -> prover -> M (val * prover * stmt)) l : forall m s zs s', zipM f l m s = Ok (zs, s') ->
  (forall x y a r b, In x l -> f x y a = Ok (r, b) -> Sims y -> Sims (snd (fst r))) -> Forall Sims m -> Forall Sims (map (fun r => snd (fst r)) zs).
Proof.
  induction l as [|x0 l IH]; intros [|y0 m] s zs s' H K F; simpl in H; minvs; try constructor.
  - inversion F; subst. eapply K; eauto. now left.
  - inversion F; subst. eapply IH; eauto. intros; eapply K; eauto. now right.
Qed.
Lemma zipM_Sims' (f : stmt -> prover -> M (val * prover)) l : forall m s zs s', zipM f l m s = Ok (zs, s') ->
  (forall x y a r b, In x l -> f x y a = Ok (r, b) -> Sims y -> Sims (snd r)) -> Forall Sims m -> Forall Sims (map snd zs).
Proof.
  induction l as [|x0 l IH]; intros [|y0 m] s zs s' H K F; simpl in H; minvs; try constructor.
  - inversion F; subst. eapply K; eauto. now left.
  - inversion F; subst. eapply IH; eauto. intros; eapply K; eauto. now right.
Qed.
Lemma precommit_Sims s : forall p a pre p1 s1 b, precommit s p a = Ok ((pre, p1, s1), b) -> Sims p -> Sims p1.
Proof.
  assert (X : forall k f q con p a pre p1 s1 b, precommit (SExt k f q con) p a = Ok ((pre, p1, s1), b) -> Sims p1).
  { intros k f q con p a pre p1 s1 b H. destruct p; try discriminate H. cbn [precommit] in H.
    apply bind_ok in H as (v & a1 & _ & H). apply bind_ok in H as (c & a2 & _ & H). apply bind_ok in H as ([o c'] & a3 & E & H).
    apply ret_ok in H as [H _]. injection H as _ <- _. cbn [fst]. destruct o; [|constructor]. constructor. eapply get_prover_Sims; eauto. }
  induction s as [x|subs f IH|subs f ch IH|k f q|k f q con IH] using stmt_ind'; intros p a pre p1 s1 b H S; eauto;
    destruct p; try discriminate H.
  - apply ret_ok in H as [H _]. injection H as _ <- _. auto.
  - cbn [precommit] in H. apply bind_ok in H as (l & a1 & E & H). apply ret_ok in H as [H _]. injection H as _ <- _.
    inversion S; subst. constructor. eapply zipM_Sims; eauto. intros x y u [[r1 r2] r3] v Hx Ex Sy. cbn [fst snd].
    rewrite Forall_forall in IH. eapply IH; eauto.
  - cbn [precommit] in H. apply bind_ok in H as (r & a1 & E & H). apply ret_ok in H as [H _]. injection H as _ <- _.
    inversion S; subst. constructor; auto. clear - IH E H3. revert idx r a a1 E.
    induction IH as [|x l Hx IH IHl]; intros j r a a1 E; [discriminate|]. destruct j.
    + apply bind_ok in E as ([[r1 r2] r3] & a2 & E & H). apply ret_ok in H as [<- _]. cbn [fst snd]. eauto.
    + apply bind_ok in E as (r0 & a2 & E & H). apply ret_ok in H as [<- _]. cbn [fst]. eauto.
Qed.
Lemma commit_Sims s : forall p rd a com p1 b, internal_commit s p rd a = Ok ((com, p1), b) -> Sims p -> Sims p1.
Proof.
  induction s as [x|subs f IH|subs f ch IH|k f q|k f q con IH] using stmt_ind'; intros p rd a com p1 b H S;
    destruct p; try discriminate H.
  - simpl in H. apply commit_dl_inv in H. destruct H as (ks0 & b0 & bs & x0 & _ & -> & _). constructor.
  - rewrite internal_commit_and in H. minvs. inversion S; subst. constructor. eapply zipM_Sims'; eauto.
    intros x y u [r1 r2] v Hx Ex Sy. cbn [snd]. rewrite Forall_forall in IH. eapply IH; eauto.
  - rewrite internal_commit_or in H. minvs. inversion S; subst. constructor; auto. rewrite sel_loop_eq in E1.
    destruct (nth_error subs idx) eqn:N; [|discriminate]. match type of E1 with _ = Ok (?v, _) => destruct v as [z pz] end. rewrite Forall_forall in IH. eapply IH; [eapply nth_error_In; eauto|exact E1|auto].
  - simpl in H. destruct con0 as [[q0|]|]; try discriminate H. minvs. match goal with X : internal_commit con _ _ _ = Ok (?v, _) |- _ => destruct v as [z pz] end. inversion S; subst. constructor. eauto.
Qed.

Lemma place_fun s c r path d a u : place s c r path d a u -> forall d' a' u', place s c r path d' a' u' -> d' = d /\ a' = a /\ u' = u.
Proof.
  induction 1; intros d' a' u' P'; inversion P'; subst; auto.
  - apply IHplace. replace s with s0 by congruence. replace ri with ri0 by congruence. auto.
  - apply IHplace. replace s with s0 by congruence.
    assert (cs0 = cs) by congruence. assert (rs0 = rs) by congruence. subst. replace ri with ri0 by congruence. replace ci with ci0 by congruence. auto.
Qed.
(** the same place in two answers of one prover *)
Lemma place_two s c r path d a u : place s c r path d a u -> forall p c' r' st st1 st' st1' d' a' u', Sims p ->
  compute_response s p c st = Ok (r, st1) -> compute_response s p c' st' = Ok (r', st1') ->
  place s c' r' path d' a' u' -> d' = d /\ (a = a' \/ leaf2 s p c c' r r' d a a' u u').
Proof.
  induction 1; intros p c' r' st st1 st' st1' d' a' u' S E E' P'; inversion P'; subst; destruct p; try discriminate E.
  - split; auto. right. constructor.
  - match goal with X : nth_error subs i = Some s, Y : nth_error subs i = Some ?y |- _ => assert (y = s) by congruence; subst y; clear Y end.
    simpl in E, E'. apply bind_ok in E as (l1 & t1 & X & E). apply ret_ok in E as [<- <-].
    apply bind_ok in E' as (l2 & t2 & Y & E'). apply ret_ok in E' as [<- <-].
    match goal with A : index (VList l1) i = Ok _, B : index (VList l2) i = Ok _ |- _ =>
      assert (A1 := A); assert (B1 := B); apply index_list in A1, B1 end.
    destruct (zipM_back _ _ _ _ _ _ X _ _ A1) as (x & y & ta & tb & N1 & M1 & F1).
    destruct (zipM_back _ _ _ _ _ _ Y _ _ B1) as (x' & y' & ta' & tb' & N2 & M2 & F2).
    assert (x' = x) by congruence; assert (y' = y) by congruence; assert (x = s) by congruence; subst x' y' x.
    assert (Sy : Sims y) by (inversion S; subst; rewrite Forall_forall in *; match goal with K : forall z, In z _ -> Sims z |- _ => eapply K, nth_error_In; eauto end).
    destruct (IHplace _ _ _ _ _ _ _ _ _ _ Sy F1 F2 ltac:(eassumption)) as [-> [->|L]]; split; auto. right. econstructor; eauto.
  - match goal with X : nth_error subs i = Some s, Y : nth_error subs i = Some ?y |- _ => assert (y = s) by congruence; subst y; clear Y end.
    rewrite compute_response_or in E, E'. cbv zeta in E, E'. inversion S; subst.
    apply bind_ok in E as (l1 & t1 & X & E). apply ret_ok in E as [<- <-].
    apply bind_ok in E' as (l2 & t2 & Y & E'). apply ret_ok in E' as [<- <-].
    repeat match goal with K : index (VTuple _) _ = Ok _ |- _ => cbn in K; injection K as <- end.
    match goal with A : index (VList (map VInt _)) i = Ok (VInt ci), B : index (VList (insert_at idx l1 _)) i = Ok _,
      A' : index (VList (map VInt _)) i = Ok (VInt ?ci'), B' : index (VList (insert_at idx l2 _)) i = Ok _, P : place s ?ci' _ _ _ _ _ |- _ =>
      assert (A1 := A); assert (B1 := B); assert (A2 := A'); assert (B2 := B'); apply index_list in A1, B1, A2, B2; rewrite map_insert in A1, A2; rename P into PP end.
    destruct (Nat.eq_dec idx i) as [->|N].
    + rewrite sel_loop_eq, H in X, Y. apply nth_insert in A1, A2, B1, B2. injection A1 as A1. injection A2 as A2. subst.
      destruct (IHplace _ _ _ _ _ _ _ _ _ _ ltac:(eassumption) X Y PP) as [-> [->|L]]; split; auto. right.
      eapply (L2Or subs b ch i s); [exact H|reflexivity|reflexivity|reflexivity|reflexivity|eassumption..].
    + eapply insert_other in A1; [|rewrite !map_length; eassumption|exact N|exact A2]. injection A1 as ->.
      eapply insert_other in B1; [|rewrite map_length; eassumption|exact N|exact B2]. subst ri0.
      destruct (place_fun _ _ _ _ _ _ _ H4 _ _ _ PP) as (-> & -> & _). auto.
  - cbn [compute_response] in E, E'. destruct con0 as [[q0|]|]; try discriminate. inversion S; subst.
    destruct (IHplace q0 _ _ _ _ _ _ _ _ _ ltac:(assumption) E E' ltac:(eassumption)) as [-> [->|L]]; split; auto. right. now constructor.
Qed.

Theorem reused : exists reveal : Z -> Z -> Z -> Z -> Z -> Z,
  forall s sd msg msg' st z s1 st1 z' s1' st1' path d d' a a' u u',
  prove s sd msg st = Ok ((z, s1), st1) -> prove s sd msg' st = Ok ((z', s1'), st1') ->
  place s1 (n_chal z) (n_resp z) path d a u -> place s1' (n_chal z') (n_resp z') path d' a' u' ->
  s1' = s1 /\ n_pre z' = n_pre z /\ d' = d /\
  (a <> a' -> forall i x, nth_error (dl_secs d) i = Some x -> exists b0 bs v y y', dl_bases d = b0 :: bs /\
    dget (env st1) (dl_vals d) x = Some v /\ index u i = Ok (VInt y) /\ index u' i = Ok (VInt y') /\
    let q := order (grp b0) in prime q -> ~ (q | a - a') -> v mod q = reveal q a a' y y').
Proof.
  destruct two_responses as [reveal HR]. exists reveal. intros s sd msg msg' st z s1 st1 z' s1' st1' path d d' a a' u u' H H' P P'.
  unfold prove in H, H'. apply bind_ok in H as (g & t1 & G & H). apply bind_ok in H' as (g' & t1' & G' & H').
  rewrite G in G'. injection G' as <- <-. destruct g as [[p|] s2]; [|discriminate].
  apply bind_ok in H as ([[z0 p0] s3] & t2 & H & R). apply ret_ok in R as [R <-]. injection R as <- <-.
  apply bind_ok in H' as ([[z0' p0'] s3'] & t2' & H' & R). apply ret_ok in R as [R <-]. injection R as <- <-.
  unfold get_nizk_proof in H, H'.
  apply bind_ok in H as ([[pre p1] s4] & t3 & PC & H). apply bind_ok in H' as ([[pre' p1'] s4'] & t3' & PC' & H').
  rewrite PC in PC'. injection PC' as <- <- <- <-.
  apply bind_ok in H as ([com pc] & t4 & C & H). apply bind_ok in H' as ([com' pc'] & t4' & C' & H').
  rewrite C in C'. injection C' as <- <- <-.
  apply bind_ok in H as (h & q1 & PH & H). apply lift_ok in PH as [PH ->]. apply bind_ok in H' as (h' & q1' & PH' & H'). apply lift_ok in PH' as [PH' ->]. rewrite PH in PH'. injection PH' as <-.
  apply bind_ok in H as (c & q2 & FS & H). apply lift_ok in FS as [FS ->]. apply bind_ok in H' as (c' & q2' & FS' & H'). apply lift_ok in FS' as [FS' ->].
  apply bind_ok in H as (r & t5 & E & H). apply ret_ok in H as [H <-]. injection H as <- <- <-.
  apply bind_ok in H' as (r' & t5' & E' & H'). apply ret_ok in H' as [H' <-]. injection H' as <- <- <-.
  cbn [n_chal n_resp n_pre] in *. do 2 (split; [reflexivity|]).
  assert (S := commit_Sims _ _ _ _ _ _ _ C (precommit_Sims _ _ _ _ _ _ _ PC (get_prover_Sims _ _ _ _ _ _ G))).
  destruct (place_two _ _ _ _ _ _ _ P _ _ _ _ _ _ _ _ _ _ S E E' P') as [-> [->|L]]; split; auto; [congruence|].
  intros _ i x Hx. destruct (HR _ _ _ _ _ _ _ _ _ _ _ _ _ _ _ _ _ _ _ _ C eq_refl E E' L i x Hx) as (b0 & bs & v & y & y' & B & V & I1 & I2 & _ & Q).
  exists b0, bs, v, y, y'. rewrite (keeps_response _ _ _ _ _ _ E). auto.
Qed.
End R.

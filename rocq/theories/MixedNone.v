(** Classes of users whose precommit() returns None or a string. *)
From Coq Require Import String Lia.
From Verif Require Import Base World Val Expr Utils Stmt Prove Verify Lib Custom CustomProofs Mixed.
Open Scope Z_scope.
Open Scope list_scope.

Section M.
Context {W : World}.

Lemma copen_pre K sd a x a1 : copen K sd a = Ok (x, a1) -> exists a0 pre a2, update_secret_values sd a = Ok (tt, a0) /\ c_pre K a0 = Ok (pre, a2) /\ fst (fst x) = pre.
Proof.
  unfold copen. intros H. apply bind_ok in H as ([] & a0 & H0 & H). apply bind_ok in H as (e & a0' & E & H).
  unfold get_env in E. injection E as _ <-. apply bind_ok in H as (pre & a2 & P & H). apply bind_ok in H as (c & a3 & _ & H).
  apply bind_ok in H as (r & a4 & _ & H). apply bind_ok in H as (r' & a5 & _ & H). apply ret_ok in H as [<- _]. exists a0, pre, a2. auto.
Qed.
Theorem none_never K sd msg a a0 a1 z a' : update_secret_values sd a = Ok (tt, a0) -> c_pre K a0 = Ok (VNone, a1) -> cprove K sd msg a = Ok (z, a') ->
  forall KV stv, cverify KV z msg stv = Err EValueErr.
Proof.
  intros U P H KV stv. unfold cprove in H. apply bind_ok in H as ([[pre q] c] & a2 & O & H).
  destruct (copen_pre _ _ _ _ _ O) as (a0' & pre' & a2' & U' & P' & E). rewrite U in U'. injection U' as <-. rewrite P in P'. injection P' as <- _. cbn in E. subst pre.
  apply bind_ok in H as ([com p] & a3 & _ & H). apply bind_ok in H as (h & a4 & _ & H). apply bind_ok in H as (ch & a5 & _ & H).
  apply bind_ok in H as (r & a6 & _ & H). apply ret_ok in H as [<- _]. reflexivity.
Qed.
Theorem string_never K sd msg a a0 b a1 : update_secret_values sd a = Ok (tt, a0) -> c_pre K a0 = Ok (VStr b, a1) -> forall r, cprove K sd msg a <> Ok r.
Proof.
  intros U P [z a'] H. unfold cprove in H. apply bind_ok in H as ([[pre q] c] & a2 & O & H).
  destruct (copen_pre _ _ _ _ _ O) as (a0' & pre' & a2' & U' & P' & E). rewrite U in U'. injection U' as <-. rewrite P in P'. injection P' as <- _. cbn in E. subst pre.
  apply bind_ok in H as ([com p] & a3 & _ & H). apply bind_ok in H as (h & a4 & _ & H). apply bind_ok in H as (ch & a5 & F & _).
  apply lift_ok in F as [F _]. discriminate F.
Qed.
Theorem none_conj_never l K z msg a : In (UK K) l -> n_pre z = VNone -> forall r, uverify l z msg a <> Ok r.
Proof.
  intros I N [b a'] H. unfold uverify in H. rewrite N in H. unfold uprocess in H. cbn [is_none] in H.
  apply bind_ok in H as ([v s] & a1 & E & H). apply ret_ok in E as [[= <- <-] _]. apply bind_ok in H as (h & a2 & C & _). apply lift_ok in C as [C _].
  unfold check_statement, prehash_input in C.
  destruct (unbuilt_id (SAnd (map shell l) false)) as [e E]; [|rewrite E in C; discriminate C].
  econstructor; [apply in_map; exact I|]. unfold shell, obj_of. constructor.
Qed.
Lemma silent_get sd l : Forall silent l -> forall a r a', mapM (fun s => get_prover s sd) (map shell l) a = Ok (r, a') ->
  Forall2 (fun u x => match u with UK _ => True | US _ => exists d, snd x = SDL d end) l r.
Proof.
  induction 1 as [|u l S F IH]; intros a r a' H; cbn [map mapM] in H.
  - apply ret_ok in H as [<- _]. constructor.
  - apply bind_ok in H as (x & a1 & G & H). apply bind_ok in H as (xs & a2 & G2 & H). apply ret_ok in H as [<- _]. constructor; [|eapply IH; eauto].
    destruct u as [K|s]; auto. destruct S as [d ->]. cbn [shell get_prover] in G. apply bind_ok in G as (y & a3 & _ & G). apply ret_ok in G as [<- _]. cbn. eauto.
Qed.
Lemma silent_pre l : Forall silent l -> forall r, Forall2 (fun u x => match u with UK _ => True | US _ => exists d, snd x = SDL d end) l r -> forall ps a t a',
  upre l (map (@snd (option prover) stmt) r) ps a = Ok (t, a') -> forallb is_none (map (fun r => fst (fst r)) t) = true.
Proof.
  induction 1 as [|u l S F IH]; intros r G ps a t a' H; inversion G as [|? x ? xs D G']; subst; cbn [map upre] in H.
  - apply ret_ok in H as [<- _]. reflexivity.
  - destruct ps as [|p ps]; [apply ret_ok in H as [<- _]; reflexivity|]. apply bind_ok in H as (y & a1 & P & H). apply bind_ok in H as (ys & a2 & H2 & H).
    apply ret_ok in H as [<- _]. cbn [map forallb]. rewrite (IH _ G' _ _ _ _ H2), andb_true_r. destruct u as [K|s]; cbn [upre1] in P.
    + destruct p as [| | |sv con]; try discriminate P. apply bind_ok in P as (pre & a3 & C & P). apply bind_ok in P as (c & a4 & _ & P).
      apply bind_ok in P as (x1 & a5 & _ & P). apply bind_ok in P as (x2 & a6 & _ & P). apply ret_ok in P as [<- _]. cbn. rewrite (S _ _ _ C). reflexivity.
    + destruct D as [d D]. rewrite D in P. destruct p; try discriminate P. apply ret_ok in P as [<- _]. reflexivity.
Qed.
Theorem silent_none l sd msg a z a' : Forall silent l -> uprove l sd msg a = Ok (z, a') -> n_pre z = VNone.
Proof.
  intros S H. unfold uprove in H. apply bind_ok in H as ([[pre p] s] & a1 & O & H).
  apply bind_ok in H as ([com p1] & a3 & _ & H). apply bind_ok in H as (h & a4 & _ & H). apply bind_ok in H as (ch & a5 & _ & H).
  apply bind_ok in H as (r & a6 & _ & H). apply ret_ok in H as [<- _]. cbn [n_pre].
  unfold uopen in O. apply bind_ok in O as ([o s0] & a7 & G & O). unfold uget in G. cbn [get_prover] in G.
  apply bind_ok in G as (u & a8 & _ & G). apply bind_ok in G as (m & a9 & G & GG). destruct (forallb _ m); [|discriminate GG]. apply ret_ok in GG as [[= <- <-] _].
  apply bind_ok in O as (t & a10 & P & O). apply ret_ok in O as [[= <- _ _] _]. unfold pre_list.
  now rewrite (silent_pre l S m (silent_get sd l S _ _ _ G) _ _ _ _ P).
Qed.
Theorem silent_never l sd msg a z a' lv K : Forall silent l -> uprove l sd msg a = Ok (z, a') -> In (UK K) lv -> forall stv r, uverify lv z msg stv <> Ok r.
Proof. intros S H I stv. apply (none_conj_never lv K); auto. eapply silent_none; eauto. Qed.
End M.

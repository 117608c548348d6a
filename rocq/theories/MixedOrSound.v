(** Disjunctions with primitives defined by users: soundness, and classes without precommitments. *)
From Coq Require Import String Znumtheory Lia.
From Verif Require Import Base World Val Expr Utils Stmt Prove Verify Spec Shapes Claims Honest Clauses Supply Extract Lib DictProofs Keeps Sigma Tree Sound Sound4
  Custom CustomProofs Mixed MixedSound MixedNone MixedOr.
Open Scope Z_scope.
Open Scope list_scope.

Section M.
Context {W : World}.

Lemma or_unbuilt e r K : forall l i (rd rd' : dict val), In (UK K) l ->
  (fix go i l vs {struct l} := match l, vs with
       | x :: l, w :: vs =>
           let? rs := index r 1 in
           let? ri := index rs i in
           let? o := consistent e x w ri [] in
           match o with Some _ => go (S i) l vs | None => Ok None end
       | _, _ => Ok (Some rd)
       end) i (map shell l) (map get_verifier (map shell l)) <> Ok (Some rd').
Proof.
  induction l as [|u l IH]; intros i rd rd' I H; [destruct I|]. cbn [map] in H. destruct (index r 1) as [rs|] eqn:IR; [|discriminate H]. cbn [rbind] in H.
  destruct (index rs i) as [ri|]; [|discriminate H]. cbn [rbind] in H.
  destruct I as [->|I].
  - unfold shell at 1 2, obj_of in H. cbn [get_verifier consistent rbind] in H. discriminate H.
  - destruct (consistent e (shell u) _ ri []) as [[rd1|]|]; try discriminate H. cbn [rbind] in H. exact (IH _ _ _ I H).
Qed.

Lemma mixed_or_extract l pre st v s st1 e com ch r : oprocess l pre st = Ok ((v, s), st1) ->
  overify_resp e l s v com ch r = Ok true ->
  vmatch s v /\ verify_resp e s v com ch r = Ok true /\
  exists subs, s = SOr subs false None /\ List.length subs = List.length l /\
  forall i K, nth_error l i = Some (UK K) -> exists p c a a', index pre i = Ok p /\ c_con K p a = Ok (c, a') /\ c_val K p = Ok tt /\
    nth_error subs i = Some (obj_of K p (Some c)).
Proof.
  intros P A. unfold oprocess in P. destruct (is_none pre) eqn:EN.
  - apply ret_ok in P as [[= <- <-] _]. assert (NK : forall K, ~ In (UK K) l).
    { intros K I. unfold overify_resp, opre_validation in A. destruct (ovalidate _ _); [|discriminate A]. cbn [rbind] in A.
      destruct (consistent e _ _ r []) as [[rd|]|] eqn:E; try discriminate A. cbn [get_verifier consistent] in E. exact (or_unbuilt e r K l _ _ _ I E). }
    assert (NI : forall i K, nth_error l i <> Some (UK K)) by (intros i K H; apply nth_error_In in H; exact (NK K H)).
    split; [exact (vmatch_get (SOr (map shell l) false None))|]. split.
    + unfold overify_resp, opre_validation, ovalidate in A. destruct (rmap uvalid1 _) as [y|] eqn:E; [|discriminate A].
      destruct (uvalid_full l (map shell l) y (map_length _ _) E) as [[z Z] _]; [intros K j s' H; destruct (NI j K H)|].
      unfold verify_resp, pre_validation. cbn [full_validate]. rewrite Z. exact A.
    + exists (map shell l). split; auto. split; [apply map_length|]. intros i K H. destruct (NI i K H).
  - apply bind_ok in P as (t & a1 & P & Q). apply ret_ok in Q as [[= <- <-] _]. destruct (uproc_inv l _ _ _ _ _ P) as [L F].
    assert (LS : List.length (map snd t) = List.length l) by now rewrite map_length.
    unfold overify_resp, opre_validation, ovalidate in A. destruct (rmap uvalid1 _) as [y|] eqn:E; [|discriminate A].
    destruct (uvalid_full l (map snd t) y LS E) as [[z Z] V].
    { intros K j s' H N. destruct (F j _ H) as (v' & s2 & N2 & p & _ & c & a & a' & _ & -> & _). rewrite nth_error_map, N2 in N. cbn in N. injection N as <-. eauto. }
    split; [constructor; eapply (Forall2_nth_l vmatch l t L); intros j u H; destruct (F j u H) as (v' & s' & N & B); eauto using becomes_match|]. split.
    + unfold verify_resp, pre_validation. cbn [full_validate]. rewrite Z. exact A.
    + exists (map snd t). split; auto. split; auto. intros i K H. destruct (F i _ H) as (v' & s' & N & p & IX & c & a & a' & C & -> & _).
      assert (N' : nth_error (map snd t) i = Some (obj_of K p (Some c))) by (rewrite nth_error_map, N; reflexivity).
      exists p, c, a, a'. split; auto. split; auto. split; auto. eapply V; eauto.
Qed.

Theorem mixed_or_sound l pre st v s st1 e com ch ch' r r' : oprocess l pre st = Ok ((v, s), st1) -> wfs s -> coh e (svars s) ->
  orders_in (fun q => prime q /\ ~ (q | ch - ch') /\ 2 ^ 129 <= q) s -> canonical s r -> canonical s r' -> ~ (2 ^ 128 | ch - ch') ->
  overify_resp e l s v com ch r = Ok true -> overify_resp e l s v com ch' r' = Ok true ->
  exists i u w x cs cs' ci ci' rs rs' ri ri', nth_error l i = Some u /\
  index r 0 = Ok cs /\ index r' 0 = Ok cs' /\ index cs i = Ok (VInt ci) /\ index cs' i = Ok (VInt ci') /\
  index r 1 = Ok rs /\ index r' 1 = Ok rs' /\ index rs i = Ok ri /\ index rs' i = Ok ri' /\ ~ (2 ^ 128 | ci - ci') /\
  Extr w x ci ci' ri ri' /\ Sat w x /\
  match u with
  | UK K => exists p a a', index pre i = Ok p /\ c_con K p a = Ok (x, a') /\ c_val K p = Ok tt
  | US _ => exists subs, s = SOr subs false None /\ nth_error subs i = Some x
  end.
Proof.
  intros P WF C O K K' D A A'. destruct (mixed_or_extract _ _ _ _ _ _ _ _ ch r P A) as (VM & X & subs & -> & L & F).
  destruct (mixed_or_extract _ _ _ _ _ _ _ _ ch' r' P A') as (_ & X' & _).
  destruct (extract_resp e _ v com ch ch' r r' VM WF C X X') as [w H].
  - eapply orders_impl; [|exact O]; cbv beta; tauto.
  - eapply orders_impl; [|exact O]; cbv beta; tauto.
  - right. split; [eapply orders_impl; [|exact O]; change (2 ^ (challenge_length + 1)) with (2 ^ 129); cbv beta; tauto|]. auto.
  - inversion H as [| |? ? ? ? ? ? ? i x w' cs cs' ci ci' rs rs' ri ri' N H1 H2 H3 H4 H5 H6 H7 H8 H9 EX|]; subst. change (2 ^ challenge_length) with (2 ^ 128) in H9.
    destruct (nth_error l i) as [u|] eqn:E; [|apply nth_error_None in E; assert (Q : nth_error subs i <> None) by congruence; apply nth_error_Some in Q; lia].
    destruct u as [KK|s0]; [|exists i, (US s0), w', x, cs, cs', ci, ci', rs, rs', ri, ri'; do 11 (split; auto); split; [eapply Extr_Sat; eauto|eauto]].
    destruct (F i KK E) as (p & c & a & a' & I1 & I2 & I3 & I4). rewrite N in I4. injection I4 as ->.
    unfold obj_of in EX. inversion EX; subst. exists i, (UK KK), w', c, cs, cs', ci, ci', rs, rs', ri, ri'. do 11 (split; auto). split; [eapply Extr_Sat; eauto|exists p, a, a'; auto].
Qed.

(** ** Classes whose precommitments are empty *)
Theorem none_or_never l K z msg a : In (UK K) l -> n_pre z = VNone -> forall r, overify l z msg a <> Ok r.
Proof.
  intros I N [b a'] H. unfold overify in H. rewrite N in H. unfold oprocess in H. cbn [is_none] in H.
  apply bind_ok in H as ([v s] & a1 & E & H). apply ret_ok in E as [[= <- <-] _]. apply bind_ok in H as (h & a2 & C & _). apply lift_ok in C as [C _].
  unfold check_statement, prehash_input in C.
  destruct (unbuilt_id (SOr (map shell l) false None)) as [e E]; [|rewrite E in C; discriminate C].
  econstructor; [apply in_map; exact I|]. unfold shell, obj_of. constructor.
Qed.
Definition dlish (u : mpart) (s : stmt) : Prop := match fst u with UK _ => True | US _ => exists d, s = SDL d end.
Lemma hollow_sim u s a s' t a' : hollow u -> dlish u s -> osim1 u s a = Ok ((s', t), a') -> truthy (t_pre t) = false /\ dlish u s'.
Proof.
  unfold hollow, dlish, osim1. destruct (fst u) as [K|s0]; intros H D E.
  - apply bind_ok in E as (pre & a1 & C & E). apply bind_ok in E as (c & a2 & _ & E). apply bind_ok in E as (t0 & a3 & _ & E). apply ret_ok in E as [[= <- <-] _].
    split; auto. cbn [t_pre]. now apply (proj2 (H a pre a1)).
  - destruct D as [d ->]. cbn [prepare_sim simulate_proof] in E. apply bind_ok in E as (x & a1 & C & E). apply ret_ok in C as [<- _]. cbn [simulate_proof] in E.
    apply bind_ok in E as (t0 & a3 & S & E). apply ret_ok in E as [[= <- <-] _]. split; [|eauto]. clear - S. unfold simulate_dl in S.
    repeat (apply bind_ok in S as (? & ? & _ & S)). apply ret_ok in S as [<- _]. reflexivity.
Qed.
Lemma hollow_setup idx l : Forall hollow l -> forall i subs a ss ts a', Forall2 dlish l subs -> osetup idx i l subs a = Ok ((ss, ts), a') ->
  existsb truthy (map t_pre ts) = false /\ Forall2 dlish l ss.
Proof.
  induction 1 as [|u l H F IH]; intros i subs a ss ts a' D E; inversion D as [|? s ? subs' D1 D2]; subst; cbn [osetup] in E.
  - apply ret_ok in E as [[= <- <-] _]. split; [reflexivity|constructor].
  - destruct (Nat.eqb i idx).
    + apply bind_ok in E as ([ss' ts'] & a1 & E1 & E). apply ret_ok in E as [[= <- <-] _]. destruct (IH _ _ _ _ _ _ D2 E1) as [A B]. cbn [fst snd]. split; auto.
    + apply bind_ok in E as ([s' t] & a1 & E0 & E). apply bind_ok in E as ([ss' ts'] & a2 & E1 & E). apply ret_ok in E as [[= <- <-] _]. cbn [fst snd map existsb].
      destruct (hollow_sim _ _ _ _ _ _ H D1 E0) as [A B]. destruct (IH _ _ _ _ _ _ D2 E1) as [A' B']. rewrite A, A'. auto.
Qed.
Lemma dlish_get sd u s a o s' a' : dlish u s -> get_prover s sd a = Ok ((o, s'), a') -> dlish u s'.
Proof.
  unfold dlish. destruct (fst u); auto. intros [d ->] H. cbn [get_prover] in H. apply bind_ok in H as (y & a3 & _ & G). apply ret_ok in G as [[= _ <-] _]. eauto.
Qed.
Lemma dlish_replace l : forall i u s subs, nth_error l i = Some u -> dlish u s -> Forall2 dlish l subs -> Forall2 dlish l (replace i s subs).
Proof.
  induction l as [|x l IH]; intros i u s subs N D F; inversion F; subst; [destruct i; discriminate N|]. destruct i as [|i]; cbn [replace nth_error] in *.
  - injection N as ->. constructor; auto.
  - constructor; eauto.
Qed.
Lemma F2_nth {A B} (R : A -> B -> Prop) l m i y : Forall2 R l m -> nth_error m i = Some y -> exists x, nth_error l i = Some x /\ R x y.
Proof. intros F. revert i. induction F as [|a b l m AB F IH]; intros [|i] N; try discriminate N; cbn in *; [injection N as <-; eauto|auto]. Qed.
Lemma dlish_loop sd l subs0 : Forall2 dlish l subs0 -> forall fuel possible subs a r subs' a', Forall2 dlish l subs ->
  or_loop fuel (map (fun s => get_prover s sd) subs0) possible subs a = Ok ((r, subs'), a') -> Forall2 dlish l subs'.
Proof.
  intros F0. induction fuel as [|fuel IH]; intros possible subs a r subs' a' F H; cbn [or_loop] in H.
  - apply ret_ok in H as [[= _ <-] _]. exact F.
  - apply bind_ok in H as (z & a1 & _ & H). destruct (nth_error possible _) as [i|]; [|discriminate H]. rewrite nth_error_map in H.
    destruct (nth_error subs0 i) as [x|] eqn:N; [|discriminate H]. cbn [option_map] in H. apply bind_ok in H as ([o s'] & a2 & G & H). cbn [fst snd] in H.
    destruct (F2_nth _ _ _ _ _ F0 N) as (u & Nu & D). assert (F' : Forall2 dlish l (replace i s' subs)) by (eapply dlish_replace; eauto using dlish_get).
    destruct o as [p|]; [apply ret_ok in H as [[= _ <-] _]; exact F'|]. destruct (empty_dict _); [apply ret_ok in H as [[= _ <-] _]; exact F'|]. eapply IH; eauto.
Qed.
Theorem hollow_none l sd msg a z a' : Forall hollow l -> oprove l sd msg a = Ok (z, a') -> n_pre z = VNone.
Proof.
  intros S H. unfold oprove in H. apply bind_ok in H as ([[pre p] s] & a1 & O & H).
  apply bind_ok in H as ([com p1] & a3 & _ & H). apply bind_ok in H as (h & a4 & _ & H). apply bind_ok in H as (ch & a5 & _ & H).
  apply bind_ok in H as (r & a6 & _ & H). apply ret_ok in H as [<- _]. cbn [n_pre].
  unfold oopen in O. apply bind_ok in O as ([o s0] & a7 & G & O). unfold oget in G. apply bind_ok in G as (u & a8 & _ & G).
  destruct o as [[| |i q sims|]|]; try discriminate O. destruct s0 as [|subs b|subs b ch0|]; try discriminate O.
  destruct (nth_error l i) as [u1|] eqn:N1; [|discriminate O]. destruct (nth_error subs i) as [s1|] eqn:N2; [|discriminate O].
  apply bind_ok in O as ([[v q'] s2] & a9 & PC & O). apply ret_ok in O as [[= <- _ _] _]. cbn [fst snd].
  assert (D0 : Forall2 dlish l (map oshell l)).
  { clear - S. induction S as [|[u b] l H F IH]; constructor; auto. unfold dlish, hollow in *. cbn [fst] in *. destruct u as [K|s]; auto. destruct H as [d ->]. unfold oshell. cbn. eauto. }
  cbv zeta in G. destruct (empty_dict _); [apply ret_ok in G as [[=] _]|]. apply bind_ok in G as ([[[i' q0]|] subs1] & a10 & OL & G); cbn [fst snd] in G; [|apply ret_ok in G as [[=] _]].
  apply (dlish_loop sd l _ D0) in OL; auto. apply bind_ok in G as ([ss ts] & a11 & SE & G). apply ret_ok in G as [[= -> -> <- <- <- <-] _]. cbn [fst snd] in *.
  destruct (hollow_setup _ _ S _ _ _ _ _ _ OL SE) as [T D]. unfold pre_any, insert_at. rewrite existsb_app. cbn [existsb].
  assert (TV : truthy v = false).
  { destruct (F2_nth _ _ _ _ _ D N2) as (u2 & Nu & DL). rewrite N1 in Nu. injection Nu as <-. apply nth_error_In in N1. rewrite Forall_forall in S. specialize (S _ N1).
    unfold hollow, dlish in *. destruct (fst u1) as [K|sx]; cbn [upre1] in PC.
    - destruct q as [| | |sv con]; try discriminate PC. apply bind_ok in PC as (pre & a12 & C & PC). apply bind_ok in PC as (c & a13 & _ & PC).
      apply bind_ok in PC as (x1 & a14 & _ & PC). apply bind_ok in PC as (x2 & a15 & _ & PC). apply ret_ok in PC as [[= <- _ _] _]. now apply (proj1 (S _ _ _)) in C.
    - destruct DL as [d ->]. destruct q; try discriminate PC. apply ret_ok in PC as [[= <- _ _] _]. reflexivity. }
  rewrite TV. replace (existsb truthy (firstn i (map t_pre ts)) || (false || existsb truthy (skipn i (map t_pre ts))))%bool with (existsb truthy (map t_pre ts)).
  - now rewrite T.
  - rewrite orb_false_l, <- existsb_app, firstn_skipn. reflexivity.
Qed.
Theorem hollow_never l sd msg a z a' lv K : Forall hollow l -> oprove l sd msg a = Ok (z, a') -> In (UK K) lv -> forall stv r, overify lv z msg stv <> Ok r.
Proof. intros S H I stv. apply (none_or_never lv K); auto. eapply hollow_none; eauto. Qed.
End M.

(** Conjunctions with primitives defined by users: soundness, and the primitives of the library as such classes. *)
From Coq Require Import String Znumtheory Lia.
From Verif Require Import Base World Val Expr Utils Stmt Prove Verify Spec Shapes Claims Honest Clauses Supply Extract Lib DictProofs Keeps Sigma Tree Sound Sound4
  Custom CustomProofs Mixed.
Open Scope Z_scope.
Open Scope list_scope.

Section M.
Context {W : World}.

(** What the verifier's objects have become. *)
Definition becomes (pre : val) (i : nat) (u : upart) (v : verifier) (s : stmt) : Prop :=
  exists p, index pre i = Ok p /\
  match u with
  | UK K => exists c a a', c_con K p a = Ok (c, a') /\ s = obj_of K p (Some c) /\ v = RExt (Some (get_verifier c))
  | US s0 => exists a a', process_pre s0 (get_verifier s0) p a = Ok ((v, s), a')
  end.
Lemma uproc_inv l : forall i pre a t a', uproc i l pre a = Ok (t, a') ->
  List.length t = List.length l /\ forall j u, nth_error l j = Some u -> exists v s, nth_error t j = Some (v, s) /\ becomes pre (i + j) u v s.
Proof.
  induction l as [|u l IH]; intros i pre a t a' H; cbn [uproc] in H.
  - apply ret_ok in H as [<- _]. split; auto. intros [|j] u E; discriminate E.
  - apply bind_ok in H as (p & a1 & H1 & H). apply lift_ok in H1 as [H1 <-]. apply bind_ok in H as (r & a2 & H2 & H).
    apply bind_ok in H as (rs & a3 & H3 & H). apply ret_ok in H as [<- _]. destruct (IH _ _ _ _ _ H3) as [L F]. split; [cbn; now rewrite L|].
    intros [|j] u' E; cbn [nth_error] in *.
    + injection E as <-. destruct r as [v s]. exists v, s. split; auto. exists p. rewrite Nat.add_0_r. split; auto. destruct u as [K|s0]; cbn [uproc1] in H2.
      * apply bind_ok in H2 as (c & a4 & C & H2). apply ret_ok in H2 as [[= <- <-] _]. exists c, a1, a4. auto.
      * eauto.
    + destruct (F j u' E) as (v & s & N & B). exists v, s. split; auto. now replace (i + S j)%nat with (S i + j)%nat by lia.
Qed.
Lemma becomes_match pre i u v s : becomes pre i u v s -> vmatch s v.
Proof.
  intros (p & _ & B). destruct u as [K|s0].
  - destruct B as (c & a & a' & _ & -> & ->). constructor. apply vmatch_get.
  - destruct B as (a & a' & B). eapply process_match; eauto.
Qed.
Lemma Forall2_nth_l {A B C} (R : A -> B -> Prop) (l : list C) (t : list (B * A)) : List.length t = List.length l ->
  (forall j u, nth_error l j = Some u -> exists v s, nth_error t j = Some (v, s) /\ R s v) -> Forall2 R (map snd t) (map fst t).
Proof.
  revert l. induction t as [|[v s] t IH]; intros [|u l] L F; try discriminate L; [constructor|]. cbn [map fst snd]. constructor.
  - destruct (F 0%nat u eq_refl) as (v' & s' & [= <- <-] & H). exact H.
  - apply (IH l); [now injection L|]. intros j u' E. exact (F (S j) u' E).
Qed.

Lemma uvalid_full l : forall subs y, List.length subs = List.length l -> rmap uvalid1 (combine l subs) = Ok y ->
  (forall K j s, nth_error l j = Some (UK K) -> nth_error subs j = Some s -> exists pre c, s = obj_of K pre c) ->
  (exists y, rmap full_validate subs = Ok y) /\
  forall K j pre c, nth_error l j = Some (UK K) -> nth_error subs j = Some (obj_of K pre c) -> c_val K pre = Ok tt.
Proof.
  induction l as [|u l IH]; intros [|s subs] y L H Q; try discriminate L; [split; [exists []; reflexivity|intros ? [|]; discriminate]|].
  cbn [combine rmap] in H. destruct (uvalid1 (u, s)) as [[]|] eqn:E; [|discriminate H]. cbn [rbind] in H.
  destruct (rmap uvalid1 _) as [y'|] eqn:E'; [|discriminate H].
  destruct (IH subs y' (f_equal pred L) E') as [[z Z] V]; [intros K j s' A B; exact (Q K (S j) s' A B)|]. split.
  - cbn [rmap]. rewrite Z. destruct u as [K|s0].
    + destruct (Q K 0%nat s eq_refl eq_refl) as (pre & c & ->). unfold obj_of. cbn [full_validate kvalidate rbind]. eauto.
    + assert (F : full_validate s = Ok tt) by (destruct s; exact E). rewrite F. cbn. eauto.
  - intros K [|j] pre c A B; cbn [nth_error] in *.
    + injection A as ->. injection B as ->. exact E.
    + eapply V; eauto.
Qed.

(** An unconstructed primitive is never accepted. *)
Lemma consistent_unbuilt e r K : forall l i rd rd', In (UK K) l ->
  (fix go i l vs rd {struct l} := match l, vs with
       | x :: l, w :: vs =>
           let? ri := index r i in
           let? o := consistent e x w ri rd in
           match o with Some rd => go (S i) l vs rd | None => Ok None end
       | _, _ => Ok (Some rd)
       end) i (map shell l) (map get_verifier (map shell l)) rd <> Ok (Some rd').
Proof.
  induction l as [|u l IH]; intros i rd rd' I H; [destruct I|]. cbn [map] in H. destruct (index r i) as [ri|]; [|discriminate H]. cbn [rbind] in H.
  destruct I as [->|I].
  - unfold shell at 1 2, obj_of in H. cbn [get_verifier consistent rbind] in H. discriminate H.
  - destruct (consistent e (shell u) _ ri rd) as [[rd1|]|]; try discriminate H. cbn [rbind] in H. exact (IH _ _ _ I H).
Qed.

Lemma mixed_extract l pre st v s st1 e com ch r : uprocess l pre st = Ok ((v, s), st1) ->
  uverify_resp e l s v com ch r = Ok true ->
  vmatch s v /\ verify_resp e s v com ch r = Ok true /\
  exists subs, s = SAnd subs false /\ List.length subs = List.length l /\
  forall i K, nth_error l i = Some (UK K) -> exists p c a a', index pre i = Ok p /\ c_con K p a = Ok (c, a') /\ c_val K p = Ok tt /\
    nth_error subs i = Some (obj_of K p (Some c)).
Proof.
  intros P A. unfold uprocess in P. destruct (is_none pre) eqn:EN.
  - apply ret_ok in P as [[= <- <-] _]. assert (NK : forall K, ~ In (UK K) l).
    { intros K I. unfold uverify_resp, upre_validation in A. destruct (uvalidate _ _); [|discriminate A]. cbn [rbind] in A.
      destruct (consistent e _ _ r []) as [[rd|]|] eqn:E; try discriminate A. cbn [get_verifier consistent] in E. exact (consistent_unbuilt e r K l _ _ _ I E). }
    assert (NI : forall i K, nth_error l i <> Some (UK K)) by (intros i K H; apply nth_error_In in H; exact (NK K H)).
    split; [exact (vmatch_get (SAnd (map shell l) false))|]. split.
    + unfold uverify_resp, upre_validation, uvalidate in A. destruct (rmap uvalid1 _) as [y|] eqn:E; [|discriminate A].
      destruct (uvalid_full l (map shell l) y (map_length _ _) E) as [[z Z] _]; [intros K j s' H; destruct (NI j K H)|].
      unfold verify_resp, pre_validation. cbn [full_validate]. rewrite Z. exact A.
    + exists (map shell l). split; auto. split; [apply map_length|]. intros i K H. destruct (NI i K H).
  - apply bind_ok in P as (t & a1 & P & Q). apply ret_ok in Q as [[= <- <-] _]. destruct (uproc_inv l _ _ _ _ _ P) as [L F].
    assert (LS : List.length (map snd t) = List.length l) by now rewrite map_length.
    unfold uverify_resp, upre_validation, uvalidate in A. destruct (rmap uvalid1 _) as [y|] eqn:E; [|discriminate A].
    destruct (uvalid_full l (map snd t) y LS E) as [[z Z] V].
    { intros K j s' H N. destruct (F j _ H) as (v' & s2 & N2 & p & _ & c & a & a' & _ & -> & _). rewrite nth_error_map, N2 in N. cbn in N. injection N as <-. eauto. }
    split; [constructor; eapply (Forall2_nth_l vmatch l t L); intros j u H; destruct (F j u H) as (v' & s' & N & B); eauto using becomes_match|]. split.
    + unfold verify_resp, pre_validation. cbn [full_validate]. rewrite Z. exact A.
    + exists (map snd t). split; auto. split; auto. intros i K H. destruct (F i _ H) as (v' & s' & N & p & IX & c & a & a' & C & -> & _).
      assert (N' : nth_error (map snd t) i = Some (obj_of K p (Some c))) by (rewrite nth_error_map, N; reflexivity).
      exists p, c, a, a'. split; auto. split; auto. split; auto. eapply V; eauto.
Qed.

Lemma mixed_bounds l pre st v s st1 e com ch ch' r r' : uprocess l pre st = Ok ((v, s), st1) -> wfs s -> coh e (svars s) ->
  orders_in (fun q => prime q /\ ~ (q | ch - ch')) s -> bounds s ch ch' r r' ->
  uverify_resp e l s v com ch r = Ok true -> uverify_resp e l s v com ch' r' = Ok true ->
  exists w, Extr w s ch ch' r r' /\ Sat w s /\
  forall i K, nth_error l i = Some (UK K) -> exists p c a a' ri ri', index pre i = Ok p /\ c_con K p a = Ok (c, a') /\ c_val K p = Ok tt /\
    index r i = Ok ri /\ index r' i = Ok ri' /\ Extr w c ch ch' ri ri' /\ Sat w c.
Proof.
  intros P WF C O B A A'. destruct (mixed_extract _ _ _ _ _ _ _ _ ch r P A) as (VM & X & subs & -> & L & F).
  destruct (mixed_extract _ _ _ _ _ _ _ _ ch' r' P A') as (_ & X' & _).
  destruct (extract_resp e _ v com ch ch' r r' VM WF C X X') as [w H]; auto.
  - eapply orders_impl; [|exact O]; cbv beta; tauto.
  - eapply orders_impl; [|exact O]; cbv beta; tauto.
  - exists w. split; auto. assert (S := Extr_Sat _ _ _ _ _ _ H). split; auto. intros i K N. destruct (F i K N) as (p & c & a & a' & I1 & I2 & I3 & I4).
    inversion H as [|? ? ? ? ? ? FE| |]; subst. destruct (FE i _ I4) as (ri & ri' & R1 & R2 & E). unfold obj_of in E. inversion E; subst.
    exists p, c, a, a', ri, ri'. do 6 (split; auto). eapply Extr_Sat; eauto.
Qed.
Theorem mixed_sound l pre st v s st1 e com ch ch' r r' : uprocess l pre st = Ok ((v, s), st1) -> wfs s -> coh e (svars s) -> noor s ->
  orders_in (fun q => prime q /\ ~ (q | ch - ch')) s ->
  uverify_resp e l s v com ch r = Ok true -> uverify_resp e l s v com ch' r' = Ok true ->
  exists w, Extr w s ch ch' r r' /\ Sat w s /\
  forall i K, nth_error l i = Some (UK K) -> exists p c a a' ri ri', index pre i = Ok p /\ c_con K p a = Ok (c, a') /\ c_val K p = Ok tt /\
    index r i = Ok ri /\ index r' i = Ok ri' /\ Extr w c ch ch' ri ri' /\ Sat w c.
Proof. intros P WF C N O. apply (mixed_bounds l pre st v s st1 e com ch ch' r r' P WF C O). now left. Qed.
Theorem mixed_sound_or l pre st v s st1 e com ch ch' r r' : uprocess l pre st = Ok ((v, s), st1) -> wfs s -> coh e (svars s) ->
  orders_in (fun q => prime q /\ ~ (q | ch - ch') /\ 2 ^ 129 <= q) s -> canonical s r -> canonical s r' -> ~ (2 ^ 128 | ch - ch') ->
  uverify_resp e l s v com ch r = Ok true -> uverify_resp e l s v com ch' r' = Ok true ->
  exists w, Extr w s ch ch' r r' /\ Sat w s /\
  forall i K, nth_error l i = Some (UK K) -> exists p c a a' ri ri', index pre i = Ok p /\ c_con K p a = Ok (c, a') /\ c_val K p = Ok tt /\
    index r i = Ok ri /\ index r' i = Ok ri' /\ Extr w c ch ch' ri ri' /\ Sat w c.
Proof.
  intros P WF C O K K' D. apply (mixed_bounds l pre st v s st1 e com ch ch' r r' P WF C).
  - eapply orders_impl; [|exact O]; cbv beta; tauto.
  - right. split; [eapply orders_impl; [|exact O]; change (2 ^ (challenge_length + 1)) with (2 ^ 129); cbv beta; tauto|]. auto.
Qed.
End M.

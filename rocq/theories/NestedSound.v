(** User-defined primitives in nested compositions: soundness. *)
From Coq Require Import String Znumtheory Lia.
From Verif Require Import Base World Val Expr Utils Stmt Prove Verify Spec Shapes Claims Honest Clauses Supply Extract Lib DictProofs Keeps Sigma Tree Sound Sound4
  Custom CustomProofs Mixed MixedSound MixedOr Nested NestedProofs.
Open Scope Z_scope.
Open Scope list_scope.

Section N.
Context {W : World}.

(** What the verifier's objects have become. *)
Inductive tr : mtree -> val -> verifier -> stmt -> Prop :=
| TrK K b pre c a a' : c_con K pre a = Ok (c, a') -> tr (TK K b) pre (RExt (Some (get_verifier c))) (set_simulated b (obj_of K pre (Some c)))
| TrN K b pre : tr (TK K b) pre (RExt None) (tshell (TK K b))
| TrS s0 pre v s : vmatch s v -> tr (TS s0) pre v s
| TrA l b pre vs ss : List.length ss = List.length l -> List.length vs = List.length l ->
    (forall i t v s, nth_error l i = Some t -> nth_error vs i = Some v -> nth_error ss i = Some s -> exists p, sub_pre pre i p /\ tr t p v s) ->
    tr (TA l b) pre (RAnd vs) (SAnd ss b)
| TrO l b pre vs ss : List.length ss = List.length l -> List.length vs = List.length l ->
    (forall i t v s, nth_error l i = Some t -> nth_error vs i = Some v -> nth_error ss i = Some s -> exists p, sub_pre pre i p /\ tr t p v s) ->
    tr (TO l b) pre (ROr vs) (SOr ss b None).

Lemma tr_shell t : tr t VNone (get_verifier (tshell t)) (tshell t).
Proof.
  induction t as [K b|s0|l b IH|l b IH] using mtree_ind'; cbn [tshell get_verifier].
  - exact (TrN K b VNone).
  - constructor. apply vmatch_get.
  - apply TrA; rewrite ?map_length; auto. intros i t v s N N1 N2. rewrite !nth_error_map in *. rewrite N in *. cbn in *. injection N1 as <-. injection N2 as <-.
    exists VNone. split; [now right|]. rewrite Forall_forall in IH. apply IH. eapply nth_error_In; eauto.
  - apply TrO; rewrite ?map_length; auto. intros i t v s N N1 N2. rewrite !nth_error_map in *. rewrite N in *. cbn in *. injection N1 as <-. injection N2 as <-.
    exists VNone. split; [now right|]. rewrite Forall_forall in IH. apply IH. eapply nth_error_In; eauto.
Qed.
Lemma tloop_inv pre l : forall i a r a', tloop tproc pre i l a = Ok (r, a') ->
  List.length r = List.length l /\ forall j t, nth_error l j = Some t -> exists p v s b b', index pre (i + j) = Ok p /\ nth_error r j = Some (v, s) /\ tproc t p b = Ok ((v, s), b').
Proof.
  induction l as [|t l IH]; intros i a r a' H; cbn [tloop] in H.
  - apply ret_ok in H as [<- _]. split; auto. intros [|j] t H; discriminate H.
  - apply bind_ok in H as (p & a1 & H1 & H). apply lift_ok in H1 as [H1 <-]. apply bind_ok in H as ([v s] & a2 & H2 & H). apply bind_ok in H as (rs & a3 & H3 & H).
    apply ret_ok in H as [<- _]. destruct (IH _ _ _ _ H3) as [L F]. split; [cbn; now rewrite L|]. intros [|j] t' E; cbn [nth_error] in *.
    + injection E as <-. rewrite Nat.add_0_r. eauto 10.
    + replace (i + S j)%nat with (S i + j)%nat by lia. auto.
Qed.
Lemma tproc_tr t : forall pre a v s a', tproc t pre a = Ok ((v, s), a') -> tr t pre v s.
Proof.
  assert (G : forall l, Forall (fun t => forall pre a v s a', tproc t pre a = Ok ((v, s), a') -> tr t pre v s) l -> forall pre a r a', tloop tproc pre 0 l a = Ok (r, a') ->
    List.length (map snd r) = List.length l /\ List.length (map fst r) = List.length l /\
    forall i t v s, nth_error l i = Some t -> nth_error (map fst r) i = Some v -> nth_error (map snd r) i = Some s -> exists p, sub_pre pre i p /\ tr t p v s).
  { intros l IH pre a r a' H. destruct (tloop_inv pre l 0%nat a r a' H) as [L F]. rewrite !map_length. do 2 (split; auto). intros i t0 v s N N1 N2.
    destruct (F i t0 N) as (p & v' & s' & b & b' & I & N' & P). rewrite nth_error_map, N' in *. cbn in *. injection N1 as <-. injection N2 as <-.
    exists p. split; [now left|]. rewrite Forall_forall in IH. eapply IH; eauto. eapply nth_error_In; eauto. }
  induction t as [K b|s0|l b IH|l b IH] using mtree_ind'; intros pre a v s a' H; cbn [tproc] in H.
  - apply bind_ok in H as (c & a1 & C & H). apply ret_ok in H as [[= <- <-] _]. econstructor; eauto.
  - constructor. eapply process_match; eauto.
  - destruct (is_none pre) eqn:E.
    + apply ret_ok in H as [[= <- <-] _]. destruct pre; try discriminate E. exact (tr_shell (TA l b)).
    + apply bind_ok in H as (r & a1 & R & H). apply ret_ok in H as [[= <- <-] _]. destruct (G l IH _ _ _ _ R) as (A & B & C). now constructor.
  - destruct (is_none pre) eqn:E.
    + apply ret_ok in H as [[= <- <-] _]. destruct pre; try discriminate E. exact (tr_shell (TO l b)).
    + apply bind_ok in H as (r & a1 & R & H). apply ret_ok in H as [[= <- <-] _]. destruct (G l IH _ _ _ _ R) as (A & B & C). now constructor.
Qed.
Lemma Forall2_nth' {A B} (R : A -> B -> Prop) l : forall m, List.length l = List.length m ->
  (forall i x y, nth_error l i = Some x -> nth_error m i = Some y -> R x y) -> Forall2 R l m.
Proof.
  induction l as [|x l IH]; intros [|y m] L H; try discriminate L; constructor; [exact (H 0%nat x y eq_refl eq_refl)|].
  apply IH; [now injection L|]. intros i a b A1 A2. exact (H (S i) a b A1 A2).
Qed.
Lemma nth_same {A B} (l : list A) (m : list B) i x : List.length m = List.length l -> nth_error m i = Some x -> exists y, nth_error l i = Some y.
Proof.
  intros L N. destruct (nth_error l i) eqn:E; eauto. apply nth_error_None in E. assert (Q : nth_error m i <> None) by congruence. apply nth_error_Some in Q. lia.
Qed.
Lemma tr_match t : forall pre v s, tr t pre v s -> vmatch s v.
Proof.
  induction t as [K b|s0|l b IH|l b IH] using mtree_ind'; intros pre v s H; inversion H as [| |? ? ? ? VM|? ? ? vs ss L1 L2 F|? ? ? vs ss L1 L2 F]; subst; auto.
  - unfold obj_of. cbn [set_simulated]. constructor. apply vmatch_get.
  - cbn [tshell]. unfold obj_of. cbn [set_simulated]. constructor.
  - constructor. apply Forall2_nth'; [congruence|]. intros i s v N N1.
    destruct (nth_same l ss i s ltac:(assumption) N) as [t T]. destruct (F i t v s T N1 N) as (p & _ & X). rewrite Forall_forall in IH. eapply IH; eauto. eapply nth_error_In; eauto.
  - constructor. apply Forall2_nth'; [congruence|]. intros i s v N N1.
    destruct (nth_same l ss i s ltac:(assumption) N) as [t T]. destruct (F i t v s T N1 N) as (p & _ & X). rewrite Forall_forall in IH. eapply IH; eauto. eapply nth_error_In; eauto.
Qed.
Lemma vzip_inv l : forall ss, List.length ss = List.length l -> vzip tvalid l ss = Ok tt ->
  forall i t s, nth_error l i = Some t -> nth_error ss i = Some s -> tvalid t s = Ok tt.
Proof.
  induction l as [|t l IH]; intros [|s ss] L H i t' s' N N'; try discriminate L; [destruct i; discriminate N|]. cbn [vzip] in H.
  destruct (tvalid t s) as [[]|] eqn:E; [|discriminate H]. cbn [rbind] in H. destruct i as [|i]; cbn [nth_error] in *; [congruence|].
  eapply IH; eauto.
Qed.
Lemma full_list ss : (forall s, In s ss -> full_validate s = Ok tt) -> exists y, rmap full_validate ss = Ok y.
Proof.
  induction ss as [|s ss IH]; intros H; [exists []; reflexivity|]. destruct IH as [y E]; [auto using in_cons|]. cbn [rmap]. rewrite (H s (in_eq _ _)), E. cbn. eauto.
Qed.
Lemma tr_full t : forall pre v s, tr t pre v s -> tvalid t s = Ok tt -> full_validate s = Ok tt.
Proof.
  assert (G : forall l ss vs pre, Forall (fun t => forall pre v s, tr t pre v s -> tvalid t s = Ok tt -> full_validate s = Ok tt) l ->
    List.length ss = List.length l -> List.length vs = List.length l ->
    (forall i t v s, nth_error l i = Some t -> nth_error vs i = Some v -> nth_error ss i = Some s -> exists p, sub_pre pre i p /\ tr t p v s) ->
    vzip tvalid l ss = Ok tt -> exists y, rmap full_validate ss = Ok y).
  { intros l ss vs pre IH L1 L2 F V. apply full_list. intros s I. apply In_nth_error in I as [i N].
    destruct (nth_same l ss i s L1 N) as [t0 T]. destruct (nth_same vs ss i s ltac:(congruence) N) as [v V']. destruct (F i t0 v s T V' N) as (p & _ & X).
    rewrite Forall_forall in IH. eapply (IH t0); eauto using nth_error_In. eapply vzip_inv; eauto. }
  induction t as [K b|s0|l b IH|l b IH] using mtree_ind'; intros pre v s H V; inversion H; subst.
  - reflexivity.
  - reflexivity.
  - destruct s; exact V.
  - cbn [tvalid] in V. destruct (G l ss vs pre IH ltac:(assumption) ltac:(assumption) ltac:(assumption) V) as [y Y]. cbn [full_validate]. now rewrite Y.
  - cbn [tvalid] in V. destruct (G l ss vs pre IH ltac:(assumption) ltac:(assumption) ltac:(assumption) V) as [y Y]. cbn [full_validate]. now rewrite Y.
Qed.
Lemma tr_holds t : forall w pre v s ch ch' r r', tr t pre v s -> tvalid t s = Ok tt -> Extr w s ch ch' r r' -> tholds w t pre s ch ch' r r'.
Proof.
  induction t as [K b|s0|l b IH|l b IH] using mtree_ind'; intros w pre v s ch ch' r r' H V SA; inversion H as [? ? ? c a a' C| |? ? ? ? VM|? ? ? vs ss L1 L2 F|? ? ? vs ss L1 L2 F]; subst.
  - unfold obj_of in *. cbn [set_simulated] in *. inversion SA; subst. econstructor; eauto.
  - cbn [tshell] in SA. unfold obj_of in SA. cbn [set_simulated] in SA. inversion SA.
  - now constructor.
  - cbn [tvalid] in V. inversion SA as [|? ? ? ? ? ? FS| |]; subst. constructor; auto. intros i t s N N1. destruct (nth_same vs ss i s ltac:(congruence) N1) as [v V'].
    destruct (F i t v s N V' N1) as (p & I & X). destruct (FS i s N1) as (ri & ri' & R1 & R2 & E). exists p, ri, ri'. do 3 (split; auto).
    rewrite Forall_forall in *. eapply IH; eauto using nth_error_In. eapply vzip_inv; eauto.
  - cbn [tvalid] in V. inversion SA as [| |? ? ? ? ? ? ? i x w' cs cs' ci ci' rs rs' ri ri' N1 H1 H2 H3 H4 H5 H6 H7 H8 H9 EX|]; subst. destruct (nth_same l ss i x L1 N1) as [t T].
    destruct (nth_same vs ss i x ltac:(congruence) N1) as [v V']. destruct (F i t v x T V' N1) as (p & I & X).
    eapply ThO; eauto. rewrite Forall_forall in *. eapply IH; eauto using nth_error_In. eapply vzip_inv; eauto.
Qed.

Lemma nested_extract t pre st v s st1 e com ch r : tproc t pre st = Ok ((v, s), st1) -> tverify_resp e t s v com ch r = Ok true ->
  vmatch s v /\ verify_resp e s v com ch r = Ok true /\ forall w c c' a a', Extr w s c c' a a' -> tholds w t pre s c c' a a'.
Proof.
  intros P A. apply tproc_tr in P. split; [eapply tr_match; eauto|]. unfold tverify_resp, tpre_validation in A.
  destruct (tvalid t s) as [[]|] eqn:V; [|discriminate A]. split; [|intros w c c' a a'; eapply tr_holds; eauto].
  unfold verify_resp, pre_validation. rewrite (tr_full _ _ _ _ P V). exact A.
Qed.
Lemma nested_bounds t pre st v s st1 e com ch ch' r r' : tproc t pre st = Ok ((v, s), st1) -> wfs s -> coh e (svars s) ->
  orders_in (fun q => prime q /\ ~ (q | ch - ch')) s -> bounds s ch ch' r r' ->
  tverify_resp e t s v com ch r = Ok true -> tverify_resp e t s v com ch' r' = Ok true ->
  exists w, Extr w s ch ch' r r' /\ tholds w t pre s ch ch' r r'.
Proof.
  intros P WF C O B A A'. destruct (nested_extract _ _ _ _ _ _ _ _ ch r P A) as (VM & X & F).
  destruct (nested_extract _ _ _ _ _ _ _ _ ch' r' P A') as (_ & X' & _).
  destruct (extract_resp e _ v com ch ch' r r' VM WF C X X') as [w H]; auto.
  - eapply orders_impl; [|exact O]; cbv beta; tauto.
  - eapply orders_impl; [|exact O]; cbv beta; tauto.
  - exists w. split; auto.
Qed.
Theorem nested_sound t pre st v s st1 e com ch ch' r r' : tproc t pre st = Ok ((v, s), st1) -> wfs s -> coh e (svars s) ->
  orders_in (fun q => prime q /\ ~ (q | ch - ch') /\ 2 ^ 129 <= q) s -> canonical s r -> canonical s r' -> ~ (2 ^ 128 | ch - ch') ->
  tverify_resp e t s v com ch r = Ok true -> tverify_resp e t s v com ch' r' = Ok true ->
  exists w, Extr w s ch ch' r r' /\ tholds w t pre s ch ch' r r'.
Proof.
  intros P WF C O K K' D. apply (nested_bounds t pre st v s st1 e com ch ch' r r' P WF C).
  - eapply orders_impl; [|exact O]; cbv beta; tauto.
  - right. split; [eapply orders_impl; [|exact O]; change (2 ^ (challenge_length + 1)) with (2 ^ 129); cbv beta; tauto|]. auto.
Qed.
End N.

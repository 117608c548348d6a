(** Several statements built from the same parts. *)
From Coq Require Import String Lia.
From Verif Require Import Base World Val Expr Utils Stmt Prove Verify Spec Shapes Lib DictProofs Keeps Tree Provers Objects Sharing
  ObjProofs ObjFrame ObjRefine ObjRefine2 ObjBuild.
Open Scope Z_scope.
Open Scope list_scope.

Section S.
Context {W : World}.

Lemma outcome_rel {A B C} (R : B -> C -> st -> Prop) (m : res ((A * B) * st)) (n : res ((A * C) * st)) :
  mrel (fun a b s => fst a = fst b /\ R (snd a) (snd b) s) m n -> outcome m = outcome n.
Proof.
  destruct m as [[[a b] s]|], n as [[[a' c] s']|]; simpl; try contradiction; [|now intros ->]. now intros (-> & -> & _).
Qed.
Lemma unshared_prove o sd msg h s : unshared o -> outcome (o_prove o sd msg h s) = outcome (prove (view h o) sd msg s).
Proof. intros N. apply outcome_rel with (R := fun b c _ => rel anyd b o c). apply (prove_rel o sd msg h s N). Qed.
Lemma unshared_verify o z msg h s : unshared o -> outcome (o_verify o z msg h s) = outcome (verify (view h o) z msg s).
Proof.
  intros N. apply outcome_rel with (R := fun b c _ => c = view b o). apply (verify_rel o z msg h s N).
Qed.

Lemma built e vars h s : Forall (exists_in h) vars ->
  match o_build e vars h s, meant e (map (view h) vars) s with
  | Ok ((o, h'), s1), Ok (x, s2) =>
      s1 = s2 /\ view h' o = x /\ exists_in h' o /\ (forall y, exists_in h y -> view h' y = view h y) /\
      (Forall unshared vars -> NoDup (below vars e) -> unshared o)
  | Err a, Err b => a = b
  | _, _ => False
  end.
Proof.
  intros X. pose proof (build_rel e vars h s X) as B.
  destruct (o_build e vars h s) as [[[o h'] s1]|] eqn:Eo, (meant e (map (view h) vars) s) as [[x s2]|]; simpl in B; try contradiction; auto.
  destruct B as (-> & V & L & E). split; auto. split; auto. split; auto. split.
  - intros y Y. now apply view_later.
  - intros U D. destruct (build_nodup e vars h s o h' s2 X D Eo) as (_ & [V'|V']); auto.
    destruct e; try contradiction. simpl in Eo. destruct (nth_error vars i) as [o1|] eqn:Ei; [|discriminate].
    injection Eo as <- <- <-. rewrite Forall_forall in U. eapply U, nth_error_In; eauto.
Qed.

(** ** Statements without common objects *)
Lemma prove_apart o sd msg h s z h' s' x : o_prove o sd msg h s = Ok ((z, h'), s') -> apart o x -> dicts_apart o x -> view h' x = view h x.
Proof.
  intros H A D. eapply touch_view; [eapply prove_touch; eauto| |]; intros i I J; [eapply A|eapply D]; eauto.
Qed.
Lemma verify_apart o z msg h s b h' s' x : o_verify o z msg h s = Ok ((b, h'), s') -> apart o x -> view h' x = view h x.
Proof.
  intros H A. eapply touch_view; [eapply verify_touch; eauto| |]; intros i I J; [eapply A; eauto|auto].
Qed.
Lemma then_prove o sd msg h s z h' s' x sd2 msg2 s2 : o_prove o sd msg h s = Ok ((z, h'), s') ->
  unshared x -> apart o x -> dicts_apart o x -> outcome (o_prove x sd2 msg2 h' s2) = outcome (prove (view h x) sd2 msg2 s2).
Proof. intros H N A D. rewrite <- (prove_apart _ _ _ _ _ _ _ _ _ H A D). now apply unshared_prove. Qed.
Lemma then_verify o sd msg h s z h' s' x z2 msg2 s2 : o_prove o sd msg h s = Ok ((z, h'), s') ->
  unshared x -> apart o x -> dicts_apart o x -> outcome (o_verify x z2 msg2 h' s2) = outcome (verify (view h x) z2 msg2 s2).
Proof. intros H N A D. rewrite <- (prove_apart _ _ _ _ _ _ _ _ _ H A D). now apply unshared_verify. Qed.
Lemma verified_then_prove o z msg h s b h' s' x sd2 msg2 s2 : o_verify o z msg h s = Ok ((b, h'), s') ->
  unshared x -> apart o x -> outcome (o_prove x sd2 msg2 h' s2) = outcome (prove (view h x) sd2 msg2 s2).
Proof. intros H N A. rewrite <- (verify_apart _ _ _ _ _ _ _ _ _ H A). now apply unshared_prove. Qed.

(** ** Common primitives: the dictionaries are shared, not the objects *)
Lemma keeps_o_commit p : forall h rd, keeps (o_commit p h rd).
Proof.
  induction p as [o ks|o ps IH|o j p sims IH|o sv con] using oprover_ind'; intros h rd; cbn [o_commit].
  - destruct o; try apply keeps_raise. apply keeps_bind; [apply keeps_commit_dl|]. intros a. apply keeps_ret.
  - apply keeps_bind; [apply keeps_get_env|]. intros e. apply keeps_bind; [apply keeps_lift|]. intros u.
    apply keeps_bind; [apply keeps_update_randomizers, keeps_randomizers_and|]. intros d.
    apply keeps_bind; [|intros; apply keeps_ret]. apply keeps_mapM. intros x I. rewrite Forall_forall in IH. now apply IH.
  - apply keeps_bind; [apply keeps_get_env|]. intros e. apply keeps_bind; [apply keeps_lift|]. intros u.
    apply keeps_bind; [apply IH|]. intros; apply keeps_ret.
  - destruct (snd (exts h (oid o))); [|apply keeps_raise]. destruct con as [[c [q|]]|]; try apply keeps_raise.
    apply keeps_bind; [apply keeps_internal_commit|]. intros; apply keeps_ret.
Qed.
Lemma keeps_respond_dl d ks c : keeps (respond_dl d ks c).
Proof. intros s a s' H. now rewrite (respond_dl_st _ _ _ _ _ _ H). Qed.
Lemma plain_subs f i l : (f = OAnd \/ f = OOr) -> plain (f i l) -> Forall plain l.
Proof. intros [->| ->]; simpl; induction l as [|x l IH]; intros H; constructor; try apply IH; apply H. Qed.
Lemma keeps_o_response p : forall o h c, of_obj o p -> plain o -> keeps (o_response p h c).
Proof.
  induction p as [o' ks|o' ps IH|o' j p sims IH|o' sv con] using oprover_ind'; intros o h c O P; inversion O as [| ? ? ? F | |]; subst; cbn [o_response].
  - apply keeps_respond_dl.
  - apply keeps_bind; [|intros; apply keeps_ret]. apply (plain_subs OAnd) in P; auto. apply keeps_mapM. intros x I.
    clear O. revert IH P I. induction F as [|o p os ps Ox F IHF]; intros IH P I; [destruct I|].
    inversion IH; subst. inversion P; subst. destruct I as [->|I]; eauto.
  - apply keeps_bind; [|intros; apply keeps_ret]. apply (plain_subs OOr) in P; auto. eapply IH; eauto. rewrite Forall_forall in P.
    eapply P, nth_error_In; eauto.
  - contradiction.
Qed.
Lemma keeps_o_precommit p : forall o h, of_obj o p -> plain o -> keeps (o_precommit p h).
Proof.
  induction p as [o' ks|o' ps IH|o' j p sims IH|o' sv con] using oprover_ind'; intros o h O P; inversion O as [| ? ? ? F | |]; subst; cbn [o_precommit].
  - apply keeps_ret.
  - apply keeps_bind; [|intros; apply keeps_ret]. apply (plain_subs OAnd) in P; auto. clear O. revert h IH P.
    induction F as [|o p os ps Ox F IHF]; intros h IH P; cbn [seqM]; [apply keeps_ret|].
    inversion IH; subst. inversion P; subst. apply keeps_bind; [eauto|]. intros a. apply keeps_bind; [eauto|]. intros; apply keeps_ret.
  - apply keeps_bind; [|intros; apply keeps_ret]. apply (plain_subs OOr) in P; auto. eapply IH; eauto. rewrite Forall_forall in P.
    eapply P, nth_error_In; eauto.
  - contradiction.
Qed.
Lemma keeps_o_nizk p o msg h : of_obj o p -> plain o -> keeps (o_nizk p msg h).
Proof.
  intros O P s a s' H. unfold o_nizk in H. apply bind_ok in H as ([[pre p1] h1] & s1 & H1 & H).
  destruct (precommit_touch p o O _ _ _ _ _ _ H1) as [_ O1]. apply (keeps_o_precommit p o h O P) in H1.
  apply bind_ok in H as ([com p2] & s2 & H2 & H).
  assert (O2 : of_obj o p2).
  { clear -O1 H2. revert o h1 s1 com p2 s2 O1 H2. generalize (@None (dict Z)).
    induction p1 as [o' ks|o' ps IH|o' j p sims IH|o' sv con] using oprover_ind'; intros rd o h1 s1 com p2 s2 O H;
      inversion O as [|? ? ? F| |]; subst; cbn [o_commit] in H.
    - apply bind_ok in H as (r & s3 & _ & H). injection H as <- <- <-. constructor.
    - apply bind_ok in H as (e & s3 & _ & H). apply bind_ok in H as (u & s4 & _ & H). apply bind_ok in H as (d & s5 & _ & H).
      apply bind_ok in H as (l & s6 & Hl & H). injection H as <- <- <-. constructor. clear O. revert l s5 s6 IH Hl.
      induction F as [|o p os ps Ox F IHF]; intros l s5 s6 IH Hl; cbn [mapM] in Hl.
      + injection Hl as <- <-. constructor.
      + inversion IH as [|? ? I1 I2]; subst. apply bind_ok in Hl as ([v q] & s7 & G1 & Hl). apply bind_ok in Hl as (l2 & s8 & G2 & Hl).
        injection Hl as <- <-. simpl. constructor; eauto.
    - apply bind_ok in H as (e & s3 & _ & H). apply bind_ok in H as (u & s4 & _ & H). apply bind_ok in H as ([v q] & s5 & Hq & H).
      injection H as <- <- <-. econstructor; eauto.
    - destruct (snd (exts h1 (oid (OExt i k)))); [|discriminate]. destruct con as [[c [q|]]|]; try discriminate.
      apply bind_ok in H as (r & s3 & _ & H). injection H as <- <- <-. constructor. }
  apply keeps_o_commit in H2. apply bind_ok in H as (i & s3 & H3 & H). apply lift_ok in H3 as [_ ->].
  apply bind_ok in H as (c & s4 & H4 & H). apply lift_ok in H4 as [_ ->].
  apply bind_ok in H as (r & s5 & H5 & H). apply (keeps_o_response p2 o h1 c O2 P) in H5. injection H as _ <-. congruence.
Qed.
Lemma prove_rel_at E o sd msg h s st : NoDup (ids o) -> (forall i, upds sd E i = E i) -> (forall i, env st i = E i) -> rel (agr sd E) h o s ->
  mrel (fun a b _ => fst a = fst b /\ rel anyd (snd a) o (snd b)) (o_prove o sd msg h st) (prove s sd msg st).
Proof.
  intros N St He R. unfold o_prove, prove.
  eapply mrel_bind; [apply (gp_all sd E St o N h s st (ready_env sd E St o st He) R)|].
  intros [a h1] [b s1] st1 (_ & R1 & _ & O1). cbn [fst snd] in *. apply rel_any in R1.
  destruct a as [p|], b as [q|]; simpl in O1; try contradiction; [|reflexivity].
  pose proof (nizk_rel _ _ _ _ _ _ msg st1 O1 R1 N) as L.
  unfold bind. destruct (o_nizk p msg h1 st1) as [[[z h2] s2]|e], (get_nizk_proof s1 q msg st1) as [[[[z' q'] s2'] st2]|e']; simpl in *; try contradiction; auto.
Qed.
Lemma then_prove_same o sd msg h s z h' s' x msg2 s2 : o_prove o sd msg h s = Ok ((z, h'), s') ->
  unshared o -> plain o -> (match o with ODL _ _ _ _ _ => False | _ => True end) -> unshared x -> apart o x ->
  (forall i, env s2 i = env s' i) ->
  outcome (o_prove x sd msg2 h' s2) = outcome (prove (view h x) sd msg2 s2).
Proof.
  intros H No P Co Nx A He. pose proof (prove_touch _ _ _ _ _ _ _ _ H) as (T & _ & _).
  set (E := upds sd (env s)). assert (St : forall i, upds sd E i = E i) by (intros; apply upds_idem).
  unfold o_prove in H. apply bind_ok in H as ([[p|] h1] & s1 & H1 & H); [|discriminate].
  assert (Rd : ready sd E o s) by (destruct o; simpl; auto; contradiction).
  pose proof (gp_all sd E St o No h (view h o) s Rd (rel_view (agr sd E) h (fun d => eq_refl) o)) as G. rewrite H1 in G.
  destruct (get_prover (view h o) sd s) as [[[q s0] s1']|]; simpl in G; [|contradiction]. destruct G as (<- & He1 & _ & D1 & _).
  pose proof (get_prover_of _ _ _ _ _ _ _ H1) as Of.
  pose proof (nizk_touch _ _ _ _ _ _ _ _ Of H) as T2. pose proof (keeps_o_nizk p o msg h1 Of P _ _ _ H) as Ke.
  assert (D : dstep sd E h h') by (eapply dstep_trans; [exact D1|eapply dstep_touch; exact T2]).
  apply outcome_rel with (R := fun b c _ => rel anyd b x c). apply (prove_rel_at E x sd msg2 h' (view h x) s2 Nx St).
  - intros i. rewrite He, Ke. apply He1.
  - apply (rel_dstep sd E h h'); auto.
    + intros i I. apply T. intros J. eapply A; eauto.
    + apply rel_view. intros d. reflexivity.
Qed.
End S.

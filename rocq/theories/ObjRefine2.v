(** Proving and verifying with statement objects of which none occurs twice: the rest of the protocol. *)
From Coq Require Import String Lia.
From Verif Require Import Base World Val Expr Utils Stmt Prove Verify Spec Shapes Lib DictProofs Keeps Tree Provers Objects Sharing
  ObjProofs ObjFrame ObjRefine.
Open Scope Z_scope.
Open Scope list_scope.

Lemma F2_nth_impl {A B} (R R' : A -> B -> Prop) l c : Forall2 R l c ->
  (forall j x y, nth_error l j = Some x -> R x y -> R' x y) -> Forall2 R' l c.
Proof.
  induction 1 as [|x y l c H HF IH]; intros K; constructor; [apply (K O); auto|].
  apply IH. intros j x' y' E. now apply (K (S j)).
Qed.
Lemma F2_replace_others {A B} (R R' : A -> B -> Prop) l c : Forall2 R l c -> forall i x y, nth_error l i = Some x -> R' x y ->
  (forall j x' y', j <> i -> nth_error l j = Some x' -> R x' y' -> R' x' y') -> Forall2 R' l (replace i y c).
Proof.
  induction 1 as [|x y l c H HF IH]; intros i a b E Q K; [destruct i; discriminate|]. destruct i as [|i]; simpl in *.
  - injection E as ->. constructor; auto. apply F2_nth_impl with (R := R); auto. intros j x' y' E'. now apply (K (S j)).
  - constructor; [apply (K O); auto|]. eapply IH; [exact E|exact Q|]. intros j x' y' D E'. apply (K (S j)); auto.
Qed.

Section R.
Context {W : World}.

Lemma prels_dicts (K K' : dict Z -> Prop) h h' : (forall d, K d -> K' d) -> (forall i, K (dicts h i) -> dicts h' i = dicts h i) ->
  forall os ss ps qs, prels K h os ss ps qs -> prels K' h' os ss ps qs.
Proof.
  intros HK HD. induction 1; constructor; auto. eapply prel_dicts; eauto.
Qed.
Lemma touch_dicts l h h' : touch l [] h h' -> forall (K : dict Z -> Prop) i, K (dicts h i) -> dicts h' i = dicts h i.
Proof. intros (_ & B & _) K i _. symmetry. apply B. auto. Qed.
Lemma or_pre_loop_eq f l : forall j x s, nth_error l j = Some x ->
  or_pre_loop f j l s = (let! r := f x in ret (fst r, replace j (snd r) l)) s.
Proof.
  induction l as [|a l IH]; intros [|j] x s E; simpl in *; try discriminate.
  - injection E as <-. reflexivity.
  - unfold bind at 1. rewrite (IH j x s E). unfold bind. destruct (f x s) as [[r s']|e]; reflexivity.
Qed.

(** ** precommit *)
Definition PreP p := forall K h o s q st, prel K h o s p q -> rel anyd h o s -> NoDup (ids o) ->
  mrel (fun a b _ => fst (fst a) = fst (fst b) /\ prel K (snd a) o (snd b) (snd (fst a)) (snd (fst b)) /\ rel anyd (snd a) o (snd b))
       (o_precommit p h st) (precommit s q st).
Lemma pre_list ps : Forall PreP ps -> forall K h os ss qs st, prels K h os ss ps qs -> Forall2 (rel anyd h) os ss ->
  NoDup (List.concat (map ids os)) ->
  mrel (fun a b _ => map fst (fst a) = map (fun r => fst (fst r)) b /\
                     prels K (snd a) os (map snd b) (map snd (fst a)) (map (fun r => snd (fst r)) b) /\
                     Forall2 (rel anyd (snd a)) os (map snd b))
       (seqM o_precommit ps h st) (zipM precommit ss qs st).
Proof.
  induction 1 as [|p ps HP HF IH]; intros K h os ss qs st P R N; inversion P as [|o s p0 q os' ss' ps' qs' P1 P2]; subst; cbn [seqM zipM].
  - apply mrel_ret. simpl. repeat split; constructor.
  - inversion R as [|? ? ? ? R1 R2]; subst. simpl in N. apply NoDup_app_inv in N as (N1 & N2 & N3).
    eapply mrel_bind; [apply mrel_ok, HP; eauto|]. intros [[v p1] h1] [[v' q1] s1] st1 ((Ev & P1' & R1') & E1 & _).
    cbn [fst snd] in *. subst v'. destruct (precommit_touch p o (prel_of _ _ _ _ _ _ P1) _ _ _ _ _ _ E1) as [T1 _].
    assert (P2' : prels K h1 os' ss' ps qs') by (apply (prels_dicts K K h h1 (fun d H => H)); [intros i; apply (touch_dicts _ _ _ T1 K)|exact P2]).
    assert (R2' : Forall2 (rel anyd h1) os' ss') by (eapply F2_touch; eauto).
    eapply mrel_bind; [apply mrel_ok, IH; eauto|]. intros [l h2] l' st2 ((El & P2'' & R2'') & E2 & _). cbn [fst snd] in *.
    assert (T2 : touch (List.concat (map ids os')) [] h1 h2).
    { assert (Of : Forall2 of_obj os' ps). { clear -P2. induction P2; constructor; auto. eapply prel_of; eauto. }
      clear -Of E2. revert h1 st1 l h2 st2 E2. induction Of as [|o p os ps O HF IH]; intros h1 st1 l h2 st2 H; simpl in H.
      - injection H as <- <- <-. apply touch_refl.
      - apply bind_ok in H as ([[v a] h3] & s3 & E1 & H). apply bind_ok in H as ([b h4] & s4 & E2 & H). simpl in E2, H. injection H as <- <- <-.
        destruct (precommit_touch p o O _ _ _ _ _ _ E1) as [T1 _]. apply IH in E2.
        eapply touch_trans; [eapply touch_mono; [| |exact T1]|eapply touch_mono; [| |exact E2]];
          try apply incl_refl; intros z Z; apply in_or_app; auto. }
    apply mrel_ret. simpl. split; [now rewrite El|split]; constructor; auto.
    + apply (prel_dicts K K h1 h2 (fun d H => H)); [intros i; apply (touch_dicts _ _ _ T2 K)|exact P1'].
    + eapply rel_touch; eauto.
Qed.
Lemma pre_all p : PreP p.
Proof.
  induction p as [o' ks|o' ps IH|o' j p sims IH|o' sv con] using oprover_ind'; intros K h o s q st P R N; inversion P; subst;
    cbn [o_precommit].
  - apply mrel_ret. simpl. auto.
  - cbn [precommit]. inversion N as [|? ? N1 N2]; subst.
    match goal with HP : prels _ _ subs ss _ _ |- _ => pose proof HP as PS end. pose proof R as R0. inversion R as [|? ? ? R1| |]; subst.
    pose proof (mrel_ok _ _ _ (pre_list ps IH K h subs ss qs st PS R1 N2)) as L.
    pose proof (precommit_touch (QAnd (OAnd i subs) ps) (OAnd i subs) (prel_of _ _ _ _ _ _ P)) as T. cbn [o_precommit] in T.
    unfold bind in T |- *. destruct (seqM o_precommit ps h st) as [[[l h1] st1]|e] eqn:E1, (zipM precommit ss qs st) as [[l' st1']|e'] eqn:E2;
      cbn [mrel] in L; try contradiction; [|exact L]. destruct L as (<- & (El & P' & R') & _).
    specialize (T h st). rewrite E1 in T. cbn [fst snd ret] in T. specialize (T _ _ _ _ eq_refl) as [T _].
    cbn [fst snd ret mrel] in *. rewrite <- El. split; auto. split; [reflexivity|]. split; [now constructor|].
    apply RlAnd'; auto. assert (T' : touch (List.concat (map ids subs)) [] h h1).
    { assert (Of : Forall2 of_obj subs ps). { clear -PS. induction PS; constructor; auto. eapply prel_of; eauto. }
      clear -Of E1. revert h st l h1 st1 E1. induction Of as [|o p os ps O HF IH]; intros h st l h1 st1 H; simpl in H.
      - injection H as <- <- <-. apply touch_refl.
      - apply bind_ok in H as ([[v a] h3] & s3 & E1 & H). apply bind_ok in H as ([b h4] & s4 & E2 & H). simpl in E2, H. injection H as <- <- <-.
        destruct (precommit_touch p o O _ _ _ _ _ _ E1) as [T1 _]. apply IH in E2.
        eapply touch_trans; [eapply touch_mono; [| |exact T1]|eapply touch_mono; [| |exact E2]];
          try apply incl_refl; intros z Z; apply in_or_app; auto. }
    destruct T' as (T' & _ & _). now destruct (T' i N1).
  - inversion N as [|? ? N1 N2]; subst. inversion R as [| |? ? ? R1|]; subst. rewrite precommit_or.
    match goal with HP : prel _ _ ?x ?y p ?z, H1 : nth_error subs j = Some ?x, H2 : nth_error ss j = Some ?y |- _ =>
      rename x into o; rename y into s; rename z into q; pose proof HP as PS; pose proof H1 as Eo; pose proof H2 as Es end.
    assert (NI : NoDup (ids o)).
    { clear -N2 Eo. revert j Eo. induction subs as [|x l IH]; intros [|j] H; try discriminate; simpl in *; apply NoDup_app_inv in N2 as (A & B & _).
      - now injection H as <-.
      - eauto. }
    assert (Ro : rel anyd h o s).
    { destruct (Forall2_nth_l _ _ _ R1 j o Eo) as (y & Ey & Ry). congruence. }
    unfold bind at 1 2. rewrite (or_pre_loop_eq _ ss j s st Es). unfold bind at 1.
    pose proof (mrel_ok _ _ _ (IH K h o s q st PS Ro NI)) as L.
    destruct (o_precommit p h st) as [[[[v p1] h1] st1]|e] eqn:E1, (precommit s q st) as [[[[v' q1] s1] st1']|e'] eqn:E2;
      cbn [mrel] in L; try contradiction; [|exact L]. destruct L as (<- & (Ev & P' & R') & _). cbn [fst snd] in *. subst v'.
    cbn [ret mrel fst snd]. split; auto. split; [reflexivity|].
    destruct (precommit_touch p o (prel_of _ _ _ _ _ _ PS) _ _ _ _ _ _ E1) as [T1 _].
    assert (Lj : nth_error (replace j s1 ss) j = Some s1).
    { apply nth_error_replace_same. apply nth_error_Some. congruence. }
    split; [econstructor; eauto|].
    assert (Ri : Forall2 (rel anyd h1) subs (replace j s1 ss)).
    { eapply F2_replace_others; [exact R1|exact Eo|exact R'|]. intros k o' y Dk Ek Rk. eapply rel_touch; eauto.
      intros z Z. eapply (NoDup_concat_nth ids subs N2 k j); eauto. }
    apply RlOr'; auto; destruct T1 as (T1 & _ & _); destruct (T1 i) as (? & ? & ?); auto;
      intros J; apply N1; eapply (incl_concat ids o subs); eauto; eapply nth_error_In; eauto.
  - inversion R; subst. cbn [precommit]. apply mrel_step. intros pre s1 _. apply mrel_step. intros c s2 _. apply mrel_step.
    intros [r s'] s3 _. apply mrel_ret. simpl. split; auto. split; [constructor|].
    apply RlExt'; simpl; unfold upd; now rewrite ?Nat.eqb_refl.
  - inversion R; subst. cbn [precommit]. apply mrel_step. intros pre' s1 _. apply mrel_step. intros c' s2 _. apply mrel_step.
    intros [r s'] s3 _. apply mrel_ret. simpl. split; auto. split; [constructor|].
    apply RlExt'; simpl; unfold upd; now rewrite ?Nat.eqb_refl.
Qed.

(** ** internal_commit *)
Lemma commit_dl_prover d rd s v p s' : commit_dl d rd s = Ok ((v, p), s') -> exists ks, p = PDL ks.
Proof.
  unfold commit_dl. intros H. apply bind_ok in H as (a & s1 & _ & H). apply bind_ok in H as (e & s2 & _ & H).
  apply bind_ok in H as (ks & s3 & _ & H). destruct (dl_bases d); [discriminate|]. apply bind_ok in H as (x & s4 & _ & H).
  injection H as <- <- <-. eauto.
Qed.
Definition ComP p := forall K h o s q rd st, prel K h o s p q -> rel anyd h o s ->
  mrel (fun a b _ => fst a = fst b /\ prel K h o s (snd a) (snd b)) (o_commit p h rd st) (internal_commit s q rd st).
Lemma com_list ps : Forall ComP ps -> forall K h os ss qs rd st, prels K h os ss ps qs -> Forall2 (rel anyd h) os ss ->
  mrel (fun a b _ => map fst a = map fst b /\ prels K h os ss (map snd a) (map snd b))
       (mapM (fun p => o_commit p h rd) ps st) (zipM (fun s p => internal_commit s p rd) ss qs st).
Proof.
  induction 1 as [|p ps HP HF IH]; intros K h os ss qs rd st P R; inversion P as [|o s p0 q os' ss' ps' qs' P1 P2]; subst; cbn [mapM zipM].
  - apply mrel_ret. simpl. split; constructor.
  - inversion R as [|? ? ? ? R1 R2]; subst.
    eapply mrel_bind; [apply HP; eauto|]. intros [v p1] [v' q1] st1 (Ev & P1'). cbn [fst snd] in *. subst v'.
    eapply mrel_bind; [apply IH; eauto|]. intros l l' st2 (El & P2').
    apply mrel_ret. simpl. split; [now rewrite El|]. now constructor.
Qed.
Lemma com_all p : ComP p.
Proof.
  induction p as [o' ks|o' ps IH|o' j p sims IH|o' sv con] using oprover_ind'; intros K h o s q rd st P R; inversion P; subst;
    cbn [o_commit].
  - inversion R; subst. cbn [internal_commit]. unfold bind. match goal with |- mrel _ (match commit_dl ?d _ _ with _ => _ end) _ => remember d as d0 eqn:Ed end.
    destruct (commit_dl d0 rd st) as [[[v p] s']|e] eqn:E; simpl; auto. destruct (commit_dl_prover _ _ _ _ _ _ E) as [k ->].
    split; auto. split; auto. subst d0. now constructor.
  - cbn [internal_commit]. pose proof (rel_eqv _ _ _ _ R) as Ev. inversion R as [|? ? ? R1| |]; subst.
    apply mrel_step. intros e s1 _. rewrite (eqv_validate_and _ _ _ Ev). apply mrel_step. intros u s2 _.
    eapply mrel_bind with (R := fun a b _ => a = b).
    { rewrite (eqv_update _ _ _ _ Ev). match goal with |- mrel _ ?x _ => destruct x as [[? ?]|]; simpl; auto end. }
    intros r1 r2 s3 <-. eapply mrel_bind; [apply com_list; eauto|]. intros l l' s4 (El & P'). apply mrel_ret. cbn [fst snd].
    rewrite El. split; auto. now constructor.
  - rewrite internal_commit_or. pose proof (rel_eqv _ _ _ _ R) as Ev. inversion R as [| |? ? ? R1|]; subst.
    apply mrel_step. intros e s1 _. rewrite (eqv_validate_or _ _ _ Ev). apply mrel_step. intros u s2 _.
    match goal with HP : prel _ _ ?x ?y p ?z, H1 : nth_error subs j = Some ?x, H2 : nth_error ss j = Some ?y |- _ =>
      rename x into o; rename y into s; rename z into q; pose proof HP as PS; pose proof H1 as Eo; pose proof H2 as Es end.
    assert (Ro : rel anyd h o s).
    { destruct (Forall2_nth_l _ _ _ R1 j o Eo) as (y & Ey & Ry). congruence. }
    eapply mrel_bind with (R := fun a b _ => fst a = fst b /\ prel K h o s (snd a) (snd b)).
    { rewrite sel_loop_eq, Es. apply IH; auto. }
    intros [v p1] [v' q1] s3 (Ee & P'). cbn [fst snd] in *. subst v'. apply mrel_ret. simpl. split; auto. econstructor; eauto.
  - inversion R; subst. cbn [internal_commit oid]. match goal with |- context [snd (exts h i)] => destruct (snd (exts h i)) end; reflexivity.
  - inversion R as [| | |? ? Ei Ek]; subst. cbn [internal_commit oid]. match goal with H : snd (exts h i) = Some _ |- _ => rewrite H end.
    destruct q0 as [q0|]; [|reflexivity]. apply mrel_step. intros [v q1] s1 _. apply mrel_ret. cbn [fst snd]. split; auto.
    constructor.
Qed.

(** ** compute_response *)
Definition ResP p := forall K h o s q c st, prel K h o s p q -> rel anyd h o s -> o_response p h c st = compute_response s q c st.
Lemma res_list ps : Forall ResP ps -> forall K h os ss qs c st, prels K h os ss ps qs -> Forall2 (rel anyd h) os ss ->
  mapM (fun p => o_response p h c) ps st = zipM (fun s p => compute_response s p c) ss qs st.
Proof.
  induction 1 as [|p ps HP HF IH]; intros K h os ss qs c st P R; inversion P as [|o s p0 q os' ss' ps' qs' P1 P2]; subst; cbn [mapM zipM]; auto.
  inversion R as [|? ? ? ? R1 R2]; subst. apply bind_ext; [eapply HP; eauto|]. intros a s'. apply bind_ext; [eapply IH; eauto|]. auto.
Qed.
Lemma res_all p : ResP p.
Proof.
  induction p as [o' ks|o' ps IH|o' j p sims IH|o' sv con] using oprover_ind'; intros K h o s q c st P R; inversion P; subst;
    cbn [o_response].
  - inversion R; subst. reflexivity.
  - cbn [compute_response]. inversion R as [|? ? ? R1| |]; subst. apply bind_ext; auto. eapply res_list; eauto.
  - rewrite compute_response_or. inversion R as [| |? ? ? R1|]; subst.
    match goal with HP : prel _ _ ?x ?y p ?z, H1 : nth_error subs j = Some ?x, H2 : nth_error ss j = Some ?y |- _ =>
      rename x into o; rename y into s; rename z into q; pose proof HP as PS; pose proof H1 as Eo; pose proof H2 as Es end.
    assert (Ro : rel anyd h o s).
    { destruct (Forall2_nth_l _ _ _ R1 j o Eo) as (y & Ey & Ry). congruence. }
    apply bind_ext; auto. rewrite sel_loop_eq, Es. eapply IH; eauto.
  - cbn [compute_response]. match goal with |- _ = match ?c with _ => _ end _ => destruct c end; reflexivity.
  - cbn [compute_response]. match goal with |- context [match ?c with Some _ => compute_response _ _ _ | None => _ end] => destruct c end; reflexivity.
Qed.

(** ** prove *)
Lemma nizk_rel K h o s p q msg st : prel K h o s p q -> rel anyd h o s -> NoDup (ids o) ->
  mrel (fun a b _ => fst a = fst (fst b) /\ rel anyd (snd a) o (snd b)) (o_nizk p msg h st) (get_nizk_proof s q msg st).
Proof.
  intros P R N. unfold o_nizk, get_nizk_proof.
  eapply mrel_bind; [apply pre_all; eauto|]. intros [[pre p1] h1] [[pre' q1] s1] st1 (Ep & P1 & R1). cbn [fst snd] in *. subst pre'.
  eapply mrel_bind; [apply com_all; eauto|]. intros [com p2] [com' q2] st2 (Ec & P2). cbn [fst snd] in *. subst com'.
  rewrite (of_qobj _ _ (prel_of _ _ _ _ _ _ P2)). rewrite (eqv_prehash _ _ (rel_eqv _ _ _ _ R1)).
  apply mrel_step. intros i st3 _. apply mrel_step. intros c st4 _.
  eapply mrel_bind with (R := fun a b _ => a = b).
  { rewrite (res_all p2 _ _ _ _ _ c st4 P2 R1). match goal with |- mrel _ ?x _ => destruct x as [[? ?]|]; simpl; auto end. }
  intros r r' st5 <-. apply mrel_ret. simpl. auto.
Qed.
Lemma prove_rel o sd msg h st : NoDup (ids o) ->
  mrel (fun a b _ => fst a = fst b /\ rel anyd (snd a) o (snd b)) (o_prove o sd msg h st) (prove (view h o) sd msg st).
Proof.
  intros N. unfold o_prove, prove.
  assert (G : exists E, GP sd E o /\ ready sd E o st).
  { destruct o as [i lhs bs ss di|i subs|i subs|i k].
    - exists (env st). split; [apply gp_dl|]. simpl. auto.
    - exists (upds sd (env st)). split; [apply gp_all; intros; apply upds_idem|]. simpl. auto.
    - exists (upds sd (env st)). split; [apply gp_all; intros; apply upds_idem|]. simpl. auto.
    - exists (upds sd (env st)). split; [apply gp_all; intros; apply upds_idem|]. simpl. auto. }
  destruct G as (E & G & Rd).
  eapply mrel_bind; [apply (G N h (view h o) st Rd); apply rel_view; intros d; reflexivity|].
  intros [a h1] [b s1] st1 (_ & R1 & _ & O1). cbn [fst snd] in *. apply rel_any in R1.
  destruct a as [p|], b as [q|]; simpl in O1; try contradiction; [|reflexivity].
  pose proof (nizk_rel _ _ _ _ _ _ msg st1 O1 R1 N) as L.
  unfold bind. destruct (o_nizk p msg h1 st1) as [[[z h2] s2]|e], (get_nizk_proof s1 q msg st1) as [[[[z' q'] s2'] st2]|e']; simpl in *; try contradiction; auto.
Qed.

(** ** verify *)
Inductive wrel : obj -> stmt -> overifier -> verifier -> Prop :=
| WlDL i lhs bs ss di d : wrel (ODL i lhs bs ss di) (SDL d) (XDL (ODL i lhs bs ss di)) RDL
| WlAnd i subs ss b xs vs : wrels subs ss xs vs -> wrel (OAnd i subs) (SAnd ss b) (XAnd (OAnd i subs) xs) (RAnd vs)
| WlOr i subs ss b c xs vs : wrels subs ss xs vs -> wrel (OOr i subs) (SOr ss b c) (XOr (OOr i subs) xs) (ROr vs)
| WlExt0 i k b pre con : wrel (OExt i k) (SExt k b pre con) (XExt (OExt i k) None) (RExt None)
| WlExt1 i k b pre c w : wrel (OExt i k) (SExt k b pre (Some c)) (XExt (OExt i k) (Some (c, w))) (RExt (Some w))
with wrels : list obj -> list stmt -> list overifier -> list verifier -> Prop :=
| WlsNil : wrels [] [] [] []
| WlsCons o s x v os ss xs vs : wrel o s x v -> wrels os ss xs vs -> wrels (o :: os) (s :: ss) (x :: xs) (v :: vs).
Lemma wrel_new D h o : forall s, rel D h o s -> wrel o s (o_verifier o) (get_verifier s).
Proof.
  induction o as [i lhs bs ss di|i subs IH|i subs IH|i k] using obj_ind'; intros s R; inversion R as [|? ? ? F|? ? ? F|]; subst; simpl; constructor.
  - clear R. revert IH. induction F; intros IH; simpl; constructor; inversion IH; subst; auto.
  - clear R. revert IH. induction F; intros IH; simpl; constructor; inversion IH; subst; auto.
Qed.
Lemma wrel_vof o : forall s x v, wrel o s x v -> vof o x.
Proof.
  induction o as [i lhs bs ss di|i subs IH|i subs IH|i k] using obj_ind'; intros s x v R; inversion R as [|? ? ? ? ? ? F|? ? ? ? ? ? ? F| |]; subst; constructor.
  - clear R. revert IH. induction F; intros IH; constructor; inversion IH; subst; eauto.
  - clear R. revert IH. induction F; intros IH; constructor; inversion IH; subst; eauto.
Qed.

Lemma bind_assoc {A B C} (m : M A) (f : A -> M B) (g : B -> M C) s : bind (bind m f) g s = bind m (fun a => bind (f a) g) s.
Proof. unfold bind. destruct (m s) as [[a s']|]; auto. Qed.
Definition ProcP o := forall D h s x v pre st, wrel o s x v -> rel D h o s -> NoDup (ids o) ->
  mrel (fun a b _ => wrel o (snd b) (fst a) (fst b) /\ rel D (snd a) o (snd b)) (o_process x pre h st) (process_pre s v pre st).
Lemma iseq_touch os xs : Forall2 vof os xs -> forall i pre h s r h' s',
  iseqM (fun i w h => let! p := lift (index pre i) in o_process w p h) i xs h s = Ok ((r, h'), s') ->
  touch (List.concat (map ids os)) [] h h'.
Proof.
  induction 1 as [|o2 v os vs O HF IHF]; intros i pre h s r h' s' H; simpl in H.
  - injection H as <- <- <-. apply touch_refl.
  - apply bind_ok in H as ([a h1] & s1 & H1 & H).
    apply bind_ok in H1 as (p & s0 & _ & H1). apply bind_ok in H as ([b h2] & s2 & H2 & H). simpl in H2, H. injection H as <- <- <-.
    simpl. eapply touch_trans; [eapply touch_mono; [| |eapply process_touch; eauto]|eapply touch_mono; [| |eapply IHF; eauto]];
      try apply incl_refl; intros z Z; apply in_or_app; auto.
Qed.
Lemma proc_list os : Forall ProcP os -> forall D h ss xs vs pre i st, wrels os ss xs vs -> Forall2 (rel D h) os ss ->
  NoDup (List.concat (map ids os)) ->
  mrel (fun a b _ => wrels os (map snd b) (fst a) (map fst b) /\ Forall2 (rel D (snd a)) os (map snd b))
       (iseqM (fun i w h => let! p := lift (index pre i) in o_process w p h) i xs h st) (pp_loop process_pre pre i ss vs st).
Proof.
  induction 1 as [|o os HP HF IH]; intros D h ss xs vs pre i st P R N; inversion P as [|o' s x v os' ss' xs' vs' P1 P2]; subst; cbn [iseqM pp_loop].
  - apply mrel_ret. simpl. repeat split; constructor.
  - inversion R as [|? ? ? ? R1 R2]; subst. simpl in N. apply NoDup_app_inv in N as (N1 & N2 & N3).
    rewrite bind_assoc. apply mrel_step. intros p st0 _.
    eapply mrel_bind; [apply mrel_ok, (HP D h s x v p st0 P1 R1 N1)|].
    intros [x1 h1] [v1 s1] st1 ((W1 & R1') & E1 & _). cbn [fst snd] in *.
    pose proof (process_touch o _ _ _ _ _ _ _ (wrel_vof _ _ _ _ P1) E1) as T1.
    assert (R2' : Forall2 (rel D h1) os ss') by (eapply F2_touch; eauto).
    eapply mrel_bind; [apply mrel_ok, IH; eauto|]. intros [l h2] l' st2 ((W2 & R2'') & E3 & _). cbn [fst snd] in *.
    apply mrel_ret. simpl. split; constructor; auto.
    assert (V : Forall2 vof os xs') by (clear -P2; induction P2; constructor; auto; eapply wrel_vof; eauto).
    apply (iseq_touch os xs' V) in E3. eapply rel_touch; eauto.
Qed.
Lemma proc_all o : ProcP o.
Proof.
  induction o as [i lhs bs ss di|i subs IH|i subs IH|i k] using obj_ind'; intros D h s x v pre st P R N; inversion P as [|? ? ? ? xs vs F|? ? ? ? ? xs vs F| |]; subst; cbn [o_process].
  - apply mrel_ret. simpl. auto.
  - rewrite process_pre_and. destruct (is_none pre); [apply mrel_ret; simpl; auto|]. inversion R as [|? ? ? R1| |]; subst.
    inversion N as [|? ? N1 N2]; subst.
    eapply mrel_bind; [apply mrel_ok, proc_list; eauto|]. intros [l h1] l' st1 ((W1 & R1') & E1 & _). cbn [fst snd] in *.
    apply mrel_ret. cbn [fst snd]. split; [now constructor|]. apply RlAnd'; auto.
    apply (iseq_touch subs) in E1; [destruct E1 as (T & _ & _); now destruct (T i N1)|].
    clear -F. induction F; constructor; auto. eapply wrel_vof; eauto.
  - rewrite process_pre_or. destruct (is_none pre); [apply mrel_ret; simpl; auto|]. inversion R as [| |? ? ? R1|]; subst.
    inversion N as [|? ? N1 N2]; subst.
    eapply mrel_bind; [apply mrel_ok, proc_list; eauto|]. intros [l h1] l' st1 ((W1 & R1') & E1 & _). cbn [fst snd] in *.
    apply mrel_ret. cbn [fst snd]. split; [now constructor|].
    apply (iseq_touch subs) in E1; [destruct E1 as (T & _ & _); destruct (T i N1) as (? & ? & ?); now apply RlOr'|].
    clear -F. induction F; constructor; auto. eapply wrel_vof; eauto.
  - inversion R; subst. cbn [process_pre]. apply mrel_step. intros c s2 _. apply mrel_ret. simpl. split; [constructor|].
    apply RlExt'; simpl; unfold upd; now rewrite ?Nat.eqb_refl.
  - inversion R; subst. cbn [process_pre]. apply mrel_step. intros c' s2 _. apply mrel_ret. simpl. split; [constructor|].
    apply RlExt'; simpl; unfold upd; now rewrite ?Nat.eqb_refl.
Qed.

(** the loops of o_consistent *)
Lemma cons_rel e o : forall D h s x v r rd, wrel o s x v -> rel D h o s -> o_consistent e x r rd = consistent e s v r rd.
Proof.
  induction o as [i lhs bs ss di|i subs IH|i subs IH|i k] using obj_ind'; intros D h s x v r rd P R; inversion P as [|? ? ? ? xs vs F|? ? ? ? ? xs vs F| |]; subst; cbn [o_consistent].
  - inversion R; subst. reflexivity.
  - rewrite consistent_and. inversion R as [|? ? ? R1| |]; subst. clear P R. revert rd IH R1. generalize O.
    induction F as [|o s x v os ss xs vs P F IHF]; intros n rd IH R1; cbn [cand_loop]; auto.
    inversion IH as [|? ? I1 I2]; subst. inversion R1 as [|? ? ? ? Ra Rb]; subst.
    destruct (index r n) as [ri|]; [|reflexivity]. cbn [rbind]. rewrite (I1 _ _ _ _ _ ri rd P Ra).
    destruct (consistent e s v ri rd) as [[rd'|]|]; cbn [rbind]; auto.
  - rewrite consistent_or. inversion R as [| |? ? ? R1|]; subst. clear P R.
    match goal with |- ?f O xs = cor_loop ?a ?b ?c O ss vs => enough (Q : forall n, f n xs = cor_loop a b c n ss vs) by apply Q end.
    intros n. revert n IH R1.
    induction F as [|o s x v os ss xs vs P F IHF]; intros n IH R1; cbn [cor_loop]; auto.
    inversion IH as [|? ? I1 I2]; subst. inversion R1 as [|? ? ? ? Ra Rb]; subst.
    destruct (index r 1) as [rs|]; [|reflexivity]. cbn [rbind]. destruct (index rs n) as [ri|]; [|reflexivity]. cbn [rbind].
    rewrite (I1 _ _ _ _ _ ri [] P Ra). destruct (consistent e s v ri []) as [[rd'|]|]; cbn [rbind]; auto.
  - cbn [consistent]. match goal with |- context [match ?c with Some _ => _ | None => _ end] => destruct c end; reflexivity.
  - reflexivity.
Qed.
Lemma verify_rel o z msg h st : NoDup (ids o) ->
  mrel (fun a b _ => fst a = fst b /\ snd b = view (snd a) o) (o_verify o z msg h st) (verify (view h o) z msg st).
Proof.
  intros N. unfold o_verify, verify, verify_nizk.
  assert (R : rel eq h o (view h o)) by (apply rel_view; auto). pose proof (wrel_new _ _ _ _ R) as Wn.
  eapply mrel_bind with (R := fun a b _ => wrel o (snd b) (fst a) (fst b) /\ rel eq (snd a) o (snd b)).
  { destruct (is_none (n_pre z)); [apply mrel_ret; simpl; auto|]. apply proc_all; auto. }
  intros [x h1] [v s1] st1 (W1 & R1). cbn [fst snd] in *. pose proof (rel_eq _ _ _ R1) as ->.
  apply mrel_step. intros i st2 _. apply mrel_step. intros e st3 _. unfold pre_validation. rewrite (cons_rel e o _ _ _ _ _ _ _ W1 R1).
  apply mrel_step. intros u st4 _. apply mrel_step. intros com st5 _. apply mrel_step. intros c st6 _.
  apply mrel_ret. simpl. auto.
Qed.
End R.

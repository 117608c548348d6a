(** Proving with statement objects of which none occurs twice is proving with values. *)
From Coq Require Import String Lia.
From Verif Require Import Base World Val Expr Utils Stmt Prove Verify Spec Shapes Lib DictProofs Keeps Tree Provers Objects Sharing
  ObjProofs ObjFrame.
Open Scope Z_scope.
Open Scope list_scope.

Lemma mrel_ok {A B} (R : A -> B -> st -> Prop) m n :
  mrel R m n -> mrel (fun a b s => R a b s /\ m = Ok (a, s) /\ n = Ok (b, s)) m n.
Proof. unfold mrel. destruct m as [[a s]|], n as [[b s']|]; auto. intros [<- H]. auto. Qed.
Lemma Forall2_nth_l {A B} (R : A -> B -> Prop) l l' : Forall2 R l l' -> forall i x, nth_error l i = Some x ->
  exists y, nth_error l' i = Some y /\ R x y.
Proof.
  induction 1 as [|x y l l' H HF IH]; intros [|i] z E; simpl in *; try discriminate; eauto. injection E as <-. eauto.
Qed.
Lemma Forall2_replace_r {A B} (R : A -> B -> Prop) l l' : Forall2 R l l' -> forall i x y, nth_error l i = Some x -> R x y ->
  Forall2 R l (replace i y l').
Proof.
  induction 1 as [|x y l l' H HF IH]; intros [|i] z w E K; simpl in *; try discriminate; constructor; eauto. now injection E as ->.
Qed.
Lemma NoDup_concat_nth {A B} (f : A -> list B) l : NoDup (List.concat (map f l)) ->
  forall i j x y, nth_error l i = Some x -> nth_error l j = Some y -> i <> j -> forall z, In z (f x) -> ~ In z (f y).
Proof.
  induction l as [|a l IH]; intros N i j x y Ei Ej D z I J; [destruct i; discriminate|].
  simpl in N. apply NoDup_app_inv in N as (N1 & N2 & N3).
  assert (K : forall k u, nth_error l k = Some u -> incl (f u) (List.concat (map f l))).
  { intros k u E v V. apply in_concat. exists (f u). split; auto. apply in_map. eapply nth_error_In; eauto. }
  destruct i as [|i], j as [|j]; simpl in *; try lia.
  - injection Ei as <-. eapply N3; eauto. eapply K; eauto.
  - injection Ej as <-. eapply N3; eauto. eapply K; eauto.
  - eapply (IH N2 i j); eauto.
Qed.

Section R.
Context {W : World}.

Lemma rel_touch D l h h' o s : touch l [] h h' -> (forall i, In i (ids o) -> ~ In i l) -> rel D h o s -> rel D h' o s.
Proof.
  intros (A & B & _) I. apply rel_frame; auto. intros i v _ H. rewrite <- (B i); auto.
Qed.
Lemma RlAnd' D h i subs ss b : Forall2 (rel D h) subs ss -> b = marks h i -> rel D h (OAnd i subs) (SAnd ss b).
Proof. intros H ->. now constructor. Qed.
Lemma RlOr' D h i subs ss b c : Forall2 (rel D h) subs ss -> b = marks h i -> c = picks h i -> rel D h (OOr i subs) (SOr ss b c).
Proof. intros H -> ->. now constructor. Qed.
Lemma RlExt' D h i k b p c : b = marks h i -> (p, c) = exts h i -> rel D h (OExt i k) (SExt k b p c).
Proof. intros -> E. replace p with (fst (exts h i)) by now rewrite <- E. replace c with (snd (exts h i)) by now rewrite <- E. constructor. Qed.

(** ** prepare_simulate_proof *)
Definition PrepP o := forall D h s st, NoDup (ids o) -> rel D h o s ->
  mrel (fun h' s' _ => rel D h' o s') (o_prepare o h st) (prepare_sim s st).
Lemma prepare_list os : Forall PrepP os -> forall D h ss st, NoDup (List.concat (map ids os)) -> Forall2 (rel D h) os ss ->
  mrel (fun h' ss' _ => Forall2 (rel D h') os ss') (foldM o_prepare os h st) (mapM prepare_sim ss st).
Proof.
  induction 1 as [|o os HP HF IH]; intros D h ss st N R; inversion R as [|? s ? ss' R1 R2]; subst; cbn [foldM mapM].
  - apply mrel_ret. constructor.
  - simpl in N. apply NoDup_app_inv in N as (N1 & N2 & N3).
    eapply mrel_bind; [apply mrel_ok, HP; eauto|]. intros h1 s1 st1 (R1' & E1 & _). apply prepare_touch in E1.
    assert (R2' : Forall2 (rel D h1) os ss').
    { clear -R2 E1 N3. induction R2 as [|o2 s2 os ss R HF IH]; constructor.
      - eapply rel_touch; eauto. intros i I J. eapply N3; eauto. simpl. apply in_or_app; auto.
      - apply IH. intros i I J. eapply N3; eauto. simpl. apply in_or_app; auto. }
    specialize (IH D h1 ss' st1 N2 R2'). apply mrel_ok in IH.
    destruct (foldM o_prepare os h1 st1) as [[h2 st2]|e] eqn:E2, (mapM prepare_sim ss' st1) as [[ss2 st2']|e'] eqn:E3;
      simpl in IH; try contradiction; unfold bind; rewrite E3; simpl; auto.
    destruct IH as (<- & IH & _). split; auto. constructor; auto.
    assert (T : touch (List.concat (map ids os)) [] h1 h2).
    { eapply foldM_touch; [|exact E2]. intros x I h0 s0 h3 s3 E. eapply touch_mono; [| |eapply prepare_touch; eauto];
        [now apply (incl_concat ids x)|apply incl_refl]. }
    eapply rel_touch; eauto.
Qed.
Lemma prepare_rel o : PrepP o.
Proof.
  induction o as [i lhs bs ss di|i subs IH|i subs IH|i k] using obj_ind'; intros D h s st N R; inversion R; subst; cbn [o_prepare prepare_sim].
  - apply mrel_ret. now constructor.
  - inversion N as [|? ? N1 N2]; subst.
    pose proof (prepare_list subs IH D h ss st N2 ltac:(assumption)) as L. apply mrel_ok in L.
    destruct (foldM o_prepare subs h st) as [[h2 st2]|e] eqn:E2, (mapM prepare_sim ss st) as [[ss2 st2']|e'] eqn:E3;
      simpl in L; try contradiction; unfold bind; rewrite E3; simpl; auto.
    destruct L as (<- & L & _). split; auto. apply RlAnd'; auto.
    assert (T : touch (List.concat (map ids subs)) [] h h2).
    { eapply foldM_touch; [|exact E2]. intros x I h0 s0 h3 s3 E. eapply touch_mono; [| |eapply prepare_touch; eauto];
        [now apply (incl_concat ids x)|apply incl_refl]. }
    destruct T as (T & _ & _). now destruct (T i N1).
  - inversion N as [|? ? N1 N2]; subst.
    pose proof (prepare_list subs IH D h ss st N2 ltac:(assumption)) as L. apply mrel_ok in L.
    destruct (foldM o_prepare subs h st) as [[h2 st2]|e] eqn:E2, (mapM prepare_sim ss st) as [[ss2 st2']|e'] eqn:E3;
      simpl in L; try contradiction; unfold bind; rewrite E3; simpl; auto.
    destruct L as (<- & L & _). split; auto.
    assert (T : touch (List.concat (map ids subs)) [] h h2).
    { eapply foldM_touch; [|exact E2]. intros x I h0 s0 h3 s3 E. eapply touch_mono; [| |eapply prepare_touch; eauto];
        [now apply (incl_concat ids x)|apply incl_refl]. }
    destruct T as (T & _ & _). destruct (T i N1) as (? & ? & ?). apply RlOr'; auto.
  - unfold full_construct. apply mrel_step. intros p s1 _. apply mrel_step. intros c s2 _. apply mrel_ret.
    apply RlExt'; auto. simpl. unfold upd. now rewrite Nat.eqb_refl.
Qed.
Lemma F2_touch D l h h' os ss : touch l [] h h' -> (forall i, In i (List.concat (map ids os)) -> ~ In i l) ->
  Forall2 (rel D h) os ss -> Forall2 (rel D h') os ss.
Proof.
  intros T I R. induction R as [|o s os ss R HF IH]; constructor.
  - eapply rel_touch; eauto. intros j J. apply I. simpl. apply in_or_app; auto.
  - apply IH. intros j J. apply I. simpl. apply in_or_app; auto.
Qed.

(** ** setup_simulations *)
Lemma setup_rel D idx os : forall i h ss st, NoDup (List.concat (map ids os)) -> Forall2 (rel D h) os ss ->
  mrel (fun a b st' => snd a = snd b /\ Forall2 (rel D (fst a)) os (fst b) /\ env st' = env st /\
                       forall k, (i + k)%nat = idx -> nth_error (fst b) k = nth_error ss k)
       (osetup_loop idx i os h st) (setup_loop idx i ss st).
Proof.
  induction os as [|o os IH]; intros i h ss st N R; inversion R as [|? s ? ss' R1 R2]; subst.
  - apply mrel_ret. simpl. repeat split; auto.
  - simpl in N. apply NoDup_app_inv in N as (N1 & N2 & N3).
    cbn [osetup_loop setup_loop]. destruct (Nat.eqb_spec i idx) as [->|D1].
    + pose proof (mrel_ok _ _ _ (IH (S idx) h ss' st N2 R2)) as L.
      destruct (osetup_loop idx (S idx) os h st) as [[[h2 ts] st2]|e] eqn:E2, (setup_loop idx (S idx) ss' st) as [[[ss2 ts'] st2']|e'] eqn:E3;
        simpl in L; try contradiction; unfold bind; rewrite E3; simpl; auto.
      destruct L as (<- & (-> & L & Ee & Ek) & _ & _). split; auto. split; auto. split; [|split]; auto.
      * constructor; auto. apply setup_touch in E2. eapply rel_touch; eauto.
      * intros [|k] K; auto. lia.
    + pose proof (mrel_ok _ _ _ (prepare_rel o D h s st N1 R1)) as L0.
      eapply mrel_bind; [exact L0|]. intros h1 s1 st1 (R1' & E1 & E1'). cbn beta.
      assert (Ke : env st1 = env st) by (eapply keeps_prepare_sim; eauto).
      apply prepare_touch in E1.
      assert (R2' : Forall2 (rel D h1) os ss').
      { eapply F2_touch; eauto. }
      assert (Es : forall s0, simulate_proof (view h1 o) None None s0 = simulate_proof s1 None None s0)
        by (intros; apply eqv_simulate; eapply rel_eqv; eauto).
      unfold bind at 1 3. rewrite Es. destruct (simulate_proof s1 None None st1) as [[t st2]|e] eqn:Et; [|reflexivity].
      assert (Kt : env st2 = env st1) by (eapply keeps_simulate_proof; eauto).
      pose proof (mrel_ok _ _ _ (IH (S i) h1 ss' st2 N2 R2')) as L.
      unfold bind.
      destruct (osetup_loop idx (S i) os h1 st2) as [[[h2 ts] st3]|e] eqn:E2, (setup_loop idx (S i) ss' st2) as [[[ss2 ts'] st3']|e'] eqn:E3;
        simpl in L; try contradiction; simpl; auto.
      destruct L as (<- & (-> & L & Ee & Ek) & _ & _). split; auto. split; auto. split; [|split]; auto.
      * constructor; auto. apply setup_touch in E2. eapply rel_touch; eauto.
      * congruence.
      * intros [|k] K; [lia|]. simpl. apply Ek. lia.
Qed.

(** ** get_prover *)
Inductive prel (K : dict Z -> Prop) (h : store) : obj -> stmt -> oprover -> prover -> Prop :=
| PlDL i lhs bs ss di ks b : K (dicts h di) ->
    prel K h (ODL i lhs bs ss di) (SDL (mkDL lhs bs ss (dicts h di) b)) (QDL (ODL i lhs bs ss di) ks) (PDL ks)
| PlAnd i subs ss b ps qs : prels K h subs ss ps qs -> prel K h (OAnd i subs) (SAnd ss b) (QAnd (OAnd i subs) ps) (PAnd qs)
| PlOr i subs ss b c j o s p q sims : nth_error subs j = Some o -> nth_error ss j = Some s -> prel K h o s p q ->
    prel K h (OOr i subs) (SOr ss b c) (QOr (OOr i subs) j p sims) (POr j q sims)
| PlExt0 i k b pre con sv : prel K h (OExt i k) (SExt k b pre con) (QExt (OExt i k) sv None) (PExt sv None)
| PlExt1 i k b pre c sv q : prel K h (OExt i k) (SExt k b pre (Some c)) (QExt (OExt i k) sv (Some (c, q))) (PExt sv (Some q))
with prels (K : dict Z -> Prop) (h : store) : list obj -> list stmt -> list oprover -> list prover -> Prop :=
| PlsNil : prels K h [] [] [] []
| PlsCons o s p q os ss ps qs : prel K h o s p q -> prels K h os ss ps qs -> prels K h (o :: os) (s :: ss) (p :: ps) (q :: qs).
Scheme prel_min := Minimality for prel Sort Prop with prels_min := Minimality for prels Sort Prop.
Combined Scheme prel_mut from prel_min, prels_min.

Lemma prel_dicts (K K' : dict Z -> Prop) h h' : (forall d, K d -> K' d) -> (forall i, K (dicts h i) -> dicts h' i = dicts h i) ->
  forall o s p q, prel K h o s p q -> prel K' h' o s p q.
Proof.
  intros HK HD. apply (prel_min K h (prel K' h') (prels K' h')); intros; try (econstructor; eauto; fail).
  rewrite <- (HD di H). constructor. rewrite (HD di H). auto.
Qed.
Lemma prel_of K h o s p q : prel K h o s p q -> of_obj o p.
Proof.
  revert o s p q. apply (prel_min K h (fun o _ p _ => of_obj o p) (fun os _ ps _ => Forall2 of_obj os ps)); intros; econstructor; eauto.
Qed.
Definition oprel K h o s (a : option oprover) (b : option prover) : Prop :=
  match a, b with Some p, Some q => prel K h o s p q | None, None => True | _, _ => False end.
Lemma oprel_dicts (K : dict Z -> Prop) h h' : (forall i, K (dicts h i) -> dicts h' i = dicts h i) ->
  forall o s p q, oprel K h o s p q -> oprel K h' o s p q.
Proof. intros H o s [p|] [q|]; simpl; auto. apply prel_dicts; auto. Qed.
Inductive gpl K h : list obj -> list (option oprover) -> list (option prover * stmt) -> Prop :=
| GpNil : gpl K h [] [] []
| GpCons o a b os l l' : oprel K h o (snd b) a (fst b) -> gpl K h os l l' -> gpl K h (o :: os) (a :: l) (b :: l').
Lemma gpl_all K h os l l' : gpl K h os l l' -> forallb (fun r => is_some (fst r)) l' = forallb is_some l.
Proof. induction 1 as [|o a b os l l' H HG IH]; simpl; auto. rewrite IH. destruct a, b as [[]]; simpl in *; auto; contradiction. Qed.
Lemma gpl_prels K h os l l' : gpl K h os l l' -> forallb is_some l = true ->
  prels K h os (map snd l') (flat_map (fun p => match p with Some p => [p] | None => [] end) l)
    (flat_map (fun r : option prover * stmt => match fst r with Some p => [p] | None => [] end) l').
Proof.
  induction 1 as [|o a b os l l' H HG IH]; simpl; [constructor|]. destruct a as [p|]; [|discriminate]. simpl. intros A.
  destruct b as [[q|] s]; simpl in *; [|contradiction]. constructor; auto.
Qed.

Section G.
Variable sd : dict Z.
Variable E : nat -> option Z.
Hypothesis stable : forall i, upds sd E i = E i.
Definition agr (d v : dict Z) : Prop := dupdate E d sd = dupdate E v sd.
Definition full (d : dict Z) : Prop := dupdate E d sd = d.
Definition dstep (h h' : store) : Prop := forall i, dicts h' i = dicts h i \/ dicts h' i = dupdate E (dicts h i) sd.
Lemma dstep_refl h : dstep h h. Proof. intros i. auto. Qed.
Lemma dstep_trans a b c : dstep a b -> dstep b c -> dstep a c.
Proof.
  intros H K i. destruct (H i) as [X|X], (K i) as [Y|Y]; rewrite Y, X; auto. right. apply dupdate_idem.
Qed.
Lemma dstep_full h h' : dstep h h' -> forall i, full (dicts h i) -> dicts h' i = dicts h i.
Proof. intros H i F. destruct (H i) as [X|X]; rewrite X; auto. Qed.
Lemma dstep_touch l h h' : touch l [] h h' -> dstep h h'.
Proof. intros (_ & B & _) i. left. symmetry. apply B. auto. Qed.
Lemma rel_dstep h h' o s : (forall i, In i (ids o) -> same_at h h' i) -> dstep h h' -> rel agr h o s -> rel agr h' o s.
Proof.
  intros S K. apply rel_frame; auto. intros i v _ A. unfold agr in *. destruct (K i) as [X|X]; rewrite X; auto.
  now rewrite dupdate_idem.
Qed.
Lemma F2_dstep h h' os ss : (forall i, In i (List.concat (map ids os)) -> same_at h h' i) -> dstep h h' ->
  Forall2 (rel agr h) os ss -> Forall2 (rel agr h') os ss.
Proof.
  intros S K R. induction R as [|o s os ss R HF IH]; constructor.
  - eapply rel_dstep; eauto. intros j J. apply S. simpl. apply in_or_app; auto.
  - apply IH. intros j J. apply S. simpl. apply in_or_app; auto.
Qed.
Definition ready (o : obj) (st : st) : Prop :=
  match o with ODL _ _ _ _ _ => forall i, env st i = E i | _ => forall i, upds sd (env st) i = E i end.
Lemma ready_env o st : (forall i, env st i = E i) -> ready o st.
Proof. intros H. destruct o; simpl; auto; intros j; rewrite (upds_ext sd _ E H); apply stable. Qed.
Definition GP o := NoDup (ids o) -> forall h s st, ready o st -> rel agr h o s ->
  mrel (fun a b st' => (forall i, env st' i = E i) /\ rel agr (snd a) o (snd b) /\ dstep h (snd a) /\
                       oprel full (snd a) o (snd b) (fst a) (fst b))
       (o_get_prover o sd h st) (get_prover s sd st).

Lemma gp_list os : Forall GP os -> NoDup (List.concat (map ids os)) -> forall h ss st, (forall i, env st i = E i) ->
  Forall2 (rel agr h) os ss ->
  mrel (fun a b st' => (forall i, env st' i = E i) /\ Forall2 (rel agr (snd a)) os (map snd b) /\ dstep h (snd a) /\
                       gpl full (snd a) os (fst a) b)
       (seqM (fun x => o_get_prover x sd) os h st) (mapM (fun s => get_prover s sd) ss st).
Proof.
  induction 1 as [|o os HP HF IH]; intros N h ss st He R; inversion R as [|? s ? ss' R1 R2]; subst; cbn [seqM mapM].
  - apply mrel_ret. simpl. split; [|split; [|split]]; auto; [apply dstep_refl|constructor].
  - simpl in N. apply NoDup_app_inv in N as (N1 & N2 & N3).
    eapply mrel_bind; [apply mrel_ok, HP; eauto; now apply ready_env|]. intros [a h1] [b s1] st1 ((He1 & R1' & D1 & O1) & E1 & _).
    simpl in R1', D1, O1. pose proof (get_prover_touch _ _ _ _ _ _ _ E1) as T1.
    assert (R2' : Forall2 (rel agr h1) os ss').
    { eapply F2_dstep; eauto. intros i I. apply T1. intros J. eapply N3; eauto. }
    eapply mrel_bind; [apply mrel_ok, IH; eauto|]. intros [l h2] l' st2 ((He2 & R2'' & D2 & O2) & E2 & _).
    simpl in R2'', D2, O2. cbn [fst snd]. apply mrel_ret. simpl. split; [|split; [|split]]; auto.
    + constructor; auto. eapply rel_dstep; eauto. intros i I.
      assert (T2 : touch (List.concat (map ids os)) (List.concat (map dids os)) h1 h2).
      { eapply seqM_touch; [|exact E2]. intros x X h0 s0 a0 h3 s3 G. eapply touch_mono; [| |eapply get_prover_touch; exact G];
          [now apply (incl_concat ids x)|now apply (incl_concat dids x)]. }
      apply T2. intros J. eapply N3; eauto.
    + eapply dstep_trans; eauto.
    + constructor; auto. simpl snd. simpl fst. exact (oprel_dicts full h1 h2 (dstep_full h1 h2 D2) _ _ _ _ O1).
Qed.

Lemma gp_loop subs orig : Forall GP subs -> NoDup (List.concat (map ids subs)) -> List.length orig = List.length subs ->
  forall fuel possible h cur st, (forall i, env st i = E i) ->
  (forall i o s, In i possible -> nth_error subs i = Some o -> nth_error orig i = Some s -> rel agr h o s) ->
  Forall2 (rel agr h) subs cur ->
  mrel (fun a b st' => (forall i, env st' i = E i) /\ Forall2 (rel agr (snd a)) subs (snd b) /\ dstep h (snd a) /\
          match fst a, fst b with
          | Some (i, p), Some (j, q) => i = j /\ exists o s, nth_error subs i = Some o /\ nth_error (snd b) i = Some s /\ prel full (snd a) o s p q
          | None, None => True
          | _, _ => False
          end)
       (o_loop fuel (map (fun x => o_get_prover x sd) subs) possible h st)
       (or_loop fuel (map (fun s => get_prover s sd) orig) possible cur st).
Proof.
  intros HG N Ln. induction fuel as [|fuel IH]; intros possible h cur st He HO R; cbn [o_loop or_loop].
  - apply mrel_ret. simpl. split; [|split; [|split]]; auto. apply dstep_refl.
  - apply mrel_step. intros d st1 Ed. assert (He1 : forall i, env st1 i = E i) by (intros; rewrite (keeps_draw _ _ _ _ Ed); auto).
    destruct (nth_error possible (Z.to_nat d)) as [i|] eqn:Ep; [|reflexivity]. apply nth_error_In in Ep.
    rewrite !nth_error_map. destruct (nth_error subs i) as [o|] eqn:Eo.
    2: { destruct (nth_error orig i) eqn:Es; [|reflexivity]. apply nth_error_None in Eo. rewrite <- Ln in Eo.
         apply nth_error_None in Eo. congruence. }
    destruct (nth_error orig i) as [s|] eqn:Es.
    2: { apply nth_error_None in Es. rewrite Ln in Es. apply nth_error_None in Es. congruence. }
    cbn [option_map].
    assert (NI : NoDup (ids o)).
    { clear -N Eo. revert i Eo. induction subs as [|x l IH]; intros [|i] H; try discriminate; simpl in *; apply NoDup_app_inv in N as (A & B & _).
      - now injection H as <-.
      - eauto. }
    assert (Go : GP o) by (rewrite Forall_forall in HG; apply HG; eapply nth_error_In; eauto).
    eapply mrel_bind; [apply mrel_ok, Go; eauto; now apply ready_env|].
    intros [a h1] [b s1] st2 ((He2 & R1 & D1 & O1) & E1 & _). cbn [fst snd] in *.
    pose proof (get_prover_touch _ _ _ _ _ _ _ E1) as T1.
    assert (Fr : forall j o', nth_error subs j = Some o' -> j <> i -> forall k, In k (ids o') -> same_at h h1 k).
    { intros j o' Ej Dj k Ik. apply T1. intros J. eapply (NoDup_concat_nth ids subs N j i); eauto. }
    assert (R' : Forall2 (rel agr h1) subs (replace i s1 cur)).
    { assert (Q : forall k l c, Forall2 (rel agr h) l c -> (forall j o', nth_error l j = Some o' -> nth_error subs (k + j) = Some o') ->
        forall m, (k + m)%nat = i -> nth_error l m = Some o -> Forall2 (rel agr h1) l (replace m s1 c)).
      { intros k l c F. revert k. induction F as [|x y l c Rx F IHF]; intros k HS m Em Xm; [destruct m; discriminate|].
        destruct m as [|m]; simpl.
        - injection Xm as ->. constructor; auto.
          clear -F HS Fr D1 Em. assert (HS' : forall j o', nth_error l j = Some o' -> nth_error subs (S k + j) = Some o').
          { intros j o' H. specialize (HS (S j) o' H). now replace (S k + j)%nat with (k + S j)%nat by lia. }
          assert (Hk : (i < S k)%nat) by lia. clear HS Em. revert HS' Hk. generalize (S k). clear k.
          induction F as [|x y l c Rx F IHF]; intros k HS Hk; constructor.
          + eapply rel_dstep; eauto. eapply (Fr (k + 0)%nat); [apply HS; reflexivity|lia].
          + apply (IHF (S k)); [|lia]. intros j o' H. specialize (HS (S j) o' H). now replace (S k + j)%nat with (k + S j)%nat by lia.
        - constructor.
          + eapply rel_dstep; eauto. eapply (Fr (k + 0)%nat); [apply HS; reflexivity|lia].
          + apply (IHF (S k)); auto; [|lia]. intros j o' H. specialize (HS (S j) o' H). now replace (S k + j)%nat with (k + S j)%nat by lia. }
      apply (Q O subs cur R); auto. }
    assert (Li : nth_error (replace i s1 cur) i = Some s1).
    { apply nth_error_replace_same. apply Forall2_len in R. rewrite <- R. apply nth_error_Some. congruence. }
    destruct a as [p|], b as [q|]; simpl in O1; try contradiction.
    + apply mrel_ret. cbn [fst snd]. split; [|split; [|split]]; auto. split; auto. exists o, s1. auto.
    + destruct (empty_dict _).
      * apply mrel_ret. cbn [fst snd]. auto.
      * eapply mrel_weak; [apply IH; auto|].
        -- intros j o' s' Ij Ej Es'. apply in_remove in Ij as [Ij Dj]. eapply rel_dstep; eauto.
        -- cbn [fst snd]. intros a b s' (A & B & C & D). split; [|split; [|split]]; auto. eapply dstep_trans; eauto.
Qed.

Lemma flags_rel D h subs ss : Forall2 (rel D h) subs ss -> forall k,
  map fst (filter (fun p : nat * obj => negb (marks h (oid (snd p)))) (combine (seq k (List.length subs)) subs)) =
  map fst (filter (fun p : nat * stmt => negb (simulated (snd p))) (combine (seq k (List.length ss)) ss)).
Proof.
  induction 1 as [|o s os ss R HF IH]; intros k; simpl; auto.
  assert (Q : simulated s = marks h (oid o)) by now inversion R. rewrite Q. specialize (IH (S k)).
  destruct (marks h (oid o)); simpl; now rewrite IH.
Qed.
Lemma usv_bind {B} (m : M B) st : (update_secret_values sd ;; m) st = m (mkSt (upds sd (env st)) (tape st) (pos st)).
Proof. reflexivity. Qed.
Lemma gp_dl i lhs bs ss di : GP (ODL i lhs bs ss di).
Proof.
  intros N h s st Rd R; inversion R; subst; cbn [o_get_prover get_prover].
  unfold get_prover_dl, bind, get_env. simpl in Rd. cbn [dl_vals dl_lhs dl_bases dl_secs].
  assert (X : dupdate (env st) (dicts h di) sd = dupdate (env st) v sd).
  { rewrite !(dupdate_ext (env st) E) by auto. assumption. }
  rewrite <- X. set (d := dupdate (env st) (dicts h di) sd) in *.
  assert (Fd : full d). { unfold full, d. rewrite (dupdate_ext (env st) E) by auto. apply dupdate_idem. }
  remember (set_mark (set_dict h di d) i true) as h1 eqn:Eh.
  assert (Xd : dicts h1 di = d) by (rewrite Eh; simpl; unfold upd; now rewrite Nat.eqb_refl).
  assert (Xm : marks h1 i = true) by (rewrite Eh; simpl; unfold upd; now rewrite Nat.eqb_refl).
  assert (Rl : rel agr h1 (ODL i lhs bs ss di) (SDL (mkDL lhs bs ss d true))).
  { rewrite <- Xm. constructor. rewrite Xd. reflexivity. }
  assert (St : dstep h h1).
  { intros j. rewrite Eh. simpl. unfold upd. destruct (Nat.eqb_spec j di) as [->|]; auto. right.
    unfold d. now rewrite (dupdate_ext (env st) E) by auto. }
  destruct (empty_dict d || existsb (fun s => negb (dmem (env st) d s)) ss) eqn:Q; simpl; rewrite ?Q; simpl; split; auto;
    (split; [|split; [|split]]); auto.
  rewrite <- Xd. constructor. rewrite Xd. exact Fd.
Qed.
Lemma gp_all o : GP o.
Proof.
  induction o as [i lhs bs ss di|i subs IH|i subs IH|i k] using obj_ind'; try apply gp_dl; intros N h s st Rd R; inversion R; subst;
    cbn [o_get_prover get_prover].
  - rewrite !usv_bind. simpl in Rd. inversion N as [|? ? N1 N2]; subst.
    destruct (marks h i) eqn:Em.
    + apply mrel_ret. cbn [fst snd env]. split; [exact Rd|split; [exact R|split; [apply dstep_refl|exact I]]].
    + eapply mrel_bind; [apply mrel_ok, gp_list; eauto|]. intros [l h1] l' st1 ((He & R1 & D1 & G1) & E1 & _). cbn [fst snd] in *.
      rewrite (gpl_all _ _ _ _ _ G1). destruct (forallb is_some l) eqn:Fa; [|reflexivity].
      apply mrel_ret. cbn [fst snd]. split; [|split; [|split]]; auto.
      * apply RlAnd'; auto. assert (T : touch (List.concat (map ids subs)) (List.concat (map dids subs)) h h1).
        { eapply seqM_touch; [|exact E1]. intros x X h0 s0 a0 h3 s3 G. eapply touch_mono; [| |eapply get_prover_touch; exact G];
            [now apply (incl_concat ids x)|now apply (incl_concat dids x)]. }
        destruct T as (T & _ & _). destruct (T i N1) as (? & _ & _). congruence.
      * simpl. constructor. now apply gpl_prels.
  - rewrite !usv_bind. simpl in Rd. inversion N as [|? ? N1 N2]; subst.
    destruct (marks h i) eqn:Em.
    + apply mrel_ret. cbn [fst snd env]. split; [exact Rd|split; [exact R|split; [apply dstep_refl|exact I]]].
    + match goal with HF : Forall2 _ subs ?l |- _ => rename l into ss; rename HF into RF end.
      rewrite (flags_rel agr h subs ss RF 0).
      match goal with |- context [or_loop (List.length ?x)] => remember x as cands end.
      destruct (empty_dict cands).
      { apply mrel_ret. cbn [fst snd env]. split; [exact Rd|split; [exact R|split; [apply dstep_refl|exact I]]]. }
      eapply mrel_bind.
      { apply mrel_ok, gp_loop; eauto. { symmetry. eapply Forall2_len; eauto. }
        intros j o s _ Ej Es. destruct (Forall2_nth_l _ _ _ RF j o Ej) as (y & Ey & Ry). congruence. }
      intros [r h1] [r' cur] st1 ((He & R1 & D1 & G1) & E1 & _). cbn [fst snd] in *.
      assert (T1 : touch (List.concat (map ids subs)) (List.concat (map dids subs)) h h1).
      { eapply o_loop_touch; [|exact E1]. intros gp I h0 s0 a0 h3 s3 G. apply in_map_iff in I as (x & <- & X).
        eapply touch_mono; [| |eapply get_prover_touch; exact G]; [now apply (incl_concat ids x)|now apply (incl_concat dids x)]. }
      assert (Xm : marks h1 i = false) by (destruct T1 as (T & _ & _); destruct (T i N1) as (? & _ & _); congruence).
      assert (Fp : forall c, Forall2 (rel agr (set_pick h1 i c)) subs cur).
      { intros c. eapply F2_touch; [apply set_pick_touch| |exact R1]. intros j J [<-|[]]. auto. }
      destruct r as [[j p]|], r' as [[j' q]|]; try contradiction.
      * destruct G1 as (<- & o & s & Ej & Es & Pq).
        rewrite o_setup_eq, setup_simulations_eq.
        eapply mrel_bind; [apply mrel_ok, (setup_rel agr j subs 0 _ cur st1 N2 (Fp (Some j)))|].
        intros [h2 ts] [ss2 ts'] st2 ((Ht & R2 & Ee & Ek) & E2 & _). cbn [fst snd] in *. subst ts'.
        pose proof (setup_touch _ _ _ _ _ _ _ _ E2) as T2.
        assert (D2 : dstep h1 h2).
        { eapply dstep_trans; [apply (dstep_touch [i]), set_pick_touch|]. eapply dstep_touch; eauto. }
        apply mrel_ret. cbn [fst snd]. split; [intros; rewrite Ee; auto|split; [|split]].
        -- destruct T2 as (T & _ & _). destruct (T i N1) as (A & B & _). apply RlOr'; auto.
           ++ rewrite <- A. simpl. auto.
           ++ rewrite <- B. simpl. unfold upd. now rewrite Nat.eqb_refl.
        -- eapply dstep_trans; eauto.
        -- simpl. econstructor; [exact Ej|rewrite Ek by reflexivity; exact Es|].
           exact (prel_dicts full full h1 h2 (fun d H => H) (dstep_full h1 h2 D2) _ _ _ _ Pq).
      * apply mrel_ret. cbn [fst snd]. split; auto. split; [|split; [|exact I]].
        -- apply RlOr'; auto. simpl. unfold upd. now rewrite Nat.eqb_refl.
        -- eapply dstep_trans; [exact D1|]. apply (dstep_touch [i]), set_pick_touch.
  - rewrite !usv_bind. simpl in Rd. unfold bind, get_env. simpl. split; auto. split; auto. split; [|split].
    + constructor.
    + apply dstep_refl.
    + constructor.
Qed.
End G.
End R.

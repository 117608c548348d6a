(** Conversations and non-interactive proofs do not depend on the values of the secrets. *)
From Coq Require Import String.
From Verif Require Import Base World Val Expr Utils Stmt Prove Verify Spec Claims Shapes Honest Extract Runs Views Blank Distrib
  Lib DictProofs Keeps Tree ArithProofs Sigma Validate Commit Build Process Lin Ktruth Provers Complete Total Total2 Clauses Compose Supply SimIndep WiTree WiCouple.
Open Scope Z_scope.
Open Scope list_scope.

Lemma moved_dist {A} (n : nat) (q : nat -> Z) (dl : Z -> nat -> Z) (c c' : (nat -> Z) -> Z) (f g : (nat -> Z) -> A) :
  (forall j, (j < n)%nat -> 1 < q j) ->
  (forall k t t', moved n q (dl k) t t' 0 0 -> c t = c' t') ->
  (forall t t', moved n q (dl (c t)) t t' 0 0 -> f t = g t') -> same_distribution f g.
Proof.
  intros P C F.
  set (tc := fun t j => t j + dl (c t) j). set (fc := fun t j => t j - dl (c' t) j).
  assert (M1 : forall k t t' u, congr n q t t' -> (forall j, u j = t j + dl k j) -> moved n q (dl k) t' u 0 0).
  { intros k t t' u H U j Hj. simpl. rewrite U. replace (t j + dl k j - (t' j + dl k j)) with (t j - t' j) by lia. auto. }
  assert (M2 : forall k t t' u, congr n q t t' -> (forall j, u j = t' j - dl k j) -> moved n q (dl k) u t 0 0).
  { intros k t t' u H U j Hj. simpl. rewrite U. replace (t j - (t' j - dl k j + dl k j)) with (t j - t' j) by lia. auto. }
  assert (R : forall t, congr n q t t) by (intros t j _; rewrite Z.sub_diag; apply Z.divide_0_r).
  assert (S : forall t t', congr n q t t' -> congr n q t' t).
  { intros t t' H j Hj. replace (t' j - t j) with (- (t j - t' j)) by lia. apply Z.divide_opp_r. auto. }
  assert (Cc : forall t t', congr n q t t' -> c t = c t').
  { intros t t' H. rewrite (C 0 t (fun j => t j + dl 0 j)) by (apply (M1 0 t t); auto). symmetry. apply (C 0). apply (M1 0 t t'); auto. }
  assert (Cc' : forall t t', congr n q t t' -> c' t = c' t').
  { intros t t' H. rewrite <- (C 0 (fun j => t j - dl 0 j) t) by (apply (M2 0 t t); auto). apply (C 0). apply (M2 0 t' t); auto. }
  assert (Ct : forall t, c' (tc t) = c t). { intros t. symmetry. apply (C (c t)). apply (M1 (c t) t t); auto. }
  assert (Cf : forall t, c (fc t) = c' t). { intros t. apply (C (c' t)). apply (M2 (c' t) t t); auto. }
  exists n, q, tc, fc. split; [exact P|]. repeat apply conj.
  - intros t t' H. rewrite (F t (tc t)) by (apply (M1 (c t) t t); auto). symmetry. apply F. rewrite <- (Cc t t' H). apply (M1 (c t) t t'); auto.
  - intros t t' H. rewrite <- (F (fc t) t) by (rewrite Cf; apply (M2 (c' t) t t); auto). apply F. rewrite Cf. apply (M2 (c' t) t' t); auto.
  - intros t t' H j Hj. unfold tc. rewrite (Cc t t' H). replace (t j + dl (c t') j - (t' j + dl (c t') j)) with (t j - t' j) by lia. auto.
  - intros t t' H j Hj. unfold fc. rewrite (Cc' t t' H). replace (t j - dl (c' t') j - (t' j - dl (c' t') j)) with (t j - t' j) by lia. auto.
  - intros t j Hj. unfold fc. rewrite Ct. unfold tc. replace (t j + dl (c t) j - dl (c t) j - t j) with 0 by lia. apply Z.divide_0_r.
  - intros t j Hj. unfold tc. rewrite Cf. unfold fc. replace (t j - dl (c' t) j + dl (c' t) j - t j) with 0 by lia. apply Z.divide_0_r.
  - intros t. apply F. apply (M1 (c t) t t); auto.
Qed.

Section P.
Context {W : World}.

(** the precommitment of a prover of a statement without primitives *)
Fixpoint pre_of (p : prover) : val :=
  match p with
  | PDL _ => VNone
  | PAnd ps => if forallb is_none (map pre_of ps) then VNone else VList (map pre_of ps)
  | POr i sp sims => if existsb truthy (insert_at i (pre_of sp) (map t_pre sims)) then VList (insert_at i (pre_of sp) (map t_pre sims)) else VNone
  | PExt _ _ => VNone
  end.
Lemma or_pre_mid f x l2 v p : (forall st, f x st = Ok ((v, p, x), st)) -> forall l1 st,
  or_pre_loop f (List.length l1) (l1 ++ x :: l2) st = Ok ((v, p, l1 ++ x :: l2), st).
Proof.
  intros H. induction l1 as [|y l1 IH]; intros st; simpl; unfold bind.
  - rewrite H. reflexivity.
  - fold (or_pre_loop f). rewrite IH. reflexivity.
Qed.
Lemma pre_noext w s : forall p st, Ready w s p -> noext s -> precommit s p st = Ok ((pre_of p, p, s), st).
Proof.
  induction s as [d|subs b IH|subs b ch IH|k b q|k b q con IH] using stmt_ind'; intros p st R N.
  - inversion R; subst. reflexivity.
  - inversion R as [|? ? ps F| |]; inversion N as [|? ? N1|]; subst. cbn [precommit].
    assert (Z : forall st, zipM precommit subs ps st = Ok (combine (combine (map pre_of ps) ps) subs, st)).
    { clear R N st. induction F as [|x y l m Rx F IHF]; intros st; auto.
      inversion IH as [|? ? I1 I2]; inversion N1 as [|? ? J1 J2]; subst.
      cbn [zipM]. unfold bind. rewrite I1 by auto. rewrite IHF by auto. reflexivity. }
    unfold bind. rewrite Z.
    assert (Len : List.length ps = List.length subs) by (symmetry; eapply Forall2_len; eauto).
    assert (Q : forall (a : list val) (b0 : list prover) (c0 : list stmt), List.length a = List.length b0 -> List.length b0 = List.length c0 ->
      map (fun r => fst (fst r)) (combine (combine a b0) c0) = a /\ map (fun r => snd (fst r)) (combine (combine a b0) c0) = b0 /\ map snd (combine (combine a b0) c0) = c0).
    { clear. induction a; intros [|y b0] [|z c0] H1 H2; simpl in *; try discriminate; auto. destruct (IHa b0 c0) as (-> & -> & ->); auto. }
    destruct (Q (map pre_of ps) ps subs) as (Q1 & Q2 & Q3); [now rewrite map_length|auto|]. rewrite Q1, Q2, Q3. reflexivity.
  - inversion R as [| |l1 x l2 ? ? sp t1 t2 S1 S2 Rx|]; inversion N as [| |? ? ? N1]; subst.
    rewrite Forall_forall in IH, N1. assert (Hx : In x (l1 ++ x :: l2)) by (apply in_app_iff; right; now left).
    rewrite precommit_or. unfold bind. rewrite (or_pre_mid _ x l2 (pre_of sp) sp). { reflexivity. }
    intros s0. apply IH; auto.
  - inversion N.
  - inversion N.
Qed.

Lemma Sok_wfs U s : Sok U s -> noext s -> wfs s.
Proof.
  induction s as [d|subs b IH|subs b ch IH|k b q|k b q con IH] using stmt_ind'; intros S N; inversion S; inversion N; subst; constructor; auto;
    rewrite Forall_forall in *; auto.
Qed.
Lemma Sok_KL U w s : Sok U s -> noext s -> Vals U w s -> KL U s.
Proof.
  induction s as [d|subs b IH|subs b ch IH|k b q|k b q con IH] using stmt_ind'; intros S N V; inversion S; inversion N; inversion V; subst; constructor; auto;
    rewrite ?Forall_forall in *; auto. intros k v Hk. match goal with H : entries_ok _ _ _ |- _ => now apply H in Hk end.
Qed.

Definition nizk_chal (s : stmt) (p : prover) (msg : bytes) (e : nat -> option Z) (t : nat -> Z) : Z :=
  match internal_commit s p None (mkSt e t 0), prehash_input s with
  | Ok ((com, _), _), Ok h => match fs_challenge h [pre_of p; com] msg with Ok c => c | Err _ => 0 end
  | _, _ => 0
  end.

Lemma values_hidden U w w' (s s' : stmt) sd sd' ord a a' p s1 a1 :
  noext s -> honest U w s sd (env a) -> honest U w' s' sd' (env a') -> Ords ord s -> Apart s ->
  blank s = blank s' -> blank_dict sd = blank_dict sd' -> tape a = tape a' -> pos a = pos a' ->
  get_prover s sd a = Ok ((Some p, s1), a1) ->
  exists s1' a1', get_prover s' sd' a' = Ok ((Some p, s1'), a1') /\
    (forall c, (forall t, exists com r, outcome (honest_view s1 p c) (env a1) t = Ok (com, r)) /\
       same_distribution (outcome (honest_view s1 p c) (env a1)) (outcome (honest_view s1' p c) (env a1'))) /\
    (forall msg, same_distribution (outcome (nizk_of s1 p msg) (env a1)) (outcome (nizk_of s1' p msg) (env a1'))).
Proof.
  intros N H H' HO HA EB ED ET EP GP. destruct H as [OK NM IN DJ TR VA DI EN]. destruct H' as [OK' NM' IN' DJ' TR' VA' DI' EN'].
  assert (N' : noext s'). { apply noext_strip_iff. rewrite <- (blank_strip_eq _ _ EB). now apply noext_strip_iff. }
  assert (HL : wfL U). { intros x y Hx Hy. apply NM; apply in_app_iff; auto. }
  assert (K1 : BR U s s') by (split; [exact EB|eapply Sok_KL; eauto]).
  assert (KD : keysL U sd). { intros k v Hk. now apply DI in Hk. }
  pose proof (blank_get_prover U HL s s' sd sd' K1 ED KD a a' (conj ET EP)) as G. rewrite GP in G.
  destruct (get_prover s' sd' a') as [[[o s1'] a1']|] eqn:GP'; [|tauto]. destruct G as [[G1 [G2 G3]] G4]. simpl in G1, G2, G3. subst o.
  assert (KE : kints s = []) by (unfold kints; now rewrite noext_kinds).
  assert (KE' : kints s' = []) by (unfold kints; now rewrite noext_kinds).
  destruct (get_prover_built U U U w s sd a (Some p) s1 a1) as (PS & _ & BT); auto using incl_refl.
  { apply Sok_Swf; auto. rewrite KE. intros x []. }
  destruct (get_prover_built U U U w' s' sd' a' (Some p) s1' a1') as (PS' & _ & BT'); auto using incl_refl.
  { apply Sok_Swf; auto. rewrite KE'. intros x []. }
  pose proof (KL_noext _ _ G3) as N1.
  assert (N1' : noext s1'). { apply noext_strip_iff. rewrite <- (blank_strip_eq _ _ G2). now apply noext_strip_iff. }
  pose proof (noext_Ready _ _ _ _ _ _ (BT p eq_refl) N1) as R. pose proof (noext_Ready _ _ _ _ _ _ (BT' p eq_refl) N1') as R'.
  assert (W1 : wfs s1) by (apply (wfs_same s1 s); auto; eapply Sok_wfs; eauto).
  assert (W1' : wfs s1') by (apply (wfs_same s1' s'); auto; eapply Sok_wfs; eauto).
  assert (O1 : Ords ord s1) by (eapply Ords_same; [symmetry; exact PS|auto]).
  assert (PP : pstrip s1' = pstrip s1). { rewrite <- !noext_strip by auto. symmetry. now apply blank_strip_eq. }
  assert (O1' : Ords ord s1') by (eapply Ords_same; [symmetry; exact PP|auto]).
  assert (A1 : Apart s1) by (eapply Apart_same; [symmetry; exact PS|auto]).
  assert (A1' : Apart s1') by (eapply Apart_same; [symmetry; exact PP|auto]).
  assert (CK : forall e, Checked e s1). { intros e. apply (Apart_checked ord); auto using noext_built, noext_ConOK, noext_kgood. }
  assert (CK' : forall e, Checked e s1'). { intros e. apply (Apart_checked ord); auto using noext_built, noext_ConOK, noext_kgood. }
  assert (ES : strip s1 = strip s1') by now apply blank_strip_eq.
  destruct (twin_all U HL w w' ord s1 s1' p R R' N1 W1 O1 (KL_svars _ _ G3) ES (env a1) (env a1') (CK _) (CK' _)) as [_ (n & q & dl & P & T)].
  exists s1', a1'. split; [reflexivity|]. split.
  - intros c. split.
    + intros t. destruct (T c t (fun j => t j + dl c j) 0%nat 0%nat) as (com & p1 & p1' & r & T1 & T2 & T3 & T4).
      { intros j _. simpl. rewrite Z.sub_diag. apply Z.divide_0_r. }
      exists com, r. unfold outcome, honest_view, bind. rewrite T1. cbn [snd]. rewrite T3. reflexivity.
    + apply (moved_dist n q dl (fun _ => c) (fun _ => c)); auto. intros t t' M.
      destruct (T c t t' 0%nat 0%nat M) as (com & p1 & p1' & r & T1 & T2 & T3 & T4).
      unfold outcome, honest_view, bind. rewrite T1, T2. cbn [snd]. rewrite T3, T4. reflexivity.
  - intros msg. assert (PH : prehash_input s1 = prehash_input s1') by (unfold prehash_input; now rewrite (strip_id s1 s1')).
    apply (moved_dist n q dl (nizk_chal s1 p msg (env a1)) (nizk_chal s1' p msg (env a1'))); auto.
    + intros k t t' M. destruct (T k t t' 0%nat 0%nat M) as (com & p1 & p1' & r & T1 & T2 & T3 & T4).
      unfold nizk_chal. now rewrite T1, T2, PH.
    + intros t t' M. destruct (T _ t t' 0%nat 0%nat M) as (com & p1 & p1' & r & T1 & T2 & T3 & T4).
      unfold outcome, nizk_of, get_nizk_proof, bind. rewrite (pre_noext w) by auto. rewrite (pre_noext w') by auto.
      rewrite T1, T2, <- PH. unfold nizk_chal in T3, T4. rewrite T1 in T3, T4.
      destruct (prehash_input s1) as [h|]; simpl lift; [|reflexivity]. unfold lift. cbn [rbind].
      destruct (fs_challenge h [pre_of p; com] msg) as [c|]; [|reflexivity]. rewrite T3, T4. reflexivity.
Qed.
End P.

(** Two provers of one statement that took the same choices but have different values: a shift of the random numbers takes
    one conversation to the other. *)
From Coq Require Import String.
From Verif Require Import Base World Val Expr Utils Stmt Prove Verify Spec Claims Shapes Honest Extract Runs Views Blank
  Lib DictProofs Keeps Tree ArithProofs Sigma Validate Commit Build Process Lin Ktruth Provers Complete Total Total2 Clauses Compose Supply Sound2 Sound3 SimIndep ZkTree.
Open Scope Z_scope.
Open Scope list_scope.

Section T.
Context {W : World}.
Variables (L : list secret) (HL : wfL L) (w w' ord : bytes -> Z).

Lemma wfL_coh e l : incl l L -> coh e l.
Proof. intros I x y Hx Hy E. f_equal. now apply HL; auto. Qed.

(** the shift for the challenge [c] *)
Definition shift (c : Z) (n : bytes) : Z := (w n - w' n) * c.
Definition shifted (c : Z) (K K' : bytes -> Z) (l : list secret) : Prop :=
  forall x, In x l -> (ord (sname x) | K' (sname x) - (K (sname x) + shift c (sname x))).
Definition moved (n : nat) (q dl : nat -> Z) (t t' : nat -> Z) (m m' : nat) : Prop :=
  forall j, (j < n)%nat -> (q j | t' (m' + j)%nat - (t (m + j)%nat + dl j)).
Definition twins (s s' : stmt) (p : prover) (rd rd' : option (dict Z)) (c : Z) (n : nat) e e' t t' m m' : Prop :=
  exists com p1 p1' r,
    internal_commit s p rd (mkSt e t m) = Ok ((com, p1), mkSt e t (m + n)) /\
    internal_commit s' p rd' (mkSt e' t' m') = Ok ((com, p1'), mkSt e' t' (m' + n)) /\
    (forall st, compute_response s p1 c st = Ok (r, st)) /\ (forall st, compute_response s' p1' c st = Ok (r, st)).
Definition twinS (s s' : stmt) (p : prover) e e' : Prop :=
  exists (n : nat) (q : nat -> Z) (dl : Z -> nat -> Z), (forall j, (j < n)%nat -> 1 < q j) /\
  forall c dd dd' K K' t t' m m', covers e dd K (svars s) -> covers e' dd' K' (svars s) -> shifted c K K' (svars s) ->
    moved n q (dl c) t t' m m' -> twins s s' p (Some dd) (Some dd') c n e e' t t' m m'.
Definition twinN (s s' : stmt) (p : prover) e e' : Prop :=
  exists (n : nat) (q : nat -> Z) (dl : Z -> nat -> Z), (forall j, (j < n)%nat -> 1 < q j) /\
  forall c t t' m m', moved n q (dl c) t t' m m' -> twins s s' p None None c n e e' t t' m m'.

Lemma moved_app n1 q1 d1 n2 q2 d2 t t' m m' :
  moved (n1 + n2) (fun j => if (j <? n1)%nat then q1 j else q2 (j - n1)%nat) (fun j => if (j <? n1)%nat then d1 j else d2 (j - n1)%nat) t t' m m' ->
  moved n1 q1 d1 t t' m m' /\ moved n2 q2 d2 t t' (m + n1) (m' + n1).
Proof.
  intros H. split; intros j Hj.
  - specialize (H j ltac:(lia)). cbv beta in H. destruct (Nat.ltb_spec j n1); [exact H|lia].
  - specialize (H (n1 + j)%nat ltac:(lia)). cbv beta in H. destruct (Nat.ltb_spec (n1 + j) n1); [lia|].
    replace (n1 + j - n1)%nat with j in H by lia. now rewrite !Nat.add_assoc in H.
Qed.
Lemma pos_app n1 (q1 : nat -> Z) n2 q2 : (forall j, (j < n1)%nat -> 1 < q1 j) -> (forall j, (j < n2)%nat -> 1 < q2 j) ->
  forall j, (j < n1 + n2)%nat -> 1 < (if (j <? n1)%nat then q1 j else q2 (j - n1)%nat).
Proof. intros A B j Hj. destruct (Nat.ltb_spec j n1); [auto|apply B; lia]. Qed.

(** ** Leaves *)
Lemma resp_same c K K' l : shifted c K K' l -> forall x, In x l ->
  (w' (sname x) * c + K' (sname x)) mod ord (sname x) = (w (sname x) * c + K (sname x)) mod ord (sname x).
Proof.
  intros S x Hx. destruct (S x Hx) as (k & Hk). unfold shift in Hk.
  replace (w' (sname x) * c + K' (sname x)) with (w (sname x) * c + K (sname x) + k * ord (sname x)) by lia.
  destruct (Z.eq_dec (ord (sname x)) 0) as [->|]; [now rewrite Z.mul_0_r, Z.add_0_r|]. now apply Z_mod_plus_full.
Qed.
Lemma Ords_ordOK s : noext s -> Ords ord s -> ordOK ord s.
Proof.
  induction s as [d|subs b IH|subs b ch IH|k b q|k b q con IH] using stmt_ind'; intros N O; inversion O; inversion N; subst; constructor.
  - intros x b H. symmetry. auto.
  - rewrite Forall_forall in *. auto.
Qed.

Lemma dl_run w0 g d o e dd K c : dl_ok w0 g d -> (forall s, In s (dl_secs d) -> ord (sname s) = order g) -> covers e dd K (dl_secs d) ->
  exists p1, (forall t m, internal_commit (SDL d) (PDL o) (Some dd) (mkSt e t m) =
      Ok ((VPt (lincomb g (map (fun s => K (sname s)) (dl_secs d)) (dl_bases d)), p1), mkSt e t m)) /\
    forall st, compute_response (SDL d) p1 c st = Ok (VList (map VInt (map (fun s => (w0 (sname s) * c + K (sname s)) mod ord (sname s)) (dl_secs d))), st).
Proof.
  intros (A1 & A2 & A3 & A4 & A6) A5 CV. destruct (dl_bases d) as [|b0 bs] eqn:B; [tauto|].
  assert (Hg : grp b0 = g) by (inversion A1; auto).
  exists (PDL (Some (map (fun s => K (sname s)) (dl_secs d)))). split.
  - intros t n. cbn [internal_commit]. unfold commit_dl. unfold bind at 1.
    rewrite (update_randomizers_covered _ _ dd K) by exact CV. unfold bind at 1, get_env. cbn [env]. unfold bind at 1.
    rewrite (rmap_dget _ _ _ _ CV). unfold lift at 1. cbv beta iota. rewrite B. unfold bind.
    unfold lift. rewrite Hg, wsum_lincomb by auto. reflexivity.
  - intros st. cbn [compute_response]. unfold respond_dl. rewrite B. unfold bind at 1, get_env. unfold bind at 1, lift.
    rewrite (rmap_respond _ _ w0 K) by auto. unfold ret. do 4 f_equal. apply map_ext_in. intros x Hx.
    rewrite Hg. now rewrite A5.
Qed.
Lemma dl_com w0 g d K c : dl_ok w0 g d -> (forall s, In s (dl_secs d) -> ord (sname s) = order g) ->
  lincomb g (map (fun s => K (sname s)) (dl_secs d)) (dl_bases d) =
  padd (lincomb g (map (fun s => (w0 (sname s) * c + K (sname s)) mod ord (sname s)) (dl_secs d)) (dl_bases d)) (pmul (- c) (dl_lhs d)).
Proof.
  intros (A1 & A2 & A3 & A4 & A6) A5.
  pose proof (lincomb_response g (dl_bases d) c A1 (map (fun s => w0 (sname s)) (dl_secs d)) (map (fun s => K (sname s)) (dl_secs d))) as R.
  rewrite !map_length in R. specialize (R A3 A3). rewrite <- R, <- A4. f_equal. f_equal.
  rewrite (combine_maps (fun s => w0 (sname s)) (fun s => K (sname s)) (fun a b => (a * c + b) mod order g)).
  apply map_ext_in. intros x Hx. now rewrite A5.
Qed.
Lemma dl_orders w0 g d : dl_ok w0 g d -> Ords ord (SDL d) -> forall s, In s (dl_secs d) -> ord (sname s) = order g.
Proof.
  intros (A1 & A2 & A3 & _) O s Hs. inversion O as [d0 O'| | |]; subst. destruct (in_combine_l_ex (dl_secs d) (dl_bases d) s Hs A3) as (b & Hb).
  rewrite (O' _ _ Hb). f_equal. unfold in_group in A1. rewrite Forall_forall in A1. apply A1. eapply in_combine_r; eauto.
Qed.

Lemma leaf_twins d d' o e e' : (exists g, dl_ok w g d) -> (exists g, dl_ok w' g d') -> Ords ord (SDL d) ->
  strip (SDL d) = strip (SDL d') -> twinS (SDL d) (SDL d') (PDL o) e e'.
Proof.
  intros (g & D) (g' & D') O E. simpl in E. injection E as E1 E2 E3.
  assert (g' = g) as ->.
  { destruct D as (A1 & A2 & _), D' as (A1' & _). unfold in_group in *. rewrite <- E2 in A1'. destruct (dl_bases d); [tauto|].
    inversion A1; inversion A1'; subst; auto. }
  assert (O' : Ords ord (SDL d')). { inversion O as [d0 X| | |]; subst. constructor. rewrite <- E2, <- E3. exact X. }
  pose proof (dl_orders _ _ _ D O) as A. pose proof (dl_orders _ _ _ D' O') as A'.
  exists 0%nat, (fun _ => 0), (fun _ _ => 0). split; [intros j Hj; lia|]. intros c dd dd' K K' t t' m m' C C' S _.
  change (svars (SDL d)) with (dl_secs d) in C, C', S.
  destruct (dl_run w g d o e dd K c D A C) as (p1 & P1 & P2).
  destruct (dl_run w' g d' o e' dd' K' c D' A') as (p1' & P1' & P2'). { now rewrite <- E3. }
  assert (R : map (fun s => (w' (sname s) * c + K' (sname s)) mod ord (sname s)) (dl_secs d') =
              map (fun s => (w (sname s) * c + K (sname s)) mod ord (sname s)) (dl_secs d)).
  { rewrite <- E3. apply map_ext_in. intros x Hx. eapply resp_same; eauto. }
  exists (VPt (lincomb g (map (fun s => K (sname s)) (dl_secs d)) (dl_bases d))), p1, p1',
    (VList (map VInt (map (fun s => (w (sname s) * c + K (sname s)) mod ord (sname s)) (dl_secs d)))).
  rewrite !Nat.add_0_r. split; [apply P1|]. split; [|split; [exact P2|rewrite <- R; exact P2']].
  assert (EC : lincomb g (map (fun s => K (sname s)) (dl_secs d)) (dl_bases d) = lincomb g (map (fun s => K' (sname s)) (dl_secs d')) (dl_bases d')).
  { rewrite (dl_com w g d K c D A), (dl_com w' g d' K' c D' A'). now rewrite R, E1, E2. }
  rewrite P1', EC. reflexivity.
Qed.

(** ** The randomizers drawn by a node without a dictionary *)
Definition notor (s : stmt) : Prop := match s with SOr _ _ _ => False | _ => True end.
Lemma ords_pairs' s : noext s -> wfs s -> Ords ord s -> forall bs, get_bases s = Ok bs -> pairs_ok ord (svars s) bs.
Proof.
  intros N F O. apply (ords_pairs ord s F (noext_built _ N)); auto; [now apply noext_ConOK|now apply noext_kgood].
Qed.
Lemma root_ks s : noext s -> wfs s -> Ords ord s -> incl (svars s) L -> notor s ->
  exists ks, incl ks (svars s) /\ (forall x, In x (svars s) -> In (sname x) (map sname ks)) /\
  forall s' p w0 e t m, strip s = strip s' -> Ready w0 s' p -> exists dd,
    covers e dd (fun n => t (m + npos n (map sname ks))%nat mod ord n) (svars s) /\
    internal_commit s' p None (mkSt e t m) = internal_commit s' p (Some dd) (mkSt e t (m + List.length ks)).
Proof.
  intros N HW O I NT. set (e0 := fun _ : nat => @None Z).
  destruct s as [d|subs b|subs b ch|k b q con]; [| |destruct NT|inversion N].
  - simpl in I. exists (sec_set e0 (dl_secs d)). split; [apply sec_set_incl|].
    split; [intros x Hx; apply sec_set_names; auto; now apply wfL_coh|]. intros s' p w0 e t m E HR.
    destruct s' as [d'| | |? ? ? []]; try discriminate E. simpl in E. injection E as E1 E2 E3. inversion HR as [d1 o g D| | |]; subst.
    assert (O' : Ords ord (SDL d')). { inversion O as [d0 X| | |]; subst. constructor. rewrite <- E2, <- E3. exact X. }
    pose proof (dl_orders _ _ _ D O') as A. destruct D as (A1 & A2 & A3 & A4 & A6).
    destruct (dl_bases d') as [|b0 bs] eqn:B; [tauto|]. assert (Hg : grp b0 = g) by (inversion A1; auto).
    destruct (randomizers_run d' b0 bs e t m B) as (dd & R1 & R2). { rewrite <- E3. now apply wfL_coh. }
    rewrite (proj1 (sec_set_indep L HL e0 e _ I)).
    unfold rcount, rindex in R1, R2. rewrite <- E3 in R1, R2, A. exists dd. simpl svars.
    assert (CV : covers e dd (fun n => t (m + npos n (map sname (sec_set e (dl_secs d))))%nat mod ord n) (dl_secs d)).
    { intros x Hx. rewrite (R2 x Hx), (A x Hx), Hg. reflexivity. }
    split; [exact CV|]. cbn [internal_commit]. unfold commit_dl. rewrite update_randomizers_none. unfold bind at 1. rewrite R1.
    symmetry. unfold bind at 1. rewrite E3 in CV. rewrite (update_randomizers_covered _ _ dd _ (mkSt e t _) CV). rewrite E3. reflexivity.
  - pose proof (noext_built _ N) as HB. destruct (built_bases _ HB) as (bs & EB). pose proof (built_svars _ HB) as ES. set (s := SAnd subs b) in *.
    pose proof (get_bases_length s HW bs EB) as Len.
    set (D := fold_left (fun o sb => dset e0 o (fst sb) (snd sb)) (combine (svars s) bs) []).
    pose proof (wfL_coh e0 _ I) as C.
    assert (J : dinv (svars s) (fun n b => order (grp b) = ord n) D).
    { apply fold_inv; auto.
      - intros x y Hxy. split; [eapply in_combine_l; eauto|]. apply (ords_pairs' s) with (bs := bs); auto.
      - split; [constructor|]. split; [intros x []|intros ? ? []]. }
    destruct J as (I1 & I2 & I3). exists (map fst D). split; [auto|].
    assert (I4 : forall x, In x (svars s) -> In (sname x) (map sname (map fst D))).
    { intros x Hx. destruct (in_combine_l_ex (svars s) bs x Hx Len) as (y & Hy).
      assert (M : dmem e0 D x = true) by (apply dmem_fold; right; exists x, y; split; [auto|apply sec_eqb_refl]).
      unfold dmem in M. destruct (dget e0 D x) as [v|] eqn:G; [|discriminate].
      apply dget_key in G as (k & G1 & <-). apply in_map, in_map_iff. exists (k, v). auto. }
    split; [auto|]. intros s' p w0 e t m E HR.
    destruct (strip_svars s s' E) as [ES' EB']. rewrite ES in ES'. rewrite EB in EB'.
    destruct s' as [|subs' b'| |? ? ? []]; try discriminate E. inversion HR as [|subs1 b1 ps F| |]; subst. set (s' := SAnd subs' b') in *.
    exists (combine (map fst D) (map (fun jx => t (m + fst jx)%nat mod order (grp (snd (snd jx)))) (combine (seq 0 (List.length D)) D))).
    set (dd := combine (map fst D) _).
    assert (ED : D = fold_left (fun o sb => dset e o (fst sb) (snd sb)) (combine (svars s) bs) []).
    { apply (fold_indep L HL e0 e); [intros ? ? []|]. now apply keysL_combine. }
    assert (ER : randomizers_and s' (mkSt e t m) = Ok (dd, mkSt e t (m + List.length (map fst D)))).
    { unfold randomizers_and. rewrite <- ES', <- EB'. rewrite !bind_lift_ok. unfold bind at 1, get_env. cbn [env]. rewrite <- ED.
      unfold bind. rewrite (mapM_draws (fun sb : secret * pt => order (grp (snd sb)))). rewrite map_length. reflexivity. }
    assert (E3 : covers e dd (fun n => t (m + npos n (map sname (map fst D)))%nat mod ord n) (svars s)).
    { intros x Hx. destruct (npos_in _ _ (I4 x Hx)) as [J1 J2]. set (j := npos (sname x) _) in *.
      rewrite !map_length in J1. destruct (nth_error D j) as [[k v]|] eqn:Nj; [|apply nth_error_None in Nj; lia].
      assert (K1 : nth_error (map fst D) j = Some k) by now apply (map_nth_error fst _ _ Nj).
      assert (K2 : sname k = sname x) by (rewrite (map_nth_error sname _ _ K1) in J2; congruence).
      apply (dget_combine e (map fst D) I1 _ j k); auto.
      - cbv beta. fold j. replace (ord (sname x)) with (order (grp v)) by (rewrite <- K2; apply I3; eapply nth_error_In; eauto).
        exact (map_nth_error (fun jx => t (m + fst jx)%nat mod order (grp (snd (snd jx)))) _ _ (nth_combine_seq D 0 j _ Nj)).
      - apply (wfL_coh e _ I); auto. apply I2. eapply nth_error_In; eauto. }
    split; [exact E3|]. unfold s'. rewrite !internal_commit_and. fold s'. unfold bind at 1, get_env. cbn [env]. symmetry. unfold bind at 1, get_env. cbn [env].
    unfold bind at 1, lift. symmetry. unfold bind at 1. destruct (validate_and e s') as [[]|]; [|reflexivity].
    rewrite <- ES', update_randomizers_none. unfold bind at 1. rewrite ER.
    symmetry. unfold bind at 1. rewrite (update_randomizers_covered _ _ dd _ (mkSt e t _) E3). reflexivity.
Qed.

Lemma ords_pos s : noext s -> wfs s -> Ords ord s -> forall x, In x (svars s) -> 1 < ord (sname x).
Proof.
  intros N HW O x Hx. destruct (built_bases _ (noext_built _ N)) as (bs & EB). pose proof (get_bases_length s HW bs EB) as Len.
  destruct (in_combine_l_ex (svars s) bs x Hx Len) as (b & Hb). rewrite <- (ords_pairs' s N HW O bs EB x b Hb). apply order_gt1.
Qed.
Lemma mod_shift q a b k : 1 < q -> (q | a - (b + k)) -> (q | a mod q - (b mod q + k)).
Proof.
  intros Q (z & Hz). exists (z - a / q + b / q). rewrite (Z.mod_eq a q), (Z.mod_eq b q) by lia. lia.
Qed.

Lemma none_of_some s s' p e e' : noext s -> wfs s -> Ords ord s -> incl (svars s) L -> notor s -> strip s = strip s' ->
  Ready w s p -> Ready w' s' p -> twinS s s' p e e' -> twinN s s' p e e'.
Proof.
  intros N HW O I NT E R R' (n1 & q1 & d1 & P1 & H). destruct (root_ks s N HW O I NT) as (ks & K1 & K2 & K3).
  set (nm j := nth j (map sname ks) (lit "")).
  exists (List.length ks + n1)%nat, (fun j => if (j <? List.length ks)%nat then ord (nm j) else q1 (j - List.length ks)%nat),
    (fun c j => if (j <? List.length ks)%nat then shift c (nm j) else d1 c (j - List.length ks)%nat). split.
  - apply (pos_app (List.length ks) (fun j => ord (nm j)) n1 q1); auto. intros j Hj. unfold nm.
    destruct (nth_error ks j) as [x|] eqn:Ex; [|apply nth_error_None in Ex; lia].
    rewrite (nth_error_nth _ _ _ (map_nth_error sname _ _ Ex)). apply (ords_pos s); auto. apply K1. eapply nth_error_In; eauto.
  - intros c t t' m m' M. apply (moved_app (List.length ks) (fun j => ord (nm j)) (fun j => shift c (nm j))) in M as [M1 M2].
    destruct (K3 s p w e t m eq_refl R) as (dd & C1 & C2). destruct (K3 s' p w' e' t' m' E R') as (dd' & C1' & C2').
    destruct (H c dd dd' _ _ t t' (m + List.length ks)%nat (m' + List.length ks)%nat C1 C1') as (com & p1 & p1' & r & A1 & A2 & A3 & A4).
    + intros x Hx. destruct (npos_in _ _ (K2 x Hx)) as [J1 J2]. cbv beta. set (j := npos (sname x) (map sname ks)) in *. rewrite map_length in J1.
      specialize (M1 j J1). unfold nm in M1. rewrite (nth_error_nth _ _ _ J2) in M1.
      apply mod_shift; [apply (ords_pos s); auto|exact M1].
    + exact M2.
    + exists com, p1, p1', r. rewrite C2, C2', A1, A2. rewrite !Nat.add_assoc. auto.
Qed.

(** ** Conjunctions *)
Lemma list_twins e e' subs : forall subs' ps,
  Forall2 (fun s s' => True) subs subs' -> List.length ps = List.length subs ->
  (forall i s s' p, nth_error subs i = Some s -> nth_error subs' i = Some s' -> nth_error ps i = Some p -> twinS s s' p e e') ->
  exists (n : nat) (q : nat -> Z) (dl : Z -> nat -> Z), (forall j, (j < n)%nat -> 1 < q j) /\
  forall c dd dd' K K' t t' m m', (forall s, In s subs -> covers e dd K (svars s)) -> (forall s, In s subs -> covers e' dd' K' (svars s)) ->
    (forall s, In s subs -> shifted c K K' (svars s)) -> moved n q (dl c) t t' m m' ->
    exists cs cs' rs, List.length cs = List.length subs /\ map fst cs = map fst cs' /\
      zipM (fun s p => internal_commit s p (Some dd)) subs ps (mkSt e t m) = Ok (cs, mkSt e t (m + n)) /\
      zipM (fun s p => internal_commit s p (Some dd')) subs' ps (mkSt e' t' m') = Ok (cs', mkSt e' t' (m' + n)) /\
      (forall st, zipM (fun s p => compute_response s p c) subs (map snd cs) st = Ok (rs, st)) /\
      (forall st, zipM (fun s p => compute_response s p c) subs' (map snd cs') st = Ok (rs, st)).
Proof.
  induction subs as [|s subs IH]; intros subs' ps F Lp H.
  - inversion F; subst. destruct ps; [|discriminate]. exists 0%nat, (fun _ => 0), (fun _ _ => 0). split; [intros; lia|].
    intros c dd dd' K K' t t' m m' _ _ _ _. exists [], [], []. rewrite !Nat.add_0_r. repeat split; reflexivity.
  - inversion F as [|s0 s' l0 l' _ F']; subst. destruct ps as [|p ps]; [discriminate|]. simpl in Lp.
    destruct (H 0%nat s s' p eq_refl eq_refl eq_refl) as (n1 & q1 & d1 & P1 & H1).
    destruct (IH l' ps F' ltac:(lia)) as (n2 & q2 & d2 & P2 & H2). { intros i a a' b Ha Ha' Hb. apply (H (S i)); auto. }
    exists (n1 + n2)%nat, (fun j => if (j <? n1)%nat then q1 j else q2 (j - n1)%nat), (fun c j => if (j <? n1)%nat then d1 c j else d2 c (j - n1)%nat).
    split; [now apply pos_app|]. intros c dd dd' K K' t t' m m' C C' S M. apply moved_app in M as [M1 M2].
    destruct (H1 c dd dd' K K' t t' m m') as (com & a & a' & r & A1 & A2 & A3 & A4); try (apply C || apply C' || apply S; now left); auto.
    destruct (H2 c dd dd' K K' t t' (m + n1)%nat (m' + n1)%nat) as (cs & cs' & rs & B0 & B1 & B2 & B3 & B4 & B5);
      try (intros x Hx; (apply C || apply C' || apply S); now right); auto.
    exists ((com, a) :: cs), ((com, a') :: cs'), (r :: rs). split; [simpl; auto|]. split; [simpl; now f_equal|].
    cbn [zipM map snd]. split; [|split; [|split; intros st]].
    + unfold bind at 1. rewrite A1. unfold bind. rewrite B2. rewrite Nat.add_assoc. reflexivity.
    + unfold bind at 1. rewrite A2. unfold bind. rewrite B3. rewrite Nat.add_assoc. reflexivity.
    + unfold bind at 1. rewrite A3. unfold bind. rewrite B4. reflexivity.
    + unfold bind at 1. rewrite A4. unfold bind. rewrite B5. reflexivity.
Qed.

Lemma twin_all s : forall s' p, Ready w s p -> Ready w' s' p -> noext s -> wfs s -> Ords ord s -> incl (svars s) L -> strip s = strip s' ->
  forall e e', Checked e s -> Checked e' s' -> twinS s s' p e e' /\ twinN s s' p e e'.
Proof.
  assert (U : forall s s' p e e', Ready w s p -> Ready w' s' p -> noext s -> wfs s -> Ords ord s -> incl (svars s) L -> strip s = strip s' ->
    notor s -> twinS s s' p e e' -> twinS s s' p e e' /\ twinN s s' p e e').
  { intros s0 s' p e e' R R' N HW O I E NT T. split; [exact T|]. eapply none_of_some; eauto. }
  induction s as [d|subs b IH|subs b ch IH|k b q|k b q con IH] using stmt_ind'; intros s' p R R' N HW O I E e e' CK CK'.
  - destruct s' as [d'| | |? ? ? []]; try discriminate E. apply U; auto; [exact Logic.I|].
    inversion R as [d0 o g D| | |]; subst. inversion R' as [d0 o' g' D'| | |]; subst. eapply leaf_twins; eauto.
  - destruct s' as [|subs' b'| |? ? ? []]; try discriminate E. apply U; auto; [exact Logic.I|].
    destruct (strip_svars _ _ E) as [ES _]. pose proof (noext_built _ N) as HB. 
    assert (N' : noext (SAnd subs' b')). { apply noext_strip_iff. rewrite <- E. now apply noext_strip_iff. }
    pose proof (noext_built _ N') as HB'. rewrite (built_svars _ HB), (built_svars _ HB') in ES. assert (ES' : svars (SAnd subs b) = svars (SAnd subs' b')) by congruence. clear ES.
    inversion R as [|? ? ps F| |]; subst. inversion R' as [|? ? ps' F'| |]; subst.
    simpl in E. injection E as E. apply strip_map_F2 in E.
    inversion N as [|? ? N1|]; inversion HW as [|? ? W1| | |]; inversion O as [|? ? O1| |]; inversion CK as [|? ? V1 C1| |]; inversion CK' as [|? ? V1' C1'| |]; subst.
    destruct (list_twins e e' subs subs' ps) as (n & q & dl & P & H).
    { eapply Forall2_impl; [|exact E]. auto. } { symmetry. eapply Forall2_len; eauto. }
    { intros i x x' y Hx Hx' Hy. rewrite Forall_forall in *. apply Forall2_nth in F as [_ F]. apply Forall2_nth in F' as [_ F']. apply Forall2_nth in E as [_ E].
      apply (IH x (nth_error_In _ _ Hx) x' y); eauto using nth_error_In.
      intros z Hz. apply I. simpl. eapply svars_sub; eauto using nth_error_In. }
    exists n, q, dl. split; [exact P|]. intros c dd dd' K K' t t' m m' C C' S M.
    destruct (H c dd dd' K K' t t' m m') as (cs & cs' & rs & B0 & B1 & B2 & B3 & B4 & B5); auto.
    { intros x Hx. eapply covers_incl; [|exact C]. now apply svars_sub. } { intros x Hx. eapply covers_incl; [|exact C']. now apply svars_sub. }
    { intros x Hx z Hz. apply S. simpl. eapply svars_sub; eauto. }
    exists (VList (map fst cs)), (PAnd (map snd cs)), (PAnd (map snd cs')), (VList rs). rewrite !internal_commit_and.
    rewrite (built_svars _ HB), (built_svars _ HB').
    split; [|split; [|split; intros st]].
    + unfold bind at 1, get_env. cbn [env]. rewrite V1, bind_lift_ok. unfold bind at 1.
      rewrite (update_randomizers_covered _ _ dd K) by exact C. unfold bind. rewrite B2. reflexivity.
    + unfold bind at 1, get_env. cbn [env]. rewrite V1', bind_lift_ok. unfold bind at 1. rewrite <- ES'.
      rewrite (update_randomizers_covered _ _ dd' K') by exact C'. unfold bind. rewrite B3, B1. reflexivity.
    + change (compute_response (SAnd subs b) (PAnd (map snd cs)) c) with (let! l := zipM (fun s p => compute_response s p c) subs (map snd cs) in ret (VList l)).
      unfold bind. rewrite B4. reflexivity.
    + change (compute_response (SAnd subs' b') (PAnd (map snd cs')) c) with (let! l := zipM (fun s p => compute_response s p c) subs' (map snd cs') in ret (VList l)).
      unfold bind. rewrite B5. reflexivity.
  - destruct s' as [| |subs' b' ch'|? ? ? []]; try discriminate E.
    inversion R as [| |l1 x l2 ? ? sp t1 t2 S1 S2 Rx|]; subst. inversion R' as [| |l1' x' l2' ? ? sp' t1' t2' S1' S2' Rx' Q1 Q2|]; subst.
    simpl in E. injection E as E. rewrite !map_app in E. simpl in E.
    assert (LE : List.length l1 = List.length l1') by auto.
    assert (X : strip x = strip x').
    { pose proof (f_equal (fun l => nth_error l (List.length l1)) E) as Z. cbv beta in Z.
      rewrite <- (map_length strip l1) in Z at 1. rewrite nth_middle' in Z. rewrite LE, <- (map_length strip l1') in Z. rewrite nth_middle' in Z. now injection Z. }
    assert (Hx : In x (l1 ++ x :: l2)) by (apply in_app_iff; right; left; auto).
    assert (Hx' : In x' (l1' ++ x' :: l2')) by (apply in_app_iff; right; left; auto).
    inversion N as [| |? ? ? N1]; inversion HW as [| |? ? ? W1| |]; inversion O as [| |? ? ? O1|]; inversion CK as [| |? ? ? V1 C1|]; inversion CK' as [| |? ? ? V1' C1'|]; subst.
    rewrite Forall_forall in IH, N1, W1, O1, C1, C1'.
    set (rc c := find_residual (map t_chal (t1 ++ t2)) c challenge_length).
    destruct (IH x Hx x' sp) with (e := e) (e' := e') as [_ (n & q & dl & P & H)]; auto.
    { intros z Hz. apply I. simpl. eapply svars_sub; eauto. }
    assert (G : forall c rd rd' t t' m m', moved n q (dl (rc c)) t t' m m' ->
      twins (SOr (l1 ++ x :: l2) b ch) (SOr (l1' ++ x' :: l2') b' ch') (POr (List.length l1) sp (t1 ++ t2)) rd rd' c n e e' t t' m m').
    { intros c rd rd' t t' m m' M. destruct (H (rc c) t t' m m' M) as (com & a & a' & r & A1 & A2 & A3 & A4).
      exists (VList (insert_at (List.length l1) com (map t_com (t1 ++ t2)))), (POr (List.length l1) a (t1 ++ t2)), (POr (List.length l1) a' (t1 ++ t2)),
        (VTuple [VList (map VInt (insert_at (List.length l1) (rc c) (map t_chal (t1 ++ t2)))); VList (insert_at (List.length l1) r (map t_resp (t1 ++ t2)))]).
      rewrite !internal_commit_or, !compute_response_or. cbv zeta. fold (rc c). split; [|split; [|split; intros st]].
      - unfold bind at 1, get_env. cbn [env]. rewrite V1, bind_lift_ok. unfold bind. rewrite sel_loop_eq, nth_middle', A1. reflexivity.
      - unfold bind at 1, get_env. cbn [env]. rewrite V1', bind_lift_ok. unfold bind. rewrite sel_loop_eq. rewrite LE at 1. rewrite nth_middle', A2. reflexivity.
      - unfold bind. rewrite sel_loop_eq, nth_middle', A3. reflexivity.
      - unfold bind. rewrite sel_loop_eq. rewrite LE at 1. rewrite nth_middle', A4. reflexivity. }
    try rewrite Q2; try rewrite H2. split; exists n, q, (fun c => dl (rc c)); (split; [exact P|]); intros; apply G; auto.
  - inversion N.
  - inversion N.
Qed.
End T.

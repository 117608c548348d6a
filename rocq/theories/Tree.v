(** Relations on statement trees: consistent responses, precommitments that belong to a tree,
    statements that agree up to renaming of secrets. *)
From Coq Require Import String.
From Verif Require Import Base World Val Expr Utils Stmt Prove Verify Spec Shapes Lib DictProofs Keeps.
Open Scope Z_scope.
Open Scope list_scope.

Lemma rmap_F2 {A B C} (f : A -> res C) (g : B -> res C) l l' :
  Forall2 (fun x y => f x = g y) l l' -> rmap f l = rmap g l'.
Proof. induction 1; simpl; auto. now rewrite H, IHForall2. Qed.
Lemma rimap_F2 {A B C} (f : nat -> A -> res C) (g : nat -> B -> res C) l l' :
  Forall2 (fun x y => forall i, f i x = g i y) l l' -> forall i, rimap f i l = rimap g i l'.
Proof. induction 1; simpl; intros i; auto. now rewrite H, IHForall2. Qed.
Lemma Forall2_impl {A B} (P Q : A -> B -> Prop) l m :
  (forall a b, P a b -> Q a b) -> Forall2 P l m -> Forall2 Q l m.
Proof. intros H. induction 1; auto. Qed.
Lemma Forall2_Forall_l {A B} (P : A -> Prop) (Q : A -> B -> Prop) (R : A -> B -> Prop) l m :
  Forall P l -> Forall2 Q l m -> (forall a b, P a -> Q a b -> R a b) -> Forall2 R l m.
Proof.
  intros H K F. induction K; auto. inversion H; subst. constructor; auto.
Qed.
Lemma Forall2_app' {A B} (R : A -> B -> Prop) a b c d :
  Forall2 R a c -> Forall2 R b d -> Forall2 R (a ++ b) (c ++ d).
Proof. induction 1; simpl; auto. Qed.
Lemma Forall2_concat {A B} (R : A -> B -> Prop) l m :
  Forall2 (Forall2 R) l m -> Forall2 R (List.concat l) (List.concat m).
Proof. induction 1; simpl; auto. now apply Forall2_app'. Qed.
Lemma Forall2_map_l {A B C} (f : A -> B) (R : B -> C -> Prop) l m :
  Forall2 R (map f l) m <-> Forall2 (fun a c => R (f a) c) l m.
Proof.
  split.
  - revert m. induction l; simpl; intros m H; inversion H; subst; auto.
  - induction 1; simpl; auto.
Qed.
Lemma Forall2_map_r {A B C} (f : A -> B) (R : C -> B -> Prop) l m :
  Forall2 R m (map f l) <-> Forall2 (fun c a => R c (f a)) m l.
Proof.
  split.
  - revert m. induction l; simpl; intros m H; inversion H; subst; auto.
  - induction 1; simpl; auto.
Qed.

Ltac nameF := try match goal with X : Forall2 _ _ _ |- _ => rename X into HF end.

Section T.
Context {W : World}.

Lemma svars_eq s : forall ss, get_secret_vars s = Ok ss -> ss = svars s.
Proof.
  induction s as [d|subs b IH|subs b ch IH|k b q|k b q con IH] using stmt_ind'; simpl; intros ss H.
  - congruence.
  - minvs. f_equal. apply rmap_ok in E. induction E; simpl; auto. inversion IH; subst.
    f_equal; auto.
  - minvs. f_equal. apply rmap_ok in E. induction E; simpl; auto. inversion IH; subst.
    f_equal; auto.
  - discriminate.
  - auto.
Qed.
Lemma svars_sub x subs : In x subs -> incl (svars x) (List.concat (map svars subs)).
Proof. intros H y Hy. apply in_concat. exists (svars x). split; auto. now apply in_map. Qed.

Lemma noext_built s : noext s -> built s.
Proof.
  induction s as [d|subs b IH|subs b ch IH|k b q|k b q con IH] using stmt_ind'; intros H;
    inversion H; subst; constructor.
  - rewrite Forall_forall in *. intros; auto.
  - rewrite Forall_forall in *. intros; auto.
Qed.
Lemma built_svars s : built s -> get_secret_vars s = Ok (svars s).
Proof.
  induction s as [d|subs b IH|subs b ch IH|k b q|k b q con IH] using stmt_ind'; intros H;
    inversion H; subst; simpl; auto.
  - replace (rmap get_secret_vars subs) with (@Ok (list (list secret)) (map svars subs)); [reflexivity|].
    symmetry. apply rmap_ok. rewrite Forall2_map_r. clear H.
    induction subs; constructor; inversion IH; inversion H1; subst; auto.
  - replace (rmap get_secret_vars subs) with (@Ok (list (list secret)) (map svars subs)); [reflexivity|].
    symmetry. apply rmap_ok. rewrite Forall2_map_r. clear H.
    induction subs; constructor; inversion IH; inversion H1; subst; auto.
Qed.
Lemma built_bases s : built s -> exists bs, get_bases s = Ok bs.
Proof.
  assert (G : forall subs, Forall built subs ->
    Forall (fun s => built s -> exists bs, get_bases s = Ok bs) subs ->
    exists l, rmap get_bases subs = Ok l).
  { induction subs as [|x subs IHs]; intros H IH; simpl; eauto.
    inversion H; inversion IH; subst. destruct (H6 H2) as (b & ->). destruct (IHs H3 H7) as (l & ->).
    simpl; eauto. }
  induction s as [d|subs b IH|subs b ch IH|k b q|k b q con IH] using stmt_ind'; intros H;
    inversion H; subst; simpl; eauto.
  - destruct (G subs H1 IH) as (l & ->). simpl; eauto.
  - destruct (G subs H1 IH) as (l & ->). simpl; eauto.
Qed.

(** ** Responses that use one number per name in each scope *)
Inductive Cons : (bytes -> Z) -> stmt -> val -> Prop :=
| CoDL R d : Cons R (SDL d) (VList (map (fun s => VInt (R (sname s))) (dl_secs d)))
| CoAnd R subs b rs : Forall2 (Cons R) subs rs -> Cons R (SAnd subs b) (VList rs)
| CoOr R subs b ch cs rs : Forall2 (fun s r => exists R', Cons R' s r) subs rs ->
    Cons R (SOr subs b ch) (VTuple [cs; VList rs])
| CoExt R k b pre c r : Cons R c r -> Cons R (SExt k b pre (Some c)) r.

(** the verifier object after process_precommitment *)
Fixpoint fverifier (s : stmt) : verifier :=
  match s with
  | SDL _ => RDL
  | SAnd subs _ => RAnd (map fverifier subs)
  | SOr subs _ _ => ROr (map fverifier subs)
  | SExt _ _ _ (Some c) => RExt (Some (fverifier c))
  | SExt _ _ _ None => RExt None
  end.
Lemma noext_verifier s : noext s -> fverifier s = get_verifier s.
Proof.
  induction s as [d|subs b IH|subs b ch IH|k b q|k b q con IH] using stmt_ind'; intros H;
    inversion H; subst; simpl; f_equal; auto.
  - apply map_ext_in. rewrite Forall_forall in *. intros; auto.
  - apply map_ext_in. rewrite Forall_forall in *. intros; auto.
Qed.

Definition rents (R : bytes -> Z) (rd : dict val) : Prop :=
  forall k x, In (k, x) rd -> x = VInt (R (sname k)).

Lemma val_eqb_int z : val_eqb (VInt z) (VInt z) = true.
Proof. now apply val_eqb_eq. Qed.

Lemma consistent_dl_ok e R r : forall ss i rd,
  (forall j s, nth_error ss j = Some s -> index r (i + j) = Ok (VInt (R (sname s)))) -> rents R rd ->
  exists rd',
  (fix go i ss rd := match ss with
   | [] => Ok (Some rd)
   | s :: ss =>
     match dget e rd s with
     | Some x => let? ri := index r i in
                 if val_eqb ri x then go (S i) ss rd else Ok None
     | None => let? ri := index r i in go (S i) ss (dset e rd s ri)
     end
   end) i ss rd = Ok (Some rd') /\ rents R rd'.
Proof.
  induction ss as [|s ss IH]; intros i rd Hi Hr.
  - exists rd. auto.
  - assert (H0 := Hi O s eq_refl). rewrite Nat.add_0_r in H0.
    assert (Hi' : forall j s', nth_error ss j = Some s' -> index r (S i + j) = Ok (VInt (R (sname s')))).
    { intros j s' N. rewrite <- (Hi (S j) s' N). f_equal. lia. }
    destruct (dget e rd s) as [x|] eqn:D.
    + rewrite H0. cbn [rbind]. apply dget_in in D as (k & K & E). apply Hr in K. subst x.
      apply sec_eqb_iff in E as [E _]. rewrite E, val_eqb_int. auto.
    + rewrite H0. cbn [rbind]. apply IH; auto.
      intros k x K. apply dset_in in K as [K|(-> & E & _)]; auto.
      apply sec_eqb_iff in E as [E _]. now rewrite E.
Qed.

Lemma index_list l i x : nth_error l i = Some x -> index (VList l) i = Ok x.
Proof. simpl. intros ->. auto. Qed.

Lemma consistent_ok e s : forall R r rd, Cons R s r -> rents R rd ->
  exists rd', consistent e s (fverifier s) r rd = Ok (Some rd') /\ rents R rd'.
Proof.
  induction s as [d|subs b IH|subs b ch IH|k b q|k b q con IH] using stmt_ind';
    intros R r rd H Hr; inversion H; subst; clear H.
  - simpl. apply consistent_dl_ok; auto. intros j s N. simpl.
    change (nth_error (map (fun s => VInt (R (sname s))) (dl_secs d)) j) with
      (nth_error (map (fun s => VInt (R (sname s))) (dl_secs d)) j).
    rewrite (map_nth_error (fun s => VInt (R (sname s))) _ _ N). auto.
  - simpl fverifier. rewrite consistent_and.
    assert (G : forall l rs' pre rd, Forall2 (Cons R) l rs' -> incl l subs -> rents R rd -> rs = pre ++ rs' ->
      exists rd', cand_loop (consistent e) (VList rs) (List.length pre) l (map fverifier l) rd = Ok (Some rd')
                  /\ rents R rd').
    { induction l as [|x l IHl]; intros rs' pre rd0 F I Hr0 ->; inversion F; subst.
      - exists rd0. auto.
      - cbn [cand_loop map].
        rewrite (index_list _ _ y) by (rewrite nth_error_app2, Nat.sub_diag; auto).
        cbn [rbind]. rewrite Forall_forall in IH.
        destruct (IH x (I x (or_introl eq_refl)) R y rd0 H1 Hr0) as (rd1 & -> & Hr1). cbn [rbind].
        replace (S (List.length pre)) with (List.length (pre ++ [y])) by (rewrite app_length; simpl; lia).
        apply (IHl l'); auto.
        + intros z Hz. apply I. now right.
        + now rewrite <- app_assoc. }
    apply (G subs rs [] rd); auto. apply incl_refl.
  - simpl fverifier. rewrite consistent_or. exists rd. split; auto.
    assert (G : forall l rs' pre, Forall2 (fun s r => exists R', Cons R' s r) l rs' -> incl l subs ->
      rs = pre ++ rs' ->
      cor_loop (consistent e) (VTuple [cs; VList rs]) rd (List.length pre) l (map fverifier l) = Ok (Some rd)).
    { induction l as [|x l IHl]; intros rs' pre F I ->; inversion F; subst; auto.
      cbn [cor_loop map index nth_error rbind].
      rewrite nth_error_app2, Nat.sub_diag by auto. cbn [nth_error rbind].
      destruct H1 as (R' & H1). rewrite Forall_forall in IH.
      destruct (IH x (I x (or_introl eq_refl)) R' y [] H1) as (rd1 & -> & _); [intros ? ? []|].
      cbn [rbind].
      replace (S (List.length pre)) with (List.length (pre ++ [y])) by (rewrite app_length; simpl; lia).
      apply (IHl l'); auto.
      + intros z Hz. apply I. now right.
      + now rewrite <- app_assoc. }
    apply (G subs rs []); auto. apply incl_refl.
  - simpl. apply IH; auto.
Qed.

(** same public content, precommitments and inner statements included *)
Inductive Sim (f g : bytes -> bytes) : stmt -> stmt -> Prop :=
| SiDL d d' : dl_lhs d = dl_lhs d' -> dl_bases d = dl_bases d' ->
    Forall2 (ren f g) (dl_secs d) (dl_secs d') -> Sim f g (SDL d) (SDL d')
| SiAnd l l' b b' : Forall2 (Sim f g) l l' -> Sim f g (SAnd l b) (SAnd l' b')
| SiOr l l' b b' c c' : Forall2 (Sim f g) l l' -> Sim f g (SOr l b c) (SOr l' b' c')
| SiExt k k' b b' p c c' : KSim f g k k' -> Sim f g c c' ->
    Sim f g (SExt k b p (Some c)) (SExt k' b' p (Some c')).

Lemma Sim_built f g s : forall s', Sim f g s s' -> built s /\ built s'.
Proof.
  induction s as [d|subs b IH|subs b ch IH|k b q|k b q con IH] using stmt_ind';
    intros s' H; inversion H; subst; clear H; nameF.
  - split; constructor.
  - assert (Forall built subs /\ Forall built l') as [A B].
    { induction HF as [|x y l m Hxy HF IHF]; [split; constructor|]. inversion IH as [|? ? P Q]; subst.
      destruct (P _ Hxy). destruct (IHF Q). auto. }
    split; constructor; auto.
  - assert (Forall built subs /\ Forall built l') as [A B].
    { induction HF as [|x y l m Hxy HF IHF]; [split; constructor|]. inversion IH as [|? ? P Q]; subst.
      destruct (P _ Hxy). destruct (IHF Q). auto. }
    split; constructor; auto.
  - match goal with X : Sim f g con _ |- _ => destruct (IH _ X) end. split; constructor; auto.
Qed.
Lemma Sim_svars f g s : forall s', Sim f g s s' -> Forall2 (ren f g) (svars s) (svars s').
Proof.
  induction s as [d|subs b IH|subs b ch IH|k b q|k b q con IH] using stmt_ind';
    intros s' H; inversion H; subst; clear H; nameF; simpl; auto.
  - apply Forall2_concat. rewrite Forall2_map_l, Forall2_map_r.
    eapply Forall2_Forall_l; eauto; simpl; auto.
  - apply Forall2_concat. rewrite Forall2_map_l, Forall2_map_r.
    eapply Forall2_Forall_l; eauto; simpl; auto.
Qed.
Lemma Sim_bases f g s : forall s', Sim f g s s' -> get_bases s = get_bases s'.
Proof.
  induction s as [d|subs b IH|subs b ch IH|k b q|k b q con IH] using stmt_ind';
    intros s' H; inversion H; subst; clear H; nameF; simpl; auto.
  - congruence.
  - f_equal. apply rmap_F2. eapply Forall2_Forall_l; eauto; simpl; auto.
  - f_equal. apply rmap_F2. eapply Forall2_Forall_l; eauto; simpl; auto.
Qed.
Lemma Sim_recompute f g s : forall s' c r, Sim f g s s' -> recompute s c r = recompute s' c r.
Proof.
  induction s as [d|subs b IH|subs b ch IH|k b q|k b q con IH] using stmt_ind';
    intros s' c r H; inversion H; subst; clear H; nameF; simpl; auto.
  - unfold recompute_dl. repeat match goal with X : _ d = _ |- _ => rewrite X; clear X end. auto.
  - f_equal. apply rimap_F2. eapply Forall2_Forall_l; [exact IH|eassumption|]. simpl. intros x y Hx Hxy i.
    destruct (index r i); simpl; auto.
  - destruct (index r 0) as [ch0|]; simpl; auto. destruct (index r 1) as [rs|]; simpl; auto.
    destruct (chal_list ch0) as [cs|]; simpl; auto. destruct (_ =? 0); auto.
    f_equal. apply rimap_F2. eapply Forall2_Forall_l; [exact IH|eassumption|]. simpl. intros x y Hx Hxy i.
    destruct (index ch0 i) as [ci|]; simpl; auto. destruct (as_int ci); simpl; auto.
    destruct (index rs i); simpl; auto.
Qed.

(** numbering of secrets *)
Definition mrel (f g : bytes -> bytes) (m m' : list (bytes * Z)) : Prop :=
  Forall2 (fun p q => snd p = snd q /\ fst q = f (fst p) /\ fst p = g (fst q)) m m'.
Lemma bytes_eqb_ren f g a b a' b' :
  a' = f a -> a = g a' -> b' = f b -> b = g b' -> bytes_eqb a b = bytes_eqb a' b'.
Proof.
  intros. destruct (bytes_eqb a b) eqn:E.
  - apply bytes_eqb_eq in E. symmetry. apply bytes_eqb_eq. congruence.
  - destruct (bytes_eqb a' b') eqn:F; auto. apply bytes_eqb_eq in F.
    assert (bytes_eqb a b = true) by (apply bytes_eqb_eq; congruence). congruence.
Qed.
Lemma mrel_mem f g m m' a b : mrel f g m m' -> ren f g a b ->
  existsb (fun p => bytes_eqb (fst p) (sname a)) m = existsb (fun p => bytes_eqb (fst p) (sname b)) m'.
Proof.
  intros H [E1 E2]. induction H as [|p q m m' (A & B & C) H IH]; simpl; auto.
  rewrite (bytes_eqb_ren f g (fst p) (sname a) (fst q) (sname b)), IH; auto.
Qed.
Lemma mrel_lookup f g m m' a b : mrel f g m m' -> ren f g a b ->
  id_lookup m (sname a) = id_lookup m' (sname b).
Proof.
  intros H [E1 E2]. induction H as [|[k v] [k' v'] m m' (A & B & C) H IH]; simpl in *; auto.
  rewrite (bytes_eqb_ren f g k (sname a) k' (sname b)), IH; auto. now subst.
Qed.
Lemma assign_rel f g ss ss' : Forall2 (ren f g) ss ss' ->
  mrel f g (assign_secret_ids ss) (assign_secret_ids ss').
Proof.
  intros H. unfold assign_secret_ids.
  assert (K : forall n m m', mrel f g m m' ->
    let F := (fun (acc : Z * list (bytes * Z)) s =>
        let (n, m) := acc in
        if existsb (fun p => bytes_eqb (fst p) (sname s)) m then acc
        else (n + 1, m ++ [(sname s, n)])) in
    mrel f g (snd (fold_left F ss (n, m))) (snd (fold_left F ss' (n, m')))).
  { induction H as [|a b ss ss' Hab H IH]; intros n m m' Hm F; simpl; auto.
    rewrite (mrel_mem f g m m' a b Hm Hab).
    destruct (existsb _ m').
    - apply IH; auto.
    - apply IH. apply Forall2_app'; [auto|]. destruct Hab. constructor; simpl; auto. }
  apply K. constructor.
Qed.

Lemma Sim_class f g k k' : KSim f g k k' -> class_name k = class_name k'.
Proof. intros H; inversion H; auto. Qed.

Lemma Sim_proof_id f g s : forall s', Sim f g s s' ->
  get_proof_id s None = get_proof_id s' None /\
  forall m m', mrel f g m m' -> get_proof_id s (Some m) = get_proof_id s' (Some m').
Proof.
  induction s as [d|subs b IH|subs b ch IH|k b q|k b q con IH] using stmt_ind'; intros s' H.
  - inversion H as [d0 d' E1 E2 H4| | |]; subst; clear H. simpl. rewrite E1, E2.
    assert (K : forall m m', mrel f g m m' ->
      rmap (fun s => id_lookup m (sname s)) (dl_secs d) =
      rmap (fun s => id_lookup m' (sname s)) (dl_secs d')).
    { intros m m' Hm. apply rmap_F2. eapply Forall2_impl; [|apply H4]. intros a a' R.
      eapply mrel_lookup; eauto. }
    split.
    + rewrite (K _ _ (assign_rel f g _ _ H4)). auto.
    + intros m m' Hm. rewrite (K _ _ Hm). auto.
  - assert (HB := Sim_built _ _ _ _ H). destruct HB as [HB HB'].
    assert (S1 := built_svars _ HB). assert (S2 := built_svars _ HB').
    assert (SV := Sim_svars _ _ _ _ H). assert (BB := Sim_bases _ _ _ _ H).
    inversion H; subst.
    assert (K : forall m m', mrel f g m m' ->
      rmap (fun s => get_proof_id s (Some m)) subs = rmap (fun s => get_proof_id s (Some m')) l').
    { intros m m' Hm. apply rmap_F2. eapply Forall2_Forall_l; [exact IH|eassumption|]. simpl. intros x y Hx Hxy.
      now apply Hx. }
    cbn [get_proof_id]. rewrite S1, S2, BB. cbn [rbind].
    split.
    + rewrite (K _ _ (assign_rel f g _ _ SV)). auto.
    + intros m m' Hm. rewrite (K _ _ Hm). auto.
  - assert (HB := Sim_built _ _ _ _ H). destruct HB as [HB HB'].
    assert (S1 := built_svars _ HB). assert (S2 := built_svars _ HB').
    assert (SV := Sim_svars _ _ _ _ H). assert (BB := Sim_bases _ _ _ _ H).
    inversion H; subst.
    assert (K : forall m m', mrel f g m m' ->
      rmap (fun s => get_proof_id s (Some m)) subs = rmap (fun s => get_proof_id s (Some m')) l').
    { intros m m' Hm. apply rmap_F2. eapply Forall2_Forall_l; [exact IH|eassumption|]. simpl. intros x y Hx Hxy.
      now apply Hx. }
    cbn [get_proof_id]. rewrite S1, S2, BB. cbn [rbind].
    split.
    + rewrite (K _ _ (assign_rel f g _ _ SV)). auto.
    + intros m m' Hm. rewrite (K _ _ Hm). auto.
  - inversion H.
  - inversion H as [| | |k0 k' b0 b' p0 c c' HK HC]; subst; clear H. destruct (IH _ HC) as [A B]. simpl. rewrite (Sim_class f g k k'); auto.
    split; [now rewrite A|]. intros m m' Hm. now rewrite (B m m' Hm).
Qed.
Lemma Sim_prehash f g s s' : Sim f g s s' -> prehash_input s = prehash_input s'.
Proof. intros H. unfold prehash_input. now rewrite (proj1 (Sim_proof_id _ _ _ _ H)). Qed.
Lemma KSim_validate f g k k' p : KSim f g k k' -> kvalidate k p = kvalidate k' p.
Proof. intros H; inversion H; auto. Qed.
Lemma Sim_validate f g s : forall s', Sim f g s s' -> full_validate s = full_validate s'.
Proof.
  induction s as [d|subs b IH|subs b ch IH|k b q|k b q con IH] using stmt_ind';
    intros s' H; inversion H; subst; clear H; nameF; simpl; auto.
  - f_equal. apply rmap_F2. eapply Forall2_Forall_l; eauto; simpl; auto.
  - f_equal. apply rmap_F2. eapply Forall2_Forall_l; eauto; simpl; auto.
  - eapply KSim_validate; eauto.
Qed.
Lemma Sim_Cons f g s : forall s' R r, Sim f g s s' -> Cons R s r -> Cons (fun n => R (g n)) s' r.
Proof.
  induction s as [d|subs b IH|subs b ch IH|k b q|k b q con IH] using stmt_ind';
    intros s' R r H C; inversion H as [d0 d' E1 E2 HF|l l' b0 b' HF|l l' b0 b' c c' HF|k0 k' b0 b' p0 c c' HK HC]; subst; clear H;
    inversion C as [R0 d0|R0 l0 b1 rs HR|R0 l0 b1 c1 cs rs HR|R0 k1 b1 p1 c1 r1 HR]; subst; clear C.
  - replace (map (fun s => VInt (R (sname s))) (dl_secs d))
      with (map (fun s => VInt (R (g (sname s)))) (dl_secs d')); [constructor|].
    clear -HF. induction HF; simpl; auto. destruct H as [_ <-]. now rewrite IHHF.
  - constructor. revert rs HR. clear -HF IH. induction HF as [|x y l m Hxy HF IHF]; intros rs HR;
      inversion HR; subst; constructor; inversion IH; subst; eauto.
  - constructor. revert rs HR. clear -HF IH. induction HF as [|x y l m Hxy HF IHF]; intros rs HR;
      inversion HR as [|? r0 ? ? [R' C']]; subst; constructor; inversion IH; subst; eauto.
  - constructor. eauto.
Qed.

(** ** Forgetting what proving changes: flags, values, choices *)
Fixpoint strip (s : stmt) : stmt :=
  match s with
  | SDL d => SDL (mkDL (dl_lhs d) (dl_bases d) (dl_secs d) [] false)
  | SAnd subs _ => SAnd (map strip subs) false
  | SOr subs _ _ => SOr (map strip subs) false None
  | SExt k _ p (Some c) => SExt k false p (Some (strip c))
  | SExt k _ p None => SExt k false p None
  end.
Lemma Sim_strip f g s : forall s', Sim f g (strip s) s' <-> Sim f g s s'.
Proof.
  induction s as [d|subs b IH|subs b ch IH|k b q|k b q con IH] using stmt_ind'; intros s'; simpl.
  - split; intros H; inversion H; subst; constructor; auto.
  - split; intros H; inversion H; subst; constructor.
    + nameF. rewrite Forall2_map_l in HF. eapply Forall2_Forall_l; eauto. simpl. intros a a' X. apply X.
    + rewrite Forall2_map_l. eapply Forall2_Forall_l; eauto. simpl. intros a a' X. apply X.
  - split; intros H; inversion H; subst; constructor.
    + nameF. rewrite Forall2_map_l in HF. eapply Forall2_Forall_l; eauto. simpl. intros a a' X. apply X.
    + rewrite Forall2_map_l. eapply Forall2_Forall_l; eauto. simpl. intros a a' X. apply X.
  - split; intros H; inversion H.
  - split; intros H; inversion H; subst; constructor; auto; now apply IH.
Qed.
Lemma Sim_same f g a b c : strip a = strip b -> Sim f g a c -> Sim f g b c.
Proof. intros E H. apply Sim_strip. rewrite <- E. now apply Sim_strip. Qed.
Lemma Pat_strip f g s : forall s', Pat f g (strip s) s' <-> Pat f g s s'.
Proof.
  induction s as [d|subs b IH|subs b ch IH|k b q|k b q con IH] using stmt_ind'; intros s'; simpl.
  - split; intros H; inversion H; subst; constructor; auto.
  - split; intros H; inversion H; subst; constructor.
    + nameF. rewrite Forall2_map_l in HF. eapply Forall2_Forall_l; eauto. simpl. intros a a' X. apply X.
    + rewrite Forall2_map_l. eapply Forall2_Forall_l; eauto. simpl. intros a a' X. apply X.
  - split; intros H; inversion H; subst; constructor.
    + nameF. rewrite Forall2_map_l in HF. eapply Forall2_Forall_l; eauto. simpl. intros a a' X. apply X.
    + rewrite Forall2_map_l. eapply Forall2_Forall_l; eauto. simpl. intros a a' X. apply X.
  - split; intros H; inversion H; subst; constructor; auto.
  - split; intros H; inversion H; subst; constructor; auto.
Qed.
Lemma Pat_noext_Sim f g s : forall s', noext s -> Pat f g s s' -> Sim f g s s' /\ noext s'.
Proof.
  induction s as [d|subs b IH|subs b ch IH|k b q|k b q con IH] using stmt_ind'; intros s' N H;
    inversion H; subst; clear H; nameF; inversion N; subst.
  - split; constructor; auto.
  - assert (Forall2 (Sim f g) subs l' /\ Forall noext l') as [A B].
    { match goal with X : Forall noext subs |- _ => rename X into HN end. clear N.
      induction HF as [|x y l m Hxy HF IHF]; [split; constructor|].
      inversion IH as [|? ? P Q]; inversion HN as [|? ? P' Q']; subst.
      destruct (P y) as [X Y]; auto. destruct IHF; auto. }
    split; constructor; auto.
  - assert (Forall2 (Sim f g) subs l' /\ Forall noext l') as [A B].
    { match goal with X : Forall noext subs |- _ => rename X into HN end. clear N.
      induction HF as [|x y l m Hxy HF IHF]; [split; constructor|].
      inversion IH as [|? ? P Q]; inversion HN as [|? ? P' Q']; subst.
      destruct (P y) as [X Y]; auto. destruct IHF; auto. }
    split; constructor; auto.
Qed.
End T.

(** What acceptance means: consistent responses, extraction. *)
From Coq Require Import String Znumtheory.
From Verif Require Import Base World Val Expr Utils Stmt Prove Verify Spec Shapes Clauses Extract Lib DictProofs Keeps Tree
  Sigma ArithProofs Build.
Open Scope Z_scope.
Open Scope list_scope.

Lemma nth_error_firstn' {A} n : forall (l : list A) i, (i < n)%nat -> nth_error (firstn n l) i = nth_error l i.
Proof. induction n; intros [|x l] [|i] H; simpl; auto; try lia. apply IHn. lia. Qed.
Lemma nth_error_ext' {A} (l m : list A) : (forall i, nth_error l i = nth_error m i) -> l = m.
Proof.
  revert m. induction l as [|x l IH]; intros [|y m] H; auto.
  - discriminate (H O).
  - discriminate (H O).
  - f_equal. { injection (H O); auto. } apply IH. intros i. apply (H (S i)).
Qed.

Section S.
Context {W : World}.

(** A verifier object that belongs to the statement. *)
Inductive vmatch : stmt -> verifier -> Prop :=
| VmDL d : vmatch (SDL d) RDL
| VmAnd subs b vs : Forall2 vmatch subs vs -> vmatch (SAnd subs b) (RAnd vs)
| VmOr subs b c vs : Forall2 vmatch subs vs -> vmatch (SOr subs b c) (ROr vs)
| VmNone k b pre con : vmatch (SExt k b pre con) (RExt None)
| VmExt k b pre con v : vmatch con v -> vmatch (SExt k b pre (Some con)) (RExt (Some v)).

Lemma vmatch_get s : vmatch s (get_verifier s).
Proof.
  induction s as [d|subs f IH|subs f ch IH|k f q|k f q con IH] using stmt_ind'; simpl; constructor; auto;
    apply Forall2_map_r; induction IH; constructor; auto.
Qed.
Lemma vmatch_full s : vmatch s (fverifier s).
Proof.
  induction s as [d|subs f IH|subs f ch IH|k f q|k f q con IH] using stmt_ind'; simpl; constructor; auto;
    apply Forall2_map_r; induction IH; constructor; auto.
Qed.

Lemma pp_loop_vmatch pre : forall l vs i st rs st', 
  (forall x, In x l -> forall v p st r st', vmatch x v -> process_pre x v p st = Ok (r, st') -> vmatch (snd r) (fst r)) ->
  Forall2 vmatch l vs -> pp_loop process_pre pre i l vs st = Ok (rs, st') -> Forall2 vmatch (map snd rs) (map fst rs).
Proof.
  induction l as [|x l IH]; intros vs i st rs st' H F E.
  - apply ret_ok in E as [<- _]. constructor.
  - inversion F; subst. simpl in E. apply bind_ok in E as (p & s1 & E1 & E). apply bind_ok in E as (r & s2 & E2 & E).
    apply bind_ok in E as (rs' & s3 & E3 & E). apply ret_ok in E as [<- ->]. simpl. constructor.
    + eapply H; eauto. now left.
    + eapply IH; eauto. intros; eapply H; eauto. now right.
Qed.
Lemma process_vmatch s : forall v pre st r st', vmatch s v -> process_pre s v pre st = Ok (r, st') -> vmatch (snd r) (fst r).
Proof.
  induction s as [d|subs f IH|subs f ch IH|k f q|k f q con IH] using stmt_ind'; intros v pre st r st' V E; inversion V; subst.
  - apply ret_ok in E as [<- _]. exact V.
  - rewrite process_pre_and in E. destruct (is_none pre); [apply ret_ok in E as [<- _]; exact V|].
    apply bind_ok in E as (l & s1 & E1 & E). apply ret_ok in E as [<- _]. simpl. constructor.
    rewrite Forall_forall in IH. eapply pp_loop_vmatch; eauto.
  - rewrite process_pre_or in E. destruct (is_none pre); [apply ret_ok in E as [<- _]; exact V|].
    apply bind_ok in E as (l & s1 & E1 & E). apply ret_ok in E as [<- _]. simpl. constructor.
    rewrite Forall_forall in IH. eapply pp_loop_vmatch; eauto.
  - cbn [process_pre] in E. apply bind_ok in E as (l & s1 & E1 & E). apply ret_ok in E as [<- _]. simpl. constructor. apply vmatch_get.
  - cbn [process_pre] in E. apply bind_ok in E as (l & s1 & E1 & E). apply ret_ok in E as [<- _]. simpl. constructor. apply vmatch_get.
  - cbn [process_pre] in E. apply bind_ok in E as (l & s1 & E1 & E). apply ret_ok in E as [<- _]. simpl. constructor. apply vmatch_get.
Qed.

(** ** Consistency of responses *)
Definition dext (e : nat -> option Z) (d d' : dict val) : Prop := forall x a, dget e d x = Some a -> dget e d' x = Some a.
Lemma dext_refl e d : dext e d d. Proof. intros x a H; exact H. Qed.
Lemma dext_trans e a b c : dext e a b -> dext e b c -> dext e a c. Proof. intros H K x v E. auto. Qed.

Definition cdl_loop (e : nat -> option Z) (r : val) :=
  fix go (i : nat) (ss : list secret) (rd : dict val) : res (option (dict val)) := match ss with
   | [] => Ok (Some rd)
   | s :: ss =>
     match dget e rd s with
     | Some x => let? ri := index r i in
                 if val_eqb ri x then go (S i) ss rd else Ok None
     | None => let? ri := index r i in go (S i) ss (dset e rd s ri)
     end
   end.
Lemma cdl_sound e r ss : forall i rd rd', cdl_loop e r i ss rd = Ok (Some rd') ->
  dext e rd rd' /\ forall j x, nth_error ss j = Some x -> exists a, index r (i + j) = Ok a /\ dget e rd' x = Some a.
Proof.
  induction ss as [|s ss IH]; intros i rd rd' H.
  - injection H as <-. split; [apply dext_refl|]. intros [|j] x E; discriminate E.
  - simpl in H. destruct (dget e rd s) as [v|] eqn:D.
    + destruct (index r i) as [ri|] eqn:I; [|discriminate]. cbn [rbind] in H.
      destruct (val_eqb ri v) eqn:V; [|discriminate]. apply val_eqb_eq in V. subst v. apply IH in H as [H1 H2]. split; auto.
      intros [|j] x E.
      * injection E as <-. exists ri. rewrite Nat.add_0_r. auto.
      * rewrite <- plus_n_Sm. apply (H2 j x E).
    + destruct (index r i) as [ri|] eqn:I; [|discriminate]. cbn [rbind] in H. apply IH in H as [H1 H2]. split.
      * intros x a Hx. apply H1. destruct (sec_eqb e s x) eqn:Q.
        -- rewrite (dget_cong e rd x s) in Hx by (now rewrite sec_eqb_sym). congruence.
        -- now rewrite dget_dset_other.
      * intros [|j] x E.
        -- injection E as <-. exists ri. rewrite Nat.add_0_r. split; auto. apply H1. apply dget_dset_same, sec_eqb_refl.
        -- rewrite <- plus_n_Sm. apply (H2 j x E).
Qed.
Lemma cdl_total e r ss : forall i rd, (forall j, (j < List.length ss)%nat -> exists a, index r (i + j) = Ok a) ->
  exists o, cdl_loop e r i ss rd = Ok o.
Proof.
  induction ss as [|s ss IH]; intros i rd H; simpl; eauto.
  destruct (H O) as [a Ha]; [simpl; lia|]. rewrite Nat.add_0_r in Ha. rewrite Ha. cbn [rbind].
  assert (H' : forall j, (j < List.length ss)%nat -> exists a, index r (S i + j) = Ok a).
  { intros j Hj. destruct (H (S j)) as [b Hb]; [simpl; lia|]. exists b. now rewrite <- plus_n_Sm in Hb. }
  destruct (dget e rd s); [destruct (val_eqb a v)|]; eauto.
Qed.

(** what a successful check of the responses establishes *)
Definition checked (e : nat -> option Z) (s : stmt) (r : val) (rd rd' : dict val) : Prop :=
  dext e rd rd' /\ Rshape s r /\ (forall x a, Occ s r x a -> dget e rd' x = Some a) /\
  (forall s' r', branch s r s' r' -> Rshape s' r' /\ exists d', forall x a, Occ s' r' x a -> dget e d' x = Some a).

Lemma one_of_dict e s r rd' : (forall x a, Occ s r x a -> dget e rd' x = Some a) -> one_response e s r.
Proof.
  intros H x y a b Hx Hy E. apply H in Hx, Hy. rewrite (dget_cong e rd' x y) in Hx by now apply sec_eqb_iff. congruence.
Qed.

Lemma cand_sound e r l : forall vs i rd rd',
  (forall x, In x l -> forall v r rd rd', vmatch x v -> consistent e x v r rd = Ok (Some rd') -> checked e x r rd rd') ->
  Forall2 vmatch l vs -> cand_loop (consistent e) r i l vs rd = Ok (Some rd') ->
  dext e rd rd' /\ forall j x, nth_error l j = Some x -> exists ri, index r (i + j) = Ok ri /\ exists d d', checked e x ri d d' /\ dext e d' rd'.
Proof.
  induction l as [|x l IH]; intros vs i rd rd' H F E.
  - injection E as <-. split; [apply dext_refl|]. intros [|j] x E; discriminate E.
  - inversion F; subst. simpl in E. destruct (index r i) as [ri|] eqn:I; [|discriminate]. cbn [rbind] in E.
    destruct (consistent e x y ri rd) as [[d|]|] eqn:C; try discriminate. cbn [rbind] in E.
    destruct (IH l' (S i) d rd') as [X Y]; auto.
    { intros; eapply H; eauto. now right. }
    assert (K := H x ltac:(now left) _ _ _ _ H2 C). split.
    + destruct K as [K _]. eapply dext_trans; eauto.
    + intros [|j] z Ez.
      * injection Ez as <-. exists ri. rewrite Nat.add_0_r. split; auto. exists rd, d. auto.
      * rewrite <- plus_n_Sm. apply (Y j z Ez).
Qed.
Lemma cor_sound e r rd l : forall vs i rd',
  (forall x, In x l -> forall v r rd rd', vmatch x v -> consistent e x v r rd = Ok (Some rd') -> checked e x r rd rd') ->
  Forall2 vmatch l vs -> cor_loop (consistent e) r rd i l vs = Ok (Some rd') ->
  rd' = rd /\ forall j x, nth_error l j = Some x -> exists rs ri, index r 1 = Ok rs /\ index rs (i + j) = Ok ri /\ exists d', checked e x ri [] d'.
Proof.
  induction l as [|x l IH]; intros vs i rd' H F E.
  - injection E as <-. split; auto. intros [|j] x E; discriminate E.
  - inversion F; subst. simpl in E. destruct (index r 1) as [rs|] eqn:I1; [|discriminate]. cbn [rbind] in E.
    destruct (index rs i) as [ri|] eqn:I; [|discriminate]. cbn [rbind] in E.
    destruct (consistent e x y ri []) as [[d|]|] eqn:C; try discriminate. cbn [rbind] in E.
    destruct (IH l' (S i) rd') as [X Y]; auto.
    { intros; eapply H; eauto. now right. }
    split; auto. intros [|j] z Ez.
    + injection Ez as <-. exists rs, ri. rewrite Nat.add_0_r. split; auto. split; auto. exists d. eapply H; eauto. now left.
    + rewrite <- plus_n_Sm. apply (Y j z Ez).
Qed.

Lemma consistent_sound e s : forall v r rd rd', vmatch s v -> consistent e s v r rd = Ok (Some rd') -> checked e s r rd rd'.
Proof.
  induction s as [d|subs f IH|subs f ch IH|k f q|k f q con IH] using stmt_ind'; intros v r rd rd' V E; inversion V; subst.
  - change (cdl_loop e r 0 (dl_secs d) rd = Ok (Some rd')) in E. apply cdl_sound in E as [H1 HH].
    split; auto. split; [|split].
    + constructor. intros i Hi. destruct (nth_error (dl_secs d) i) as [x|] eqn:N.
      * destruct (HH i x N) as (a & Ha & _). exists a. exact Ha.
      * apply nth_error_None in N. lia.
    + intros x a O. inversion O; subst. match goal with N : nth_error _ _ = Some _ |- _ => destruct (HH _ _ N) as (a' & Ha & D) end. simpl in Ha. congruence.
    + intros s' r' B. inversion B.
  - rewrite consistent_and in E. rewrite Forall_forall in IH. destruct (cand_sound e r subs vs 0 rd rd' IH ltac:(eassumption) E) as [H1 HH].
    split; auto. split; [|split].
    + constructor. intros i s N. destruct (HH i s N) as (ri & I & d & d' & (_ & R & _) & _). exists ri. auto.
    + intros x a O. inversion O; subst. match goal with N : nth_error subs _ = Some _ |- _ => destruct (HH _ _ N) as (r2 & I & d & d' & (_ & _ & R & _) & X) end.
      apply X, R. simpl in I. congruence.
    + intros s' r' B. inversion B; subst. match goal with N : nth_error subs _ = Some _ |- _ => destruct (HH _ _ N) as (r2 & I & d & d' & (_ & _ & _ & R) & X) end. simpl in I.
      replace ri with r2 in * by congruence. now apply R.
  - rewrite consistent_or in E. rewrite Forall_forall in IH. destruct (cor_sound e r rd subs vs 0 rd' IH ltac:(eassumption) E) as [-> HH].
    split; [apply dext_refl|]. split; [|split].
    + constructor. intros i s N. destruct (HH i s N) as (rs & ri & I1 & I2 & d & (_ & R & _)). exists rs, ri. auto.
    + intros x a O. inversion O.
    + intros s' r' B. inversion B; subst.
      * match goal with N : nth_error subs _ = Some _ |- _ => destruct (HH _ _ N) as (rs' & ri & I1 & I2 & d' & C) end. simpl in I2. assert (rs = rs') by congruence. subst rs'.
        replace r' with ri by congruence. destruct C as (_ & Y & X & _). eauto.
      * match goal with N : nth_error subs _ = Some _ |- _ => destruct (HH _ _ N) as (rs' & r2 & I1 & I2 & d' & (_ & _ & _ & R)) end. simpl in I2. assert (rs = rs') by congruence. subst rs'.
        replace ri with r2 in * by congruence. now apply R.
  - discriminate E.
  - discriminate E.
  - cbn [consistent] in E. eapply IH in E as (K1 & K2 & K3 & K4); eauto. split; auto. split; [|split].
    + now constructor.
    + intros x a O. inversion O; subst. auto.
    + intros s' r' B. inversion B; subst. auto.
Qed.

(** the check never raises on a response with all entries *)
Lemma consistent_total e s : forall r rd, Rshape s r -> exists o, consistent e s (fverifier s) r rd = Ok o.
Proof.
  induction s as [d|subs f IH|subs f ch IH|k f q|k f q con IH] using stmt_ind'; intros r rd RS; inversion RS; subst.
  - simpl fverifier. change (exists o, cdl_loop e r 0 (dl_secs d) rd = Ok o). apply cdl_total. auto.
  - simpl fverifier. rewrite consistent_and. assert (G : forall l i rd, (forall j x, nth_error l j = Some x -> exists ri,
      index r (i + j) = Ok ri /\ forall rd, exists o, consistent e x (fverifier x) ri rd = Ok o) ->
      exists o, cand_loop (consistent e) r i l (map fverifier l) rd = Ok o).
    { induction l as [|x l IHl]; intros i rd0 H0; simpl; eauto. destruct (H0 O x eq_refl) as (ri & I & C).
      rewrite Nat.add_0_r in I. rewrite I. cbn [rbind]. destruct (C rd0) as [[d|] ->]; cbn [rbind]; eauto. apply IHl.
      intros j y Hy. destruct (H0 (S j) y Hy) as (r2 & I2 & C2). exists r2. now rewrite <- plus_n_Sm in I2. }
    apply G. intros j x N. match goal with K : forall i s, nth_error subs i = Some s -> _ |- _ => destruct (K j x N) as (ri & I & R) end. exists ri. split; auto.
    intros rd0. rewrite Forall_forall in IH. apply IH; auto. eapply nth_error_In; eauto.
  - simpl fverifier. rewrite consistent_or. assert (G : forall l i, (forall j x, nth_error l j = Some x -> exists rs ri,
      index r 1 = Ok rs /\ index rs (i + j) = Ok ri /\ forall rd, exists o, consistent e x (fverifier x) ri rd = Ok o) ->
      exists o, cor_loop (consistent e) r rd i l (map fverifier l) = Ok o).
    { induction l as [|x l IHl]; intros i H0; simpl; eauto. destruct (H0 O x eq_refl) as (rs & ri & I1 & I & C).
      rewrite Nat.add_0_r in I. rewrite I1. cbn [rbind]. rewrite I. cbn [rbind]. destruct (C []) as [[d|] ->]; cbn [rbind]; eauto. apply IHl.
      intros j y Hy. destruct (H0 (S j) y Hy) as (rs2 & r2 & I3 & I2 & C2). exists rs2, r2. now rewrite <- plus_n_Sm in I2. }
    apply G. intros j x N. match goal with K : forall i s, nth_error subs i = Some s -> _ |- _ => destruct (K j x N) as (rs & ri & I1 & I & R) end. exists rs, ri. split; auto. split; auto.
    intros rd0. rewrite Forall_forall in IH. apply IH; auto. eapply nth_error_In; eauto.
  - simpl. auto.
Qed.

(** ** Extraction *)
Definition zinv (a q : Z) : Z := match euclid a q with Euclid_intro _ _ u _ d _ _ => u * d end.
Lemma zinv_spec a q : prime q -> ~ (q | a) -> (q | zinv a q * a - 1).
Proof.
  intros P N. unfold zinv. destruct (euclid a q) as [u v d E G].
  assert (R : rel_prime a q) by (apply rel_prime_sym; now apply prime_rel_prime).
  destruct (Zis_gcd_uniqueness_apart_sign a q d 1 G R) as [->| ->].
  - exists (- v). lia.
  - exists v. lia.
Qed.

Lemma as_iter_index r l i a : as_iter r = Ok l -> index r i = Ok a -> nth_error l i = Some a.
Proof.
  destruct r; simpl; intros H K; try discriminate; injection H as <-;
    match type of K with context [nth_error ?m i] => destruct (nth_error m i) eqn:N; [|discriminate] end; injection K as <-;
    now rewrite ?(map_nth_error _ _ _ N).
Qed.
Lemma wsum_v_err ps e : fold_left (fun acc wp => let? a := acc in let? w := as_int (fst wp) in padd_chk a (pmul w (snd wp))) ps (Err e : res pt) = Err e.
Proof. induction ps; simpl; auto. Qed.
Lemma wsum_v_inv bs : forall ws a x, (List.length bs <= List.length ws)%nat ->
  fold_left (fun acc wp => let? a := acc in let? w := as_int (fst wp) in padd_chk a (pmul w (snd wp))) (combine ws bs) (Ok a) = Ok x ->
  exists zs, firstn (List.length bs) ws = map VInt zs /\ List.length zs = List.length bs /\ in_group (grp a) bs /\
    x = padd a (lincomb (grp a) zs bs).
Proof.
  induction bs as [|b bs IH]; intros ws a x L H.
  - rewrite combine_nil in H. injection H as <-. exists []. simpl. repeat split; auto; try constructor. now rewrite add_inf_r.
  - destruct ws as [|w ws]; [simpl in L; lia|]. cbn [combine fold_left fst snd rbind] in H.
    destruct w; simpl as_int in H; cbn [rbind] in H; try (rewrite wsum_v_err in H; discriminate).
    destruct (padd_chk a (pmul z b)) as [a'|] eqn:P; [|rewrite wsum_v_err in H; discriminate].
    apply padd_chk_ok in P as [G ->]. rewrite grp_mul in G.
    apply IH in H as (zs & E & L' & I & ->); [|simpl in L; lia].
    rewrite grp_add in * by now rewrite grp_mul.
    exists (z :: zs). cbn [List.length firstn map]. rewrite E. repeat split; auto; try (simpl; congruence).
    + constructor; auto.
    + cbn [lincomb]. rewrite (add_assoc a (pmul z b)); rewrite ?grp_mul; auto.
      rewrite grp_lincomb; auto; congruence.
Qed.

Definition rval (f : bytes -> val) (n : bytes) : Z := match f n with VInt z => z | _ => 0 end.
Lemma rows_dl d c r com f : List.length (dl_secs d) = List.length (dl_bases d) -> recompute_dl d c r = Ok com ->
  Rshape (SDL d) r -> (forall x a, Occ (SDL d) r x a -> a = f (sname x)) ->
  let g := grp (dl_lhs d) in
  in_group g (dl_bases d) /\
  (forall i x, nth_error (dl_secs d) i = Some x -> index r i = Ok (VInt (rval f (sname x)))) /\
  com = VPt (padd (lincomb g (map (fun x => rval f (sname x)) (dl_secs d)) (dl_bases d)) (pmul (- c) (dl_lhs d))).
Proof.
  intros L H RS O g. unfold recompute_dl in H. apply rbind_ok in H as (ws & I & H).
  apply rbind_ok in H as (x & S & H). apply rbind_ok in H as (y & P & H). injection H as <-.
  apply padd_chk_ok in P as [_ ->]. inversion RS as [? ? RS'| | |]; subst.
  assert (N : forall i x, nth_error (dl_secs d) i = Some x -> index r i = Ok (f (sname x)) /\ nth_error ws i = Some (f (sname x))).
  { intros i x0 Hx. destruct (RS' i) as [a Ha]. { apply nth_error_Some. congruence. }
    assert (a = f (sname x0)) by (eapply O; econstructor; eauto). subst a. split; auto. eapply as_iter_index; eauto. }
  apply wsum_v_inv in S as (zs & F & Lz & G & ->).
  2:{ rewrite <- L. destruct (dl_secs d) as [|s0 ss0] eqn:E; [simpl; lia|]. rewrite <- E in *.
      destruct (nth_error (dl_secs d) (List.length (dl_secs d) - 1)) as [x0|] eqn:Nx.
      - apply N in Nx as [_ Nx]. assert (nth_error ws (List.length (dl_secs d) - 1) <> None) by congruence.
        apply nth_error_Some in H. rewrite E in *. simpl in *. lia.
      - apply nth_error_None in Nx. rewrite E in Nx. simpl in Nx. lia. }
  rewrite grp_inf in *. 
  assert (Z : map (fun x => rval f (sname x)) (dl_secs d) = zs /\ forall i x, nth_error (dl_secs d) i = Some x -> f (sname x) = VInt (rval f (sname x))).
  { assert (Q : forall i x, nth_error (dl_secs d) i = Some x -> exists z, nth_error zs i = Some z /\ f (sname x) = VInt z).
    { intros i x0 Hx. assert (i < List.length (dl_bases d))%nat by (rewrite <- L; apply nth_error_Some; congruence).
      destruct (N i x0 Hx) as [_ Nw]. destruct (nth_error zs i) as [z|] eqn:Nz.
      - exists z. split; auto. assert (X := map_nth_error VInt _ _ Nz). rewrite <- F in X.
        rewrite nth_error_firstn' in X by lia. congruence.
      - apply nth_error_None in Nz. lia. }
    split.
    - apply nth_error_ext'. intros i. destruct (nth_error (dl_secs d) i) as [x0|] eqn:Nx.
      + rewrite (map_nth_error _ _ _ Nx). destruct (Q i x0 Nx) as (z & -> & E). unfold rval. now rewrite E.
      + rewrite (proj2 (nth_error_None _ _)); [|rewrite map_length; now apply nth_error_None].
        symmetry. apply nth_error_None. rewrite Lz, <- L. now apply nth_error_None.
    - intros i x0 Nx. destruct (Q i x0 Nx) as (z & _ & E). unfold rval. now rewrite E. }
  destruct Z as [<- Z]. split; auto. split.
  - intros i x0 Nx. rewrite <- (Z i x0 Nx). now apply N.
  - do 2 f_equal. rewrite add_inf_l'; auto. now apply grp_lincomb.
Qed.

Lemma lincomb_ext g (u v : list Z) ps : in_group g ps -> Forall2 (fun a b => (order g | a - b)) u v -> lincomb g u ps = lincomb g v ps.
Proof.
  intros G F. revert ps G. induction F as [|a b u v D F IH]; intros ps G; [destruct ps; reflexivity|].
  destruct ps as [|p ps]; auto. cbn [lincomb]. inversion G; subst. rewrite IH by auto. f_equal.
  replace a with (b + (a - b)) by lia. destruct D as [k ->]. rewrite mul_add, <- mul_mul, mul_order, mul_inf.
  now rewrite add_inf_r' by apply grp_mul.
Qed.
Lemma lincomb_sub g ps (u v : secret -> Z) : in_group g ps -> forall ss, List.length ss = List.length ps ->
  padd (lincomb g (map u ss) ps) (pneg (lincomb g (map v ss) ps)) = lincomb g (map (fun x => u x - v x) ss) ps.
Proof.
  intros G ss L.
  assert (X := lincomb_add g ps G (map u ss) (map (Z.mul (-1)) (map v ss))). rewrite !map_length in X.
  rewrite lincomb_scale in X by auto. unfold pneg. rewrite <- X by auto. f_equal.
  clear. induction ss; simpl; auto. f_equal; auto.
Qed.
Lemma extract_dl d c c' r r' com f f' : List.length (dl_secs d) = List.length (dl_bases d) ->
  recompute_dl d c r = Ok com -> recompute_dl d c' r' = Ok com -> Rshape (SDL d) r -> Rshape (SDL d) r' ->
  (forall x a, Occ (SDL d) r x a -> a = f (sname x)) -> (forall x a, Occ (SDL d) r' x a -> a = f' (sname x)) ->
  let q := order (grp (dl_lhs d)) in prime q -> ~ (q | c - c') ->
  Extr (fun q n => (rval f n - rval f' n) * zinv (c - c') q) (SDL d) c c' r r'.
Proof.
  intros L H H' RS RS' O O' q P D.
  apply (rows_dl d c r com f L H RS) in O as (G & I & E). apply (rows_dl d c' r' com f' L H' RS') in O' as (_ & I' & E').
  assert (Y := zinv_spec (c - c') q P D).
  constructor; auto.
  2:{ intros i x N. do 2 eexists. split; [apply (I i x N)|]. split; [apply (I' i x N)|]. cbv zeta. fold q.
      set (z := rval f (sname x) - rval f' (sname x)). replace (z * zinv (c - c') q * (c - c') - z) with (z * (zinv (c - c') q * (c - c') - 1)) by lia.
      now apply Z.divide_mul_r. }
  clear I I'. unfold dl_holds. fold q. set (g := grp (dl_lhs d)) in *. rewrite E in E'. injection E' as E'. clear E H H'.
  assert (GU : forall u : secret -> Z, grp (lincomb g (map u (dl_secs d)) (dl_bases d)) = g) by (intros; now apply grp_lincomb).
  assert (X : lincomb g (map (fun x => rval f (sname x) - rval f' (sname x)) (dl_secs d)) (dl_bases d) = pmul (c - c') (dl_lhs d)).
  { rewrite <- lincomb_sub by auto.
    set (A := lincomb g (map (fun x => rval f (sname x)) (dl_secs d)) (dl_bases d)) in *.
    set (B := lincomb g (map (fun x => rval f' (sname x)) (dl_secs d)) (dl_bases d)) in *.
    assert (GA : grp A = g) by apply GU. assert (GB : grp B = g) by apply GU.
    assert (Gl : grp (dl_lhs d) = g) by reflexivity.
    assert (K : padd (padd A (pmul (- c) (dl_lhs d))) (padd (pneg B) (pmul c (dl_lhs d))) =
                padd (padd B (pmul (- c') (dl_lhs d))) (padd (pneg B) (pmul c (dl_lhs d)))) by now rewrite E'.
    rewrite !(add_swap _ (pmul _ (dl_lhs d))) in K by (rewrite ?grp_neg, ?grp_mul; congruence).
    rewrite <- !mul_add in K. replace (- c + c) with 0 in K by lia. replace (- c' + c) with (c - c') in K by lia.
    rewrite mul_0, add_neg_r, Gl, GB in K. rewrite add_inf_r', add_inf_l' in K; auto.
    - now rewrite grp_mul.
    - rewrite grp_add by (rewrite grp_neg; congruence). auto. }
  assert (U : dl_lhs d = pmul (zinv (c - c') q) (pmul (c - c') (dl_lhs d))).
  { rewrite mul_mul. rewrite <- (mul_1 (dl_lhs d)) at 1. apply mul_mod_eq. fold g q.
    destruct Y as [k Y]. replace (zinv (c - c') q * (c - c')) with (1 + k * q) by lia. now rewrite Z_mod_plus_full. }
  rewrite U, <- X, <- lincomb_scale by auto. f_equal. rewrite map_map. apply map_ext. intros; lia.
Qed.

Lemma orders_impl (P Q : Z -> Prop) s : (forall q, P q -> Q q) -> orders_in P s -> orders_in Q s.
Proof.
  intros I. induction s as [d|subs f IH|subs f ch IH|k f q|k f q con IH] using stmt_ind'; intros H; inversion H; subst; constructor; auto;
    rewrite Forall_forall in *; intros; auto.
Qed.
Lemma sum_diff cs : forall cs' m, List.length cs = List.length cs' -> ~ (m | zsum cs - zsum cs') ->
  exists i a b, nth_error cs i = Some a /\ nth_error cs' i = Some b /\ ~ (m | a - b).
Proof.
  induction cs as [|a cs IH]; intros [|b cs'] m L N; try discriminate.
  - exfalso. apply N. exists 0. simpl. lia.
  - destruct (Zdivide_dec m (a - b)) as [D|D].
    + destruct (IH cs' m) as (i & x & y & H). { simpl in L. lia. }
      { intros D'. apply N. simpl. replace (a + zsum cs - (b + zsum cs')) with (a - b + (zsum cs - zsum cs')) by lia.
        now apply Z.divide_add_r. }
      exists (S i), x, y. exact H.
    + exists O, a, b. auto.
Qed.

Lemma rimap_nth {A B} (f : nat -> A -> res B) l ys : rimap f 0 l = Ok ys -> forall i x, nth_error l i = Some x ->
  exists y, nth_error ys i = Some y /\ f i x = Ok y.
Proof. intros H i x N. apply rimap_ok in H as [_ H]. apply (H i x N). Qed.

Lemma recompute_and_inv subs b c r com : recompute (SAnd subs b) c r = Ok com -> exists l, com = VList l /\
  forall i s, nth_error subs i = Some s -> exists ri y, index r i = Ok ri /\ nth_error l i = Some y /\ recompute s c ri = Ok y.
Proof.
  intros H. cbn [recompute] in H. apply rbind_ok in H as (l & H & E). injection E as <-. exists l. split; auto.
  intros i s N. destruct (rimap_nth _ _ _ H i s N) as (y & Ny & K). apply rbind_ok in K as (ri & I & K). eauto.
Qed.
Lemma recompute_or_inv subs b ch c r com : recompute (SOr subs b ch) c r = Ok com -> exists chv rs cs l,
  com = VList l /\ index r 0 = Ok chv /\ index r 1 = Ok rs /\ chal_list chv = Ok cs /\ find_residual cs c challenge_length = 0 /\
  forall i s, nth_error subs i = Some s -> exists ci ri y, index chv i = Ok (VInt ci) /\ index rs i = Ok ri /\
    nth_error l i = Some y /\ recompute s ci ri = Ok y.
Proof.
  intros H. cbn [recompute] in H. apply rbind_ok in H as (chv & I0 & H). apply rbind_ok in H as (rs & I1 & H).
  apply rbind_ok in H as (cs & C & H). destruct (find_residual cs c challenge_length =? 0) eqn:F; [|discriminate].
  apply Z.eqb_eq in F. apply rbind_ok in H as (l & H & E). injection E as <-. exists chv, rs, cs, l. repeat split; auto.
  intros i s N. destruct (rimap_nth _ _ _ H i s N) as (y & Ny & K). apply rbind_ok in K as (ci & Ic & K).
  apply rbind_ok in K as (cz & Z & K). apply rbind_ok in K as (ri & I & K). exists cz, ri, y.
  destruct ci; try discriminate Z. injection Z as ->. auto.
Qed.

Definition dicts (e : nat -> option Z) (s : stmt) (r : val) : Prop :=
  forall s' r', branch s r s' r' -> Rshape s' r' /\ exists d', forall x a, Occ s' r' x a -> dget e d' x = Some a.
Definition bounds (s : stmt) (c c' : Z) (r r' : val) : Prop :=
  noor s \/ (orders_in (fun q => 2 ^ (challenge_length + 1) <= q) s /\ canonical s r /\ canonical s r' /\ ~ (2 ^ challenge_length | c - c')).

Lemma coh_sub e (subs : list stmt) s : In s subs -> coh e (List.concat (map svars subs)) -> coh e (svars s).
Proof. intros I. apply coh_incl. intros x Hx. apply in_concat. exists (svars s). split; auto. now apply in_map. Qed.

Lemma Occ_in_svars s r x a : Occ s r x a -> In x (svars s).
Proof.
  induction 1; simpl; auto.
  - eapply nth_error_In; eauto.
  - apply in_concat. exists (svars s). split; auto. apply in_map. eapply nth_error_In; eauto.
Qed.
Lemma dict_names e s r d : coh e (svars s) -> (forall x a, Occ s r x a -> dget e d x = Some a) ->
  exists f, forall x a, Occ s r x a -> a = f (sname x).
Proof.
  intros C H. destruct (dict_fun e d (svars s) VNone C) as [f F]. exists f. intros x a O.
  apply F; auto. eapply Occ_in_svars; eauto.
Qed.

Lemma extract e s : forall c c' r r' com f f', wfs s -> coh e (svars s) ->
  recompute s c r = Ok com -> recompute s c' r' = Ok com -> Rshape s r -> Rshape s r' ->
  (forall x a, Occ s r x a -> a = f (sname x)) -> (forall x a, Occ s r' x a -> a = f' (sname x)) ->
  dicts e s r -> dicts e s r' -> orders_in prime s -> orders_in (fun q => ~ (q | c - c')) s -> bounds s c c' r r' ->
  Extr (fun q n => (rval f n - rval f' n) * zinv (c - c') q) s c c' r r'.
Proof.
  induction s as [d|subs b IH|subs b ch IH|k b p|k b p con IH] using stmt_ind';
    intros c c' r r' com f f' WF CO H H' RS RS' O O' D D' P ND B; inversion WF; inversion P; inversion ND; subst.
  - eapply extract_dl; eauto.
  - constructor. intros i s Hi. assert (Hs := nth_error_In _ _ Hi).
    apply recompute_and_inv in H as (l & -> & H). apply recompute_and_inv in H' as (l' & E & H'). injection E as <-.
    destruct (H i s Hi) as (ri & y & I & Ny & R). destruct (H' i s Hi) as (ri' & y' & I' & Ny' & R').
    assert (y' = y) by congruence. subst y'. inversion RS as [|? ? ? Q| |]; subst. inversion RS' as [|? ? ? Q'| |]; subst.
    destruct (Q i s Hi) as (ri2 & J & S1). destruct (Q' i s Hi) as (ri2' & J' & S1').
    assert (ri2 = ri) by congruence. assert (ri2' = ri') by congruence. subst.
    exists ri, ri'. split; auto. split; auto.
    rewrite !Forall_forall in *. eapply (IH s Hs c c' ri ri' y f f'); auto.
    + eapply coh_sub; eauto.
    + intros; eapply O; econstructor; eauto.
    + intros; eapply O'; econstructor; eauto.
    + intros s' r0 Br. apply D. econstructor; eauto.
    + intros s' r0 Br. apply D'. econstructor; eauto.
    + destruct B as [B|(B1 & B2 & B3 & B4)]; [left|right].
      * inversion B; subst. rewrite Forall_forall in *. auto.
      * inversion B1; subst. inversion B2; subst. inversion B3; subst. rewrite Forall_forall in *. repeat split; eauto.
  - destruct B as [B|(B1 & B2 & B3 & B4)]; [inversion B|].
    apply recompute_or_inv in H as (chv & rs & cs & l & -> & I0 & I1 & C & F & H).
    apply recompute_or_inv in H' as (chv' & rs' & cs' & l' & E & I0' & I1' & C' & F' & H'). injection E as <-.
    inversion B2 as [| |? ? ? ? cs0 rs0 Er L Bd Sub|]; subst. inversion B3 as [| |? ? ? ? cs0' rs0' Er' L' Bd' Sub'|]; subst.
    assert (chv = VList (map VInt cs0) /\ rs0 = rs) as [-> ->] by (destruct Er; subst r; simpl in I0, I1; split; congruence).
    assert (chv' = VList (map VInt cs0') /\ rs0' = rs') as [-> ->] by (destruct Er'; subst r'; simpl in I0', I1'; split; congruence).
    rewrite chal_list_ints in C, C'. injection C as <-. injection C' as <-.
    assert (NB : 0 <= challenge_length) by (unfold challenge_length; lia).
    destruct (find_residual_spec_l cs0 c challenge_length NB) as (_ & X & _). apply X in F. clear X.
    destruct (find_residual_spec_l cs0' c' challenge_length NB) as (_ & X & _). apply X in F'. clear X.
    destruct (sum_diff cs0 cs0' (2 ^ challenge_length)) as (i & a & a' & Na & Na' & Nd). { congruence. }
    { intros X. apply B4. replace (c - c') with ((zsum cs0 - zsum cs0') - (zsum cs0 - c) + (zsum cs0' - c')) by lia.
      apply Z.divide_add_r; auto. apply Z.divide_sub_r; auto. }
    destruct (nth_error subs i) as [s|] eqn:Hi.
    2:{ apply nth_error_None in Hi. assert (nth_error cs0 i <> None) by congruence. apply nth_error_Some in H0. lia. }
    assert (Hs := nth_error_In _ _ Hi).
    destruct (H i s Hi) as (ci & ri & y & Ic & Ir & Ny & R). destruct (H' i s Hi) as (ci' & ri' & y' & Ic' & Ir' & Ny' & R').
    assert (y' = y) by congruence. subst y'.
    simpl in Ic, Ic'. rewrite (map_nth_error _ _ _ Na) in Ic. rewrite (map_nth_error _ _ _ Na') in Ic'. injection Ic as ->. injection Ic' as ->.
    rewrite Forall_forall in *.
    assert (COs : coh e (svars s)) by (eapply coh_sub; eauto).
    destruct (D s ri) as (RSi & dd & Hd). { econstructor; eauto. }
    destruct (D' s ri') as (RSi' & dd' & Hd'). { econstructor; eauto. }
    destruct (dict_names e s ri dd COs Hd) as [fi Fi]. destruct (dict_names e s ri' dd' COs Hd') as [fi' Fi'].
    assert (Bi : Z.abs ci < 2 ^ challenge_length) by (apply Bd; eapply nth_error_In; eauto).
    assert (Bi' : Z.abs ci' < 2 ^ challenge_length) by (apply Bd'; eapply nth_error_In; eauto).
    assert (OB : orders_in (fun q => 2 ^ (challenge_length + 1) <= q) s). { inversion B1; subst. rewrite Forall_forall in *. auto. }
    eapply (ExOr _ _ _ _ _ _ _ _ i s); eauto; try (simpl; now apply map_nth_error).
    1,2: simpl; now erewrite map_nth_error by eauto.
    eapply (IH s Hs ci ci' ri ri' y fi fi'); eauto.
    + intros s' r0 Br. apply D. eapply BrOr; eauto.
    + intros s' r0 Br. apply D'. eapply BrOr; eauto.
    + eapply orders_impl; [|exact OB]. intros q Hq Dq. cbv beta in Hq. rewrite Z.pow_add_r in Hq by lia.
      change (2 ^ 1) with 2 in Hq. apply Nd. destruct Dq as [k E]. destruct (Z.eq_dec k 0) as [->|]; [exists 0; lia|].
      exfalso. assert (2 ^ challenge_length * 2 <= Z.abs (k * q)) by nia. lia.
    + right. repeat split; eauto.
  - constructor. simpl in CO. inversion RS; subst. inversion RS'; subst. eapply (IH c c' r r' com f f'); eauto.
    + intros; eapply O; econstructor; eauto.
    + intros; eapply O'; econstructor; eauto.
    + intros s' r0 Br. apply D. econstructor; eauto.
    + intros s' r0 Br. apply D'. econstructor; eauto.
    + destruct B as [B|(B1 & B2 & B3 & B4)]; [left|right].
      * inversion B; subst. auto.
      * inversion B1; subst. inversion B2; subst. inversion B3; subst. repeat split; eauto.
Qed.

Lemma Extr_Sat s : forall w c c' r r', Extr w s c c' r r' -> Sat w s.
Proof.
  induction s as [d|subs b IH|subs b ch IH|k b p|k b p con IH] using stmt_ind'; intros w c c' r r' H; inversion H; subst.
  - constructor; auto.
  - constructor. rewrite Forall_forall in *. intros s Hs. apply In_nth_error in Hs as Hi. destruct Hi as [i Hi].
    match goal with K : forall i s, nth_error subs i = Some s -> _ |- _ => destruct (K i s Hi) as (? & ? & _ & _ & ?) end. eapply IH; eauto.
  - rewrite Forall_forall in *. econstructor; [eapply nth_error_In; eauto|]. eapply IH; eauto. eapply nth_error_In; eauto.
  - constructor. eauto.
Qed.

(** ** From the verifier's verdict *)
Lemma verify_resp_inv e s v com c r b : vmatch s v -> verify_resp e s v com c r = Ok b ->
  full_validate s = Ok tt /\ (exists d, checked e s r [] d) /\ (b = true -> recompute s c r = Ok com).
Proof.
  intros V H. unfold verify_resp, pre_validation in H. apply rbind_ok in H as (u & P & H).
  apply rbind_ok in P as (u' & F & P). apply rbind_ok in P as (o & C & P). destruct o as [d|]; [|discriminate].
  apply rbind_ok in H as (x & R & H). destruct u'. split; auto. split.
  - exists d. eapply consistent_sound; eauto.
  - intros ->. injection H as H. apply val_eqb_eq in H. congruence.
Qed.

Lemma extract_resp e s v com c c' r r' : vmatch s v -> wfs s -> coh e (svars s) ->
  verify_resp e s v com c r = Ok true -> verify_resp e s v com c' r' = Ok true ->
  orders_in prime s -> orders_in (fun q => ~ (q | c - c')) s -> bounds s c c' r r' ->
  exists w, Extr w s c c' r r'.
Proof.
  intros V WF CO H H' P ND B.
  apply verify_resp_inv in H as (_ & (d & _ & RS & O & D) & R); auto.
  apply verify_resp_inv in H' as (_ & (d' & _ & RS' & O' & D') & R'); auto.
  destruct (dict_names e s r d CO O) as [f F]. destruct (dict_names e s r' d' CO O') as [f' F'].
  eexists. eapply (extract e s c c' r r' com f f'); eauto.
Qed.

Lemma pp_loop_wfs pre : forall l vs i st rs st',
  (forall x, In x l -> forall v p st r st', wfs x -> process_pre x v p st = Ok (r, st') -> wfs (snd r)) ->
  Forall wfs l -> pp_loop process_pre pre i l vs st = Ok (rs, st') -> Forall wfs (map snd rs).
Proof.
  induction l as [|x l IH]; intros vs i st rs st' H F E.
  - simpl in E. destruct vs; apply ret_ok in E as [<- _]; constructor.
  - destruct vs as [|v vs]; [apply ret_ok in E as [<- _]; constructor|].
    inversion F; subst. simpl in E. apply bind_ok in E as (p & s1 & E1 & E). apply bind_ok in E as (r & s2 & E2 & E).
    apply bind_ok in E as (rs' & s3 & E3 & E). apply ret_ok in E as [<- ->]. simpl. constructor.
    + eapply H; eauto. now left.
    + eapply IH; eauto. intros; eapply H; eauto. now right.
Qed.
Lemma process_wfs s : forall v pre st r st', wfs s -> process_pre s v pre st = Ok (r, st') -> wfs (snd r).
Proof.
  induction s as [d|subs f IH|subs f ch IH|k f q|k f q con IH] using stmt_ind'; intros v pre st r st' V E; inversion V; subst;
    destruct v as [|vs|vs|v]; try discriminate E.
  - apply ret_ok in E as [<- _]. exact V.
  - rewrite process_pre_and in E. destruct (is_none pre); [apply ret_ok in E as [<- _]; exact V|].
    apply bind_ok in E as (l & s1 & E1 & E). apply ret_ok in E as [<- _]. simpl. constructor.
    rewrite Forall_forall in IH. eapply pp_loop_wfs; eauto.
  - rewrite process_pre_or in E. destruct (is_none pre); [apply ret_ok in E as [<- _]; exact V|].
    apply bind_ok in E as (l & s1 & E1 & E). apply ret_ok in E as [<- _]. simpl. constructor.
    rewrite Forall_forall in IH. eapply pp_loop_wfs; eauto.
  - cbn [process_pre] in E. apply bind_ok in E as (l & s1 & E1 & E). apply ret_ok in E as [<- _]. simpl. constructor.
    apply construct_leafy in E1 as [_ L]. eapply leafy_wfs; eauto.
  - cbn [process_pre] in E. apply bind_ok in E as (l & s1 & E1 & E). apply ret_ok in E as [<- _]. simpl. constructor.
    apply construct_leafy in E1 as [_ L]. eapply leafy_wfs; eauto.
Qed.

Lemma vready_full s : forall v, vmatch s v -> vready v -> v = fverifier s.
Proof.
  induction s as [d|subs f IH|subs f ch IH|k f q|k f q con IH] using stmt_ind'; intros v V R; inversion V; subst; inversion R; subst; auto.
  - simpl. f_equal. clear V R. induction H2; auto. inversion IH; subst. inversion H0; subst. simpl. f_equal; auto.
  - simpl. f_equal. clear V R. induction H3; auto. inversion IH; subst. inversion H0; subst. simpl. f_equal; auto.
  - simpl. do 2 f_equal. auto.
Qed.

(** C20 *)
Lemma process_match s0 pre st v s st1 : process_pre s0 (get_verifier s0) pre st = Ok ((v, s), st1) -> vmatch s v.
Proof. intros H. apply (process_vmatch s0 _ _ _ _ _ (vmatch_get s0)) in H. exact H. Qed.

Lemma checked_scope e s r d : checked e s r [] d -> forall s' r', scope s r s' r' -> Rshape s' r' /\ one_response e s' r'.
Proof.
  intros (_ & RS & O & D) s' r' [[-> ->]|B].
  - split; auto. eapply one_of_dict; eauto.
  - apply D in B as (RS' & d' & O'). split; auto. eapply one_of_dict; eauto.
Qed.
Lemma accept_one e s v com c r b : vmatch s v -> verify_resp e s v com c r = Ok b ->
  forall s' r', scope s r s' r' -> one_response e s' r'.
Proof. intros V H s' r' B. apply verify_resp_inv in H as (_ & (d & H) & _); auto. now apply (checked_scope e s r d H). Qed.

Lemma clash_refused e s v com c r s' r' x y a b : vmatch s v -> vready v -> full_validate s = Ok tt -> Rshape s r ->
  scope s r s' r' -> Occ s' r' x a -> Occ s' r' y b -> same_secret e x y -> a <> b ->
  verify_resp e s v com c r = Err EValidation.
Proof.
  intros V R F RS B Ox Oy SS N. assert (v = fverifier s) by (apply vready_full; auto). subst v. unfold verify_resp, pre_validation. rewrite F. cbn [rbind].
  destruct (consistent_total e s r [] RS) as [[d|] C]; rewrite C; cbn [rbind]; auto. exfalso.
  apply consistent_sound in C; [|apply vmatch_full]. apply (checked_scope e s r d) in B as [_ O]; auto. apply N. eapply O; eauto.
Qed.

Lemma accept_one_nizk s0 z msg st b s st' : verify s0 z msg st = Ok ((b, s), st') ->
  forall s' r', scope s (n_resp z) s' r' -> one_response (env st') s' r'.
Proof.
  intros H s' r' B. unfold verify, verify_nizk in H. apply bind_ok in H as ([v s1] & st1 & E & H).
  assert (V : vmatch s1 v). { destruct (is_none (n_pre z)); [apply ret_ok in E as [E _]; injection E as <- <-; apply vmatch_get|].
    eapply process_match; eauto. }
  clear E. apply bind_ok in H as (h & st2 & E & H). apply lift_ok in E as [_ ->].
  apply bind_ok in H as (e & st2 & E & H). injection E as <- <-.
  apply bind_ok in H as (u & st2 & E & H). apply lift_ok in E as [P ->].
  apply bind_ok in H as (com & st2 & E & H). apply lift_ok in E as [_ ->].
  apply bind_ok in H as (c & st2 & E & H). apply lift_ok in E as [_ ->]. apply ret_ok in H as [H ->]. injection H as _ <-.
  unfold pre_validation in P. apply rbind_ok in P as (u' & F & P). apply rbind_ok in P as (o & C & P). destruct o as [d|]; [|discriminate].
  apply consistent_sound in C; auto. now apply (checked_scope _ _ _ _ C).
Qed.

Lemma Extr_const w q s : forall c c' r r', noor s -> orders_in (eq q) s -> Extr w s c c' r r' -> Extr (fun _ => w q) s c c' r r'.
Proof.
  induction s as [d|subs f IH|subs f ch IH|k f p|k f p con IH] using stmt_ind'; intros c c' r r' N O H; inversion H; inversion O; inversion N; subst.
  - constructor; auto.
  - constructor. intros i s Hi. match goal with K : forall i s, nth_error subs i = Some s -> _ |- _ => destruct (K i s Hi) as (ri & ri' & I & I' & E) end.
    exists ri, ri'. split; auto. split; auto. rewrite Forall_forall in *. assert (In s subs) by (eapply nth_error_In; eauto). apply IH; auto.
  - constructor. auto.
Qed.
End S.

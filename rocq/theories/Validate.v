(** What the two composition checks accept. *)
From Coq Require Import String.
From Verif Require Import Base World Val Expr Utils Stmt Prove Verify Spec Shapes Lib DictProofs Keeps Tree Sigma.
Open Scope Z_scope.
Open Scope list_scope.

Section V.
Context {W : World}.

Definition my_step (e : nat -> option Z) (d : dict (list nat)) (iw : nat * secret) :=
  match dget e d (snd iw) with
  | Some l => dset e d (snd iw) (l ++ [fst iw])
  | None => dset e d (snd iw) [fst iw]
  end.
Definition my_dict e (secs : list secret) : dict (list nat) :=
  fold_left (my_step e) (combine (seq 0 (List.length secs)) secs) [].

Lemma vgo_unfold e s : validate_group_orders e s =
  let? bases := get_bases s in
  let? secs := get_secret_vars s in
  let? _ := rmap (fun wl : secret * list nat =>
              let idx := snd wl in
              let? b0 := match nth_error bases (hd 0%nat idx) with
                         | Some b => Ok b | None => Err EIndexErr end in
              rmap (fun i => match nth_error bases i with
                             | Some b => if order (grp b) =? order (grp b0) then Ok tt
                                         else Err EGroupMismatch
                             | None => Err EIndexErr end) idx) (my_dict e secs) in
  Ok tt.
Proof. reflexivity. Qed.

(** invariant of the dictionary of occurrences *)
Definition my_inv e (secs : list secret) (n : nat) (d : dict (list nat)) : Prop :=
  (forall w l, In (w, l) d -> l <> [] /\
     forall i, In i l -> exists s, nth_error secs i = Some s /\ sec_eqb e w s = true) /\
  (forall i s, (i < n)%nat -> nth_error secs i = Some s -> exists l, dget e d s = Some l /\ In i l).

Lemma my_step_inv e secs n d s : nth_error secs n = Some s ->
  my_inv e secs n d -> my_inv e secs (S n) (my_step e d (n, s)).
Proof.
  intros N [I1 I2]. unfold my_step. cbn [fst snd].
  assert (G : forall l, (l = [n] \/ exists l0, dget e d s = Some l0 /\ l = l0 ++ [n]) ->
     (dget e d s = None -> l = [n]) -> (forall l0, dget e d s = Some l0 -> l = l0 ++ [n]) ->
     my_inv e secs (S n) (dset e d s l)).
  { intros l Hl Hn Hs. split.
    - intros w l' H. apply dset_in in H as [H|(-> & E & K)]; [now apply I1|].
      destruct Hl as [->|(l0 & D & ->)].
      + split; [discriminate|]. intros i [<-|[]]. exists s. auto.
      + split; [destruct l0; discriminate|]. intros i Hi. apply in_app_iff in Hi as [Hi|[<-|[]]].
        * apply dget_in in D as (k & Hk & Ek). destruct (I1 k l0 Hk) as [_ A].
          destruct (A i Hi) as (s' & N' & E'). exists s'. split; auto.
          eapply sec_eqb_trans; [exact E|]. eapply sec_eqb_trans; [|exact E'].
          now rewrite sec_eqb_sym.
        * exists s. auto.
    - intros i s' Hi N'. destruct (sec_eqb e s s') eqn:E.
      + exists l. split; [now apply dget_dset_same|].
        assert (i = n \/ i < n)%nat as [->|Hi'] by lia.
        * destruct Hl as [->|(l0 & _ & ->)]; [simpl; auto|]. apply in_app_iff. simpl. auto.
        * destruct (I2 i s' Hi' N') as (l0 & D & Hl0).
          rewrite <- (dget_cong e d s s' E) in D. rewrite (Hs _ D). apply in_app_iff. auto.
      + assert (i <> n) by (intros ->; assert (s = s') by congruence; subst; rewrite sec_eqb_refl in E; discriminate).
        destruct (I2 i s') as (l0 & D & Hl0); auto; [lia|].
        exists l0. split; auto. now rewrite dget_dset_other. }
  destruct (dget e d s) as [l0|] eqn:D.
  - apply G; eauto; [congruence|]. intros l1 X. congruence.
  - apply G; auto. discriminate.
Qed.

Lemma my_dict_inv e secs : my_inv e secs (List.length secs) (my_dict e secs).
Proof.
  unfold my_dict.
  assert (G : forall l n d pre, secs = pre ++ l -> List.length pre = n -> my_inv e secs n d ->
     my_inv e secs (n + List.length l) (fold_left (my_step e) (combine (seq n (List.length l)) l) d)).
  { induction l as [|s l IH]; intros n d pre Hs Hn Hi; simpl; [now rewrite Nat.add_0_r|].
    replace (n + S (List.length l))%nat with (S n + List.length l)%nat by lia.
    apply (IH (S n) _ (pre ++ [s])).
    - now rewrite <- app_assoc.
    - rewrite app_length. simpl. lia.
    - apply my_step_inv; auto. rewrite Hs, nth_error_app2, <- Hn, Nat.sub_diag by lia. auto. }
  apply (G secs 0%nat [] []); auto. split.
  - intros w l [].
  - intros; lia.
Qed.

(** occurrences of one secret live in groups of one order *)
Definition orders_agree e (ss : list secret) (bs : list pt) : Prop :=
  forall i j s t b c, nth_error ss i = Some s -> nth_error ss j = Some t ->
    nth_error bs i = Some b -> nth_error bs j = Some c -> sec_eqb e s t = true ->
    order (grp b) = order (grp c).

Lemma vgo_iff e s ss bs : get_secret_vars s = Ok ss -> get_bases s = Ok bs ->
  List.length ss = List.length bs ->
  (validate_group_orders e s = Ok tt <-> orders_agree e ss bs).
Proof.
  intros HS HB L. rewrite vgo_unfold, HS, HB. cbn [rbind].
  assert (I := my_dict_inv e ss). destruct I as [I1 I2].
  assert (NB : forall i, (i < List.length ss)%nat -> exists b, nth_error bs i = Some b).
  { intros i Hi. destruct (nth_error bs i) eqn:E; eauto. apply nth_error_None in E. lia. }
  split.
  - intros H i j s1 s2 b c Ni Nj Bi Bj E.
    assert (Li : (i < List.length ss)%nat) by (apply nth_error_Some; congruence).
    assert (Lj : (j < List.length ss)%nat) by (apply nth_error_Some; congruence).
    destruct (I2 i s1 Li Ni) as (l & D & Hi). destruct (I2 j s2 Lj Nj) as (l' & D' & Hj).
    rewrite (dget_cong e _ s1 s2 E) in D. assert (l' = l) by congruence. subst l'.
    apply dget_in in D as (w & Hw & _).
    minv H. apply rmap_ok in E0. clear H.
    assert (K : exists u, (let? b0 := match nth_error bs (hd 0%nat l) with
                         | Some b => Ok b | None => Err EIndexErr end in
              rmap (fun i => match nth_error bs i with
                             | Some b => if order (grp b) =? order (grp b0) then Ok tt
                                         else Err EGroupMismatch
                             | None => Err EIndexErr end) l) = Ok u).
    { clear -E0 Hw. induction E0; [destruct Hw|]. destruct Hw as [->|Hw]; eauto. }
    destruct K as (u & K). minv K. rename a0 into b0. apply rmap_ok in K.
    assert (F : forall i b, In i l -> nth_error bs i = Some b -> order (grp b) = order (grp b0)).
    { clear -K. induction K as [|i y l u X K IH]; intros i' b' H N; [destruct H|].
      destruct H as [<-|H]; eauto. rewrite N in X. destruct (order (grp b') =? order (grp b0)) eqn:Q; [|discriminate].
      now apply Z.eqb_eq. }
    rewrite (F i b), (F j c); auto.
  - intros H.
    replace (rmap _ (my_dict e ss)) with (@Ok (list (list unit)) (map (fun wl => map (fun _ => tt) (snd wl)) (my_dict e ss)));
      [reflexivity|]. symmetry. apply rmap_ok. rewrite Forall2_map_r.
    assert (G : forall d, incl d (my_dict e ss) -> Forall2 (fun (c a : secret * list nat) =>
      (let? b0 := match nth_error bs (hd 0%nat (snd c)) with
                  | Some b => Ok b | None => Err EIndexErr end in
       rmap (fun i => match nth_error bs i with
                      | Some b => if order (grp b) =? order (grp b0) then Ok tt
                                  else Err EGroupMismatch
                      | None => Err EIndexErr end) (snd c)) = Ok (map (fun _ => tt) (snd a))) d d).
    { induction d as [|[w l] d IH]; intros Hd; constructor; [|apply IH; intros x Hx; apply Hd; now right].
      cbn [snd]. destruct (I1 w l) as [Hne Hl]; [apply Hd; now left|].
      assert (In (hd 0%nat l) l) as Hh by (destruct l; [congruence|left; auto]).
      destruct (Hl _ Hh) as (s0 & N0 & E0).
      destruct (NB (hd 0%nat l)) as (b0 & B0); [apply nth_error_Some; congruence|].
      rewrite B0. cbn [rbind]. apply rmap_ok. rewrite Forall2_map_r.
      assert (Q : forall l', incl l' l -> Forall2 (fun i _ => match nth_error bs i with
                      | Some b => if order (grp b) =? order (grp b0) then Ok tt
                                  else Err EGroupMismatch
                      | None => Err EIndexErr end = Ok tt) l' l').
      { induction l' as [|i l' IHl]; intros Hi; constructor; [|apply IHl; intros x Hx; apply Hi; now right].
        destruct (Hl i) as (s1 & N1 & E1); [apply Hi; now left|].
        destruct (NB i) as (b1 & B1); [apply nth_error_Some; congruence|]. rewrite B1.
        rewrite (proj2 (Z.eqb_eq _ _)); auto.
        apply (H i (hd 0%nat l) s1 s0 b1 b0); auto.
        eapply sec_eqb_trans; [|exact E0]. now rewrite sec_eqb_sym. }
      apply Q, incl_refl. }
    apply G, incl_refl.
Qed.

(** order of the groups of each secret, in the scope of a conjunction *)
Inductive ordOK (ord : bytes -> Z) : stmt -> Prop :=
| OODL d : (forall s b, In (s, b) (combine (dl_secs d) (dl_bases d)) -> order (grp b) = ord (sname s)) ->
    ordOK ord (SDL d)
| OOAnd subs b : Forall (ordOK ord) subs -> ordOK ord (SAnd subs b)
| OOOr subs b c : ordOK ord (SOr subs b c)
| OOExt k b p con : ordOK ord con -> ordOK ord (SExt k b p (Some con)).

Definition pairs_ok (ord : bytes -> Z) ss bs :=
  forall (s : secret) (b : pt), In (s, b) (combine ss bs) -> order (grp b) = ord (sname s).

Lemma orders_agree_fun e ss bs : coh e ss -> orders_agree e ss bs -> exists ord, pairs_ok ord ss bs.
Proof.
  intros C H.
  exists (fun n => match find (fun sb => bytes_eqb (sname (fst sb)) n) (combine ss bs) with
                   | Some sb => order (grp (snd sb)) | None => 0 end).
  intros s b Hsb. destruct (find _ (combine ss bs)) as [[t c]|] eqn:F.
  - apply find_some in F as [Ht E]. apply bytes_eqb_eq in E. cbn [fst snd] in *.
    destruct (In_nth_error _ _ Hsb) as (i & Ni). destruct (In_nth_error _ _ Ht) as (j & Nj).
    assert (P : forall (l : list secret) (m : list pt) k x y, nth_error (combine l m) k = Some (x, y) ->
              nth_error l k = Some x /\ nth_error m k = Some y).
    { induction l as [|u l IH]; intros [|v m] [|k] x y N; simpl in *; try discriminate; auto.
      injection N as -> ->; auto. }
    apply P in Ni as [N1 N2]. apply P in Nj as [N3 N4].
    apply (H i j s t b c); auto. apply sec_eqb_iff. split; auto.
    apply C; auto; eapply nth_error_In; eauto.
  - exfalso. apply (find_none _ _ F) in Hsb. cbn [fst] in Hsb.
    assert (bytes_eqb (sname s) (sname s) = true) by now apply bytes_eqb_eq. congruence.
Qed.

Lemma combine_app {A B} (a : list A) (c : list B) b d : List.length a = List.length c ->
  combine (a ++ b) (c ++ d) = combine a c ++ combine b d.
Proof.
  revert c. induction a as [|x a IH]; intros [|y c] L; simpl in *; try discriminate; auto.
  f_equal. apply IH. congruence.
Qed.
Lemma pairs_ok_app ord a b c d : List.length a = List.length c ->
  pairs_ok ord (a ++ b) (c ++ d) -> pairs_ok ord a c /\ pairs_ok ord b d.
Proof.
  intros L H. unfold pairs_ok in *. rewrite combine_app in H by auto.
  split; intros s p Hs; apply H, in_app_iff; auto.
Qed.

Lemma pairs_ordOK ord s : wfs s -> built s -> forall bs, get_bases s = Ok bs ->
  pairs_ok ord (svars s) bs -> ordOK ord s.
Proof.
  induction s as [d|subs b IH|subs b ch IH|k b q|k b q con IH] using stmt_ind'; intros HW HB bs E H;
    inversion HW; inversion HB; subst; simpl in *.
  - injection E as <-. constructor. exact H.
  - minvs. apply rmap_ok in E0. constructor. clear HW HB.
    match goal with X : Forall wfs subs |- _ => rename X into F1 end.
    match goal with X : Forall built subs |- _ => rename X into F2 end.
    induction E0 as [|x y l m X E0 IHE]; constructor;
      inversion IH as [|? ? P1 Q1]; inversion F1 as [|? ? P2 Q2]; inversion F2 as [|? ? P3 Q3]; subst; simpl in H.
    + eapply P1; eauto. eapply pairs_ok_app in H as [H _]; eauto. apply get_bases_length; auto.
    + apply IHE; auto. eapply pairs_ok_app in H as [_ H]; eauto. apply get_bases_length; auto.
  - constructor.
  - constructor. eauto.
Qed.

Lemma vgo_ordOK e s : wfs s -> built s -> coh e (svars s) -> validate_group_orders e s = Ok tt ->
  exists ord, ordOK ord s.
Proof.
  intros HW HB C H. destruct (built_bases s HB) as (bs & Eb).
  assert (Es := built_svars s HB). assert (L := get_bases_length s HW bs Eb).
  apply (vgo_iff e s _ bs Es Eb L) in H.
  destruct (orders_agree_fun e _ _ C H) as (ord & Ho). exists ord.
  eapply pairs_ordOK; eauto.
Qed.
End V.

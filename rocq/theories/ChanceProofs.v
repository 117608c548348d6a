(** Distributions are the same only if as many random numbers lead to an event. *)
From Coq Require Import Permutation Znumtheory Lia.
From Verif Require Import Base World Val Expr Utils Stmt Prove Verify Spec Distrib TreeZk Oracle Forking OracleZk Chance.
Open Scope Z_scope.
Open Scope list_scope.

Lemma box_in n q l : In l (box n q) <-> List.length l = n /\ forall j, (j < n)%nat -> 0 <= nth j l 0 < q j.
Proof.
  revert l. induction n as [|n IH]; intros l; cbn [box].
  - split; [intros [<-|[]]; split; [reflexivity|intros; lia]|]. intros [H _]. destruct l; [now left|discriminate].
  - rewrite in_flat_map. split.
    + intros (l0 & H0 & H). apply in_map_iff in H as (v & <- & Hv). apply in_seq in Hv. apply IH in H0 as [L H0]. split; [rewrite app_length; simpl; lia|].
      intros j Hj. destruct (Nat.lt_ge_cases j n).
      * rewrite app_nth1 by lia. auto.
      * rewrite app_nth2 by lia. replace (j - List.length l0)%nat with 0%nat by lia. cbn [nth]. replace j with n by lia. lia.
    + intros [L H]. destruct (exists_last (l := l)) as (l0 & v & ->); [intros ->; discriminate|]. rewrite app_length in L. simpl in L.
      exists l0. split.
      * apply IH. split; [lia|]. intros j Hj. specialize (H j ltac:(lia)). rewrite app_nth1 in H by lia. exact H.
      * specialize (H n ltac:(lia)). rewrite app_nth2 in H by lia. replace (n - List.length l0)%nat with 0%nat in H by lia. cbn [nth] in H.
        apply in_map_iff. exists (Z.to_nat v). split; [now rewrite Z2Nat.id by lia|]. apply in_seq. lia.
Qed.
Lemma nodup_app {A} (l m : list A) : NoDup l -> NoDup m -> (forall x, In x l -> ~ In x m) -> NoDup (l ++ m).
Proof.
  induction 1; intros Hm D; simpl; auto. constructor.
  - rewrite in_app_iff. intros [X|X]; [auto|]. apply (D x); simpl; auto.
  - apply IHNoDup; auto. intros y Hy. apply D. simpl; auto.
Qed.
Lemma nodup_map_on {A B} (f : A -> B) l : (forall x y, In x l -> In y l -> f x = f y -> x = y) -> NoDup l -> NoDup (map f l).
Proof.
  intros I H. induction H as [|x l NI ND IH]; cbn [map]; constructor.
  - intros X. apply in_map_iff in X as (y & E & Hy). apply NI. rewrite (I x y); simpl; auto.
  - apply IH. intros; apply I; simpl; auto.
Qed.
Lemma box_nodup n q : NoDup (box n q).
Proof.
  induction n as [|n IH]; cbn [box]; [repeat constructor; simpl; tauto|]. induction IH as [|l ls NI ND IHl]; [constructor|]. cbn [flat_map]. apply nodup_app; auto.
  - assert (G : forall k a, NoDup (map (fun v => l ++ [Z.of_nat v]) (seq a k))).
    { induction k as [|k IHk]; intros a; [constructor|]. cbn [seq map]. constructor; [|apply IHk]. intros H. apply in_map_iff in H as (v & E & Hv).
      apply app_inv_head in E. injection E as E. apply in_seq in Hv. lia. }
    apply G.
  - intros x Hx Hy. apply in_map_iff in Hx as (v & <- & _). apply in_flat_map in Hy as (l' & Hl' & Hy). apply in_map_iff in Hy as (v' & E & _).
    apply app_inj_tail in E as [<- _]. contradiction.
Qed.
Lemma count_perm {A} (f : A -> bool) l l' : Permutation l l' -> count f l = count f l'.
Proof.
  unfold count, len. induction 1; cbn [filter]; auto.
  - destruct (f x); cbn [List.length]; lia.
  - destruct (f x), (f y); reflexivity.
  - congruence.
Qed.
Lemma count_map' {A B} (f : B -> bool) (g : A -> B) l : count f (map g l) = count (fun x => f (g x)) l.
Proof. unfold count, len. induction l as [|x l IH]; [reflexivity|]. cbn [map filter]. destruct (f (g x)); cbn [List.length]; lia. Qed.
Lemma count_ext' {A} (f g : A -> bool) l : (forall x, In x l -> f x = g x) -> count f l = count g l.
Proof. intros H. unfold count. f_equal. now apply filter_ext_in. Qed.

Section B.
Context (n : nat) (q : nat -> Z).
Notation ok l := (List.length l = n /\ forall j, (j < n)%nat -> 0 <= nth j l 0 < q j).
Lemma box_congr l l' : ok l -> ok l' -> congr n q (vec l) (vec l') -> l = l'.
Proof.
  intros [L H] [L' H'] C. apply (nth_ext l l' 0 0); [congruence|]. intros j Hj. specialize (C j ltac:(lia)). specialize (H j ltac:(lia)). specialize (H' j ltac:(lia)).
  unfold vec in C. destruct C as [k C]. assert (k = 0) by nia. lia.
Qed.
(** the sequence in the box *)
Definition red (t : nat -> Z) : list Z := map (fun j => t j mod q j) (seq 0 n).
Lemma red_nth t j : (j < n)%nat -> nth j (red t) 0 = t j mod q j.
Proof.
  intros H. unfold red. rewrite (nth_indep _ 0 (t 0%nat mod q 0%nat)) by now rewrite map_length, seq_length.
  rewrite (map_nth (fun j => t j mod q j)). now rewrite seq_nth.
Qed.
Context (Qp : forall j, (j < n)%nat -> 1 < q j).
Lemma red_ok t : ok (red t).
Proof. split; [unfold red; now rewrite map_length, seq_length|]. intros j Hj. rewrite red_nth by auto. apply Z.mod_pos_bound. specialize (Qp j Hj). lia. Qed.
Lemma red_congr t : congr n q (vec (red t)) t.
Proof.
  intros j Hj. unfold vec. rewrite red_nth by auto. exists (- (t j / q j)). specialize (Qp j Hj).
  assert (X := Z.div_mod (t j) (q j) ltac:(lia)). lia.
Qed.
Lemma congr_t t t' t'' : congr n q t t' -> congr n q t' t'' -> congr n q t t''.
Proof. intros A B j Hj. replace (t j - t'' j) with ((t j - t' j) + (t' j - t'' j)) by lia. apply Z.divide_add_r; auto. Qed.
Lemma congr_s t t' : congr n q t t' -> congr n q t' t.
Proof. intros A j Hj. replace (t' j - t j) with (- (t j - t' j)) by lia. apply Z.divide_opp_r. auto. Qed.
Lemma box_move to : (forall t t', congr n q (to t) (to t') -> congr n q t t') ->
  Permutation (map (fun l => red (to (vec l))) (box n q)) (box n q).
Proof.
  intros I. apply NoDup_Permutation_bis.
  - apply nodup_map_on; [|apply box_nodup]. intros l l' Hl Hl' E. apply box_in in Hl, Hl'. apply box_congr; auto. apply I.
    eapply congr_t; [apply congr_s, red_congr|]. rewrite E. apply red_congr.
  - rewrite map_length. lia.
  - intros l Hl. apply in_map_iff in Hl as (l' & <- & Hl'). apply box_in, red_ok.
Qed.
Lemma chances_move {A} (E : A -> bool) g to : (forall t t', congr n q (to t) (to t') -> congr n q t t') -> (forall t t', congr n q t t' -> g t = g t') ->
  chances n q E (fun t => g (to t)) = chances n q E g.
Proof.
  intros I G. unfold chances. rewrite <- (count_perm (fun l => E (g (vec l))) _ _ (box_move to I)), count_map'. apply count_ext'. intros l _. f_equal. apply G, congr_s, red_congr.
Qed.
End B.

Theorem same_chances {A} (f g : (nat -> Z) -> A) : same_distribution f g -> exists n q, (forall j, (j < n)%nat -> 1 < q j) /\
  (forall t t', congr n q t t' -> f t = f t' /\ g t = g t') /\ forall E, chances n q E f = chances n q E g.
Proof.
  intros (n & q & to & of & H1 & H2 & H3 & H4 & H5 & H6 & H7 & H8). exists n, q. split; [exact H1|]. split; [auto|]. intros E.
  rewrite <- (chances_move n q H1 E g to); auto.
  - unfold chances. apply count_ext'. intros l _. now rewrite H8.
  - intros t t' C. apply H5 in C. eapply congr_t; [apply congr_s, H6|]. eapply congr_t; [exact C|apply H6].
Qed.

Lemma count_or {A} (f g h : A -> bool) l : (forall x, In x l -> f x = true -> g x = true \/ h x = true) -> count f l <= count g l + count h l.
Proof.
  unfold count, len. induction l as [|x l IH]; intros H; [reflexivity|]. specialize (IH ltac:(intros; apply H; simpl; auto)). specialize (H x ltac:(now left)). cbn [filter].
  destruct (f x); [destruct H as [-> | ->]; auto|]; destruct (g x), (h x); cbn [List.length]; lia.
Qed.
(** double counting *)
Lemma count_swap {A B} (f : A -> B -> bool) l m k : (forall x, In x l -> count (f x) m <= k) ->
  fold_right Z.add 0 (map (fun y => count (fun x => f x y) l) m) <= k * len l.
Proof.
  induction l as [|x l IH]; intros H.
  - clear H. unfold count, len. cbn. induction m as [|y m IHm]; cbn [map fold_right]; lia.
  - specialize (IH ltac:(intros; apply H; simpl; auto)). assert (Hx := H x ltac:(now left)).
    assert (E : fold_right Z.add 0 (map (fun y => count (fun x => f x y) (x :: l)) m) = count (f x) m + fold_right Z.add 0 (map (fun y => count (fun x => f x y) l) m)).
    { clear. unfold count, len. induction m as [|y m IHm]; [reflexivity|]. cbn [map fold_right]. rewrite IHm. cbn [filter]. destruct (f x y); cbn [List.length]; lia. }
    rewrite E. unfold len in *. cbn [List.length]. lia.
Qed.

Lemma until_at_chances {A} n q (k Q : Z) (f g : (nat -> Z) -> A) bad : until_at n q k Q f g bad -> (forall j, (j < n)%nat -> 1 < q j) /\
  (forall t t', congr n q t t' -> f t = f t' /\ g t = g t') /\
  forall E, Q * Z.abs (chances n q E f - chances n q E g) <= k * len (box n q).
Proof.
  intros (to & of & (H1 & H4 & H5 & H6 & H7) & H2 & H3 & HB & H8 & j & Hj & Eq & H9). split; [exact H1|]. split; [auto|]. intros E.
  assert (IT : forall t t', congr n q (to t) (to t') -> congr n q t t').
  { intros t t' C. apply H5 in C. eapply congr_t; [apply congr_s, H6|]. eapply congr_t; [exact C|apply H6]. }
  assert (BD : Q * chances n q (fun b : bool => b) bad <= k * len (box n q)).
  { set (mv (s : Z) (t : nat -> Z) := put t j (t j + s)).
    set (ss := map Z.of_nat (seq 0 (Z.to_nat Q))).
    assert (QP : 1 < Q) by (rewrite <- Eq; auto).
    assert (MV : forall s, chances n q (fun b : bool => b) (fun t => bad (mv s t)) = chances n q (fun b : bool => b) bad).
    { intros s. apply chances_move; auto. intros t t' C i Hi. specialize (C i Hi). unfold mv, put in C. destruct (Nat.eqb_spec i j) as [EJ|]; [subst i|]; auto.
      replace (t j - t' j) with (t j + s - (t' j + s)) by lia. exact C. }
    assert (CS := count_swap (fun l s => bad (mv s (vec l))) (box n q) ss k).
    assert (LE : fold_right Z.add 0 (map (fun y => count (fun x => bad (mv y (vec x))) (box n q)) ss) = Q * chances n q (fun b : bool => b) bad).
    { replace Q with (len ss) by (unfold ss, len; rewrite map_length, seq_length; lia). clear CS. induction ss as [|s l IH]; [reflexivity|]. cbn [map fold_right]. rewrite IH.
      change (count (fun x => bad (mv s (vec x))) (box n q)) with (chances n q (fun b : bool => b) (fun t => bad (mv s t))). rewrite MV. unfold len. cbn [List.length]. lia. }
    cbv beta in CS. rewrite LE in CS. apply CS. intros l _.
    replace (count (fun s => bad (mv s (vec l))) ss) with (count (fun v => bad (put (vec l) j v)) (map (fun s => (vec l j + s) mod Q) ss)).
    2:{ rewrite count_map'. apply count_ext'. intros s _. apply HB. intros i Hi. unfold mv, put. destruct (Nat.eqb_spec i j) as [->|]; [|rewrite Z.sub_diag; apply Z.divide_0_r].
        rewrite Eq. exists (- ((vec l j + s) / Q)). assert (X := Z.div_mod (vec l j + s) Q ltac:(lia)). lia. }
    apply H9.
    - apply nodup_map_on.
      + intros a b Ha Hb X. apply in_map_iff in Ha as (a' & <- & Ha). apply in_map_iff in Hb as (b' & <- & Hb). apply in_seq in Ha, Hb.
        assert (X1 := Z.div_mod (vec l j + Z.of_nat a') Q ltac:(lia)). assert (X2 := Z.div_mod (vec l j + Z.of_nat b') Q ltac:(lia)).
        assert ((vec l j + Z.of_nat a') / Q - (vec l j + Z.of_nat b') / Q = 0) by nia. nia.
      + unfold ss. apply nodup_map_on; [intros; lia|apply seq_NoDup].
    - intros v Hv. apply in_map_iff in Hv as (s & <- & _). apply Z.mod_pos_bound. lia. }
  assert (C1 : chances n q E f <= chances n q E g + chances n q (fun b : bool => b) bad).
  { rewrite <- (chances_move n q H1 E g to IT H3), <- (chances_move n q H1 (fun b : bool => b) bad to IT HB). unfold chances. apply count_or. intros l _ X.
    destruct (bad (to (vec l))) eqn:B; [now right|left]. rewrite <- (H8 (vec l) B). exact X. }
  assert (C2 : chances n q E g <= chances n q E f + chances n q (fun b : bool => b) bad).
  { rewrite <- (chances_move n q H1 E g to IT H3), <- (chances_move n q H1 (fun b : bool => b) bad to IT HB). unfold chances. apply count_or. intros l _ X.
    destruct (bad (to (vec l))) eqn:B; [now right|left]. rewrite (H8 (vec l) B). exact X. }
  assert (1 < Q) by (rewrite <- Eq; auto). nia.
Qed.
Theorem until_chances {A} (k Q : Z) (f g : (nat -> Z) -> A) bad : until k Q f g bad -> exists n q, (forall j, (j < n)%nat -> 1 < q j) /\
  (forall t t', congr n q t t' -> f t = f t' /\ g t = g t') /\
  forall E, Q * Z.abs (chances n q E f - chances n q E g) <= k * len (box n q).
Proof. intros (n & q & H). exists n, q. exact (until_at_chances n q k Q f g bad H). Qed.

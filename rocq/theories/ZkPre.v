(** Whole conversations of conjunctions with inequalities and signatures: the honest ones are those of the simulator. *)
From Coq Require Import String Znumtheory.
From Verif Require Import Base World Val Expr Utils Stmt Prove Verify Spec Claims Shapes Honest Clauses Supply Extract Runs Views Distrib
  Lib DictProofs Keeps Tree ArithProofs Sigma Validate Commit Build Process Lin Ktruth Provers Complete Compose Total Total2 Total3 Total4
  Frame SimIndep Sound Sound2 Sound3 ZkTree.
Open Scope Z_scope.
Open Scope list_scope.

(** * Bijections of random numbers *)
Definition shift (a : nat) (t : nat -> Z) : nat -> Z := fun i => t (a + i)%nat.
Definition bij (n : nat) (q : nat -> Z) (to of : (nat -> Z) -> nat -> Z) : Prop :=
  (forall j, (j < n)%nat -> 1 < q j) /\
  (forall t t', congr n q t t' -> congr n q (to t) (to t')) /\
  (forall t t', congr n q t t' -> congr n q (of t) (of t')) /\
  (forall t, congr n q (of (to t)) t) /\ (forall t, congr n q (to (of t)) t).
Definition qapp (n : nat) (q q' : nat -> Z) : nat -> Z := fun j => if (j <? n)%nat then q j else q' (j - n)%nat.
Definition tapp (n : nat) (to to' : (nat -> Z) -> nat -> Z) : (nat -> Z) -> nat -> Z :=
  fun t j => if (j <? n)%nat then to t j else to' (shift n t) (j - n)%nat.

Lemma congr_refl n q t : congr n q t t.
Proof. intros j _. rewrite Z.sub_diag. apply Z.divide_0_r. Qed.
Lemma congr_sym n q t t' : congr n q t t' -> congr n q t' t.
Proof. intros H j Hj. replace (t' j - t j) with (- (t j - t' j)) by ring. apply Z.divide_opp_r. now apply H. Qed.
Lemma congr_trans n q t t' t'' : congr n q t t' -> congr n q t' t'' -> congr n q t t''.
Proof. intros H H' j Hj. replace (t j - t'' j) with ((t j - t' j) + (t' j - t'' j)) by ring. apply Z.divide_add_r; auto. Qed.
Lemma congr_app n q m q' t t' :
  congr (n + m) (qapp n q q') t t' <-> congr n q t t' /\ congr m q' (shift n t) (shift n t').
Proof.
  unfold congr, qapp, shift. split.
  - intros H. split; intros j Hj.
    + specialize (H j ltac:(lia)). destruct (Nat.ltb_spec j n); [auto|lia].
    + specialize (H (n + j)%nat ltac:(lia)). destruct (Nat.ltb_spec (n + j) n); [lia|].
      now replace (n + j - n)%nat with j in H by lia.
  - intros [H1 H2] j Hj. destruct (Nat.ltb_spec j n); [auto|].
    specialize (H2 (j - n)%nat ltac:(lia)). now replace (n + (j - n))%nat with j in H2 by lia.
Qed.
Lemma congr_ext n q t t' u u' : (forall j, (j < n)%nat -> t j = u j) -> (forall j, (j < n)%nat -> t' j = u' j) ->
  congr n q t t' -> congr n q u u'.
Proof. intros E E' H j Hj. rewrite <- E, <- E' by auto. auto. Qed.
Lemma tapp_l n to to' t j : (j < n)%nat -> tapp n to to' t j = to t j.
Proof. intros H. unfold tapp. destruct (Nat.ltb_spec j n); [auto|lia]. Qed.
Lemma tapp_r n to to' t j : shift n (tapp n to to' t) j = to' (shift n t) j.
Proof. unfold tapp, shift. destruct (Nat.ltb_spec (n + j) n); [lia|]. now replace (n + j - n)%nat with j by lia. Qed.
Lemma congr_tapp n q m q' to to' t u : congr (n + m) (qapp n q q') u (tapp n to to' t) <->
  congr n q u (to t) /\ congr m q' (shift n u) (to' (shift n t)).
Proof.
  rewrite congr_app. split; intros [H1 H2]; split.
  - eapply congr_ext; [| |exact H1]; intros; [reflexivity|now apply tapp_l].
  - eapply congr_ext; [| |exact H2]; intros; [reflexivity|apply tapp_r].
  - eapply congr_ext; [| |exact H1]; intros; [reflexivity|symmetry; now apply tapp_l].
  - eapply congr_ext; [| |exact H2]; intros; [reflexivity|symmetry; apply tapp_r].
Qed.

Lemma qapp_pos n q m q' : (forall j, (j < n)%nat -> 1 < q j) -> (forall j, (j < m)%nat -> 1 < q' j) ->
  forall j, (j < n + m)%nat -> 1 < qapp n q q' j.
Proof. intros H H' j Hj. unfold qapp. destruct (Nat.ltb_spec j n); [auto|]. apply H'. lia. Qed.
Lemma bij_app n q to of m q' to' of' : bij n q to of -> bij m q' to' of' ->
  bij (n + m) (qapp n q q') (tapp n to to') (tapp n of of').
Proof.
  intros (A1 & A2 & A3 & A4 & A5) (B1 & B2 & B3 & B4 & B5). split; [now apply qapp_pos|].
  assert (E : forall F F' : (nat -> Z) -> nat -> Z, (forall t t', congr n q t t' -> congr n q (F t) (F t')) ->
    (forall t t', congr m q' t t' -> congr m q' (F' t) (F' t')) ->
    forall t t', congr (n + m) (qapp n q q') t t' -> congr (n + m) (qapp n q q') (tapp n F F' t) (tapp n F F' t')).
  { intros F F' H H' t t' C. apply congr_app in C as [C1 C2]. apply congr_tapp. split.
    - eapply congr_ext; [| |apply (H _ _ C1)]; intros; [symmetry; now apply tapp_l|reflexivity].
    - eapply congr_ext; [| |apply (H' _ _ C2)]; intros; [symmetry; apply tapp_r|reflexivity]. }
  assert (I : forall F F' G G' : (nat -> Z) -> nat -> Z, (forall t t', congr n q t t' -> congr n q (F t) (F t')) ->
    (forall t t', congr m q' t t' -> congr m q' (F' t) (F' t')) ->
    (forall t, congr n q (F (G t)) t) -> (forall t, congr m q' (F' (G' t)) t) ->
    forall t, congr (n + m) (qapp n q q') (tapp n F F' (tapp n G G' t)) t).
  { intros F F' G G' H H' K K' t. apply congr_sym, congr_tapp. split; apply congr_sym.
    - eapply congr_trans; [apply H|apply K]. intros j Hj. rewrite tapp_l by auto. apply congr_refl with (n := n); auto.
    - eapply congr_trans; [apply H'|apply K']. intros j Hj. rewrite tapp_r. apply congr_refl with (n := m); auto. }
  split; [|split; [|split]]; auto.
Qed.
Lemma bij_nil q : bij 0 q (fun t => t) (fun t => t).
Proof. repeat split; intros; intros j Hj || idtac; lia. Qed.

(** a second block that is moved by an amount depending on the first *)
Definition tmove (n : nat) (to : (nat -> Z) -> nat -> Z) (f : (nat -> Z) -> nat -> Z) : (nat -> Z) -> nat -> Z :=
  fun t j => if (j <? n)%nat then to t j else t j + f t (j - n)%nat.
Lemma bij_move n q to of m q' f : bij n q to of -> (forall j, (j < m)%nat -> 1 < q' j) ->
  (forall t t', congr n q t t' -> forall j, (j < m)%nat -> f t j = f t' j) ->
  bij (n + m) (qapp n q q') (tmove n to f) (tmove n of (fun u j => - f (of u) j)).
Proof.
  intros (A1 & A2 & A3 & A4 & A5) B F. split; [now apply qapp_pos|].
  assert (L : forall F g t j, (j < n)%nat -> tmove n F g t j = F t j).
  { intros F0 g t j Hj. unfold tmove. destruct (Nat.ltb_spec j n); [auto|lia]. }
  assert (R : forall F g t j, shift n (tmove n F g t) j = shift n t j + g t j).
  { intros F0 g t j. unfold tmove, shift. destruct (Nat.ltb_spec (n + j) n); [lia|]. now replace (n + j - n)%nat with j by lia. }
  assert (C : forall u v, congr (n + m) (qapp n q q') u v <-> congr n q u v /\ congr m q' (shift n u) (shift n v)) by (intros; apply congr_app).
  split; [|split; [|split]]; intros.
  - apply C in H as [H1 H2]. apply C. split.
    + eapply congr_ext; [| |apply (A2 _ _ H1)]; intros; symmetry; now apply L.
    + intros j Hj. rewrite !R, (F _ _ H1) by auto. replace (_ - _) with (shift n t j - shift n t' j) by ring. auto.
  - apply C in H as [H1 H2]. apply C. split.
    + eapply congr_ext; [| |apply (A3 _ _ H1)]; intros; symmetry; now apply L.
    + intros j Hj. rewrite !R, (F _ _ (A3 _ _ H1)) by auto. replace (_ - _) with (shift n t j - shift n t' j) by ring. auto.
  - apply C. split.
    + eapply congr_ext; [intros; symmetry; now apply L|reflexivity|]. eapply congr_trans; [apply A3|apply A4].
      intros j Hj. rewrite L by auto. apply congr_refl with (n := n); auto.
    + intros j Hj. rewrite !R. rewrite (F (of (tmove n to f t)) t); auto.
      * replace (_ - _) with 0 by ring. apply Z.divide_0_r.
      * eapply congr_trans; [apply A3|apply A4]. intros i Hi. rewrite L by auto. apply congr_refl with (n := n); auto.
  - apply C. split.
    + eapply congr_ext; [intros; symmetry; now apply L|reflexivity|]. eapply congr_trans; [apply A2|apply A5].
      intros j Hj. rewrite L by auto. apply congr_refl with (n := n); auto.
    + intros j Hj. rewrite !R. rewrite (F (tmove n of (fun u j => - f (of u) j) t) (of t)); auto.
      * replace (_ - _) with 0 by ring. apply Z.divide_0_r.
      * intros i Hi. rewrite L by auto. apply congr_refl with (n := n); auto.
Qed.

Lemma prime_inv q k : prime q -> ~ (q | k) -> exists i, (q | k * i - 1).
Proof.
  intros P N. destruct (rel_prime_bezout q k) as [u v E]; [now apply prime_rel_prime|].
  exists v. exists (- u). lia.
Qed.

Section Z.
Context {W : World}.

Lemma gen_eq g j k : (order g | j - k) -> pmul j (gen g) = pmul k (gen g).
Proof.
  intros H. apply mul_mod_eq. rewrite grp_gen. apply mod_eq_div; [pose proof (order_gt1 g); lia|auto].
Qed.
Lemma mod_eq q a b : 1 < q -> (q | a - b) -> a mod q = b mod q.
Proof.
  intros Q (k & E). replace a with (b + k * q) by lia. apply Z_mod_plus_full.
Qed.
Lemma mod_div_sub a q : 0 < q -> (q | a mod q - a).
Proof. intros Q. exists (- (a / q)). pose proof (Z.div_mod a q). lia. Qed.

Definition nd (k : kind) : nat := match k with KNeq _ _ _ _ _ _ _ _ => 1 | KBBS _ _ _ _ _ _ _ _ => 2 | _ => 0 end.
Definition qk (k : kind) : Z :=
  match k with KNeq _ g _ _ _ _ _ _ => order (grp g) | KBBS _ _ (b :: _) _ _ _ _ _ => order (grp b) | _ => 0 end.

Lemma kpre_bij w k : kshape k -> kreal w k -> blinded w k ->
  exists to of, bij (nd k) (fun _ => qk k) to of /\
  forall e t a u b, (forall x, In x (kuser k) -> e (sid x) = Some (w (sname x))) ->
    kdisj k ->
    congr (nd k) (fun _ => qk k) (shift b u) (to (shift a t)) ->
    exists pre e', (forall t', congr (nd k) (fun _ => qk k) (shift a t) (shift a t') ->
        kprecommit k (mkSt e t' a) = Ok (pre, mkSt e' t' (a + nd k))) /\ sent pre = pre /\ is_none pre = false /\
      forall e0, ksim_precommit k (mkSt e0 u b) = Ok (pre, mkSt e0 u (b + nd k)).
Proof.
  intros KS KR KB. destruct k as [H0 g H1 h x al be bnd|com g h n isp x r rs|pk sg bs sv r1 r2 d1 d2|cls rows]; try (destruct KB; fail).
  - destruct KS as (HS & G0 & G1 & Gh). destruct KB as (P & GN & NE). cbn [nd qk]. set (q := order (grp g)) in *.
    remember (padd (pmul (w (sname x)) h) (pneg H1)) as D eqn:DD.
    assert (GD : grp D = grp g) by (rewrite DD, grp_add; rewrite grp_mul, ?grp_neg; congruence).
    destruct (GN D GD) as (kp & ED).
    assert (ND : ~ (q | kp)).
    { intros X. apply NE. assert (DI : D = inf (grp g)).
      { rewrite ED. rewrite (gen_eq _ kp 0) by (now rewrite Z.sub_0_r). rewrite mul_0. now rewrite grp_gen. }
      rewrite DD in DI. apply (add_cancel_r (pneg H1)).
      - now rewrite grp_neg.
      - rewrite grp_neg, grp_mul. congruence.
      - rewrite DI, add_neg_r. congruence. }
    destruct (prime_inv q kp P ND) as (ki & EI).
    exists (fun t j => t O * kp), (fun t j => t O * ki). split.
    + split; [intros; apply order_gt1|]. split; [|split; [|split]]; intros; intros j Hj.
      * specialize (H O ltac:(lia)). cbv beta in H |- *. replace (_ - _) with ((t O - t' O) * kp) by ring. now apply Z.divide_mul_l.
      * specialize (H O ltac:(lia)). cbv beta in H |- *. replace (_ - _) with ((t O - t' O) * ki) by ring. now apply Z.divide_mul_l.
      * replace j with O by lia. replace (_ - _) with (t O * (kp * ki - 1)) by ring. now apply Z.divide_mul_r.
      * replace j with O by lia. replace (_ - _) with (t O * (kp * ki - 1)) by ring. now apply Z.divide_mul_r.
    + intros e t a u b V DJ C. specialize (C O ltac:(lia)). cbv beta in C. unfold shift in C. rewrite !Nat.add_0_r in C.
      assert (V' := V x (or_introl eq_refl)). destruct DJ as [DJ1 DJ2].
      assert (X1 : sid al <> sid x) by (apply DJ2; simpl; auto). assert (X2 : sid be <> sid x) by (apply DJ2; simpl; auto).
      eexists; eexists. split; [|split; [|split]].
      * intros t' C'. specialize (C' O ltac:(lia)). cbv beta in C'. unfold shift in C'. rewrite !Nat.add_0_r in C'.
        assert (EM : t' a mod q = t a mod q).
        { apply mod_eq; [apply order_gt1|]. apply Z.divide_opp_r in C'. replace (t' a - t a) with (- (t a - t' a)) by ring. auto. }
        cbn [kprecommit]. cbv zeta. unfold bind at 1, draw. cbn [tape pos env]. fold q. rewrite EM. unfold bind at 1, value_of. unfold bind at 1, get_env. cbn [env].
        rewrite V'. unfold ret at 1. unfold bind at 1, set_value. cbn [env tape pos]. unfold bind at 1. cbn [env tape pos].
        unfold bind at 1. unfold bind at 1. cbn [env tape pos]. rewrite upd_other by congruence. rewrite upd_other by congruence. rewrite V'.
        unfold ret at 1. rewrite psub_chk_eq by (rewrite grp_mul; congruence).
        rewrite padd_chk_same by (rewrite grp_mul, grp_neg; congruence). rewrite bind_lift_ok. unfold ret. rewrite <- DD.
        rewrite Nat.add_1_r. reflexivity.
      * reflexivity.
      * reflexivity.
      * intros e0. cbn [ksim_precommit]. unfold bind, draw, ret. cbn [tape pos env]. fold q. do 3 f_equal.
        -- rewrite ED, mul_mul. apply gen_eq. fold q.
           assert (Q : 0 < q) by (pose proof (order_gt1 (grp g)); unfold q; lia).
           replace (u b mod q - t a mod q * kp) with ((u b mod q - u b) + (u b - t a * kp) - (t a mod q - t a) * kp) by ring.
           apply Z.divide_sub_r; [apply Z.divide_add_r; [now apply mod_div_sub|auto]|].
           apply Z.divide_mul_l. now apply mod_div_sub.
        -- lia.
  - destruct KS as (I1 & I2 & IT & m & PR & IG & GW & GH & GP & LM & EB & LS & GA).
    cbn [kreal] in KR. destruct sg as [sg|]; [|congruence].
    destruct bs as [|b0 [|b1 [|b2 bs]]]; try (destruct KB; fail). destruct KB as (P & GN & NE). cbn [nd qk]. set (q := order (grp b0)) in *.
    assert (BI : forall p, In p (b0 :: b1 :: b2 :: bs) -> grp p = I1).
    { intros p Hp. rewrite EB in Hp. unfold in_group in IG. rewrite Forall_forall in IG. apply IG.
      rewrite <- (firstn_skipn m). apply in_app_iff. now left. }
    assert (B0 : grp b0 = I1) by (apply BI; simpl; auto).
    assert (B1 : grp b1 = grp b0) by (rewrite B0; apply BI; simpl; auto).
    assert (B2 : grp b2 = grp b0) by (rewrite B0; apply BI; simpl; auto).
    assert (BA : grp (sig_A sg) = grp b0) by (rewrite B0; now apply GA).
    destruct (GN b1 B1) as (k1 & E1). destruct (GN b2 B2) as (k2 & E2). destruct (GN _ BA) as (ka & Ea).
    assert (ND : ~ (q | k2)).
    { intros X. apply NE. rewrite E2. rewrite (gen_eq _ k2 0) by (now rewrite Z.sub_0_r). rewrite mul_0. now rewrite grp_gen. }
    destruct (prime_inv q k2 P ND) as (ki & EI).
    exists (fun t j => match j with O => t 0%nat * k1 + t 1%nat * k2 | _ => t 0%nat * k2 + ka end),
           (fun u j => match j with O => (u 1%nat - ka) * ki | _ => (u 0%nat - (u 1%nat - ka) * ki * k1) * ki end). split.
    + assert (TWO : forall j, (j < 2)%nat -> j = 0%nat \/ j = 1%nat) by (intros; lia).
      split; [intros; apply order_gt1|]. split; [|split; [|split]]; intros; intros j Hj.
      * pose proof (H 0%nat ltac:(lia)) as X0. pose proof (H 1%nat ltac:(lia)) as X1. cbv beta in X0, X1.
        destruct (TWO j Hj) as [-> | ->]; cbv beta iota.
        -- replace (_ - _) with ((t 0%nat - t' 0%nat) * k1 + (t 1%nat - t' 1%nat) * k2) by ring.
           apply Z.divide_add_r; now apply Z.divide_mul_l.
        -- replace (_ - _) with ((t 0%nat - t' 0%nat) * k2) by ring. now apply Z.divide_mul_l.
      * pose proof (H 0%nat ltac:(lia)) as X0. pose proof (H 1%nat ltac:(lia)) as X1. cbv beta in X0, X1.
        destruct (TWO j Hj) as [-> | ->]; cbv beta iota.
        -- replace (_ - _) with ((t 1%nat - t' 1%nat) * ki) by ring. now apply Z.divide_mul_l.
        -- replace (_ - _) with ((t 0%nat - t' 0%nat) * ki - (t 1%nat - t' 1%nat) * (ki * k1 * ki)) by ring.
           apply Z.divide_sub_r; now apply Z.divide_mul_l.
      * destruct (TWO j Hj) as [-> | ->]; cbv beta iota.
        -- replace (_ - _) with (t 0%nat * (k2 * ki - 1)) by ring. now apply Z.divide_mul_r.
        -- replace (_ - _) with ((t 1%nat - t 0%nat * k1 * ki) * (k2 * ki - 1)) by ring. now apply Z.divide_mul_r.
      * destruct (TWO j Hj) as [-> | ->]; cbv beta iota.
        -- replace (_ - _) with ((t 0%nat - (t 1%nat - ka) * ki * k1) * (k2 * ki - 1)) by ring. now apply Z.divide_mul_r.
        -- replace (_ - _) with ((t 1%nat - ka) * (k2 * ki - 1)) by ring. now apply Z.divide_mul_r.
    + intros e t a u b V DJ C. pose proof (C 0%nat ltac:(lia)) as C0. pose proof (C 1%nat ltac:(lia)) as C1. cbv beta iota in C0, C1.
      unfold shift in C0, C1. replace (a + 0)%nat with a in C0, C1 by lia. replace (b + 0)%nat with b in C0 by lia.
      replace (a + 1)%nat with (S a) in C0 by lia. replace (b + 1)%nat with (S b) in C1 by lia.
      assert (Q : 0 < q) by (pose proof (order_gt1 (grp b0)); unfold q; lia).
      eexists; eexists. split; [|split; [|split]].
      * intros t' C'. pose proof (C' 0%nat ltac:(lia)) as D0. pose proof (C' 1%nat ltac:(lia)) as D1. cbv beta in D0, D1. unfold shift in D0, D1.
        replace (a + 0)%nat with a in D0 by lia. replace (a + 1)%nat with (S a) in D1 by lia.
        assert (EM : t' a mod q = t a mod q).
        { apply mod_eq; [apply order_gt1|]. apply Z.divide_opp_r in D0. replace (t' a - t a) with (- (t a - t' a)) by ring. auto. }
        assert (EM1 : t' (S a) mod q = t (S a) mod q).
        { apply mod_eq; [apply order_gt1|]. apply Z.divide_opp_r in D1. replace (t' (S a) - t (S a)) with (- (t (S a) - t' (S a))) by ring. auto. }
        cbn [kprecommit]. cbv zeta. unfold bind at 1, draw. cbn [tape pos env]. fold q. rewrite EM. unfold bind at 1. cbn [tape pos env]. fold q. rewrite EM1.
        do 4 (unfold bind at 1; unfold set_value at 1; cbn [env tape pos]).
        rewrite padd_chk_same by (rewrite !grp_mul; congruence). rewrite bind_lift_ok.
        rewrite padd_chk_same by (rewrite !grp_mul; congruence). rewrite bind_lift_ok. unfold ret. fold q.
        rewrite (Nat.add_comm a 2). reflexivity.
      * reflexivity.
      * reflexivity.
      * intros e0. cbn [ksim_precommit]. unfold bind, draw, ret. cbn [tape pos env]. fold q. do 3 f_equal.
        -- do 2 f_equal; [f_equal|f_equal; f_equal]; f_equal.
           ++ rewrite E1, E2. rewrite !mul_mul, <- mul_add. apply gen_eq. fold q.
              match goal with |- (_ | ?A - ?B) => replace (A - B) with ((A - u b) + (u b - (t a * k1 + t (S a) * k2)) - (t a mod q - t a) * k1 - (t (S a) mod q - t (S a)) * k2) by ring end.
              apply Z.divide_sub_r; [apply Z.divide_sub_r; [apply Z.divide_add_r; [now apply mod_div_sub|exact C0]|]|]; apply Z.divide_mul_l; now apply mod_div_sub.
           ++ rewrite E2, Ea. rewrite !mul_mul, <- mul_add. apply gen_eq. fold q.
              match goal with |- (_ | ?A - ?B) => replace (A - B) with ((A - u (S b)) + (u (S b) - (t a * k2 + ka)) - (t a mod q - t a) * k2) by ring end.
              apply Z.divide_sub_r; [apply Z.divide_add_r; [now apply mod_div_sub|exact C1]|]; apply Z.divide_mul_l; now apply mod_div_sub.
        -- lia.
Qed.

(** * The precommitment phase *)
Definition kvars (k : kind) : list secret :=
  match k with
  | KNeq _ _ _ _ x al be bnd => [al; be; al; be] ++ if bnd then [x] else []
  | KBBS _ _ _ (e :: svs) r1 r2 d1 d2 => [r1; r2; d1; d2; e] ++ e :: r1 :: d1 :: svs
  | _ => []
  end.
Fixpoint cvars (s : stmt) : list secret :=
  match s with
  | SDL d => dl_secs d
  | SAnd subs _ | SOr subs _ _ => List.concat (map cvars subs)
  | SExt k _ _ _ => kvars k
  end.
Fixpoint tpre (s : stmt) : val :=
  match s with SDL _ => VNone | SAnd subs _ | SOr subs _ _ => VList (map tpre subs) | SExt _ _ pre _ => pre end.

Lemma con_svars w k pre st c st' : blinded w k -> construct k pre st = Ok (c, st') -> svars c = kvars k /\ noor c.
Proof.
  intros KB H. destruct k as [H0 g H1 h x al be bnd|com g h n isp x r rs|pk sg bs sv r1 r2 d1 d2|cls rows]; try (destruct KB; fail).
  - cbn [construct] in H. apply construct_neq_inv in H as (_ & P & _ & _ & _ & ->). split; [destruct bnd; reflexivity|].
    constructor. destruct bnd; repeat constructor.
  - cbn [construct] in H. apply construct_bbs_inv in H as (_ & A1 & A2 & g0 & g1 & g2 & bs' & e & svs & aw & gp0 & plhs & ah & g2w & gp1 & gp2 & gps & x3 &
        _ & _ & -> & -> & EG & Paw & Ppl & Pah & Pg2 & WS & G1 & G2 & G3 & ->).
    split; [|repeat constructor]. apply wsum_secrets_eq in WS as (E1 & _ & _). cbn. rewrite E1. now rewrite app_nil_r.
Qed.
(** programs that use no random numbers and leave the values alone *)
Definition calm {A} (m : M A) : Prop := forall e t a x st', m (mkSt e t a) = Ok (x, st') ->
  st' = mkSt e t a /\ forall t' a', m (mkSt e t' a') = Ok (x, mkSt e t' a').
Lemma calm_bind {A B} (m : M A) (f : A -> M B) : calm m -> (forall x, calm (f x)) -> calm (bind m f).
Proof.
  intros H K e t a x st' E. apply bind_ok in E as (y & st1 & E1 & E2). destruct (H _ _ _ _ _ E1) as [-> H'].
  destruct (K _ _ _ _ _ _ E2) as [-> K']. split; auto. intros t' a'. unfold bind. rewrite H'. apply K'.
Qed.
Lemma calm_lift {A} (r : res A) : calm (lift r).
Proof. intros e t a x st' H. apply lift_ok in H as [-> ->]. split; auto. Qed.
Lemma calm_lift2 lhs x b : calm (lift2 (mk_dlrep lhs x b)).
Proof.
  apply calm_bind; [|intros d e t a y st' H; apply ret_ok in H as [<- ->]; split; auto].
  unfold mk_dlrep. intros e t a y st' H. destruct (e_bases x) as [|b0 bs]; [discriminate|]. destruct (forallb _ _); [|discriminate].
  unfold bind, get_env, ret in *. cbn [env] in *. injection H as <- <-. split; auto.
Qed.
Lemma calm_raise {A} x : calm (@raise A x).
Proof. intros e t a y st' H. discriminate. Qed.
Lemma construct_calm w k pre : blinded w k -> calm (construct k pre).
Proof.
  intros KB. destruct k as [H0 g H1 h x al be bnd|com g h n isp x r rs|pk sg bs sv r1 r2 d1 d2|cls rows]; try (destruct KB; fail).
  - cbn [construct]. unfold construct_neq. repeat (apply calm_bind; [first [apply calm_lift|apply calm_lift2]|intros]).
    destruct bnd; [apply calm_bind; [apply calm_lift2|intros; apply calm_lift]|apply calm_lift].
  - cbn [construct]. unfold construct_bbs. repeat (apply calm_bind; [first [apply calm_lift|apply calm_lift2]|intros]).
    destruct bs as [|b0 [|b1 [|b2 bs]]]; try apply calm_raise. destruct sv; [apply calm_raise|].
    repeat (apply calm_bind; [first [apply calm_lift|apply calm_lift2]|intros]). destruct (pk_genpairs pk) as [|g0 gps]; [apply calm_raise|].
    repeat (apply calm_bind; [first [apply calm_lift|apply calm_lift2]|intros]). destruct gps as [|? [|? ?]]; try apply calm_raise.
    cbv zeta. repeat (apply calm_bind; [first [apply calm_lift|apply calm_lift2]|intros]). apply calm_lift.
Qed.
Lemma noext_pstrip_strip s : noext s -> strip s = pstrip s.
Proof.
  induction s as [d|subs b IH|subs b ch IH|k b q|k b q con IH] using stmt_ind'; intros H; inversion H; subst; simpl; auto; f_equal;
    apply map_ext_in; intros x Hx; rewrite Forall_forall in *; auto.
Qed.
Lemma noor_same s : forall s', noext s -> pstrip s' = pstrip s -> noor s -> noor s'.
Proof.
  induction s as [d|subs b IH|subs b ch IH|k b q|k b q con IH] using stmt_ind'; intros s' NE E NO; inversion NE; subst.
  - destruct s' as [d'| | |]; try discriminate. constructor.
  - destruct s' as [|subs' b'| |]; try discriminate. injection E as E. constructor. inversion NO; subst.
    revert subs' E. induction subs as [|x subs IHl]; intros [|y subs'] E; try discriminate; constructor; injection E as E1 E2;
      inversion IH; inversion H0; inversion H1; subst; auto. apply IHl; auto; constructor; auto.
  - inversion NO.
Qed.
Lemma ordOK_same ord s : forall s', noext s -> pstrip s' = pstrip s -> ordOK ord s -> ordOK ord s'.
Proof.
  induction s as [d|subs b IH|subs b ch IH|k b q|k b q con IH] using stmt_ind'; intros s' NE E NO; inversion NE; subst.
  - destruct s' as [d'| | |]; try discriminate. injection E as E1 E2 E3. inversion NO; subst. constructor. rewrite E2, E3. auto.
  - destruct s' as [|subs' b'| |]; try discriminate. injection E as E. constructor. inversion NO; subst.
    revert subs' E. induction subs as [|x subs IHl]; intros [|y subs'] E; try discriminate; constructor; injection E as E1 E2;
      inversion IH; inversion H0; inversion H1; subst; auto. apply IHl; auto; constructor; auto.
  - destruct s' as [| |subs' b' c'|]; try discriminate. constructor.
Qed.
Lemma Ords_ordOK ord s : noext s -> Ords ord s -> ordOK ord s.
Proof.
  induction s as [d|subs b IH|subs b ch IH|k b q|k b q con IH] using stmt_ind'; intros NE HO; inversion NE; inversion HO; subst; constructor.
  - intros x y H. symmetry. auto.
  - rewrite Forall_forall in *. auto.
Qed.

(** get_prover of a conjunction uses no random numbers. *)
Lemma conj_weak (P Q : kind -> Prop) s : (forall k, P k -> Q k) -> conj_of P s -> conj_of Q s.
Proof.
  intros I. induction s as [d|subs b IH|subs b ch IH|k b q|k b q con IH] using stmt_ind'; intros H; inversion H; subst; constructor; auto.
  rewrite Forall_forall in *. auto.
Qed.
Lemma noor_conj s : noext s -> noor s -> conj_of (fun _ => True) s.
Proof.
  induction s as [d|subs b IH|subs b ch IH|k b q|k b q con IH] using stmt_ind'; intros NE NO; inversion NE; inversion NO; subst; constructor.
  rewrite Forall_forall in *. auto.
Qed.
Lemma gp_run s : conj_of (fun _ => True) s -> forall sd e t p x st', get_prover s sd (mkSt e t p) = Ok (x, st') ->
  exists e', st' = mkSt e' t p /\ forall t2 p2, get_prover s sd (mkSt e t2 p2) = Ok (x, mkSt e' t2 p2).
Proof.
  induction s as [d|subs b IH|subs b ch IH|k b q|k b q con IH] using stmt_ind'; intros HC sd e t p x st' H; inversion HC; subst.
  - exists e. cbn [get_prover] in *. unfold get_prover_dl in *. unfold bind, get_env, ret in *. cbn [env] in *.
    destruct (empty_dict _ || _); injection H as <- <-; auto.
  - cbn [get_prover] in *. set (e1 := fold_left (fun e (kv : secret * Z) => upd e (sid (fst kv)) (Some (snd kv))) sd e).
    assert (E : forall t p, update_secret_values sd (mkSt e t p) = Ok (tt, mkSt e1 t p)) by reflexivity.
    unfold bind at 1 in H. rewrite E in H. destruct b.
    { injection H as <- <-. exists e1. split; auto. }
    apply bind_ok in H as (l & st1 & HM & H).
    assert (G : exists e2, st1 = mkSt e2 t p /\ forall t2 p2, mapM (fun s => get_prover s sd) subs (mkSt e1 t2 p2) = Ok (l, mkSt e2 t2 p2)).
    { clear H. rewrite Forall_forall in IH. assert (F : forall y, In y subs -> conj_of (fun _ => True) y).
      { match goal with X : Forall (conj_of _) subs |- _ => rewrite Forall_forall in X; auto end. }
      match goal with X : Forall (conj_of _) subs |- _ => clear X end. clear HC E. clearbody e1. revert e1 l st1 HM.
      induction subs as [|y subs IHl]; intros e1 l st1 H1.
      - injection H1 as <- <-. exists e1. auto.
      - cbn [mapM] in H1. apply bind_ok in H1 as (z & st2 & Z1 & H1). apply bind_ok in H1 as (zs & st3 & Z2 & H1). injection H1 as <- <-.
        apply IH in Z1 as (e2 & -> & X1); [|simpl; auto|apply F; simpl; auto].
        apply IHl in Z2 as (e3 & -> & X2); [|intros; apply IH; simpl; auto|intros; apply F; simpl; auto].
        exists e3. split; auto. intros t2 p2. cbn [mapM]. unfold bind at 1. rewrite X1. unfold bind. now rewrite X2. }
    destruct G as (e2 & -> & G). exists e2. destruct (forallb _ l) eqn:EF; [|discriminate]. injection H as <- <-. split; auto.
    intros t2 p2. unfold bind at 1. rewrite E. unfold bind. rewrite G. now rewrite EF.
  - cbn [get_prover] in *. unfold bind, update_secret_values, get_env, ret in *. cbn [env tape pos] in *. injection H as <- <-. eexists. split; [reflexivity|].
    reflexivity.
  - cbn [get_prover] in *. unfold bind, update_secret_values, get_env, ret in *. cbn [env tape pos] in *. injection H as <- <-. eexists. split; [reflexivity|].
    reflexivity.
Qed.

Section Phase.
Variables (U L V : list secret) (w : bytes -> Z).
Hypothesis HL : wfL L.
Hypothesis UL : incl U L.
Hypothesis VU : incl V U.
Definition vals_in (e : nat -> option Z) : Prop := forall x, In x V -> e (sid x) = Some (w (sname x)).
Lemma vals_fstep ks e e' : (forall x y, In x ks -> In y U -> sid x <> sid y) -> fstep w U ks e e' -> vals_in e -> vals_in e'.
Proof.
  intros D F H x Hx. destruct (F (sid x)) as [E|(y & Hy & E1 & E2)].
  - intros X. apply in_map_iff in X as (z & E & Hz). apply (D z x); auto.
  - rewrite E. auto.
  - rewrite E2. do 2 f_equal. apply HL; auto.
Qed.

(** what one run of the precommitment phase gives *)
Definition stage (ord : bytes -> Z) (s : stmt) (n : nat) (q : nat -> Z) (to : (nat -> Z) -> nat -> Z) : Prop :=
  forall p sx e t a u b pre p2 s2 st2, pstrip sx = pstrip s -> Built U L U w s p -> vals_in e ->
    precommit s p (mkSt e t a) = Ok ((pre, p2, s2), st2) ->
    (exists e2, st2 = mkSt e2 t (a + n) /\ vals_in e2 /\
      forall t', congr n q (shift a t) (shift a t') -> precommit s p (mkSt e t' a) = Ok ((pre, p2, s2), mkSt e2 t' (a + n))) /\ svars s2 = cvars s /\ noor s2 /\ ordOK ord s2 /\ sent (tpre s2) = pre /\
    (congr n q (shift b u) (to (shift a t)) ->
     forall e0, exists s', prepare_sim sx (mkSt e0 u b) = Ok (s', mkSt e0 u (b + n)) /\ strip s' = strip s2).

(** the random numbers of the precommitment phase *)
Fixpoint nst (s : stmt) : nat :=
  match s with
  | SAnd subs _ => fold_right (fun x n => nst x + n)%nat 0%nat subs
  | SExt k _ _ _ => nd k
  | _ => 0%nat
  end.
Fixpoint qst (s : stmt) : nat -> Z :=
  match s with
  | SAnd subs _ => fold_right (fun x q => qapp (nst x) (qst x) q) (fun _ => 0) subs
  | SExt k _ _ _ => fun _ => qk k
  | _ => fun _ => 0
  end.
Definition nsts := fold_right (fun x n => nst x + n)%nat 0%nat.
Definition qsts := fold_right (fun x q => qapp (nst x) (qst x) q) (fun _ => 0).

Lemma stage_list ord l : Forall (fun s => exists to of, bij (nst s) (qst s) to of /\ stage ord s (nst s) (qst s) to) l ->
  let n := nsts l in let q := qsts l in
  exists to of, bij n q to of /\
  forall ps lx e t a u b rs st2, map pstrip lx = map pstrip l -> Forall2 (Built U L U w) l ps -> vals_in e ->
    zipM precommit l ps (mkSt e t a) = Ok (rs, st2) ->
    (exists e2, st2 = mkSt e2 t (a + n) /\ vals_in e2 /\
      forall t', congr n q (shift a t) (shift a t') -> zipM precommit l ps (mkSt e t' a) = Ok (rs, mkSt e2 t' (a + n))) /\ map svars (map snd rs) = map cvars l /\
    Forall noor (map snd rs) /\ Forall (ordOK ord) (map snd rs) /\
    map sent (map tpre (map snd rs)) = map (fun r => fst (fst r)) rs /\
    (congr n q (shift b u) (to (shift a t)) ->
     forall e0, exists l', mapM prepare_sim lx (mkSt e0 u b) = Ok (l', mkSt e0 u (b + n)) /\ map strip l' = map strip (map snd rs)).
Proof.
  induction l as [|s l IH]; intros F n0 q0; subst n0 q0; unfold nsts, qsts; cbn [fold_right]; fold nsts qsts.
  - exists (fun t => t), (fun t => t). split; [apply bij_nil|].
    intros ps lx e t a u b rs st2 E FB VI H. inversion FB; subst. cbn [zipM] in H. injection H as <- <-. destruct lx; [|discriminate].
    split; [exists e; rewrite Nat.add_0_r; split; [auto|split; [auto|]]; reflexivity|]. repeat (split; [constructor|]). intros _ e0. exists []. split; [|reflexivity].
    cbn [mapM]. unfold ret. do 3 f_equal. lia.
  - inversion F as [|? ? F1 F2]; subst. destruct F1 as (to & of & B1 & S1). destruct (IH F2) as (to' & of' & B2 & S2).
    fold (nsts l) (qsts l). set (n := nst s) in *. set (q := qst s) in *. set (n' := nsts l) in *. set (q' := qsts l) in *.
    exists (tapp n to to'), (tapp n of of'). split; [now apply bij_app|].
    intros ps lx e t a u b rs st2 E FB VI H. inversion FB as [|? p ? ps' FB1 FB2]; subst. destruct lx as [|sx lx]; [discriminate|].
    simpl in E. apply cons_inj in E as [E1 E2].
    cbn [zipM] in H. apply bind_ok in H as ([[pre p2] s2] & st1 & H1 & H). apply bind_ok in H as (rs' & st1' & H2 & H).
    injection H as <- <-.
    destruct (S1 p sx e t a u b pre p2 s2 st1 E1 FB1 VI H1) as ((e2 & -> & VI2 & T2) & P1 & P2 & P2' & P3 & P4).
    destruct (S2 ps' lx e2 t (a + n)%nat u (b + n)%nat rs' st1' E2 FB2 VI2 H2) as ((e3 & -> & VI3 & T3) & Q1 & Q2 & Q2' & Q3 & Q4).
    split.
    { exists e3. split; [f_equal; lia|]. split; [auto|]. intros t' C. apply congr_app in C as [C1 C2]. cbn [zipM]. unfold bind at 1. rewrite (T2 t' C1).
      unfold bind. rewrite T3; [unfold ret; do 3 f_equal; lia|].
      eapply congr_ext; [| |exact C2]; intros; unfold shift; now rewrite Nat.add_assoc. }
    cbn [map fst snd]. rewrite P1, Q1, P3, Q3. repeat split; try constructor; auto.
    intros C e0. apply congr_tapp in C as [C1 C2].
    destruct (P4 C1 e0) as (s' & X1 & X2).
    destruct (Q4) with (e0 := e0) as (l' & Y1 & Y2).
    { eapply congr_trans.
      - eapply congr_ext; [|reflexivity|exact C2]. intros. unfold shift. now rewrite Nat.add_assoc.
      - apply (proj1 (proj2 B2)). intros j _. unfold shift. rewrite Nat.add_assoc. rewrite Z.sub_diag. apply Z.divide_0_r. }
    exists (s' :: l'). split; [|cbn [map]; congruence].
    cbn [mapM]. unfold bind at 1. rewrite X1. unfold bind. rewrite Y1. unfold ret. do 3 f_equal. lia.
Qed.

Lemma phase1 ord s : conj_of (blinded w) s -> Forall kshape (kinds s) -> Forall (kreal w) (kinds s) ->
  (forall k, In k (kinds s) -> incl (kuser k) V) -> (forall x y, In x (kints s) -> In y U -> sid x <> sid y) ->
  (forall k, In k (kinds s) -> NoDup (map sname (kint k))) -> Ords ord s ->
  exists to of, bij (nst s) (qst s) to of /\ stage ord s (nst s) (qst s) to.
Proof.
  assert (EXT : forall k b q con, conj_of (blinded w) (SExt k b q con) -> Forall kshape (kinds (SExt k b q con)) -> Forall (kreal w) (kinds (SExt k b q con)) ->
    (forall k', In k' (kinds (SExt k b q con)) -> incl (kuser k') V) -> (forall x y, In x (kints (SExt k b q con)) -> In y U -> sid x <> sid y) ->
    (forall k', In k' (kinds (SExt k b q con)) -> NoDup (map sname (kint k'))) -> Ords ord (SExt k b q con) ->
    exists to of, bij (nd k) (fun _ => qk k) to of /\ stage ord (SExt k b q con) (nd k) (fun _ => qk k) to).
  { intros k b q con HC KS KR KU DJ ND HO. inversion HC; inversion KS; inversion KR; inversion HO; subst.
    destruct (kpre_bij w k) as (to & of & B & P); auto. exists to, of. split; [exact B|].
    intros p sx e t a u b' pre p2 s2 st2 E HB VI H.
    assert (FS := precommit_fstep _ _ _ _ _ _ _ _ _ _ _ HB H).
    inversion HB as [| | |? ? ? ? sv EO KT IU IK KD]; subst. cbn [precommit] in H.
    apply bind_ok in H as (pre' & sta & H1 & H). apply bind_ok in H as (c & stb & H2 & H). apply bind_ok in H as (r & stc & H3 & H).
    injection H as <- <- <- <-.
    assert (VK : forall x, In x (kuser k) -> e (sid x) = Some (w (sname x))).
    { intros x Hx. apply VI. eapply KU; [simpl; auto|auto]. }
    destruct (P e t a (to (shift a t)) 0%nat VK KD) as (pre1 & e1 & K1 & K2 & K3 & _).
    { intros j _. unfold shift at 1. simpl. rewrite Z.sub_diag. apply Z.divide_0_r. }
    assert (K0 := K1). specialize (K1 t (congr_refl _ _ _)). rewrite K1 in H1. injection H1 as <- <-.
    pose proof (construct_leafy _ _ _ _ _ H2) as [-> Lf]. pose proof (leafy_noext _ _ Lf) as NE.
    destruct (con_svars w k pre1 _ c _ ltac:(auto) H2) as [SV NO]. destruct r as [o c2].
    pose proof (get_prover_pstrip _ _ _ _ _ _ H3) as PS.
    assert (NE2 : noext c2) by (apply noext_pstrip; rewrite PS; now apply noext_pstrip).
    apply gp_run in H3 as (e2 & -> & T3); [|now apply noor_conj].
    split.
    { exists e2. split; [auto|]. split; [eapply vals_fstep; eauto|]. intros t' C. cbn [precommit].
      unfold bind at 1. rewrite (K0 t' C). unfold bind at 1.
      destruct (construct_calm w k pre1 ltac:(auto) _ _ _ _ _ H2) as [_ CC]. rewrite CC. unfold bind. rewrite T3. reflexivity. }
    split; [simpl; rewrite <- SV; apply svars_same; auto|]. split; [constructor; apply (noor_same c); auto|].
    split. { constructor. apply (ordOK_same ord c); auto. apply Ords_ordOK; auto.
      refine (proj1 (con_good ord k pre1 _ c _ H2 _ _ _)); auto. apply ND. simpl; auto. }
    split; [simpl; exact K2|].
    intros C e0. destruct sx as [| | |kx bx qx cx]; try discriminate E. injection E as ->.
    destruct (P e t a u b' VK KD C) as (pre2 & e3 & J1 & _ & _ & J2). specialize (J1 t (congr_refl _ _ _)). rewrite K1 in J1. injection J1 as <- _.
    destruct (construct_sim idn idn k k pre1 _ c _ (mkSt e0 u (b' + nd k)) (KSim_refl k) H2) as (c' & X1 & X2).
    { destruct k; simpl; auto; match goal with X : blinded _ _ |- _ => destruct X end. }
    exists (SExt k bx pre1 (Some c')). split.
    - cbn [prepare_sim]. unfold bind at 1. rewrite J2. unfold full_construct, bind. rewrite X1. reflexivity.
    - simpl. do 2 f_equal. pose proof (construct_leafy _ _ _ _ _ X1) as [_ Lf'].
      assert (IL : incl (kuser k ++ kint k) L) by (apply incl_app; [eapply incl_tran; eauto|auto]).
      rewrite (noext_pstrip_strip c2), PS, <- (noext_pstrip_strip c) by auto. symmetry. eapply Sim_id_strip; eauto.
      + eapply incl_tran; [eapply leafy_svars; eauto|exact IL].
      + eapply incl_tran; [eapply leafy_svars; eauto|exact IL]. }
  induction s as [d|subs b IH|subs b ch IH|k b q|k b q con IH] using stmt_ind'; intros HC KS KR KU DJ ND HO; [| | |now apply EXT|now apply EXT].
  - cbn [nst qst]. exists (fun t => t), (fun t => t). split; [apply bij_nil|].
    intros p sx e t a u b pre p2 s2 st2 E HB VI H. inversion HB; subst. cbn [precommit] in H. injection H as <- <- <- <-.
    split; [exists e; rewrite Nat.add_0_r; split; [auto|split; [auto|]]; reflexivity|]. split; [reflexivity|]. split; [constructor|].
    split; [apply Ords_ordOK; [constructor|auto]|]. split; [reflexivity|]. intros _ e0. destruct sx; try discriminate. injection E as E1 E2 E3.
    eexists. split; [cbn [prepare_sim]; unfold ret; do 3 f_equal; lia|]. simpl. congruence.
  - assert (F : Forall (fun s => exists to of, bij (nst s) (qst s) to of /\ stage ord s (nst s) (qst s) to) subs).
    { inversion HC; inversion HO; subst. rewrite Forall_forall in *. intros y Hy.
      assert (KI : forall k, In k (kinds y) -> In k (kinds (SAnd subs b))) by (intros k Hk; simpl; eapply kinds_concat; eauto).
      apply IH; auto.
      - rewrite Forall_forall. auto.
      - rewrite Forall_forall. auto.
      - intros x z Hx. apply DJ. eapply kints_sub; eauto. }
    destruct (stage_list ord subs F) as (to & of & B & S). exists to, of. split; [exact B|].
    intros p sx e t a u b' pre p2 s2 st2 E HB VI H. inversion HB; subst. cbn [precommit] in H.
    apply bind_ok in H as (rs & st1 & H1 & H). injection H as <- <- <- <-.
    destruct sx as [|lx bx| |]; try discriminate. injection E as E.
    destruct (S ps lx e t a u b' rs st1 E ltac:(auto) VI H1) as (Q0 & Q1 & Q2 & Q3 & Q4 & Q5).
    split.
    { destruct Q0 as (e2 & -> & VI2 & T2). exists e2. split; [auto|]. split; [auto|]. intros t' C. cbn [precommit]. unfold bind.
      rewrite (T2 t' C). reflexivity. }
    split; [simpl; now rewrite Q1|]. split; [now constructor|]. split; [now constructor|].
    split; [simpl; now rewrite Q4|]. intros C e0. destruct (Q5 C e0) as (l' & X1 & X2).
    exists (SAnd l' bx). split; [|simpl; now rewrite X2]. cbn [prepare_sim]. unfold bind. rewrite X1. reflexivity.
  - inversion HC.
Qed.
End Phase.

(** * The names that get a random number, in order *)
Definition addn (l : list bytes) (n : bytes) : list bytes := if existsb (bytes_eqb n) l then l else l ++ [n].
Definition nubn (l : list bytes) : list bytes := fold_left addn l [].

Lemma sec_mem_names e ss s acc : coh e ss -> incl acc ss -> In s ss ->
  sec_mem e s acc = existsb (bytes_eqb (sname s)) (map sname acc).
Proof.
  intros C I Hs. induction acc as [|x acc IH]; [reflexivity|]. simpl. f_equal; [|apply IH; intros y Hy; apply I; simpl; auto].
  destruct (sec_eqb e x s) eqn:E.
  - apply sec_eqb_iff in E as [E _]. rewrite E. symmetry. apply bytes_eqb_refl.
  - destruct (bytes_eqb (sname s) (sname x)) eqn:E2; [|reflexivity]. apply bytes_eqb_eq in E2.
    exfalso. assert (sec_eqb e x s = true); [|congruence]. apply sec_eqb_iff. split; [auto|]. apply C; auto. apply I; simpl; auto.
Qed.
Lemma sec_set_nub e ss : coh e ss -> map sname (sec_set e ss) = nubn (map sname ss).
Proof.
  intros C. unfold sec_set, nubn.
  assert (G : forall l acc, incl l ss -> incl acc ss ->
    map sname (fold_left (fun acc s => if sec_mem e s acc then acc else acc ++ [s]) l acc) = fold_left addn (map sname l) (map sname acc)).
  { induction l as [|x l IH]; intros acc Il Ia; [reflexivity|]. cbn [fold_left map].
    assert (Hx : In x ss) by (apply Il; simpl; auto). assert (Il' : incl l ss) by (intros y Hy; apply Il; simpl; auto).
    unfold addn at 2. rewrite (sec_mem_names e ss) by auto. destruct (existsb _ (map sname acc)); rewrite IH; auto.
    - now rewrite map_app.
    - apply incl_app; auto. intros y [<-|[]]; auto. }
  apply (G ss []); [apply incl_refl|intros x []].
Qed.
Lemma dset_nub {B} e ss (d : list (secret * B)) s v : coh e ss -> incl (map fst d) ss -> In s ss ->
  map sname (map fst (dset e d s v)) = addn (map sname (map fst d)) (sname s).
Proof.
  intros C I Hs. unfold addn. induction d as [|[k b] d IH]; [reflexivity|]. cbn [dset map fst existsb].
  assert (Hk : In k ss) by (apply I; simpl; auto). assert (I' : incl (map fst d) ss) by (intros y Hy; apply I; simpl; auto).
  destruct (sec_eqb e k s) eqn:E.
  - apply sec_eqb_iff in E as [E _]. rewrite E, bytes_eqb_refl. simpl. now rewrite E.
  - destruct (bytes_eqb (sname s) (sname k)) eqn:E2.
    + apply bytes_eqb_eq in E2. exfalso. assert (sec_eqb e k s = true); [|congruence]. apply sec_eqb_iff. split; auto.
    + simpl. rewrite IH by auto. destruct (existsb _ _); reflexivity.
Qed.
Lemma fold_nub {B} e ss : coh e ss -> forall (l : list (secret * B)) d, incl (map fst l) ss -> incl (map fst d) ss ->
  map sname (map fst (fold_left (fun o sb => dset e o (fst sb) (snd sb)) l d)) = fold_left addn (map sname (map fst l)) (map sname (map fst d)).
Proof.
  intros C. induction l as [|[s b] l IH]; intros d Il Id; [reflexivity|]. cbn [fold_left map fst snd].
  assert (Hs : In s ss) by (apply Il; simpl; auto).
  rewrite IH; [rewrite (dset_nub e ss); auto|intros y Hy; apply Il; simpl; auto|].
  intros y Hy. apply in_map_iff in Hy as ((k & v) & <- & Hy). simpl.
  apply dset_in in Hy as [Hy|[_ [-> |[Hy _]]]]; auto. apply Id, in_map_iff. exists (k, v). auto.
Qed.
Lemma map_fst_combine {A B} (l : list A) : forall m : list B, List.length l = List.length m -> map fst (combine l m) = l.
Proof. induction l; intros [|b m] H; simpl in *; try discriminate; auto. f_equal; auto. Qed.

Lemma root_draw2 w e ord s : forall p, Ready w s p -> noor s -> wfs s -> built s -> coh e (svars s) -> ordOK ord s ->
  let ns := nubn (map sname (svars s)) in
  forall t a, exists dd, covers e dd (fun n => t (a + npos n ns)%nat mod ord n) (svars s) /\
    (forall c, simulate_proof s None (Some c) (mkSt e t a) = simulate_proof s (Some dd) (Some c) (mkSt e t (a + List.length ns))) /\
    internal_commit s p None (mkSt e t a) = internal_commit s p (Some dd) (mkSt e t (a + List.length ns)).
Proof.
  induction s as [d|subs b IH|subs b ch IH|k b q|k b q con IH] using stmt_ind';
    intros p HR NO HW HB C HO ns t a; inversion HR; subst.
  - match goal with X : dl_ok _ _ d |- _ => pose proof (dl_leafok _ _ _ _ X HO) as (A1 & A2 & A3 & A4 & A5 & A6) end.
    destruct (dl_bases d) as [|b0 bs] eqn:B; [tauto|].
    assert (Hg : grp (dl_lhs d) = grp b0) by (inversion A1; auto).
    destruct (randomizers_run d b0 bs e t a B C) as (dd & E1 & E2). exists dd.
    assert (EN : map sname (sec_set e (dl_secs d)) = ns) by now apply sec_set_nub.
    unfold rindex, rcount in *. rewrite EN in E2. rewrite <- (map_length sname), EN in E1.
    assert (E3 : covers e dd (fun n => t (a + npos n ns)%nat mod ord n) (svars (SDL d))).
    { intros x Hx. rewrite (E2 x Hx). rewrite A5 by auto. now rewrite Hg. }
    split; [exact E3|]. split; [intros c; cbn [simulate_proof]; unfold simulate_dl|cbn [internal_commit]; unfold commit_dl];
      rewrite update_randomizers_none; unfold bind at 1; rewrite E1; symmetry; unfold bind at 1;
      rewrite (update_randomizers_covered _ _ dd _ (mkSt e t _) E3); reflexivity.
  - destruct (built_bases _ HB) as (bs & EB). pose proof (built_svars _ HB) as ES. set (s := SAnd subs b) in *.
    pose proof (get_bases_length s HW bs EB) as L.
    set (D := fold_left (fun o sb => dset e o (fst sb) (snd sb)) (combine (svars s) bs) []).
    assert (EN : map sname (map fst D) = ns).
    { unfold D. rewrite (fold_nub e (svars s)); auto; rewrite ?map_fst_combine by auto; [reflexivity|apply incl_refl|intros x []]. }
    assert (I : dinv (svars s) (fun n b => order (grp b) = ord n) D).
    { apply fold_inv; auto.
      - intros x y Hxy. split; [eapply in_combine_l; eauto|].
        apply (ordOK_pairs ord s) with (bs := bs); auto.
      - split; [constructor|]. split; [intros x []|intros ? ? []]. }
    destruct I as (I1 & I2 & I3).
    assert (I4 : forall x, In x (svars s) -> In (sname x) (map sname (map fst D))).
    { intros x Hx. destruct (in_combine_l_ex (svars s) bs x Hx L) as (y & Hy).
      assert (M : dmem e D x = true) by (apply dmem_fold; right; exists x, y; split; [auto|apply sec_eqb_refl]).
      unfold dmem in M. destruct (dget e D x) as [v|] eqn:G; [|discriminate].
      apply dget_key in G as (k & G1 & <-). apply in_map, in_map_iff. exists (k, v). auto. }
    exists (combine (map fst D) (map (fun jx => t (a + fst jx)%nat mod order (grp (snd (snd jx)))) (combine (seq 0 (List.length D)) D))).
    set (dd := combine (map fst D) _).
    assert (LN : List.length ns = List.length D) by (rewrite <- EN, !map_length; reflexivity).
    assert (ER : randomizers_and s (mkSt e t a) = Ok (dd, mkSt e t (a + List.length ns))).
    { unfold randomizers_and. rewrite ES, EB. rewrite !bind_lift_ok. unfold bind at 1, get_env. cbn [env]. fold D.
      unfold bind. rewrite (mapM_draws (fun sb : secret * pt => order (grp (snd sb)))). rewrite LN. reflexivity. }
    assert (E3 : covers e dd (fun n => t (a + npos n ns)%nat mod ord n) (svars s)).
    { rewrite <- EN. intros x Hx. destruct (npos_in _ _ (I4 x Hx)) as [J1 J2]. set (j := npos (sname x) _) in *.
      rewrite !map_length in J1. destruct (nth_error D j) as [[k v]|] eqn:Nj; [|apply nth_error_None in Nj; lia].
      assert (K1 : nth_error (map fst D) j = Some k) by now apply (map_nth_error fst _ _ Nj).
      assert (K2 : sname k = sname x) by (rewrite (map_nth_error sname _ _ K1) in J2; congruence).
      apply (dget_combine e (map fst D) I1 _ j k); auto.
      - cbv beta. fold j. replace (ord (sname x)) with (order (grp v)) by (rewrite <- K2; apply I3; eapply nth_error_In; eauto).
        exact (map_nth_error (fun jx => t (a + fst jx)%nat mod order (grp (snd (snd jx)))) _ _ (nth_combine_seq D 0 j _ Nj)).
      - apply C; auto. apply I2. eapply nth_error_In; eauto. }
    split; [exact E3|]. split.
    + intros c. unfold s. rewrite !simulate_and. fold s. rewrite ES, update_randomizers_none. unfold bind at 1. rewrite ER.
      symmetry. unfold bind at 1. rewrite (update_randomizers_covered _ _ dd _ (mkSt e t _) E3). reflexivity.
    + unfold s. rewrite !internal_commit_and. fold s. unfold bind at 1, get_env. cbn [env]. symmetry. unfold bind at 1, get_env. cbn [env].
      unfold bind at 1, lift. symmetry. unfold bind at 1. destruct (validate_and e s) as [[]|]; [|reflexivity].
      rewrite ES, update_randomizers_none. unfold bind at 1. rewrite ER.
      symmetry. unfold bind at 1. rewrite (update_randomizers_covered _ _ dd _ (mkSt e t _) E3). reflexivity.
  - inversion NO.
  - inversion NO; inversion HW; inversion HB; inversion HO; subst.
    match goal with X : Ready w con _ |- _ => destruct (IH _ X) with (t := t) (a := a) as (dd & D1 & D2 & D3); auto end.
    exists dd. split; [exact D1|]. split.
    + intros c. cbn [simulate_proof]. unfold bind. now rewrite D2.
    + cbn [internal_commit]. unfold bind. now rewrite D3.
Qed.

(** precommitments of a simulation *)
Lemma sim_tpre s : noor s -> forall rd c st t st', simulate_proof s rd c st = Ok (t, st') -> t_pre t = tpre s.
Proof.
  induction s as [d|subs b IH|subs b ch IH|k b q|k b q con IH] using stmt_ind'; intros NO rd c st t st' H; inversion NO; subst.
  - cbn [simulate_proof] in H. unfold simulate_dl in H. minvs. reflexivity.
  - rewrite simulate_and in H. apply bind_ok in H as (rd' & st1 & _ & H). apply bind_ok in H as (c' & st2 & _ & H).
    apply bind_ok in H as (ts & st3 & HM & H). injection H as <- <-. cbn [t_pre tpre]. f_equal.
    clear NO. revert st2 ts st3 HM. induction subs as [|x subs IHl]; intros st2 ts st3 HM.
    + injection HM as <- <-. reflexivity.
    + cbn [mapM] in HM. apply bind_ok in HM as (y & s1 & Y & HM). apply bind_ok in HM as (ys & s2 & YS & HM). injection HM as <- <-.
      inversion IH as [|? ? IH1 IH2]; subst.
      match goal with X : Forall noor (x :: subs) |- _ => inversion X; subst end. cbn [map]. f_equal; [eapply IH1; eauto|eapply IHl; eauto].
  - cbn [simulate_proof] in H. apply bind_ok in H as (t1 & st1 & _ & H). injection H as <- <-. reflexivity.
Qed.

Lemma Forall2_in_l_ex {A B} (R : A -> B -> Prop) l m : Forall2 R l m -> forall x, In x l -> exists y, In y m /\ R x y.
Proof. induction 1; intros z Hz; [destruct Hz|]. destruct Hz as [<-|Hz]; [eexists; simpl; eauto|]. destruct (IHForall2 z Hz) as (w & ? & ?). exists w. simpl. auto. Qed.
Lemma NoDup_app_intro {A} (l m : list A) : NoDup l -> NoDup m -> (forall x, In x l -> ~ In x m) -> NoDup (l ++ m).
Proof.
  induction 1; intros Hm D; simpl; auto. constructor.
  - rewrite in_app_iff. intros [X|X]; [auto|]. apply (D x); simpl; auto.
  - apply IHNoDup; auto. intros y Hy. apply D. simpl; auto.
Qed.
(** the values a prover has, read from the leaves *)
Fixpoint lvals (s : stmt) : list (bytes * Z) :=
  match s with
  | SDL d => map (fun x => (sname x, match dget (fun _ => None) (dl_vals d) x with Some v => v | None => 0 end)) (dl_secs d)
  | SAnd subs _ | SOr subs _ _ => List.concat (map lvals subs)
  | SExt _ _ _ (Some con) => lvals con
  | SExt _ _ _ None => []
  end.
Definition wof (s : stmt) (n : bytes) : Z := match find (fun nv => bytes_eqb (fst nv) n) (lvals s) with Some nv => snd nv | None => 0 end.
Lemma lvals_names s : map fst (lvals s) = map sname (svars s).
Proof.
  induction s as [d|subs b IH|subs b ch IH|k b q|k b q con IH] using stmt_ind'; simpl; auto.
  - now rewrite map_map.
  - induction IH as [|x l Hx H IHl]; simpl; auto. now rewrite !map_app, Hx, IHl.
  - induction IH as [|x l Hx H IHl]; simpl; auto. now rewrite !map_app, Hx, IHl.
Qed.
Lemma lvals_val w s : forall p, Ready w s p -> noor s -> forall n v, In (n, v) (lvals s) -> v = w n.
Proof.
  induction s as [d|subs b IH|subs b ch IH|k b q|k b q con IH] using stmt_ind'; intros p HR NO n v Hn; inversion HR; subst.
  - simpl in Hn. apply in_map_iff in Hn as (x & E & Hx). match goal with X : dl_ok _ _ _ |- _ => destruct X as (_ & _ & _ & _ & X); rewrite X in E by auto end.
    injection E as <- <-. reflexivity.
  - simpl in Hn. apply in_concat in Hn as (l & Hl & Hn). apply in_map_iff in Hl as (x & <- & Hx). inversion NO; subst.
    match goal with X : Forall2 (Ready w) _ _ |- _ => destruct (Forall2_in_l_ex _ _ _ X x Hx) as (px & _ & Hpx) end.
    rewrite Forall_forall in *. eapply IH; eauto.
  - inversion NO.
  - inversion NO; subst. simpl in Hn. eapply IH; eauto.
Qed.
Lemma wof_val w s p x : Ready w s p -> noor s -> In x (svars s) -> wof s (sname x) = w (sname x).
Proof.
  intros HR NO Hx. unfold wof. destruct (find _ _) as [[m v]|] eqn:F.
  - apply find_some in F as [F1 F2]. apply bytes_eqb_eq in F2. simpl in *. subst. eapply lvals_val; eauto.
  - exfalso. assert (H : In (sname x) (map fst (lvals s))) by (rewrite lvals_names; now apply in_map).
    apply in_map_iff in H as ([m v] & E & H). apply (find_none _ _ F) in H. simpl in *. subst. now rewrite bytes_eqb_refl in H.
Qed.

Lemma conj_same P s : forall s', pstrip s' = pstrip s -> conj_of P s -> conj_of P s'.
Proof.
  induction s as [d|subs b IH|subs b ch IH|k b q|k b q con IH] using stmt_ind'; intros s' E HC; inversion HC; subst.
  - destruct s'; try discriminate. constructor.
  - destruct s' as [|subs' b'| |]; try discriminate. injection E as E. constructor. clear HC.
    revert subs' E. induction subs as [|x subs IHl]; intros [|y subs'] E; try discriminate; constructor; apply cons_inj in E as [E1 E2];
      inversion IH; subst; match goal with X : Forall (conj_of P) (_ :: _) |- _ => inversion X; subst end; auto.
  - destruct s' as [| | |k' b' q' c']; try discriminate. injection E as ->. now constructor.
  - destruct s' as [| | |k' b' q' c']; try discriminate. injection E as ->. now constructor.
Qed.
Lemma conj_noclause P s : conj_of P s -> forall V pre o post, ~ clause V s pre o post.
Proof.
  induction s as [d|subs b IH|subs b ch IH|k b q|k b q con IH] using stmt_ind'; intros HC V pre o post H; inversion HC; inversion H; subst.
  rewrite Forall_forall in *. eapply (IH s); eauto; [|match goal with X : forall x, In x _ -> conj_of P x |- _ => apply X end]; apply in_elt.
Qed.
Lemma conj_Apart P s : conj_of P s -> Apart s.
Proof.
  induction s as [d|subs b IH|subs b ch IH|k b q|k b q con IH] using stmt_ind'; intros HC; inversion HC; subst; constructor.
  - rewrite Forall_forall in *. auto.
  - intros pre o post x y H. exfalso. eapply conj_noclause; eauto.
Qed.
Lemma Pready_defd w e s : forall p, conj_of (fun _ => True) s -> Pready w e s p -> forall k, In k (kinds s) -> defd e (kuser k) /\ kreal w k.
Proof.
  induction s as [d|subs b IH|subs b ch IH|k b q|k b q con IH] using stmt_ind'; intros p HC HP k0 Hk; inversion HC; inversion HP; subst.
  - destruct Hk.
  - simpl in Hk. apply in_concat in Hk as (l & Hl & Hk). apply in_map_iff in Hl as (x & <- & Hx).
    match goal with X : Forall2 (Pready w e) _ _ |- _ => destruct (Forall2_in_l_ex _ _ _ X x Hx) as (px & _ & Hpx) end.
    rewrite Forall_forall in *. eapply IH; eauto.
  - destruct Hk as [<-|[]]. auto.
  - destruct Hk as [<-|[]]. auto.
Qed.
Lemma addn_in l n m : In m (addn l n) <-> In m l \/ m = n.
Proof.
  unfold addn. destruct (existsb (bytes_eqb n) l) eqn:E.
  - split; [auto|]. intros [H| ->]; auto. apply existsb_exists in E as (y & Hy & E). apply bytes_eqb_eq in E. now subst.
  - rewrite in_app_iff. simpl. intuition.
Qed.
Lemma nubn_in l m : In m (nubn l) <-> In m l.
Proof.
  unfold nubn. assert (G : forall l acc, In m (fold_left addn l acc) <-> In m acc \/ In m l).
  { clear l. induction l as [|x l IH]; intros acc; simpl; [tauto|]. rewrite IH, addn_in. intuition. }
  rewrite G. simpl. tauto.
Qed.
Lemma nubn_nodup l : NoDup (nubn l).
Proof.
  unfold nubn. assert (G : forall l acc, NoDup acc -> NoDup (fold_left addn l acc)).
  { clear l. induction l as [|x l IH]; intros acc H; simpl; auto. apply IH. unfold addn. destruct (existsb (bytes_eqb x) acc) eqn:E; auto.
    apply NoDup_app_intro; auto; [repeat constructor; simpl; tauto|]. intros y Hy [<-|[]]. assert (existsb (bytes_eqb x) acc = true); [|congruence].
    apply existsb_exists. exists x. split; [auto|apply bytes_eqb_refl]. }
  apply G. constructor.
Qed.

(** * Two phases: a program that gives a prover and a statement, and one that gives the statement *)
Definition phase (P : stmt -> Prop) (m : M (val * prover * stmt)) (m' : M stmt) (vs : val -> val) n q to of X ord e e0 : Prop :=
  bij n q to of /\
  forall t, exists pre p s e2 w L,
    (forall t', congr n q t t' -> m (mkSt e t' 0) = Ok ((pre, p, s), mkSt e2 t' n)) /\
    Ready w s p /\ svars s = X /\ noor s /\ ordOK ord s /\ built s /\ wfs s /\ wfL L /\ incl (svars s) L /\ Checked e2 s /\
    vs (tpre s) = pre /\ P s /\
    forall u, congr n q u (to t) -> exists s', m' (mkSt e0 u 0) = Ok (s', mkSt e0 u n) /\ strip s' = strip s.
(** also for something read off the statement, by [F]; the challenge [C] may depend on the statement *)
Lemma phase_with {A} (F : stmt -> A) (C0 : stmt -> Z) P m m' vs n q to of X ord e e0 :
  (forall s s', strip s = strip s' -> F s = F s') -> (forall s s', strip s = strip s' -> C0 s = C0 s') ->
  phase P m m' vs n q to of X ord e e0 ->
  let run := let! (pre, p, s) := m in let! cp := internal_commit s p None in let! r := compute_response s (snd cp) (C0 s) in ret (pre, fst cp, r, F s) in
  let sim := let! s := m' in let! x := simulate_proof s None (Some (C0 s)) in ret (vs (t_pre x), t_com x, t_resp x, F s) in
  let ns := nubn (map sname X) in let N := (n + List.length ns)%nat in let Q := qapp n q (fun j => ord (nth j ns [])) in
  (forall t, exists pre com r a, outcome run e t = Ok (pre, com, r, a)) /\
  (exists to' of', bij N Q to' of' /\
    (forall t t', congr N Q t t' -> outcome run e t = outcome run e t') /\
    (forall t t', congr N Q t t' -> outcome sim e0 t = outcome sim e0 t') /\
    forall t, outcome run e t = outcome sim e0 (to' t)) /\
  forall u, exists pre p s w, Ready w s p /\ svars s = X /\ noor s /\ ordOK ord s /\ P s /\
    forall u', congr n q u u' -> let K n' := u' (n + npos n' ns)%nat mod ord n' in
      outcome sim e0 u' = Ok (pre, scom K (C0 s) s, vresp K s, F s).
Proof.
  intros HF HC0 (B & H) run sim ns N Q.
  set (PS t := match m (mkSt e t 0) with Ok ((_, _, s2), _) => s2 | _ => SAnd [] false end).
  assert (RUN : forall t, exists pre p2 s2 e2 w', m (mkSt e t 0) = Ok ((pre, p2, s2), mkSt e2 t n) /\ PS t = s2 /\
    (forall t', congr n q t t' -> m (mkSt e t' 0) = Ok ((pre, p2, s2), mkSt e2 t' n)) /\
    Ready w' s2 p2 /\ svars s2 = X /\ noor s2 /\ ordOK ord s2 /\ P s2 /\
    (let K n' := t (n + npos n' ns)%nat mod ord n' in let R n' := (w' n' * C0 s2 + K n') mod ord n' in
     outcome run e t = Ok (pre, scom R (C0 s2) s2, vresp R s2, F s2)) /\
    forall u, congr n q u (to t) ->
     let K n' := u (n + npos n' ns)%nat mod ord n' in
     outcome sim e0 u = Ok (pre, scom K (C0 s2) s2, vresp K s2, F s2)).
  { intros t. destruct (H t) as (pre & p2 & s2 & e2 & w' & L & T2 & RD & SV & NO & OO & BU & WF & HL & IL & CK & VP & PP & SIM).
    assert (PC := T2 t (congr_refl _ _ _)).
    exists pre, p2, s2, e2, w'. split; [exact PC|]. split; [unfold PS; now rewrite PC|]. split; [exact T2|].
    split; [exact RD|]. split; [exact SV|]. split; [exact NO|]. split; [exact OO|]. split; [exact PP|].
    assert (CO : forall e, coh e (svars s2)) by (intros; apply wfL_coh; eapply wfL_incl; eauto).
    split.
    - cbv zeta. destruct (root_draw2 w' e2 ord s2 p2 RD NO WF BU (CO e2) OO t n) as (dd & CV & _ & D2).
      rewrite SV in CV, D2. fold ns in CV, D2. rewrite <- SV in CV.
      destruct (commit_view w' ord e2 s2 p2 RD NO BU CK OO _ dd CV) as (p4 & C1 & C2).
      unfold outcome, run. unfold bind at 1. rewrite PC. cbn [fst snd].
      unfold bind at 1. rewrite D2. rewrite C1. cbn [fst snd]. unfold bind. rewrite C2. unfold ret.
      do 3 f_equal. f_equal. symmetry. apply (scom_vcom w' ord (C0 s2) _ s2 p2); auto.
    - intros u Cu. cbv zeta. destruct (SIM u Cu) as (s' & X1 & X2).
      destruct (root_draw2 w' e2 ord s2 p2 RD NO WF BU (CO e2) OO u n) as (dd & CV & D1 & _).
      rewrite SV in CV, D1. fold ns in CV, D1. rewrite <- SV in CV.
      destruct (sim_view_some w' ord e2 (C0 s2) s2 p2 RD NO BU OO _ dd CV) as (pr & C1).
      unfold outcome, sim. unfold bind at 1. rewrite X1. rewrite (HC0 s' s2 X2).
      assert (Y := sim_proof_same L HL s2 s' None (Some (C0 s2)) (eq_sym X2) BU IL ltac:(intros d Ed; discriminate) (mkSt e2 u n) (mkSt e0 u n) ltac:(split; reflexivity)).
      pose proof (sim_tpre s2 NO None (Some (C0 s2)) (mkSt e2 u n)) as TP2.
      rewrite D1, C1 in Y, TP2. specialize (TP2 _ _ eq_refl). cbn [t_pre] in TP2. unfold bind.
      destruct (simulate_proof s' None (Some (C0 s2)) (mkSt e0 u n)) as [[tr' st']|]; [|contradiction]. destruct Y as [<- _].
      unfold ret. cbn [t_pre t_com t_resp]. rewrite TP2, VP, (HF s' s2 X2). reflexivity. }
  split. { intros t. destruct (RUN t) as (pre & p2 & s2 & e2 & w' & _ & _ & _ & _ & _ & _ & _ & _ & RT & _). eauto. }
  clearbody run sim. clear H. split; [|].
  2:{ intros u. destruct (RUN (of u)) as (pre & p2 & s2 & e2 & w' & _ & _ & _ & RD & SV & NO & OO & PP & _ & RS). exists pre, p2, s2, w'.
    do 5 (split; [assumption|]). intros u' C. cbv zeta. apply RS. destruct B as (B1 & B2 & B3 & B4 & B5).
    eapply congr_trans; [apply congr_sym; exact C|apply congr_sym, B5]. }
  set (f t j := wof (PS t) (nth j ns []) * C0 (PS t)).
  exists (tmove n to f), (tmove n of (fun u j => - f (of u) j)).
  assert (FC : forall t t', congr n q t t' -> forall j, (j < List.length ns)%nat -> f t j = f t' j).
  { intros t t' C j _. unfold f. destruct (RUN t) as (pre & p2 & s2 & e2 & w' & PC & EP & TT & _). rewrite EP. unfold PS. now rewrite (TT t' C). }
  assert (NP : forall x, In x X -> (npos (sname x) ns < List.length ns)%nat /\ nth (npos (sname x) ns) ns [] = sname x).
  { intros x Hx. destruct (npos_in (sname x) ns) as [X1 X2]; [apply nubn_in; now apply in_map|]. split; auto. now apply nth_error_nth. }
  assert (QP : forall j, (j < List.length ns)%nat -> 1 < ord (nth j ns [])).
  { intros j Hj. assert (Hn : In (nth j ns []) ns) by now apply nth_In. apply (proj1 (nubn_in (map sname X) _)) in Hn. apply in_map_iff in Hn as (x & <- & Hx).
    destruct (RUN (fun _ => 0)) as (pre & p2 & s2 & e2 & w' & PC & EP & TT & RD & SV & NO & OO & _). rewrite <- SV in Hx. eapply ordOK_pos; eauto. }
  destruct (bij_move n q to of (List.length ns) (fun j => ord (nth j ns [])) f B QP FC) as (Q1 & Q2 & Q3 & Q4 & Q5).
  assert (KC : forall t t', congr (List.length ns) (fun j => ord (nth j ns [])) (shift n t) (shift n t') ->
     forall x, In x X -> t (n + npos (sname x) ns)%nat mod ord (sname x) = t' (n + npos (sname x) ns)%nat mod ord (sname x)).
  { intros t t' C x Hx. destruct (NP x Hx) as [N1 N2]. specialize (C _ N1). cbv beta in C. unfold shift in C. rewrite N2 in C. apply mod_eq; auto.
    rewrite <- N2. now apply QP. }
  split; [exact (conj Q1 (conj Q2 (conj Q3 (conj Q4 Q5))))|]. split; [|split].
  - intros t t' C. apply congr_app in C as [C1 C2].
    destruct (RUN t) as (pre & p2 & s2 & e2 & w' & PC & EP & TT & RD & SV & NO & OO & PP & RT & _).
    destruct (RUN t') as (pre' & p2' & s2' & e2' & w2 & PC' & EP' & TT' & RD2 & _ & _ & _ & _ & RT' & _).
    rewrite (TT t' C1) in PC'. injection PC' as <- <- <- <-. rewrite RT, RT'.
    assert (Y : forall x, In x (svars s2) -> (w' (sname x) * C0 s2 + t (n + npos (sname x) ns)%nat mod ord (sname x)) mod ord (sname x)
                    = (w2 (sname x) * C0 s2 + t' (n + npos (sname x) ns)%nat mod ord (sname x)) mod ord (sname x)).
    { intros x Hx. rewrite <- (wof_val w' s2 p2), <- (wof_val w2 s2 p2) by auto. rewrite SV in Hx. rewrite (KC t t' C2 x Hx). reflexivity. }
    do 3 f_equal; [f_equal; apply scom_ext; exact Y|apply vresp_ext; exact Y].
  - intros u u' C. apply congr_app in C as [C1 C2]. destruct B as (B1 & B2 & B3 & B4 & B5).
    destruct (RUN (of u)) as (pre & p2 & s2 & e2 & w' & PC & EP & TT & RD & SV & NO & OO & PP & _ & RS).
    rewrite (RS u), (RS u').
    + assert (Y : forall x, In x (svars s2) -> u (n + npos (sname x) ns)%nat mod ord (sname x) = u' (n + npos (sname x) ns)%nat mod ord (sname x))
        by (rewrite SV; now apply KC).
      do 3 f_equal; [f_equal; apply scom_ext; exact Y|apply vresp_ext; exact Y].
    + eapply congr_trans; [apply congr_sym; exact C1|apply congr_sym, B5].
    + apply congr_sym, B5.
  - intros t. destruct (RUN t) as (pre & p2 & s2 & e2 & w' & PC & EP & TT & RD & SV & NO & OO & PP & RT & RS).
    rewrite RT, RS.
    + assert (Y : forall x, In x (svars s2) -> (w' (sname x) * C0 s2 + t (n + npos (sname x) ns)%nat mod ord (sname x)) mod ord (sname x)
                    = tmove n to f t (n + npos (sname x) ns)%nat mod ord (sname x)).
      { intros x Hx. assert (Hx' := Hx). rewrite SV in Hx'. destruct (NP x Hx') as [N1 N2]. unfold tmove.
        destruct (Nat.ltb_spec (n + npos (sname x) ns) n); [lia|]. replace (n + npos (sname x) ns - n)%nat with (npos (sname x) ns) by lia.
        unfold f. rewrite N2, EP, (wof_val w' s2 p2) by auto. rewrite Zplus_mod_idemp_r. f_equal. ring. }
      do 3 f_equal; [f_equal; apply scom_ext; exact Y|apply vresp_ext; exact Y].
    + intros j Hj. unfold tmove. destruct (Nat.ltb_spec j n); [|lia]. rewrite Z.sub_diag. apply Z.divide_0_r.
Qed.

Lemma sd_map {A B} (g : A -> B) f f' k k' : (forall t, k t = g (f t)) -> (forall t, k' t = g (f' t)) -> same_distribution f f' -> same_distribution k k'.
Proof.
  intros E E' (n & q & to & of & H1 & H2 & H3 & H4 & H5 & H6 & H7 & H8). exists n, q, to, of.
  repeat split; auto; intros; rewrite ?E, ?E'; f_equal; auto.
Qed.
Lemma phase_zk P m m' vs n q to of X ord e e0 c : phase P m m' vs n q to of X ord e e0 ->
  let run := let! (pre, p, s) := m in let! cp := internal_commit s p None in let! r := compute_response s (snd cp) c in ret (pre, fst cp, r) in
  let sim := let! s := m' in let! x := simulate_proof s None (Some c) in ret (vs (t_pre x), t_com x, t_resp x) in
  (forall t, exists pre com r, outcome run e t = Ok (pre, com, r)) /\
  same_distribution (outcome run e) (outcome sim e0).
Proof.
  intros H run sim. destruct (phase_with (fun _ => tt) (fun _ => c) P m m' vs n q to of X ord e e0) as (P1 & (to' & of' & (B1 & B2 & B3 & B4 & B5) & F1 & F2 & F3) & _); auto.
  assert (E : forall t, outcome run e t = let? x := outcome (let! (pre, p, s) := m in let! cp := internal_commit s p None in let! r := compute_response s (snd cp) c in ret (pre, fst cp, r, tt)) e t in Ok (fst x)).
  { intros t. unfold outcome, run, bind. destruct (m _) as [[[[pre p] s] a]|]; [|reflexivity]. destruct (internal_commit _ _ _ _) as [[cp a1]|]; [|reflexivity].
    destruct (compute_response _ _ _ _) as [[r a2]|]; reflexivity. }
  split.
  - intros t. destruct (P1 t) as (pre & com & r & a & P0). exists pre, com, r. now rewrite E, P0.
  - refine (sd_map (fun o => let? x := o in Ok (fst x)) _ _ _ _ E _ (ex_intro _ _ (ex_intro _ _ (ex_intro _ to' (ex_intro _ of' (conj B1 (conj F1 (conj F2 (conj B2 (conj B3 (conj B4 (conj B5 F3)))))))))))). intros t. unfold outcome, sim, bind.
    destruct (m' _) as [[s a]|]; [|reflexivity]. destruct (simulate_proof _ _ _ _) as [[x a1]|]; reflexivity.
Qed.

(** * Whole conversations *)
Definition opened (s : stmt) (sd : dict Z) : M (val * prover * stmt) :=
  let! ps := get_prover s sd in match fst ps with None => raise EValueErr | Some p => precommit (snd ps) p end.
Lemma whole_phase U w s sd ord e e0 : honest U w s sd e -> Shape s -> Supplied sd w e s -> Ords ord s -> conj_of (blinded w) s ->
  exists n q to of X, phase (fun s' => pstrip s' = pstrip s) (opened s sd) (prepare_sim s) sent n q to of X ord e e0.
Proof.
  intros HH HS SU HO HC. assert (HH' := HH). destruct HH' as [OK NM IN DJ TR VA DI EN].
  set (L := U ++ kints s) in *.
  assert (IU : incl U L) by (apply incl_appl, incl_refl).
  assert (IK : incl (kints s) L) by (apply incl_appr, incl_refl).
  assert (HW : Swf U L s) by (apply Sok_Swf; auto).
  pose proof (Sok_kuser U s OK) as KU.
  assert (AP := conj_Apart _ _ HC).
  (* get_prover *)
  destruct (get_prover_total U L U U w s sd (mkSt e (fun _ => 0) 0)) as (p & s1 & st1 & GP & PR); auto.
  { eapply Vals_Keys; eauto. }
  { intros k Hk. eapply incl_tran; eauto. }
  destruct (get_prover_built U L U w s sd _ _ _ _ HW VA TR DI (incl_refl _) IU NM GP) as (PS1 & ES & BT).
  assert (AG1 : agree w (env st1) U) by (apply (estep_agree2 w U U L e); auto).
  apply gp_run in GP as (e1 & -> & GP); [|eapply conj_weak; [|exact HC]; auto]. cbn [env] in *.
  assert (KE : kinds s1 = kinds s) by now apply kinds_same.
  assert (KI : kints s1 = kints s) by (unfold kints; now rewrite KE).
  assert (HC1 : conj_of (blinded w) s1) by (eapply conj_same; eauto).
  pose proof (Pready_defd w e1 s1 p ltac:(eapply conj_weak; [|exact HC1]; auto) PR) as DF.
  set (V := List.concat (map kuser (kinds s))).
  assert (VU : incl V U).
  { intros x Hx. apply in_concat in Hx as (l & Hl & Hx). apply in_map_iff in Hl as (k & <- & Hk). eapply KU; eauto. }
  assert (VI : vals_in V w e1).
  { intros x Hx. assert (Hx' := Hx). apply in_concat in Hx' as (l & Hl & Hx'). apply in_map_iff in Hl as (k & <- & Hk).
    rewrite <- KE in Hk. destruct (DF k Hk) as [D _]. specialize (D x Hx'). destruct (e1 (sid x)) as [v|] eqn:E; [|congruence].
    f_equal. apply AG1; auto. }
  (* the precommitment phase *)
  destruct (phase1 U L V w NM IU VU ord s1) as (to & of & B & ST).
  { exact HC1. }
  { rewrite KE. now apply Shape_kinds. }
  { apply Forall_forall. intros k Hk. now apply DF. }
  { rewrite KE. intros k Hk x Hx. apply in_concat. exists (kuser k). split; auto. now apply in_map. }
  { rewrite KI. auto. }
  { rewrite KE. intros k Hk. eapply (kint_names s L); eauto. }
  { eapply Ords_same; [symmetry; exact PS1|auto]. }
  exists (nst s1), (qst s1), to, of, (cvars s1). split; [exact B|]. set (n := nst s1) in *. set (q := qst s1) in *.
  intros t. destruct (commit_ready U w s sd ord (mkSt e t 0) HH HS SU HO AP) as (p' & s1' & st1' & pre & p2 & s2 & st2 & com & p3 & st3 & GP' & PC & IC & BU & _).
  assert (GP2 := GP'). rewrite (GP t 0%nat) in GP'. injection GP' as <- <- <-.
  destruct (honest_ready U w s sd (mkSt e t 0) p s1 (mkSt e1 t 0) pre p2 s2 st2 HH GP2 PC) as (w' & L' & HL' & _ & PSS & PO & RD).
  assert (RD' : Ready w' s2 p2) by (apply RD; left; eauto).
  destruct PO as (P1 & P2 & P3 & P4 & P5 & P6 & P7 & P8).
  destruct (ST p s e1 t 0%nat t 0%nat pre p2 s2 st2) as ((e2 & -> & VI2 & T2) & SV & NO & OO & SP & _); auto.
  exists pre, p2, s2, e2, w', L'. split.
  { intros t' C. unfold opened. unfold bind. rewrite (GP t' 0%nat). cbn [fst snd]. exact (T2 t' C). }
  split; [exact RD'|]. split; [exact SV|]. split; [exact NO|]. split; [exact OO|]. split; [exact BU|]. split; [exact P2|].
  split; [exact HL'|]. split; [exact P7|]. split.
  { exact (commit_checked w' s2 p2 None _ _ _ RD' NO IC). }
  split; [exact SP|]. split; [congruence|]. intros u Cu.
  destruct (ST p s e1 t 0%nat u 0%nat pre p2 s2 (mkSt e2 t n)) as (_ & _ & _ & _ & _ & SIM); auto.
Qed.
Lemma whole_zk U w s sd ord e e0 c : honest U w s sd e -> Shape s -> Supplied sd w e s -> Ords ord s -> conj_of (blinded w) s ->
  same_distribution (outcome (whole_run s sd c) e) (outcome (whole_sim s c) e0).
Proof.
  intros HH HS SU HO HC. destruct (whole_phase U w s sd ord e e0 HH HS SU HO HC) as (n & q & to & of & X & P).
  destruct (phase_zk _ _ _ _ _ _ _ _ _ _ _ _ c P) as [_ H].
  refine (sd_map (fun x => x) _ _ _ _ _ _ H); intros t; [|reflexivity].
  unfold outcome, whole_run, opened, bind. destruct (get_prover s sd _) as [[[[p|] s1] a]|]; [|reflexivity|reflexivity]. cbn [fst snd].
  destruct (precommit s1 p a) as [[[[pre p2] s2] a2]|]; reflexivity.
Qed.
Lemma whole_zk_ok U w s sd ord e e0 c : honest U w s sd e -> Shape s -> Supplied sd w e s -> Ords ord s -> conj_of (blinded w) s ->
  (forall t, exists pre com r, outcome (whole_run s sd c) e t = Ok (pre, com, r)) /\
  same_distribution (outcome (whole_run s sd c) e) (outcome (whole_sim s c) e0).
Proof.
  intros HH HS SU HO HC. split; [|eapply whole_zk; eauto]. intros t.
  destruct (commit_ready U w s sd ord (mkSt e t 0) HH HS SU HO (conj_Apart _ _ HC)) as (p & s1 & st1 & pre & p2 & s2 & st2 & com & p3 & st3 & GP & PC & IC & _ & R).
  destruct (R c st3) as (r & CR). exists pre, com, r. unfold outcome, whole_run. unfold bind at 1. rewrite GP. cbn [fst snd].
  unfold bind at 1. rewrite PC. cbn [fst snd]. unfold bind at 1. rewrite IC. cbn [fst snd]. unfold bind. rewrite CR. reflexivity.
Qed.
End Z.

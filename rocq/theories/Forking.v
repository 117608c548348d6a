(** The forking lemma by counting: a program that often ends with a question it has asked does so twice, after the same
    beginning and with different answers to that question. *)
From Coq Require Import String Znumtheory.
From Verif Require Import Base World Val Expr Utils Stmt Prove Verify Spec Shapes Claims Extract Ident Alike Oracle.
Open Scope Z_scope.
Open Scope list_scope.

Lemma count_app {A} (f : A -> bool) l m : count f (l ++ m) = count f l + count f m.
Proof. unfold count, len. rewrite filter_app, app_length. lia. Qed.
Lemma count_nil {A} (f : A -> bool) : count f [] = 0.
Proof. reflexivity. Qed.
Lemma count_map {A B} (g : A -> B) (f : B -> bool) l : count f (map g l) = count (fun x => f (g x)) l.
Proof. unfold count, len. induction l as [|x l IH]; [reflexivity|]. cbn [map filter]. destruct (f (g x)); cbn [List.length]; lia. Qed.
Lemma count_nonneg {A} (f : A -> bool) l : 0 <= count f l.
Proof. unfold count, len. lia. Qed.
Lemma count_le_len {A} (f : A -> bool) l : count f l <= len l.
Proof. unfold count, len. induction l as [|x l IH]; cbn [filter]; [lia|]. destruct (f x); cbn [List.length]; lia. Qed.
Lemma count_none {A} (f : A -> bool) l : existsb f l = false -> count f l = 0.
Proof.
  unfold count, len. induction l as [|x l IH]; cbn [existsb filter]; [reflexivity|].
  intros H. apply orb_false_iff in H as [E H]. rewrite E. auto.
Qed.
Lemma count_mono {A} (f g : A -> bool) l : (forall x, In x l -> f x = true -> g x = true) -> count f l <= count g l.
Proof.
  unfold count, len. induction l as [|x l IH]; intros H; cbn [filter]; [lia|].
  specialize (IH (fun y I => H y (or_intror I))). destruct (f x) eqn:E.
  - rewrite (H x (or_introl eq_refl) E). cbn [List.length]. lia.
  - destruct (g x); cbn [List.length]; lia.
Qed.
Lemma count_or {A} (f g h : A -> bool) l : (forall x, In x l -> f x = true -> g x = true \/ h x = true) -> count f l <= count g l + count h l.
Proof.
  unfold count, len. induction l as [|x l IH]; intros H; cbn [filter]; [lia|].
  specialize (IH (fun y I => H y (or_intror I))). destruct (f x) eqn:E.
  - destruct (H x (or_introl eq_refl) E) as [->| ->]; [destruct (h x)|destruct (g x)]; cbn [List.length]; lia.
  - destruct (g x), (h x); cbn [List.length]; lia.
Qed.

Lemma tapes_len A n : len (tapes A n) = len A ^ Z.of_nat n.
Proof.
  induction n as [|n IH]; [reflexivity|]. cbn [tapes]. rewrite Nat2Z.inj_succ, Z.pow_succ_r by lia. rewrite <- IH. clear IH.
  generalize (tapes A n) as T. intros T. unfold len. induction A as [|y A IH]; [reflexivity|].
  cbn [flat_map List.length]. rewrite app_length, map_length. lia.
Qed.
Lemma tapes_in A n t : In t (tapes A n) <-> List.length t = n /\ Forall (fun y => In y A) t.
Proof.
  revert t. induction n as [|n IH]; intros t; cbn [tapes].
  - split; [intros [<-|[]]; auto|]. intros [L _]. destruct t; [now left|discriminate].
  - rewrite in_flat_map. split.
    + intros (y & I & H). apply in_map_iff in H as (u & <- & H). apply IH in H as [L F]. cbn. split; [lia|]. now constructor.
    + destruct t as [|y t]; [intros [L _]; discriminate|]. cbn. intros [L F]. inversion F as [|? ? I F']; subst.
      exists y. split; auto. apply in_map_iff. exists t. split; auto. apply IH. split; auto.
Qed.

Section F.
Context {R : Type} (D : R -> option bytes) (far : bytes -> bytes -> bool) (A : list bytes) (K : Z).

(** the run ends with a question that was not asked before [m] *)
Definition new (p : prog R) (m : memo) (t : list bytes) : bool :=
  match sample p m t with
  | Some (r, _) => match D r with Some b => negb (is_some (look m b)) | None => false end
  | None => false end.
Definition ends (p : prog R) (m : memo) (b : bytes) (t : list bytes) : bool :=
  match sample p m t with Some (r, _) => match D r with Some b' => bytes_eqb b' b | None => false end | None => false end.
(** the last question has been asked *)
Definition asked (p : prog R) (m : memo) : Prop :=
  forall t r m' b, sample p m t = Some (r, m') -> D r = Some b -> look m' b <> None.

Definition forks (p : prog R) (m : memo) (L : nat) : Prop :=
  exists u y y' v v' b r r' m1 m2, In (u ++ y :: v) (tapes A L) /\ In (u ++ y' :: v') (tapes A L) /\ far y y' = true /\
    sample p m (u ++ y :: v) = Some (r, m1) /\ sample p m (u ++ y' :: v') = Some (r', m2) /\
    D r = Some b /\ D r' = Some b /\ look m1 b = Some y /\ look m2 b = Some y'.

Lemma look_cons b y m c : look ((b, y) :: m) c = if bytes_eqb b c then Some y else look m c.
Proof. unfold look. cbn [find fst]. destruct (bytes_eqb b c); reflexivity. Qed.
(** answers do not change *)
Lemma sample_look {S} (p : prog S) : forall m t r m' b y, sample p m t = Some (r, m') -> look m b = Some y -> look m' b = Some y.
Proof.
  induction p as [r|b k IH]; intros m t r' m' c y H E; cbn [sample] in H.
  - now injection H as <- <-.
  - destruct (look m b) as [x|] eqn:X; [eauto|]. destruct t as [|x t]; [discriminate|].
    eapply IH; [exact H|]. rewrite look_cons. destruct (bytes_eqb b c) eqn:B; [|exact E].
    apply bytes_eqb_eq in B. subst. congruence.
Qed.

Lemma some_or_none {X} (P Q : X -> Prop) (l : list X) : (forall x, In x l -> P x \/ Q x) -> (exists x, In x l /\ P x) \/ (forall x, In x l -> Q x).
Proof.
  induction l as [|x l IH]; intros H; [right; intros ? []|].
  destruct (H x (or_introl eq_refl)) as [Px|Qx]; [left; exists x; split; auto; now left|].
  destruct IH as [(y & I & Py)|Al]; [intros; apply H; now right|left; exists y; split; auto; now right|].
  right. intros y [<-|I]; auto.
Qed.

Lemma count_flat (g : bytes -> list bytes -> bool) (f : list bytes -> bool) n (B : list bytes) c :
  (forall y t, In y B -> f (y :: t) = g y t) -> (forall y, In y B -> count (g y) (tapes A n) <= c y) ->
  count f (flat_map (fun y => map (cons y) (tapes A n)) B) <= fold_right (fun y s => c y + s) 0 B.
Proof.
  induction B as [|y B IH]; intros E H; cbn [flat_map fold_right]; [rewrite count_nil; lia|].
  rewrite count_app, count_map. specialize (IH (fun y t I => E y t (or_intror I)) (fun y I => H y (or_intror I))).
  assert (X : count (fun x => f (y :: x)) (tapes A n) <= c y).
  { etransitivity; [|apply (H y); now left]. apply count_mono. intros x _ Hx. rewrite <- (E y); auto. now left. }
  lia.
Qed.
Lemma sum_split (w : bytes -> bool) (B : list bytes) a c : 0 <= a ->
  fold_right (fun y s => (if w y then a else 0) + c + s) 0 B = count w B * a + len B * c.
Proof.
  intros Ha. unfold count, len. induction B as [|y B IH]; cbn [fold_right filter]; [reflexivity|].
  rewrite IH. destruct (w y); cbn [List.length]; lia.
Qed.

Lemma sum_N (w : bytes -> bool) (B : list bytes) N a d e : 0 <= N -> count w B <= K -> (forall y, In y B -> N * e y <= d) -> 0 <= a ->
  N * fold_right (fun y s => (if w y then a else 0) + e y + s) 0 B <= N * K * a + len B * d.
Proof.
  intros HN Hw He Ha.
  assert (X : N * fold_right (fun y s => (if w y then a else 0) + e y + s) 0 B <= N * count w B * a + len B * d).
  { clear Hw. unfold count, len. induction B as [|y B IH]; cbn [fold_right filter]; [cbn [List.length]; change (Z.of_nat 0) with 0; rewrite !Z.mul_0_r, !Z.mul_0_l; lia|].
    specialize (IH (fun y I => He y (or_intror I))). specialize (He y (or_introl eq_refl)).
    set (f := fold_right _ 0 B) in *. set (n := List.length (filter w B)) in *. set (m := List.length B) in *.
    destruct (w y); cbn [List.length]; rewrite ?Nat2Z.inj_succ; unfold Z.succ; fold n m;
      rewrite ?Z.mul_add_distr_l, ?Z.mul_add_distr_r, ?Z.mul_add_distr_l, ?Z.mul_add_distr_r in *; lia. }
  assert (Y : N * count w B * a <= N * K * a).
  { apply Z.mul_le_mono_nonneg_r; auto. apply Z.mul_le_mono_nonneg_l; auto. }
  lia.
Qed.

(** Either the program can be forked, or it succeeds for at most n*K of N answers. *)
Lemma forking (p : prog R) : (forall y, In y A -> count (fun y' => negb (far y y')) A <= K) -> 0 <= K ->
  forall n m L, asks n p -> asked p m -> (n <= L)%nat ->
  forks p m L \/ len A * count (new p m) (tapes A L) <= Z.of_nat n * K * len A ^ Z.of_nat L.
Proof.
  intros Far HK. assert (HN : 0 <= len A) by (unfold len; lia).
  induction p as [r|b k IH]; intros n m L Hn As Ln.
  - right. assert (E : count (new (Ret r) m) (tapes A L) = 0).
    { apply count_none. apply not_true_is_false. intros X. apply existsb_exists in X as (t & _ & X).
      unfold new in X. cbn [sample] in X. destruct (D r) as [b|] eqn:Dr; [|discriminate].
      specialize (As t r m b eq_refl Dr). destruct (look m b); [discriminate|]. now apply As. }
    rewrite E. assert (0 <= len A ^ Z.of_nat L) by (apply Z.pow_nonneg; lia). nia.
  - destruct n as [|n]; [destruct Hn|]. cbn [asks] in Hn.
    assert (PW : 0 <= len A ^ Z.of_nat L) by (apply Z.pow_nonneg; lia).
    destruct (look m b) as [y|] eqn:Lk.
    + destruct (IH y n m L (Hn y)) as [F|C]; [|lia| |].
      * intros t r m' c H. apply As with (t := t). cbn [sample]. now rewrite Lk.
      * left. destruct F as (u & x & x' & v & v' & c & r & r' & m1 & m2 & I1 & I2 & Fr & S1 & S2 & Rest).
        exists u, x, x', v, v', c, r, r', m1, m2. cbn [sample]. rewrite Lk. auto 10.
      * right. assert (E : count (new (Ask b k) m) (tapes A L) <= count (new (k y) m) (tapes A L)).
        { apply count_mono. intros t _. unfold new. cbn [sample]. now rewrite Lk. }
        assert (0 <= K * len A ^ Z.of_nat L) by nia. nia.
    + destruct L as [|L]; [lia|].
      (* one of the continuations can be forked? *)
      destruct (some_or_none (fun y => forks (k y) ((b, y) :: m) L)
        (fun y => len A * count (new (k y) ((b, y) :: m)) (tapes A L) <= Z.of_nat n * K * len A ^ Z.of_nat L) A) as [(y & I & F)|Al].
      { intros y I. apply IH; auto; [|lia]. intros t r m' c H. apply As with (t := y :: t). cbn [sample]. now rewrite Lk. }
      { left. destruct F as (u & x & x' & v & v' & c & r & r' & m1 & m2 & I1 & I2 & Fr & S1 & S2 & Rest).
        exists (y :: u), x, x', v, v', c, r, r', m1, m2. cbn [app sample]. rewrite Lk. repeat split; try tauto.
        - apply tapes_in in I1 as [L1 F1]. apply tapes_in. split; [cbn; lia|now constructor].
        - apply tapes_in in I2 as [L2 F2]. apply tapes_in. split; [cbn; lia|now constructor]. }
      set (w := fun y => existsb (ends (k y) ((b, y) :: m) b) (tapes A L)).
      destruct (some_or_none (fun y => exists y', In y' A /\ w y = true /\ w y' = true /\ far y y' = true)
        (fun y => forall y', In y' A -> w y = true -> w y' = true -> far y y' = false) A) as [(y & I & y' & I' & Wy & Wy' & Fr)|NoF].
      { intros y I. apply some_or_none. intros y' I'. destruct (w y) eqn:E1, (w y') eqn:E2, (far y y') eqn:E3; auto;
          right; intros; congruence. }
      { left. apply existsb_exists in Wy as (v & Iv & Ev). apply existsb_exists in Wy' as (v' & Iv' & Ev').
        unfold ends in Ev, Ev'. destruct (sample (k y) ((b, y) :: m) v) as [[r m1]|] eqn:S1; [|discriminate].
        destruct (sample (k y') ((b, y') :: m) v') as [[r' m2]|] eqn:S2; [|discriminate].
        destruct (D r) as [c|] eqn:Dr; [|discriminate]. destruct (D r') as [c'|] eqn:Dr'; [|discriminate].
        apply bytes_eqb_eq in Ev, Ev'. subst c c'.
        exists [], y, y', v, v', b, r, r', m1, m2. cbn [app sample]. rewrite Lk.
        apply tapes_in in Iv as [L1 F1]. apply tapes_in in Iv' as [L2 F2].
        split; [apply tapes_in; cbn; split; [lia|now constructor]|]. split; [apply tapes_in; cbn; split; [lia|now constructor]|].
        do 5 (split; [assumption|]).
        split; (eapply sample_look; [eassumption|]); rewrite look_cons; now rewrite (proj2 (bytes_eqb_eq b b) eq_refl). }
      right.
      assert (Kw : count w A <= K).
      { destruct (existsb w A) eqn:Ex.
        - apply existsb_exists in Ex as (y & I & Wy). etransitivity; [|exact (Far y I)]. apply count_mono.
          intros y' I' Wy'. now rewrite (NoF y I y' I' Wy Wy').
        - rewrite count_none; auto. }
      set (e := fun y => count (new (k y) ((b, y) :: m)) (tapes A L)).
      assert (C : count (new (Ask b k) m) (tapes A (S L)) <=
                  fold_right (fun y s => (if w y then len A ^ Z.of_nat L else 0) + e y + s) 0 A).
      { cbn [tapes]. apply (count_flat (fun y t => new (Ask b k) m (y :: t))); auto. intros y I.
        etransitivity; [apply (count_or _ (ends (k y) ((b, y) :: m) b) (new (k y) ((b, y) :: m)))|].
        - intros t _. unfold new, ends. cbn [sample]. rewrite Lk. destruct (sample (k y) ((b, y) :: m) t) as [[r m1]|]; [|discriminate].
          destruct (D r) as [c|]; [|discriminate]. rewrite look_cons. destruct (bytes_eqb c b) eqn:E; [now left|].
          intros H. right. destruct (bytes_eqb b c) eqn:E'; [|exact H]. apply bytes_eqb_eq in E'. subst.
          rewrite (proj2 (bytes_eqb_eq c c) eq_refl) in E. discriminate.
        - fold (e y). destruct (w y) eqn:Wy.
          + assert (X := count_le_len (ends (k y) ((b, y) :: m) b) (tapes A L)). rewrite tapes_len in X. lia.
          + rewrite (count_none _ _ Wy). lia. }
      assert (PW' : 0 <= len A ^ Z.of_nat L) by (apply Z.pow_nonneg; lia).
      assert (X := sum_N w A (len A) (len A ^ Z.of_nat L) (Z.of_nat n * K * len A ^ Z.of_nat L) e HN Kw Al PW').
      rewrite !Nat2Z.inj_succ, Z.pow_succ_r by lia. nia.
Qed.
End F.

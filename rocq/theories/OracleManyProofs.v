(** Many proofs in the random oracle model: one proof after the other is replaced by a simulated one. *)
From Coq Require Import String Znumtheory Lia.
From Verif Require Import Base World Val Expr Utils Stmt Prove Verify Spec Claims Shapes Honest Clauses Supply Extract Ident Alike Distrib Custom Mixed MixedOr Nested TreeZk
  Oracle Forking OracleZk OracleZkProofs Chance ChanceProofs OracleTree OracleTreeSim OracleTreeSimProofs OracleMany.
Open Scope Z_scope.
Open Scope list_scope.

(** * Sums *)
Definition tot {A} (f : A -> Z) (l : list A) : Z := fold_right Z.add 0 (map f l).
Lemma tot_cons {A} (f : A -> Z) x l : tot f (x :: l) = f x + tot f l.
Proof. reflexivity. Qed.
Lemma len_app {A} (l m : list A) : len (l ++ m) = len l + len m.
Proof. unfold len. rewrite app_length. lia. Qed.
Lemma len_cons {A} (x : A) m : len (x :: m) = 1 + len m.
Proof. unfold len. cbn [List.length]. lia. Qed.
Lemma len_nonneg {A} (l : list A) : 0 <= len l.
Proof. unfold len. lia. Qed.
Lemma count_app {A} (f : A -> bool) l m : count f (l ++ m) = count f l + count f m.
Proof. unfold count. now rewrite filter_app, len_app. Qed.
Lemma count_cons {A} (f : A -> bool) x l : count f (x :: l) = (if f x then 1 else 0) + count f l.
Proof. unfold count. cbn [filter]. destruct (f x); [apply len_cons|reflexivity]. Qed.
Lemma tot_zero {A} (f : A -> Z) l : (forall x, f x = 0) -> tot f l = 0.
Proof. intros H. induction l as [|x l IH]; [reflexivity|]. rewrite tot_cons, H, IH. reflexivity. Qed.
Lemma tot_add {A} (f g : A -> Z) l : tot (fun x => f x + g x) l = tot f l + tot g l.
Proof. induction l as [|x l IH]; [reflexivity|]. rewrite !tot_cons. lia. Qed.
(** pairs counted by their first and by their second components *)
Lemma count_rows {A} (F : list A -> bool) (ls : list A) ms : count F (flat_map (fun l => map (cons l) ms) ls) = tot (fun l => count (fun m => F (l :: m)) ms) ls.
Proof. induction ls as [|l ls IH]; [reflexivity|]. cbn [flat_map]. rewrite count_app, count_map', IH. reflexivity. Qed.
Lemma tot_swap {A B} (F : A -> B -> bool) ls ms : tot (fun l => count (fun m => F l m) ms) ls = tot (fun m => count (fun l => F l m) ls) ms.
Proof.
  induction ls as [|l ls IH]; [symmetry; apply tot_zero; reflexivity|]. rewrite tot_cons, IH.
  transitivity (tot (fun m => (if F l m then 1 else 0) + count (fun l => F l m) ls) ms).
  - rewrite tot_add. f_equal. clear. induction ms as [|m ms IH]; [reflexivity|]. now rewrite count_cons, tot_cons, IH.
  - clear. induction ms as [|m ms IH]; [reflexivity|]. now rewrite !tot_cons, IH, count_cons.
Qed.
Lemma tot_close {A} (f g : A -> Z) Q k l : 0 <= Q -> (forall x, In x l -> Q * Z.abs (f x - g x) <= k) -> Q * Z.abs (tot f l - tot g l) <= k * len l.
Proof.
  intros QP H. induction l as [|x l IH]; [unfold tot, len; cbn; lia|]. rewrite !tot_cons, len_cons. specialize (IH ltac:(intros; apply H; simpl; auto)). specialize (H x ltac:(now left)).
  assert (Z.abs (f x + tot f l - (g x + tot g l)) <= Z.abs (f x - g x) + Z.abs (tot f l - tot g l)) by lia. nia.
Qed.
Lemma len_rows {A} (ls : list A) ms : len (flat_map (fun l => map (cons l) ms) ls) = len ls * len ms.
Proof. induction ls as [|l ls IH]; [reflexivity|]. cbn [flat_map]. rewrite len_app, IH, len_cons. unfold len at 1. rewrite map_length. fold (len ms). lia. Qed.

Section O.
Context {W : World}.

Lemma pbind_pbind {A B C} (p : prog A) (f : A -> prog B) (g : B -> prog C) m tp :
  sample (pbind (pbind p f) g) m tp = sample (pbind p (fun x => pbind (f x) g)) m tp.
Proof.
  revert m tp. induction p as [a|b k IH]; intros m tp; [reflexivity|]. cbn [pbind sample]. destruct (look m b); [apply IH|]. destruct tp; [reflexivity|apply IH].
Qed.
Lemma pbind_ext {A B} (p : prog A) (f g : A -> prog B) : (forall x m tp, sample (f x) m tp = sample (g x) m tp) -> forall m tp, sample (pbind p f) m tp = sample (pbind p g) m tp.
Proof.
  intros H. induction p as [a|b k IH]; intros m tp; [apply H|]. cbn [pbind sample]. destruct (look m b); [apply IH|]. destruct tp; [reflexivity|apply IH].
Qed.
Lemma reply_grows m tp b y m1 tp1 : reply m tp b = Some (y, m1, tp1) -> len m1 <= len m + 1 /\ (List.length tp <= List.length tp1 + 1)%nat.
Proof.
  unfold reply. destruct (look m b); [intros [= _ <- <-]; lia|]. destruct tp as [|y0 tp]; [discriminate|]. intros [= _ <- <-]. rewrite len_cons. cbn [List.length]. lia.
Qed.
Lemma reply_some m tp b : (1 <= List.length tp)%nat -> exists y m1 tp1, reply m tp b = Some (y, m1, tp1).
Proof. intros H. unfold reply. destruct (look m b); [eauto|]. destruct tp; [cbn in H; lia|eauto]. Qed.

(** what is known about a statement *)
Record fine (Q : Z) (K : party) (n : nat) (q : nat -> Z) : Prop := {
  fi_q : forall j, (j < n)%nat -> 1 < q j;
  fi_real : forall R (D : res nizk -> prog R) m tp msg t t', congr n q t t' -> sample (pbind (p_real K msg t) D) m tp = sample (pbind (p_real K msg t') D) m tp;
  fi_sim : forall m tp msg t t', congr n q t t' -> p_sim K msg m tp t = p_sim K msg m tp t';
  fi_grow : forall m tp msg t z m1 tp1 i, p_sim K msg m tp t = Some (z, m1, tp1, i) -> len m1 <= len m + 2 /\ (List.length tp <= List.length tp1 + 2)%nat;
  fi_close : forall R (D : res nizk -> prog R) m tp msg, (2 <= List.length tp)%nat -> forall E,
    Q * Z.abs (chances n q E (fun t => sample (pbind (p_real K msg t) D) m tp) -
               chances n q E (fun t => match p_sim K msg m tp t with Some (z, m, tp, _) => sample (D z) m tp | None => None end)) <= len m * len (box n q) }.

Lemma simulator_grows s msg m tp a z m1 tp1 i : simulator s msg m tp a = Some (z, m1, tp1, i) -> len m1 <= len m + 2 /\ (List.length tp <= List.length tp1 + 2)%nat.
Proof.
  unfold simulator. destruct (prepare_sim s a) as [[s1 a1]|]; [|intros [= _ <- <- _]; lia]. destruct (prehash_input s1) as [h|]; [|intros [= _ <- <- _]; lia].
  destruct (reply m tp h) as [[[y m2] tp2]|] eqn:R; [|discriminate]. apply reply_grows in R as [R1 R2].
  destruct tp2 as [|y' tp3]; [discriminate|]. cbn [List.length] in R2. destruct (simulate_proof s1 None _ a1) as [[x a2]|]; [|intros [= _ <- <- _]; cbn [List.length]; lia].
  destruct (fs_input h _ msg) as [i0|]; [|intros [= _ <- <- _]; cbn [List.length]; lia]. intros [= _ <- <- _]. rewrite len_cons. lia.
Qed.
Lemma tsimulator_grows T msg m tp a z m1 tp1 i : tsimulator T msg m tp a = Some (z, m1, tp1, i) -> len m1 <= len m + 2 /\ (List.length tp <= List.length tp1 + 2)%nat.
Proof.
  unfold tsimulator. destruct (tprep T _ a) as [[s1 a1]|]; [|intros [= _ <- <- _]; lia]. destruct (prehash_input s1) as [h|]; [|intros [= _ <- <- _]; lia].
  destruct (reply m tp h) as [[[y m2] tp2]|] eqn:R; [|discriminate]. apply reply_grows in R as [R1 R2].
  destruct tp2 as [|y' tp3]; [discriminate|]. cbn [List.length] in R2. destruct (simulate_proof s1 None _ a1) as [[x a2]|]; [|intros [= _ <- <- _]; cbn [List.length]; lia].
  destruct (fs_input h _ msg) as [i0|]; [|intros [= _ <- <- _]; cbn [List.length]; lia]. intros [= _ <- <- _]. rewrite len_cons. lia.
Qed.
Lemma proves_fine Q K : proves Q K -> exists n q, fine Q K n q.
Proof.
  intros [U w s sd ord e e0 x G H1 H2 H3 H4 H5 H6 H7 H8|U V w0 T sd ord e e0 path x G H1 H2 H3 H4 H5 H6 H7 H8 H9 H10 H11].
  - destruct (rom_zk_at U w s sd ord e e0 x G H1 H2 H3 H4 H5 H6 H7) as (n & q & H). exists n, q.
    assert (RE : forall R (D : res nizk -> prog R) m tp msg t, sample (pbind (p_real (stmt_party s sd e e0) msg t) D) m tp = real s sd msg D m tp (mkSt e t 0)).
    { intros R D m tp msg t. unfold real. cbn [stmt_party p_real]. now rewrite pbind_pbind. }
    constructor.
    + destruct (proj2 (proj2 (H unit (fun _ => Ret tt) [] [[]; []] [])) ltac:(cbn; lia)) as (to & of & B & _). exact (proj1 B).
    + intros R D m tp msg t t' C. rewrite !RE. now apply (H R D m tp msg).
    + intros m tp msg t t' C. now apply (H unit (fun _ => Ret tt) m tp msg).
    + intros m tp msg t z m1 tp1 i. apply simulator_grows.
    + intros R D m tp msg LT E. destruct (until_at_chances _ _ _ _ _ _ _ (proj2 (proj2 (H R D m tp msg)) LT)) as (_ & _ & C). specialize (C E).
      unfold chances in *. rewrite (count_ext' _ (fun l => E (real s sd msg D m tp (mkSt e (vec l) 0)))) by (intros; now rewrite RE). etransitivity; [|exact C]. apply Z.mul_le_mono_nonneg_r; [lia|exact H8].
  - destruct (trom_zk_at U V w0 H1 H2 T sd ord e e0 H3 H4 H5 H6 H7 H8 path x G H9 H10) as (n & q & H). exists n, q.
    assert (RE : forall R (D : res nizk -> prog R) m tp msg t, sample (pbind (p_real (tree_party T sd e e0) msg t) D) m tp = treal T sd msg D m tp (mkSt e t 0)).
    { intros R D m tp msg t. unfold treal. cbn [tree_party p_real]. now rewrite pbind_pbind. }
    constructor.
    + destruct (proj2 (proj2 (H unit (fun _ => Ret tt) [] [[]; []] [])) ltac:(cbn; lia)) as (to & of & B & _). exact (proj1 B).
    + intros R D m tp msg t t' C. rewrite !RE. now apply (H R D m tp msg).
    + intros m tp msg t t' C. now apply (H unit (fun _ => Ret tt) m tp msg).
    + intros m tp msg t z m1 tp1 i. apply tsimulator_grows.
    + intros R D m tp msg LT E. destruct (until_at_chances _ _ _ _ _ _ _ (proj2 (proj2 (H R D m tp msg)) LT)) as (_ & _ & C). specialize (C E).
      unfold chances in *. rewrite (count_ext' _ (fun l => E (treal T sd msg D m tp (mkSt e (vec l) 0)))) by (intros; now rewrite RE). etransitivity; [|exact C]. apply Z.mul_le_mono_nonneg_r; [lia|exact H11].
Qed.

Definition sized (Q : Z) (K : party) (s : nat * (nat -> Z)) : Prop := fine Q K (fst s) (snd s).
Definition alike_tapes := Forall2 (fun (s : nat * (nat -> Z)) (p : (nat -> Z) * (nat -> Z)) => congr (fst s) (snd s) (fst p) (snd p)).

Lemma many_same Q Ks sz : Forall2 (sized Q) Ks sz -> forall ps, alike_tapes sz ps -> forall R (v : obs R),
  (forall m tp, sample (oreal v (combine Ks (map fst ps))) m tp = sample (oreal v (combine Ks (map snd ps))) m tp) /\
  (forall m tp, oideal v (combine Ks (map fst ps)) m tp = oideal v (combine Ks (map snd ps)) m tp).
Proof.
  intros F ps A R v. revert Ks sz ps F A. induction v as [r|b k IH|msg k IH|k IH]; intros Ks sz ps F A.
  - split; reflexivity.
  - split; intros m tp; cbn [oreal sample oideal].
    + destruct (look m b); [apply (IH _ Ks sz ps F A)|]. destruct tp; [reflexivity|apply (IH _ Ks sz ps F A)].
    + destruct (reply m tp b) as [[[y m1] tp1]|]; [|reflexivity]. apply (IH _ Ks sz ps F A).
  - destruct F as [|K s Ks sz FK F]; inversion A as [|? [t t'] ? ps' C A']; subst; cbn [map combine fst snd]; [split; reflexivity|].
    cbn [fst snd] in C. split; intros m tp; cbn [oreal oideal].
    + rewrite (fi_real Q K _ _ FK _ _ m tp msg t t' C). apply pbind_ext. intros z m1 tp1. apply (IH z Ks sz ps' F A').
    + rewrite (fi_sim Q K _ _ FK m tp msg t t' C). destruct (p_sim K msg m tp t') as [[[[z m1] tp1] i]|]; [|reflexivity]. apply (IH z Ks sz ps' F A').
  - destruct F as [|K s Ks sz FK F]; inversion A as [|? [t t'] ? ps' C A']; subst; cbn [map combine fst snd]; [split; reflexivity|].
    cbn [oreal oideal]. apply (IH Ks sz ps' F A').
Qed.

Lemma boxes_nonneg sz : 0 <= len (boxes sz). Proof. apply len_nonneg. Qed.
Lemma many_close Q Ks sz : 0 <= Q -> Forall2 (sized Q) Ks sz -> forall R (v : obs R) a m tp, oasks a v -> (a + 2 * List.length Ks <= List.length tp)%nat -> forall E,
  Q * Z.abs (all_chances sz E (fun ts => sample (oreal v (combine Ks ts)) m tp) - all_chances sz E (fun ts => oideal v (combine Ks ts) m tp))
  <= len Ks * (len m + Z.of_nat a + 2 * len Ks) * len (boxes sz).
Proof.
  intros QP F R v. revert Ks sz F. induction v as [r|b k IH|msg k IH|k IH]; intros Ks sz F a m tp A LT E.
  - cbn [oreal oideal sample]. rewrite Z.sub_diag, Z.abs_0, Z.mul_0_r. pose proof (boxes_nonneg sz). pose proof (len_nonneg Ks). pose proof (len_nonneg m). apply Z.mul_nonneg_nonneg; [|lia]. apply Z.mul_nonneg_nonneg; lia.
  - cbn [oasks] in A. destruct a as [|a]; [destruct A|]. destruct (reply_some m tp b ltac:(lia)) as (y & m1 & tp1 & RE).
    assert (G := reply_grows _ _ _ _ _ _ RE). specialize (IH y Ks sz F a m1 tp1 (A y) ltac:(lia) E).
    unfold all_chances in *. erewrite (count_ext' _ (fun l => E (sample (oreal (k y) (combine Ks (map vec l))) m1 tp1))).
    2:{ intros l _. cbn [oreal]. rewrite sample_ask, RE. reflexivity. }
    erewrite (count_ext' (fun l => E (oideal (OAsk b k) _ m tp)) (fun l => E (oideal (k y) (combine Ks (map vec l)) m1 tp1))).
    2:{ intros l _. cbn [oideal]. now rewrite RE. }
    etransitivity; [exact IH|]. apply Z.mul_le_mono_nonneg_r; [apply boxes_nonneg|]. apply Z.mul_le_mono_nonneg_l; [apply len_nonneg|]. lia.
  - destruct F as [|K [n q] Ks sz FK F].
    { unfold all_chances. cbn. rewrite Z.sub_diag. cbn. rewrite Z.mul_0_r. apply Z.le_refl. }
    cbn [oasks] in A. cbn [List.length] in LT. unfold sized in FK. cbn [fst snd] in FK.
    unfold all_chances. cbn [boxes]. rewrite !count_rows, len_rows. cbn [map combine oreal oideal].
    set (real1 l ts := E (sample (pbind (p_real K msg (vec l)) (fun z => oreal (k z) (combine Ks (map vec ts)))) m tp)).
    set (mid l ts := E (match p_sim K msg m tp (vec l) with Some (z, m, tp, _) => sample (oreal (k z) (combine Ks (map vec ts))) m tp | None => None end)).
    set (ideal1 l ts := E (match p_sim K msg m tp (vec l) with Some (z, m, tp, _) => oideal (k z) (combine Ks (map vec ts)) m tp | None => None end)).
    change (Q * Z.abs (tot (fun l => count (fun ts => real1 l ts) (boxes sz)) (box n q) - tot (fun l => count (fun ts => ideal1 l ts) (boxes sz)) (box n q))
      <= len (K :: Ks) * (len m + Z.of_nat a + 2 * len (K :: Ks)) * (len (box n q) * len (boxes sz))).
    assert (S1 : Q * Z.abs (tot (fun l => count (fun ts => real1 l ts) (boxes sz)) (box n q) - tot (fun l => count (fun ts => mid l ts) (boxes sz)) (box n q)) <=
      len m * len (box n q) * len (boxes sz)).
    { rewrite (tot_swap real1), (tot_swap mid). apply tot_close; [exact QP|]. intros ts _.
      exact (fi_close Q K n q FK _ (fun z => oreal (k z) (combine Ks (map vec ts))) m tp msg ltac:(lia) E). }
    assert (S2 : Q * Z.abs (tot (fun l => count (fun ts => mid l ts) (boxes sz)) (box n q) - tot (fun l => count (fun ts => ideal1 l ts) (boxes sz)) (box n q)) <=
      (len Ks * (len m + 2 + Z.of_nat a + 2 * len Ks) * len (boxes sz)) * len (box n q)).
    { apply tot_close; [exact QP|]. intros l _. unfold mid, ideal1. destruct (p_sim K msg m tp (vec l)) as [[[[z m1] tp1] i]|] eqn:PS.
      - destruct (fi_grow Q K n q FK _ _ _ _ _ _ _ _ PS) as [G1 G2]. specialize (IH z Ks sz F a m1 tp1 (A z) ltac:(lia) E). unfold all_chances in IH.
        etransitivity; [exact IH|]. apply Z.mul_le_mono_nonneg_r; [apply boxes_nonneg|]. apply Z.mul_le_mono_nonneg_l; [apply len_nonneg|]. lia.
      - rewrite Z.sub_diag, Z.abs_0, Z.mul_0_r. pose proof (len_nonneg Ks). pose proof (len_nonneg m). apply Z.mul_nonneg_nonneg; [|apply boxes_nonneg]. apply Z.mul_nonneg_nonneg; lia. }
    rewrite len_cons. set (X := tot _ _) in S1 |- *. set (Y := tot _ _) in S1, S2. set (V := tot _ _) in S2 |- *.
    assert (TR : Q * Z.abs (X - V) <= Q * Z.abs (X - Y) + Q * Z.abs (Y - V)) by (rewrite <- Z.mul_add_distr_l; apply Z.mul_le_mono_nonneg_l; lia).
    set (nK := len Ks) in *. set (B := len m + Z.of_nat a) in *. set (bb := len (box n q)) in *. set (rr := len (boxes sz)) in *.
    assert (P1 : 0 <= nK) by apply len_nonneg. assert (P2 : 0 <= bb * rr) by (apply Z.mul_nonneg_nonneg; apply len_nonneg). pose proof (len_nonneg m).
    etransitivity; [exact TR|]. etransitivity; [exact (Z.add_le_mono _ _ _ _ S1 S2)|].
    replace (len m * bb * rr + nK * (len m + 2 + Z.of_nat a + 2 * nK) * rr * bb) with ((len m + nK * (B + 2 + 2 * nK)) * (bb * rr)) by (unfold B; ring).
    apply Z.mul_le_mono_nonneg_r; [exact P2|]. unfold B. nia.
  - destruct F as [|K [n q] Ks sz FK F].
    { unfold all_chances. cbn. rewrite Z.sub_diag. cbn. rewrite Z.mul_0_r. apply Z.le_refl. }
    cbn [oasks] in A. cbn [List.length] in LT. unfold all_chances. cbn [boxes]. rewrite !count_rows, len_rows. cbn [map combine oreal oideal].
    specialize (IH Ks sz F a m tp A ltac:(lia) E). unfold all_chances in IH.
    etransitivity; [apply (tot_close _ _ Q (len Ks * (len m + Z.of_nat a + 2 * len Ks) * len (boxes sz)) (box n q) QP); intros l _; exact IH|].
    rewrite len_cons. pose proof (len_nonneg Ks). pose proof (len_nonneg m). pose proof (boxes_nonneg sz). pose proof (len_nonneg (box n q)).
    set (nK := len Ks) in *. rewrite <- Z.mul_assoc. rewrite (Z.mul_comm (len (boxes sz))). apply Z.mul_le_mono_nonneg_r; [apply Z.mul_nonneg_nonneg; auto|]. nia.
Qed.

Theorem many_zk Q Ks : 0 <= Q -> Forall (proves Q) Ks -> exists sz, List.length sz = List.length Ks /\ Forall (fun s => forall j, (j < fst s)%nat -> 1 < snd s j) sz /\
  forall R (v : obs R) a m tp, oasks a v -> (a + 2 * List.length Ks <= List.length tp)%nat ->
  let f ts := sample (oreal v (combine Ks ts)) m tp in let g ts := oideal v (combine Ks ts) m tp in
  (forall ps, Forall2 (fun s p => congr (fst s) (snd s) (fst p) (snd p)) sz ps -> f (map fst ps) = f (map snd ps) /\ g (map fst ps) = g (map snd ps)) /\
  forall E, Q * Z.abs (all_chances sz E f - all_chances sz E g) <= len Ks * (len m + Z.of_nat a + 2 * len Ks) * len (boxes sz).
Proof.
  intros QP F. assert (S : exists sz, Forall2 (sized Q) Ks sz).
  { induction F as [|K Ks H F (sz & IH)]; [exists []; constructor|]. destruct (proves_fine Q K H) as (n & q & FK). exists ((n, q) :: sz). now constructor. }
  destruct S as (sz & S). exists sz. split; [clear F; induction S; cbn; congruence|]. split.
  { clear F. induction S as [|K s Ks sz H S IH]; constructor; [exact (fi_q _ _ _ _ H)|exact IH]. }
  intros R v a m tp A LT f g. split.
  - intros ps C. destruct (many_same Q Ks sz S ps C R v) as [M1 M2]. split; [apply M1|apply M2].
  - intros E. exact (many_close Q Ks sz QP S R v a m tp A LT E).
Qed.
End O.

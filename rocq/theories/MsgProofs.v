(** Decoding reads exactly the byte strings of [MsgSpec.v] (C96). *)
From Coq Require Import String Lia.
From Verif Require Import Base World Val Expr Utils Stmt Prove Wire Wire2 MsgSpec.
Open Scope Z_scope.
Open Scope list_scope.

Lemma number_be h : number h = be_int h.
Proof.
  assert (G : forall a, fold_left (fun acc a => 256 * acc + int_of a) h a = a * 256 ^ Z.of_nat (List.length h) + number h).
  { induction h as [|c h I]; intros a; [simpl; lia|]. cbn [fold_left number]. rewrite I. fold (int_of c).
    cbn [List.length]. rewrite Nat2Z.inj_succ, Z.pow_succ_r by lia. ring. }
  unfold be_int. now rewrite G.
Qed.
Lemma byte_int z c : byte z c -> int_of c = z. Proof. now intros [_ H]. Qed.
Lemma int_byte z c : int_of c = z -> byte z c.
Proof. intros <-. split; [apply int_of_range|reflexivity]. Qed.
Lemma take_len {A} n (l d : list A) r : take n l = Some (d, r) -> 0 <= n -> l = d ++ r /\ Z.of_nat (List.length d) = n.
Proof.
  unfold take, len. destruct (n <=? _) eqn:E; [|discriminate]. intros [= <- <-] N. apply Z.leb_le in E. split; [now rewrite firstn_skipn|].
  rewrite firstn_length. lia.
Qed.
Lemma take_at {A} n (d r : list A) : Z.of_nat (List.length d) = n -> take n (d ++ r) = Some (d, r).
Proof. intros <-. apply (take_app d r). Qed.

Definition code (k : family) : Z := match k with Text => 219 | Binary => 198 | Extension => 201 | Array => 221 | Map => 223 end.
Lemma header_read k n h : header k n h -> exists c l, h = c :: l /\ int_of c <> 192 /\ forall r, rdhdr (int_of c) (l ++ r) = Some (code k, n, r).
Proof.
  assert (T : forall a b x y : Z, (a <=? x) && (x <? b) = true -> a <= x < b) by (intros; rewrite andb_true_iff, Z.leb_le, Z.ltb_lt in *; lia).
  assert (F : forall a b x : Z, x < a \/ b <= x -> (a <=? x) && (x <? b) = false) by (intros a b x [?|?]; apply andb_false_iff; [left; apply Z.leb_gt|right; apply Z.ltb_ge]; lia).
  assert (Y : forall a b x : Z, a <= x < b -> (a <=? x) && (x <? b) = true) by (intros; rewrite andb_true_iff, Z.leb_le, Z.ltb_lt; lia).
  destruct 1 as [n c L B N|n c L B N|n c L B N|i c I B|k t w c h I B L]; apply byte_int in B; (eexists; eexists; split; [reflexivity|]); rewrite B.
  - split; [lia|]. intros r. unfold rdhdr. rewrite Y by lia. cbn [app code]. do 3 f_equal. lia.
  - split; [lia|]. intros r. unfold rdhdr. rewrite F, Y by lia. cbn [app code]. do 3 f_equal. lia.
  - split; [lia|]. intros r. unfold rdhdr. rewrite F, F, Y by lia. cbn [app code]. do 3 f_equal. lia.
  - split; [lia|]. intros r. unfold rdhdr. rewrite F, F, F, Y by lia. cbn [app code]. do 4 f_equal. lia.
  - rewrite number_be. destruct k; simpl in I;
    repeat (destruct I as [I|I]; [injection I as <- <-; split; [lia|]; intros r;
      match goal with |- rdhdr _ _ = Some (code ?k, _, _) => match type of L with _ = ?w =>
        change (obind (take (Z.of_nat w) (h ++ r)) (fun '(h, r0) => Some (code k, be_int h, r0)) = Some (code k, be_int h, r)) end end;
      now rewrite (take_at _ h r (f_equal Z.of_nat L))|]); destruct I.
Qed.
Lemma read_header c b t n r : rdhdr (int_of c) b = Some (t, n, r) -> exists k l, t = code k /\ b = l ++ r /\ header k n (c :: l).
Proof.
  unfold rdhdr. cbv zeta. assert (R := int_of_range c).
  assert (S : forall t' k w, In (int_of c, w) (sizes k) -> (let* (h, r0) := take (Z.of_nat w) b in Some (t', be_int h, r0)) = Some (t, n, r) -> t' = code k ->
    exists k l, t = code k /\ b = l ++ r /\ header k n (c :: l)).
  { intros t' k w I. destruct (take (Z.of_nat w) b) as [[h r0]|] eqn:E; [|discriminate]. simpl. intros [= <- <- <-] ->. apply take_len in E as [E L]; [|lia].
    exists k, h. split; [reflexivity|]. split; [exact E|]. rewrite <- number_be. apply HSized with (int_of c) w; [exact I|now apply int_byte|lia]. }
  destruct ((128 <=? int_of c) && _) eqn:E1.
  { rewrite andb_true_iff, Z.leb_le, Z.ltb_lt in E1. intros [= <- <- <-]. exists Map, []. split; [reflexivity|]. split; [reflexivity|]. apply HMap; [lia|apply int_byte; lia|lia]. }
  destruct ((144 <=? int_of c) && _) eqn:E2.
  { rewrite andb_true_iff, Z.leb_le, Z.ltb_lt in E2. intros [= <- <- <-]. exists Array, []. split; [reflexivity|]. split; [reflexivity|]. apply HArray; [lia|apply int_byte; lia|lia]. }
  destruct ((160 <=? int_of c) && _) eqn:E3.
  { rewrite andb_true_iff, Z.leb_le, Z.ltb_lt in E3. intros [= <- <- <-]. exists Text, []. split; [reflexivity|]. split; [reflexivity|]. apply HText; [lia|apply int_byte; lia|lia]. }
  destruct ((212 <=? int_of c) && _) eqn:E4.
  { rewrite andb_true_iff, Z.leb_le, Z.ltb_lt in E4. intros [= <- <- <-]. exists Extension, []. split; [reflexivity|]. split; [reflexivity|]. apply HExt; [lia|apply int_byte; lia]. }
  clear E1 E2 E3 E4.
  repeat match goal with |- (if ?x =? ?y then _ else _) = _ -> _ => let E := fresh "E" in destruct (x =? y) eqn:E;
    [apply Z.eqb_eq in E|] end; try discriminate.
  - intros H. apply (S _ Binary 1%nat) in H; auto. rewrite E; simpl; auto.
  - intros H. apply (S _ Binary 2%nat) in H; auto. rewrite E0; simpl; auto.
  - intros H. apply (S _ Binary 4%nat) in H; auto. rewrite E1; simpl; auto.
  - intros H. apply (S _ Extension 1%nat) in H; auto. rewrite E2; simpl; auto.
  - intros H. apply (S _ Extension 2%nat) in H; auto. rewrite E3; simpl; auto.
  - intros H. apply (S _ Extension 4%nat) in H; auto. rewrite E4; simpl; auto.
  - intros H. apply (S _ Text 1%nat) in H; auto. rewrite E5; simpl; auto.
  - intros H. apply (S _ Text 2%nat) in H; auto. rewrite E6; simpl; auto.
  - intros H. apply (S _ Text 4%nat) in H; auto. rewrite E7; simpl; auto.
  - intros H. apply (S _ Array 2%nat) in H; auto. rewrite E8; simpl; auto.
  - intros H. apply (S _ Array 4%nat) in H; auto. rewrite E9; simpl; auto.
  - intros H. apply (S _ Map 2%nat) in H; auto. rewrite E10; simpl; auto.
  - intros H. apply (S _ Map 4%nat) in H; auto. rewrite E11; simpl; auto.
Qed.

Section P.
Context {W : World}.

(** ** What is read *)
Lemma unpack_head f k n h r : header k n h -> unpack (S f) (h ++ r) = body (unpack f) (code k) n r.
Proof.
  intros H. destruct (header_read _ _ _ H) as (c & l & -> & N & R). cbn [app]. rewrite unpack_S. apply Z.eqb_neq in N. rewrite N.
  rewrite (rdhdr_not _ _ _ (l ++ r) (R r)), R. reflexivity.
Qed.
Lemma header_len k n h : header k n h -> (1 <= List.length h)%nat.
Proof. intros H. destruct (header_read _ _ _ H) as (c & l & -> & _). simpl. lia. Qed.

Scheme msg_i := Induction for msg Sort Prop with msgs_i := Induction for msgs Sort Prop with entries_i := Induction for entries Sort Prop.
Combined Scheme msg_mut from msg_i, msgs_i, entries_i.

Lemma msg_len v b : msg v b -> (1 <= List.length b)%nat.
Proof. destruct 1; simpl; rewrite ?app_length; try lia; match goal with H : header _ _ _ |- _ => apply header_len in H; lia end. Qed.
Lemma msgs_len l b : msgs l b -> (List.length l <= List.length b)%nat.
Proof. induction 1; simpl; [lia|]. rewrite app_length. apply msg_len in H. lia. Qed.
Lemma entries_len l b : entries l b -> (List.length l <= List.length b)%nat.
Proof. induction 1; simpl; [lia|]. rewrite !app_length. apply msg_len in H, H0. lia. Qed.

Lemma signed_value i h z : 0 <= i <= 3 -> Z.of_nat (List.length h) = 2 ^ i -> (256 ^ 2 ^ i | z - number h) -> - 256 ^ 2 ^ i <= 2 * z < 256 ^ 2 ^ i ->
  (if be_int h <? 256 ^ len h / 2 then be_int h else be_int h - 256 ^ len h) = z.
Proof.
  intros I L D B. rewrite number_be in D. assert (R := be_int_range h). unfold len in *. rewrite L in *. set (M := 256 ^ 2 ^ i) in *.
  assert (M2 : M = 2 * (M / 2)).
  { unfold M. assert (0 < 2 ^ i) by (apply Z.pow_pos_nonneg; lia). replace (2 ^ i) with (Z.succ (2 ^ i - 1)) by lia. rewrite Z.pow_succ_r by lia.
    replace (256 * 256 ^ (2 ^ i - 1)) with (128 * 256 ^ (2 ^ i - 1) * 2) by ring. rewrite Z.div_mul by lia. ring. }
  destruct D as [q D]. destruct (Z.ltb_spec (be_int h) (M / 2)).
  - assert (q = 0) by nia. subst q. lia.
  - assert (q = -1) by nia. subst q. lia.
Qed.

Lemma reads : (forall v b, msg v b -> forall f r, (List.length b < f)%nat -> unpack f (b ++ r) = Some (v, r)) /\
  (forall l b, msgs l b -> forall f r, (List.length b < f)%nat -> items_of (unpack f) (List.length l) (b ++ r) = Some (l, r)) /\
  (forall d b, entries d b -> forall f r, (List.length b < f)%nat -> entries_of (unpack f) (List.length d) (b ++ r) = Some (d, r)).
Proof.
  apply (msg_mut _ (fun v b _ => forall f r, (List.length b < f)%nat -> unpack f (b ++ r) = Some (v, r))
    (fun l b _ => forall f r, (List.length b < f)%nat -> items_of (unpack f) (List.length l) (b ++ r) = Some (l, r))
    (fun d b _ => forall f r, (List.length b < f)%nat -> entries_of (unpack f) (List.length d) (b ++ r) = Some (d, r))).
  - intros c B f r L. destruct f; [simpl in L; lia|]. cbn [app]. rewrite unpack_S, (byte_int _ _ B). reflexivity.
  - intros z c N B f r L. destruct f; [simpl in L; lia|]. assert (B' := proj1 B). cbn [app]. rewrite unpack_S, (byte_int _ _ B).
    destruct (Z.eqb_spec z 192); [lia|]. unfold rdint. destruct (Z.ltb_spec z 128); [reflexivity|lia].
  - intros z c N B f r L. destruct f; [simpl in L; lia|]. cbn [app]. rewrite unpack_S, (byte_int _ _ B).
    destruct (Z.eqb_spec (256 + z) 192); [lia|]. unfold rdint. destruct (Z.ltb_spec (256 + z) 128); [lia|]. destruct (Z.leb_spec 224 (256 + z)); [|lia]. do 3 f_equal. lia.
  - intros i c h I B Lh f r L. destruct f; [simpl in L; lia|]. cbn [app]. rewrite unpack_S, (byte_int _ _ B), number_be.
    destruct (Z.eqb_spec (204 + i) 192); [lia|]. unfold rdint. destruct (Z.ltb_spec (204 + i) 128); [lia|]. destruct (Z.leb_spec 224 (204 + i)); [lia|].
    destruct (Z.leb_spec 204 (204 + i)); [|lia]. destruct (Z.ltb_spec (204 + i) 208); [|lia]. cbn [andb]. rewrite (take_at _ h r); [reflexivity|]. rewrite Lh. f_equal. lia.
  - intros i c h z I B Lh D Bz f r L. destruct f; [simpl in L; lia|]. cbn [app]. rewrite unpack_S, (byte_int _ _ B).
    destruct (Z.eqb_spec (208 + i) 192); [lia|]. unfold rdint. destruct (Z.ltb_spec (208 + i) 128); [lia|]. destruct (Z.leb_spec 224 (208 + i)); [lia|].
    destruct (Z.leb_spec 204 (208 + i)); [|lia]. destruct (Z.ltb_spec (208 + i) 208); [lia|]. destruct (Z.leb_spec 208 (208 + i)); [|lia]. destruct (Z.ltb_spec (208 + i) 212); [|lia].
    cbn [andb]. rewrite (take_at _ h r) by (rewrite Lh; f_equal; lia). cbn [obind]. now rewrite (signed_value i h z I Lh D Bz).
  - intros h c d H B f r L. destruct f; [lia|]. rewrite <- app_assoc, (unpack_head _ _ _ _ _ H). cbn [app code]. unfold body. cbn [Z.eqb Pos.eqb].
    rewrite (take_at _ ("+"%char :: d) r) by reflexivity. cbn [obind]. rewrite (byte_int _ _ B), number_be. reflexivity.
  - intros h c d H B f r L. destruct f; [lia|]. rewrite <- app_assoc, (unpack_head _ _ _ _ _ H). cbn [app code]. unfold body. cbn [Z.eqb Pos.eqb].
    rewrite (take_at _ ("-"%char :: d) r) by reflexivity. cbn [obind]. rewrite (byte_int _ _ B), number_be. reflexivity.
  - intros p h c d H B P f r L. destruct f; [lia|]. rewrite <- app_assoc, (unpack_head _ _ _ _ _ H). cbn [app code]. unfold body. cbn [Z.eqb Pos.eqb].
    rewrite (take_at _ d r) by reflexivity. cbn [obind]. rewrite (byte_int _ _ B). cbn [Z.eqb]. now rewrite P.
  - intros s h H f r L. destruct f; [lia|]. rewrite <- app_assoc, (unpack_head _ _ _ _ _ H). cbn [code]. unfold body. cbn [Z.eqb Pos.eqb].
    now rewrite (take_at _ s r) by reflexivity.
  - intros s h H f r L. destruct f; [lia|]. rewrite <- app_assoc, (unpack_head _ _ _ _ _ H). cbn [code]. unfold body. cbn [Z.eqb Pos.eqb].
    now rewrite (take_at _ s r) by reflexivity.
  - intros l h b H M I f r L. destruct f; [lia|]. rewrite <- app_assoc, (unpack_head _ _ _ _ _ H). cbn [code]. unfold body. cbn [Z.eqb Pos.eqb].
    rewrite app_length in L. apply header_len in H. apply msgs_len in M. unfold len. rewrite app_length.
    destruct (Z.leb_spec (Z.of_nat (List.length l)) (Z.of_nat (List.length b + List.length r))); [|lia]. rewrite Nat2Z.id, I by lia. reflexivity.
  - intros l h b H M I f r L. destruct f; [lia|]. rewrite <- app_assoc, (unpack_head _ _ _ _ _ H). cbn [code]. unfold body. cbn [Z.eqb Pos.eqb].
    rewrite app_length in L. apply header_len in H. apply entries_len in M. unfold len. rewrite app_length.
    destruct (Z.leb_spec (Z.of_nat (List.length l)) (Z.of_nat (List.length b + List.length r))); [|lia]. rewrite Nat2Z.id, I by lia. reflexivity.
  - intros f r _. reflexivity.
  - intros v b l c M I Ms Is f r L. rewrite app_length in L. cbn [List.length items_of]. rewrite <- app_assoc, I by lia. cbn [obind]. fold (items_of (unpack f)). rewrite Is by lia. reflexivity.
  - intros f r _. reflexivity.
  - intros k a v b d c Mk Ik M I Ms Is f r L. rewrite !app_length in L. cbn [List.length entries_of]. rewrite <- !app_assoc, Ik by lia. cbn [obind]. rewrite I by lia. cbn [obind].
    fold (entries_of (unpack f)). rewrite Is by lia. reflexivity.
Qed.

(** ** What has been read *)
Definition honestly (f : bytes -> option (val * bytes)) : Prop := forall b v r, f b = Some (v, r) -> exists p, b = p ++ r /\ msg v p.
Lemma items_read f : honestly f -> forall n b l r, items_of f n b = Some (l, r) -> List.length l = n /\ exists p, b = p ++ r /\ msgs l p.
Proof.
  intros F. induction n as [|n I]; intros b l r; simpl; [intros [= <- <-]; split; [reflexivity|]; exists []; split; [reflexivity|constructor]|].
  destruct (f b) as [[v b1]|] eqn:E; [|discriminate]. simpl. destruct (items_of f n b1) as [[l1 b2]|] eqn:E2; [|discriminate]. simpl. intros [= <- <-].
  apply F in E as (p & -> & M). apply I in E2 as (<- & q & -> & Q). split; [reflexivity|]. exists (p ++ q). split; [apply app_assoc|now constructor].
Qed.
Lemma entries_read f : honestly f -> forall n b l r, entries_of f n b = Some (l, r) -> List.length l = n /\ exists p, b = p ++ r /\ entries l p.
Proof.
  intros F. induction n as [|n I]; intros b l r; simpl; [intros [= <- <-]; split; [reflexivity|]; exists []; split; [reflexivity|constructor]|].
  destruct (f b) as [[k b1]|] eqn:E; [|discriminate]. simpl. destruct (f b1) as [[v b2]|] eqn:E1; [|discriminate]. simpl.
  destruct (entries_of f n b2) as [[l1 b3]|] eqn:E2; [|discriminate]. simpl. destruct k; try discriminate. intros [= <- <-].
  apply F in E as (p & -> & M). apply F in E1 as (p1 & -> & M1). apply I in E2 as (<- & q & -> & Q). split; [reflexivity|]. exists (p ++ p1 ++ q). split; [now rewrite <- !app_assoc|now constructor].
Qed.
Lemma read_int c b z r : rdint (int_of c) b = Some (z, r) -> exists p, b = p ++ r /\ msg (VInt z) (c :: p).
Proof.
  assert (R := int_of_range c). unfold rdint. destruct (Z.ltb_spec (int_of c) 128).
  { intros [= <- <-]. exists []. split; [reflexivity|]. apply MSmall; [lia|now apply int_byte]. }
  destruct (Z.leb_spec 224 (int_of c)).
  { intros [= <- <-]. exists []. split; [reflexivity|]. apply MNeg; [lia|apply int_byte; lia]. }
  destruct (Z.leb_spec 204 (int_of c)); destruct (Z.ltb_spec (int_of c) 208); cbn [andb]; try lia.
  - destruct (take _ b) as [[h l]|] eqn:E; [|discriminate]. cbn [obind]. intros [= <- <-]. apply take_len in E as [-> L]; [|apply Z.pow_nonneg; lia].
    exists h. split; [reflexivity|]. rewrite <- number_be. apply MUnsigned with (int_of c - 204); [lia|apply int_byte; lia|exact L].
  - destruct (Z.leb_spec 208 (int_of c)); [|lia]. destruct (Z.ltb_spec (int_of c) 212); cbn [andb]; [|discriminate].
    destruct (take _ b) as [[h l]|] eqn:E; [|discriminate]. cbn [obind]. intros [= <- <-]. apply take_len in E as [-> L]; [|apply Z.pow_nonneg; lia].
    exists h. split; [reflexivity|]. assert (B := be_int_range h). unfold len in *. rewrite L in *. set (M := 256 ^ 2 ^ (int_of c - 208)) in *.
    assert (M2 := Z.div_mod M 2 ltac:(lia)). assert (M3 := Z.mod_pos_bound M 2 ltac:(lia)).
    assert (M4 : M mod 2 = 0).
    { unfold M. assert (0 < 2 ^ (int_of c - 208)) by (apply Z.pow_pos_nonneg; lia). replace (2 ^ (int_of c - 208)) with (Z.succ (2 ^ (int_of c - 208) - 1)) by lia. rewrite Z.pow_succ_r by lia.
      replace (256 * 256 ^ (2 ^ (int_of c - 208) - 1)) with (128 * 256 ^ (2 ^ (int_of c - 208) - 1) * 2) by ring. apply Z.mod_mul. lia. }
    apply MSigned with (int_of c - 208); [lia|apply int_byte; lia|exact L| |]; fold M; rewrite ?number_be; destruct (Z.ltb_spec (be_int h) (M / 2)).
    + exists 0. lia.
    + exists (-1). lia.
    + lia.
    + lia.
  - destruct (Z.leb_spec 208 (int_of c)); [lia|]. discriminate.
Qed.
Lemma read_body f k n h b v r : honestly f -> header k n h -> 0 <= n -> body f (code k) n b = Some (v, r) -> exists p, b = p ++ r /\ msg v (h ++ p).
Proof.
  intros F H N. unfold body. destruct k; cbn [code Z.eqb Pos.eqb].
  - destruct (take n b) as [[d b1]|] eqn:E; [|discriminate]. simpl. intros [= <- <-]. apply take_len in E as [-> <-]; [|exact N]. exists d. split; [reflexivity|now constructor].
  - destruct (take n b) as [[d b1]|] eqn:E; [|discriminate]. simpl. intros [= <- <-]. apply take_len in E as [-> <-]; [|exact N]. exists d. split; [reflexivity|now constructor].
  - destruct b as [|c b]; [discriminate|]. destruct (take n b) as [[d b1]|] eqn:E; [|discriminate]. cbn [obind]. apply take_len in E as [-> <-]; [|exact N].
    destruct (Z.eqb_spec (int_of c) 0) as [C|C].
    + destruct d as [|s d]; [discriminate|]. unfold bn_of_data. destruct (Ascii.eqb_spec s "+"); [|destruct (Ascii.eqb_spec s "-"); [|discriminate]]; cbn [obind]; intros [= <- <-]; subst s;
        rewrite <- number_be; eexists; (split; [now rewrite app_comm_cons|]); [apply MBig|apply MBigNeg]; auto; now apply int_byte.
    + destruct (Z.eqb_spec (int_of c) 2) as [C2|C2]; [|discriminate]. destruct (import_pt d) eqn:P; [|discriminate]. cbn [obind]. intros [= <- <-].
      exists (c :: d). split; [reflexivity|]. apply MPoint; auto. now apply int_byte.
  - destruct (n <=? len b); [|discriminate]. destruct (items_of f (Z.to_nat n) b) as [[l b1]|] eqn:E; [|discriminate]. simpl. intros [= <- <-].
    apply (items_read f F) in E as (L & p & -> & M). exists p. split; [reflexivity|]. constructor; [|exact M]. rewrite L, Z2Nat.id by exact N. exact H.
  - destruct (n <=? len b); [|discriminate]. destruct (entries_of f (Z.to_nat n) b) as [[l b1]|] eqn:E; [|discriminate]. simpl. intros [= <- <-].
    apply (entries_read f F) in E as (L & p & -> & M). exists p. split; [reflexivity|]. constructor; [|exact M]. rewrite L, Z2Nat.id by exact N. exact H.
Qed.
Lemma header_pos k n h : header k n h -> 0 <= n.
Proof. destruct 1; try lia. rewrite number_be. apply be_int_range. Qed.
Lemma read_all f : honestly (unpack f).
Proof.
  induction f as [|f I]; intros b v r; [discriminate|]. destruct b as [|c b]; [discriminate|]. rewrite unpack_S. destruct (Z.eqb_spec (int_of c) 192) as [E|E].
  { intros [= <- <-]. exists [c]. split; [reflexivity|]. constructor. now apply int_byte. }
  destruct (rdint (int_of c) b) as [[z b1]|] eqn:EI.
  { intros [= <- <-]. apply read_int in EI as (p & -> & M). exists (c :: p). split; [reflexivity|exact M]. }
  destruct (rdhdr (int_of c) b) as [[[t n] b1]|] eqn:EH; [|discriminate]. cbn [obind]. apply read_header in EH as (k & l & -> & -> & H). intros B.
  destruct (read_body _ _ _ _ _ _ _ I H (header_pos _ _ _ H) B) as (p & -> & M). exists ((c :: l) ++ p). split; [now rewrite <- app_assoc|exact M].
Qed.

Theorem decodes b v : decode b = Ok v <-> msg v b.
Proof.
  unfold decode. split.
  - destruct (unpack (S (List.length b)) b) as [[w [|x r]]|] eqn:E; try discriminate. intros [= <-]. apply read_all in E as (p & -> & M). now rewrite app_nil_r.
  - intros M. destruct reads as (R & _). specialize (R _ _ M (S (List.length b)) [] ltac:(lia)). rewrite app_nil_r in R. now rewrite R.
Qed.

Lemma bytes_items l x : rmap (fun x => match x with VBytes b => decode b | _ => Err ETypeErr end) l = Ok x ->
  exists bs, l = map VBytes bs /\ Forall2 msg x bs.
Proof.
  revert x. induction l as [|v l I]; intros x; simpl; [intros [= <-]; exists []; split; [reflexivity|constructor]|].
  destruct v as [|z|p|s0|s|l0|l0|d0]; try discriminate. destruct (decode s) as [w|] eqn:E; [|discriminate]. simpl.
  destruct (rmap _ l) as [y|]; [|discriminate]. simpl. intros [= <-]. destruct (I _ eq_refl) as (bs & -> & F). exists (s :: bs). split; [reflexivity|].
  constructor; [now apply decodes|exact F].
Qed.
Lemma not_bytes (l : list val) x : Forall (fun v => match v with VBytes _ => False | _ => True end) l ->
  rmap (fun x => match x with VBytes b => decode b | _ => Err ETypeErr end) l = Ok x -> x = [].
Proof. destruct 1 as [|v l N _]; simpl; [now intros [= <-]|]. destruct v; try discriminate; destruct N. Qed.
Lemma no_tuple l b : ~ msg (VTuple l) b.
Proof. intros H. inversion H. Qed.

Theorem deserializes b z : deserialize b = Ok z <-> sent z b.
Proof.
  split.
  - unfold deserialize. destruct (decode b) as [v|] eqn:E; [|discriminate]. cbn [rbind]. destruct (as_iter v) as [l|] eqn:A; [|discriminate]. cbn [rbind].
    destruct (rmap _ l) as [x|] eqn:R; [|discriminate]. cbn [rbind]. apply decodes in E. intros H.
    assert (NB : Forall (fun v => match v with VBytes _ => False | _ => True end) l -> False) by (intros N; apply not_bytes in R; [subst x; discriminate|exact N]).
    destruct v; try discriminate A; injection A as <-; try (exfalso; apply NB; apply Forall_map, Forall_forall; intros; exact Logic.I); [|exfalso; exact (no_tuple _ _ E)].
    apply bytes_items in R as (bs & -> & F). destruct F as [|c0 bc x bs Mc F]; [discriminate|]. destruct F as [|r br x bs Mr F]; [discriminate|].
    destruct c0 as [|c| | | | | | ]; try discriminate H. cbn [as_int rbind] in H.
    destruct F as [|p bp x bs Mp F]; [injection H as <-; econstructor; eauto|]. destruct F as [|h bh x bs Mh F]; [injection H as <-; econstructor; eauto|].
    destruct F; [|discriminate]. injection H as <-. econstructor; eauto.
  - unfold deserialize. destruct 1 as [c r bc br b Mc Mr M|c r p bc br bp b Mc Mr Mp M|c r p h bc br bp bh b Mc Mr Mp Mh M];
      rewrite (proj2 (decodes _ _) M); cbn [rbind as_iter rmap];
      rewrite (proj2 (decodes _ _) Mc); cbn [rbind]; rewrite (proj2 (decodes _ _) Mr); cbn [rbind]; try (rewrite (proj2 (decodes _ _) Mp); cbn [rbind]);
      try (rewrite (proj2 (decodes _ _) Mh); cbn [rbind]); reflexivity.
Qed.
End P.

Section Q.
Context {W : World}.
Lemma sent_once z z' b : sent z b -> sent z' b -> z = z'.
Proof. rewrite <- !deserializes. congruence. Qed.
Lemma prefix_free v v' b b' r r' : msg v b -> msg v' b' -> b ++ r = b' ++ r' -> v = v' /\ b = b' /\ r = r'.
Proof.
  intros M M' E. destruct reads as (R & _). set (f := S (List.length b + List.length b')).
  assert (A := R _ _ M f r ltac:(lia)). assert (A' := R _ _ M' f r' ltac:(lia)). rewrite E, A' in A. injection A as -> ->. now apply app_inv_tail in E.
Qed.

(** the header of an array can be written in another way *)
Lemma other_header n h : header Array n h -> 0 <= n < 16 -> exists h', header Array n h' /\ forall r r', h ++ r <> h' ++ r'.
Proof.
  assert (S : forall n, 0 <= n < 16 -> header Array n [byte_of (144 + n)]) by (intros m B; apply HArray; [lia|apply int_byte; rewrite int_of_byte; apply Z.mod_small; lia|lia]).
  assert (L : forall n, 0 <= n < 16 -> header Array n (byte_of 220 :: be_bytes 2 n)).
  { intros m B. rewrite <- (be_int_bytes 2 m) at 1 by (change (256 ^ Z.of_nat 2) with 65536; lia). rewrite <- number_be.
    apply HSized with 220 2%nat; [simpl; auto|apply int_byte; reflexivity|apply be_bytes_length]. }
  intros H. remember Array as k eqn:K. destruct H as [n c ? X ?|n c ? X ?|n c ? X ?|i c ? X|k t w c h I X ?]; try discriminate K; intros B; subst.
  - eexists. split; [apply (L n); lia|]. intros r r' E. injection E as -> _. apply byte_int in X. rewrite int_of_byte in X. change (220 mod 256) with 220 in X. lia.
  - eexists. split; [apply (S (number h)); lia|]. intros r r' E. apply (f_equal (fun l => int_of (hd c l))) in E. cbn [app hd] in E. rewrite (byte_int _ _ X), int_of_byte, Z.mod_small in E by lia.
    simpl in I. destruct I as [I|[I|[]]]; injection I as I _; lia.
Qed.
Lemma other_list l b : msg (VList l) b -> (List.length l < 16)%nat -> exists b', b' <> b /\ msg (VList l) b'.
Proof.
  intros M B. remember (VList l) as v eqn:V. destruct M as [| | | | | | | | | |l0 h b H M|]; try discriminate V. injection V as ->.
  destruct (other_header _ _ H ltac:(lia)) as (h' & H' & N). exists (h' ++ b). split; [intros E; now apply (N b b)|]. now constructor.
Qed.
Lemma sent_twice z b : sent z b -> exists b', b' <> b /\ sent z b'.
Proof.
  destruct 1 as [c r bc br b Mc Mr M|c r p bc br bp b Mc Mr Mp M|c r p h bc br bp bh b Mc Mr Mp Mh M];
    (destruct (other_list _ _ M ltac:(simpl; lia)) as (b' & N & M'); exists b'; split; [exact N|econstructor; eassumption]).
Qed.
Lemma received_twice b z : deserialize b = Ok z -> exists b', b' <> b /\ deserialize b' = Ok z.
Proof. rewrite deserializes. intros H. destruct (sent_twice _ _ H) as (b' & N & H'). exists b'. now rewrite deserializes. Qed.
End Q.

(** Decoding reads a prefix and does not look further: an extension of an encoding is refused. *)
From Coq Require Import String.
From Verif Require Import Base World Val Expr Utils Stmt Prove Wire.
Open Scope Z_scope.
Open Scope list_scope.

Notation "'let*' x ':=' r 'in' k" := (obind r (fun x => k))
  (at level 200, x pattern, right associativity).
Section P.
Context {W : World}.

Lemma take_more {A} n (l d r c : list A) : take n l = Some (d, r) -> take n (l ++ c) = Some (d, r ++ c).
Proof.
  unfold take, len. destruct (n <=? Z.of_nat (List.length l)) eqn:E; [|discriminate]. intros [= <- <-].
  apply Z.leb_le in E. rewrite app_length. destruct (n <=? Z.of_nat (List.length l + List.length c)) eqn:F; [|apply Z.leb_gt in F; lia].
  rewrite firstn_app, skipn_app. replace (Z.to_nat n - List.length l)%nat with 0%nat by lia. simpl. now rewrite app_nil_r.
Qed.
Lemma rdhdr_more t b n r c : rdhdr t b = Some (n, r) -> rdhdr t (b ++ c) = Some (n, r ++ c).
Proof.
  unfold rdhdr. cbv zeta.
  assert (S : forall tag k, (let* (h, r0) := take k b in Some (tag, be_int h, r0)) = Some (n, r) -> (let* (h, r0) := take k (b ++ c) in Some (tag, be_int h, r0)) = Some (n, r ++ c)).
  { intros tag k. destruct (take k b) as [[h l]|] eqn:E; [|discriminate]. rewrite (take_more _ _ _ _ c E). cbn [obind]. now intros [= <- <-]. }
  repeat match goal with |- context [if ?b then _ else _] => destruct b end; auto; try (now intros [= <- <-]); discriminate.
Qed.
Lemma rdint_more t b z r c : rdint t b = Some (z, r) -> rdint t (b ++ c) = Some (z, r ++ c).
Proof.
  unfold rdint. repeat match goal with |- context [if ?b then _ else _] => destruct b end; try (now intros [= <- <-]); try discriminate.
  - destruct (take _ b) as [[h l]|] eqn:E; [|discriminate]. rewrite (take_more _ _ _ _ c E). cbn [obind]. now intros [= <- <-].
  - destruct (take _ b) as [[h l]|] eqn:E; [|discriminate]. rewrite (take_more _ _ _ _ c E). cbn [obind]. now intros [= <- <-].
Qed.
Lemma rdhdr_not t b x c : rdhdr t b = Some x -> rdint t c = None.
Proof.
  unfold rdhdr, rdint. cbv zeta. intros H.
  destruct (t <? 128) eqn:A1; [apply Z.ltb_lt in A1|apply Z.ltb_ge in A1]; [|destruct (224 <=? t) eqn:A2; [apply Z.leb_le in A2|apply Z.leb_gt in A2];
    [|destruct ((204 <=? t) && (t <? 208)) eqn:A3; [apply andb_true_iff in A3 as [A3 A4]; apply Z.leb_le in A3; apply Z.ltb_lt in A4|
       destruct ((208 <=? t) && (t <? 212)) eqn:A4; [apply andb_true_iff in A4 as [A4 A5]; apply Z.leb_le in A4; apply Z.ltb_lt in A5|reflexivity]]]];
  exfalso; repeat (match type of H with context [if ?b then _ else _] => let E := fresh "E" in destruct b eqn:E; [rewrite ?andb_true_iff, ?Z.leb_le, ?Z.ltb_lt, ?Z.eqb_eq in E; lia|clear E] end);
  discriminate H.
Qed.
Definition more (f g : bytes -> option (val * bytes)) : Prop := forall b v r c, f b = Some (v, r) -> g (b ++ c) = Some (v, r ++ c).
Lemma items_more f g : more f g -> forall n b vs r c, items_of f n b = Some (vs, r) -> items_of g n (b ++ c) = Some (vs, r ++ c).
Proof.
  intros F. induction n as [|n I]; intros b vs r c; simpl; [now intros [= <- <-]|].
  destruct (f b) as [[v b1]|] eqn:E; [|discriminate]. simpl. rewrite (F _ _ _ c E). simpl.
  destruct (items_of f n b1) as [[vs' b2]|] eqn:E2; [|discriminate]. simpl. intros [= <- <-]. now rewrite (I _ _ _ c E2).
Qed.
Lemma entries_more f g : more f g -> forall n b vs r c, entries_of f n b = Some (vs, r) -> entries_of g n (b ++ c) = Some (vs, r ++ c).
Proof.
  intros F. induction n as [|n I]; intros b vs r c; simpl; [now intros [= <- <-]|].
  destruct (f b) as [[k b1]|] eqn:E; [|discriminate]. simpl. rewrite (F _ _ _ c E). simpl.
  destruct (f b1) as [[v b2]|] eqn:E1; [|discriminate]. simpl. rewrite (F _ _ _ c E1). simpl.
  destruct (entries_of f n b2) as [[vs' b3]|] eqn:E2; [|discriminate]. simpl. rewrite (I _ _ _ c E2). simpl.
  destruct k; try discriminate. now intros [= <- <-].
Qed.
Lemma leb_more {A} n (b c : list A) : (n <=? len b) = true -> (n <=? len (b ++ c)) = true.
Proof. unfold len. rewrite app_length, !Z.leb_le. lia. Qed.
Lemma body_more f g t n : more f g -> more (body f t n) (body g t n).
Proof.
  intros F b v r c. unfold body.
  destruct (t =? 201).
  { destruct b as [|x b]; [discriminate|]. cbn [app]. destruct (take n b) as [[d b1]|] eqn:E; [|discriminate].
    rewrite (take_more _ _ _ _ c E). simpl. destruct (int_of x =? 0).
    - destruct (bn_of_data d); [|discriminate]. simpl. now intros [= <- <-].
    - destruct (int_of x =? 2); [|discriminate]. destruct (import_pt d); [|discriminate]. simpl. now intros [= <- <-]. }
  destruct (t =? 219). { destruct (take n b) as [[d b1]|] eqn:E; [|discriminate]. rewrite (take_more _ _ _ _ c E). simpl. now intros [= <- <-]. }
  destruct (t =? 198). { destruct (take n b) as [[d b1]|] eqn:E; [|discriminate]. rewrite (take_more _ _ _ _ c E). simpl. now intros [= <- <-]. }
  destruct (t =? 221).
  { destruct (n <=? len b) eqn:L; [|discriminate]. rewrite (leb_more _ _ c L).
    destruct (items_of f (Z.to_nat n) b) as [[vs b1]|] eqn:E; [|discriminate]. rewrite (items_more f g F _ _ _ _ c E). simpl. now intros [= <- <-]. }
  destruct (t =? 223); [|discriminate].
  destruct (n <=? len b) eqn:L; [|discriminate]. rewrite (leb_more _ _ c L).
  destruct (entries_of f (Z.to_nat n) b) as [[vs b1]|] eqn:E; [|discriminate]. rewrite (entries_more f g F _ _ _ _ c E). simpl. now intros [= <- <-].
Qed.
Lemma unpack_more : forall f g, (f <= g)%nat -> more (unpack f) (unpack g).
Proof.
  induction f as [|f I]; intros g G b v r c; [discriminate|]. destruct g as [|g]; [lia|].
  destruct b as [|t b]; [discriminate|]. cbn [app]. rewrite !unpack_S. destruct (int_of t =? 192).
  { now intros [= <- <-]. }
  destruct (rdint (int_of t) b) as [[z b1]|] eqn:EI; [rewrite (rdint_more _ _ _ _ c EI); now intros [= <- <-]|].
  destruct (rdhdr (int_of t) b) as [[[k n] b1]|] eqn:E; [|discriminate]. rewrite (rdhdr_not _ _ _ (b ++ c) E), (rdhdr_more _ _ _ _ c E). cbn [obind].
  apply body_more. apply I. lia.
Qed.
Lemma decode_more b v c : decode b = Ok v -> c <> [] -> decode (b ++ c) = Err EValueErr.
Proof.
  unfold decode. destruct (unpack (S (List.length b)) b) as [[w [|x r]]|] eqn:E; try discriminate. intros [= <-] N.
  rewrite (unpack_more (S (List.length b)) (S (List.length (b ++ c))) ltac:(rewrite app_length; lia) _ _ _ c E).
  simpl. destruct c; [congruence|reflexivity].
Qed.
Lemma deserialize_more b z c : deserialize b = Ok z -> c <> [] -> deserialize (b ++ c) = Err EValueErr.
Proof.
  unfold deserialize. destruct (decode b) as [v|e] eqn:E; [|discriminate]. intros _ N. now rewrite (decode_more _ _ _ E N).
Qed.
End P.

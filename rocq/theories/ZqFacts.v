(** The concrete world satisfies the hypotheses of the theorems about identifiers and serialization:
    textual forms are injective and can be told apart, encodings decode, digests have one length. *)
From Coq Require Import String NArith DecimalString DecimalN DecimalFacts.
From Verif Require Import Base World Val Expr Utils Stmt Prove Verify Spec Shapes ZqWorld Ident Lib Wire IdProofs.
Open Scope Z_scope.
Open Scope list_scope.

Lemma ndec_chars n c : In c (ndec n) -> numc c.
Proof.
  unfold ndec. intros H. destruct (N.to_uint n) as [|u|u|u|u|u|u|u|u|u|u]; simpl in H; destruct H as [<-|H]; try contradiction;
    try (unfold numc; simpl; tauto); apply uint_chars in H; auto.
Qed.
Lemma ndec_parse n : nparse (ndec n) = Some n.
Proof.
  unfold nparse, ndec, lit. rewrite string_of_list_ascii_of_string, NilZero.usu.
  - simpl. now rewrite DecimalN.Unsigned.of_to.
  - intros E. assert (E2 := E). apply (f_equal N.of_uint) in E2. rewrite DecimalN.Unsigned.of_to in E2. subst n. discriminate E.
Qed.
Lemma ndec_inj a b : ndec a = ndec b -> a = b.
Proof. intros H. assert (E : Some a = Some b) by (rewrite <- !ndec_parse; now rewrite H). now injection E. Qed.
Lemma numc_not c d : numc c -> ~ numc d -> c <> d.
Proof. intros H K ->. auto. Qed.

Lemma split_clean (d : ascii) (a : bytes) : forall b u t, ~ In d a -> ~ In d b -> a ++ d :: u = b ++ d :: t -> a = b /\ u = t.
Proof.
  induction a as [|x a IH]; intros [|y b] u t Ha Hb E; simpl in *.
  - now injection E.
  - injection E as -> E. tauto.
  - injection E as -> E. tauto.
  - injection E as -> E. destruct (IH b u t) as [-> ->]; auto.
Qed.
Lemma ndec_no d n : ~ numc d -> ~ In d (ndec n).
Proof. intros H K. apply ndec_chars in K. auto. Qed.
Lemma no_semi : ~ numc ";"%char.
Proof. unfold numc. simpl. intuition discriminate. Qed.
Lemma no_paren : ~ numc ")"%char.
Proof. unfold numc. simpl. intuition discriminate. Qed.
Lemma no_quote : ~ numc "'"%char /\ ~ numc """"%char.
Proof. unfold numc. simpl. intuition discriminate. Qed.

Lemma split_at_clean (d : ascii) (a b : bytes) : ~ In d a -> split_at d (a ++ d :: b) = (a, b).
Proof.
  induction a as [|x a IH]; simpl; intros H.
  - now rewrite Ascii.eqb_refl.
  - destruct (Ascii.eqb_spec x d) as [->|_]; [tauto|]. now rewrite IH by tauto.
Qed.
Lemma zbounds p : 0 <= zv p < zorder (zg p).
Proof. destruct p as [g v o]; simpl. apply andb_true_iff in o. rewrite Z.leb_le, Z.ltb_lt in o. lia. Qed.

(** Encodings decode. *)
Lemma zq_faithful (p : @pt Zq) : faithful p.
Proof.
  unfold faithful. change (zimport (zexport p) = Some p). unfold zimport, zexport.
  change (lit ";") with [";"%char]. cbn [app].
  rewrite split_at_clean by (apply ndec_no, no_semi). rewrite split_at_clean by (apply ndec_no, no_semi).
  rewrite !ndec_parse. f_equal. assert (B := zbounds p). apply zpt_eq; simpl.
  - symmetry. apply surjective_pairing.
  - rewrite Z2N.id by lia. apply Z.mod_small. unfold zorder in *. simpl in *. lia.
Qed.

Lemma zrepr_app p u : zrepr p ++ u =
  lit "Pt(" ++ ndec (fst (zg p)) ++ ";"%char :: ndec (snd (zg p)) ++ ";"%char :: ndec (Z.to_N (zv p)) ++ ")"%char :: u.
Proof.
  unfold zrepr. change (lit ";") with [";"%char]. change (lit ")") with [")"%char]. now repeat (rewrite <- !app_assoc; simpl).
Qed.
Lemma zrepr_sep p q u t : zrepr p ++ u = zrepr q ++ t -> p = q /\ u = t.
Proof.
  rewrite !zrepr_app. intros H. apply app_inv_head in H.
  apply split_clean in H as [H1 H]; [|apply ndec_no, no_semi|apply ndec_no, no_semi].
  apply split_clean in H as [H2 H]; [|apply ndec_no, no_semi|apply ndec_no, no_semi].
  apply split_clean in H as [H3 H]; [|apply ndec_no, no_paren|apply ndec_no, no_paren].
  apply ndec_inj in H1, H2, H3. split; auto. assert (Bp := zbounds p). assert (Bq := zbounds q). apply zpt_eq.
  - destruct (zg p), (zg q); simpl in *; congruence.
  - apply Z2N.inj in H3; lia.
Qed.

(** Textual forms are injective. *)
Lemma zq_repr_inj (p q : @pt Zq) : repr_pt p = repr_pt q -> p = q.
Proof. intros H. apply (zrepr_sep p q [] []). change (zrepr p = zrepr q) in H. now rewrite H. Qed.

Lemma zq_repr_ok : @repr_ok Zq.
Proof.
  split.
  - intros p v u t A E _ _. change (zrepr p ++ u = pystr v ++ t) in E. destruct v; try contradiction.
    + rewrite zrepr_app in E. discriminate E.
    + exfalso. rewrite zrepr_app in E. change (pystr (VInt z)) with (dec z) in E. destruct (dec_cons z) as (c & r & D). rewrite D in E.
      assert (N : numc c) by (apply (dec_chars z); rewrite D; simpl; auto). simpl in E. injection E as <- _.
      unfold numc in N. simpl in N. intuition discriminate.
    + now apply zrepr_sep in E.
  - intros p. exists "P"%char. eexists. split; [reflexivity|]. simpl. intuition discriminate.
  - intros p. assert (X : forall d, d = "'"%char \/ d = """"%char -> ~ In d (repr_pt p)); [|split; apply X; auto].
    intros d D H. change (In d (zrepr p)) in H. unfold zrepr in H. rewrite !in_app_iff in H.
    assert (Q : forall n, ~ In d (ndec n)) by (intros n; apply ndec_no; destruct D as [-> | ->]; apply no_quote).
    simpl in H. assert (Q1 := Q (fst (zg p))). assert (Q2 := Q (snd (zg p))). assert (Q3 := Q (Z.to_N (zv p))). destruct D as [-> | ->]; intuition discriminate.
Qed.

(** Digests have one length. *)
Lemma zq_digest : exists n, forall b, List.length (@sha256 Zq b) = n.
Proof. exists 2%nat. intros b. reflexivity. Qed.

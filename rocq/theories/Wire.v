(** The binary format: encoding is a prefix code and decoding inverts it. *)
From Coq Require Import String.
From Verif Require Import Base World Val Expr Utils Stmt Prove Verify Spec Shapes Ident Lib DictProofs Keeps Tree.
Open Scope Z_scope.
Open Scope list_scope.

(** ** Numbers *)
Lemma int_of_byte z : int_of (byte_of z) = z mod 256.
Proof.
  unfold int_of, byte_of. assert (B := Z.mod_pos_bound z 256 ltac:(lia)).
  rewrite N_ascii_embedding; [rewrite Z2N.id; lia|]. apply N2Z.inj_lt. rewrite Z2N.id by lia. simpl. lia.
Qed.
Lemma int_of_range a : 0 <= int_of a < 256.
Proof.
  unfold int_of. split; [lia|]. assert (H := N_ascii_bounded a). lia.
Qed.
Lemma int_of_inj a b : int_of a = int_of b -> a = b.
Proof. unfold int_of. intros H. apply N2Z.inj in H. rewrite <- (ascii_N_embedding a), <- (ascii_N_embedding b). now rewrite H. Qed.
Lemma be_int_snoc l x : be_int (l ++ [x]) = 256 * be_int l + int_of x.
Proof. unfold be_int. now rewrite fold_left_app. Qed.
Lemma be_int_range b : 0 <= be_int b < 256 ^ len b.
Proof.
  induction b as [|x b IH] using rev_ind; [split; [apply Z.le_refl|reflexivity]|].
  rewrite be_int_snoc. unfold len in *. rewrite app_length. simpl List.length.
  rewrite Nat.add_1_r, Nat2Z.inj_succ, Z.pow_succ_r by lia.
  assert (R := int_of_range x). lia.
Qed.
(** Digests of one length: the number determines the digest. *)
Lemma be_int_inj a : forall b, List.length a = List.length b -> be_int a = be_int b -> a = b.
Proof.
  induction a as [|x a IH] using rev_ind; intros b L H.
  - destruct b; [reflexivity|discriminate].
  - destruct b as [|y b _] using rev_ind; [rewrite app_length in L; simpl in L; lia|].
    rewrite !app_length in L. simpl in L. rewrite !be_int_snoc in H.
    assert (R1 := int_of_range x). assert (R2 := int_of_range y).
    assert (be_int a = be_int b /\ int_of x = int_of y) as [E1 E2] by lia.
    f_equal; [apply IH; [lia|auto]|f_equal; now apply int_of_inj].
Qed.
Lemma be_bytes_length n : forall z, List.length (be_bytes n z) = n.
Proof. induction n; intros z; simpl; auto. rewrite app_length, IHn. simpl. lia. Qed.
Lemma be_int_bytes n : forall z, 0 <= z < 256 ^ Z.of_nat n -> be_int (be_bytes n z) = z.
Proof.
  induction n; intros z H; simpl be_bytes.
  - change (256 ^ Z.of_nat 0) with 1 in H. unfold be_int. simpl. lia.
  - rewrite Nat2Z.inj_succ, Z.pow_succ_r in H by lia.
    rewrite be_int_snoc, IHn.
    + rewrite int_of_byte, <- Z.div_mod; lia.
    + split; [apply Z.div_pos; lia|]. apply Z.div_lt_upper_bound; lia.
Qed.
Lemma mag_int z : 0 < z -> be_int (mag z) = z.
Proof.
  intros H. unfold mag. apply be_int_bytes. assert (L := Z.log2_nonneg z).
  rewrite Z2Nat.id by (apply Z.div_pos; lia). split; [lia|].
  destruct (Z.log2_spec z H) as [_ U]. eapply Z.lt_le_trans; [exact U|].
  change 256 with (2 ^ 8). rewrite <- Z.pow_mul_r; [|lia|apply Z.div_pos; lia]. apply Z.pow_le_mono_r; [lia|].
  assert (D := Z.div_mod (Z.log2 z + 8) 8 ltac:(lia)). assert (M := Z.mod_pos_bound (Z.log2 z + 8) 8 ltac:(lia)). lia.
Qed.

(** The codes of [hdr]. *)
Notation tagged t := (t = 198 \/ t = 201 \/ t = 219 \/ t = 221 \/ t = 223).
Section W.
Context {W : World}.

Lemma bn_data_ok z : bn_of_data (bn_data z) = Some z.
Proof.
  unfold bn_data. destruct (z <? 0) eqn:E.
  - apply Z.ltb_lt in E. destruct (z =? 0) eqn:E0; [apply Z.eqb_eq in E0; lia|].
    simpl. rewrite mag_int by lia. f_equal. lia.
  - apply Z.ltb_ge in E. destruct (z =? 0) eqn:E0; [apply Z.eqb_eq in E0; subst; reflexivity|].
    apply Z.eqb_neq in E0. simpl. rewrite mag_int by lia. f_equal. lia.
Qed.

Lemma take_app {A} (l r : list A) : take (len l) (l ++ r) = Some (l, r).
Proof.
  unfold take, len. rewrite app_length, Nat2Z.inj_add. destruct (_ <=? _) eqn:E; [|apply Z.leb_gt in E; lia].
  rewrite Nat2Z.id, firstn_app, skipn_app, Nat.sub_diag. simpl. now rewrite firstn_all, skipn_all, app_nil_r.
Qed.

Lemma sized_ok n k r (m := be_bytes k n) : 0 <= n < 256 ^ Z.of_nat k -> take (Z.of_nat k) (m ++ r) = Some (m, r) /\ be_int m = n.
Proof.
  intros H. split; [|now apply be_int_bytes]. replace (Z.of_nat k) with (len m) by (unfold m, len; now rewrite be_bytes_length). apply take_app.
Qed.
(** A header starts with a byte that is neither an integer nor None, and is read back. *)
Lemma hdr_read t n h : hdr t n = Ok h -> 0 <= n -> tagged t -> exists c l, h = c :: l /\ (List.length h <= 5)%nat /\ int_of c <> 192 /\
  (forall r, rdint (int_of c) r = None) /\ (forall r, rdhdr (int_of c) (l ++ r) = Some (t, n, r)).
Proof.
  intros H P T.
  assert (ONE : forall c, h = [byte_of c] -> 128 <= c < 217 -> c <> 192 -> (c < 204 \/ 212 <= c) -> (forall r, rdhdr c r = Some (t, n, r)) ->
    exists c' l, h = c' :: l /\ (List.length h <= 5)%nat /\ int_of c' <> 192 /\ (forall r, rdint (int_of c') r = None) /\ (forall r, rdhdr (int_of c') (l ++ r) = Some (t, n, r))).
  { intros c -> B N B2 R. exists (byte_of c), []. rewrite int_of_byte, Z.mod_small by lia. split; [reflexivity|]. split; [simpl; lia|]. split; [exact N|]. split; [|exact R].
    intros r. unfold rdint. destruct (c <? 128) eqn:E1; [apply Z.ltb_lt in E1; lia|]. destruct (224 <=? c) eqn:E2; [apply Z.leb_le in E2; lia|].
    destruct (204 <=? c) eqn:E3; [|destruct (208 <=? c) eqn:E4; [apply Z.leb_le in E4; apply Z.leb_gt in E3; lia|reflexivity]].
    apply Z.leb_le in E3. destruct (c <? 208) eqn:E4; [apply Z.ltb_lt in E4; lia|]. cbn [andb]. destruct (208 <=? c) eqn:E5; [|reflexivity].
    destruct (c <? 212) eqn:E6; [apply Z.ltb_lt in E6; lia|reflexivity]. }
  unfold hdr in H. destruct (shdr t n) as [c|] eqn:S.
  - assert (SI : forall x y : Z, Some x = Some y -> x = y) by congruence. injection H as <-. apply (ONE c); auto; unfold shdr in S; destruct T as [-> |[-> |[-> |[-> | ->]]]]; cbn [Z.eqb Pos.eqb] in S;
      repeat (match type of S with context [if ?b then _ else _] => let E := fresh "E" in destruct b eqn:E; [rewrite ?Z.ltb_lt, ?Z.eqb_eq in E|] end);
      try discriminate S; apply SI in S; subst; try lia; intros r; unfold rdhdr.
    all: try reflexivity.
    + destruct (128 <=? 160 + n) eqn:A1; [|apply Z.leb_gt in A1; lia]. destruct (160 + n <? 144) eqn:A2; [apply Z.ltb_lt in A2; lia|].
      destruct (144 <=? 160 + n) eqn:A3; [|apply Z.leb_gt in A3; lia]. destruct (160 + n <? 160) eqn:A4; [apply Z.ltb_lt in A4; lia|].
      destruct (160 <=? 160 + n) eqn:A5; [|apply Z.leb_gt in A5; lia]. destruct (160 + n <? 192) eqn:A6; [|apply Z.ltb_ge in A6; lia]. cbn [andb]. do 3 f_equal. lia.
    + destruct (128 <=? 144 + n) eqn:A1; [|apply Z.leb_gt in A1; lia]. destruct (144 + n <? 144) eqn:A2; [apply Z.ltb_lt in A2; lia|].
      destruct (144 <=? 144 + n) eqn:A3; [|apply Z.leb_gt in A3; lia]. destruct (144 + n <? 160) eqn:A4; [|apply Z.ltb_ge in A4; lia]. cbn [andb]. do 3 f_equal. lia.
    + destruct (128 <=? 128 + n) eqn:A1; [|apply Z.leb_gt in A1; lia]. destruct (128 + n <? 144) eqn:A2; [|apply Z.ltb_ge in A2; lia]. cbn [andb]. do 3 f_equal. lia.
  - clear S ONE.
    destruct ((n <? 2 ^ 8) && negb ((t =? 221) || (t =? 223))) eqn:E8; [|destruct (n <? 2 ^ 16) eqn:E16; [|destruct (n <? 2 ^ 32) eqn:E32; [|discriminate H]]]; injection H as <-.
    + apply andb_true_iff in E8 as [E8 N]. apply Z.ltb_lt in E8. exists (byte_of (t - 2)), (be_bytes 1 n). rewrite int_of_byte, Z.mod_small by lia.
      split; [reflexivity|]. split; [simpl; lia|]. split; [lia|].
      destruct T as [-> |[-> |[-> |[-> | ->]]]]; try discriminate N; (split; [reflexivity|]); intros r; destruct (sized_ok n 1 r) as [Q1 Q2]; try (change (256 ^ Z.of_nat 1) with (2 ^ 8); lia);
        (match goal with |- _ = Some (?g, _, _) => change (obind (take (Z.of_nat 1) (be_bytes 1 n ++ r)) (fun '(h, r0) => Some (g, be_int h, r0)) = Some (g, n, r)) end; rewrite Q1; cbn [obind]; now rewrite Q2).
    + apply Z.ltb_lt in E16. exists (byte_of (t - 1)), (be_bytes 2 n). rewrite int_of_byte, Z.mod_small by lia.
      split; [reflexivity|]. split; [rewrite <- (be_bytes_length 2 n); simpl; lia|]. split; [lia|].
      destruct T as [-> |[-> |[-> |[-> | ->]]]]; (split; [reflexivity|]); intros r; destruct (sized_ok n 2 r) as [Q1 Q2]; try (change (256 ^ Z.of_nat 2) with (2 ^ 16); lia);
        (match goal with |- _ = Some (?g, _, _) => change (obind (take (Z.of_nat 2) (be_bytes 2 n ++ r)) (fun '(h, r0) => Some (g, be_int h, r0)) = Some (g, n, r)) end; rewrite Q1; cbn [obind]; now rewrite Q2).
    + apply Z.ltb_lt in E32. exists (byte_of t), (be_bytes 4 n). rewrite int_of_byte, Z.mod_small by lia.
      split; [reflexivity|]. split; [simpl; lia|]. split; [lia|].
      destruct T as [-> |[-> |[-> |[-> | ->]]]]; (split; [reflexivity|]); intros r; destruct (sized_ok n 4 r) as [Q1 Q2]; try (change (256 ^ Z.of_nat 4) with (2 ^ 32); lia);
        (match goal with |- _ = Some (?g, _, _) => change (obind (take (Z.of_nat 4) (be_bytes 4 n ++ r)) (fun '(h, r0) => Some (g, be_int h, r0)) = Some (g, n, r)) end; rewrite Q1; cbn [obind]; now rewrite Q2).
Qed.

(** ** Decoding *)
Notation "'let*' x ':=' r 'in' k" := (obind r (fun x => k))
  (at level 200, x pattern, right associativity).
Definition items_of (f : bytes -> option (val * bytes)) :=
  fix items (n : nat) (b : bytes) : option (list val * bytes) := match n with
      | O => Some ([], b)
      | S n => let* (v, b) := f b in
               let* (vs, b) := items n b in Some (v :: vs, b)
      end.
Definition entries_of (f : bytes -> option (val * bytes)) :=
  fix entries (n : nat) (b : bytes) : option (list (bytes * val) * bytes) := match n with
      | O => Some ([], b)
      | S n => let* (k, b) := f b in
               let* (v, b) := f b in
               let* (vs, b) := entries n b in
               match k with VStr k => Some ((k, v) :: vs, b) | _ => None end
      end.
Definition body (f : bytes -> option (val * bytes)) (t : Z) (n : Z) (b : bytes) : option (val * bytes) :=
      if t =? 201 then
        match b with
        | c :: b =>
            let* (d, b) := take n b in
            if int_of c =? 0 then let* z := bn_of_data d in Some (VInt z, b)
            else if int_of c =? 2 then let* p := import_pt d in Some (VPt p, b)
            else None
        | [] => None
        end
      else if t =? 219 then let* (d, b) := take n b in Some (VStr d, b)
      else if t =? 198 then let* (d, b) := take n b in Some (VBytes d, b)
      else if t =? 221 then
        if n <=? len b then let* (vs, b) := items_of f (Z.to_nat n) b in Some (VList vs, b) else None
      else if t =? 223 then
        if n <=? len b then let* (vs, b) := entries_of f (Z.to_nat n) b in Some (VDict vs, b) else None
      else None.
Lemma unpack_S fuel t b : unpack (S fuel) (t :: b) =
  if int_of t =? 192 then Some (VNone, b) else
  match rdint (int_of t) b with Some (z, b) => Some (VInt z, b) | None =>
  let* (t, n, b) := rdhdr (int_of t) b in body (unpack fuel) t n b end.
Proof. reflexivity. Qed.
Lemma unpack_hdr fuel t n h r : hdr t n = Ok h -> 0 <= n -> tagged t ->
  unpack (S fuel) (h ++ r) = body (unpack fuel) t n r.
Proof.
  intros H P T. destruct (hdr_read _ _ _ H P T) as (c & l & -> & _ & N & I & R). cbn [app]. rewrite unpack_S.
  destruct (int_of c =? 192) eqn:E; [apply Z.eqb_eq in E; lia|]. rewrite I, R. reflexivity.
Qed.
Lemma len_pos {A} (l : list A) : 0 <= len l. Proof. unfold len. lia. Qed.
Lemma len_map {A B} (f : A -> B) l : len (map f l) = len l. Proof. unfold len. now rewrite map_length. Qed.

Lemma hdr_len t n h : hdr t n = Ok h -> (1 <= List.length h)%nat.
Proof. unfold hdr. destruct (shdr t n); [|destruct (_ && _); [|destruct (_ <? _); [|destruct (_ <? _); [|discriminate]]]]; intros [= <-]; simpl; lia. Qed.
Lemma pack_len v b : pack v = Ok b -> (1 <= List.length b)%nat.
Proof.
  intros H. destruct v; simpl in H; try (injection H as <-; simpl; lia); minv H; injection H as <-;
   rewrite app_length; apply hdr_len in E; lia.
Qed.

Lemma items_ok f l l' : forall bs r,
  Forall2 (fun v b => forall r, f (b ++ r) = Some (v, r)) l' bs -> l = List.length l' ->
  items_of f l (List.concat bs ++ r) = Some (l', r).
Proof.
  intros bs r H. revert l. induction H as [|v b l' bs Hb H IH]; intros l ->; [reflexivity|].
  simpl. rewrite <- app_assoc, Hb. simpl. now rewrite IH.
Qed.
Lemma entries_ok f l (l' : list (bytes * val)) : forall (bs : list (bytes * bytes)) r,
  Forall2 (fun kv b => (forall r, f (fst b ++ r) = Some (VStr (fst kv), r)) /\ (forall r, f (snd b ++ r) = Some (snd kv, r))) l' bs ->
  l = List.length l' ->
  entries_of f l (List.concat (map (fun b => fst b ++ snd b) bs) ++ r) = Some (l', r).
Proof.
  intros bs r H. revert l. induction H as [|[k v] b l' bs [H1 H2] H IH]; intros l ->; [reflexivity|].
  simpl. rewrite <- !app_assoc, H1. simpl. rewrite H2. simpl. now rewrite IH.
Qed.
Lemma concat_len {A} (l : list (list A)) : Forall (fun b => (1 <= List.length b)%nat) l -> (List.length l <= List.length (List.concat l))%nat.
Proof. induction 1; simpl; auto. rewrite app_length. lia. Qed.
Lemma concat_in {A} (l : list (list A)) x : In x l -> (List.length x <= List.length (List.concat l))%nat.
Proof. induction l as [|y l IH]; [intros []|]. intros [->|H]; simpl; rewrite app_length; [lia|]. apply IH in H. lia. Qed.

Lemma Forall2_In_l {A B} (R : A -> B -> Prop) l m : Forall2 R l m -> Forall2 (fun a b => In a l /\ In b m /\ R a b) l m.
Proof.
  induction 1; constructor; [simpl; auto|]. eapply Forall2_impl; [|eassumption]. simpl. intros a b (?&?&?); auto.
Qed.
Lemma Forall2_trans_ex {A B C} (P : A -> B -> Prop) (Q : A -> C -> Prop) l m n :
  Forall2 P l m -> Forall2 Q l n -> Forall2 (fun b c => exists a, In a l /\ P a b /\ Q a c) m n.
Proof.
  intros H. revert n. induction H as [|a b l m Hab H IH]; intros n K; inversion K; subst; constructor.
  - exists a. simpl; auto.
  - eapply Forall2_impl; [|apply IH; eassumption]. intros x0 y0 (z & ? & ? & ?). exists z. simpl; auto.
Qed.

Lemma rmap_split (f g : bytes * val -> res bytes) d bs :
  rmap (fun kx => let? a := f kx in let? b := g kx in Ok (a ++ b)) d = Ok bs ->
  exists ps, bs = map (fun b => fst b ++ snd b) ps /\ Forall2 (fun kx p => f kx = Ok (fst p) /\ g kx = Ok (snd p)) d ps.
Proof.
  revert bs. induction d as [|x d IH]; simpl; intros bs H; minv H; injection H as <-.
  - exists []. split; [reflexivity|constructor].
  - minv E. injection E as <-. destruct (IH _ E0) as (ps & -> & F). exists ((a1, a2) :: ps). split; [reflexivity|]. constructor; auto.
Qed.

(** What is received is what [Wired] says, and nothing of the rest is consumed. *)
Lemma unpack_ok v : forall v' b, Wired v v' -> pack v = Ok b -> forall fuel r, (List.length b < fuel)%nat ->
  unpack fuel (b ++ r) = Some (v', r).
Proof.
  assert (G : forall l l' bs fuel, Forall (fun v => forall v' b, Wired v v' -> pack v = Ok b -> forall fuel r, (List.length b < fuel)%nat -> unpack fuel (b ++ r) = Some (v', r)) l ->
     Forall2 Wired l l' -> rmap pack l = Ok bs -> (List.length (List.concat bs) < fuel)%nat ->
     forall r, items_of (unpack fuel) (List.length l) (List.concat bs ++ r) = Some (l', r)).
  { intros l l' bs fuel IH HW HP L r. apply rmap_ok in HP. apply items_ok; [|eapply Forall2_len; eauto].
    assert (K := Forall2_trans_ex _ _ _ _ _ HW HP). apply Forall2_In_l in K.
    eapply Forall2_impl; [|exact K]. cbv beta. intros x y (_ & I & a & Ia & W1 & P1) r1.
    rewrite Forall_forall in IH. eapply IH; eauto. apply concat_in in I. lia. }
  assert (G5 : forall l bs, rmap pack l = Ok bs -> (List.length l <= List.length (List.concat bs))%nat).
  { intros l bs H. rewrite <- (rmap_length _ _ _ H). apply concat_len. apply rmap_ok in H.
    clear -H. induction H; constructor; auto. eapply pack_len; eauto. }
  induction v as [| | | | | l IH|l IH|d IH] using val_ind'; intros v' b HW HP fuel r L; (destruct fuel as [|fuel]; [lia|]);
    inversion HW; subst; simpl in HP.
  - injection HP as <-. reflexivity.
  - minv HP. injection HP as <-. rewrite <- app_assoc, (unpack_hdr _ _ _ _ _ E) by (try apply len_pos; auto 6).
    unfold body. cbn [Z.eqb Pos.eqb app]. rewrite take_app. cbn [obind]. rewrite int_of_byte. cbn [Z.eqb Pos.eqb Z.modulo].
    change (0 mod 256 =? 0) with true. cbv iota. rewrite bn_data_ok. reflexivity.
  - minv HP. injection HP as <-. rewrite <- app_assoc, (unpack_hdr _ _ _ _ _ E) by (try apply len_pos; auto 6).
    unfold body. cbn [Z.eqb Pos.eqb app]. rewrite take_app. cbn [obind]. rewrite int_of_byte.
    change (2 mod 256 =? 0) with false. change (2 mod 256 =? 2) with true. cbv iota.
    match goal with X : import_pt _ = _ |- _ => rewrite X end. reflexivity.
  - minv HP. injection HP as <-. rewrite <- app_assoc, (unpack_hdr _ _ _ _ _ E) by (try apply len_pos; auto 6).
    unfold body. cbn [Z.eqb Pos.eqb app]. rewrite take_app. reflexivity.
  - minv HP. injection HP as <-. rewrite <- app_assoc, (unpack_hdr _ _ _ _ _ E) by (try apply len_pos; auto 6).
    unfold body. cbn [Z.eqb Pos.eqb app]. rewrite take_app. reflexivity.
  - minv HP. injection HP as <-. rewrite <- app_assoc, (unpack_hdr _ _ _ _ _ E) by (try apply len_pos; auto 6).
    unfold body. cbn [Z.eqb Pos.eqb app]. rewrite app_length in L. assert (L5 := hdr_len _ _ _ E).
    destruct (len l <=? len (List.concat a0 ++ r)) eqn:EL.
    + unfold len at 1. rewrite Nat2Z.id. rewrite (G l l' a0 fuel) by (auto; lia). reflexivity.
    + apply Z.leb_gt in EL. unfold len in EL. rewrite app_length in EL. apply G5 in E0. lia.
  - minv HP. injection HP as <-. rewrite <- app_assoc, (unpack_hdr _ _ _ _ _ E) by (try apply len_pos; auto 6).
    unfold body. cbn [Z.eqb Pos.eqb app]. rewrite app_length in L. assert (L5 := hdr_len _ _ _ E).
    destruct (len l <=? len (List.concat a0 ++ r)) eqn:EL.
    + unfold len at 1. rewrite Nat2Z.id. rewrite (G l l' a0 fuel) by (auto; lia). reflexivity.
    + apply Z.leb_gt in EL. unfold len in EL. rewrite app_length in EL. apply G5 in E0. lia.
  - minv HP. injection HP as <-. rewrite <- app_assoc, (unpack_hdr _ _ _ _ _ E) by (try apply len_pos; auto 6).
    unfold body. cbn [Z.eqb Pos.eqb app]. rewrite app_length in L. assert (L5 := hdr_len _ _ _ E).
    assert (E1 : rmap (fun kx : bytes * val => let? a := (let? hk := hdr 219 (len (fst kx)) in Ok (hk ++ fst kx)) in
        let? b := pack (snd kx) in Ok (a ++ b)) d = Ok a0).
    { rewrite <- E0. apply rmap_ext. intros [k x] _. cbn [fst snd]. destruct (hdr 219 (len k)); [|reflexivity]. cbn [rbind].
      destruct (pack x); cbn [rbind]; [|reflexivity]. now rewrite app_assoc. }
    apply rmap_split in E1 as (ps & -> & F). 
    assert (LD : (List.length d <= List.length (List.concat (map (fun b => fst b ++ snd b) ps)))%nat).
    { rewrite (Forall2_len _ _ _ F). rewrite <- (map_length (fun b : bytes * bytes => fst b ++ snd b) ps). apply concat_len.
      clear -F. induction F as [|x y l m [_ H] F IH]; constructor; auto. rewrite app_length. apply pack_len in H. unfold bytes in *. lia. }
    destruct (len d <=? len (List.concat (map (fun b => fst b ++ snd b) ps) ++ r)) eqn:EL.
    + unfold len at 1. rewrite Nat2Z.id. rewrite (entries_ok (unpack fuel) (List.length d) d' ps); [reflexivity| |eapply Forall2_len; eauto].
      match goal with X : Forall2 _ d d' |- _ => assert (K := Forall2_trans_ex _ _ _ _ _ X F) end. apply Forall2_In_l in K.
      eapply Forall2_impl; [|exact K]. cbv beta. intros [k x] [p1 p2] (_ & I & [k0 y] & Ia & [Wk Wx] & P1 & P2). cbn [fst snd] in *. subst k0.
      assert (LL : (List.length p1 + List.length p2 < fuel)%nat).
      { apply (in_map (fun b => fst b ++ snd b)) in I. apply concat_in in I. cbn [fst snd] in I. rewrite app_length in I. lia. }
      split; intros r1.
      * minv P1. injection P1 as <-. destruct fuel as [|fuel]; [lia|].
        rewrite <- app_assoc, (unpack_hdr _ _ _ _ _ E1) by (try apply len_pos; auto 6).
        unfold body. cbn [Z.eqb Pos.eqb app]. rewrite take_app. reflexivity.
      * rewrite Forall_forall in IH. eapply (IH (k, y)); eauto. lia.
    + apply Z.leb_gt in EL. unfold len in EL. rewrite app_length in EL. lia.
Qed.

Lemma decode_ok v v' b : Wired v v' -> encode v = Ok b -> decode b = Ok v'.
Proof.
  intros H E. unfold decode. assert (K := unpack_ok v v' b H E (S (List.length b)) [] ltac:(lia)).
  rewrite app_nil_r in K. now rewrite K.
Qed.

(** Two encodings with the same beginning are encodings of one value. *)
Lemma pack_prefix v w v' w' b c u t : Wired v v' -> Wired w w' -> pack v = Ok b -> pack w = Ok c -> b ++ u = c ++ t ->
  v' = w' /\ u = t.
Proof.
  intros HV HW P Q E.
  assert (K1 := unpack_ok v v' b HV P (S (List.length b + List.length c)) u ltac:(lia)).
  assert (K2 := unpack_ok w w' c HW Q (S (List.length b + List.length c)) t ltac:(lia)).
  rewrite E in K1. rewrite K1 in K2. injection K2 as -> ->. auto.
Qed.

Lemma Wired_norm v : Forall faithful (points v) -> Wired v (norm v).
Proof.
  induction v as [| | | | | l IH|l IH|d IH] using val_ind'; simpl; intros H; constructor.
  - now inversion H.
  - induction IH; simpl in *; constructor; apply Forall_app in H as [H1 H2]; auto.
  - induction IH; simpl in *; constructor; apply Forall_app in H as [H1 H2]; auto.
  - induction IH as [|[k x] d]; simpl in *; constructor; apply Forall_app in H as [H1 H2]; auto.
Qed.
Lemma notuple_norm v : notuple v -> norm v = v.
Proof.
  induction v as [| | | | | l IH|l IH|d IH] using val_ind'; simpl; intros H; auto; inversion H; subst; f_equal.
  - induction IH; simpl; auto. match goal with X : Forall notuple (_ :: _) |- _ => inversion X; subst end. f_equal; auto.
    apply IHIH; auto. constructor; auto.
  - induction IH as [|[k x] d]; simpl; auto. match goal with X : Forall _ (_ :: _) |- _ => inversion X; subst end. f_equal; [f_equal|]; auto.
    apply IHIH; auto. constructor; auto.
Qed.
Lemma pack_norm v : pack (norm v) = pack v.
Proof.
  assert (G : forall l, Forall (fun v => pack (norm v) = pack v) l -> rmap pack (map norm l) = rmap pack l).
  { induction 1 as [|x l H _ IH]; simpl; auto. rewrite H. destruct (pack x); simpl; auto. now rewrite IH. }
  induction v as [| | | | | l IH|l IH|d IH] using val_ind'; auto.
  - simpl. rewrite len_map. now rewrite (G l IH).
  - simpl. rewrite len_map. now rewrite (G l IH).
  - simpl. rewrite len_map. destruct (hdr 223 (len d)); [|reflexivity]. cbn [rbind].
    match goal with |- (let? _ := ?f in _) = (let? _ := ?g in _) => replace f with g; [reflexivity|] end.
    induction IH as [|[k x] d H _ IHd]; [reflexivity|]. cbn [map rmap snd] in *. rewrite H, IHd. reflexivity.
Qed.
End W.

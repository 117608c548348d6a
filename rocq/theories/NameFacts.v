(** Automatically generated names of Secret objects that live at the same time differ, up to collisions of the hash. *)
From Coq Require Import String.
From Verif Require Import Base World Val Expr Utils Stmt Shapes Wire Names.
Open Scope Z_scope.
Open Scope list_scope.

Section N.
Context {W : World}.

Lemma object_hash_range a : 0 <= a < 2 ^ 64 -> - 2 ^ 63 <= object_hash a < 2 ^ 63.
Proof.
  intros R. unfold object_hash. assert (D := Z.div_mod a 16 ltac:(lia)). assert (M := Z.mod_pos_bound a 16 ltac:(lia)).
  assert (Q : 0 <= a / 16 < 2 ^ 60) by (change (2 ^ 64) with (16 * 2 ^ 60) in R; nia).
  set (r := a / 16 + a mod 16 * 2 ^ 60). assert (Rr : 0 <= r < 2 ^ 64) by (unfold r; change (2 ^ 64) with (16 * 2 ^ 60); nia).
  destruct (r <? 2 ^ 63) eqn:E; [apply Z.ltb_lt in E|apply Z.ltb_ge in E].
  - destruct (r =? -1) eqn:F; [apply Z.eqb_eq in F|]; lia.
  - destruct (r - 2 ^ 64 =? -1); lia.
Qed.
Lemma object_hash_inj a b : 0 <= a < 2 ^ 64 - 1 -> 0 <= b < 2 ^ 64 - 1 -> object_hash a = object_hash b -> a = b.
Proof.
  intros Ra Rb.
  assert (K : forall a, 0 <= a < 2 ^ 64 - 1 -> 0 <= a / 16 + a mod 16 * 2 ^ 60 < 2 ^ 64 - 1 /\
    object_hash a = (if a / 16 + a mod 16 * 2 ^ 60 <? 2 ^ 63 then a / 16 + a mod 16 * 2 ^ 60 else a / 16 + a mod 16 * 2 ^ 60 - 2 ^ 64)).
  { clear. intros a R. assert (D := Z.div_mod a 16 ltac:(lia)). assert (M := Z.mod_pos_bound a 16 ltac:(lia)).
    assert (Q : 0 <= a / 16 < 2 ^ 60) by (change (2 ^ 64) with (16 * 2 ^ 60) in R; nia).
    assert (P : 0 <= a / 16 + a mod 16 * 2 ^ 60 < 2 ^ 64 - 1).
    { change (2 ^ 64) with (16 * 2 ^ 60) in *. split; [nia|].
      destruct (Z.eq_dec (a mod 16) 15) as [E|E]; [|nia]. destruct (Z.eq_dec (a / 16) (2 ^ 60 - 1)) as [F|F]; nia. }
    split; [exact P|]. unfold object_hash. set (r := a / 16 + a mod 16 * 2 ^ 60) in *.
    destruct (r <? 2 ^ 63) eqn:E; [apply Z.ltb_lt in E|apply Z.ltb_ge in E].
    - destruct (r =? -1) eqn:F; [apply Z.eqb_eq in F; lia|auto].
    - destruct (r - 2 ^ 64 =? -1) eqn:F; [apply Z.eqb_eq in F; lia|auto]. }
  destruct (K a Ra) as [Pa ->], (K b Rb) as [Pb ->]. clear K.
  assert (Da := Z.div_mod a 16 ltac:(lia)). assert (Ma := Z.mod_pos_bound a 16 ltac:(lia)).
  assert (Db := Z.div_mod b 16 ltac:(lia)). assert (Mb := Z.mod_pos_bound b 16 ltac:(lia)).
  assert (Qa : 0 <= a / 16 < 2 ^ 60) by (change (2 ^ 64) with (16 * 2 ^ 60) in Ra; nia).
  assert (Qb : 0 <= b / 16 < 2 ^ 60) by (change (2 ^ 64) with (16 * 2 ^ 60) in Rb; nia).
  intros H.
  assert (E : a / 16 + a mod 16 * 2 ^ 60 = b / 16 + b mod 16 * 2 ^ 60).
  { destruct (_ <? 2 ^ 63) eqn:E1 in H; destruct (b / 16 + b mod 16 * 2 ^ 60 <? 2 ^ 63) eqn:E2 in H;
      rewrite ?Z.ltb_lt, ?Z.ltb_ge in *; lia. }
  assert (a mod 16 = b mod 16) by nia. nia.
Qed.
Lemma pack_q_inj h k : - 2 ^ 63 <= h < 2 ^ 63 -> - 2 ^ 63 <= k < 2 ^ 63 -> pack_q h = pack_q k -> h = k.
Proof.
  intros H K E. unfold pack_q in E. apply (f_equal be_int) in E.
  assert (Bh := Z.mod_pos_bound h (2 ^ 64) ltac:(lia)). assert (Bk := Z.mod_pos_bound k (2 ^ 64) ltac:(lia)).
  rewrite !be_int_bytes in E by (change (256 ^ Z.of_nat 8) with (2 ^ 64); lia).
  assert (Dh := Z.div_mod h (2 ^ 64) ltac:(lia)). assert (Dk := Z.div_mod k (2 ^ 64) ltac:(lia)). 
  rewrite <- E in Dk. assert (h - k = 2 ^ 64 * (h / 2 ^ 64 - k / 2 ^ 64)) by lia. 
  assert (Z.abs (h - k) < 2 ^ 64) by lia. nia.
Qed.

Lemma hex_digit_inj m n : 0 <= m < 16 -> 0 <= n < 16 -> hex_digit m = hex_digit n -> m = n.
Proof.
  intros M N H. apply (f_equal int_of) in H. unfold hex_digit in H.
  destruct (m <? 10) eqn:E1, (n <? 10) eqn:E2; rewrite ?Z.ltb_lt, ?Z.ltb_ge in *;
    rewrite !int_of_byte, !Z.mod_small in H by lia; lia.
Qed.
Lemma hex_inj : forall d d', List.length d = List.length d' -> hexdigest d = hexdigest d' -> d = d'.
Proof.
  induction d as [|c d I]; intros [|c' d'] L H; try discriminate; auto. simpl in H.
  injection H as H1 H2 H. injection L as L.
  assert (R := int_of_range c). assert (R' := int_of_range c').
  assert (D := Z.div_mod (int_of c) 16 ltac:(lia)). assert (D' := Z.div_mod (int_of c') 16 ltac:(lia)).
  assert (M := Z.mod_pos_bound (int_of c) 16 ltac:(lia)). assert (M' := Z.mod_pos_bound (int_of c') 16 ltac:(lia)).
  apply hex_digit_inj in H1; [|split; [apply Z.div_pos|apply Z.div_lt_upper_bound]; lia|split; [apply Z.div_pos|apply Z.div_lt_upper_bound]; lia].
  apply hex_digit_inj in H2; [|auto|auto]. f_equal; [apply int_of_inj; lia|now apply I].
Qed.
Lemma hex_len d : List.length (hexdigest d) = (2 * List.length d)%nat.
Proof. induction d; simpl; auto. rewrite IHd. lia. Qed.
Lemma hex_firstn : forall n d, firstn (2 * n) (hexdigest d) = hexdigest (firstn n d).
Proof.
  induction n as [|n I]; intros d; [reflexivity|]. replace (2 * S n)%nat with (S (S (2 * n))) by lia.
  destruct d as [|c d]; [reflexivity|]. simpl firstn. simpl hexdigest. simpl. f_equal. f_equal. now rewrite <- I.
Qed.

(** the two inputs of the hash have digests that agree in the first 16 bytes *)
Definition near_collision (x y : bytes) : Prop := x <> y /\ firstn 16 (sha256 x) = firstn 16 (sha256 y).
Lemma unique_name_eq a b : (16 <= List.length (sha256 (pack_q (object_hash a))))%nat -> (16 <= List.length (sha256 (pack_q (object_hash b))))%nat ->
  unique_name a = unique_name b -> firstn 16 (sha256 (pack_q (object_hash a))) = firstn 16 (sha256 (pack_q (object_hash b))).
Proof.
  intros La Lb H. unfold unique_name in H. change (8 * 4)%nat with (2 * 16)%nat in H. rewrite !hex_firstn in H.
  apply hex_inj in H; auto. rewrite !firstn_length. lia.
Qed.

Definition nm (c : cell) : bytes := sname (c_sec c).
Definition auto_cell (c : cell) : Prop := nm c = unique_name (c_addr c).
Definition short (m : bytes) : bool := Nat.ltb (List.length m) 32.
Definition given (l : list action) : list bytes := flat_map (fun x => match x with New _ (Some m) => [m] | _ => [] end) l.
Definition inv (n : nat) (live : list cell) : Prop :=
  Forall (fun c => 0 <= c_addr c < 2 ^ 64 - 1 /\ (sid (c_sec c) < n)%nat) live /\ NoDup (map c_addr live) /\ NoDup (map (fun c => sid (c_sec c)) live).

Lemma NoDup_map_filter {A B} (f : A -> B) g l : NoDup (map f l) -> NoDup (map f (filter g l)).
Proof.
  induction l as [|x l I]; simpl; auto. intros N. inversion N; subst. destruct (g x); simpl; auto. constructor; auto.
  intros H. apply H1. apply in_map_iff in H as (y & <- & H). apply filter_In in H as [H _]. now apply in_map.
Qed.
Lemma act_inv n live x n' live' : inv n live -> act (n, live) x = Some (n', live') -> inv n' live'.
Proof.
  intros (F & NA & NS). destruct x as [a name|i]; simpl.
  - destruct (free_addr live a) eqn:E; [|discriminate]. intros [= <- <-].
    unfold free_addr in E. apply andb_prop in E as [E1 E3]. apply andb_prop in E1 as [E1 E2].
    apply Z.leb_le in E1. apply Z.ltb_lt in E2. rewrite forallb_forall in E3.
    split; [|split].
    + constructor; [simpl; lia|]. eapply Forall_impl; [|exact F]. simpl. intros c. lia.
    + simpl. constructor; auto. intros H. apply in_map_iff in H as (c & C & H). specialize (E3 c H). rewrite C, Z.eqb_refl in E3. discriminate E3.
    + simpl. constructor; auto. intros H. apply in_map_iff in H as (c & C & H). rewrite Forall_forall in F. specialize (F c H). lia.
  - intros [= <- <-]. split; [|split]; [|now apply NoDup_map_filter..].
    rewrite Forall_forall in *. intros c H. apply filter_In in H as [H _]. auto.
Qed.
Lemma acts_inv l : forall n live n' live', inv n live -> acts (n, live) l = Some (n', live') -> inv n' live'.
Proof.
  induction l as [|x l I]; intros n live n' live' H; cbn [acts]; [now intros [= <- <-]|].
  destruct (act (n, live) x) as [[n1 live1]|] eqn:E; [|discriminate]. apply I. eapply act_inv; eauto.
Qed.
Definition named (live : list cell) (l : list action) : Prop :=
  Forall (fun c => auto_cell c \/ short (nm c) = true) live /\ NoDup (map nm (filter (fun c => short (nm c)) live) ++ given l).
Lemma NoDup_sub {A} (a b c : list A) : NoDup (b ++ c) -> NoDup a -> (forall x, In x a -> In x b) -> NoDup (a ++ c).
Proof.
  intros N A1 S. induction a as [|x a I]; simpl.
  - clear -N. induction b; simpl in N; auto. inversion N; auto.
  - inversion A1; subst. constructor; [|apply I; auto; intros; apply S; now right].
    intros H. apply in_app_or in H as [H|H]; [tauto|]. specialize (S x (or_introl eq_refl)).
    clear -N S H. induction b as [|y b J]; simpl in *; [tauto|]. inversion N; subst. destruct S as [->|S]; [apply H2, in_or_app; auto|auto].
Qed.
Section L.
Hypothesis Len : forall x, (16 <= List.length (sha256 x))%nat.
Lemma auto_long a : short (unique_name a) = false.
Proof. unfold short, unique_name. rewrite firstn_length, hex_len. specialize (Len (pack_q (object_hash a))). apply Nat.ltb_ge. lia. Qed.
Lemma acts_named l : forall n live n' live', Forall (fun m => short m = true) (given l) -> named live l ->
  acts (n, live) l = Some (n', live') -> named live' [].
Proof.
  induction l as [|x l I]; intros n live n' live' A (F & N); cbn [acts]; [now intros [= <- <-]|].
  destruct (act (n, live) x) as [[n1 live1]|] eqn:E; [|discriminate]. 
  destruct x as [a [m|]|i]; simpl in E.
  - destruct (free_addr live a); [|discriminate]. injection E as <- <-. simpl in A. inversion A; subst.
    apply I; auto. split; [constructor; auto|]. cbn [filter]. change (nm (mkCell a (mkSecret n m))) with m. rewrite H1. cbn [map app]. change (nm (mkCell a (mkSecret n m))) with m.
    simpl in N. apply NoDup_remove in N as [N1 N2]. constructor; auto.
  - destruct (free_addr live a); [|discriminate]. injection E as <- <-. apply I; auto. split; [constructor; [now left|auto]|].
    cbn [filter]. change (nm (mkCell a (mkSecret n (unique_name a)))) with (unique_name a). now rewrite auto_long.
  - injection E as <- <-. apply I; auto. split.
    + rewrite Forall_forall in *. intros c H. apply filter_In in H as [H _]. auto.
    + eapply NoDup_sub; [exact N| |].
      * assert (NoDup (map nm (filter (fun c => short (nm c)) live))).
        { clear -N. induction (map nm (filter (fun c => short (nm c)) live)); [constructor|]. simpl in N. inversion N; subst.
          constructor; auto. intros H. apply H1, in_or_app. auto. }
        clear -H. induction live as [|c live J]; simpl in *; [constructor|].
        destruct (short (nm c)) eqn:S; simpl in H.
        -- inversion H; subst. destruct (negb (sid (c_sec c) =? i)%nat); simpl; auto. rewrite S. simpl. constructor; auto.
           intros X. apply H2. apply in_map_iff in X as (y & Y & X). apply filter_In in X as [X X2]. apply filter_In in X as [X _].
           apply in_map_iff. exists y. split; auto. apply filter_In. auto.
        -- destruct (negb (sid (c_sec c) =? i)%nat); simpl; auto. rewrite S. auto.
      * intros y Y. apply in_map_iff in Y as (c & <- & Y). apply filter_In in Y as [Y Y2]. apply filter_In in Y as [Y _].
        apply in_map_iff. exists c. split; auto. apply filter_In. auto.
Qed.
Lemma NoDup_map_inj {A B} (f : A -> B) l x y : NoDup (map f l) -> In x l -> In y l -> f x = f y -> x = y.
Proof.
  induction l as [|z l I]; simpl; [tauto|]. intros N. inversion N as [|? ? N1 N2]; subst.
  intros [->|X] [->|Y] E; auto.
  - elim N1. rewrite E. now apply in_map.
  - elim N1. rewrite <- E. now apply in_map.
Qed.

Lemma names_live l n live : Forall (fun m => List.length m < 32)%nat (given l) -> NoDup (given l) -> acts (0%nat, []) l = Some (n, live) ->
  wfL (map c_sec live) \/
  exists c d, In c live /\ In d live /\ c_addr c <> c_addr d /\ near_collision (pack_q (object_hash (c_addr c))) (pack_q (object_hash (c_addr d))).
Proof.
  intros Sh ND H.
  assert (I : inv n live) by (eapply acts_inv; [|exact H]; split; [|split]; constructor).
  assert (F : named live []).
  { eapply acts_named; [| |exact H]; [|split; [constructor|exact ND]].
    eapply Forall_impl; [|exact Sh]. simpl. intros m. apply Nat.ltb_lt. }
  destruct I as (R & NA & NS). destruct F as [F G]. simpl in G. rewrite app_nil_r in G. rewrite Forall_forall in R, F.
  set (P := fun c d : cell => negb (c_addr c =? c_addr d) && bytes_eqb (firstn 16 (sha256 (pack_q (object_hash (c_addr c)))))
     (firstn 16 (sha256 (pack_q (object_hash (c_addr d)))))).
  destruct (existsb (fun c => existsb (P c) live) live) eqn:E.
  - right. apply existsb_exists in E as (c & C & E). apply existsb_exists in E as (d & D & E). exists c, d.
    unfold P in E. apply andb_prop in E as [E1 E2]. apply negb_true_iff, Z.eqb_neq in E1. apply bytes_eqb_eq in E2.
    repeat split; auto. intros Q. destruct (R c C) as [Rc _], (R d D) as [Rd _].
    apply pack_q_inj in Q; [|apply object_hash_range; lia|apply object_hash_range; lia]. apply object_hash_inj in Q; auto.
  - left. intros s t S T. apply in_map_iff in S as (c & <- & C). apply in_map_iff in T as (d & <- & D). split.
    + intros Q. change (nm c = nm d) in Q. destruct (short (nm c)) eqn:SC.
      { assert (SD : short (nm d) = true) by congruence.
        rewrite (NoDup_map_inj nm (filter (fun c => short (nm c)) live) c d G); auto; apply filter_In; auto. }
      destruct (F c C) as [Fc|]; [|congruence]. assert (SD : short (nm d) = false) by congruence.
      destruct (F d D) as [Fd|]; [|congruence]. rewrite Fc, Fd in Q.
      destruct (Z.eq_dec (c_addr c) (c_addr d)) as [Ea|Na].
      * now rewrite (NoDup_map_inj c_addr live c d NA C D Ea).
      * exfalso. assert (X : existsb (fun c => existsb (P c) live) live = true).
        { apply existsb_exists. exists c. split; auto. apply existsb_exists. exists d. split; auto. unfold P.
          rewrite (proj2 (Z.eqb_neq _ _) Na). simpl. apply bytes_eqb_eq. now apply unique_name_eq. }
        congruence.
    + intros Q. now rewrite (NoDup_map_inj (fun c => sid (c_sec c)) live c d NS C D Q).
Qed.
End L.

Lemma name_reused a : 0 <= a < 2 ^ 64 - 1 -> exists c d,
  acts (0%nat, []) [New a None] = Some (1%nat, [c]) /\ acts (0%nat, []) [New a None; Drop 0; New a None] = Some (2%nat, [d]) /\
  sid (c_sec c) <> sid (c_sec d) /\ sname (c_sec c) = sname (c_sec d).
Proof.
  intros R. assert (E : free_addr [] a = true).
  { unfold free_addr. simpl. rewrite andb_true_r. apply andb_true_intro. rewrite Z.leb_le, Z.ltb_lt. lia. }
  eexists. eexists. simpl. rewrite !E. simpl. rewrite E. repeat split. simpl. discriminate.
Qed.
End N.

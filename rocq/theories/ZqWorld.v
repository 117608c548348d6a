(** A concrete [World]: for every n and tag t the additive group of integers modulo n+2, with
    multiplication as pairing between tags 1 and 2 (result in tag 3). Used for examples and for
    refutations; it shows that the laws of [World] are satisfiable. *)
From Coq Require Import String Eqdep_dec NArith DecimalString DecimalN.
From Verif Require Import Base World Val.
Open Scope Z_scope.
Open Scope list_scope.

Definition zgid : Type := N * N.
Definition zorder (g : zgid) : Z := Z.of_N (snd g) + 2.
Definition zgid_eqb (a b : zgid) : bool := N.eqb (fst a) (fst b) && N.eqb (snd a) (snd b).

Record zpt := mkZ { zg : zgid; zv : Z; zok : (0 <=? zv) && (zv <? zorder zg) = true }.

Lemma zpt_eq a b : zg a = zg b -> zv a = zv b -> a = b.
Proof.
  destruct a as [g v o], b as [g' v' o']; simpl; intros -> ->.
  f_equal. apply UIP_dec, bool_dec.
Qed.
Lemma zorder_gt1 g : 1 < zorder g.
Proof. unfold zorder. lia. Qed.
Lemma zmk_ok g v : (0 <=? v mod zorder g) && (v mod zorder g <? zorder g) = true.
Proof.
  assert (H := zorder_gt1 g). assert (B := Z.mod_pos_bound v (zorder g)).
  apply andb_true_intro. rewrite Z.leb_le, Z.ltb_lt. lia.
Qed.
Definition zmk (g : zgid) (v : Z) : zpt := mkZ g (v mod zorder g) (zmk_ok g v).
Definition zpt_eqb (a b : zpt) : bool := zgid_eqb (zg a) (zg b) && (zv a =? zv b).

Lemma zgid_eqb_spec a b : zgid_eqb a b = true <-> a = b.
Proof.
  destruct a, b. unfold zgid_eqb; simpl. rewrite andb_true_iff, !N.eqb_eq.
  split; [intros [-> ->]|intros H; inversion H]; auto.
Qed.
Lemma zpt_eqb_spec a b : zpt_eqb a b = true <-> a = b.
Proof.
  unfold zpt_eqb. rewrite andb_true_iff, zgid_eqb_spec, Z.eqb_eq. split.
  - intros [H1 H2]. now apply zpt_eq.
  - intros ->; auto.
Qed.

Definition zpairs (a b : zgid) : option zgid :=
  if N.eqb (fst a) 1 && N.eqb (fst b) 2 && N.eqb (snd a) (snd b) then Some (3%N, snd a) else None.

Lemma zpairs_some a b t : zpairs a b = Some t ->
  fst a = 1%N /\ fst b = 2%N /\ snd a = snd b /\ t = (3%N, snd a).
Proof.
  unfold zpairs. destruct (N.eqb (fst a) 1) eqn:E1; [|discriminate].
  destruct (N.eqb (fst b) 2) eqn:E2; [|discriminate].
  destruct (N.eqb (snd a) (snd b)) eqn:E3; [|discriminate]. simpl.
  apply N.eqb_eq in E1, E2, E3. intros H; inversion H; auto.
Qed.

(** textual form: GTPt-like "Pt(t,n,v)" *)
Definition ndec (n : N) : bytes := lit (NilZero.string_of_uint (N.to_uint n)).
Definition zrepr (p : zpt) : bytes :=
  lit "Pt(" ++ ndec (fst (zg p)) ++ lit ";" ++ ndec (snd (zg p)) ++ lit ";" ++ ndec (Z.to_N (zv p)) ++ lit ")".

Fixpoint split_at (c : ascii) (b : bytes) : bytes * bytes :=
  match b with
  | [] => ([], [])
  | x :: b => if Ascii.eqb x c then ([], b) else let (u, v) := split_at c b in (x :: u, v)
  end.
Definition nparse (b : bytes) : option N :=
  option_map N.of_uint (NilZero.uint_of_string (string_of_list_ascii b)).
Definition zimport (b : bytes) : option zpt :=
  let (t, r) := split_at ";" b in
  let (n, v) := split_at ";" r in
  match nparse t, nparse n, nparse v with
  | Some t, Some n, Some v => Some (zmk (t, n) (Z.of_N v))
  | _, _, _ => None
  end.
Definition zexport (p : zpt) : bytes :=
  ndec (fst (zg p)) ++ lit ";" ++ ndec (snd (zg p)) ++ lit ";" ++ ndec (Z.to_N (zv p)).

(** a toy hash function with 16-bit output *)
Definition toy_hash (k : Z) (b : bytes) : bytes :=
  be_bytes 2 (fold_left (fun acc a => (acc * 257 + int_of a + k) mod 65521) b 1).

Ltac zq := apply zpt_eq; simpl; [reflexivity | ].

#[refine] Global Instance Zq : World := {
  gid := zgid; gid_eqb := zgid_eqb; order := zorder; pt := zpt; grp := zg; pt_eqb := zpt_eqb;
  inf := fun g => zmk g 0; gen := fun g => zmk g 1;
  padd := fun a b => zmk (zg a) (zv a + zv b); pmul := fun k a => zmk (zg a) (k * zv a);
  has_sub := fun g => negb (N.eqb (fst g) 3);
  pairs := zpairs; pairing := fun a b => zmk (3%N, snd (zg a)) (zv a * zv b);
  hash_to_point := fun g b => zmk g (be_int b); repr_pt := zrepr;
  export_pt := zexport; import_pt := zimport;
  sha256 := toy_hash 11; sha512 := toy_hash 5 }.
Proof.
  - apply zgid_eqb_spec.
  - apply zorder_gt1.
  - apply zpt_eqb_spec.
  - reflexivity.
  - reflexivity.
  - reflexivity.
  - reflexivity.
  - intros a b E. apply zpt_eq; simpl; [auto | rewrite E; f_equal; lia].
  - intros a b c E1 E2. zq. rewrite <- E1. 
    rewrite Zplus_mod_idemp_r, Zplus_mod_idemp_l. f_equal. lia.
  - intros [g v o]. zq. apply andb_true_iff in o. rewrite Z.leb_le, Z.ltb_lt in o.
    now apply Z.mod_small.
  - intros a. zq. reflexivity.
  - intros [g v o]. zq. apply andb_true_iff in o. rewrite Z.leb_le, Z.ltb_lt in o.
    destruct v; now apply Z.mod_small.
  - intros j k a. zq. rewrite <- Zplus_mod. f_equal. lia.
  - intros j k a. zq. rewrite Zmult_mod_idemp_r. f_equal. lia.
  - intros k a b E. zq. rewrite <- E. rewrite Zmult_mod_idemp_r, <- Zplus_mod. f_equal. lia.
  - intros a. zq. rewrite Z.mul_comm, Z_mod_mult. reflexivity.
  - intros a b t H. apply zpairs_some in H. destruct H as (_ & _ & _ & ->). reflexivity.
  - intros a b t H. apply zpairs_some in H. unfold zorder. destruct H as (_ & _ & -> & ->); auto.
  - intros a a' b t H E. zq. apply zpairs_some in H. rewrite E.
    change (zorder (3%N, snd (zg a))) with (zorder (zg a)).
    rewrite Zmult_mod_idemp_l, <- Zplus_mod. f_equal. lia.
  - intros a b b' t H E. zq. apply zpairs_some in H.
    replace (zorder (zg b)) with (zorder (3%N, snd (zg a)))
      by (unfold zorder; simpl; now destruct H as (_ & _ & -> & _)).
    rewrite Zmult_mod_idemp_r, <- Zplus_mod. f_equal. lia.
  - intros k a b t H. zq.
    change (zorder (3%N, snd (zg a))) with (zorder (zg a)).
    rewrite Zmult_mod_idemp_l, Zmult_mod_idemp_r. f_equal. lia.
  - intros k a b t H. zq. apply zpairs_some in H.
    replace (zorder (zg b)) with (zorder (3%N, snd (zg a)))
      by (unfold zorder; simpl; now destruct H as (_ & _ & -> & _)).
    rewrite Zmult_mod_idemp_r, Zmult_mod_idemp_r. f_equal. lia.
  - reflexivity.
Defined.

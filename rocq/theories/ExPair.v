(** An instance of [Bp]: the integers modulo 7, with multiplication as pairing and a wrong [** 0] in the third group. *)
From Coq Require Import String Eqdep_dec.
From Verif Require Import Base Pairings.
Open Scope Z_scope.
Open Scope list_scope.

Record el := mkEl { ev : Z; eok : ev mod 7 = ev }.
Lemma el_eq a b : ev a = ev b -> a = b.
Proof. destruct a as [v o], b as [v' o']; simpl; intros ->. f_equal. apply UIP_dec, Z.eq_dec. Qed.
Definition el_of (z : Z) : el := mkEl (z mod 7) (Zmod_mod z 7).
Definition el_eqb (a b : el) : bool := ev a =? ev b.
Lemma el_eqb_spec a b : el_eqb a b = true <-> a = b.
Proof. unfold el_eqb. rewrite Z.eqb_eq. split; [apply el_eq|now intros ->]. Qed.
Lemma el_ev z : ev (el_of z) = z mod 7.
Proof. reflexivity. Qed.
Definition el_pow (k : side) (x : el) (n : Z) : el :=
  match k with GT => if n =? 0 then el_of 3 else el_of (ev x * n) | _ => el_of (ev x * n) end.
Lemma el_pow_eq k x n : expo k n -> el_pow k x n = el_of (ev x * n).
Proof. destruct k; simpl; auto. intros E. destruct (n =? 0) eqn:N; auto. apply Z.eqb_eq in N. now elim (E eq_refl). Qed.
Lemma el_mod a b : a mod 7 = b mod 7 -> el_of a = el_of b.
Proof. intros H. now apply el_eq. Qed.
Lemma el_id x : el_of (ev x) = x.
Proof. apply el_eq. apply eok. Qed.

Definition El : Bp.
Proof.
  refine {| raw := fun _ => el; raw_eqb := fun _ => el_eqb; raw_eqb_spec := fun _ => el_eqb_spec; bp_order := 7;
    bp_order_gt1 := eq_refl; radd := fun _ a b => el_of (ev a + ev b); rmul := el_pow; rzero := fun _ => el_of 0;
    rgen1 := el_of 1; rgen2 := el_of 1; rdiv := fun a b => el_of (ev a - ev b); rpair := fun a b => el_of (ev a * ev b);
    rhash1 := fun s => el_of (Z.of_nat (List.length s));
    rexport := fun _ x => repeat zero (Z.to_nat (ev x)); rimport := fun _ s => Some (el_of (Z.of_nat (List.length s))) |}.
  - intros. f_equal. lia.
  - intros. apply el_mod. rewrite !el_ev, Zplus_mod_idemp_r, Zplus_mod_idemp_l. f_equal. lia.
  - intros. apply el_id.
  - intros k a N. rewrite el_pow_eq by (intros ?; congruence). now rewrite Z.mul_0_r.
  - intros k a. rewrite el_pow_eq by (intros _; lia). rewrite Z.mul_1_r. apply el_id.
  - intros k a i j I J IJ. rewrite !el_pow_eq by auto. apply el_mod. rewrite !el_ev, <- Zplus_mod. f_equal. lia.
  - intros k a i j I J. assert (expo k (i * j)) by (intros K; specialize (I K); specialize (J K); nia).
    rewrite !el_pow_eq by auto. apply el_mod. rewrite el_ev, Zmult_mod_idemp_l. f_equal. lia.
  - intros k a b i I. rewrite !el_pow_eq by auto. apply el_mod. rewrite !el_ev, <- Zplus_mod, Zmult_mod_idemp_l. f_equal. lia.
  - intros k a. rewrite el_pow_eq by (intros _; lia). apply el_mod. now rewrite Z_mod_mult.
  - intros a. now rewrite Z.sub_diag.
  - intros. apply el_mod. rewrite !el_ev, <- Zplus_mod, Zmult_mod_idemp_l. f_equal. lia.
  - intros. apply el_mod. rewrite !el_ev, <- Zplus_mod, Zmult_mod_idemp_r. f_equal. lia.
  - intros n a b N. rewrite !el_pow_eq by (intros _; lia). apply el_mod. rewrite !el_ev, !Zmult_mod_idemp_l. f_equal. lia.
  - intros n a b N. rewrite !el_pow_eq by (intros _; lia). apply el_mod. rewrite !el_ev, Zmult_mod_idemp_l, Zmult_mod_idemp_r. f_equal. lia.
Defined.
Lemma el_sent k x : @rimport El k (@rexport El k x) = Some x.
Proof.
  simpl. f_equal. rewrite repeat_length. assert (H := eok x). assert (B := Z.mod_pos_bound (ev x) 7 eq_refl).
  rewrite Z2Nat.id by lia. apply el_id.
Qed.
(** [** 0] is really wrong there *)
Example el_broken : @rmul El GT (el_of 2) 0 <> @rzero El GT.
Proof. intros H. apply (f_equal ev) in H. discriminate H. Qed.

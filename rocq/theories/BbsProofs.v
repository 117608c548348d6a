(** BBS+ signatures: issuing, verification, what a signature is bound to. *)
From Coq Require Import String Znumtheory.
From Verif Require Import Base World Val Expr Utils Stmt Prove Verify Spec Shapes Claims Honest Clauses Bbs Lib Lin DictProofs
  ArithProofs Build Process Ktruth Supply Provers Complete Complete2 Sound Sound2 Ident IdProofs2 IdProofs6 Prims.
Open Scope Z_scope.
Open Scope list_scope.

(** ** Modular inverses *)
Lemma egcd_spec n : forall a b, 0 <= a -> 0 <= b < 2 ^ Z.of_nat n ->
  let (u, v) := egcd (2 * n + 1) a b in u * a + v * b = Z.gcd a b.
Proof.
  induction n as [|n IH]; intros a b Ha Hb.
  - change (2 ^ Z.of_nat 0) with 1 in Hb. assert (b = 0) as -> by lia. cbn [egcd Nat.mul Nat.add].
    change (0 =? 0) with true. cbv iota. rewrite Z.gcd_0_r, Z.abs_eq; lia.
  - replace (2 * S n + 1)%nat with (S (S (2 * n + 1))) by lia. cbn [egcd].
    destruct (Z.eqb_spec b 0) as [->|Nb]; [rewrite Z.gcd_0_r, Z.abs_eq; lia|].
    assert (G1 := Z.gcd_mod a b Nb). assert (R1 := Z.mod_pos_bound a b ltac:(lia)). assert (D1 := Z.div_mod a b Nb).
    destruct (Z.eqb_spec (a mod b) 0) as [E|Nr].
    + rewrite E in G1. rewrite Z.gcd_0_l, Z.abs_eq in G1 by lia. rewrite Z.gcd_comm, <- G1. lia.
    + set (r := a mod b) in *.
      assert (G2 := Z.gcd_mod b r Nr). assert (R2 := Z.mod_pos_bound b r ltac:(lia)). assert (D2 := Z.div_mod b r Nr).
      assert (Q2 : 1 <= b / r) by (apply Z.div_le_lower_bound; lia).
      specialize (IH r (b mod r) ltac:(lia)). rewrite Nat2Z.inj_succ, Z.pow_succ_r in Hb by lia.
      assert (b mod r < 2 ^ Z.of_nat n) by nia.
      specialize (IH ltac:(lia)). destruct (egcd (2 * n + 1) r (b mod r)) as [u v].
      rewrite (Z.gcd_comm a b), <- G1, (Z.gcd_comm r b). rewrite Z.gcd_comm, <- G2, Z.gcd_comm, <- IH.
      set (k := a / b) in *. set (l := b / r) in *. set (m := b mod r) in *.
      transitivity ((u - l * v) * (a - b * k) + v * b); [ring|]. replace (a - b * k) with r by lia.
      transitivity (u * r + v * (b - r * l)); [ring|]. replace (b - r * l) with m by lia. ring.
Qed.
Lemma mod_inverse_ok a q i : 1 < q -> mod_inverse a q = Ok i -> (q | i * a - 1).
Proof.
  intros Q H. unfold mod_inverse in H. cbv beta zeta in H.
  destruct (Z.eqb_spec ((fst (egcd (2 * Z.to_nat (Z.log2 q) + 3) (a mod q) q) mod q * a) mod q) 1) as [E|]; [|discriminate].
  assert (H' := f_equal (fun r => match r with Ok x => x | _ => 0 end) H). cbv beta iota in H'. rewrite H' in E. clear H H'. exists (i * a / q). assert (D := Z.div_mod (i * a) q ltac:(lia)). lia.
Qed.
Lemma mod_inverse_total a q : 1 < q -> Z.gcd a q = 1 -> exists i, mod_inverse a q = Ok i.
Proof.
  intros Q G. unfold mod_inverse. assert (L := Z.log2_nonneg q). assert (B := Z.log2_spec q ltac:(lia)).
  assert (S := egcd_spec (S (Z.to_nat (Z.log2 q))) (a mod q) q). rewrite Nat2Z.inj_succ, Z2Nat.id in S by auto.
  assert (R := Z.mod_pos_bound a q ltac:(lia)). specialize (S ltac:(lia) ltac:(lia)).
  replace (2 * Z.to_nat (Z.log2 q) + 3)%nat with (2 * (1 + Z.to_nat (Z.log2 q)) + 1)%nat by lia.
  simpl (1 + _)%nat. destruct (egcd (2 * Datatypes.S (Z.to_nat (Z.log2 q)) + 1) (a mod q) q) as [u v]. cbn [fst].
  rewrite Z.gcd_mod, Z.gcd_comm, G in S by lia.
  assert (E : ((u mod q) * a) mod q = 1).
  { rewrite Zmult_mod_idemp_l, <- Zmult_mod_idemp_r. replace (u * (a mod q)) with (1 + (- v) * q) by lia.
    rewrite Z_mod_plus_full. apply Z.mod_small. lia. }
  rewrite E. simpl. eauto.
Qed.

Section B.
Context {W : World}.

(** a key pair over the groups [G1], [G2] *)
Definition keys (G1 G2 GT : gid) (sk : bbs_sk) (pk : bbs_pk) : Prop :=
  pairs G1 G2 = Some GT /\ in_group G1 (pk_gens pk) /\ grp (pk_h0 pk) = G2 /\ sk_h0 sk = pk_h0 pk /\ sk_gens sk = pk_gens pk /\
  pk_w pk = pmul (sk_gamma sk) (pk_h0 pk) /\ pk_genpairs pk = map (fun g => pairing g (pk_h0 pk)) (pk_gens pk).

Lemma mapM_hash g l st : exists ps, mapM (fun i => get_random_point g 256 (Some (42 + Z.of_nat i))) l st = Ok (ps, st) /\
  in_group g ps /\ List.length ps = List.length l.
Proof.
  induction l as [|x l (ps & IH & I & L)]; [exists []; repeat split; constructor|].
  exists (hash_to_point g (firstn (Z.to_nat ((256 + 7) / 8)) (sha512 (dec (42 + Z.of_nat x)))) :: ps).
  split; [|split; [constructor; [apply grp_hash|auto]|simpl; congruence]].
  set (f := fun i => get_random_point g 256 (Some (42 + Z.of_nat i))) in *.
  change (mapM f (x :: l) st) with (bind (f x) (fun y => bind (mapM f l) (fun ys => ret (y :: ys))) st).
  unfold bind. unfold f at 1. cbn [get_random_point]. unfold ret at 1. rewrite IH. reflexivity.
Qed.
Lemma keygen_ok G1 G2 GT n st : pairs G1 G2 = Some GT ->
  exists sk pk st', keygen G1 G2 n st = Ok ((sk, pk), st') /\ keys G1 G2 GT sk pk /\ List.length (pk_gens pk) = (n + 2)%nat.
Proof.
  intros P. unfold keygen, make_generators. destruct (mapM_hash G1 (seq 0 (n + 2)) st) as (ps & E & I & L). rewrite seq_length in L.
  unfold bind at 1. cbn [option_map]. rewrite E. unfold bind at 1, draw. cbn [env tape pos].
  assert (R : rmap (fun g => pairing_chk g (gen G2)) ps = Ok (map (fun g => pairing g (gen G2)) ps)).
  { clear E L. induction ps as [|p ps IH]; auto. inversion I; subst. simpl. unfold pairing_chk at 1. rewrite grp_gen, P. simpl.
    now rewrite IH. }
  rewrite R, bind_lift_ok. do 3 eexists. split; [reflexivity|]. split; auto. unfold keys. cbn. rewrite grp_gen. auto 10.
Qed.
Lemma keygen_inv G1 G2 GT n st sk pk st' : pairs G1 G2 = Some GT -> keygen G1 G2 n st = Ok ((sk, pk), st') ->
  keys G1 G2 GT sk pk /\ List.length (pk_gens pk) = (n + 2)%nat.
Proof.
  intros P H. destruct (keygen_ok G1 G2 GT n st P) as (sk1 & pk1 & st1 & E & K). rewrite E in H. injection H as <- <- <-. exact K.
Qed.
Lemma keys_pk_ok G1 G2 GT sk pk : keys G1 G2 GT sk pk -> bbs_pk_ok pk.
Proof.
  intros (P & I & H0 & _ & _ & EW & GP). exists G1, G2, GT. repeat split; auto. rewrite EW, grp_mul. auto.
Qed.

(** ** Verification *)
Lemma firstn_tl {A} n (x : A) l : firstn (n + 2) (x :: l) = x :: firstn (n + 1) l.
Proof. now replace (n + 2)%nat with (S (n + 1)) by lia. Qed.
Lemma in_group_firstn g n ps : in_group g ps -> in_group g (firstn n ps).
Proof. intros H. unfold in_group in *. rewrite <- (firstn_skipn n ps) in H. now apply Forall_app in H as [H _]. Qed.

Lemma verify_signature_valid pk sg ms : bbs_pk_ok pk -> in_group (grp (sig_A sg)) (pk_gens pk) -> pk_gens pk <> [] ->
  exists b, verify_signature sg pk ms = Ok b /\ (b = true <-> bbs_valid pk sg (sig_e sg) (sig_s sg) ms).
Proof.
  intros (G1 & G2 & GT & P & I & GW & GH & _) IA N. unfold verify_signature, bbs_valid.
  destruct (pk_gens pk) as [|g0 gens] eqn:EG; [congruence|]. rewrite firstn_tl.
  assert (G0 := Forall_inv I). assert (GA := Forall_inv IA). assert (I' := Forall_inv_tail I). cbv beta in G0, GA. rewrite G0 in GA.
  clear I IA N. rewrite <- G0 in *. clear G1 G0.
  rewrite (wsum_lincomb (grp g0)) by now apply in_group_firstn. cbn [rbind].
  assert (EL : lincomb (grp g0) (sig_s sg :: ms) (firstn (List.length ms + 1) gens) = lincomb (grp g0) (sig_s sg :: ms) gens).
  { rewrite <- (lincomb_firstn (grp g0) (sig_s sg :: ms) gens). simpl List.length. now replace (List.length ms + 1)%nat with (S (List.length ms)) by lia. }
  rewrite EL. unfold padd_chk at 1. rewrite grp_lincomb, gid_eqb_refl by auto. cbn [rbind].
  rewrite padd_chk_same by (rewrite grp_mul; congruence). cbn [rbind].
  unfold pairing_chk. rewrite (grp_add (pk_w pk)) by (rewrite grp_mul; congruence).
  rewrite (grp_add g0) by (symmetry; apply grp_lincomb; auto). rewrite <- GA, GW, GH, P. cbn [rbind].
  eexists. split; [reflexivity|]. apply pt_eqb_spec.
Qed.

(** ** Issuing *)
Lemma lincomb_grp g ws ps : in_group g ps -> grp (lincomb g ws ps) = g.
Proof. apply grp_lincomb. Qed.

Lemma commit_inv G1 pk s1 ms zkp ss st b s1' st' : in_group G1 (pk_gens pk) ->
  commit_messages pk s1 ms zkp ss st = Ok ((b, s1'), st') ->
  exists g0 gens, pk_gens pk = g0 :: gens /\
   (if zkp then exists g1 gens' t z d s' st1 st2, gens = g1 :: gens' /\ s1' = Some t /\ bl_proof b = Some z /\
      List.length ss = List.length (firstn (List.length ms + 1) gens) /\ ss <> [] /\
      bl_com b = padd (pmul t g1) (lincomb G1 ms gens') /\
      d = mkDL (bl_com b) (firstn (List.length ms + 1) gens) ss (snapshot (env st) ss) false /\
      env st1 = env st /\ prove (SDL d) (combine ss (t :: ms)) (lit "") st1 = Ok ((z, s'), st2)
    else s1' = s1 /\ bl_proof b = None /\ bl_com b = lincomb G1 ms (skipn 1 gens)).
Proof.
  intros I H. unfold commit_messages in H. destruct (pk_gens pk) as [|g0 gens]; [discriminate|].
  exists g0, gens. split; auto. assert (G0 := Forall_inv I). assert (I' := Forall_inv_tail I). cbv beta in G0.
  assert (IS : in_group G1 (skipn 1 gens)) by (destruct gens; [exact I'|now apply Forall_inv_tail in I']).
  rewrite G0, wsum_lincomb, lincomb_firstn in H by now apply in_group_firstn. rewrite bind_lift_ok in H.
  destruct zkp.
  - unfold bind at 1, draw in H. cbv beta iota in H. destruct gens as [|g1 gens']; [discriminate|].
    set (t := tape st (pos st) mod order G1) in *. assert (G1' := Forall_inv I'). cbv beta in G1'.
    cbn [skipn] in H, IS. rewrite padd_chk_same in H by (rewrite grp_mul, grp_lincomb; auto). rewrite bind_lift_ok in H.
    destruct (wsum_secrets ss (firstn (List.length ms + 1) (g1 :: gens'))) as [rhs|er] eqn:E1; [|discriminate].
    rewrite bind_lift_ok in H. unfold bind at 1 in H.
    destruct (mk_dlrep (padd (pmul t g1) (lincomb G1 ms gens')) rhs false (mkSt (env st) (tape st) (S (pos st)))) as [[d st1]|] eqn:E2; [|discriminate].
    apply mk_dlrep_ok in E2 as (-> & Ed & _). unfold bind at 1 in H.
    destruct (prove _ _ _ _) as [[[z s'] st2]|] eqn:E3 in H; [|discriminate]. apply ret_ok in H as [H _].
    injection H as <- <-.
    assert (LS : List.length ss = List.length (firstn (List.length ms + 1) (g1 :: gens'))).
    { destruct (Nat.eq_dec (List.length ss) (List.length (firstn (List.length ms + 1) (g1 :: gens')))); auto.
      rewrite wsum_secrets_len in E1 by auto. discriminate. }
    assert (NS : ss <> []).
    { intros ->. rewrite Nat.add_1_r in LS. discriminate. }
    rewrite wsum_secrets_val in E1 by auto. injection E1 as <-. cbn [e_bases e_secs env] in Ed.
    exists g1, gens', t, z, d, s', (mkSt (env st) (tape st) (S (pos st))), st2. cbn [bl_com bl_proof fst].
    repeat (split; auto).
  - apply ret_ok in H as [H _]. injection H as <- <-. auto.
Qed.

Lemma sign_inv G1 sk com st sg st' g0 g1 gens : sk_gens sk = g0 :: g1 :: gens -> in_group G1 (sk_gens sk) -> grp com = G1 ->
  sign sk com st = Ok (sg, st') -> exists i, (order (grp (sk_h0 sk)) | i * (sk_gamma sk + sig_e sg) - 1) /\
    sig_A sg = pmul i (padd (padd g0 (pmul (sig_s sg) g1)) com).
Proof.
  intros EG I GC H. unfold sign in H. rewrite EG in *. assert (A0 := Forall_inv I). assert (A1 := Forall_inv (Forall_inv_tail I)).
  cbv beta in A0, A1. unfold bind at 1, draw in H. cbv beta iota in H. cbn [tape env pos] in H. unfold bind at 1 in H. cbv beta iota in H.
  rewrite padd_chk_same, bind_lift_ok in H by (rewrite grp_mul; congruence).
  rewrite padd_chk_same, bind_lift_ok in H by (rewrite grp_add; [congruence|rewrite grp_mul; congruence]).
  destruct (mod_inverse _ _) as [i|] eqn:E in H; [|discriminate]. rewrite bind_lift_ok in H. apply ret_ok in H as [H _].
  subst sg. exists i. cbn [sig_e sig_s sig_A]. split; auto. now apply mod_inverse_ok in E; [|apply order_gt1].
Qed.
Lemma sign_total G1 G2 GT sk pk com st : keys G1 G2 GT sk pk -> (2 <= List.length (pk_gens pk))%nat -> grp com = G1 ->
  prime (order G1) ->
  (exists sg st', sign sk com st = Ok (sg, st')) \/ (order G1 | sk_gamma sk + tape st (pos st)).
Proof.
  intros (P & I & H0 & EH & EG & EW & _) L GC PR. destruct (order_pairs _ _ _ P) as [O1 O2].
  destruct (Z.eq_dec (Z.gcd (sk_gamma sk + tape st (pos st)) (order G1)) 1) as [C|C].
  - left. unfold sign. rewrite EG, EH, H0, O2, <- O1. destruct (pk_gens pk) as [|g0 [|g1 gens]]; simpl in L; try lia.
    assert (A0 := Forall_inv I). assert (A1 := Forall_inv (Forall_inv_tail I)). cbv beta in A0, A1.
    unfold bind at 1, draw. cbv beta iota. cbn [tape env pos]. unfold bind at 1. cbv beta iota.
    rewrite padd_chk_same, bind_lift_ok by (rewrite grp_mul; congruence).
    rewrite padd_chk_same, bind_lift_ok by (rewrite grp_add; [congruence|rewrite grp_mul; congruence]).
    destruct (mod_inverse_total (sk_gamma sk + tape st (pos st) mod order G1) (order G1)) as (i & E).
    + apply order_gt1.
    + rewrite Z.gcd_comm, <- (Z.gcd_add_mult_diag_r _ _ (tape st (pos st) / order G1)), Z.gcd_comm. rewrite <- C. f_equal.
      assert (X := Z.div_mod (tape st (pos st)) (order G1) ltac:(pose proof (order_gt1 G1); lia)). lia.
    + rewrite E, bind_lift_ok. do 2 eexists. reflexivity.
  - right. destruct (Znumtheory.prime_divisors _ PR (Z.gcd (sk_gamma sk + tape st (pos st)) (order G1))) as [X|[X|[X|X]]].
    + apply Z.gcd_divide_r.
    + assert (Y := Z.gcd_nonneg (sk_gamma sk + tape st (pos st)) (order G1)). lia.
    + contradiction.
    + rewrite <- X. apply Z.gcd_divide_l.
    + assert (Y := Z.gcd_nonneg (sk_gamma sk + tape st (pos st)) (order G1)). pose proof (order_gt1 G1). lia.
Qed.

(** A signature on a commitment verifies for the committed messages. *)
Lemma sign_valid G1 G2 GT sk pk com t ms st sg st' g0 g1 gens : keys G1 G2 GT sk pk -> pk_gens pk = g0 :: g1 :: gens ->
  com = padd (pmul t g1) (lincomb G1 ms gens) -> sign sk com st = Ok (sg, st') ->
  verify_signature (mkSig (sig_A sg) (sig_e sg) (sig_s sg + t)) pk ms = Ok true.
Proof.
  intros K EG EC S. assert (PK := keys_pk_ok _ _ _ _ _ K). destruct K as (P & I & H0 & EH & ES & EW & _).
  assert (I2 := I). rewrite EG in I2. assert (A0 := Forall_inv I2). assert (A1 := Forall_inv (Forall_inv_tail I2)).
  assert (A2 := Forall_inv_tail (Forall_inv_tail I2)). cbv beta in A0, A1.
  assert (GL : grp (lincomb G1 ms gens) = G1) by (apply grp_lincomb; auto).
  assert (GC : grp com = G1) by (rewrite EC, grp_add; rewrite grp_mul; congruence).
  rewrite <- ES in EG. destruct (sign_inv G1 sk com st sg st' g0 g1 gens EG ltac:(now rewrite ES) GC S) as (i & D & EA).
  set (sg' := mkSig (sig_A sg) (sig_e sg) (sig_s sg + t)).
  assert (GP : grp (padd (padd g0 (pmul (sig_s sg) g1)) com) = G1).
  { rewrite !grp_add; auto; rewrite ?grp_mul; try congruence. rewrite grp_add; [congruence|rewrite grp_mul; congruence]. }
  assert (GA : grp (sig_A sg) = G1) by now rewrite EA, grp_mul.
  destruct (verify_signature_valid pk sg' ms PK) as (b & V & B).
  { cbn [sig_A sg']. now rewrite GA. } { rewrite <- ES, EG. discriminate. }
  rewrite V. f_equal. apply B. unfold bbs_valid. rewrite <- ES, EG, A0. cbn [sig_A sig_e sig_s sg' lincomb].
  set (Q := padd (padd g0 (pmul (sig_s sg) g1)) com) in *.
  replace (padd g0 (padd (pmul (sig_s sg + t) g1) (lincomb G1 ms gens))) with Q.
  2:{ unfold Q. rewrite EC. set (L := lincomb G1 ms gens) in *. glin G1. }
  rewrite EA, EW. replace (padd (pmul (sk_gamma sk) (pk_h0 pk)) (pmul (sig_e sg) (pk_h0 pk))) with (pmul (sk_gamma sk + sig_e sg) (pk_h0 pk)) by apply mul_add.
  assert (PP : pairs (grp Q) (grp (pk_h0 pk)) = Some GT) by now rewrite GP, H0.
  rewrite (pairing_mul_l _ _ _ GT) by now rewrite grp_mul. rewrite (pairing_mul_r _ _ _ GT) by auto. rewrite mul_mul.
  rewrite <- (mul_1 (pairing Q (pk_h0 pk))) at 2. apply mul_cong. rewrite (grp_pairing _ _ _ PP).
  destruct (order_pairs _ _ _ P) as [O1 O2]. rewrite <- O2, <- H0, <- EH. exact D.
Qed.

(** Whatever the creator is used for: the signature obtained verifies, unless an unblinded commitment was made
    after a blinded one. *)
Lemma issue_valid G1 G2 GT sk pk s0 ms zkp ss st b s1 st1 st2 sg st3 : keys G1 G2 GT sk pk -> (2 <= List.length (pk_gens pk))%nat ->
  zkp = true \/ s0 = None ->
  commit_messages pk s0 ms zkp ss st = Ok ((b, s1), st1) -> sign sk (bl_com b) st2 = Ok (sg, st3) ->
  verify_signature (obtain_signature s1 sg) pk ms = Ok true.
Proof.
  intros K L Z C S. assert (I := K). destruct I as (_ & I & _).
  destruct (commit_inv G1 _ _ _ _ _ _ _ _ _ I C) as (g0 & gens & EG & H). destruct zkp.
  - destruct H as (g1 & gens' & t & z & d & s' & sta & stb & -> & -> & _ & _ & _ & EC & _).
    unfold obtain_signature. eapply sign_valid; eauto.
  - destruct Z as [Z| ->]; [discriminate|]. destruct H as (-> & _ & EC). rewrite EG in L. destruct gens as [|g1 gens]; simpl in L; [lia|].
    cbn [skipn] in EC. unfold obtain_signature. replace (sig_s sg) with (sig_s sg + 0) by lia.
    eapply (sign_valid G1 G2 GT sk pk (bl_com b)); eauto. rewrite EC, mul_0. rewrite EG in I. assert (A1 := Forall_inv (Forall_inv_tail I)). cbv beta in A1.
    assert (A2 := Forall_inv_tail (Forall_inv_tail I)). rewrite A1. symmetry. apply add_inf_l', grp_lincomb. exact A2.
Qed.

(** The remembered blinding of an earlier commitment spoils the signature on a later unblinded one. *)
Lemma issue_stale G1 G2 GT sk pk t ms ss st b s1 st1 st2 sg st3 g0 g1 gens : keys G1 G2 GT sk pk -> pk_gens pk = g0 :: g1 :: gens ->
  commit_messages pk (Some t) ms false ss st = Ok ((b, s1), st1) -> sign sk (bl_com b) st2 = Ok (sg, st3) ->
  verify_signature (obtain_signature s1 sg) pk ms = Ok true -> pairing (pmul t g1) (pk_h0 pk) = inf GT.
Proof.
  intros K EG C S V. assert (PK := keys_pk_ok _ _ _ _ _ K). assert (I := K). destruct I as (P & I & H0 & _ & ES & _).
  assert (I2 := I). rewrite EG in I2. assert (A0 := Forall_inv I2). assert (A1 := Forall_inv (Forall_inv_tail I2)). cbv beta in A0, A1.
  assert (A2 := Forall_inv_tail (Forall_inv_tail I2)).
  assert (GL : grp (lincomb G1 ms gens) = G1) by (apply grp_lincomb; exact A2).
  destruct (commit_inv G1 _ _ _ _ _ _ _ _ _ I C) as (g0' & gens' & EG' & -> & _ & EC). rewrite EG in EG'. injection EG' as <- <-.
  cbn [skipn] in EC. assert (EC0 : bl_com b = padd (pmul 0 g1) (lincomb G1 ms gens)).
  { rewrite EC, mul_0, A1. symmetry. apply add_inf_l'. auto. }
  assert (V0 := sign_valid G1 G2 GT sk pk _ 0 ms _ _ _ _ _ _ K EG EC0 S).
  assert (EG2 := EG). rewrite <- ES in EG2. assert (GC : grp (bl_com b) = G1) by (rewrite EC; auto).
  destruct (sign_inv G1 sk _ _ _ _ _ _ _ EG2 ltac:(now rewrite ES) GC S) as (i & _ & EA).
  assert (GA : grp (sig_A sg) = G1).
  { rewrite EA, grp_mul, !grp_add; auto; rewrite ?grp_mul; try congruence. rewrite grp_add; [congruence|rewrite grp_mul; congruence]. }
  assert (B : forall x, verify_signature (mkSig (sig_A sg) (sig_e sg) x) pk ms = Ok true ->
     pairing (sig_A sg) (padd (pk_w pk) (pmul (sig_e sg) (pk_h0 pk))) =
     pairing (padd g0 (padd (pmul x g1) (lincomb G1 ms gens))) (pk_h0 pk)).
  { intros x Vx. destruct (verify_signature_valid pk (mkSig (sig_A sg) (sig_e sg) x) ms PK) as (r & Vr & Br).
    { cbn [sig_A]. now rewrite GA. } { rewrite EG. discriminate. }
    rewrite Vr in Vx. injection Vx as ->. apply proj1 in Br. specialize (Br eq_refl). unfold bbs_valid in Br. rewrite EG, A0 in Br. exact Br. }
  apply B in V0. apply B in V. rewrite V0 in V. set (Lc := lincomb G1 ms gens) in *.
  replace (padd g0 (padd (pmul (sig_s sg + t) g1) Lc)) with (padd (padd g0 (padd (pmul (sig_s sg + 0) g1) Lc)) (pmul t g1)) in V by glin G1.
  set (X := padd g0 (padd (pmul (sig_s sg + 0) g1) Lc)) in *.
  assert (GX : grp X = G1).
  { unfold X. rewrite grp_add; auto. rewrite grp_add; rewrite grp_mul; congruence. }
  rewrite (pairing_add_l _ _ _ GT) in V; [|now rewrite GX, H0|rewrite grp_mul; congruence].
  assert (E1 : grp (pairing X (pk_h0 pk)) = GT) by (apply grp_pairing; now rewrite GX, H0).
  assert (E2 : grp (pairing (pmul t g1) (pk_h0 pk)) = GT) by (apply grp_pairing; now rewrite grp_mul, A1, H0).
  set (a := pairing X (pk_h0 pk)) in *. set (c := pairing (pmul t g1) (pk_h0 pk)) in *.
  transitivity (padd (pmul (-1) a) (padd a c)); [glin GT|]. rewrite <- V. glin GT.
Qed.

(** ** The proof that goes with a blinded commitment *)
Lemma prove_dl_resp d sd msg st z s' st' : prove (SDL d) sd msg st = Ok ((z, s'), st') ->
  (exists d', s' = SDL d') /\ exists rs, n_resp z = VList (map VInt rs) /\ (List.length rs <= List.length (dl_secs d))%nat.
Proof.
  intros P. unfold prove in P. apply bind_ok in P as ([[p|] s2] & st2 & GP & P); [|discriminate].
  assert (PS := get_prover_pstrip _ _ _ _ _ _ GP). destruct s2 as [d2| | |]; try discriminate PS. simpl in PS. injection PS as _ _ ES.
  apply bind_ok in P as ([[z0 p0] s0] & st3 & GN & P). apply ret_ok in P as [P ->]. injection P as <- <-.
  unfold get_nizk_proof in GN. apply bind_ok in GN as ([[pre p2] s3] & st4 & PC & GN).
  apply bind_ok in GN as ([com p3] & st5 & IC & GN). apply bind_ok in GN as (h & st6 & _ & GN). apply bind_ok in GN as (c & st7 & _ & GN).
  apply bind_ok in GN as (r & st8 & CR & GN). apply ret_ok in GN as [GN _]. injection GN as <- <- <-. cbn [n_resp].
  simpl in PC. destruct p as [kk| | |]; try discriminate PC. apply ret_ok in PC as [PC _]. injection PC as <- <- <-. split; [eauto|].
  simpl in CR. destruct p3 as [ks| | |]; try discriminate CR. unfold respond_dl in CR. destruct ks as [ks|]; [|discriminate CR].
  destruct (dl_bases d2) as [|b0 bs]; [discriminate CR|]. apply bind_ok in CR as (e & st9 & _ & CR).
  apply bind_ok in CR as (rs & st10 & R & CR). apply ret_ok in CR as [<- _]. apply lift_ok in R as [R _]. exists rs. split; auto.
  rewrite (rmap_length _ _ _ R), combine_length, ES. lia.
Qed.
Lemma consistent_dl_len e l : forall ss rd i rd',
  (fix go i ss rd := match ss with
   | [] => Ok (Some rd)
   | s :: ss =>
     match dget e rd s with
     | Some x => let? ri := index (VList l) i in
                 if val_eqb ri x then go (S i) ss rd else Ok None
     | None => let? ri := index (VList l) i in go (S i) ss (dset e rd s ri)
     end
   end) i ss rd = Ok (Some rd') -> ss = [] \/ (i + List.length ss <= List.length l)%nat.
Proof.
  induction ss as [|s ss IH]; intros rd i rd' H; [now left|]. right.
  destruct (nth_error l i) as [x|] eqn:E.
  - assert (Li : (i < List.length l)%nat) by (apply nth_error_Some; congruence).
    assert (IX : index (VList l) i = Ok x) by (unfold index; now rewrite E). rewrite IX in H. cbn [rbind] in H.
    assert (K : exists rd1, (fix go i ss rd := match ss with
   | [] => Ok (Some rd)
   | s :: ss =>
     match dget e rd s with
     | Some x => let? ri := index (VList l) i in
                 if val_eqb ri x then go (S i) ss rd else Ok None
     | None => let? ri := index (VList l) i in go (S i) ss (dset e rd s ri)
     end
   end) (S i) ss rd1 = Ok (Some rd')).
    { destruct (dget e rd s) as [y|]; [destruct (val_eqb x y); [|discriminate H]|]; exact (ex_intro _ _ H). }
    destruct K as (rd1 & K). apply IH in K as [->|K]; simpl; lia.
  - exfalso. assert (IX : index (VList l) i = Err EIndexErr) by (unfold index; now rewrite E). rewrite IX in H. cbn [rbind] in H. destruct (dget e rd s); discriminate.
Qed.

Lemma valuation_exists (l : list secret) : forall vs : list Z, NoDup (map sname l) -> List.length l = List.length vs ->
  exists w, map (fun x => w (sname x)) l = vs.
Proof.
  induction l as [|x l IH]; intros [|v vs] N L; simpl in L; try discriminate; [exists (fun _ => 0); reflexivity|].
  simpl in N. inversion N as [|? ? Nx N1]; subst. destruct (IH vs N1) as (w & E); [lia|].
  exists (fun n => if bytes_eqb n (sname x) then v else w n). simpl.
  rewrite (proj2 (bytes_eqb_eq _ _) eq_refl). f_equal. rewrite <- E. apply map_ext_in. intros a Ha.
  destruct (bytes_eqb (sname a) (sname x)) eqn:B; auto. apply bytes_eqb_eq in B. exfalso. apply Nx. rewrite <- B. now apply in_map.
Qed.

Lemma in_combine_map {A} (f : A -> Z) l x v : In (x, v) (combine l (map f l)) -> In x l /\ v = f x.
Proof. induction l as [|a l IH]; simpl; [tauto|]. intros [E|H]; [injection E as <- <-; auto|]. apply IH in H as [H ->]. auto. Qed.

(** A representation with fresh secrets, as a value is committed to. *)
Lemma fresh_honest G1 ss bs (vs : list Z) e st : in_group G1 bs -> bs <> [] -> List.length ss = List.length bs -> List.length ss = List.length vs ->
  NoDup (map sname ss) -> NoDup (map sid ss) -> (forall x, In x ss -> e (sid x) = None) -> env st = e ->
  let d := mkDL (lincomb G1 vs bs) bs ss (snapshot e ss) false in
  exists w, honest ss w (SDL d) (combine ss vs) (env st) /\ Shape (SDL d) /\ Supplied (combine ss vs) w (env st) (SDL d) /\
    Ords (fun _ => order G1) (SDL d) /\ Apart (SDL d).
Proof.
  intros I NB L1 L2 N1 N2 FR ES d. destruct (valuation_exists ss vs N1 L2) as (w & E). exists w.
  assert (IG : in_group (grp (dl_lhs d)) (dl_bases d)) by (cbn; now rewrite grp_lincomb).
  assert (EN : entries_ok ss w (combine ss vs)).
  { intros k v H. rewrite <- E in H. now apply (in_combine_map (fun x => w (sname x))) in H. }
  split; [|split; [|split; [|split]]].
  - constructor; auto.
    + constructor; cbn; auto. apply incl_refl.
    + cbn. rewrite app_nil_r. now apply nodup_wfL.
    + apply NoDup_nil.
    + constructor. split; auto. unfold dl_holds. cbn. rewrite E, grp_lincomb; auto.
    + constructor. cbn. intros k v H. apply snapshot_in in H as [H1 H2]. rewrite FR in H2 by auto. discriminate.
    + intros x v Hx Hv. rewrite ES, FR in Hv by auto. discriminate.
  - constructor. split; [exact L1|split; [exact NB|exact IG]].
  - constructor. intros x Hx. right. cbn in Hx. assert (exists v, In (x, v) (combine ss vs)) as (v & Hv).
    { clear - Hx L2. revert vs L2. induction ss as [|a ss IH]; intros [|v vs] L; simpl in *; try discriminate; [tauto|].
      destruct Hx as [->|Hx]; [eauto|]. destruct (IH Hx vs) as (u & Hu); [lia|]. eauto. }
    exists x, v. auto.
  - constructor. cbn. intros x b Hb. apply in_combine_r in Hb. unfold in_group in I. rewrite Forall_forall in I. now rewrite (I b Hb).
  - constructor.
Qed.

Lemma firstn_fit {A} n (l : list A) : (n <= List.length l)%nat -> List.length (firstn n l) = n.
Proof. intros. rewrite firstn_length. lia. Qed.
Lemma NoDup_firstn' {A} n (l : list A) : NoDup l -> NoDup (firstn n l).
Proof. intros H. rewrite <- (firstn_skipn n l) in H. induction (firstn n l) as [|x k IH]; [constructor|]. simpl in H. inversion H; subst.
  constructor; auto. intros X. apply H2. apply in_or_app; auto. Qed.

Lemma blinding_accepted G1 pk s0 ms ss st b s1 st1 ss' stv : in_group G1 (pk_gens pk) ->
  List.length ss = (List.length ms + 1)%nat -> NoDup (map sname ss) -> NoDup (map sid ss) -> (forall x, In x ss -> env st (sid x) = None) ->
  NoDup (map sname ss') -> (List.length ms + 1 <= List.length ss')%nat ->
  commit_messages pk s0 ms true ss st = Ok ((b, s1), st1) -> verify_blinding b pk ss' stv = Ok (true, stv).
Proof.
  intros I LS N1 N2 FR N1' LS' C. assert (CI := commit_inv G1 _ _ _ _ _ _ _ _ _ I C). cbv beta iota in CI.
  destruct CI as (g0 & gens & EG & g1 & gens' & t & z & d & s' & sta & stb & -> & -> & PZ & LL & NS & EC & Ed & ES & PV).
  rewrite EG in I. assert (I1 := Forall_inv_tail I). assert (A1 := Forall_inv I1). assert (A2 := Forall_inv_tail I1). cbv beta in A1.
  set (n := (List.length ms + 1)%nat) in *. set (bs := firstn n (g1 :: gens')) in *.
  assert (Ib : in_group G1 bs) by now apply in_group_firstn.
  assert (Lb : List.length bs = n) by congruence.
  assert (EL : bl_com b = lincomb G1 (t :: ms) bs).
  { rewrite EC. unfold bs. replace n with (List.length (t :: ms)) by (unfold n; simpl; lia). now rewrite lincomb_firstn. }
  rewrite EL in Ed. destruct (fresh_honest G1 ss bs (t :: ms) (env st) sta Ib) as (w & H1 & H2 & H3 & H4 & H5); auto.
  { destruct bs; [simpl in Lb; unfold n in Lb; lia|discriminate]. } { rewrite LS. unfold n. simpl. lia. }
  rewrite <- Ed in *. clear H2 H3 H4 H5.
  destruct (prove_dl_resp _ _ _ _ _ _ _ PV) as ((d' & ->) & rs & ER & LR).
  set (ss1 := firstn n ss').
  assert (L1 : List.length ss1 = n) by (apply firstn_fit; auto).
  set (dv := mkDL (bl_com b) bs ss1 (snapshot (env stv) ss1) false).
  destruct (rename_exists ss ss1 N1) as (f & g & RN).
  { unfold ss1. rewrite <- firstn_map. now apply NoDup_firstn'. } { congruence. }
  assert (PA : Pat f g (SDL d) (SDL dv)). { rewrite Ed. constructor; cbn; auto. }
  destruct (prove_complete _ _ _ _ _ _ _ _ _ H1 PV (noext_nonneutral (SDL d') (NEDL d')) f g (SDL dv) stv PA (Forall_nil _)) as (sv' & V).
  assert (LRn : List.length rs = n).
  { assert (V' := V). apply verify_inv in V' as (v & h & com & i & E1 & _ & _ & E4 & _). unfold processed in E1. cbn [get_verifier] in E1.
    assert (v = RDL /\ sv' = SDL dv) as [-> ->].
    { destruct (is_none (n_pre z)); [apply ret_ok in E1 as [E1 _]; injection E1 as <- <-; auto|].
      simpl in E1. apply ret_ok in E1 as [E1 _]; injection E1 as <- <-; auto. }
    unfold pre_validation in E4. destruct (full_validate (SDL dv)); [|discriminate]. cbn [rbind consistent] in E4.
    rewrite ER in E4. destruct (consistent_dl (env stv) (dl_secs dv) (VList (map VInt rs)) []) as [[rd|]|] eqn:CD; try discriminate.
    unfold consistent_dl in CD. apply consistent_dl_len in CD as [CD|CD].
    - cbn in CD. rewrite CD in L1. simpl in L1. unfold n in L1. lia.
    - rewrite map_length in CD. cbn in CD. rewrite L1 in CD. rewrite Ed in LR. cbn in LR. rewrite LS in LR. lia. }
  unfold verify_blinding. rewrite PZ, ER. cbn [as_iter]. rewrite bind_lift_ok, map_length, LRn, EG. cbn [skipn]. fold ss1 bs.
  rewrite wsum_secrets_val; [|congruence|intros X; rewrite X in L1; simpl in L1; unfold n in L1; lia]. rewrite bind_lift_ok.
  unfold bind at 1. rewrite (mk_dlrep_total _ _ _ _ G1); [|intros X; cbn in X; rewrite X in Lb; simpl in Lb; unfold n in Lb; lia|exact Ib].
  cbn [e_bases e_secs]. fold dv. unfold bind. rewrite V. reflexivity.
Qed.

Lemma snapshot_fresh e ss : (forall x, In x ss -> e (sid x) = None) -> snapshot e ss = [].
Proof.
  unfold snapshot. generalize (@nil (secret * Z)). induction ss as [|x ss IH]; intros d H; simpl; auto. rewrite (H x) by now left. apply IH. intros y Hy. apply H. now right.
Qed.
Lemma commit_total G1 pk s0 ms zkp ss st : in_group G1 (pk_gens pk) -> (List.length ms + 2 <= List.length (pk_gens pk))%nat ->
  List.length ss = (List.length ms + 1)%nat -> NoDup (map sname ss) -> NoDup (map sid ss) -> (forall x, In x ss -> env st (sid x) = None) ->
  (exists b s1 st1, commit_messages pk s0 ms zkp ss st = Ok ((b, s1), st1)) \/
  zkp = true /\ let t := tape st (pos st) mod order G1 in let bs := firstn (List.length ss) (skipn 1 (pk_gens pk)) in
  oversized (SDL (mkDL (lincomb G1 (t :: ms) bs) bs ss [] false)) (combine ss (t :: ms)) (mkSt (env st) (tape st) (S (pos st))).
Proof.
  intros I LG LS N1 N2 FR. unfold commit_messages. destruct (pk_gens pk) as [|g0 [|g1 gens]]; simpl in LG; try lia.
  assert (A0 := Forall_inv I). assert (I1 := Forall_inv_tail I). assert (A1 := Forall_inv I1). assert (A2 := Forall_inv_tail I1). cbv beta in A0, A1.
  rewrite A0, wsum_lincomb, lincomb_firstn, bind_lift_ok by (now apply in_group_firstn).
  destruct zkp; [|left; do 3 eexists; reflexivity].
  unfold bind at 1, draw. cbv beta iota. set (t := tape st (pos st) mod order G1). set (st0 := mkSt (env st) (tape st) (S (pos st))).
  cbn [skipn]. rewrite padd_chk_same, bind_lift_ok by (rewrite grp_mul, grp_lincomb; auto).
  set (n := (List.length ms + 1)%nat) in *. set (bs := firstn n (g1 :: gens)) in *.
  assert (Ib : in_group G1 bs) by now apply in_group_firstn.
  assert (Lb : List.length bs = n) by (apply firstn_fit; unfold n; simpl; lia).
  assert (NB : bs <> []) by (destruct bs; [simpl in Lb; unfold n in Lb; lia|discriminate]).
  assert (NS : ss <> []) by (destruct ss; [simpl in LS; unfold n in LS; lia|discriminate]).
  rewrite wsum_secrets_val, bind_lift_ok by congruence. unfold bind at 1. rewrite (mk_dlrep_total _ _ _ _ G1) by auto.
  cbn [e_bases e_secs].
  replace (padd (pmul t g1) (lincomb G1 ms gens)) with (lincomb G1 (t :: ms) bs).
  2:{ unfold bs. replace n with (List.length (t :: ms)) by (unfold n; simpl; lia). now rewrite lincomb_firstn. }
  destruct (fresh_honest G1 ss bs (t :: ms) (env st) st0 Ib NB) as (w & H1 & H2 & H3 & H4 & H5); auto; try congruence.
  { rewrite LS. unfold n. simpl. lia. }
  cbn [env st0]. change (env st0) with (env st) in *.
  destruct (nizk_complete _ _ _ _ _ (lit "") st0 H1 H2 H3 H4 H5) as [(z & s' & st' & E & _)|O].
  - left. unfold bind. rewrite E. do 3 eexists. reflexivity.
  - right. split; auto. cbv zeta. cbn [skipn]. rewrite LS. fold n bs t st0. rewrite <- (snapshot_fresh (env st) ss FR). exact O.
Qed.

(** ** What a signature is bound to *)
Lemma combine_app_short {A B} (a x : list A) : forall b : list B, (List.length b <= List.length a)%nat -> combine (a ++ x) b = combine a b.
Proof. induction a as [|u a IH]; intros [|v b] L; simpl in *; try lia; auto; [now destruct x|]. rewrite IH; auto; lia. Qed.

(** Messages for which the key has no base are not looked at. *)
Lemma surplus_ignored pk sg ms extra : (List.length (pk_gens pk) <= List.length ms + 2)%nat ->
  verify_signature sg pk (ms ++ extra) = verify_signature sg pk ms.
Proof.
  intros L. unfold verify_signature. rewrite !firstn_all2 by (rewrite ?app_length; lia).
  destruct (pk_gens pk) as [|g0 gens]; auto. unfold wsum. change (sig_s sg :: ms ++ extra) with ((sig_s sg :: ms) ++ extra).
  rewrite combine_app_short; auto. simpl in *. lia.
Qed.
Lemma surplus_committed pk s1 ms extra ss st : (List.length (pk_gens pk) <= List.length ms + 2)%nat ->
  commit_messages pk s1 (ms ++ extra) false ss st = commit_messages pk s1 ms false ss st.
Proof.
  intros L. unfold commit_messages. destruct (pk_gens pk) as [|g0 gens]; auto.
  assert (Ls : (List.length (skipn 1 gens) <= List.length ms)%nat) by (rewrite skipn_length; simpl in L; lia).
  rewrite !firstn_all2 by (rewrite ?app_length; lia). unfold wsum. rewrite combine_app_short; auto.
Qed.

Lemma lincomb_trail g ps : in_group g ps -> forall us k, lincomb g (us ++ repeat 0 k) ps = lincomb g us ps.
Proof.
  induction 1 as [|p ps Hp H IH]; intros [|u us] k; simpl; auto.
  - now destruct k.
  - apply (lincomb_zeros g (p :: ps)); [constructor; auto|]. apply Forall_forall. intros x Hx. now apply repeat_spec in Hx.
  - now rewrite IH.
Qed.
(** Nor are zeros at the end. *)
Lemma trailing_zero pk sg ms k : bbs_pk_ok pk -> in_group (grp (sig_A sg)) (pk_gens pk) -> pk_gens pk <> [] ->
  verify_signature sg pk (ms ++ repeat 0 k) = verify_signature sg pk ms.
Proof.
  intros PK IA N. destruct (verify_signature_valid pk sg ms PK IA N) as (b & -> & B).
  destruct (verify_signature_valid pk sg (ms ++ repeat 0 k) PK IA N) as (b' & -> & B'). f_equal.
  assert (E : bbs_valid pk sg (sig_e sg) (sig_s sg) (ms ++ repeat 0 k) <-> bbs_valid pk sg (sig_e sg) (sig_s sg) ms).
  { unfold bbs_valid. destruct (pk_gens pk) as [|g0 gens]; [tauto|].
    assert (I0 : in_group (grp g0) gens).
    { destruct PK as (G1 & _ & _ & _ & _). assert (X := Forall_inv IA). assert (Y := Forall_inv_tail IA). cbv beta in X. rewrite X. exact Y. }
    change (sig_s sg :: ms ++ repeat 0 k) with ((sig_s sg :: ms) ++ repeat 0 k). now rewrite lincomb_trail. }
  destruct b, b'; auto; exfalso; rewrite E in B'; [apply proj2 in B'|apply proj2 in B]; [assert (X := B' (proj1 B eq_refl))|assert (X := B (proj1 B' eq_refl))]; discriminate.
Qed.

Lemma lincomb_nth g ps : in_group g ps -> forall us, lincomb g us ps = lincomb g (map (fun i => nth i us 0) (seq 0 (List.length ps))) ps.
Proof.
  induction 1 as [|p ps Hp H IH]; intros us; [now destruct us|]. cbn [List.length seq map]. destruct us as [|u us].
  - symmetry. apply (lincomb_zeros g (p :: ps)); [constructor; auto|]. apply Forall_forall. intros x [<-|Hx]; auto.
    apply in_map_iff in Hx as (i & <- & _). now destruct i.
  - cbn [lincomb nth]. f_equal. rewrite IH, <- seq_shift, map_map. reflexivity.
Qed.

Lemma two_lists pk sg ms ms' g0 g1 gens GT : bbs_pk_ok pk -> pk_gens pk = g0 :: g1 :: gens -> in_group (grp (sig_A sg)) (pk_gens pk) ->
  pairs (grp g0) (grp (pk_h0 pk)) = Some GT ->
  (forall X, grp X = grp g0 -> pairing X (pk_h0 pk) = inf GT -> X = inf (grp g0)) ->
  verify_signature sg pk ms = Ok true -> verify_signature sg pk ms' = Ok true ->
  lincomb (grp g0) (map (fun i => nth i ms 0 - nth i ms' 0) (seq 0 (List.length gens))) gens = inf (grp g0).
Proof.
  intros PK EG IA P ND V V'.
  assert (N : pk_gens pk <> []) by (rewrite EG; discriminate).
  destruct (verify_signature_valid pk sg ms PK IA N) as (b & E & B). rewrite V in E. injection E as <-. apply proj1 in B. specialize (B eq_refl).
  destruct (verify_signature_valid pk sg ms' PK IA N) as (b' & E' & B'). rewrite V' in E'. injection E' as <-. apply proj1 in B'. specialize (B' eq_refl).
  unfold bbs_valid in B, B'. rewrite EG in B, B', IA. rewrite B in B'. clear B V V' N. cbn [lincomb] in B'.
  assert (A0 := Forall_inv IA). assert (I1 := Forall_inv_tail IA). assert (A1 := Forall_inv I1). assert (A2 := Forall_inv_tail I1). cbv beta in A0, A1.
  remember (grp g0) as G eqn:G0. assert (GA : grp (sig_A sg) = G) by (symmetry; exact A0).
  assert (A1' : grp g1 = G) by (rewrite A1; exact GA). assert (I : in_group G gens) by (rewrite <- GA; exact A2).
  assert (L1 : grp (lincomb G ms gens) = G) by (apply grp_lincomb; auto).
  assert (L2 : grp (lincomb G ms' gens) = G) by (apply grp_lincomb; auto).
  set (L := lincomb G ms gens) in *. set (L' := lincomb G ms' gens) in *.
  set (X := padd g0 (pmul (sig_s sg) g1)). assert (GX : grp X = G) by (unfold X; rewrite grp_add; auto; rewrite grp_mul; congruence).
  replace (padd g0 (padd (pmul (sig_s sg) g1) L)) with (padd X L) in B' by (unfold X; glin G).
  replace (padd g0 (padd (pmul (sig_s sg) g1) L')) with (padd X L') in B' by (unfold X; glin G).
  assert (Z : padd L (pmul (-1) L') = inf G).
  { apply ND; [rewrite grp_add; auto; rewrite grp_mul; congruence|].
    rewrite (pairing_add_l X L _ GT), (pairing_add_l X L' _ GT) in B' by congruence.
    rewrite (pairing_add_l L _ _ GT) by (rewrite ?grp_mul; congruence).
    rewrite (pairing_mul_l _ _ _ GT) by now rewrite L2.
    assert (E1 : grp (pairing X (pk_h0 pk)) = GT) by (apply grp_pairing; now rewrite GX).
    assert (E2 : grp (pairing L (pk_h0 pk)) = GT) by (apply grp_pairing; now rewrite L1).
    assert (E3 : grp (pairing L' (pk_h0 pk)) = GT) by (apply grp_pairing; now rewrite L2).
    set (x := pairing X (pk_h0 pk)) in *. set (l := pairing L (pk_h0 pk)) in *. set (l' := pairing L' (pk_h0 pk)) in *.
    transitivity (padd (padd (pmul (-1) x) (padd x l)) (pmul (-1) l')); [glin GT|]. rewrite B'. glin GT. }
  assert (EL : L = L') by (transitivity (padd (padd L (pmul (-1) L')) L'); [glin G|rewrite Z; glin G]).
  unfold L, L' in EL. rewrite (lincomb_nth G gens I ms), (lincomb_nth G gens I ms') in EL.
  apply lincomb_diff in EL; auto; [|rewrite map_length, seq_length; auto|rewrite map_length, seq_length; auto].
  rewrite <- EL. f_equal. unfold zdiff. clear. generalize (seq 0 (List.length gens)). induction l as [|i l IH]; simpl; auto. now rewrite IH.
Qed.

(** ** Statements from the generation of the keys on *)
Lemma gens_two n (pk : bbs_pk) : List.length (pk_gens pk) = (n + 2)%nat -> exists g0 g1 gens, pk_gens pk = g0 :: g1 :: gens /\ List.length gens = n.
Proof. destruct (pk_gens pk) as [|g0 [|g1 gens]]; simpl; intros H; try lia. exists g0, g1, gens. split; auto. lia. Qed.
Lemma obtain_A s1 sg : sig_A (obtain_signature s1 sg) = sig_A sg.
Proof. reflexivity. Qed.
Lemma com_grp G1 pk s0 ms zkp ss st b s1 st1 : in_group G1 (pk_gens pk) -> commit_messages pk s0 ms zkp ss st = Ok ((b, s1), st1) ->
  grp (bl_com b) = G1.
Proof.
  intros I C. destruct (commit_inv G1 _ _ _ _ _ _ _ _ _ I C) as (g0 & gens & EG & H). rewrite EG in I. assert (I1 := Forall_inv_tail I).
  destruct zkp.
  - destruct H as (g1 & gens' & t & z & d & s' & sta & stb & -> & _ & _ & _ & _ & -> & _). assert (A1 := Forall_inv I1). cbv beta in A1.
    assert (L : grp (lincomb G1 ms gens') = G1) by (apply grp_lincomb; exact (Forall_inv_tail I1)).
    rewrite grp_add; rewrite grp_mul; congruence.
  - destruct H as (_ & _ & ->). apply grp_lincomb. destruct gens; [exact I1|exact (Forall_inv_tail I1)].
Qed.
Lemma sign_grp G1 sk com st sg st' g0 g1 gens : sk_gens sk = g0 :: g1 :: gens -> in_group G1 (sk_gens sk) -> grp com = G1 ->
  sign sk com st = Ok (sg, st') -> grp (sig_A sg) = G1.
Proof.
  intros EG I GC S. destruct (sign_inv _ _ _ _ _ _ _ _ _ EG I GC S) as (i & _ & ->). rewrite EG in I.
  assert (A0 := Forall_inv I). assert (A1 := Forall_inv (Forall_inv_tail I)). cbv beta in A0, A1.
  rewrite grp_mul, !grp_add; auto; rewrite ?grp_mul; try congruence. rewrite grp_add; [congruence|rewrite grp_mul; congruence].
Qed.

Lemma issued G1 G2 GT n stk sk pk stk' ms zkp ss st b s1 st1 st2 sg st3 : pairs G1 G2 = Some GT ->
  keygen G1 G2 n stk = Ok ((sk, pk), stk') ->
  commit_messages pk None ms zkp ss st = Ok ((b, s1), st1) -> sign sk (bl_com b) st2 = Ok (sg, st3) ->
  let sg' := obtain_signature s1 sg in
  verify_signature sg' pk ms = Ok true /\
  bbs_pk_ok pk /\ in_group (grp (sig_A sg')) (pk_gens pk) /\ bbs_valid pk sg' (sig_e sg') (sig_s sg') ms.
Proof.
  intros P KG C S sg'. destruct (keygen_inv _ _ _ _ _ _ _ _ P KG) as [K L].
  assert (V : verify_signature sg' pk ms = Ok true) by (eapply issue_valid; eauto; lia).
  assert (PK := keys_pk_ok _ _ _ _ _ K). assert (I := K). destruct I as (_ & I & _ & _ & ES & _).
  destruct (gens_two n pk L) as (g0 & g1 & gens & EG & _).
  assert (GA : grp (sig_A sg') = G1).
  { unfold sg'. rewrite obtain_A. refine (sign_grp G1 sk (bl_com b) st2 sg st3 g0 g1 gens _ _ _ S); [congruence|now rewrite ES|eapply com_grp; eauto]. }
  assert (IA : in_group (grp (sig_A sg')) (pk_gens pk)) by now rewrite GA.
  do 3 (split; auto). destruct (verify_signature_valid pk sg' ms PK IA) as (r & E & B); [rewrite EG; discriminate|].
  rewrite V in E. injection E as <-. now apply B.
Qed.
Lemma issuing_succeeds G1 G2 GT n stk ms zkp ss st st2 : pairs G1 G2 = Some GT -> prime (order G1) -> (List.length ms <= n)%nat ->
  List.length ss = (List.length ms + 1)%nat -> NoDup (map sname ss) -> NoDup (map sid ss) -> (forall x, In x ss -> env st (sid x) = None) ->
  exists sk pk stk', keygen G1 G2 n stk = Ok ((sk, pk), stk') /\
   ((exists b s1 st1, commit_messages pk None ms zkp ss st = Ok ((b, s1), st1) /\
       ((exists sg st3, sign sk (bl_com b) st2 = Ok (sg, st3)) \/ (order G1 | sk_gamma sk + tape st2 (pos st2)))) \/
    zkp = true /\ let t := tape st (pos st) mod order G1 in let bs := firstn (List.length ss) (skipn 1 (pk_gens pk)) in
      oversized (SDL (mkDL (lincomb G1 (t :: ms) bs) bs ss [] false)) (combine ss (t :: ms)) (mkSt (env st) (tape st) (S (pos st)))).
Proof.
  intros P PR LM LS N1 N2 FR. destruct (keygen_ok G1 G2 GT n stk P) as (sk & pk & stk' & E & K & L). exists sk, pk, stk'. split; auto.
  assert (I := K). destruct I as (_ & I & _).
  destruct (commit_total G1 pk None ms zkp ss st I) as [(b & s1 & st1 & C)|O]; auto; [lia|]. left. exists b, s1, st1. split; auto.
  eapply sign_total; eauto; [lia|]. eapply com_grp; eauto.
Qed.
Lemma issued_blinding G1 G2 GT n stk sk pk stk' s0 ms ss st b s1 st1 ss' stv : pairs G1 G2 = Some GT ->
  keygen G1 G2 n stk = Ok ((sk, pk), stk') ->
  List.length ss = (List.length ms + 1)%nat -> NoDup (map sname ss) -> NoDup (map sid ss) -> (forall x, In x ss -> env st (sid x) = None) ->
  NoDup (map sname ss') -> (List.length ms + 1 <= List.length ss')%nat ->
  commit_messages pk s0 ms true ss st = Ok ((b, s1), st1) -> verify_blinding b pk ss' stv = Ok (true, stv).
Proof.
  intros P KG. destruct (keygen_inv _ _ _ _ _ _ _ _ P KG) as [K L]. destruct K as (_ & I & _). now apply blinding_accepted with (G1 := G1).
Qed.
Lemma stale G1 G2 GT n stk sk pk stk' t ms ss st b s1 st1 st2 sg st3 g0 g1 gens : pairs G1 G2 = Some GT ->
  keygen G1 G2 n stk = Ok ((sk, pk), stk') -> pk_gens pk = g0 :: g1 :: gens -> pairing (pmul t g1) (pk_h0 pk) <> inf GT ->
  commit_messages pk (Some t) ms false ss st = Ok ((b, s1), st1) -> sign sk (bl_com b) st2 = Ok (sg, st3) ->
  verify_signature (obtain_signature s1 sg) pk ms = Ok false.
Proof.
  intros P KG EG ND C S. destruct (keygen_inv _ _ _ _ _ _ _ _ P KG) as [K L]. assert (PK := keys_pk_ok _ _ _ _ _ K).
  assert (I := K). destruct I as (_ & I & _ & _ & ES & _).
  destruct (verify_signature_valid pk (obtain_signature s1 sg) ms PK) as (r & E & _).
  { rewrite obtain_A. rewrite (sign_grp G1 sk (bl_com b) st2 sg st3 g0 g1 gens); auto; [congruence|now rewrite ES|eapply com_grp; eauto]. } { rewrite EG. discriminate. }
  rewrite E. destruct r; auto. exfalso. apply ND. eapply issue_stale; eauto.
Qed.
End B.

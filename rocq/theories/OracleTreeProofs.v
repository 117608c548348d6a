(** Soundness of user-defined primitives in the random oracle model. *)
From Coq Require Import String Znumtheory.
From Verif Require Import Base World Val Expr Utils Stmt Prove Verify Spec Shapes Claims Extract Ident Alike Lib Tree Sound Sound2 Sound3 Sound4 IdProofs2
  Frame Wrong Second Fork Custom CustomProofs Mixed MixedOr Nested NestedSound Oracle Forking OracleProofs OracleTree.
Open Scope Z_scope.
Open Scope list_scope.

Section O.
Context {W : World}.

Lemma tverify_ro_fun t z msg a : with_fun sha256 (tverify_ro t z msg a) = tverify t z msg a.
Proof.
  unfold tverify_ro, tverify. unfold bind at 1. destruct ((if is_none (n_pre z) then ret (get_verifier (tshell t), tshell t) else tproc t (n_pre z)) a) as [[[v s1] a1]|e]; [|reflexivity].
  unfold bind, lift, get_env, check_statement, fs_challenge, ret, rbind. destruct (prehash_input s1) as [h|e]; [|reflexivity]. cbn [with_fun].
  destruct (val_eqb (n_hash z) (VBytes (sha256 h))); [|reflexivity].
  destruct (tpre_validation (env a1) t s1 v (n_resp z)) as [u|e]; [|reflexivity].
  destruct (recompute s1 (n_chal z) (n_resp z)) as [com|e]; [|reflexivity].
  destruct (fs_input h [n_pre z; com] msg) as [i|e]; reflexivity.
Qed.
Definition tprocessed (t : mtree) (pre : val) : M (verifier * stmt) := if is_none pre then ret (get_verifier (tshell t), tshell t) else tproc t pre.
Lemma tprocessed_tproc t pre a v s a1 h e r : tprocessed t pre a = Ok ((v, s), a1) -> prehash_input s = Ok h -> tpre_validation e t s v r = Ok tt ->
  tproc t pre a = Ok ((v, s), a1).
Proof.
  unfold tprocessed. destruct (is_none pre) eqn:N; [|auto]. intros H P V. injection H as <- <- <-. destruct t as [K b|s|l b|l b].
  - exfalso. unfold prehash_input in P. cbn [tshell] in P. destruct (unbuilt_id (set_simulated b (obj_of K VNone None))) as [x E]; [unfold obj_of; constructor|].
    rewrite E in P. discriminate P.
  - cbn [tproc tshell] in *. eapply (processed_process s pre a _ _ _ e r); [unfold processed; now rewrite N|]. unfold tpre_validation in V. destruct s; exact V.
  - cbn [tproc]. now rewrite N.
  - cbn [tproc]. now rewrite N.
Qed.
Lemma asks_tverify t z msg a : asks 2 (tverify_ro t z msg a).
Proof.
  unfold tverify_ro. destruct ((if is_none (n_pre z) then ret (get_verifier (tshell t), tshell t) else tproc t (n_pre z)) a) as [[[v s1] a1]|e]; [|exact I]. destruct (prehash_input s1); [|exact I].
  intros y. destruct (val_eqb _ _); [|exact I]. destruct (tpre_validation _ _ _ _ _); [|exact I].
  destruct (recompute _ _ _); [|exact I]. destruct (fs_input _ _ _); [|exact I]. intros y'. exact I.
Qed.
Lemma asks_tgame t a adv Q : asks Q adv -> asks (Q + 2) (tgame t a adv).
Proof.
  intros H. apply asks_pbind; auto. intros zm. change 2%nat with (2 + 0)%nat. apply asks_pbind; [intros; exact I|apply asks_tverify].
Qed.
Definition tdecisive (t : mtree) (a : st) (z : nizk) (msg : bytes) : option bytes :=
  match tprocessed t (n_pre z) a with
  | Ok ((v, s), _) =>
    match prehash_input s with
    | Ok h => match recompute s (n_chal z) (n_resp z) with
              | Ok com => match fs_input h [n_pre z; com] msg with Ok i => Some i | Err _ => None end
              | Err _ => None end
    | Err _ => None end
  | Err _ => None end.
Lemma tverify_ro_inv t z msg a m y r m' : sample (tverify_ro t z msg a) m y = Some (r, m') -> taccepts r = true ->
  exists v s1 a1 h com i y, tprocessed t (n_pre z) a = Ok ((v, s1), a1) /\ prehash_input s1 = Ok h /\
    tpre_validation (env a1) t s1 v (n_resp z) = Ok tt /\ recompute s1 (n_chal z) (n_resp z) = Ok com /\
    fs_input h [n_pre z; com] msg = Ok i /\ look m' i = Some y /\ n_chal z = be_int y.
Proof.
  intros H Ac. unfold tverify_ro in H. change ((if is_none (n_pre z) then ret (get_verifier (tshell t), tshell t) else tproc t (n_pre z)) a) with (tprocessed t (n_pre z) a) in H.
  destruct (tprocessed t (n_pre z) a) as [[[v s1] a1]|e]; [|injection H as <- <-; discriminate].
  destruct (prehash_input s1) as [h|e] eqn:Ph; [|injection H as <- <-; discriminate].
  assert (X : forall p : bytes -> prog (res (bool * st)), sample (Ask h p) m y = Some (r, m') ->
     exists y0 m1 t1, sample (p y0) m1 t1 = Some (r, m')).
  { intros p S. cbn [sample] in S. destruct (look m h) as [y0|]; [eauto|]. destruct y; [discriminate|eauto]. }
  apply X in H as (y0 & m1 & t1 & H). clear X.
  destruct (val_eqb (n_hash z) (VBytes y0)); [|injection H as <- <-; discriminate].
  destruct (tpre_validation (env a1) t s1 v (n_resp z)) as [[]|e] eqn:V; [|injection H as <- <-; discriminate].
  destruct (recompute s1 (n_chal z) (n_resp z)) as [com|e] eqn:Rc; [|injection H as <- <-; discriminate].
  destruct (fs_input h [n_pre z; com] msg) as [i|e] eqn:Fi; [|injection H as <- <-; discriminate].
  cbn [sample] in H. assert (Y : exists y, look m' i = Some y /\ r = Ok (n_chal z =? be_int y, a1)).
  { destruct (look m1 i) as [x|] eqn:L; [injection H as <- <-; eauto|]. destruct t1 as [|x t1]; [discriminate|].
    injection H as <- <-. exists x. split; auto. rewrite look_cons. now rewrite (proj2 (bytes_eqb_eq i i) eq_refl). }
  destruct Y as (x & L & ->). cbn [taccepts] in Ac. destruct (n_chal z =? be_int x) eqn:E; [|discriminate]. apply Z.eqb_eq in E.
  exists v, s1, a1, h, com, i, x. repeat (split; [assumption || reflexivity|]). assumption.
Qed.
Definition TDg (ok : nizk -> bool) (t : mtree) (a : st) (r : bool * nizk * bytes) : option bytes :=
  if fst (fst r) && ok (snd (fst r)) then tdecisive t a (snd (fst r)) (snd r) else None.
Lemma tgame_inv t a adv m y acc z msg m' : sample (tgame t a adv) m y = Some ((acc, z, msg), m') -> acc = true ->
  exists m1 v s1 a1 h com i x, sample adv m y = Some ((z, msg), m1) /\
    tprocessed t (n_pre z) a = Ok ((v, s1), a1) /\ prehash_input s1 = Ok h /\
    tpre_validation (env a1) t s1 v (n_resp z) = Ok tt /\ recompute s1 (n_chal z) (n_resp z) = Ok com /\
    fs_input h [n_pre z; com] msg = Ok i /\ look m' i = Some x /\ n_chal z = be_int x /\ tdecisive t a z msg = Some i.
Proof.
  intros H ->. apply sample_pbind in H as ([z0 msg0] & m1 & t1 & t2 & -> & S1 & H). cbn [fst snd] in H.
  apply sample_pbind in H as (r & m2 & t3 & t4 & -> & S2 & H). cbn [sample] in H. injection H as Ac <- <- <-.
  destruct (tverify_ro_inv _ _ _ _ _ _ _ _ S2 Ac) as (v & s1 & a1 & h & com & i & x & P & Ph & V & Rc & Fi & L & E).
  exists m1, v, s1, a1, h, com, i, x. split; [now apply sample_more|].
  repeat (split; [assumption|]). unfold tdecisive. now rewrite P, Ph, Rc, Fi.
Qed.

Lemma trom_fork ok t a adv A qs K Q : plain ok -> (forall g, distinguished g) -> asks Q adv -> spread A qs K -> 0 <= K ->
  Z.of_nat (Q + 2) * K * len A ^ Z.of_nat (Q + 2) < len A * count (twon ok t a adv) (tapes A (Q + 2)) ->
  exists z z' v s a1 com, ttwo_runs ok t a adv A (Q + 2) z z' /\ reached ok t a z v s a1 /\ ok z' = true /\
    (forall q, In q qs -> ~ (q | n_chal z - n_chal z')) /\
    tverify_resp (env a1) t s v com (n_chal z) (n_resp z) = Ok true /\ tverify_resp (env a1) t s v com (n_chal z') (n_resp z') = Ok true.
Proof.
  intros [Fr Pl] Di As Sp HK Lt.
  destruct (forking (TDg ok t a) (apart qs) A K (tgame t a adv) Sp HK (Q + 2) [] (Q + 2)) as [F|C]; auto.
  - now apply asks_tgame.
  - intros y [[acc z] msg] m' b S Db. unfold TDg in Db. cbn [fst snd] in Db. destruct acc; [|discriminate]. destruct (ok z); [|discriminate].
    destruct (tgame_inv _ _ _ _ _ _ _ _ _ S eq_refl) as (m1 & v & s1 & a1 & h & com & i & x & _ & _ & _ & _ & _ & _ & L & _ & Dc).
    cbn [andb] in Db. rewrite Dc in Db. injection Db as <-. congruence.
  - destruct F as (u & y & y' & x & x' & b & [[acc z] msg] & [[acc' z'] msg'] & m1 & m2 & I1 & I2 & Ap & S1 & S2 & D1 & D2 & L1 & L2).
    unfold TDg in D1, D2. cbn [fst snd] in D1, D2.
    destruct acc; [|discriminate]. destruct acc'; [|discriminate]. destruct (ok z) eqn:Oz; [|discriminate]. destruct (ok z') eqn:Oz'; [|discriminate].
    cbn [andb] in D1, D2.
    assert (W1 : twon ok t a adv (u ++ y :: x) = true) by (unfold twon; rewrite S1; now rewrite Oz).
    assert (W2 : twon ok t a adv (u ++ y' :: x') = true) by (unfold twon; rewrite S2; now rewrite Oz').
    destruct (tgame_inv _ _ _ _ _ _ _ _ _ S1 eq_refl) as (n1 & v & s1 & a1 & h & com & i & c & A1 & P & Ph & V & Rc & Fi & L & E & Dc).
    destruct (tgame_inv _ _ _ _ _ _ _ _ _ S2 eq_refl) as (n2 & v' & s1' & a1' & h' & com' & i' & c' & A2 & P' & Ph' & V' & Rc' & Fi' & L' & E' & Dc').
    rewrite Dc in D1. injection D1 as ->. rewrite Dc' in D2. injection D2 as ->.
    rewrite L1 in L. injection L as <-. rewrite L2 in L'. injection L' as <-.
    destruct (input_frame _ _ _ _ _ _ _ _ _ _ _ Ph Ph' (Fr z Oz) (Fr z' Oz') (recompute_framed _ _ _ _ Rc) (recompute_framed _ _ _ _ Rc') Fi Fi')
      as (_ & Ap' & Ac & <-).
    assert (EP := Pl _ _ Oz Oz' Ap'). rewrite <- EP in P'. rewrite P in P'. injection P' as <- <- <-.
    assert (Ec := recompute_alike s1 Di _ _ _ _ _ _ Rc Rc' Ac). subst com'.
    exists z, z', v, s1, a1, com. split; [exists (u ++ y :: x), (u ++ y' :: x'), msg, n1, n2; auto 10|]. split; [split; [auto|]; split; [eapply tprocessed_tproc; eauto|]; split; [eauto|]; unfold tpre_validation in V; destruct (tvalid t s1) as [[]|]; [reflexivity|discriminate]|]. split; [auto|].
    split; [intros q Iq; rewrite E, E'; eapply apart_in; eauto|].
    split; unfold tverify_resp; [rewrite V|rewrite V']; cbn [rbind]; [rewrite Rc|rewrite Rc']; cbn [rbind]; now rewrite val_eqb_refl.
  - exfalso. assert (X : count (twon ok t a adv) (tapes A (Q + 2)) <= count (new (TDg ok t a) (tgame t a adv) []) (tapes A (Q + 2))).
    { apply count_mono. intros y _. unfold twon, new. destruct (sample (tgame t a adv) [] y) as [[[[acc z] msg] m]|] eqn:S; [|discriminate].
      intros H. apply andb_true_iff in H as [-> Oz]. destruct (tgame_inv _ _ _ _ _ _ _ _ _ S eq_refl) as
        (m1 & v & s1 & a1 & h & com & i & x & _ & _ & _ & _ & _ & _ & _ & _ & Dc).
      unfold TDg. cbn [fst snd]. rewrite Oz. cbn [andb]. now rewrite Dc. }
    assert (0 <= len A) by (unfold len; lia). nia.
Qed.

Theorem trom_extract ok t a adv A qs K Q : plain ok -> (forall g, distinguished g) -> tsane ok qs t a ->
  (forall z v s a1, reached ok t a z v s a1 -> noor s) ->
  asks Q adv -> spread A qs K -> 0 <= K ->
  Z.of_nat (Q + 2) * K * len A ^ Z.of_nat (Q + 2) < len A * count (twon ok t a adv) (tapes A (Q + 2)) ->
  exists z z' v s a1 w, ttwo_runs ok t a adv A (Q + 2) z z' /\ reached ok t a z v s a1 /\
    tholds w t (n_pre z) s (n_chal z) (n_chal z') (n_resp z) (n_resp z').
Proof.
  intros Pl Di Sa No As Sp HK Lt.
  destruct (trom_fork ok t a adv A qs K Q Pl Di As Sp HK Lt) as (z & z' & v & s & a1 & com & TR & O1 & O2 & Ap & V & V').
  destruct (Sa _ _ _ _ O1) as (Wf & C & O). assert (P := proj1 (proj2 O1)).
  destruct (nested_bounds t (n_pre z) a v s a1 (env a1) com (n_chal z) (n_chal z') (n_resp z) (n_resp z') P Wf C) as (w & Ex & St); auto.
  - eapply orders_impl; [|exact O]. intros q [Q1 Q2]. auto.
  - left. eauto.
  - exists z, z', v, s, a1, w. auto.
Qed.
Theorem trom_extract_or ok t a adv A qs K Q : plain ok -> (forall g, distinguished g) -> tsane ok qs t a -> (forall q, In q qs -> 2 ^ 129 <= q) ->
  (forall z v s a1, reached ok t a z v s a1 -> canonical s (n_resp z)) ->
  asks Q adv -> spread A (2 ^ 128 :: qs) K -> 0 <= K ->
  Z.of_nat (Q + 2) * K * len A ^ Z.of_nat (Q + 2) < len A * count (twon ok t a adv) (tapes A (Q + 2)) ->
  exists z z' v s a1 w, ttwo_runs ok t a adv A (Q + 2) z z' /\ reached ok t a z v s a1 /\
    tholds w t (n_pre z) s (n_chal z) (n_chal z') (n_resp z) (n_resp z').
Proof.
  intros Pl Di Sa Big Ca As Sp HK Lt.
  destruct (trom_fork ok t a adv A (2 ^ 128 :: qs) K Q Pl Di As Sp HK Lt) as (z & z' & v & s & a1 & com & TR & O1 & O2 & Ap & V & V').
  destruct (Sa _ _ _ _ O1) as (Wf & C & O). assert (P := proj1 (proj2 O1)).
  destruct (nested_sound t (n_pre z) a v s a1 (env a1) com (n_chal z) (n_chal z') (n_resp z) (n_resp z') P Wf C) as (w & Ex & St); auto.
  - eapply orders_impl; [|exact O]. intros q [Q1 Q2]. split; auto. split; [apply Ap; now right|now apply Big].
  - eapply Ca; eauto.
  - destruct TR as (? & ? & ? & ? & ? & _ & _ & _ & _ & _ & _ & EP). destruct O1 as (R1 & R2 & R3). apply (Ca z' v s a1). split; auto. rewrite <- EP. auto.
  - apply Ap. now left.
  - exists z, z', v, s, a1, w. auto.
Qed.
(** Nobody proves with a precommitment for which the tree does not hold. *)
Theorem trom_false ok t a adv A qs K Q : plain ok -> (forall g, distinguished g) -> tsane ok qs t a ->
  (forall z v s a1, reached ok t a z v s a1 -> noor s /\ forall w c c' r r', ~ tholds w t (n_pre z) s c c' r r') ->
  asks Q adv -> spread A qs K -> 0 <= K ->
  len A * count (twon ok t a adv) (tapes A (Q + 2)) <= Z.of_nat (Q + 2) * K * len A ^ Z.of_nat (Q + 2).
Proof.
  intros Pl Di Sa No As Sp HK. apply Z.nlt_ge. intros Lt.
  destruct (trom_extract ok t a adv A qs K Q Pl Di Sa (fun z v s a1 O => proj1 (No z v s a1 O)) As Sp HK Lt) as (z & z' & v & s & a1 & w & _ & O1 & St).
  exact (proj2 (No _ _ _ _ O1) _ _ _ _ _ St).
Qed.
End O.

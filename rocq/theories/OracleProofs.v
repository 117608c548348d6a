(** Non-interactive proofs in the random oracle model. *)
From Coq Require Import String Znumtheory.
From Verif Require Import Base World Val Expr Utils Stmt Prove Verify Spec Shapes Claims Extract Ident Alike Lib Tree Sound Sound2 Sound3 Sound4 IdProofs2
  Frame Wrong Second Fork Oracle Forking.
Open Scope Z_scope.
Open Scope list_scope.

Section O.
Context {W : World}.

Lemma verify_ro_fun s z msg a : with_fun sha256 (verify_ro s z msg a) = verify s z msg a.
Proof.
  unfold verify_ro, verify, verify_nizk. change (if is_none (n_pre z) then ret (get_verifier s, s) else process_pre s (get_verifier s) (n_pre z)) with (processed s (n_pre z)).
  unfold bind at 1. destruct (processed s (n_pre z) a) as [[[v s1] a1]|e]; [|reflexivity].
  unfold bind, lift, get_env, check_statement, fs_challenge, ret, rbind. destruct (prehash_input s1) as [h|e]; [|reflexivity]. cbn [with_fun].
  destruct (val_eqb (n_hash z) (VBytes (sha256 h))); [|reflexivity].
  destruct (pre_validation (env a1) s1 v (n_resp z)) as [u|e]; [|reflexivity].
  destruct (recompute s1 (n_chal z) (n_resp z)) as [com|e]; [|reflexivity].
  destruct (fs_input h [n_pre z; com] msg) as [i|e]; reflexivity.
Qed.

Lemma sample_fun {R} (p : prog R) : forall m t r m' f, sample p m t = Some (r, m') -> (forall b y, look m' b = Some y -> f b = y) -> with_fun f p = r.
Proof.
  induction p as [r|b k IH]; intros m t r' m' f H E; cbn [sample] in H.
  - now injection H as <- <-.
  - cbn [with_fun]. destruct (look m b) as [y|] eqn:L.
    + rewrite (E b y); [eauto|]. eapply sample_look; eauto.
    + destruct t as [|y t]; [discriminate|]. rewrite (E b y); [eauto|].
      eapply sample_look; [exact H|]. rewrite look_cons. now rewrite (proj2 (bytes_eqb_eq b b) eq_refl).
Qed.
Lemma fun_sample {R} (p : prog R) f : forall n m, asks n p -> (forall b y, look m b = Some y -> f b = y) ->
  exists t m', (List.length t <= n)%nat /\ Forall (fun y => exists b, y = f b) t /\ sample p m t = Some (with_fun f p, m') /\
    (forall b y, look m' b = Some y -> f b = y).
Proof.
  induction p as [r|b k IH]; intros n m Hn E; cbn [sample with_fun].
  - exists [], m. cbn. repeat split; auto. lia.
  - destruct n as [|n]; [destruct Hn|]. destruct (look m b) as [y|] eqn:L.
    + rewrite (E b y L). destruct (IH y n m (Hn y) E) as (t & m' & Lt & F & S & E'). exists t, m'. repeat split; auto.
    + destruct (IH (f b) n ((b, f b) :: m) (Hn _)) as (t & m' & Lt & F & S & E').
      * intros c y. rewrite look_cons. destruct (bytes_eqb b c) eqn:X; [|apply E]. apply bytes_eqb_eq in X. subst. congruence.
      * exists (f b :: t), m'. cbn. repeat split; auto; [lia|]. constructor; eauto.
Qed.

Lemma sample_pbind {A B} (p : prog A) (f : A -> prog B) : forall m t r m', sample (pbind p f) m t = Some (r, m') ->
  exists x m1 t1 t2, t = t1 ++ t2 /\ sample p m t1 = Some (x, m1) /\ sample (f x) m1 t2 = Some (r, m').
Proof.
  induction p as [a|b k IH]; intros m t r m' H; cbn [pbind sample] in *.
  - exists a, m, [], t. auto.
  - destruct (look m b) as [y|] eqn:L; [eauto|]. destruct t as [|y t]; [discriminate|].
    destruct (IH _ _ _ _ _ H) as (x & m1 & t1 & t2 & -> & S1 & S2). exists x, m1, (y :: t1), t2. auto.
Qed.
Lemma sample_more {A} (p : prog A) : forall m t u r m', sample p m t = Some (r, m') -> sample p m (t ++ u) = Some (r, m').
Proof.
  induction p as [a|b k IH]; intros m t u r m' H; cbn [sample] in *; auto.
  destruct (look m b) as [y|] eqn:L; [eauto|]. destruct t as [|y t]; [discriminate|]. cbn [app]. eauto.
Qed.
Lemma asks_pbind {A B} (p : prog A) (f : A -> prog B) k : (forall a, asks k (f a)) -> forall n, asks n p -> asks (n + k) (pbind p f).
Proof.
  intros F. induction p as [a|b q IH]; intros n Hn; cbn [pbind].
  - assert (Mon : forall (q : prog B) i j, asks i q -> (i <= j)%nat -> asks j q).
    { induction q as [r|c q IH]; intros i j H L; [exact I|]. destruct i as [|i]; [destruct H|]. destruct j as [|j]; [lia|].
      cbn [asks] in *. intros y. apply IH with (i := i); auto. lia. }
    apply Mon with (i := k); auto. lia.
  - destruct n as [|n]; [destruct Hn|]. cbn [asks Nat.add] in *. auto.
Qed.
Lemma asks_verify s z msg a : asks 2 (verify_ro s z msg a).
Proof.
  unfold verify_ro. destruct (processed s (n_pre z) a) as [[[v s1] a1]|e]; [|exact I]. destruct (prehash_input s1); [|exact I].
  intros y. destruct (val_eqb _ _); [|exact I]. destruct (pre_validation _ _ _ _); [|exact I].
  destruct (recompute _ _ _); [|exact I]. destruct (fs_input _ _ _); [|exact I]. intros y'. exact I.
Qed.
Lemma asks_game s a adv Q : asks Q adv -> asks (Q + 2) (game s a adv).
Proof.
  intros H. apply asks_pbind; auto. intros zm. change 2%nat with (2 + 0)%nat. apply asks_pbind; [intros; exact I|apply asks_verify].
Qed.

(** the input of the hash function that decides *)
Definition decisive (s : stmt) (a : st) (z : nizk) (msg : bytes) : option bytes :=
  match processed s (n_pre z) a with
  | Ok ((v, s), _) =>
    match prehash_input s with
    | Ok h => match recompute s (n_chal z) (n_resp z) with
              | Ok com => match fs_input h [n_pre z; com] msg with Ok i => Some i | Err _ => None end
              | Err _ => None end
    | Err _ => None end
  | Err _ => None end.
Lemma verify_ro_inv s z msg a m t r m' : sample (verify_ro s z msg a) m t = Some (r, m') -> accepts r = true ->
  exists v s1 a1 h com i y, processed s (n_pre z) a = Ok ((v, s1), a1) /\ prehash_input s1 = Ok h /\
    pre_validation (env a1) s1 v (n_resp z) = Ok tt /\ recompute s1 (n_chal z) (n_resp z) = Ok com /\
    fs_input h [n_pre z; com] msg = Ok i /\ look m' i = Some y /\ n_chal z = be_int y.
Proof.
  intros H Ac. unfold verify_ro in H. destruct (processed s (n_pre z) a) as [[[v s1] a1]|e]; [|injection H as <- <-; discriminate].
  destruct (prehash_input s1) as [h|e] eqn:Ph; [|injection H as <- <-; discriminate].
  assert (X : forall p : bytes -> prog (res (bool * stmt * st)), sample (Ask h p) m t = Some (r, m') ->
     exists y m1 t1, sample (p y) m1 t1 = Some (r, m')).
  { intros p S. cbn [sample] in S. destruct (look m h) as [y|]; [eauto|]. destruct t; [discriminate|eauto]. }
  apply X in H as (y0 & m1 & t1 & H). clear X.
  destruct (val_eqb (n_hash z) (VBytes y0)); [|injection H as <- <-; discriminate].
  destruct (pre_validation (env a1) s1 v (n_resp z)) as [[]|e] eqn:V; [|injection H as <- <-; discriminate].
  destruct (recompute s1 (n_chal z) (n_resp z)) as [com|e] eqn:Rc; [|injection H as <- <-; discriminate].
  destruct (fs_input h [n_pre z; com] msg) as [i|e] eqn:Fi; [|injection H as <- <-; discriminate].
  cbn [sample] in H. assert (Y : exists y, look m' i = Some y /\ r = Ok (n_chal z =? be_int y, s1, a1)).
  { destruct (look m1 i) as [y|] eqn:L; [injection H as <- <-; eauto|]. destruct t1 as [|y t1]; [discriminate|].
    injection H as <- <-. exists y. split; auto. rewrite look_cons. now rewrite (proj2 (bytes_eqb_eq i i) eq_refl). }
  destruct Y as (y & L & ->). cbn [accepts] in Ac. destruct (n_chal z =? be_int y) eqn:E; [|discriminate]. apply Z.eqb_eq in E.
  exists v, s1, a1, h, com, i, y. repeat (split; [assumption || reflexivity|]). assumption.
Qed.

(** ** Equal commitments *)
Lemma wsum_v_in g ws ps x : wsum_v g ws ps = Ok x -> grp x = g.
Proof.
  unfold wsum_v. assert (G : grp (inf g) = g) by apply grp_inf. revert G. generalize (inf g) as acc. revert ws.
  induction ps as [|p ps IH]; intros [|w ws] acc G H; cbn in H; try (injection H as <-; exact G).
  destruct (as_int w) as [k|]; cbn [rbind] in H.
  - destruct (padd_chk acc (pmul k p)) as [b|] eqn:E.
    + eapply IH; [|exact H]. apply padd_chk_ok in E as [E ->]. now rewrite grp_add.
    + exfalso. clear - H. revert H. generalize (combine ws ps) as l. induction l as [|q l IH]; cbn; [discriminate|auto].
  - exfalso. clear - H. revert H. generalize (combine ws ps) as l. induction l as [|q l IH]; cbn; [discriminate|auto].
Qed.
Lemma recompute_dl_in d c r v : recompute_dl d c r = Ok v -> exists p, v = VPt p /\ grp p = grp (dl_lhs d).
Proof.
  unfold recompute_dl. intros H. apply rbind_ok in H as (ws & _ & H). apply rbind_ok in H as (x & E & H). apply rbind_ok in H as (y & E' & H).
  injection H as <-. exists y. split; auto. apply wsum_v_in in E. apply padd_chk_ok in E' as [G ->]. rewrite grp_add; auto.
Qed.
Lemma alike_list l w : wire_alike (VList l) w -> exists m, (w = VList m \/ w = VTuple m) /\ Forall2 wire_alike l m.
Proof. intros H. inversion H as [| | | | |? ? l' m E E' F|]; subst. destruct E as [E|E]; [|discriminate]. injection E as <-. eauto. Qed.
Lemma lists_eq (f f' : nat -> stmt -> res val) subs : Forall (fun s => forall i y y', f i s = Ok y -> f' i s = Ok y' -> wire_alike y y' -> y = y') subs ->
  forall i l l', rimap f i subs = Ok l -> rimap f' i subs = Ok l' -> Forall2 wire_alike l l' -> l = l'.
Proof.
  induction 1 as [|s subs H F IH]; intros i l l' E E' A; cbn [rimap] in E, E'.
  - injection E as <-. now inversion A.
  - apply rbind_ok in E as (y & Ey & E). apply rbind_ok in E as (ys & Es & E). injection E as <-.
    apply rbind_ok in E' as (y' & Ey' & E'). apply rbind_ok in E' as (ys' & Es' & E'). injection E' as <-.
    inversion A; subst. f_equal; eauto.
Qed.
Lemma recompute_alike s : (forall g, distinguished g) -> forall c c' r r' com com', recompute s c r = Ok com -> recompute s c' r' = Ok com' ->
  wire_alike com com' -> com = com'.
Proof.
  intros Di. induction s as [d|subs b IH|subs b ch IH|k b p|k b p con IH] using stmt_ind'; intros c c' r r' com com' H H' A; cbn [recompute] in H, H'.
  - apply recompute_dl_in in H as (p & -> & G). apply recompute_dl_in in H' as (p' & -> & G'). f_equal.
    inversion A as [| |? ? E| | |? ? ? ? E|]; subst; [|destruct E; discriminate]. eapply Di; [exact G|exact G'|exact E].
  - apply rbind_ok in H as (l & E & H). injection H as <-. apply rbind_ok in H' as (l' & E' & H'). injection H' as <-. f_equal.
    apply alike_list in A as (m & [X|X] & A); [|discriminate]. injection X as <-.
    eapply lists_eq; [|exact E|exact E'|exact A]. apply Forall_forall. intros s Is i y y' Hy Hy'. rewrite Forall_forall in IH.
    apply rbind_ok in Hy as (u & _ & Hy). apply rbind_ok in Hy' as (u' & _ & Hy'). eapply IH; eauto.
  - apply rbind_ok in H as (cs & E0 & H). apply rbind_ok in H as (rs & E1 & H). apply rbind_ok in H as (zs & E2 & H).
    destruct (find_residual _ _ _ =? 0); [|discriminate]. apply rbind_ok in H as (l & E & H). injection H as <-.
    apply rbind_ok in H' as (cs' & E0' & H'). apply rbind_ok in H' as (rs' & E1' & H'). apply rbind_ok in H' as (zs' & E2' & H').
    destruct (find_residual _ _ _ =? 0); [|discriminate]. apply rbind_ok in H' as (l' & E' & H'). injection H' as <-. f_equal.
    apply alike_list in A as (m & [X|X] & A); [|discriminate]. injection X as <-.
    eapply lists_eq; [|exact E|exact E'|exact A]. apply Forall_forall. intros s Is i y y' Hy Hy'. rewrite Forall_forall in IH.
    apply rbind_ok in Hy as (u1 & _ & Hy). apply rbind_ok in Hy as (u2 & _ & Hy). apply rbind_ok in Hy as (u3 & _ & Hy).
    apply rbind_ok in Hy' as (u1' & _ & Hy'). apply rbind_ok in Hy' as (u2' & _ & Hy'). apply rbind_ok in Hy' as (u3' & _ & Hy').
    eapply IH; eauto.
  - discriminate.
  - eauto.
Qed.

(** ** Forking the prover *)
Lemma apart_in qs y y' q : apart qs y y' = true -> In q qs -> ~ (q | be_int y - be_int y').
Proof.
  unfold apart. rewrite forallb_forall. intros H I. specialize (H q I). destruct (Zdivide_dec q (be_int y - be_int y')); [discriminate|auto].
Qed.

Definition Dg (ok : nizk -> bool) (s : stmt) (a : st) (r : bool * nizk * bytes) : option bytes :=
  if fst (fst r) && ok (snd (fst r)) then decisive s a (snd (fst r)) (snd r) else None.

(** what an accepting run tells *)
Lemma game_inv s a adv m t acc z msg m' : sample (game s a adv) m t = Some ((acc, z, msg), m') -> acc = true ->
  exists m1 t1 v s1 a1 h com i y, sample adv m t = Some ((z, msg), m1) /\ (exists t2, t = t1 ++ t2) /\
    processed s (n_pre z) a = Ok ((v, s1), a1) /\ prehash_input s1 = Ok h /\
    pre_validation (env a1) s1 v (n_resp z) = Ok tt /\ recompute s1 (n_chal z) (n_resp z) = Ok com /\
    fs_input h [n_pre z; com] msg = Ok i /\ look m' i = Some y /\ n_chal z = be_int y /\ decisive s a z msg = Some i.
Proof.
  intros H ->. apply sample_pbind in H as ([z0 msg0] & m1 & t1 & t2 & -> & S1 & H). cbn [fst snd] in H.
  apply sample_pbind in H as (r & m2 & t3 & t4 & -> & S2 & H). cbn [sample] in H. injection H as Ac <- <- <-.
  destruct (verify_ro_inv _ _ _ _ _ _ _ _ S2 Ac) as (v & s1 & a1 & h & com & i & y & P & Ph & V & Rc & Fi & L & E).
  exists m1, t1, v, s1, a1, h, com, i, y. split; [now apply sample_more|]. split; [eauto|].
  repeat (split; [assumption|]). unfold decisive. now rewrite P, Ph, Rc, Fi.
Qed.

Lemma rom_fork ok s0 a adv A qs K Q : plain ok -> (forall g, distinguished g) -> asks Q adv -> spread A qs K -> 0 <= K ->
  Z.of_nat (Q + 2) * K * len A ^ Z.of_nat (Q + 2) < len A * count (won ok s0 a adv) (tapes A (Q + 2)) ->
  exists t t' z z' msg m m' v s a1 com, In t (tapes A (Q + 2)) /\ In t' (tapes A (Q + 2)) /\
    (exists u y y' x x', t = u ++ y :: x /\ t' = u ++ y' :: x' /\ n_chal z = be_int y /\ n_chal z' = be_int y' /\ apart qs y y' = true) /\
    sample adv [] t = Some ((z, msg), m) /\ sample adv [] t' = Some ((z', msg), m') /\ ok z = true /\ ok z' = true /\
    won ok s0 a adv t = true /\ won ok s0 a adv t' = true /\
    n_pre z = n_pre z' /\ process_pre s0 (get_verifier s0) (n_pre z) a = Ok ((v, s), a1) /\
    verify_resp (env a1) s v com (n_chal z) (n_resp z) = Ok true /\ verify_resp (env a1) s v com (n_chal z') (n_resp z') = Ok true.
Proof.
  intros [Fr Pl] Di As Sp HK Lt.
  destruct (forking (Dg ok s0 a) (apart qs) A K (game s0 a adv) Sp HK (Q + 2) [] (Q + 2)) as [F|C]; auto.
  - now apply asks_game.
  - intros t [[acc z] msg] m' b S Db. unfold Dg in Db. cbn [fst snd] in Db. destruct acc; [|discriminate]. destruct (ok z); [|discriminate].
    destruct (game_inv _ _ _ _ _ _ _ _ _ S eq_refl) as (m1 & t1 & v & s1 & a1 & h & com & i & y & _ & _ & _ & _ & _ & _ & _ & L & _ & Dc).
    cbn [andb] in Db. rewrite Dc in Db. injection Db as <-. congruence.
  - destruct F as (u & y & y' & x & x' & b & [[acc z] msg] & [[acc' z'] msg'] & m1 & m2 & I1 & I2 & Ap & S1 & S2 & D1 & D2 & L1 & L2).
    unfold Dg in D1, D2. cbn [fst snd] in D1, D2.
    destruct acc; [|discriminate]. destruct acc'; [|discriminate]. destruct (ok z) eqn:Oz; [|discriminate]. destruct (ok z') eqn:Oz'; [|discriminate].
    cbn [andb] in D1, D2.
    assert (W1 : won ok s0 a adv (u ++ y :: x) = true) by (unfold won; rewrite S1; now rewrite Oz).
    assert (W2 : won ok s0 a adv (u ++ y' :: x') = true) by (unfold won; rewrite S2; now rewrite Oz').
    destruct (game_inv _ _ _ _ _ _ _ _ _ S1 eq_refl) as (n1 & t1 & v & s1 & a1 & h & com & i & c & A1 & _ & P & Ph & V & Rc & Fi & L & E & Dc).
    destruct (game_inv _ _ _ _ _ _ _ _ _ S2 eq_refl) as (n2 & t2 & v' & s1' & a1' & h' & com' & i' & c' & A2 & _ & P' & Ph' & V' & Rc' & Fi' & L' & E' & Dc').
    rewrite Dc in D1. injection D1 as ->. rewrite Dc' in D2. injection D2 as ->.
    rewrite L1 in L. injection L as <-. rewrite L2 in L'. injection L' as <-.
    destruct (input_frame _ _ _ _ _ _ _ _ _ _ _ Ph Ph' (Fr z Oz) (Fr z' Oz') (recompute_framed _ _ _ _ Rc) (recompute_framed _ _ _ _ Rc') Fi Fi')
      as (_ & Ap' & Ac & <-).
    assert (EP := Pl _ _ Oz Oz' Ap'). rewrite <- EP in P'. rewrite P in P'. injection P' as <- <- <-.
    assert (Ec := recompute_alike s1 Di _ _ _ _ _ _ Rc Rc' Ac). subst com'.
    exists (u ++ y :: x), (u ++ y' :: x'), z, z', msg, n1, n2, v, s1, a1, com.
    repeat (split; [first [assumption|eapply processed_process; eassumption|exists u, y, y', x, x'; now auto]|]).
    split; unfold verify_resp; [rewrite V|rewrite V']; cbn [rbind]; [rewrite Rc|rewrite Rc']; cbn [rbind]; now rewrite val_eqb_refl.
  - exfalso. assert (X : count (won ok s0 a adv) (tapes A (Q + 2)) <= count (new (Dg ok s0 a) (game s0 a adv) []) (tapes A (Q + 2))).
    { apply count_mono. intros t _. unfold won, new. destruct (sample (game s0 a adv) [] t) as [[[[acc z] msg] m]|] eqn:S; [|discriminate].
      intros H. apply andb_true_iff in H as [-> Oz]. destruct (game_inv _ _ _ _ _ _ _ _ _ S eq_refl) as
        (m1 & t1 & v & s1 & a1 & h & com & i & y & _ & _ & _ & _ & _ & _ & _ & _ & _ & Dc).
      unfold Dg. cbn [fst snd]. rewrite Oz. cbn [andb]. now rewrite Dc. }
    assert (0 <= len A) by (unfold len; lia). nia.
Qed.

Theorem rom_extract ok s0 a adv A qs K Q : plain ok -> (forall g, distinguished g) -> sane qs s0 a ->
  (forall pre v s a1, process_pre s0 (get_verifier s0) pre a = Ok ((v, s), a1) -> noor s) ->
  asks Q adv -> spread A qs K -> 0 <= K ->
  Z.of_nat (Q + 2) * K * len A ^ Z.of_nat (Q + 2) < len A * count (won ok s0 a adv) (tapes A (Q + 2)) ->
  exists t t' z z' msg m m' v s a1 w, In t (tapes A (Q + 2)) /\ In t' (tapes A (Q + 2)) /\
    sample adv [] t = Some ((z, msg), m) /\ sample adv [] t' = Some ((z', msg), m') /\ ok z = true /\ ok z' = true /\
    won ok s0 a adv t = true /\ won ok s0 a adv t' = true /\
    n_pre z = n_pre z' /\ process_pre s0 (get_verifier s0) (n_pre z) a = Ok ((v, s), a1) /\
    Extr w s (n_chal z) (n_chal z') (n_resp z) (n_resp z') /\ Sat w s.
Proof.
  intros Pl Di [Wf Sa] No As Sp HK Lt.
  destruct (rom_fork ok s0 a adv A qs K Q Pl Di As Sp HK Lt) as
    (t & t' & z & z' & msg & m & m' & v & s & a1 & com & I1 & I2 & (u & y & y' & x & x' & _ & _ & E & E' & Ap) & S1 & S2 & O1 & O2 & W1 & W2 & EP & P & V & V').
  destruct (Sa _ _ _ _ P) as [C O].
  destruct (soundness s0 (n_pre z) a v s a1 (env a1) com (n_chal z) (n_chal z') (n_resp z) (n_resp z') P Wf C (No _ _ _ _ P)) as (w & Ex & St); auto.
  - eapply orders_impl; [|exact O]. intros q [Q1 Q2]. split; auto. rewrite E, E'. eapply apart_in; eauto.
  - exists t, t', z, z', msg, m, m', v, s, a1, w. auto 20.
Qed.
(** A statement that no numbers satisfy *)
Theorem rom_false ok s0 a adv A qs K Q : plain ok -> (forall g, distinguished g) -> sane qs s0 a ->
  (forall pre v s a1, process_pre s0 (get_verifier s0) pre a = Ok ((v, s), a1) -> noor s /\ forall w, ~ Sat w s) ->
  asks Q adv -> spread A qs K -> 0 <= K ->
  len A * count (won ok s0 a adv) (tapes A (Q + 2)) <= Z.of_nat (Q + 2) * K * len A ^ Z.of_nat (Q + 2).
Proof.
  intros Pl Di Sa No As Sp HK. apply Z.nlt_ge. intros Lt.
  destruct (rom_extract ok s0 a adv A qs K Q Pl Di Sa (fun p v s a1 H => proj1 (No p v s a1 H)) As Sp HK Lt) as
    (t & t' & z & z' & msg & m & m' & v & s & a1 & w & _ & _ & _ & _ & _ & _ & _ & _ & _ & P & _ & St).
  exact (proj2 (No _ _ _ _ P) w St).
Qed.
(** With disjunctions *)
Theorem rom_extract_or ok s0 a adv A qs K Q : plain ok -> (forall g, distinguished g) -> sane qs s0 a -> (forall q, In q qs -> 2 ^ 129 <= q) ->
  (forall z v s a1, ok z = true -> process_pre s0 (get_verifier s0) (n_pre z) a = Ok ((v, s), a1) -> canonical s (n_resp z)) ->
  asks Q adv -> spread A (2 ^ 128 :: qs) K -> 0 <= K ->
  Z.of_nat (Q + 2) * K * len A ^ Z.of_nat (Q + 2) < len A * count (won ok s0 a adv) (tapes A (Q + 2)) ->
  exists t t' z z' msg m m' v s a1 w, In t (tapes A (Q + 2)) /\ In t' (tapes A (Q + 2)) /\
    sample adv [] t = Some ((z, msg), m) /\ sample adv [] t' = Some ((z', msg), m') /\ ok z = true /\ ok z' = true /\
    won ok s0 a adv t = true /\ won ok s0 a adv t' = true /\
    n_pre z = n_pre z' /\ process_pre s0 (get_verifier s0) (n_pre z) a = Ok ((v, s), a1) /\
    Extr w s (n_chal z) (n_chal z') (n_resp z) (n_resp z') /\ Sat w s.
Proof.
  intros Pl Di [Wf Sa] Big Ca As Sp HK Lt.
  destruct (rom_fork ok s0 a adv A (2 ^ 128 :: qs) K Q Pl Di As Sp HK Lt) as
    (t & t' & z & z' & msg & m & m' & v & s & a1 & com & I1 & I2 & (u & y & y' & x & x' & _ & _ & E & E' & Ap) & S1 & S2 & O1 & O2 & W1 & W2 & EP & P & V & V').
  destruct (Sa _ _ _ _ P) as [C O].
  destruct (or_soundness s0 (n_pre z) a v s a1 (env a1) com (n_chal z) (n_chal z') (n_resp z) (n_resp z') P Wf C) as (w & Ex & St); auto.
  - eapply orders_impl; [|exact O]. intros q [Q1 Q2]. split; auto. split; [|now apply Big]. rewrite E, E'. eapply apart_in; eauto. now right.
  - eapply Ca; eauto.
  - eapply (Ca z'); eauto. rewrite <- EP. eassumption.
  - rewrite E, E'. eapply apart_in; eauto. now left.
  - exists t, t', z, z', msg, m, m', v, s, a1, w. auto 20.
Qed.
End O.

(** ** Inequalities *)
Section N.
Context {W : World}.
Theorem rom_inequality ok H0 g H1 h x al be bnd sim a adv A K Q :
  let s0 := mk_neq H0 g H1 h x al be bnd sim in let q := order (grp g) in
  plain ok -> (forall g, distinguished g) -> prime q -> grp h = grp g -> g <> inf (grp g) ->
  (forall pre v s a1, process_pre s0 (get_verifier s0) pre a = Ok ((v, s), a1) -> coh (env a1) (svars s)) ->
  (forall y, H0 = pmul y g -> H1 = pmul y h) ->
  asks Q adv -> spread A [q] K -> 0 <= K ->
  len A * count (won ok s0 a adv) (tapes A (Q + 2)) <= Z.of_nat (Q + 2) * K * len A ^ Z.of_nat (Q + 2).
Proof.
  intros s0 q Pl Di Pq Gh Gi Co Fl As Sp HK. apply Z.nlt_ge. intros Lt.
  destruct (rom_fork ok s0 a adv A [q] K Q Pl Di As Sp HK Lt) as
    (t & t' & z & z' & msg & m & m' & v & s & a1 & com & I1 & I2 & (u & y & y' & r & r' & _ & _ & E & E' & Ap) & S1 & S2 & O1 & O2 & W1 & W2 & EP & P & V & V').
  destruct (neq_sound H0 g H1 h x al be bnd sim (n_pre z) a v s a1 (env a1) com (n_chal z) (n_chal z')
    (n_resp z) (n_resp z') P Pq Gh Gi (Co _ _ _ _ P)) as (w & k & _ & _ & _ & Y & N & _); auto.
  rewrite E, E'. apply (apart_in [q]); auto. now left.
Qed.
End N.

(** ** The answers of sha256 *)
Lemma int_of_range c : 0 <= int_of c < 256.
Proof. unfold int_of. pose proof (N_ascii_bounded c). lia. Qed.
Lemma be_app l : forall acc, fold_left (fun acc a => 256 * acc + int_of a) l acc = acc * 256 ^ len l + be_int l.
Proof.
  unfold be_int, len. induction l as [|c l IH]; intros acc; cbn [fold_left List.length]; [lia|].
  rewrite (IH (256 * acc + int_of c)), (IH (256 * 0 + int_of c)). rewrite Nat2Z.inj_succ, Z.pow_succ_r by lia. lia.
Qed.
Lemma be_cons c l : be_int (c :: l) = int_of c * 256 ^ len l + be_int l.
Proof. unfold be_int at 1. cbn [fold_left]. rewrite be_app. now rewrite Z.add_0_l. Qed.
Lemma be_range l : 0 <= be_int l < 256 ^ len l.
Proof.
  induction l as [|c l IH]; [cbn; lia|]. rewrite be_cons. pose proof (int_of_range c). unfold len in *. cbn [List.length].
  rewrite Nat2Z.inj_succ, Z.pow_succ_r by lia. nia.
Qed.
Lemma int_of_inj a b : int_of a = int_of b -> a = b.
Proof. unfold int_of. intros H. apply N2Z.inj in H. rewrite <- (ascii_N_embedding a), <- (ascii_N_embedding b). now rewrite H. Qed.
Lemma be_inj l : forall m, List.length l = List.length m -> be_int l = be_int m -> l = m.
Proof.
  induction l as [|c l IH]; intros [|d m] L E; try discriminate; auto. cbn in L. injection L as L. rewrite !be_cons in E.
  assert (EL : len l = len m) by (unfold len; now rewrite L). rewrite <- EL in E.
  pose proof (be_range l) as R1. pose proof (be_range m) as R2. rewrite <- EL in R2.
  assert (X : int_of c = int_of d) by nia. f_equal; [now apply int_of_inj|]. apply IH; auto. rewrite X in E. lia.
Qed.

Lemma strings_in n b : In b (strings n) <-> List.length b = n.
Proof.
  revert b. induction n as [|n IH]; intros b; cbn [strings].
  - split; [intros [<-|[]]; reflexivity|]. destruct b; [now left|discriminate].
  - rewrite in_flat_map. split.
    + intros (c & _ & H). apply in_map_iff in H as (x & <- & H). apply IH in H. cbn [List.length]. lia.
    + destruct b as [|c b]; [discriminate|]. cbn [List.length]. intros L. exists c. split; [|apply in_map, IH; lia]. unfold alphabet.
      apply in_map_iff. exists (nat_of_ascii c). split; [apply ascii_nat_embedding|]. apply in_seq. pose proof (nat_ascii_bounded c). lia.
Qed.
Lemma flat_len {X Y} (f : X -> list Y) l n : (forall x, len (f x) = n) -> len (flat_map f l) = len l * n.
Proof.
  intros H. induction l as [|x l IH]; [reflexivity|]. cbn [flat_map]. unfold len in *. cbn [List.length]. rewrite app_length, Nat2Z.inj_add, IH, H. lia.
Qed.
Lemma strings_len n : len (strings n) = 256 ^ Z.of_nat n.
Proof.
  induction n as [|n IH]; [reflexivity|]. cbn [strings]. rewrite (flat_len _ _ (len (strings n))).
  - replace (len alphabet) with 256 by reflexivity. rewrite IH, Nat2Z.inj_succ, Z.pow_succ_r by lia. reflexivity.
  - intros c. unfold len. now rewrite map_length.
Qed.
Lemma nodup_flat {X Y} (f : X -> list Y) l : NoDup l -> (forall x, NoDup (f x)) -> (forall x x' y, In y (f x) -> In y (f x') -> x = x') -> NoDup (flat_map f l).
Proof.
  intros N H D. induction N as [|x l I N IH]; cbn [flat_map]; [constructor|].
  assert (App : forall a b : list Y, NoDup a -> NoDup b -> (forall y, In y a -> ~ In y b) -> NoDup (a ++ b)).
  { induction a as [|y a IHa]; intros b Na Nb Di; [exact Nb|]. inversion Na; subst. cbn. constructor.
    - rewrite in_app_iff. intros [J|J]; [auto|]. apply (Di y); auto. now left.
    - apply IHa; auto. intros z Jz. apply Di. now right. }
  apply App; auto. intros y Jy J. apply in_flat_map in J as (x' & I' & J). assert (x = x') by eauto. now subst.
Qed.
Lemma nodup_map_on {X Y} (f : X -> Y) l : NoDup l -> (forall x y, In x l -> In y l -> f x = f y -> x = y) -> NoDup (map f l).
Proof.
  induction 1 as [|x l I N IH]; intros H; cbn [map]; [constructor|]. constructor.
  - intros J. apply in_map_iff in J as (y & E & Jy). apply I. rewrite (H x y); auto; [now left|now right].
  - apply IH. intros; apply H; auto; now right.
Qed.
Lemma strings_nodup n : NoDup (strings n).
Proof.
  induction n as [|n IH]; cbn [strings]; [repeat constructor; auto|]. apply nodup_flat.
  - unfold alphabet. apply (NoDup_map_inv nat_of_ascii). rewrite map_map. rewrite (map_ext_in _ (fun x => x)); [rewrite map_id; apply seq_NoDup|].
    intros x I. apply in_seq in I. apply nat_ascii_embedding. lia.
  - intros c. apply nodup_map_on; auto. intros x y _ _ E. now injection E.
  - intros c c' b I I'. apply in_map_iff in I as (x & <- & _). apply in_map_iff in I' as (y & E & _). now injection E.
Qed.

(** numbers below [B] that are congruent to one number *)
Lemma congruent_few (l : list Z) (q B c : Z) : 0 < q -> 0 <= B -> NoDup l -> (forall x, In x l -> 0 <= x < B /\ (q | c - x)) -> len l <= B / q + 1.
Proof.
  intros Hq HB N H. set (n := Z.to_nat (B / q + 1)). assert (0 <= B / q) by (apply Z.div_pos; lia).
  assert (I : incl l (map (fun i => c mod q + q * Z.of_nat i) (seq 0 n))).
  { intros x Ix. destruct (H x Ix) as [[X0 X1] D]. apply in_map_iff. exists (Z.to_nat (x / q)). rewrite Z2Nat.id by (apply Z.div_pos; lia). split.
    - assert (E : x mod q = c mod q).
      { destruct D as [k D]. replace c with (x + k * q) by lia. now rewrite Z_mod_plus_full. }
      rewrite <- E. pose proof (Z.div_mod x q). lia.
    - apply in_seq. split; [lia|]. unfold n. assert (x / q <= B / q) by (apply Z.div_le_mono; lia).
      assert (0 <= x / q) by (apply Z.div_pos; lia). lia. }
  apply NoDup_incl_length in I; auto. rewrite map_length, seq_length in I. unfold len, n in *. lia.
Qed.
Lemma spread_digests n q : 1 < q -> spread (strings n) [q] (256 ^ Z.of_nat n / q + 1).
Proof.
  intros Hq y Iy. apply strings_in in Iy. unfold count. set (l := filter _ _).
  assert (L : forall x, In x l -> List.length x = n /\ (q | be_int y - be_int x)).
  { intros x I. apply filter_In in I as [I A]. apply strings_in in I. split; auto. apply negb_true_iff in A. unfold apart in A. cbn [forallb] in A.
    destruct (Zdivide_dec q (be_int y - be_int x)); [auto|discriminate]. }
  replace (len l) with (len (map be_int l)) by (unfold len; now rewrite map_length).
  apply (congruent_few _ q _ (be_int y)); try lia.
  - apply nodup_map_on; [apply NoDup_filter, strings_nodup|]. intros x x' I I' E. apply be_inj; auto.
    destruct (L x I), (L x' I'). congruence.
  - intros x I. apply in_map_iff in I as (b & <- & I). destruct (L b I) as [Ln D]. split; auto.
    pose proof (be_range b) as R. unfold len in R. now rewrite Ln in R.
Qed.

Section S.
Context {W : World}.
(** sha256 has digests of 32 bytes *)
Theorem rom_sha ok s0 a adv q Q : plain ok -> (forall g, distinguished g) -> sane [q] s0 a -> 1 < q ->
  (forall pre v s a1, process_pre s0 (get_verifier s0) pre a = Ok ((v, s), a1) -> noor s /\ forall w, ~ Sat w s) -> asks Q adv ->
  len digests = 2 ^ 256 /\
  2 ^ 256 * count (won ok s0 a adv) (tapes digests (Q + 2)) <= Z.of_nat (Q + 2) * (2 ^ 256 / q + 1) * (2 ^ 256) ^ Z.of_nat (Q + 2).
Proof.
  intros Pl Di Sa Hq No As. assert (E : len digests = 2 ^ 256).
  { unfold digests. rewrite strings_len. change (Z.of_nat 32) with 32. change 256 with (2 ^ 8) at 1. rewrite <- Z.pow_mul_r by lia. reflexivity. }
  split; [exact E|]. assert (P : 256 ^ Z.of_nat 32 = 2 ^ 256) by reflexivity.
  assert (X := rom_false ok s0 a adv digests [q] (256 ^ Z.of_nat 32 / q + 1) Q Pl Di Sa No As (spread_digests 32 q Hq)).
  rewrite E, P in X. apply X. assert (0 <= 2 ^ 256 / q) by (apply Z.div_pos; [apply Z.pow_nonneg|]; lia). lia.
Qed.
End S.

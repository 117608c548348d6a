(** Proofs of statements of the library by those who have seen proofs of others. *)
From Coq Require Import String Znumtheory Lia.
From Verif Require Import Base World Val Expr Utils Stmt Prove Verify Spec Shapes Claims Extract Ident Alike Lib Tree Sound Sound2 Sound3 Sound4 IdProofs2 IdProofs3
  Frame Wrong Second Fork History Honest Clauses Supply Distrib Custom CustomProofs Mixed MixedOr Nested NestedSound TreeZk Bbs RangeC RangeS RangeS2 Opening RangeX Oracle Forking OracleProofs OracleZk OracleZkProofs Chance ChanceProofs
  OracleTree OracleTreeProofs OracleTreeSim OracleMany OracleManyProofs Chosen ChosenProofs ChosenTree ChosenTreeProofs Forgery ForgeryProofs ForgerySig.
Open Scope Z_scope.
Open Scope list_scope.

Section O.
Context {W : World}.

Lemma sverify_inv {R} s0 z msg a (k : res (bool * stmt * st) -> obs (option R)) l T M tp o M' :
  (forall r, accepts r = false -> exists x, k r = ODone x) ->
  sample (osim None (othen (verify_ro s0 z msg a) k) l T) M tp = Some (o, M') ->
  (exists r, accepts r = false /\ o = (match k r with ODone x => Some x | _ => None end, T)) \/
  exists v s1 a1 h com i y r, processed s0 (n_pre z) a = Ok ((v, s1), a1) /\ prehash_input s1 = Ok h /\
    pre_validation (env a1) s1 v (n_resp z) = Ok tt /\ recompute s1 (n_chal z) (n_resp z) = Ok com /\
    fs_input h [n_pre z; com] msg = Ok i /\ n_chal z = be_int y /\ accepts r = true /\ exists M1 tp1, 
    sample (osim None (k r) l T) M1 tp1 = Some (o, M') /\ (look T i <> None \/ look M1 (qtag i) = Some y).
Proof.
  intros KD S. unfold verify_ro in S.
  assert (BAD : forall r M1 tp1, accepts r = false -> sample (osim None (k r) l T) M1 tp1 = Some (o, M') ->
    exists r, accepts r = false /\ o = (match k r with ODone x => Some x | _ => None end, T)).
  { intros r M1 tp1 N S1. exists r. split; auto. destruct (KD r N) as (x & E). rewrite E in *. cbn [osim sample] in S1. now injection S1 as <- <-. }
  destruct (processed s0 (n_pre z) a) as [[[v s1] a1]|e]; [|left; eapply BAD; [|exact S]; reflexivity].
  destruct (prehash_input s1) as [h|e] eqn:Ph; [|left; eapply BAD; [|exact S]; reflexivity]. cbn [othen osim] in S.
  match type of S with sample (match _ with Some y => @?p y | None => _ end) _ _ = _ => assert (X : exists y0 M1 tp1, sample (p y0) M1 tp1 = Some (o, M')) end.
  { destruct (look T h) as [y|]; [eauto|]. cbn [sample] in S. destruct (look M (qtag h)) as [y|]; [eauto|]. destruct tp; [discriminate|eauto]. }
  clear S. cbv beta in X. destruct X as (y0 & M1 & tp1 & S).
  destruct (val_eqb (n_hash z) (VBytes y0)); [|left; eapply BAD; [|exact S]; reflexivity].
  destruct (pre_validation (env a1) s1 v (n_resp z)) as [[]|e] eqn:V; [|left; eapply BAD; [|exact S]; reflexivity].
  destruct (recompute s1 (n_chal z) (n_resp z)) as [com|e] eqn:Rc; [|left; eapply BAD; [|exact S]; reflexivity].
  destruct (fs_input h [n_pre z; com] msg) as [i|e] eqn:Fi; [|left; eapply BAD; [|exact S]; reflexivity].
  cbn [othen osim] in S.
  assert (Y : exists y M2 tp2, sample (osim None (k (Ok (n_chal z =? be_int y, s1, a1))) l T) M2 tp2 = Some (o, M') /\ (look T i <> None \/ look M2 (qtag i) = Some y)).
  { destruct (look T i) as [y|] eqn:L; [exists y, M1, tp1; split; [exact S|left; congruence]|]. cbn [sample] in S. destruct (look M1 (qtag i)) as [y|] eqn:L1; [exists y, M1, tp1; auto|].
    destruct tp1 as [|y tp1]; [discriminate|]. exists y, ((qtag i, y) :: M1), tp1. split; [exact S|]. right. now rewrite look_cons, eqb_yes. }
  destruct Y as (y & M2 & tp2 & S2 & L). destruct (n_chal z =? be_int y) eqn:E; [|left; eapply BAD; [|exact S2]; reflexivity]. apply Z.eqb_eq in E.
  right. exists v, s1, a1, h, com, i, y, (Ok (true, s1, a1)). repeat (split; [assumption || reflexivity|]). exists M2, tp2. auto.
Qed.
Lemma sforgery_inv a v l tp acc s0 z msg ms T' M' : Forall (fun f : sshape * (nat -> Z) => honest_shape (fst f)) l ->
  sample (osim None (sforgery a v) l []) [] tp = Some ((Some (Some (acc, (s0, z, msg), ms)), T'), M') -> acc = true -> framed (n_pre z) -> ~ In msg ms ->
  exists v s1 a1 h com i y, processed s0 (n_pre z) a = Ok ((v, s1), a1) /\ prehash_input s1 = Ok h /\
    pre_validation (env a1) s1 v (n_resp z) = Ok tt /\ recompute s1 (n_chal z) (n_resp z) = Ok com /\
    fs_input h [n_pre z; com] msg = Ok i /\ n_chal z = be_int y /\ decisive s0 a z msg = Some i /\ look M' (qtag i) = Some y.
Proof.
  intros HF S -> Fr New. unfold sforgery in S. apply onote_inv in S; [|exact HF|constructor].
  destruct S as [S|[S|([[t0 z0] msg0] & ms0 & l0 & T0 & M0 & tp0 & TO & S)]]; [discriminate|discriminate|]. cbn [fst snd] in S.
  apply sverify_inv in S; [|intros r _; eauto].
  destruct S as [(r & N & E)|(v0 & s1 & a1 & h & com & i & y & r & P & Ph & V & Rc & Fi & E & Ac & M1 & tp1 & S & L)].
  - injection E as E _ _ _ _ _. congruence.
  - cbn [osim sample] in S. injection S as _ <- <- <- <- <- <-. exists v0, s1, a1, h, com, i, y. repeat (split; [assumption|]).
    split; [unfold decisive; now rewrite P, Ph, Rc, Fi|]. destruct L as [L|L]; [|exact L]. exfalso. apply New.
    unfold look in L. destruct (find (fun p => bytes_eqb (fst p) i) T0) as [[i' y']|] eqn:FE; [|exfalso; now apply L]. apply find_some in FE as [Ii Ei]. cbn [fst] in Ei. apply bytes_eqb_eq in Ei. subst i'.
    unfold table_ok in TO. rewrite Forall_forall in TO. destruct (TO _ Ii) as (msg' & s' & h' & pre' & com' & Im & Ph' & F1 & F2 & Fi'). cbn [fst] in Fi'.
    destruct (input_frame _ _ _ _ _ _ _ _ _ _ _ Ph Ph' Fr F1 (recompute_framed _ _ _ _ Rc) F2 Fi Fi') as (_ & _ & _ & ->). exact Im.
Qed.
Lemma onote_quits {A R} (w : obs A) (k : A -> list bytes -> obs (option R)) : (forall x ms, quits None (k x ms)) -> forall ms, quits None (onote w ms k).
Proof. intros H. induction w as [r|b f IH|msg f IH|f IH]; intros ms; cbn; auto. Qed.
Lemma othen_quits {A R} (r0 : R) (p : prog A) k : (forall x, quits r0 (k x)) -> quits r0 (othen p k).
Proof. intros H. induction p as [x|b f IH]; cbn; auto. Qed.
Lemma oasks_up {R} (w : obs R) : forall n k, (n <= k)%nat -> oasks n w -> oasks k w.
Proof.
  induction w as [r|b0 f IH|msg f IH|f IH]; intros n k L H; cbn [oasks] in *; [exact I| |intros z; eapply IH; eauto|eapply IH; eauto].
  destruct n as [|n]; [destruct H|]. destruct k as [|k]; [lia|]. intros y. apply (IH y n); [lia|auto].
Qed.
Lemma othen_oasks {A R} (p : prog A) (k : A -> obs R) c : (forall x, oasks c (k x)) -> forall n, asks n p -> oasks (n + c) (othen p k).
Proof.
  intros K. induction p as [x|b0 f IH]; intros n H; cbn [othen].
  - apply (oasks_up _ c); [lia|apply K].
  - cbn [asks] in H. destruct n as [|n]; [destruct H|]. cbn [Nat.add oasks]. intros y. apply IH; auto.
Qed.
Lemma onote_oasks {A R} (w : obs A) (k : A -> list bytes -> obs (option R)) c : (forall x ms, oasks c (k x ms)) -> forall n ms, oasks n w -> oasks (n + c) (onote w ms k).
Proof.
  intros K. induction w as [r|b0 f IH|msg f IH|f IH]; intros n ms H; cbn [onote oasks] in *.
  - apply (oasks_up _ c); [lia|apply K].
  - destruct n as [|n]; [destruct H|]. cbn [Nat.add]. intros y. apply IH; auto.
  - intros [z|e]; [apply IH; auto|exact I].
  - apply IH; auto.
Qed.
Lemma sforgery_quits a v : quits None (sforgery a v).
Proof. apply onote_quits. intros x ms. apply othen_quits. intros r. exact I. Qed.
Lemma sforgery_asks a v b : oasks b v -> oasks (b + 2) (sforgery a v).
Proof. apply onote_oasks. intros x ms. apply (othen_oasks _ _ 0) with (n := 2%nat); [intros; exact I|apply asks_verify]. Qed.

Definition SD (ok : stmt -> nizk -> bool) (a : st) (o : option (option (bool * (stmt * nizk * bytes) * list bytes)) * memo) : option bytes :=
  match fst o with
  | Some (Some (acc, (s, z, msg), ms)) => if acc && ok s z && negb (existsb (bytes_eqb msg) ms) then option_map qtag (decisive s a z msg) else None
  | _ => None
  end.
Lemma sforge_fork ok a v Ks ts A qs K b : repr_ok -> (forall g, distinguished g) -> (forall s z, ok s z = true -> tidy a s z) ->
  (forall s0 s0' z z' v v' s s' a1 a1' f g, ok s0 z = true -> ok s0' z' = true -> wire_alike (n_pre z) (n_pre z') ->
     process_pre s0 (get_verifier s0) (n_pre z) a = Ok ((v, s), a1) -> process_pre s0' (get_verifier s0') (n_pre z') a = Ok ((v', s'), a1') ->
     alike f g s s' -> pts s = pts s') ->
  Forall provers Ks -> Forall sends_framed Ks -> List.length ts = List.length Ks -> oasks b v -> spread A qs K -> 0 <= K ->
  let n := (b + 2 + 2 * List.length Ks)%nat in
  Z.of_nat n * K * len A ^ Z.of_nat n < len A * count (fun y => sforged ok (oideal (sforgery a v) (combine Ks ts) [] y)) (tapes A n) ->
  exists s0 s0' z z' v1 v1' s s' a1 a1' com f g, two_sforgeries ok a v Ks ts A n s0 s0' z z' /\ ok s0 z = true /\ ok s0' z' = true /\
    (exists y y', n_chal z = be_int y /\ n_chal z' = be_int y' /\ apart qs y y' = true) /\
    process_pre s0 (get_verifier s0) (n_pre z) a = Ok ((v1, s), a1) /\ process_pre s0' (get_verifier s0') (n_pre z') a = Ok ((v1', s'), a1') /\
    alike f g s s' /\
    verify_resp (env a1) s v1 com (n_chal z) (n_resp z) = Ok true /\ verify_resp (env a1) s v1 com (n_chal z') (n_resp z') = Ok true.
Proof.
  intros Ro Di Us Pt Pv Ti Lt0 As Sp HK n Lt.
  destruct (proves_shapes Ks Pv Ti) as (Fs & SHs & HSs).
  assert (LF : List.length Fs = List.length Ks) by (clear - SHs; induction SHs; cbn; congruence).
  set (lk := combine Fs ts).
  assert (F2 : Forall2 (fun (p : party * (nat -> Z)) (f : sshape * (nat -> Z)) => shaped (fst p) (fst f) /\ snd p = snd f) (combine Ks ts) lk).
  { unfold lk. clear - SHs. revert ts. induction SHs; intros [|t ts]; cbn; constructor; auto. }
  assert (HF : Forall (fun f : sshape * (nat -> Z) => honest_shape (fst f)) lk).
  { unfold lk. clear - HSs. revert ts. induction HSs; intros [|t ts]; cbn; constructor; auto. }
  assert (Lk : List.length lk = List.length Ks) by (unfold lk; rewrite combine_length; lia).
  assert (ID : forall y, option_map (fun r => fst (fst r)) (sample (osim None (sforgery a v) lk []) [] y) = option_map fst (oideal (sforgery a v) (combine Ks ts) [] y)).
  { intros y. apply osim_ideal; [apply sforgery_quits|exact F2|intros c; reflexivity|intros j _; reflexivity]. }
  assert (INV : forall y o M c, sample (osim None (sforgery a v) lk []) [] y = Some (o, M) -> SD ok a o = Some c ->
    exists s0 z msg ms T m w s1 a1 h com i x, o = (Some (Some (true, (s0, z, msg), ms)), T) /\ oideal (sforgery a v) (combine Ks ts) [] y = Some (Some (Some (true, (s0, z, msg), ms)), m) /\
      ok s0 z = true /\ ~ In msg ms /\ processed s0 (n_pre z) a = Ok ((w, s1), a1) /\ prehash_input s1 = Ok h /\
      pre_validation (env a1) s1 w (n_resp z) = Ok tt /\ recompute s1 (n_chal z) (n_resp z) = Ok com /\
      fs_input h [n_pre z; com] msg = Ok i /\ n_chal z = be_int x /\ c = qtag i /\ look M (qtag i) = Some x).
  { intros y o M c S D. specialize (ID y). rewrite S in ID. destruct o as [[[[[acc [[t z] msg]] ms]|]|] T]; unfold SD in D; cbn [fst] in D; try discriminate D.
    destruct (acc && ok t z && negb (existsb (bytes_eqb msg) ms)) eqn:B; [|discriminate D]. rewrite !andb_true_iff in B. destruct B as [[-> Oz] Nw]. apply existsb_in in Nw.
    destruct (sforgery_inv a v lk y true t z msg ms T M HF S eq_refl (proj1 (Us _ _ Oz)) Nw) as (v1 & s1 & a1 & h & com & i & x & P & Ph & V & Rc & Fi & E & Dd & L).
    rewrite Dd in D. injection D as <-. cbn [option_map fst] in ID. destruct (oideal (sforgery a v) (combine Ks ts) [] y) as [[o m]|]; [|discriminate ID]. cbn in ID. injection ID as <-.
    exists t, z, msg, ms, T, m, v1, s1, a1, h, com, i, x. repeat (split; [assumption || reflexivity|]). exact L. }
  destruct (forking (SD ok a) (apart qs) A K (osim None (sforgery a v) lk []) Sp HK n [] n) as [F|C]; auto.
  - unfold n. rewrite <- Lk. apply osim_asks, sforgery_asks, As.
  - intros y o M' c S D. destruct (INV _ _ _ _ S D) as (t & z & msg & ms & T & m & v1 & s1 & a1 & h & com & i & x & _ & _ & _ & _ & _ & _ & _ & _ & _ & _ & -> & L). congruence.
  - destruct F as (u & y & y' & x & x' & c & o & o' & m1 & m2 & I1 & I2 & Ap & S1 & S2 & D1 & D2 & L1 & L2).
    destruct (INV _ _ _ _ S1 D1) as (s0 & z & msg & ms & T & m & v1 & s & a1 & h & com & i & w & -> & O1 & Oz & N1 & P & Ph & V & Rc & Fi & E & -> & Lk1).
    destruct (INV _ _ _ _ S2 D2) as (s0' & z' & msg' & ms' & T' & m' & v1' & s' & a1' & h' & com' & i' & w' & -> & O2 & Oz' & N2 & P' & Ph' & V' & Rc' & Fi' & E' & Ei & Lk2).
    apply qtag_inj in Ei. subst i'. rewrite L1 in Lk1. injection Lk1 as <-. rewrite L2 in Lk2. injection Lk2 as <-.
    destruct (Us _ _ Oz) as (Fr & Sa). destruct (Us _ _ Oz') as (Fr' & Sa').
    destruct (input_frame _ _ _ _ _ _ _ _ _ _ _ Ph Ph' Fr Fr' (recompute_framed _ _ _ _ Rc) (recompute_framed _ _ _ _ Rc') Fi Fi')
      as (<- & Aw & Ac & <-).
    assert (PP := processed_process _ _ _ _ _ _ _ _ P V). assert (PP' := processed_process _ _ _ _ _ _ _ _ P' V').
    destruct (same_prehash s s' h Ro Ph Ph') as (f & g & Al).
    destruct (alike_valid f g (env a1) (env a1') s s' v1 v1' (n_resp z) (n_resp z') (Pt _ _ _ _ _ _ _ _ _ _ _ _ Oz Oz' Aw PP PP' Al) Al) as [V2 Re]; auto.
    { eapply processed_match; eauto. } { eapply processed_match; eauto. } { eapply Sa; eauto. } { eapply Sa'; eauto. }
    rewrite Re in Rc'. assert (Ec := recompute_alike s Di _ _ _ _ _ _ Rc Rc' Ac). subst com'.
    exists s0, s0', z, z', v1, v1', s, s', a1, a1', com, f, g.
    split; [exists (u ++ y :: x), (u ++ y' :: x'), msg, ms, ms', m, m'; repeat (split; [assumption|]); assumption|]. split; [exact Oz|]. split; [exact Oz'|].
    split; [exists y, y'; auto|]. repeat (split; [assumption|]).
    split; unfold verify_resp; [rewrite V|rewrite V2]; cbn [rbind]; [rewrite Rc|rewrite Rc']; cbn [rbind]; now rewrite val_eqb_refl.
  - exfalso. assert (X : count (fun y => sforged ok (oideal (sforgery a v) (combine Ks ts) [] y)) (tapes A n) <= count (new (SD ok a) (osim None (sforgery a v) lk []) []) (tapes A n)).
    { apply count_mono. intros y _ H. unfold sforged in H. specialize (ID y). destruct (oideal (sforgery a v) (combine Ks ts) [] y) as [[[[[[acc [[t z] msg]] ms]|]|] m]|]; try discriminate H.
      cbn in ID. unfold new. destruct (sample (osim None (sforgery a v) lk []) [] y) as [[[o T] M]|] eqn:S; [|discriminate ID]. cbn in ID. injection ID as ->.
      assert (B := H). rewrite !andb_true_iff in B. destruct B as [[-> Oz] Nw]. apply existsb_in in Nw.
      destruct (sforgery_inv a v lk y true t z msg ms T M HF S eq_refl (proj1 (Us _ _ Oz)) Nw) as (v1 & s1 & a1 & h & com & i & x & _ & _ & _ & _ & _ & _ & Dd & _).
      unfold SD. cbn [fst]. rewrite H, Dd. reflexivity. }
    assert (0 <= len A) by (unfold len; lia). nia.
Qed.

(** * Counting, for any game *)
Lemma play_count Q Ks : 0 <= Q -> Forall (proves Q) Ks ->
  exists sz, numbers sz (List.length Ks) /\
  (forall R (g : obs R) b y E, oasks b g -> (b + 2 * List.length Ks <= List.length y)%nat -> only_remainders sz (fun ts => E (sample (oreal g (combine Ks ts)) [] y))) /\
  forall R (g : obs R) b E A K n, oasks b g -> n = (b + 2 * List.length Ks)%nat ->
  often Q sz (List.length Ks) A K n (fun ts y => E (sample (oreal g (combine Ks ts)) [] y)) ->
  exists ts, List.length ts = List.length Ks /\ Z.of_nat n * K * len A ^ Z.of_nat n < len A * count (fun y => E (oideal g (combine Ks ts) [] y)) (tapes A n).
Proof.
  intros QP Pr. destruct (many_zk Q Ks QP Pr) as (sz & L & P & H). exists sz. split; [split; assumption|]. split.
  { intros R g b y E As Ly ps C. f_equal. exact (proj1 (proj1 (H _ g b [] y As Ly) ps C)). }
  intros R g b E A K n As En Lt. unfold often in Lt.
  set (Re := fun l y => E (sample (oreal g (combine Ks (map vec l))) [] y)). set (Id := fun l y => E (oideal g (combine Ks (map vec l)) [] y)).
  change (fun x : list (list Z) * list bytes => E (sample (oreal g (combine Ks (map vec (fst x)))) [] (snd x))) with (fun x : list (list Z) * list bytes => Re (fst x) (snd x)) in Lt.
  rewrite (count_prod Re) in Lt. rewrite (tot_swap Re) in Lt.
  assert (Cl : Q * Z.abs (tot (fun y => count (fun l => Re l y) (boxes sz)) (tapes A n) - tot (fun y => count (fun l => Id l y) (boxes sz)) (tapes A n)) <=
    (Z.of_nat (List.length Ks) * Z.of_nat n * len (boxes sz)) * len (tapes A n)).
  { apply tot_close; [exact QP|]. intros y Iy. apply tapes_in in Iy as [Ly _].
    assert (X := proj2 (H _ g b [] y As ltac:(rewrite Ly, En; lia)) E).
    unfold all_chances in X. etransitivity; [exact X|]. rewrite En. apply Z.mul_le_mono_nonneg_r; [apply boxes_nonneg|]. apply Z.mul_le_mono_nonneg_l; [apply len_nonneg|].
    unfold len. cbn [List.length]. lia. }
  rewrite <- (tot_swap Id) in Cl. rewrite tapes_len in Cl.
  set (re := tot _ _) in Lt, Cl. set (id := tot _ _) in Cl.
  assert (LB : 0 <= len (boxes sz)) by apply len_nonneg. assert (LA : 0 <= len A) by apply len_nonneg.
  set (kk := Z.of_nat (List.length Ks)) in *. set (B := len (boxes sz)) in *. set (P0 := len A ^ Z.of_nat n) in *. set (N := len A) in *. set (nn := Z.of_nat n) in *.
  assert (AB : forall r : Z, r <= Z.abs r) by (intros r; lia).
  assert (X : Q * (re - id) <= kk * nn * B * P0) by (etransitivity; [apply Z.mul_le_mono_nonneg_l; [exact QP|apply AB]|exact Cl]).
  assert (Y : N * (Q * (re - id)) <= N * (kk * nn * B * P0)) by (apply Z.mul_le_mono_nonneg_l; assumption).
  assert (Z0 : Q * (nn * K * P0 * B) < Q * (N * id)).
  { replace (Q * (nn * K * P0 * B)) with ((Q * nn * K + N * kk * nn) * (B * P0) - N * (kk * nn * B * P0)) by ring.
    replace (Q * (N * id)) with (N * Q * re - N * (Q * (re - id))) by ring. lia. }
  assert (Z1 : nn * K * P0 * B < N * id).
  { destruct (Z.eq_dec Q 0) as [->|]; [lia|]. apply (Z.mul_lt_mono_pos_l Q); [lia|exact Z0]. }
  unfold id in Z1. rewrite tot_scale in Z1. apply tot_some in Z1 as (l & Il & Hl). exists (map vec l). split; [rewrite map_length, <- L; now apply boxes_length|exact Hl].
Qed.
Lemma often_less Q sz p A K n (E E' : list (nat -> Z) -> list bytes -> bool) : 0 <= Q -> (forall ts y, E ts y = true -> E' ts y = true) -> often Q sz p A K n E -> often Q sz p A K n E'.
Proof.
  intros QP H L. unfold often in *. eapply Z.lt_le_trans; [exact L|]. apply Z.mul_le_mono_nonneg_l; [apply Z.mul_nonneg_nonneg; [apply len_nonneg|exact QP]|].
  apply count_mono. intros x _. apply H.
Qed.
Lemma sforge_pts Q Ks : 0 <= Q -> Forall (proves Q) Ks -> Forall sends_framed Ks ->
  exists sz, fair sz Ks /\ forall ok a v A qs K b n, repr_ok -> (forall g, distinguished g) -> (forall s z, ok s z = true -> tidy a s z) ->
  (forall s0 s0' z z' v v' s s' a1 a1' f g, ok s0 z = true -> ok s0' z' = true -> wire_alike (n_pre z) (n_pre z') ->
     process_pre s0 (get_verifier s0) (n_pre z) a = Ok ((v, s), a1) -> process_pre s0' (get_verifier s0') (n_pre z') a = Ok ((v', s'), a1') ->
     alike f g s s' -> pts s = pts s') ->
  oasks b v -> spread A qs K -> 0 <= K -> n = (b + 2 + 2 * List.length Ks)%nat -> often Q sz (List.length Ks) A K n (sforges ok a v Ks) ->
  exists ts s0 s0' z z' v1 v1' s s' a1 a1' com f g, two_sforgeries ok a v Ks ts A n s0 s0' z z' /\ ok s0 z = true /\ ok s0' z' = true /\
    (exists y y', n_chal z = be_int y /\ n_chal z' = be_int y' /\ apart qs y y' = true) /\
    process_pre s0 (get_verifier s0) (n_pre z) a = Ok ((v1, s), a1) /\ process_pre s0' (get_verifier s0') (n_pre z') a = Ok ((v1', s'), a1') /\
    alike f g s s' /\
    verify_resp (env a1) s v1 com (n_chal z) (n_resp z) = Ok true /\ verify_resp (env a1) s v1 com (n_chal z') (n_resp z') = Ok true.
Proof.
  intros QP Pr Ti. destruct (play_count Q Ks QP Pr) as (sz & Nu & Fa & H). exists sz. split.
  - split; [exact Nu|]. intros ok a v b y As Ly. exact (Fa _ (sforgery a v) (b + 2)%nat y (sforged ok) (sforgery_asks a v b As) Ly).
  - intros ok a v A qs K b n Ro Di Us Pt As Sp HK -> Of.
    destruct (H _ (sforgery a v) (b + 2)%nat (sforged ok) A K _ (sforgery_asks a v b As) eq_refl Of) as (ts & Lt & C).
    assert (Pv : Forall provers Ks) by (eapply Forall_impl; [|exact Pr]; apply proves_provers).
    destruct (sforge_fork ok a v Ks ts A qs K b Ro Di Us Pt Pv Ti Lt As Sp HK C) as (s0 & s0' & z & z' & v1 & v1' & s & s' & a1 & a1' & com & f & g & R).
    exists ts, s0, s0', z, z', v1, v1', s, s', a1, a1', com, f, g. exact R.
Qed.
Lemma sforge_readable Q Ks : 0 <= Q -> Forall (proves Q) Ks -> Forall sends_framed Ks ->
  exists sz, fair sz Ks /\ forall ok a v A qs K b n, readable -> (forall g, distinguished g) -> (forall s z, ok s z = true -> tidy a s z) ->
  oasks b v -> spread A qs K -> 0 <= K -> n = (b + 2 + 2 * List.length Ks)%nat -> often Q sz (List.length Ks) A K n (sforges ok a v Ks) ->
  exists ts s0 s0' z z' v1 v1' s s' a1 a1' com f g, two_sforgeries ok a v Ks ts A n s0 s0' z z' /\ ok s0 z = true /\ ok s0' z' = true /\
    (exists y y', n_chal z = be_int y /\ n_chal z' = be_int y' /\ apart qs y y' = true) /\
    process_pre s0 (get_verifier s0) (n_pre z) a = Ok ((v1, s), a1) /\ process_pre s0' (get_verifier s0') (n_pre z') a = Ok ((v1', s'), a1') /\
    alike f g s s' /\
    verify_resp (env a1) s v1 com (n_chal z) (n_resp z) = Ok true /\ verify_resp (env a1) s v1 com (n_chal z') (n_resp z') = Ok true.
Proof.
  intros QP Pr Ti. destruct (sforge_pts Q Ks QP Pr Ti) as (sz & Fa & H). exists sz. split; [exact Fa|]. intros ok a v A qs K b n [Ro Ri] Di Us As Sp HK En Of.
  apply (H ok a v A qs K b n); auto. intros s0 s0' z z' v0 v0' s s' a1 a1' f g _ _ _ _ _ Al. now apply (alike_pts f g).
Qed.

Theorem sforge_extract Q Ks : 0 <= Q -> Forall (proves Q) Ks -> Forall sends_framed Ks ->
  exists sz, fair sz Ks /\ forall ok a v A qs K b, readable -> (forall g, distinguished g) -> (forall s z, ok s z = true -> usual qs a s z) ->
  (forall s0 z v s a1, ok s0 z = true -> process_pre s0 (get_verifier s0) (n_pre z) a = Ok ((v, s), a1) -> noor s) ->
  oasks b v -> spread A qs K -> 0 <= K -> let n := (b + 2 + 2 * List.length Ks)%nat in often Q sz (List.length Ks) A K n (sforges ok a v Ks) ->
  exists ts s0 s0' z z' v1 v1' s s' a1 a1' f g w, two_sforgeries ok a v Ks ts A n s0 s0' z z' /\
    process_pre s0 (get_verifier s0) (n_pre z) a = Ok ((v1, s), a1) /\ process_pre s0' (get_verifier s0') (n_pre z') a = Ok ((v1', s'), a1') /\
    alike f g s s' /\ Extr w s (n_chal z) (n_chal z') (n_resp z) (n_resp z') /\ Sat w s /\ Sat (fun q n => w q (g n)) s'.
Proof.
  intros QP Pr Ti. destruct (sforge_readable Q Ks QP Pr Ti) as (sz & Fa & H). exists sz. split; [exact Fa|]. intros ok a v A qs K b Rd Di Us No As Sp HK n Of.
  destruct (H ok a v A qs K b n Rd Di (fun s z O => usual_tidy _ _ _ _ (Us s z O)) As Sp HK eq_refl Of) as
    (ts & s0 & s0' & z & z' & v1 & v1' & s & s' & a1 & a1' & com & f & g & T & Oz & _ & (y & y' & E & E' & Ap) & P & P' & Al & V & V').
  destruct (Us _ _ Oz) as (_ & Wf & Sa). destruct (Sa _ _ _ P) as [C O].
  destruct (soundness s0 (n_pre z) a v1 s a1 (env a1) com (n_chal z) (n_chal z') (n_resp z) (n_resp z') P Wf C (No _ _ _ _ _ Oz P)) as (w & Ex & St); auto.
  - eapply orders_impl; [|exact O]. intros q [Q1 Q2]. split; auto. rewrite E, E'. eapply apart_in; eauto.
  - exists ts, s0, s0', z, z', v1, v1', s, s', a1, a1', f, g, w. repeat (split; [assumption|]).
    eapply alike_Sat; eauto. apply Rd.
Qed.
Theorem sforge_false Q Ks : 0 <= Q -> Forall (proves Q) Ks -> Forall sends_framed Ks ->
  exists sz, fair sz Ks /\ forall ok a v A qs K b, readable -> (forall g, distinguished g) -> (forall s z, ok s z = true -> usual qs a s z) ->
  (forall s0 z v s a1, ok s0 z = true -> process_pre s0 (get_verifier s0) (n_pre z) a = Ok ((v, s), a1) -> noor s /\ forall w, ~ Sat w s) ->
  oasks b v -> spread A qs K -> 0 <= K -> ~ often Q sz (List.length Ks) A K (b + 2 + 2 * List.length Ks) (sforges ok a v Ks).
Proof.
  intros QP Pr Ti. destruct (sforge_extract Q Ks QP Pr Ti) as (sz & Fa & H). exists sz. split; [exact Fa|]. intros ok a v A qs K b Rd Di Us No As Sp HK Of.
  destruct (H ok a v A qs K b Rd Di Us (fun s0 z v s a1 O H => proj1 (No s0 z v s a1 O H)) As Sp HK Of) as
    (ts & s0 & s0' & z & z' & v1 & v1' & s & s' & a1 & a1' & f & g & w & (y & y' & msg & ms & ms' & m & m' & _ & _ & _ & _ & Oz & _) & P & _ & _ & _ & St & _).
  exact (proj2 (No _ _ _ _ _ Oz P) w St).
Qed.
Theorem sforge_sha Q Ks : 0 <= Q -> Forall (proves Q) Ks -> Forall sends_framed Ks ->
  exists sz, fair sz Ks /\ forall ok a v q b, readable -> (forall g, distinguished g) -> (forall s z, ok s z = true -> usual [q] a s z) -> 1 < q ->
  (forall s0 z v s a1, ok s0 z = true -> process_pre s0 (get_verifier s0) (n_pre z) a = Ok ((v, s), a1) -> noor s /\ forall w, ~ Sat w s) ->
  oasks b v -> let n := (b + 2 + 2 * List.length Ks)%nat in
  2 ^ 256 * Q * count (fun x => sforges ok a v Ks (map vec (fst x)) (snd x)) (list_prod (boxes sz) (tapes digests n)) <=
  (Q * Z.of_nat n * (2 ^ 256 / q + 1) + 2 ^ 256 * len Ks * Z.of_nat n) * (len (boxes sz) * (2 ^ 256) ^ Z.of_nat n).
Proof.
  intros QP Pr Ti. destruct (sforge_false Q Ks QP Pr Ti) as (sz & Fa & H). exists sz. split; [exact Fa|]. intros ok a v q b Rd Di Us Hq No As n.
  assert (E : len digests = 2 ^ 256).
  { unfold digests. rewrite strings_len. change (Z.of_nat 32) with 32. change 256 with (2 ^ 8) at 1. rewrite <- Z.pow_mul_r by lia. reflexivity. }
  assert (P : 256 ^ Z.of_nat 32 = 2 ^ 256) by reflexivity. assert (S := spread_digests 32 q Hq). change (strings 32) with digests in S. rewrite P in S.
  apply Z.nlt_ge. intros Lt. apply (H ok a v digests [q] (2 ^ 256 / q + 1) b Rd Di Us No As S).
  - assert (0 <= 2 ^ 256 / q) by (apply Z.div_pos; [apply Z.pow_nonneg|]; lia). lia.
  - unfold often. fold n. rewrite E. exact Lt.
Qed.
Theorem sforge_extract_or Q Ks : 0 <= Q -> Forall (proves Q) Ks -> Forall sends_framed Ks ->
  exists sz, fair sz Ks /\ forall ok a v A qs K b, readable -> (forall g, distinguished g) -> (forall s z, ok s z = true -> usual qs a s z) ->
  (forall q, In q qs -> 2 ^ 129 <= q) ->
  (forall s0 z v s a1, ok s0 z = true -> process_pre s0 (get_verifier s0) (n_pre z) a = Ok ((v, s), a1) -> canonical s (n_resp z)) ->
  oasks b v -> spread A (2 ^ 128 :: qs) K -> 0 <= K -> let n := (b + 2 + 2 * List.length Ks)%nat in often Q sz (List.length Ks) A K n (sforges ok a v Ks) ->
  exists ts s0 s0' z z' v1 v1' s s' a1 a1' f g w, two_sforgeries ok a v Ks ts A n s0 s0' z z' /\
    process_pre s0 (get_verifier s0) (n_pre z) a = Ok ((v1, s), a1) /\ process_pre s0' (get_verifier s0') (n_pre z') a = Ok ((v1', s'), a1') /\
    alike f g s s' /\ Extr w s (n_chal z) (n_chal z') (n_resp z) (n_resp z') /\ Sat w s /\ Sat (fun q n => w q (g n)) s'.
Proof.
  intros QP Pr Ti. destruct (sforge_readable Q Ks QP Pr Ti) as (sz & Fa & H). exists sz. split; [exact Fa|]. intros ok a v A qs K b Rd Di Us Big Ca As Sp HK n Of.
  destruct (H ok a v A (2 ^ 128 :: qs) K b n Rd Di (fun s z O => usual_tidy _ _ _ _ (Us s z O)) As Sp HK eq_refl Of) as
    (ts & s0 & s0' & z & z' & v1 & v1' & s & s' & a1 & a1' & com & f & g & T & Oz & Oz' & (y & y' & E & E' & Ap) & P & P' & Al & V & V').
  destruct (Us _ _ Oz) as (_ & Wf & Sa). destruct (Sa _ _ _ P) as [C O].
  destruct (or_soundness s0 (n_pre z) a v1 s a1 (env a1) com (n_chal z) (n_chal z') (n_resp z) (n_resp z') P Wf C) as (w & Ex & St); auto.
  - eapply orders_impl; [|exact O]. intros q [Q1 Q2]. split; auto. split; [|now apply Big]. rewrite E, E'. eapply apart_in; eauto. now right.
  - eapply Ca; eauto.
  - eapply (alike_canonical g f s'); [now apply alike_sym|]. eapply Ca; eauto.
  - rewrite E, E'. eapply apart_in; eauto. now left.
  - exists ts, s0, s0', z, z', v1, v1', s, s', a1, a1', f, g, w. repeat (split; [assumption|]).
    eapply alike_Sat; eauto. apply Rd.
Qed.
Theorem sforge_inequality Q Ks : 0 <= Q -> Forall (proves Q) Ks -> Forall sends_framed Ks ->
  exists sz, fair sz Ks /\ forall ok a v A q K b, readable -> (forall g, distinguished g) -> prime q ->
  (forall s0 z, ok s0 z = true -> tidy a s0 z /\ exists H0 g H1 h x al be bnd sim, s0 = mk_neq H0 g H1 h x al be bnd sim /\
     order (grp g) = q /\ grp h = grp g /\ g <> inf (grp g) /\ forall y, H0 = pmul y g -> H1 = pmul y h) ->
  oasks b v -> spread A [q] K -> 0 <= K -> ~ often Q sz (List.length Ks) A K (b + 2 + 2 * List.length Ks) (sforges ok a v Ks).
Proof.
  intros QP Pr Ti. destruct (sforge_readable Q Ks QP Pr Ti) as (sz & Fa & H). exists sz. split; [exact Fa|]. intros ok a v A q K b Rd Di Pq Us As Sp HK Of.
  destruct (H ok a v A [q] K b _ Rd Di (fun s z O => proj1 (Us s z O)) As Sp HK eq_refl Of) as
    (ts & s0 & s0' & z & z' & v1 & v1' & s & s' & a1 & a1' & com & f & g0 & T & Oz & Oz' & (y & y' & E & E' & Ap) & P & P' & Al & V & V').
  destruct (Us _ _ Oz) as ((_ & Sa) & H0 & g & H1 & h & x & al & be & bnd & sim & -> & Oq & Gh & Gi & Fl).
  assert (C := Sa _ _ _ P). rewrite <- Oq in *.
  destruct (neq_sound H0 g H1 h x al be bnd sim (n_pre z) a v1 s a1 (env a1) com (n_chal z) (n_chal z')
    (n_resp z) (n_resp z') P Pq Gh Gi C) as (w & k & _ & _ & _ & Y & N & _); auto.
  rewrite E, E'. apply (apart_in [order (grp g)]); auto. now left.
Qed.
Theorem sforge_power_range Q Ks : 0 <= Q -> Forall (proves Q) Ks -> Forall sends_framed Ks ->
  exists sz, fair sz Ks /\ forall ok g h k a v A K b, let q := order (grp g) in
  readable -> (forall g, distinguished g) -> prime q -> 2 ^ 129 <= q -> grp h = grp g ->
  (forall s0 z, ok s0 z = true -> tidy a s0 z /\
     (exists com isp x r rs sim, s0 = SExt (KRange com g h k isp x r rs) sim VNone None /\ List.length rs = k) /\
     (exists cs, getitem (n_pre z) (lit "Cs") = Ok (VList cs) /\ List.length cs = k) /\
     forall v s a1, process_pre s0 (get_verifier s0) (n_pre z) a = Ok ((v, s), a1) -> canonical s (n_resp z)) ->
  oasks b v -> spread A [2 ^ 128; q] K -> 0 <= K -> let n := (b + 2 + 2 * List.length Ks)%nat in often Q sz (List.length Ks) A K n (sforges ok a v Ks) ->
  exists ts s0 s0' z z' com isp x r rs sim u t, two_sforgeries ok a v Ks ts A n s0 s0' z z' /\
    s0 = SExt (KRange com g h k isp x r rs) sim VNone None /\
    opening q (n_pre z) (n_resp z) (n_resp z') k u t /\ 0 <= u < 2 ^ Z.of_nat k /\ com = padd (pmul u g) (pmul t h).
Proof.
  intros QP Pr Ti. destruct (sforge_readable Q Ks QP Pr Ti) as (sz & Fa & H). exists sz. split; [exact Fa|]. intros ok g h k a v A K b q Rd Di Pq Bq Gh Us As Sp HK n Of.
  destruct (H ok a v A [2 ^ 128; q] K b n Rd Di (fun s z O => proj1 (Us s z O)) As Sp HK eq_refl Of) as
    (ts & s0 & s0' & z & z' & v1 & v1' & s & s' & a1 & a1' & cm & f & g' & T & Oz & Oz' & (y & y' & E & E' & Ap) & P & P' & Al & V & V').
  destruct (Us _ _ Oz) as ((_ & Sa) & (com & isp & x & r & rs & sim & -> & Lr) & (cs & EC & LC) & Ca).
  destruct (Us _ _ Oz') as (_ & _ & _ & Ca').
  destruct (range_sound_from com g h k isp x r rs sim (n_pre z) a v1 s a1 (env a1) cm (n_chal z) (n_chal z') (n_resp z) (n_resp z') cs P) as (u & t & OP & R & EQ); auto.
  - rewrite E, E'. eapply apart_in; eauto. right. now left.
  - rewrite E, E'. eapply apart_in; eauto. now left.
  - exact (Sa _ _ _ P).
  - eapply Ca; eauto.
  - eapply (alike_canonical g' f s'); [now apply alike_sym|]. eapply Ca'; eauto.
  - exists ts. do 3 eexists. exists z', com, isp, x, r, rs, sim, u, t. split; [exact T|]. auto.
Qed.
Theorem sforge_signature Q Ks : 0 <= Q -> Forall (proves Q) Ks -> Forall sends_framed Ks ->
  exists sz, fair sz Ks /\ forall ok pk g0 g1 g2 gens a v A K b, let q := order (grp g0) in
  repr_ok -> (forall g, distinguished g) -> bbs_pk_ok pk -> pk_gens pk = g0 :: g1 :: g2 :: gens ->
  (forall G, pairs G (grp (pk_h0 pk)) <> None -> G = grp g0) -> prime q ->
  (forall s0 z, ok s0 z = true -> tidy a s0 z /\ exists sig es ss ms r1 r2 d1 d2 sim,
     s0 = SExt (KBBS pk sig (firstn (2 + List.length ms) (pk_gens pk)) (es :: ss :: ms) r1 r2 d1 d2) sim VNone None) ->
  (forall s0 s0' z z', ok s0 z = true -> ok s0' z' = true -> wire_alike (n_pre z) (n_pre z') -> n_pre z = n_pre z') ->
  oasks b v -> spread A [q] K -> 0 <= K -> let n := (b + 2 + 2 * List.length Ks)%nat in often Q sz (List.length Ks) A K n (sforges ok a v Ks) ->
  exists ts s0 s0' z z' v1 s a1 sig es ss ms r1 r2 d1 d2 sim w, two_sforgeries ok a v Ks ts A n s0 s0' z z' /\
    s0 = SExt (KBBS pk sig (firstn (2 + List.length ms) (pk_gens pk)) (es :: ss :: ms) r1 r2 d1 d2) sim VNone None /\
    process_pre s0 (get_verifier s0) (n_pre z) a = Ok ((v1, s), a1) /\
    Extr w s (n_chal z) (n_chal z') (n_resp z) (n_resp z') /\
    let x n := w q (sname n) in
    padd (pmul (x d1 - x es * x r1) g1) (pmul (x d2 - x es * x r2) g2) = inf (grp g0) /\
    (((q | x d1 - x es * x r1) /\ (q | x d2 - x es * x r2)) -> exists A2, getitem (n_pre z) (lit "A2") = Ok (VPt A2) /\
       bbs_valid pk (mkSig (padd A2 (pmul (- x r1) g2)) (x es) (x ss)) (x es) (x ss) (map x ms)).
Proof.
  intros QP Pr Ti. destruct (sforge_pts Q Ks QP Pr Ti) as (sz & Fa & H). exists sz. split; [exact Fa|]. intros ok pk g0 g1 g2 gens a v A K b q Ro Di PK Eg PG Pq Us Pl As Sp HK n Of.
  assert (Pt : forall s0 s0' z z' v v' s s' a1 a1' f g, ok s0 z = true -> ok s0' z' = true -> wire_alike (n_pre z) (n_pre z') ->
     process_pre s0 (get_verifier s0) (n_pre z) a = Ok ((v, s), a1) -> process_pre s0' (get_verifier s0') (n_pre z') a = Ok ((v', s'), a1') ->
     alike f g s s' -> pts s = pts s').
  { intros s0 s0' z z' v0 v0' s s' a1 a1' f g O O' Aw P P' Al. rewrite <- (Pl _ _ _ _ O O' Aw) in P'.
    destruct (Us _ _ O) as (_ & sig & es & ss & ms & r1 & r2 & d1 & d2 & sim & ->). destruct (Us _ _ O') as (_ & sig' & es' & ss' & ms' & r1' & r2' & d1' & d2' & sim' & ->).
    eapply bbs_pts; eauto. }
  destruct (H ok a v A [q] K b n Ro Di (fun s z O => proj1 (Us s z O)) Pt As Sp HK eq_refl Of) as
    (ts & s0 & s0' & z & z' & v1 & v1' & s & s' & a1 & a1' & cm & f & g' & T & Oz & Oz' & (y & y' & E & E' & Ap) & P & P' & Al & V & V').
  destruct (Us _ _ Oz) as ((_ & Sa) & sig & es & ss & ms & r1 & r2 & d1 & d2 & sim & ->).
  destruct (bbs_sound pk sig es ss ms r1 r2 d1 d2 sim (n_pre z) a v1 s a1 (env a1) cm (n_chal z) (n_chal z') (n_resp z) (n_resp z') g0 g1 g2 gens PK Eg PG P Pq (Sa _ _ _ P)) as (w & X & R1 & R2); auto.
  { rewrite E, E'. apply (apart_in [q]); auto. now left. }
  exists ts. do 2 eexists. exists z, z', v1, s, a1, sig, es, ss, ms, r1, r2, d1, d2, sim, w. split; [exact T|]. auto.
Qed.
End O.

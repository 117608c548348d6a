(** Property C93, compositions with user-defined primitives chosen by the prover. *)
From Coq Require Import String Znumtheory Lia.
From Verif Require Import Base World Val Expr Utils Stmt Prove Verify Spec Shapes Claims Clauses Honest Supply Extract Ident Alike Lib Custom Mixed MixedOr Nested Oracle OracleTree
  Forking OracleProofs OracleTreeProofs Chosen ChosenTree ChosenTreeProofs Sound ZqWorld ZqFacts Ex ExTree Proth PropSound PropCustom PropMixed PropMixedOr PropNested PropWire PropId
  PropOracle PropOraclePrim PropOracleTree.
Open Scope Z_scope.
Open Scope list_scope.

(** C90 for provers that choose the composition too, classes included, after as many questions as they like: the equations of the
    composition handed over are met by numbers computed from the answers; for an object of a class, the statement that its construct_stmt
    makes of the precommitment, and validate raised nothing. *)
Theorem C93_user_extract : forall (W : World) ok a adv A qs K Q, readable -> (forall g, distinguished g) -> tusual ok qs a ->
  (forall t z v s a1, reached (ok t) t a z v s a1 -> noor s) ->
  asks Q adv -> spread A qs K -> 0 <= K ->
  Z.of_nat (Q + 2) * K * len A ^ Z.of_nat (Q + 2) < len A * count (tcwon ok a adv) (tapes A (Q + 2)) ->
  exists t t' z z' v s a1 w, ttwo_choices ok a adv A (Q + 2) t t' z z' /\ reached (ok t) t a z v s a1 /\
    Extr w s (n_chal z) (n_chal z') (n_resp z) (n_resp z') /\ tholds w t (n_pre z) s (n_chal z) (n_chal z') (n_resp z) (n_resp z').
Proof. exact @tchosen_extract. Qed.
Print Assumptions C93_user_extract.
(** The probability of an accepted proof of a composition that does not hold *)
Theorem C93_user_false : forall (W : World) ok a adv A qs K Q, readable -> (forall g, distinguished g) -> tusual ok qs a ->
  (forall t z v s a1, reached (ok t) t a z v s a1 -> noor s /\ forall w c c' r r', tholds w t (n_pre z) s c c' r r' -> ~ Sat w s) ->
  asks Q adv -> spread A qs K -> 0 <= K ->
  len A * count (tcwon ok a adv) (tapes A (Q + 2)) <= Z.of_nat (Q + 2) * K * len A ^ Z.of_nat (Q + 2).
Proof. exact @tchosen_false. Qed.
Print Assumptions C93_user_false.
(** With disjunctions. Partial: only answers with parts of the challenge below 2^128, in groups of at least 2^129 elements (C11). *)
Theorem C93_user_extract_or_partial : forall (W : World) ok a adv A qs K Q, readable -> (forall g, distinguished g) -> tusual ok qs a -> (forall q, In q qs -> 2 ^ 129 <= q) ->
  (forall t z v s a1, reached (ok t) t a z v s a1 -> canonical s (n_resp z)) ->
  asks Q adv -> spread A (2 ^ 128 :: qs) K -> 0 <= K ->
  Z.of_nat (Q + 2) * K * len A ^ Z.of_nat (Q + 2) < len A * count (tcwon ok a adv) (tapes A (Q + 2)) ->
  exists t t' z z' v s a1 w, ttwo_choices ok a adv A (Q + 2) t t' z z' /\ reached (ok t) t a z v s a1 /\
    Extr w s (n_chal z) (n_chal z') (n_resp z) (n_resp z') /\ tholds w t (n_pre z) s (n_chal z) (n_chal z') (n_resp z) (n_resp z').
Proof. exact @tchosen_extract_or. Qed.
Print Assumptions C93_user_extract_or_partial.

(** ** Examples *)
(** Who needs only [u] answers to succeed always, succeeds with all longer lists of answers. *)
Lemma tcwon_all {W : World} ok a adv A u k n : n = (u + k)%nat -> forallb (tcwon ok a adv) (tapes A u) = true -> count (tcwon ok a adv) (tapes A n) = len A ^ Z.of_nat n.
Proof.
  intros -> H. rewrite <- Forking.tapes_len. rewrite forallb_forall in H.
  assert (X : forall t, In t (tapes A (u + k)) -> tcwon ok a adv t = true).
  { intros t I. apply Forking.tapes_in in I as [L F]. rewrite <- (firstn_skipn u t) in F |- *. apply Forall_app in F as [F _].
    assert (Y : tcwon ok a adv (firstn u t) = true) by (apply H, Forking.tapes_in; split; [rewrite firstn_length; lia|exact F]).
    unfold tcwon in *. destruct (sample (tcgame a adv) [] (firstn u t)) as [[r m]|] eqn:E; [|discriminate]. now rewrite (OracleProofs.sample_more _ _ _ _ _ _ E). }
  induction (tapes A (u + k)) as [|t T I]; [reflexivity|]. unfold count, len in *. cbn [filter List.length]. rewrite X by now left. cbn [List.length].
  rewrite !Nat2Z.inj_succ. f_equal. apply I. intros t' I'. apply X. now right.
Qed.
Definition is_list (v : @val Zq) : bool := match v with VList _ => true | _ => false end.
Definition opt_eqb (x y : option Z) : bool := match x, y with Some x, Some y => x =? y | None, None => true | _, _ => false end.
Definition coh_b (e : nat -> option Z) (l : list secret) : bool :=
  forallb (fun p => forallb (fun q => implb (bytes_eqb (sname p) (sname q)) (opt_eqb (e (sid p)) (e (sid q)))) l) l.
Lemma coh_b_ok e l : coh_b e l = true -> coh e l.
Proof.
  intros H p q Ip Iq E. unfold coh_b in H. rewrite forallb_forall in H. specialize (H p Ip). rewrite forallb_forall in H. specialize (H q Iq).
  assert (B : bytes_eqb (sname p) (sname q) = true) by (now apply bytes_eqb_eq). rewrite B in H. cbn [implb] in H. destruct (e (sid p)), (e (sid q)); try discriminate; auto. apply Z.eqb_eq in H. now subst.
Qed.
(** Any composition, with any classes, that leads to a conjunction in groups of 101 elements *)
Fixpoint small_b (s : @stmt Zq) : bool :=
  match s with
  | SDL d => Nat.eqb (List.length (dl_secs d)) (List.length (dl_bases d)) && (order (grp (dl_lhs d)) =? 101)
  | SAnd l _ => forallb small_b l
  | SExt _ _ _ (Some c) => small_b c
  | _ => false
  end.
Lemma small_ok s : small_b s = true -> wfs s /\ noor s /\ orders_in (fun q => prime q /\ In q [101]) s.
Proof.
  induction s as [d|l b IH|l b c IH|k b p|k b p c IH] using stmt_ind'; intros H; try discriminate; cbn [small_b] in H.
  - apply andb_true_iff in H as [E1 E2]. apply Nat.eqb_eq in E1. apply Z.eqb_eq in E2. split; [now constructor|]. split; [constructor|].
    constructor. rewrite E2. split; [exact prime101|now left].
  - rewrite forallb_forall in H. assert (F : Forall (fun s => wfs s /\ noor s /\ orders_in (fun q => prime q /\ In q [101]) s) l).
    { rewrite Forall_forall in *. intros x Ix. apply IH; auto. }
    split; [|split]; constructor; eapply Forall_impl; [|exact F| |exact F| |exact F]; cbv beta; tauto.
  - apply IH in H as (A & B & C). split; [|split]; constructor; assumption.
Qed.
Definition okT (good : @stmt Zq -> bool) (t : @mtree Zq) (z : @nizk Zq) : bool :=
  is_list (n_pre z) && match tproc t (n_pre z) st0 with Ok ((_, s), a1) => small_b s && good s && coh_b (env a1) (svars s) | Err _ => false end.
Lemma okT_reached good t z v s a1 : reached (okT good t) t st0 z v s a1 -> small_b s = true /\ good s = true /\ coh (env a1) (svars s).
Proof.
  intros (O & P & _). unfold okT in O. apply andb_true_iff in O as [_ O]. rewrite P in O. rewrite !andb_true_iff in O. destruct O as [[A B] C].
  split; [exact A|]. split; [exact B|]. now apply coh_b_ok.
Qed.
Lemma okT_usual good : tusual (okT good) [101] st0.
Proof.
  intros t. split.
  - intros z v s a1 R. apply okT_reached in R as (A & _ & C). apply small_ok in A as (A & _ & B). auto.
  - intros z H. unfold okT in H. apply andb_true_iff in H as [H _]. destruct (n_pre z); try discriminate; exact Logic.I.
Qed.
(** The composition of C90; the names in the composition handed over depend on the challenge. *)
Definition ct' : @mtree Zq := TA [TK (exCom sy stx) false; TS (oD sx)] false.
Definition advCt : prog (@mtree Zq * @nizk Zq * bytes) :=
  pbind (tprover_of ct [(sx, 4); (su, 41)] st0) (fun r => Ret (if Z.even (n_chal (fst r)) then ct else ct', fst r, snd r)).
Example C93_ex_user_extract :
  @readable Zq /\ tusual (okT (fun _ => true)) [101] st0 /\ (forall t z v s a1, reached (okT (fun _ => true) t) t st0 z v s a1 -> noor s) /\
  asks 2 advCt /\ spread five [101] 1 /\
  Z.of_nat (2 + 2) * 1 * len five ^ Z.of_nat (2 + 2) < len five * count (tcwon (okT (fun _ => true)) st0 advCt) (tapes five (2 + 2)).
Proof.
  split; [exact C16_ex_world|]. split; [apply okT_usual|].
  split; [intros t z v s a1 R; apply okT_reached in R as (A & _); now apply small_ok in A as (_ & A & _)|].
  split; [unfold advCt; apply (asks_pbind _ _ 0) with (n := 2%nat); [intros; exact Logic.I|apply tprover_asks]|].
  split; [apply spread_five; vm_compute; reflexivity|rewrite (tcwon_all _ _ _ _ 2 2); [reflexivity|reflexivity|vm_compute; reflexivity]].
Qed.
(** Compositions that lead to 12 = x*3, made by a class, and L = x*3 with L = 15 or L = 18. The prover hopes for the challenge 9. *)
Definition contra (s : @stmt Zq) : bool :=
  match s with
  | SAnd [SExt _ _ _ (Some (SDL d)); SDL d'] _ =>
      match dl_bases d, dl_bases d', dl_secs d, dl_secs d' with
      | [b], [b'], [x], [x'] => pt_eqb b (Pt 3) && pt_eqb b' (Pt 3) && bytes_eqb (sname x) (sname x') &&
          pt_eqb (dl_lhs d) (Pt 12) && existsb (pt_eqb (dl_lhs d')) [Pt 15; Pt 18]
      | _, _, _, _ => false
      end
  | _ => false
  end.
Lemma contra_false s w : contra s = true -> ~ Sat w s.
Proof.
  intros H S. destruct s as [?|l f|? ? ?|? ? ? ?]; try discriminate. destruct l as [|[?|? ?|? ? ?|k f1 p [[d|? ?|? ? ?|? ? ? ?]|]] [|[d'|? ?|? ? ?|? ? ? ?] [|? ?]]]; try discriminate.
  cbn [contra] in H.
  destruct (dl_bases d) as [|b [|? ?]] eqn:Eb; try discriminate. destruct (dl_bases d') as [|b' [|? ?]] eqn:Eb'; try discriminate.
  destruct (dl_secs d) as [|x [|? ?]] eqn:Es; try discriminate. destruct (dl_secs d') as [|x' [|? ?]] eqn:Es'; try discriminate.
  rewrite !andb_true_iff in H. destruct H as [[[[H1 H2] H3] H4] H5]. apply pt_eqb_spec in H1, H2, H4. apply bytes_eqb_eq in H3. subst b b'.
  apply existsb_exists in H5 as (y & Iy & E). apply pt_eqb_spec in E. subst y.
  inversion S as [|subs b0 F| |]; subst. inversion F as [|y1 l1 S1 F1]; subst. inversion F1 as [|y2 l2 S2 F2]; subst. clear S F F1 F2.
  inversion S1 as [| | |? ? ? ? S3]; subst. inversion S3 as [? _ D1| | |]; subst. inversion S2 as [? _ D2| | |]; subst. clear S1 S2 S3.
  unfold dl_holds in D1, D2. rewrite Eb, Es, H4 in D1. rewrite Eb', Es' in D2. cbn [map] in D1, D2. rewrite <- H3 in D2.
  destruct Iy as [E|[E|[]]]; rewrite <- E in D2.
  - change (order (grp (Pt 15))) with 101 in D2. change (order (grp (Pt 12))) with 101 in D1.
    change (grp (Pt 15)) with (grp (Pt 12)) in D2. rewrite <- D1 in D2. apply (f_equal zv) in D2. vm_compute in D2. discriminate D2.
  - change (order (grp (Pt 18))) with 101 in D2. change (order (grp (Pt 12))) with 101 in D1.
    change (grp (Pt 18)) with (grp (Pt 12)) in D2. rewrite <- D1 in D2. apply (f_equal zv) in D2. vm_compute in D2. discriminate D2.
Qed.
Definition ft' (l : Z) : @mtree Zq := TA [TK exPt12 false; TS (SDL (mkDL (Pt l) [Pt 3] [sx] [] false))] false.
Definition advF : prog (@mtree Zq * @nizk Zq * bytes) :=
  Ask (lit "which?") (fun y =>
    let t := ft' (if be_int y =? 1 then 15 else 18) in
    let pre := VList [VList []; VNone] in let z d := mkNizk 9 (VList [VList [VInt 20]; VList [VInt 20]]) pre d in
    match tproc t pre st0 with
    | Ok ((_, s1), _) => match prehash_input s1 with Ok h => Ask h (fun y => Ret (t, z (VBytes y), lit "m")) | Err _ => Ret (t, z VNone, []) end
    | Err _ => Ret (t, z VNone, [])
    end).
Example C93_ex_user_false :
  tusual (okT contra) [101] st0 /\
  (forall t z v s a1, reached (okT contra t) t st0 z v s a1 -> noor s /\ forall w c c' r r', tholds w t (n_pre z) s c c' r r' -> ~ Sat w s) /\
  asks 2 advF /\ map (tcwon (okT contra) st0 advF) [[[byte_of 1]; lit "digest"; [byte_of 9]; []]; [[byte_of 2]; lit "digest"; [byte_of 9]; []];
    [[byte_of 2]; lit "digest"; [byte_of 8]; []]] = [true; true; false].
Proof.
  split; [apply okT_usual|]. split; [|split; [|vm_compute; reflexivity]].
  - intros t z v s a1 R. apply okT_reached in R as (A & B & _). apply small_ok in A as (_ & A & _). split; auto. intros w c c' r r' _. now apply contra_false.
  - intros y. cbv zeta. match goal with |- context [tproc ?t ?p ?a] => destruct (tproc t p a) as [[[v1 s1] a1]|] end; [|exact Logic.I].
    destruct (prehash_input s1); [|exact Logic.I]. intros y'. exact Logic.I.
Qed.
(** Disjunctions of two representations in the group of 5*2^127+1 elements, made by classes or not; answers with two small sub-challenges *)
Definition or_b (s : @stmt Zq) : bool :=
  let leaf x := match x with SDL d | SExt _ _ _ (Some (SDL d)) => Nat.eqb (List.length (dl_secs d)) (List.length (dl_bases d)) && (order (grp (dl_lhs d)) =? bigp) | _ => false end in
  match s with SOr [x; y] _ _ => leaf x && leaf y | _ => false end.
Definition okO (t : @mtree Zq) (z : @nizk Zq) : bool :=
  is_list (n_pre z) && bit_resp (n_resp z) &&
  match tproc t (n_pre z) st0 with Ok ((_, s), a1) => or_b s && coh_b (env a1) (svars s) | Err _ => false end.
Lemma okO_reached t z v s a1 : reached (okO t) t st0 z v s a1 -> or_b s = true /\ coh (env a1) (svars s) /\ bit_resp (n_resp z) = true.
Proof.
  intros (O & P & _). unfold okO in O. rewrite P in O. rewrite !andb_true_iff in O. destruct O as [[_ B] [A C]]. apply coh_b_ok in C. auto.
Qed.
Definition leafy (s : @stmt Zq) : Prop := exists d, (s = SDL d \/ exists k b p, s = SExt k b p (Some (SDL d))) /\
  List.length (dl_secs d) = List.length (dl_bases d) /\ order (grp (dl_lhs d)) = bigp.
Lemma or_b_inv s : or_b s = true -> exists x y b c, s = SOr [x; y] b c /\ leafy x /\ leafy y.
Proof.
  unfold or_b. destruct s as [?|? ?|l b c|? ? ? ?]; try discriminate. destruct l as [|x [|y [|? ?]]]; try discriminate. intros H. apply andb_true_iff in H as [H1 H2].
  exists x, y, b, c. split; [reflexivity|].
  assert (G : forall x : @stmt Zq, match x with SDL d | SExt _ _ _ (Some (SDL d)) => Nat.eqb (List.length (dl_secs d)) (List.length (dl_bases d)) && (order (grp (dl_lhs d)) =? bigp) | _ => false end = true -> leafy x).
  { clear. intros x H. destruct x as [d|? ?|? ? ?|k b p [[d|? ?|? ? ?|? ? ? ?]|]]; try discriminate; apply andb_true_iff in H as [E1 E2]; apply Nat.eqb_eq in E1; apply Z.eqb_eq in E2; exists d; eauto 10. }
  auto.
Qed.
Definition ot' : @mtree Zq := TO [TK exSev false; TS (SDL (mkDL (Bp 7) [Bp 5] [su] [] false))] false.
Definition advO : prog (@mtree Zq * @nizk Zq * bytes) :=
  pbind (tprover_of ot [(sx, 4)] st0) (fun r => Ret (if Z.even (n_chal (fst r)) then ot else ot', fst r, snd r)).
Example C93_ex_user_or :
  tusual okO [bigp] st0 /\ (forall q, In q [bigp] -> 2 ^ 129 <= q) /\ (forall t z v s a1, reached (okO t) t st0 z v s a1 -> canonical s (n_resp z)) /\
  asks 2 advO /\ spread five [2 ^ 128; bigp] 1 /\
  Z.of_nat (2 + 2) * 1 * len five ^ Z.of_nat (2 + 2) < len five * count (tcwon okO st0 advO) (tapes five (2 + 2)).
Proof.
  split.
  { intros t. split.
    - intros z v s a1 R. apply okO_reached in R as (A & C & _). apply or_b_inv in A as (x & y & b & c & -> & (d & Dx & L1 & O1) & (d' & Dy & L2 & O2)).
      assert (Q : prime bigp /\ In bigp [bigp]) by (split; [exact prime_bigp|now left]).
      split; [|split; [exact C|]].
      + constructor. repeat apply Forall_cons; [| |apply Forall_nil]; [destruct Dx as [->|(? & ? & ? & ->)]|destruct Dy as [->|(? & ? & ? & ->)]]; repeat constructor; assumption.
      + apply OiOr. repeat apply Forall_cons; [| |apply Forall_nil]; [destruct Dx as [->|(? & ? & ? & ->)]|destruct Dy as [->|(? & ? & ? & ->)]];
          try apply OiExt; apply OiDL; rewrite ?O1, ?O2; exact Q.
    - intros z H. unfold okO in H. rewrite !andb_true_iff in H. destruct H as [[H _] _]. destruct (n_pre z); try discriminate; exact Logic.I. }
  split; [intros q [<-|[]]; exact bigp_size|].
  split.
  { intros t z v s a1 R. apply okO_reached in R as (A & _ & H). apply or_b_inv in A as (x & y & b & cc & -> & (d & Dx & _) & (d' & Dy & _)).
    destruct (n_resp z) as [| | | | | |[|[| | | | |[|[|c| | | | | |] [|[|c'| | | | | |] [|]]]| |] [|rs [|]]]|]; try discriminate H.
    cbn in H. apply andb_prop in H as [E1 E2]. apply Z.ltb_lt in E1, E2.
    eapply (CaOr _ _ _ _ [c; c']); [left; reflexivity|reflexivity|repeat constructor; assumption|].
    intros [|[|j]] u w Y _; [injection Y as <-; destruct Dx as [->|(? & ? & ? & ->)]; repeat constructor|injection Y as <-; destruct Dy as [->|(? & ? & ? & ->)]; repeat constructor|destruct j; discriminate]. }
  split; [unfold advO; apply (asks_pbind _ _ 0) with (n := 2%nat); [intros; exact Logic.I|apply tprover_asks]|].
  split; [apply spread_five; vm_compute; reflexivity|rewrite (tcwon_all _ _ _ _ 2 2); [reflexivity|reflexivity|vm_compute; reflexivity]].
Qed.

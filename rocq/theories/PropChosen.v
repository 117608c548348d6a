(** Property C93: non-interactive proofs in the random oracle model, when the prover chooses the statement. *)
From Coq Require Import String Znumtheory.
From Verif Require PropPrim.
From Verif Require Import Base World Val Expr Utils Stmt Prove Verify Spec Shapes Claims Extract Ident Alike Cheat Oracle Forking OracleProofs
  Bbs RangeC RangeS RangeS2 Opening History Chosen ChosenProofs ZqWorld ZqFacts Ex ExTree Proth Sound2 PropSound PropCheat PropWire PropId PropOracle PropOraclePrim.
Open Scope Z_scope.
Open Scope list_scope.

(** The prover chooses statement, message and proof, after as many questions as they like. Whoever has more than (Q+2)*K of N
    answers right has shown two proofs from which numbers are computed that satisfy the chosen statements; these are alike: equal up
    to the names of the secrets, which [g] translates. *)
Theorem C93_extract : forall (W : World) ok a adv A qs K Q, readable -> (forall g, distinguished g) -> (forall s z, ok s z = true -> usual qs a s z) ->
  (forall s0 z v s a1, ok s0 z = true -> process_pre s0 (get_verifier s0) (n_pre z) a = Ok ((v, s), a1) -> noor s) ->
  asks Q adv -> spread A qs K -> 0 <= K ->
  Z.of_nat (Q + 2) * K * len A ^ Z.of_nat (Q + 2) < len A * count (cwon ok a adv) (tapes A (Q + 2)) ->
  exists s0 s0' z z' v v' s s' a1 a1' f g w, two_choices ok a adv A (Q + 2) s0 s0' z z' /\
    process_pre s0 (get_verifier s0) (n_pre z) a = Ok ((v, s), a1) /\ process_pre s0' (get_verifier s0') (n_pre z') a = Ok ((v', s'), a1') /\
    alike f g s s' /\ Extr w s (n_chal z) (n_chal z') (n_resp z) (n_resp z') /\ Sat w s /\ Sat (fun q n => w q (g n)) s'.
Proof. exact @chosen_extract. Qed.
Print Assumptions C93_extract.
(** False statements of any kind (the condition [ok] implies that no numbers satisfy the statement): the probability that the prover
    finds one with an accepted proof is at most (Q+2)*K/N, *)
Theorem C93_false_statement : forall (W : World) ok a adv A qs K Q, readable -> (forall g, distinguished g) -> (forall s z, ok s z = true -> usual qs a s z) ->
  (forall s0 z v s a1, ok s0 z = true -> process_pre s0 (get_verifier s0) (n_pre z) a = Ok ((v, s), a1) -> noor s /\ forall w, ~ Sat w s) ->
  asks Q adv -> spread A qs K -> 0 <= K ->
  len A * count (cwon ok a adv) (tapes A (Q + 2)) <= Z.of_nat (Q + 2) * K * len A ^ Z.of_nat (Q + 2).
Proof. exact @chosen_false. Qed.
Print Assumptions C93_false_statement.
(** which for all digests of 32 bytes, in groups of order q, is (Q+2) * (1/q + 1/2^256) at most. *)
Theorem C93_sha256 : forall (W : World) ok a adv q Q, readable -> (forall g, distinguished g) -> (forall s z, ok s z = true -> usual [q] a s z) -> 1 < q ->
  (forall s0 z v s a1, ok s0 z = true -> process_pre s0 (get_verifier s0) (n_pre z) a = Ok ((v, s), a1) -> noor s /\ forall w, ~ Sat w s) ->
  asks Q adv ->
  2 ^ 256 * count (cwon ok a adv) (tapes digests (Q + 2)) <= Z.of_nat (Q + 2) * (2 ^ 256 / q + 1) * (2 ^ 256) ^ Z.of_nat (Q + 2).
Proof. exact @chosen_sha. Qed.
Print Assumptions C93_sha256.
(** Inequalities of equal logarithms, with points and bases chosen by the prover *)
Theorem C93_inequality : forall (W : World) ok a adv A q K Q, readable -> (forall g, distinguished g) -> prime q ->
  (forall s0 z, ok s0 z = true -> tidy a s0 z /\ exists H0 g H1 h x al be bnd sim, s0 = mk_neq H0 g H1 h x al be bnd sim /\
     order (grp g) = q /\ grp h = grp g /\ g <> inf (grp g) /\ forall y, H0 = pmul y g -> H1 = pmul y h) ->
  asks Q adv -> spread A [q] K -> 0 <= K ->
  len A * count (cwon ok a adv) (tapes A (Q + 2)) <= Z.of_nat (Q + 2) * K * len A ^ Z.of_nat (Q + 2).
Proof. exact @chosen_inequality. Qed.
Print Assumptions C93_inequality.
(** Disjunctions, if the verifier also looked at the sub-challenges (without this the claim is false: C11_nizk_forgery_refuted). *)
Theorem C93_extract_or_partial : forall (W : World) ok a adv A qs K Q, readable -> (forall g, distinguished g) -> (forall s z, ok s z = true -> usual qs a s z) ->
  (forall q, In q qs -> 2 ^ 129 <= q) ->
  (forall s0 z v s a1, ok s0 z = true -> process_pre s0 (get_verifier s0) (n_pre z) a = Ok ((v, s), a1) -> canonical s (n_resp z)) ->
  asks Q adv -> spread A (2 ^ 128 :: qs) K -> 0 <= K ->
  Z.of_nat (Q + 2) * K * len A ^ Z.of_nat (Q + 2) < len A * count (cwon ok a adv) (tapes A (Q + 2)) ->
  exists s0 s0' z z' v v' s s' a1 a1' f g w, two_choices ok a adv A (Q + 2) s0 s0' z z' /\
    process_pre s0 (get_verifier s0) (n_pre z) a = Ok ((v, s), a1) /\ process_pre s0' (get_verifier s0') (n_pre z') a = Ok ((v', s'), a1') /\
    alike f g s s' /\ Extr w s (n_chal z) (n_chal z') (n_resp z) (n_resp z') /\ Sat w s /\ Sat (fun q n => w q (g n)) s'.
Proof. exact @chosen_extract_or. Qed.
Print Assumptions C93_extract_or_partial.
(** Power-of-two ranges for a commitment chosen by the prover, if the verifier also looked at the sub-challenges and the number of bit
    commitments (false otherwise: C30): an opening of the commitment with a value in the range is computed from the answers. *)
Theorem C93_power_range_partial : forall (W : World) ok g h n a adv A K Q, let q := order (grp g) in
  readable -> (forall g, distinguished g) -> prime q -> 2 ^ 129 <= q -> grp h = grp g ->
  (forall s0 z, ok s0 z = true -> tidy a s0 z /\
     (exists com isp x r rs sim, s0 = SExt (KRange com g h n isp x r rs) sim VNone None /\ List.length rs = n) /\
     (exists cs, getitem (n_pre z) (lit "Cs") = Ok (VList cs) /\ List.length cs = n) /\
     forall v s a1, process_pre s0 (get_verifier s0) (n_pre z) a = Ok ((v, s), a1) -> canonical s (n_resp z)) ->
  asks Q adv -> spread A [2 ^ 128; q] K -> 0 <= K ->
  Z.of_nat (Q + 2) * K * len A ^ Z.of_nat (Q + 2) < len A * count (cwon ok a adv) (tapes A (Q + 2)) ->
  exists s0 s0' z z' com isp x r rs sim u t, two_choices ok a adv A (Q + 2) s0 s0' z z' /\
    s0 = SExt (KRange com g h n isp x r rs) sim VNone None /\
    opening q (n_pre z) (n_resp z) (n_resp z') n u t /\ 0 <= u < 2 ^ Z.of_nat n /\ com = padd (pmul u g) (pmul t h).
Proof. exact @chosen_power_range. Qed.
Print Assumptions C93_power_range_partial.

(** Signatures under the issuer's key, on messages chosen by the prover, of any number and with any equalities between them: numbers are
    computed from the answers that are a signature on the messages, or a relation between two generators of the key. Points of pairing groups
    are printed as numbers of 64 bits (pairings.py:119-120): here different points may be printed in the same way. *)
Theorem C93_signature : forall (W : World) ok pk g0 g1 g2 gens a adv A K Q, let q := order (grp g0) in
  repr_ok -> (forall g, distinguished g) -> bbs_pk_ok pk -> pk_gens pk = g0 :: g1 :: g2 :: gens ->
  (forall G, pairs G (grp (pk_h0 pk)) <> None -> G = grp g0) -> prime q ->
  (forall s0 z, ok s0 z = true -> tidy a s0 z /\ exists sig es ss ms r1 r2 d1 d2 sim,
     s0 = SExt (KBBS pk sig (firstn (2 + List.length ms) (pk_gens pk)) (es :: ss :: ms) r1 r2 d1 d2) sim VNone None) ->
  (forall s0 s0' z z', ok s0 z = true -> ok s0' z' = true -> wire_alike (n_pre z) (n_pre z') -> n_pre z = n_pre z') ->
  asks Q adv -> spread A [q] K -> 0 <= K ->
  Z.of_nat (Q + 2) * K * len A ^ Z.of_nat (Q + 2) < len A * count (cwon ok a adv) (tapes A (Q + 2)) ->
  exists s0 s0' z z' v s a1 sig es ss ms r1 r2 d1 d2 sim w, two_choices ok a adv A (Q + 2) s0 s0' z z' /\
    s0 = SExt (KBBS pk sig (firstn (2 + List.length ms) (pk_gens pk)) (es :: ss :: ms) r1 r2 d1 d2) sim VNone None /\
    process_pre s0 (get_verifier s0) (n_pre z) a = Ok ((v, s), a1) /\
    Extr w s (n_chal z) (n_chal z') (n_resp z) (n_resp z') /\
    let x n := w q (sname n) in
    padd (pmul (x d1 - x es * x r1) g1) (pmul (x d2 - x es * x r2) g2) = inf (grp g0) /\
    (((q | x d1 - x es * x r1) /\ (q | x d2 - x es * x r2)) -> exists A2, getitem (n_pre z) (lit "A2") = Ok (VPt A2) /\
       bbs_valid pk (mkSig (padd A2 (pmul (- x r1) g2)) (x es) (x ss)) (x es) (x ss) (map x ms)).
Proof. exact @chosen_signature. Qed.
Print Assumptions C93_signature.

(** ** Examples *)
(** Who needs only [u] answers to succeed always, succeeds with all longer lists of answers. *)
Lemma cwon_all {W : World} ok a adv A u k n : n = (u + k)%nat -> forallb (cwon ok a adv) (tapes A u) = true -> count (cwon ok a adv) (tapes A n) = len A ^ Z.of_nat n.
Proof.
  intros -> H. rewrite <- tapes_len. rewrite forallb_forall in H.
  assert (X : forall t, In t (tapes A (u + k)) -> cwon ok a adv t = true).
  { intros t I. apply tapes_in in I as [L F]. rewrite <- (firstn_skipn u t) in F |- *. apply Forall_app in F as [F _].
    assert (Y : cwon ok a adv (firstn u t) = true) by (apply H, tapes_in; split; [rewrite firstn_length; lia|exact F]).
    unfold cwon in *. destruct (sample (cgame a adv) [] (firstn u t)) as [[r m]|] eqn:E; [|discriminate]. now rewrite (sample_more _ _ _ _ _ _ E). }
  induction (tapes A (u + k)) as [|t T I]; [reflexivity|]. unfold count, len in *. cbn [filter List.length]. rewrite X by now left. cbn [List.length].
  rewrite !Nat2Z.inj_succ. f_equal. apply I. intros t' I'. apply X. now right.
Qed.
Lemma Zq_readable : @readable Zq.
Proof. exact C16_ex_world. Qed.

(** False statements x*3 = 12 and x*5 = L with L = 7 or L = 8, in the group of 5*2^127+1 elements. The prover lets the first answer
    choose L, and hopes for the challenge 9. *)
Definition exL (l : Z) := SAnd [SDL (mkDL (Bp 12) [Bp 3] [sx] [] false); SDL (mkDL (Bp l) [Bp 5] [sx] [] false)] false.
Definition okL (s : @stmt Zq) (z : @nizk Zq) : bool :=
  is_none (n_pre z) &&
  match s with
  | SAnd [SDL d; SDL d'] _ =>
      match dl_bases d, dl_bases d', dl_secs d, dl_secs d' with
      | [b], [b'], [x], [x'] => pt_eqb b (Bp 3) && pt_eqb b' (Bp 5) && bytes_eqb (sname x) (sname x') &&
          pt_eqb (dl_lhs d) (Bp 12) && existsb (pt_eqb (dl_lhs d')) [Bp 7; Bp 8]
      | _, _, _, _ => false
      end
  | _ => false
  end.
Definition advL : prog (@stmt Zq * @nizk Zq * bytes) :=
  Ask (lit "which?") (fun y =>
    let s := exL (if be_int y =? 1 then 7 else 8) in
    match prehash_input s with
    | Ok h => Ask h (fun y => Ret (s, mkNizk 9 (exCr 9) VNone (VBytes y), lit "m"))
    | Err _ => Ret (s, mkNizk 9 (exCr 9) VNone VNone, lit "m")
    end).
Lemma okL_inv s z : okL s z = true -> n_pre z = VNone /\ exists d d' b x x' l, s = SAnd [SDL d; SDL d'] b /\ dl_bases d = [Bp 3] /\ dl_bases d' = [Bp 5] /\
  dl_secs d = [x] /\ dl_secs d' = [x'] /\ sname x = sname x' /\ dl_lhs d = Bp 12 /\ dl_lhs d' = Bp l /\ (l = 7 \/ l = 8).
Proof.
  unfold okL. intros H. apply andb_true_iff in H as [N H]. split; [destruct (n_pre z); try discriminate; reflexivity|].
  destruct s as [d|[|[d|? ?|? ? ?|? ? ? ?] [|[d'|? ?|? ? ?|? ? ? ?] [|? ?]]] b|? ? ?|? ? ? ?]; try discriminate.
  destruct (dl_bases d) as [|p [|? ?]] eqn:Eb; try discriminate. destruct (dl_bases d') as [|p' [|? ?]] eqn:Eb'; try discriminate.
  destruct (dl_secs d) as [|x [|? ?]] eqn:Es; try discriminate. destruct (dl_secs d') as [|x' [|? ?]] eqn:Es'; try discriminate.
  rewrite !andb_true_iff in H. destruct H as [[[[H1 H2] H3] H4] H5]. apply pt_eqb_spec in H1, H2, H4. apply bytes_eqb_eq in H3. subst p p'.
  apply existsb_exists in H5 as (q & I & E). apply pt_eqb_spec in E.
  destruct I as [<-|[<-|[]]]; [exists d, d', b, x, x', 7|exists d, d', b, x, x', 8]; auto 12.
Qed.
Lemma okL_sane s z : okL s z = true -> usual [bigp] st0 s z.
Proof.
  intros H. apply okL_inv in H as (N & d & d' & b & x & x' & l & -> & Eb & Eb' & Es & Es' & Ex & El & El' & L). unfold usual. rewrite N. split; [exact I|].
  split; [constructor; repeat apply Forall_cons; [| |apply Forall_nil]; constructor; now rewrite ?Eb, ?Eb', ?Es, ?Es'|].
  intros v s a1 P. cbn in P. injection P as <- <- <-. split; [intros p q _ _ _; reflexivity|].
  assert (Q : prime bigp /\ In bigp [bigp]) by (split; [exact prime_bigp|now left]).
  apply OiAnd. repeat apply Forall_cons; [| |apply Forall_nil]; apply OiDL; rewrite ?El, ?El'; exact Q.
Qed.
Lemma okL_false s0 z v s a1 : okL s0 z = true -> process_pre s0 (get_verifier s0) (n_pre z) st0 = Ok ((v, s), a1) -> noor s /\ forall w, ~ Sat w s.
Proof.
  intros H P. apply okL_inv in H as (N & d & d' & b & x & x' & l & -> & Eb & Eb' & Es & Es' & Ex & El & El' & L).
  rewrite N in P. cbn in P. injection P as <- <- <-. split; [repeat constructor|].
  intros w H. inversion H as [|subs b0 F| |]; subst. inversion F as [|y1 l1 H1 F1]; subst. inversion F1 as [|y2 l2 H2 F2]; subst.
  inversion H1 as [d1 I1 D1| | |]; subst. inversion H2 as [d2 I2 D2| | |]; subst. clear - D1 D2 Eb Eb' Es Es' Ex El El' L.
  unfold dl_holds in D1, D2. rewrite El in D1. rewrite El' in D2. rewrite Eb, Es in D1. rewrite Eb', Es' in D2. cbn [map] in D1, D2. rewrite <- Ex in D2.
  rewrite lc_one in D1, D2 by reflexivity. change (grp (Bp l)) with (grp (Bp 12)) in D2. set (y := w (order (grp (Bp 12))) (sname x)) in *.
  assert (K : pmul 5 (Bp 12) = pmul 3 (Bp l)).
  { rewrite D1, D2, !mul_mul. replace (Bp 3) with (pmul 3 (Bp 1)) by (apply zpt_eq; vm_compute; reflexivity).
    replace (Bp 5) with (pmul 5 (Bp 1)) by (apply zpt_eq; vm_compute; reflexivity). rewrite !mul_mul. f_equal. lia. }
  apply (f_equal (@zv)) in K. destruct L as [-> | ->]; vm_compute in K; discriminate K.
Qed.
Example C93_ex_false :
  @readable Zq /\ (forall g, @distinguished Zq g) /\ (forall s z, okL s z = true -> usual [bigp] st0 s z) /\ 1 < bigp /\
  (forall s0 z v s a1, okL s0 z = true -> process_pre s0 (get_verifier s0) (n_pre z) st0 = Ok ((v, s), a1) -> noor s /\ forall w, ~ Sat w s) /\
  asks 2 advL /\ map (cwon okL st0 advL) [[[byte_of 1]; lit "digest"; [byte_of 9]; []]; [[byte_of 2]; lit "digest"; [byte_of 9]; []];
    [[byte_of 2]; lit "digest"; [byte_of 8]; []]] = [true; true; false].
Proof.
  split; [exact Zq_readable|]. split; [exact Zq_distinguished|]. split; [exact okL_sane|]. split; [vm_compute; reflexivity|].
  split; [exact okL_false|]. split; [|vm_compute; reflexivity].
  intros y. cbv zeta. match goal with |- context [prehash_input ?s] => destruct (prehash_input s) end; [|exact I]. intros y'. exact I.
Qed.

(** True statements x*3 = L, where the first answer is the secret logarithm: a prover that always succeeds, with all 7776 lists of
    five answers out of six. *)
Definition six : list bytes := map (fun i => [byte_of i]) [1; 2; 3; 4; 5; 6].
Definition okD (s : @stmt Zq) (z : @nizk Zq) : bool :=
  is_none (n_pre z) &&
  match s with SDL d => zgid_eqb (grp (dl_lhs d)) (grp (Pt 3)) && Nat.eqb (List.length (dl_secs d)) (List.length (dl_bases d)) | _ => false end.
Definition advD : prog (@stmt Zq * @nizk Zq * bytes) :=
  Ask (lit "which?") (fun y =>
    let k := be_int y in let s := SDL (mkDL (Pt (3 * k)) [Pt 3] [sx] [] false) in
    let no := Ret (s, mkNizk 0 VNone VNone VNone, []) in
    match prehash_input s with
    | Ok h => Ask h (fun y =>
        match fs_input h [VNone; VPt (Pt 30)] (lit "m") with
        | Ok i => Ask i (fun c => Ret (s, mkNizk (be_int c) (VList [VInt (10 + k * be_int c)]) VNone (VBytes y), lit "m"))
        | Err _ => no
        end)
    | Err _ => no
    end).
Example C93_ex_extract :
  (forall s z, okD s z = true -> usual [101] st0 s z) /\
  (forall s0 z v s a1, okD s0 z = true -> process_pre s0 (get_verifier s0) (n_pre z) st0 = Ok ((v, s), a1) -> noor s) /\
  asks 3 advD /\ spread six [101] 1 /\ count (cwon okD st0 advD) (tapes six 5) = 7776 /\
  Z.of_nat (3 + 2) * 1 * len six ^ Z.of_nat (3 + 2) < len six * count (cwon okD st0 advD) (tapes six (3 + 2)).
Proof.
  assert (V : forall s z, okD s z = true -> n_pre z = VNone /\ exists d, s = SDL d /\ grp (dl_lhs d) = grp (Pt 3) /\ List.length (dl_secs d) = List.length (dl_bases d)).
  { intros s z H. unfold okD in H. apply andb_true_iff in H as [N H]. split; [destruct (n_pre z); try discriminate; reflexivity|].
    destruct s as [d|? ?|? ? ?|? ? ? ?]; try discriminate. apply andb_true_iff in H as [H1 H2]. apply zgid_eqb_spec in H1. apply Nat.eqb_eq in H2. eauto. }
  assert (C : count (cwon okD st0 advD) (tapes six 5) = 7776) by (rewrite (cwon_all _ _ _ _ 3 2) by (reflexivity || (vm_compute; reflexivity)); reflexivity).
  split; [|split; [|split; [|split; [|split]]]].
  - intros s z H. destruct (V s z H) as (N & d & -> & G & L). unfold usual. rewrite N. split; [exact I|]. split; [now constructor|].
    intros v s a1 P. cbn in P. injection P as <- <- <-. split; [intros x y _ _ _; reflexivity|]. apply OiDL. rewrite G. split; [exact prime101|now left].
  - intros s0 z v s a1 H P. destruct (V s0 z H) as (N & d & -> & G & L). cbn in P. injection P as <- <- <-. constructor.
  - intros y. cbv zeta. match goal with |- context [prehash_input ?s] => destruct (prehash_input s) end; [|exact I].
    intros y'. match goal with |- context [fs_input ?h ?l ?m] => destruct (fs_input h l m) end; [intros c; exact I|exact I].
  - intros y Iy. cbn in Iy. repeat (destruct Iy as [<-|Iy]; [vm_compute; discriminate|]). destruct Iy.
  - exact C.
  - change (3 + 2)%nat with 5%nat. rewrite C. vm_compute. reflexivity.
Qed.

(** x*3 = L or y*5 = 7: the first answer is the logarithm of L, which the prover uses *)
Definition exOr (l : Z) : @stmt Zq := SOr [SDL (mkDL (Bp l) [Bp 3] [sx] [] false); SDL (mkDL (Bp 7) [Bp 5] [sy] [] false)] false None.
Definition big_dl (s : @stmt Zq) : bool :=
  match s with SDL d => zgid_eqb (grp (dl_lhs d)) (grp (Bp 3)) && Nat.eqb (List.length (dl_secs d)) (List.length (dl_bases d)) | _ => false end.
Definition okO (s : @stmt Zq) (z : @nizk Zq) : bool :=
  is_none (n_pre z) && bit_resp (n_resp z) && match s with SOr [x; y] _ _ => big_dl x && big_dl y | _ => false end.
Definition advO : prog (@stmt Zq * @nizk Zq * bytes) :=
  Ask (lit "which?") (fun y => let k := be_int y in let s := exOr (3 * k) in pbind (prover_of s [(sx, k)] st0) (fun r => Ret (s, fst r, snd r))).
Example C93_ex_or :
  (forall s z, okO s z = true -> usual [bigp] st0 s z) /\ (forall q, In q [bigp] -> 2 ^ 129 <= q) /\
  (forall s0 z v s a1, okO s0 z = true -> process_pre s0 (get_verifier s0) (n_pre z) st0 = Ok ((v, s), a1) -> canonical s (n_resp z)) /\
  asks 3 advO /\ spread six [2 ^ 128; bigp] 1 /\
  Z.of_nat (3 + 2) * 1 * len six ^ Z.of_nat (3 + 2) < len six * count (cwon okO st0 advO) (tapes six (3 + 2)).
Proof.
  assert (B : forall s, big_dl s = true -> exists d, s = SDL d /\ grp (dl_lhs d) = grp (Bp 3) /\ List.length (dl_secs d) = List.length (dl_bases d)).
  { intros [d|? ?|? ? ?|? ? ? ?] H; try discriminate. apply andb_true_iff in H as [H1 H2]. apply zgid_eqb_spec in H1. apply Nat.eqb_eq in H2. eauto. }
  assert (V : forall s z, okO s z = true -> n_pre z = VNone /\ bit_resp (n_resp z) = true /\ exists d d' b c, s = SOr [SDL d; SDL d'] b c /\
    grp (dl_lhs d) = grp (Bp 3) /\ List.length (dl_secs d) = List.length (dl_bases d) /\ grp (dl_lhs d') = grp (Bp 3) /\ List.length (dl_secs d') = List.length (dl_bases d')).
  { intros s z H. unfold okO in H. rewrite !andb_true_iff in H. destruct H as [[N R] H]. split; [destruct (n_pre z); try discriminate; reflexivity|]. split; auto.
    destruct s as [?|? ?|[|x [|y [|? ?]]] b c|? ? ? ?]; try discriminate. apply andb_true_iff in H as [H1 H2].
    destruct (B _ H1) as (d & -> & ? & ?), (B _ H2) as (d' & -> & ? & ?). exists d, d', b, c. auto. }
  split; [|split; [intros q [<-|[]]; exact bigp_size|split; [|split; [|split]]]].
  - intros s z H. destruct (V s z H) as (N & _ & d & d' & b & c & -> & G & L & G' & L'). unfold usual. rewrite N. split; [exact Logic.I|].
    split; [constructor; repeat apply Forall_cons; [| |apply Forall_nil]; now constructor|].
    intros v s a1 P. cbn in P. injection P as <- <- <-. split; [intros x y _ _ _; reflexivity|].
    assert (Q : prime bigp /\ In bigp [bigp]) by (split; [exact prime_bigp|now left]).
    apply OiOr. repeat apply Forall_cons; [| |apply Forall_nil]; apply OiDL; rewrite ?G, ?G'; exact Q.
  - intros s0 z v s a1 H P. destruct (V s0 z H) as (N & R & d & d' & b & c0 & -> & _). rewrite N in P. cbn in P. injection P as <- <- <-.
    destruct (n_resp z) as [| | | | | |[|[| | | | |[|[|c| | | | | |] [|[|c'| | | | | |] [|]]]| |] [|rs [|]]]|]; try discriminate R.
    cbn in R. apply andb_prop in R as [E1 E2]. apply Z.ltb_lt in E1, E2.
    eapply (CaOr _ _ _ _ [c; c']); [left; reflexivity|reflexivity|repeat constructor; assumption|].
    intros [|[|j]] y t Y _; [injection Y as <-; constructor|injection Y as <-; constructor|destruct j; discriminate].
  - intros y. cbv zeta. change 2%nat with (2 + 0)%nat. apply asks_pbind; [intros; exact Logic.I|apply prover_asks].
  - intros y Iy. cbn in Iy. repeat (destruct Iy as [<-|Iy]; [vm_compute; discriminate|]). destruct Iy.
  - rewrite (cwon_all _ _ _ _ 3 2); [reflexivity|reflexivity|vm_compute; reflexivity].
Qed.

(** Inequalities of the logarithms of 3*k to the base 3 and 5*k to the base 5, which are equal, for k = 4 or k = 7. The prover lets the
    first answer choose k and hopes for the challenge 9. *)
Definition okN (s : @stmt Zq) (z : @nizk Zq) : bool :=
  match n_pre z with VPt _ => true | _ => false end &&
  match s with
  | SExt (KNeq H0 g H1 h _ _ _ _) _ VNone None =>
      pt_eqb g (Pt 3) && pt_eqb h (Pt 5) && existsb (fun k => pt_eqb H0 (Pt (3 * k)) && pt_eqb H1 (Pt (5 * k))) [4; 7]
  | _ => false
  end.
Definition advN : prog (@stmt Zq * @nizk Zq * bytes) :=
  Ask (lit "which?") (fun y =>
    let k := if be_int y =? 1 then 4 else 7 in
    let s := mk_neq (Pt (3 * k)) (Pt 3) (Pt (5 * k)) (Pt 5) su sal sbe false false in
    let pre := VPt (Pt 1) in let z d := mkNizk 9 (VList [VList [VInt 20; VInt 30]; VList [VInt 20; VInt 30]]) pre d in
    match process_pre s (get_verifier s) pre st0 with
    | Ok ((_, s1), _) => match prehash_input s1 with Ok h => Ask h (fun y => Ret (s, z (VBytes y), lit "m")) | Err _ => Ret (s, z VNone, []) end
    | Err _ => Ret (s, z VNone, [])
    end).
Example C93_ex_inequality :
  (forall s0 z, okN s0 z = true -> tidy st0 s0 z /\ exists H0 g H1 h x al be bnd sim, s0 = mk_neq H0 g H1 h x al be bnd sim /\
     order (grp g) = 101 /\ grp h = grp g /\ g <> inf (grp g) /\ forall y, H0 = pmul y g -> H1 = pmul y h) /\
  asks 2 advN /\ map (cwon okN st0 advN) [[[byte_of 1]; lit "digest"; [byte_of 9]; []]; [[byte_of 2]; lit "digest"; [byte_of 9]; []];
    [[byte_of 2]; lit "digest"; [byte_of 8]; []]] = [true; true; false].
Proof.
  split; [|split; [|vm_compute; reflexivity]].
  - intros s z H. unfold okN in H. apply andb_true_iff in H as [N H].
    destruct s as [?|? ?|? ? ?|k b p c]; try discriminate. destruct k as [H0 g H1 h x al be bnd|? ? ? ? ? ? ? ?|? ? ? ? ? ? ? ?|? ?]; try discriminate.
    destruct p; try discriminate. destruct c; try discriminate. rewrite !andb_true_iff in H. destruct H as [[E1 E2] E3].
    apply pt_eqb_spec in E1, E2. apply existsb_exists in E3 as (k & Ik & E3). apply andb_true_iff in E3 as [E3 E4]. apply pt_eqb_spec in E3, E4. subst.
    split.
    + split; [destruct (n_pre z); try discriminate; exact Logic.I|]. intros v s a1 P. apply process_keeps in P as ->. intros p q _ _ _. reflexivity.
    + exists (Pt (3 * k)), (Pt 3), (Pt (5 * k)), (Pt 5), x, al, be, bnd, b. split; [reflexivity|]. split; [reflexivity|]. split; [reflexivity|].
      split; [intros E; apply (f_equal zv) in E; vm_compute in E; discriminate|].
      intros y E. replace (Pt (5 * k)) with (pmul 69 (Pt (3 * k))) by (destruct Ik as [<-|[<-|[]]]; apply zpt_eq; vm_compute; reflexivity).
      rewrite E. replace (Pt 5) with (pmul 69 (Pt 3)) by (apply zpt_eq; vm_compute; reflexivity). rewrite !mul_mul. f_equal. lia.
  - intros y. cbv zeta. match goal with |- context [process_pre ?s ?v ?p ?a] => destruct (process_pre s v p a) as [[[v1 s1] a1]|] end; [|exact Logic.I]. destruct (prehash_input s1); [|exact Logic.I]. intros y'. exact Logic.I.
Qed.

(** Commitments to numbers of two bits with the bases 3 and 5; the prover commits to 1 *)
Definition okR (s : @stmt Zq) (z : @nizk Zq) : bool :=
  match n_pre z with VDict _ => true | _ => false end && (bits_resp (n_resp z) && two_bits (n_pre z)) &&
  match s with
  | SExt (KRange _ g h n _ _ _ rs) _ VNone None => pt_eqb g (Bp 3) && pt_eqb h (Bp 5) && Nat.eqb n 2 && Nat.eqb (List.length rs) 2
  | _ => false
  end.
Definition advR : prog (@stmt Zq * @nizk Zq * bytes) := pbind advRg (fun r => Ret (PropPrim.exRg, fst r, snd r)).
Example C93_ex_power_range :
  prime (order (grp (Bp 3))) /\ 2 ^ 129 <= order (grp (Bp 3)) /\
  (forall s0 z, okR s0 z = true -> tidy st0 s0 z /\
     (exists com isp x r rs sim, s0 = SExt (KRange com (Bp 3) (Bp 5) 2 isp x r rs) sim VNone None /\ List.length rs = 2%nat) /\
     (exists cs, getitem (n_pre z) (lit "Cs") = Ok (VList cs) /\ List.length cs = 2%nat) /\
     forall v s a1, process_pre s0 (get_verifier s0) (n_pre z) st0 = Ok ((v, s), a1) -> canonical s (n_resp z)) /\
  asks 2 advR /\ spread five [2 ^ 128; order (grp (Bp 3))] 1 /\
  Z.of_nat (2 + 2) * 1 * len five ^ Z.of_nat (2 + 2) < len five * count (cwon okR st0 advR) (tapes five (2 + 2)).
Proof.
  split; [exact prime_bigp|]. split; [exact bigp_size|].
  split; [|split; [change 2%nat with (2 + 0)%nat; apply asks_pbind; [intros; exact Logic.I|apply prover_asks]|split; [apply spread_five; vm_compute; reflexivity|rewrite (cwon_all _ _ _ _ 2 2); [reflexivity|reflexivity|vm_compute; reflexivity]]]].
  intros s z H. unfold okR in H. rewrite !andb_true_iff in H. destruct H as [[N [H1 H2]] H].
  split; [|split; [|split; [now apply two_bits_ok|]]].
  - split; [destruct (n_pre z); try discriminate; exact Logic.I|]. intros v s1 a1. apply start_coh.
  - destruct s as [?|? ?|? ? ?|k b p c]; try discriminate. destruct k as [? ? ? ? ? ? ? ?|com g h n isp x r rs|? ? ? ? ? ? ? ?|? ?]; try discriminate.
    destruct p; try discriminate. destruct c; try discriminate. rewrite !andb_true_iff in H. destruct H as [[[E1 E2] E3] E4].
    apply pt_eqb_spec in E1, E2. apply Nat.eqb_eq in E3, E4. subst. exists com, isp, x, r, rs, b. auto.
  - intros v s1 a1 P. destruct s as [?|? ?|? ? ?|k b p c]; try discriminate. destruct k as [? ? ? ? ? ? ? ?|com g h n isp x r rs|? ? ? ? ? ? ? ?|? ?]; try discriminate.
    destruct p; try discriminate. destruct c; try discriminate. apply process_ext in P as (con & CN & _ & -> & _). eapply range_canonical; eauto.
Qed.

(** The holder of the signature of C35 on the messages 8 and 9; the names of the secrets in the statement depend on the challenge. *)
Fixpoint pts_eqb (l l' : list (@pt Zq)) : bool :=
  match l, l' with [], [] => true | p :: l, p' :: l' => pt_eqb p p' && pts_eqb l l' | _, _ => false end.
Lemma pts_eqb_eq l : forall l', pts_eqb l l' = true -> l = l'.
Proof.
  induction l as [|p l IH]; intros [|p' l'] H; try discriminate; auto. cbn [pts_eqb] in H. rewrite andb_true_iff in H. destruct H as [E H].
  apply pt_eqb_spec in E. subst p'. f_equal. auto.
Qed.
Definition okS (s : @stmt Zq) (z : @nizk Zq) : bool :=
  okv (1%N, 99%N) z &&
  match s with
  | SExt (KBBS pk _ bs (_ :: _ :: ms) _ _ _ _) _ VNone None => pts_eqb [pk_w pk; pk_h0 pk] [pk_w exPk; pk_h0 exPk] &&
      pts_eqb (pk_gens pk) (pk_gens exPk) && pts_eqb (pk_genpairs pk) (pk_genpairs exPk) && pts_eqb bs (firstn (2 + List.length ms) (pk_gens exPk))
  | _ => false
  end.
Definition exBV' : @stmt Zq :=
  SExt (KBBS exPk None (pk_gens exPk) [X 30 "e"; X 31 "s"; X 32 "age"; X 33 "town"] (X 34 "r1") (X 35 "r2") (X 36 "d1") (X 37 "d2")) false VNone None.
Definition advS : prog (@stmt Zq * @nizk Zq * bytes) :=
  pbind (prover_of exBB exBsd stB) (fun r => Ret (if Z.even (n_chal (fst r)) then exBV else exBV', fst r, snd r)).
Example C93_ex_signature :
  @repr_ok Zq /\ bbs_pk_ok exPk /\ pk_gens exPk = [B1 2; B1 3; B1 5; B1 7] /\ (forall G, pairs G (grp (pk_h0 exPk)) <> None -> G = grp (B1 2)) /\ prime (order (grp (B1 2))) /\
  (forall s0 z, okS s0 z = true -> tidy st0 s0 z /\ exists sig es ss ms r1 r2 d1 d2 sim,
     s0 = SExt (KBBS exPk sig (firstn (2 + List.length ms) (pk_gens exPk)) (es :: ss :: ms) r1 r2 d1 d2) sim VNone None) /\
  (forall s0 s0' z z', okS s0 z = true -> okS s0' z' = true -> wire_alike (n_pre z) (n_pre z') -> n_pre z = n_pre z') /\
  asks 2 advS /\ spread five [101] 1 /\
  Z.of_nat (2 + 2) * 1 * len five ^ Z.of_nat (2 + 2) < len five * count (cwon okS st0 advS) (tapes five (2 + 2)).
Proof.
  destruct C35_ex as (_ & _ & _ & _ & H5 & _ & _ & _ & _ & _ & _ & _ & H13 & _).
  split; [exact (proj1 Zq_readable)|]. split; [exact H5|]. split; [reflexivity|]. split; [exact H13|]. split; [exact prime101|].
  split.
  { intros s z H. unfold okS in H. apply andb_true_iff in H as [N H]. unfold okv in N. rewrite andb_true_iff in N. destruct N as [_ N].
    destruct s as [?|? ?|? ? ?|k b p c]; try discriminate. destruct k as [? ? ? ? ? ? ? ?|? ? ? ? ? ? ? ?|pk sig bs sv r1 r2 d1 d2|? ?]; try discriminate.
    destruct sv as [|es [|ss ms]]; try discriminate. destruct p; try discriminate. destruct c; try discriminate.
    rewrite !andb_true_iff in H. destruct H as [[[E1 E2] E3] E4]. apply pts_eqb_eq in E1, E2, E3, E4. subst bs.
    split.
    - split; [destruct (n_pre z); try discriminate; exact Logic.I|]. intros v s a1 P. apply process_keeps in P as ->. intros p q _ _ _. reflexivity.
    - assert (E : pk = exPk). { destruct pk as [w h0 gs gp]. cbn [pk_w pk_h0 pk_gens pk_genpairs] in E1, E2, E3. injection E1 as -> ->. now subst. }
      subst pk. eauto 12. }
  split; [intros s0 s0' z z' H H' A; unfold okS in H, H'; apply andb_true_iff in H as [H _], H' as [H' _]; apply andb_prop in H as [H _], H' as [H' _]; now apply (plainv_eq (1%N, 99%N))|].
  split; [unfold advS; apply (asks_pbind _ _ 0) with (n := 2%nat); [intros; exact Logic.I|apply prover_asks]|].
  split; [apply spread_five; vm_compute; reflexivity|].
  rewrite (cwon_all _ _ _ _ 2 2); [reflexivity|reflexivity|vm_compute; reflexivity].
Qed.

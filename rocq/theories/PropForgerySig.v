(** Property C95: statements of the library, proved by those who have seen proofs of others, in the random oracle model. *)
From Coq Require Import String Znumtheory Lia.
From Verif Require PropPrim.
From Verif Require Import Base World Val Expr Utils Stmt Prove Verify Spec Shapes Claims Clauses Honest Supply Extract Ident Alike Lib Distrib Custom Mixed MixedOr Nested TreeZk Cheat Bbs RangeC RangeS RangeS2 Opening
  History Oracle OracleZk Chance OracleTree OracleTreeSim OracleMany OracleManyProofs Forking OracleProofs Chosen Forgery ForgeryProofs ForgerySig ForgerySigProofs ZqWorld ZqFacts Ex ExTree Proth
  PropZk PropSound PropCheat PropWire PropId PropZk2 PropOracle PropOraclePrim PropOracleZk PropOracleMany PropChosen PropForgery.
Open Scope Z_scope.
Open Scope list_scope.

(** C95: C94 for statements of the library, which someone chooses after having seen proofs of others with messages of their choice. They have asked for no proof with the message of
    theirs. If verify() accepts with a probability of more than n*K/N + p*n/Q, with p statements of others and n = b + 2 + 2*p, then numbers that satisfy the chosen statement are
    computed from two runs with simulators in the place of the other provers. [fair]: which random numbers of the other provers matter; the probability is over all of them, and all answers. *)
Theorem C95_extract : forall (W : World) Q Ks, 0 <= Q -> Forall (OracleMany.proves Q) Ks -> Forall sends_framed Ks ->
  exists sz, fair sz Ks /\ forall ok a v A qs K b, readable -> (forall g, distinguished g) -> (forall s z, ok s z = true -> usual qs a s z) ->
  (forall s0 z v s a1, ok s0 z = true -> process_pre s0 (get_verifier s0) (n_pre z) a = Ok ((v, s), a1) -> noor s) ->
  oasks b v -> spread A qs K -> 0 <= K -> let n := (b + 2 + 2 * List.length Ks)%nat in often Q sz (List.length Ks) A K n (sforges ok a v Ks) ->
  exists ts s0 s0' z z' v1 v1' s s' a1 a1' f g w, two_sforgeries ok a v Ks ts A n s0 s0' z z' /\
    process_pre s0 (get_verifier s0) (n_pre z) a = Ok ((v1, s), a1) /\ process_pre s0' (get_verifier s0') (n_pre z') a = Ok ((v1', s'), a1') /\
    alike f g s s' /\ Extr w s (n_chal z) (n_chal z') (n_resp z) (n_resp z') /\ Sat w s /\ Sat (fun q n => w q (g n)) s'.
Proof. exact @sforge_extract. Qed.
Print Assumptions C95_extract.
(** False statements of any kind: the probability is at most n*K/N + p*n/Q, *)
Theorem C95_false_statement : forall (W : World) Q Ks, 0 <= Q -> Forall (OracleMany.proves Q) Ks -> Forall sends_framed Ks ->
  exists sz, fair sz Ks /\ forall ok a v A qs K b, readable -> (forall g, distinguished g) -> (forall s z, ok s z = true -> usual qs a s z) ->
  (forall s0 z v s a1, ok s0 z = true -> process_pre s0 (get_verifier s0) (n_pre z) a = Ok ((v, s), a1) -> noor s /\ forall w, ~ Sat w s) ->
  oasks b v -> spread A qs K -> 0 <= K -> ~ often Q sz (List.length Ks) A K (b + 2 + 2 * List.length Ks) (sforges ok a v Ks).
Proof. exact @sforge_false. Qed.
Print Assumptions C95_false_statement.
(** which for all digests of 32 bytes, in groups of order q, is n * (1/q + 1/2^256 + p/Q) at most. *)
Theorem C95_sha256 : forall (W : World) Q Ks, 0 <= Q -> Forall (OracleMany.proves Q) Ks -> Forall sends_framed Ks ->
  exists sz, fair sz Ks /\ forall ok a v q b, readable -> (forall g, distinguished g) -> (forall s z, ok s z = true -> usual [q] a s z) -> 1 < q ->
  (forall s0 z v s a1, ok s0 z = true -> process_pre s0 (get_verifier s0) (n_pre z) a = Ok ((v, s), a1) -> noor s /\ forall w, ~ Sat w s) ->
  oasks b v -> let n := (b + 2 + 2 * List.length Ks)%nat in
  2 ^ 256 * Q * count (fun x => sforges ok a v Ks (map vec (fst x)) (snd x)) (list_prod (boxes sz) (tapes digests n)) <=
  (Q * Z.of_nat n * (2 ^ 256 / q + 1) + 2 ^ 256 * len Ks * Z.of_nat n) * (len (boxes sz) * (2 ^ 256) ^ Z.of_nat n).
Proof. exact @sforge_sha. Qed.
Print Assumptions C95_sha256.
(** Inequalities of equal logarithms *)
Theorem C95_inequality : forall (W : World) Q Ks, 0 <= Q -> Forall (OracleMany.proves Q) Ks -> Forall sends_framed Ks ->
  exists sz, fair sz Ks /\ forall ok a v A q K b, readable -> (forall g, distinguished g) -> prime q ->
  (forall s0 z, ok s0 z = true -> Chosen.tidy a s0 z /\ exists H0 g H1 h x al be bnd sim, s0 = mk_neq H0 g H1 h x al be bnd sim /\
     order (grp g) = q /\ grp h = grp g /\ g <> inf (grp g) /\ forall y, H0 = pmul y g -> H1 = pmul y h) ->
  oasks b v -> spread A [q] K -> 0 <= K -> ~ often Q sz (List.length Ks) A K (b + 2 + 2 * List.length Ks) (sforges ok a v Ks).
Proof. exact @sforge_inequality. Qed.
Print Assumptions C95_inequality.
(** Disjunctions, if the verifier also looked at the sub-challenges (without this the claim is false: C11_nizk_forgery_refuted). *)
Theorem C95_extract_or_partial : forall (W : World) Q Ks, 0 <= Q -> Forall (OracleMany.proves Q) Ks -> Forall sends_framed Ks ->
  exists sz, fair sz Ks /\ forall ok a v A qs K b, readable -> (forall g, distinguished g) -> (forall s z, ok s z = true -> usual qs a s z) ->
  (forall q, In q qs -> 2 ^ 129 <= q) ->
  (forall s0 z v s a1, ok s0 z = true -> process_pre s0 (get_verifier s0) (n_pre z) a = Ok ((v, s), a1) -> canonical s (n_resp z)) ->
  oasks b v -> spread A (2 ^ 128 :: qs) K -> 0 <= K -> let n := (b + 2 + 2 * List.length Ks)%nat in often Q sz (List.length Ks) A K n (sforges ok a v Ks) ->
  exists ts s0 s0' z z' v1 v1' s s' a1 a1' f g w, two_sforgeries ok a v Ks ts A n s0 s0' z z' /\
    process_pre s0 (get_verifier s0) (n_pre z) a = Ok ((v1, s), a1) /\ process_pre s0' (get_verifier s0') (n_pre z') a = Ok ((v1', s'), a1') /\
    alike f g s s' /\ Extr w s (n_chal z) (n_chal z') (n_resp z) (n_resp z') /\ Sat w s /\ Sat (fun q n => w q (g n)) s'.
Proof. exact @sforge_extract_or. Qed.
Print Assumptions C95_extract_or_partial.
(** Power-of-two ranges, if the verifier also looked at the sub-challenges and the number of bit commitments (false otherwise: C30) *)
Theorem C95_power_range_partial : forall (W : World) Q Ks, 0 <= Q -> Forall (OracleMany.proves Q) Ks -> Forall sends_framed Ks ->
  exists sz, fair sz Ks /\ forall ok g h k a v A K b, let q := order (grp g) in
  readable -> (forall g, distinguished g) -> prime q -> 2 ^ 129 <= q -> grp h = grp g ->
  (forall s0 z, ok s0 z = true -> Chosen.tidy a s0 z /\
     (exists com isp x r rs sim, s0 = SExt (KRange com g h k isp x r rs) sim VNone None /\ List.length rs = k) /\
     (exists cs, getitem (n_pre z) (lit "Cs") = Ok (VList cs) /\ List.length cs = k) /\
     forall v s a1, process_pre s0 (get_verifier s0) (n_pre z) a = Ok ((v, s), a1) -> canonical s (n_resp z)) ->
  oasks b v -> spread A [2 ^ 128; q] K -> 0 <= K -> let n := (b + 2 + 2 * List.length Ks)%nat in often Q sz (List.length Ks) A K n (sforges ok a v Ks) ->
  exists ts s0 s0' z z' com isp x r rs sim u t, two_sforgeries ok a v Ks ts A n s0 s0' z z' /\
    s0 = SExt (KRange com g h k isp x r rs) sim VNone None /\
    opening q (n_pre z) (n_resp z) (n_resp z') k u t /\ 0 <= u < 2 ^ Z.of_nat k /\ com = padd (pmul u g) (pmul t h).
Proof. exact @sforge_power_range. Qed.
Print Assumptions C95_power_range_partial.
(** Signatures: whoever shows a credential with a new message (the verifier's nonce, for example) after having seen others show theirs, has a signature under the issuer's key on the
    messages (or a relation between two generators of the key), computed from two runs without the others. *)
Theorem C95_signature : forall (W : World) Q Ks, 0 <= Q -> Forall (OracleMany.proves Q) Ks -> Forall sends_framed Ks ->
  exists sz, fair sz Ks /\ forall ok pk g0 g1 g2 gens a v A K b, let q := order (grp g0) in
  repr_ok -> (forall g, distinguished g) -> bbs_pk_ok pk -> pk_gens pk = g0 :: g1 :: g2 :: gens ->
  (forall G, pairs G (grp (pk_h0 pk)) <> None -> G = grp g0) -> prime q ->
  (forall s0 z, ok s0 z = true -> Chosen.tidy a s0 z /\ exists sig es ss ms r1 r2 d1 d2 sim,
     s0 = SExt (KBBS pk sig (firstn (2 + List.length ms) (pk_gens pk)) (es :: ss :: ms) r1 r2 d1 d2) sim VNone None) ->
  (forall s0 s0' z z', ok s0 z = true -> ok s0' z' = true -> wire_alike (n_pre z) (n_pre z') -> n_pre z = n_pre z') ->
  oasks b v -> spread A [q] K -> 0 <= K -> let n := (b + 2 + 2 * List.length Ks)%nat in often Q sz (List.length Ks) A K n (sforges ok a v Ks) ->
  exists ts s0 s0' z z' v1 s a1 sig es ss ms r1 r2 d1 d2 sim w, two_sforgeries ok a v Ks ts A n s0 s0' z z' /\
    s0 = SExt (KBBS pk sig (firstn (2 + List.length ms) (pk_gens pk)) (es :: ss :: ms) r1 r2 d1 d2) sim VNone None /\
    process_pre s0 (get_verifier s0) (n_pre z) a = Ok ((v1, s), a1) /\
    Extr w s (n_chal z) (n_chal z') (n_resp z) (n_resp z') /\
    let x n := w q (sname n) in
    padd (pmul (x d1 - x es * x r1) g1) (pmul (x d2 - x es * x r2) g2) = inf (grp g0) /\
    (((q | x d1 - x es * x r1) /\ (q | x d2 - x es * x r2)) -> exists A2, getitem (n_pre z) (lit "A2") = Ok (VPt A2) /\
       bbs_valid pk (mkSig (padd A2 (pmul (- x r1) g2)) (x es) (x ss)) (x es) (x ss) (map x ms)).
Proof. exact @sforge_signature. Qed.
Print Assumptions C95_signature.

(** ** Examples *)
Definition eight : list bytes := map (fun i => [byte_of i]) [1; 2; 3; 4; 5; 6; 7; 8].
Lemma spread_eight qs : forallb (fun y => count (fun y' => negb (apart qs y y')) eight <=? 1) eight = true -> spread eight qs 1.
Proof. intros H y I. rewrite forallb_forall in H. apply H in I. now apply Z.leb_le. Qed.
(** Someone who asks for no proof and succeeds with all answers, of which they need [u] *)
Definition salone (adv : prog (@stmt Zq * @nizk Zq * bytes)) : @obs Zq (stmt * nizk * bytes) := OSkip (othen adv ODone).
Definition always (ok : @stmt Zq -> @nizk Zq -> bool) (adv : prog (@stmt Zq * @nizk Zq * bytes)) (u : nat) : bool :=
  forallb (fun y => sforged ok (sample (oreal (sforgery st0 (othen adv ODone)) []) [] y)) (tapes eight u).
Lemma salone_forges K ok adv ts y u k : List.length ts = 1%nat -> In y (tapes eight (u + k)) -> always ok adv u = true -> sforges ok st0 (salone adv) [K] ts y = true.
Proof.
  intros L I H. unfold sforges, salone. destruct ts as [|t [|? ?]]; try discriminate L. unfold sforgery. cbn [combine onote oreal]. fold (sforgery st0 (othen adv ODone)).
  apply tapes_in in I as [Ly Fy]. unfold always in H. rewrite forallb_forall in H. rewrite <- (firstn_skipn u y). specialize (H (firstn u y)).
  assert (IN : In (firstn u y) (tapes eight u)).
  { apply tapes_in. split; [rewrite firstn_length; lia|]. rewrite Forall_forall in *. intros x Ix. apply Fy. rewrite <- (firstn_skipn u y). apply in_or_app. now left. }
  specialize (H IN). change (onote _ _ _) with (sforgery st0 (othen adv ODone)). destruct (sample (oreal (sforgery st0 (othen adv ODone)) []) [] (firstn u y)) as [[o m]|] eqn:S; [|discriminate H].
  rewrite (sample_more _ _ _ _ _ _ S). exact H.
Qed.
Lemma salone_often K ok adv sz b u : (b <= 3)%nat -> (u <= b + 4)%nat -> numbers sz (List.length [K]) -> always ok adv u = true ->
  often 101 sz (List.length [K]) eight 1 (b + 2 + 2 * List.length [K]) (sforges ok st0 (salone adv) [K]).
Proof.
  intros Lb Lu [L F] H. unfold often. rewrite count_all.
  - unfold len at 5. rewrite prod_length, Nat2Z.inj_mul. change (Z.of_nat (List.length (boxes sz))) with (len (boxes sz)).
    change (Z.of_nat (List.length (tapes eight (b + 2 + 2 * List.length [K])))) with (len (tapes eight (b + 2 + 2 * List.length [K]))). rewrite tapes_len.
    assert (B := boxes_some sz F). change (2 * List.length [K])%nat with 2%nat. change (len eight) with 8. change (Z.of_nat (List.length [K])) with 1. set (X := len (boxes sz)) in *. set (n := (b + 2 + 2)%nat). set (P := 8 ^ Z.of_nat n).
    assert (PP : 0 < P) by (apply Z.pow_pos_nonneg; lia). assert (N : Z.of_nat n <= 7) by (unfold n; lia). assert (XP : 0 < X * P) by (apply Z.mul_pos_pos; assumption). nia.
  - intros [l y] I. apply in_prod_iff in I as [I1 I2]. cbn [fst snd]. apply (salone_forges _ _ _ _ _ u (b + 4 - u)); [rewrite map_length, (boxes_length sz l I1); exact L| |exact H].
    replace (u + (b + 4 - u))%nat with (b + 2 + 2 * List.length [K])%nat; [exact I2|]. change (2 * List.length [K])%nat with 2%nat. lia.
Qed.
Lemma salone_asks adv b : asks b adv -> oasks b (salone adv).
Proof. intros H. change (oasks b (othen adv ODone)). apply othen_asks; [exact H|intros; exact Logic.I]. Qed.
(** A proof of the statement of C89 with the message "a", then as before *)
Definition seen (adv : prog (@stmt Zq * @nizk Zq * bytes)) : @obs Zq (stmt * nizk * bytes) := OProof (lit "a") (fun _ => othen adv ODone).
Lemma seen_asks2 adv b : asks b adv -> oasks b (seen adv).
Proof. intros H z. apply othen_asks; [exact H|intros; exact Logic.I]. Qed.
Definition tapeS (l : list Z) : list bytes := map (fun i => [byte_of i]) ([11; 12] ++ l ++ [15; 16; 17; 18]).
Definition both (ok : @stmt Zq -> @nizk Zq -> bool) (adv : prog (@stmt Zq * @nizk Zq * bytes)) (l : list Z) : bool * bool :=
  (sforges ok st0 (seen adv) oneK [exT] (tapeS l), sforged ok (oideal (sforgery st0 (seen adv)) (combine oneK [exT]) [] (tapeS l))).

Example C95_ex_extract :
  Forall (OracleMany.proves 101) oneK /\ Forall sends_framed oneK /\ @readable Zq /\ (forall g, @distinguished Zq g) /\ (forall s z, okD s z = true -> usual [101] st0 s z) /\
  (forall s0 z v s a1, okD s0 z = true -> process_pre s0 (get_verifier s0) (n_pre z) st0 = Ok ((v, s), a1) -> noor s) /\
  oasks 3 (salone advD) /\ oasks 3 (seen advD) /\ spread eight [101] 1 /\
  (forall sz, numbers sz (List.length oneK) -> often 101 sz (List.length oneK) eight 1 (3 + 2 + 2 * List.length oneK) (sforges okD st0 (salone advD) oneK)) /\
  map (both okD advD) [[4; 5; 6]; [5; 6; 7]] = [(true, true); (true, true)].
Proof.
  destruct oneK_proves as [P T]. destruct C93_ex_extract as (U & N & A & _). do 2 (split; [assumption|]). split; [exact Zq_readable|]. split; [exact Zq_distinguished|]. do 2 (split; [assumption|]).
  split; [exact (salone_asks _ _ A)|]. split; [exact (seen_asks2 _ _ A)|]. split; [apply spread_eight; vm_compute; reflexivity|]. split; [|vm_compute; reflexivity].
  intros sz Nu. apply (salone_often _ _ _ _ 3 3); [lia|lia|exact Nu|vm_compute; reflexivity].
Qed.
(** The copied proof is not new; with another message it is rejected. *)
Definition scopying (msg : bytes) : @obs Zq (stmt * nizk * bytes) :=
  OProof (lit "a") (fun z => ODone (exZk, match z with Ok z => z | Err _ => mkNizk 0 VNone VNone VNone end, msg)).
Definition staken (msg : bytes) : bool :=
  match sample (oreal (sforgery st0 (scopying msg)) (combine oneK [exT])) [] (oneTape 14) with Some (Some (Some (acc, _, _)), _) => acc | _ => false end.
Example C95_ex_copy : map staken [lit "a"; lit "b"] = [true; false] /\
  map (fun msg => sforges (fun _ _ => true) st0 (scopying msg) oneK [exT] (oneTape 14)) [lit "a"; lit "b"] = [false; false].
Proof. split; vm_compute; reflexivity. Qed.
Example C95_ex_false :
  (forall s z, okL s z = true -> usual [bigp] st0 s z) /\ 1 < bigp /\
  (forall s0 z v s a1, okL s0 z = true -> process_pre s0 (get_verifier s0) (n_pre z) st0 = Ok ((v, s), a1) -> noor s /\ forall w, ~ Sat w s) /\
  oasks 2 (seen advL) /\ map (both okL advL) [[1; 13; 9]; [1; 13; 8]] = [(true, true); (false, false)].
Proof.
  destruct C93_ex_false as (_ & _ & U & B & N & A & _). do 3 (split; [assumption|]). split; [exact (seen_asks2 _ _ A)|]. vm_compute. reflexivity.
Qed.
Example C95_ex_inequality :
  (forall s0 z, okN s0 z = true -> Chosen.tidy st0 s0 z /\ exists H0 g H1 h x al be bnd sim, s0 = mk_neq H0 g H1 h x al be bnd sim /\
     order (grp g) = 101 /\ grp h = grp g /\ g <> inf (grp g) /\ forall y, H0 = pmul y g -> H1 = pmul y h) /\
  oasks 2 (seen advN) /\ map (both okN advN) [[1; 13; 9]; [2; 13; 9]; [1; 13; 8]] = [(true, true); (true, true); (false, false)].
Proof.
  destruct C93_ex_inequality as (U & A & _). split; [exact U|]. split; [exact (seen_asks2 _ _ A)|]. vm_compute. reflexivity.
Qed.
Example C95_ex_or :
  (forall s z, okO s z = true -> usual [bigp] st0 s z) /\ (forall q, In q [bigp] -> 2 ^ 129 <= q) /\
  (forall s0 z v s a1, okO s0 z = true -> process_pre s0 (get_verifier s0) (n_pre z) st0 = Ok ((v, s), a1) -> canonical s (n_resp z)) /\
  oasks 3 (salone advO) /\ spread eight [2 ^ 128; bigp] 1 /\
  forall sz, numbers sz (List.length oneK) -> often 101 sz (List.length oneK) eight 1 (3 + 2 + 2 * List.length oneK) (sforges okO st0 (salone advO) oneK).
Proof.
  destruct C93_ex_or as (U & B & C & A & _). do 3 (split; [assumption|]). split; [exact (salone_asks _ _ A)|]. split; [apply spread_eight; vm_compute; reflexivity|].
  intros sz Nu. apply (salone_often _ _ _ _ 3 3); [lia|lia|exact Nu|vm_compute; reflexivity].
Qed.
Example C95_ex_power_range :
  prime (order (grp (Bp 3))) /\ 2 ^ 129 <= order (grp (Bp 3)) /\
  (forall s0 z, okR s0 z = true -> Chosen.tidy st0 s0 z /\
     (exists com isp x r rs sim, s0 = SExt (KRange com (Bp 3) (Bp 5) 2 isp x r rs) sim VNone None /\ List.length rs = 2%nat) /\
     (exists cs, getitem (n_pre z) (lit "Cs") = Ok (VList cs) /\ List.length cs = 2%nat) /\
     forall v s a1, process_pre s0 (get_verifier s0) (n_pre z) st0 = Ok ((v, s), a1) -> canonical s (n_resp z)) /\
  oasks 2 (salone advR) /\ spread eight [2 ^ 128; order (grp (Bp 3))] 1 /\
  forall sz, numbers sz (List.length oneK) -> often 101 sz (List.length oneK) eight 1 (2 + 2 + 2 * List.length oneK) (sforges okR st0 (salone advR) oneK).
Proof.
  destruct C93_ex_power_range as (P & B & U & A & _). do 3 (split; [assumption|]). split; [exact (salone_asks _ _ A)|]. split; [apply spread_eight; vm_compute; reflexivity|].
  intros sz Nu. apply (salone_often _ _ _ _ 2 2); [lia|lia|exact Nu|vm_compute; reflexivity].
Qed.
(** The holder of the signature of C35, who first sees another holder show a signature under the same key. Both have the messages 8 and 9. *)
Definition showing : list (@party Zq) := [stmt_party exBB exBsd (env stB) (fun _ => None)].
Lemma showing_proves : Forall (OracleMany.proves 101) showing /\ Forall sends_framed showing.
Proof.
  destruct C89_ex_signature as (H1 & H2 & H3 & H4 & H5 & H6 & H7 & _). split; constructor; [|constructor|apply stmt_framed|constructor].
  eapply PrStmt; [exact H1|exact H2|exact H3|exact H4|exact H5|exact H6|exact H7|apply Z.le_refl].
Qed.
Definition bothS (l : list Z) : bool * bool :=
  (sforges okS st0 (seen advS) showing [exT] (tapeS l), sforged okS (oideal (sforgery st0 (seen advS)) (combine showing [exT]) [] (tapeS l))).
(** With the proof they have seen they do not succeed. *)
Definition replay (msg : bytes) : @obs Zq (stmt * nizk * bytes) :=
  OProof (lit "a") (fun z => ODone (exBV, match z with Ok z => z | Err _ => mkNizk 0 VNone VNone VNone end, msg)).
Definition replayed (msg : bytes) : bool :=
  match sample (oreal (sforgery st0 (replay msg)) (combine showing [exT])) [] (oneTape 14) with Some (Some (Some (acc, _, _)), _) => acc | _ => false end.
Example C95_ex_signature :
  Forall (OracleMany.proves 101) showing /\ Forall sends_framed showing /\
  @repr_ok Zq /\ bbs_pk_ok exPk /\ pk_gens exPk = [B1 2; B1 3; B1 5; B1 7] /\ (forall G, pairs G (grp (pk_h0 exPk)) <> None -> G = grp (B1 2)) /\ prime (order (grp (B1 2))) /\
  (forall s0 z, okS s0 z = true -> Chosen.tidy st0 s0 z /\ exists sig es ss ms r1 r2 d1 d2 sim,
     s0 = SExt (KBBS exPk sig (firstn (2 + List.length ms) (pk_gens exPk)) (es :: ss :: ms) r1 r2 d1 d2) sim VNone None) /\
  (forall s0 s0' z z', okS s0 z = true -> okS s0' z' = true -> wire_alike (n_pre z) (n_pre z') -> n_pre z = n_pre z') /\
  oasks 2 (salone advS) /\ oasks 2 (seen advS) /\ spread eight [101] 1 /\
  (forall sz, numbers sz (List.length showing) -> often 101 sz (List.length showing) eight 1 (2 + 2 + 2 * List.length showing) (sforges okS st0 (salone advS) showing)) /\
  map bothS [[13; 14]; [13; 15]] = [(true, true); (true, true)] /\
  map replayed [lit "a"; lit "b"] = [true; false].
Proof.
  destruct C93_ex_signature as (H1 & H2 & H3 & H4 & H5 & H6 & H7 & A & _). destruct showing_proves as [P T]. do 9 (split; [assumption|]). split; [exact (salone_asks _ _ A)|]. split; [exact (seen_asks2 _ _ A)|].
  split; [apply spread_eight; vm_compute; reflexivity|]. split; [|split; vm_compute; reflexivity].
  intros sz Nu. apply (salone_often _ _ _ _ 2 2); [lia|lia|exact Nu|vm_compute; reflexivity].
Qed.

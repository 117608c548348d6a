(** Property C88 for signatures, ranges and disjunctions. *)
From Coq Require Import String Znumtheory Lia.
From Verif Require RangeC.
From Verif Require Import Base World Val Expr Utils Stmt Prove Verify Spec Shapes Claims Clauses Extract Ident Alike Cheat Bbs Oracle OracleZk Forking OracleProofs
  Opening OraclePrim Build History RangeS2 Sound2 ZqWorld ZqFacts Ex ExTree Proth PropSound PropPrim PropRange PropCheat PropWire PropOracle.
Open Scope Z_scope.
Open Scope list_scope.

(** Signatures: who is accepted more often than with probability (Q+2)*K/N has shown two proofs from which numbers are computed
    that are a signature on the messages, or a relation between two generators of the key. *)
Theorem C88_signature : forall (W : World) ok pk sig es ss ms r1 r2 d1 d2 sim a adv A K Q g0 g1 g2 gens,
  let sv := es :: ss :: ms in
  let s0 := SExt (KBBS pk sig (firstn (List.length sv) (pk_gens pk)) sv r1 r2 d1 d2) sim VNone None in
  let q := order (grp g0) in
  plain ok -> (forall g, distinguished g) -> bbs_pk_ok pk -> pk_gens pk = g0 :: g1 :: g2 :: gens ->
  (forall G, pairs G (grp (pk_h0 pk)) <> None -> G = grp g0) -> prime q ->
  (forall pre v s a1, process_pre s0 (get_verifier s0) pre a = Ok ((v, s), a1) -> coh (env a1) (svars s)) ->
  asks Q adv -> spread A [q] K -> 0 <= K ->
  Z.of_nat (Q + 2) * K * len A ^ Z.of_nat (Q + 2) < len A * count (won ok s0 a adv) (tapes A (Q + 2)) ->
  exists z z' v s a1 w, two_runs ok s0 a adv A (Q + 2) z z' /\ process_pre s0 (get_verifier s0) (n_pre z) a = Ok ((v, s), a1) /\
    Extr w s (n_chal z) (n_chal z') (n_resp z) (n_resp z') /\
    let x n := w q (sname n) in
    padd (pmul (x d1 - x es * x r1) g1) (pmul (x d2 - x es * x r2) g2) = inf (grp g0) /\
    (((q | x d1 - x es * x r1) /\ (q | x d2 - x es * x r2)) -> exists A2, getitem (n_pre z) (lit "A2") = Ok (VPt A2) /\
       bbs_valid pk (mkSig (padd A2 (pmul (- x r1) g2)) (x es) (x ss)) (x es) (x ss) (map x ms)).
Proof. exact @rom_signature. Qed.
Print Assumptions C88_signature.
(** Ranges, if the verifier also looked at the sub-challenges and the number of bit commitments (false otherwise: C30, C54): the
    value and the opening are computed from two proofs. *)
Theorem C88_power_range_partial : forall (W : World) ok com g h n isp x r rs sim a adv A K Q,
  let s0 := SExt (KRange com g h n isp x r rs) sim VNone None in let q := order (grp g) in
  plain ok -> (forall g, distinguished g) -> prime q -> 2 ^ 129 <= q -> grp h = grp g -> List.length rs = n ->
  (forall pre v s a1, process_pre s0 (get_verifier s0) pre a = Ok ((v, s), a1) -> coh (env a1) (svars s)) ->
  (forall z v s a1, ok z = true -> process_pre s0 (get_verifier s0) (n_pre z) a = Ok ((v, s), a1) ->
     canonical s (n_resp z) /\ exists cs, getitem (n_pre z) (lit "Cs") = Ok (VList cs) /\ List.length cs = n) ->
  asks Q adv -> spread A [2 ^ 128; q] K -> 0 <= K ->
  Z.of_nat (Q + 2) * K * len A ^ Z.of_nat (Q + 2) < len A * count (won ok s0 a adv) (tapes A (Q + 2)) ->
  exists z z' u t, two_runs ok s0 a adv A (Q + 2) z z' /\
    opening q (n_pre z) (n_resp z) (n_resp z') n u t /\ 0 <= u < 2 ^ Z.of_nat n /\ com = padd (pmul u g) (pmul t h).
Proof. exact @rom_power_range. Qed.
Print Assumptions C88_power_range_partial.
Theorem C88_range_partial : forall (W : World) ok com g h a b x r x1 x2 rs1 rs2 sb s0 st adv A K Q,
  let n := num_bits (b - a - 1) in let q := order (grp g) in
  plain ok -> (forall g, distinguished g) -> prime q -> 2 ^ 129 <= q -> a < b -> 2 ^ (Z.of_nat n + 1) <= q ->
  mk_range com g h a b x r x1 x2 rs1 rs2 sb = Ok (s0, st) -> List.length rs1 = n -> List.length rs2 = n -> grp h = grp g ->
  (forall pre v s a1, process_pre s0 (get_verifier s0) pre st = Ok ((v, s), a1) -> coh (env a1) (svars s)) ->
  (forall z v s a1, ok z = true -> process_pre s0 (get_verifier s0) (n_pre z) st = Ok ((v, s), a1) ->
     canonical s (n_resp z) /\ forall i, i = 1%nat \/ i = 2%nat -> exists p cs, index (n_pre z) i = Ok p /\ getitem p (lit "Cs") = Ok (VList cs) /\ List.length cs = n) ->
  asks Q adv -> spread A [2 ^ 128; q] K -> 0 <= K ->
  Z.of_nat (Q + 2) * K * len A ^ Z.of_nat (Q + 2) < len A * count (won ok s0 st adv) (tapes A (Q + 2)) ->
  exists z z' v s a1 w p1 p2 u1 t1 u2 t2 z1 z1' z2 z2', two_runs ok s0 st adv A (Q + 2) z z' /\
    process_pre s0 (get_verifier s0) (n_pre z) st = Ok ((v, s), a1) /\
    Extr w s (n_chal z) (n_chal z') (n_resp z) (n_resp z') /\ index (n_pre z) 1 = Ok p1 /\ index (n_pre z) 2 = Ok p2 /\
    index (n_resp z) 1 = Ok z1 /\ index (n_resp z') 1 = Ok z1' /\ opening q p1 z1 z1' n u1 t1 /\
    index (n_resp z) 2 = Ok z2 /\ index (n_resp z') 2 = Ok z2' /\ opening q p2 z2 z2' n u2 t2 /\
    com = padd (pmul (w q (sname x)) g) (pmul (w q (sname r)) h) /\
    com = padd (pmul (a + u1) g) (pmul t1 h) /\ com = padd (pmul (b - 2 ^ Z.of_nat n + u2) g) (pmul t2 h) /\
    ((a <= a + u1 < b /\ (q | w q (sname x) - (a + u1))) \/
     ~ (q | w q (sname x) - (a + u1)) \/ ~ (q | a + u1 - (b - 2 ^ Z.of_nat n + u2))).
Proof. exact @rom_range. Qed.
Print Assumptions C88_range_partial.

(** ** Examples: provers that know values and run prove() *)
(** values whose points are in the group [G], without tuples *)
Fixpoint plainv (G : zgid) (v : @val Zq) : bool :=
  match v with
  | VPt p => zgid_eqb (zg p) G
  | VTuple _ => false
  | VList l => forallb (plainv G) l
  | VDict d => forallb (fun kx => plainv G (snd kx)) d
  | _ => true
  end.
Lemma plainv_eq G v : forall w, plainv G v = true -> plainv G w = true -> wire_alike v w -> v = w.
Proof.
  induction v as [|z|p|s|s|l IH|l IH|d IH] using val_ind'; intros w P P' A; inversion A as [| |p0 q0 E| | |v0 w0 l0 m0 E1 E2 F|d0 d' F]; subst; auto;
    try (destruct E1; discriminate).
  - cbn in P, P'. apply zgid_eqb_spec in P, P'. f_equal. apply (Zq_distinguished G); auto.
  - destruct E1 as [E1|]; [injection E1 as <-|discriminate]. destruct E2 as [->| ->]; [|discriminate P'].
    f_equal. cbn [plainv] in P, P'. clear A. revert m0 P' F. induction IH as [|x l Hx _ IHl]; intros m P' F; inversion F; subst; auto.
    cbn [forallb] in P, P'. apply andb_prop in P as [P1 P2]. apply andb_prop in P' as [P1' P2']. f_equal; auto.
  - f_equal. cbn [plainv] in P, P'. clear A. revert d' P' F. induction IH as [|[k x] l Hx _ IHl]; intros m P' F; inversion F as [|a [k' y] c e [F1 F2] F3]; subst; auto.
    cbn [forallb fst snd] in *. apply andb_prop in P as [P1 P2]. apply andb_prop in P' as [P1' P2']. subst k'. f_equal; auto. f_equal. auto.
Qed.
Definition okv (G : zgid) (z : @nizk Zq) : bool := plainv G (n_pre z) && match n_pre z with VBytes _ | VStr _ => false | _ => true end.
Lemma okv_plain G (f : @nizk Zq -> bool) : plain (fun z => okv G z && f z).
Proof.
  split; intros z.
  - intros H. apply andb_prop in H as [H _]. apply andb_prop in H as [_ H]. destruct (n_pre z); try discriminate; exact I.
  - intros z' H H'. apply andb_prop in H as [H _], H' as [H' _]. apply andb_prop in H as [H _], H' as [H' _]. now apply (plainv_eq G).
Qed.
(** prove() *)
Definition prover_of (s : @stmt Zq) (sd : dict Z) (a : st) : prog (@nizk Zq * bytes) :=
  pbind (prove_ro s sd (lit "m") a) (fun r => Ret (match proof_part r with Ok z => z | Err _ => mkNizk 0 VNone VNone VNone end, lit "m")).
Lemma prover_asks s sd a : asks 2 (prover_of s sd a).
Proof.
  unfold prover_of, prove_ro. destruct (committed s sd a) as [[[[[pre com] p] s'] a']|]; [|exact I]. destruct (prehash_input s'); [|exact I].
  cbn [pbind]. intros y. destruct (fs_input _ _ _); [|exact I]. cbn [pbind]. intros y'. exact I.
Qed.
Lemma start_coh s0 pre v s a1 : process_pre s0 (get_verifier s0) pre st0 = Ok ((v, s), a1) -> coh (env a1) (svars s).
Proof. intros H. apply process_keeps in H. subst a1. apply any_coh. Qed.
(** Who needs only [u] answers to succeed always, succeeds with all longer lists of answers. *)
Lemma won_all {W : World} ok s a adv A u k n : n = (u + k)%nat -> forallb (won ok s a adv) (tapes A u) = true -> count (won ok s a adv) (tapes A n) = len A ^ Z.of_nat n.
Proof.
  intros -> H. rewrite <- Forking.tapes_len. rewrite forallb_forall in H.
  assert (X : forall t, In t (tapes A (u + k)) -> won ok s a adv t = true).
  { intros t I. apply Forking.tapes_in in I as [L F]. rewrite <- (firstn_skipn u t) in F |- *. apply Forall_app in F as [F _].
    assert (Y : won ok s a adv (firstn u t) = true) by (apply H, Forking.tapes_in; split; [rewrite firstn_length; lia|exact F]).
    unfold won in *. destruct (sample (game s a adv) [] (firstn u t)) as [[r m]|] eqn:E; [|discriminate]. now rewrite (OracleProofs.sample_more _ _ _ _ _ _ E). }
  induction (tapes A (u + k)) as [|t T I]; [reflexivity|]. unfold count, len in *. cbn [filter List.length]. rewrite X by now left. cbn [List.length].
  rewrite !Nat2Z.inj_succ. f_equal. apply I. intros t' I'. apply X. now right.
Qed.
Lemma spread_five qs : forallb (fun y => count (fun y' => negb (apart qs y y')) five <=? 1) five = true -> spread five qs 1.
Proof. intros H y I. rewrite forallb_forall in H. apply H in I. now apply Z.leb_le. Qed.

(** The signature of C35 *)
Definition sigok (z : @nizk Zq) : bool := okv (1%N, 99%N) z && true.
Example C88_ex_signature :
  plain sigok /\ (forall g, @distinguished Zq g) /\ bbs_pk_ok exPk /\ pk_gens exPk = [B1 2; B1 3; B1 5; B1 7] /\
  (forall G, pairs G (grp (pk_h0 exPk)) <> None -> G = grp (B1 2)) /\ prime 101 /\
  (forall pre v s a1, process_pre exBV (get_verifier exBV) pre st0 = Ok ((v, s), a1) -> coh (env a1) (svars s)) /\
  asks 2 (prover_of exBB exBsd stB) /\ spread five [101] 1 /\
  Z.of_nat (2 + 2) * 1 * len five ^ Z.of_nat (2 + 2) < len five * count (won sigok exBV st0 (prover_of exBB exBsd stB)) (tapes five (2 + 2)).
Proof.
  destruct C35_ex as (_ & _ & _ & _ & H5 & _ & _ & _ & _ & _ & _ & _ & H13 & _).
  split; [apply okv_plain|]. split; [exact Zq_distinguished|]. split; [exact H5|]. split; [reflexivity|]. split; [exact H13|]. split; [exact prime101|].
  split; [intros pre v s a1; apply start_coh|]. split; [apply prover_asks|]. split; [apply spread_five; vm_compute; reflexivity|].
  rewrite (won_all _ _ _ _ _ 2 2); [reflexivity|reflexivity|vm_compute; reflexivity].
Qed.

(** responses to the proofs of bits: two small sub-challenges each *)
Definition small (c : Z) : bool := Z.abs c <? 2 ^ 128.
Definition bit_resp (v : @val Zq) : bool := match v with VTuple [VList [VInt a; VInt b]; _] => small a && small b | _ => false end.
Definition bits_resp (v : @val Zq) : bool := match v with VList l => forallb bit_resp l | _ => false end.
Lemma bits_canonical e h subs f r : (forall y, In y subs -> exists C C1 r b, y = bitx e h C C1 r b) -> bits_resp r = true -> canonical (SAnd subs f) r.
Proof.
  intros H B. destruct r; try discriminate B. cbn [bits_resp] in B. rewrite forallb_forall in B. apply CaAnd. intros i y ri N E.
  destruct (H y (nth_error_In _ _ N)) as (C & C1 & r & b & ->). cbn [index] in E. destruct (nth_error l i) eqn:El; [|discriminate]. injection E as <-.
  apply nth_error_In, B in El. destruct v as [| | | | | |[|[| | | | |[|[|c| | | | | |] [|[|c'| | | | | |] [|]]]| |] [|rs [|]]]|]; try discriminate El.
  cbn in El. apply andb_prop in El as [E1 E2]. apply Z.ltb_lt in E1, E2. unfold bitx.
  eapply (CaOr _ _ _ _ [c; c']); [left; reflexivity|reflexivity|repeat constructor; assumption|].
  intros [|[|j]] y z Y _; [injection Y as <-; constructor|injection Y as <-; constructor|destruct j; discriminate].
Qed.
Lemma range_canonical com g h n isp x r rs pre st con sim a : construct (KRange com g h n isp x r rs) pre st = Ok (con, st) ->
  bits_resp a = true -> canonical (SExt (KRange com g h n isp x r rs) sim pre (Some con)) a.
Proof.
  intros H B. cbn [construct] in H. apply construct_range_inv in H as (_ & bits & subs & _ & -> & _ & LS & F). apply CaExt, (bits_canonical (env st) h); auto.
  intros y Hy. apply In_nth_error in Hy as (j & Nj). destruct (nth_error (combine rs bits) j) as [[r0 b]|] eqn:E.
  - destruct (F j r0 b E) as (C & C1 & _ & _ & N). rewrite N in Nj. injection Nj as <-. eauto.
  - apply nth_error_None in E. assert (j < List.length subs)%nat by (apply nth_error_Some; congruence). lia.
Qed.
Definition two_bits (p : @val Zq) : bool := match getitem p (lit "Cs") with Ok (VList [_; _]) => true | _ => false end.
Lemma two_bits_ok p : two_bits p = true -> exists cs, getitem p (lit "Cs") = Ok (VList cs) /\ List.length cs = 2%nat.
Proof.
  unfold two_bits. destruct (getitem p (lit "Cs")) as [[| | | | |[|a [|b [|]]]| |]|]; try discriminate. intros _. eauto.
Qed.
(** The commitment 1*3 + 20*5 of C30, in the group of 5*2^127+1 elements, and a prover that knows 1 and 20 *)
Definition rgok (z : @nizk Zq) : bool := okv (zg (Bp 3)) z && (bits_resp (n_resp z) && two_bits (n_pre z)).
Definition stRg : st := mkSt (upd (upd (env st0) (sid sv) (Some 1)) (sid sr) (Some 20)) (tape st0) 0.
Definition advRg := prover_of (SExt (KRange (Bp 103) (Bp 3) (Bp 5) 2 true sv sr [sr0; sr1]) false VNone None) [] stRg.
Example C88_ex_power_range :
  plain rgok /\ prime bigp /\ 2 ^ 129 <= bigp /\
  (forall pre v s a1, process_pre exRg (get_verifier exRg) pre st0 = Ok ((v, s), a1) -> coh (env a1) (svars s)) /\
  (forall z v s a1, rgok z = true -> process_pre exRg (get_verifier exRg) (n_pre z) st0 = Ok ((v, s), a1) ->
     canonical s (n_resp z) /\ exists cs, getitem (n_pre z) (lit "Cs") = Ok (VList cs) /\ List.length cs = 2%nat) /\
  asks 2 advRg /\ spread five [2 ^ 128; bigp] 1 /\
  Z.of_nat (2 + 2) * 1 * len five ^ Z.of_nat (2 + 2) < len five * count (won rgok exRg st0 advRg) (tapes five (2 + 2)).
Proof.
  split; [apply okv_plain|]. split; [exact prime_bigp|]. split; [exact bigp_size|]. split; [intros pre v s a1; apply start_coh|].
  split; [|split; [apply prover_asks|split; [apply spread_five; vm_compute; reflexivity|rewrite (won_all _ _ _ _ _ 2 2); [reflexivity|reflexivity|vm_compute; reflexivity]]]].
  intros z v s a1 H P. apply andb_prop in H as [_ H]. apply andb_prop in H as [H1 H2]. split; [|now apply two_bits_ok].
  apply process_ext in P as (con & CN & _ & -> & _). eapply range_canonical; eauto.
Qed.
(** The range [8, 12) for the commitment 9*3 + 20*5 of C54 and a prover that knows 9 and 20 *)
Definition r2ok (z : @nizk Zq) : bool := okv (zg (Bp 3)) z &&
  match n_pre z, n_resp z with VList [_; p1; p2], VList [_; r1; r2] => two_bits p1 && two_bits p2 && (bits_resp r1 && bits_resp r2) | _, _ => false end.
Definition stR2 : st := mkSt (upd (upd (env st0) (sid sv) (Some 9)) (sid sr) (Some 20)) (tape st0) 0.
Definition advR2 : prog (@nizk Zq * bytes) :=
  match mk_range (Bp 127) (Bp 3) (Bp 5) 8 12 sv sr sx sy [sr0; sr1] [sr2; su] stR2 with
  | Ok (s, a) => prover_of s [] a
  | Err _ => Ret (mkNizk 0 VNone VNone VNone, [])
  end.
Example C88_ex_range :
  plain r2ok /\ prime bigp /\ 2 ^ 129 <= bigp /\ num_bits (12 - 8 - 1) = 2%nat /\ 2 ^ (Z.of_nat 2 + 1) <= bigp /\ exR2 st0 = Ok (exR2s0, st0) /\
  (forall pre v s a1, process_pre exR2s0 (get_verifier exR2s0) pre st0 = Ok ((v, s), a1) -> coh (env a1) (svars s)) /\
  (forall z v s a1, r2ok z = true -> process_pre exR2s0 (get_verifier exR2s0) (n_pre z) st0 = Ok ((v, s), a1) ->
     canonical s (n_resp z) /\ forall i, i = 1%nat \/ i = 2%nat -> exists p cs, index (n_pre z) i = Ok p /\ getitem p (lit "Cs") = Ok (VList cs) /\ List.length cs = 2%nat) /\
  asks 2 advR2 /\ spread five [2 ^ 128; bigp] 1 /\
  Z.of_nat (2 + 2) * 1 * len five ^ Z.of_nat (2 + 2) < len five * count (won r2ok exR2s0 st0 advR2) (tapes five (2 + 2)).
Proof.
  destruct C54_ex as (MK & _ & N2 & _). split; [apply okv_plain|]. split; [exact prime_bigp|]. split; [exact bigp_size|]. split; [exact N2|].
  split; [vm_compute; discriminate|]. split; [exact MK|]. split; [intros pre v s a1; apply start_coh|].
  split; [|split; [unfold advR2; destruct (mk_range _ _ _ _ _ _ _ _ _ _ _ _) as [[s a]|]; [apply prover_asks|exact I]
                  |split; [apply spread_five; vm_compute; reflexivity|rewrite (won_all _ _ _ _ _ 2 2); [reflexivity|reflexivity|vm_compute; reflexivity]]]].
  intros z v s a1 H P. apply RangeC.mk_range_inv in MK as (com1 & com2 & _ & _ & _ & E). rewrite E in P. cbv zeta in P. clear E.
  apply andb_prop in H as [_ H]. destruct (n_pre z) as [| | | | |[|x0 [|p1 [|p2 [|]]]]| |] eqn:EP; try discriminate H.
  destruct (n_resp z) as [| | | | |[|y0 [|r1 [|r2 [|]]]]| |] eqn:ER; try discriminate H.
  apply andb_prop in H as [H1 H2]. apply andb_prop in H1 as [H1 H1'], H2 as [H2 H2'].
  split; [|intros i [->| ->]; [destruct (two_bits_ok _ H1) as (cs & X)|destruct (two_bits_ok _ H1') as (cs & X)]; do 2 eexists; split; [reflexivity|exact X|reflexivity|exact X]].
  apply three_processed in P as (q1 & q2 & c1 & c2 & I1 & I2 & C1 & C2 & _ & ->); [|reflexivity].
  injection I1 as <-. injection I2 as <-. apply CaAnd. intros [|[|[|i]]] y ri N E; [| | |destruct i; discriminate N]; injection N as <-; injection E as <-.
  - constructor.
  - eapply range_canonical; eauto.
  - eapply range_canonical; eauto.
Qed.
(** x*3 = 12 or y*5 = 7, and a prover that knows x *)
Definition exO : @stmt Zq := SOr [SDL (mkDL (Bp 12) [Bp 3] [sx] [] false); SDL (mkDL (Bp 7) [Bp 5] [sy] [] false)] false None.
Definition orok (z : @nizk Zq) : bool := okv (zg (Bp 3)) z && bit_resp (n_resp z).
Example C88_ex_or :
  plain orok /\ (forall g, @distinguished Zq g) /\ sane [bigp] exO st0 /\ (forall q, In q [bigp] -> 2 ^ 129 <= q) /\
  (forall z v s a1, orok z = true -> process_pre exO (get_verifier exO) (n_pre z) st0 = Ok ((v, s), a1) -> canonical s (n_resp z)) /\
  asks 2 (prover_of exO [(sx, 4)] st0) /\ spread five [2 ^ 128; bigp] 1 /\
  Z.of_nat (2 + 2) * 1 * len five ^ Z.of_nat (2 + 2) < len five * count (won orok exO st0 (prover_of exO [(sx, 4)] st0)) (tapes five (2 + 2)).
Proof.
  assert (PR : forall pre v s a1, process_pre exO (get_verifier exO) pre st0 = Ok ((v, s), a1) -> s = exO /\ a1 = st0).
  { intros pre v s a1 H. split; [|now apply process_keeps in H]. revert H. cbn [exO process_pre get_verifier map]. destruct (is_none pre); [intros H; injection H as <- <- <-; auto|].
    unfold bind, lift, ret. destruct (index pre 0); [|discriminate]. destruct (index pre 1); [|discriminate].
    intros H. injection H as <- <- <-. auto. }
  split; [apply okv_plain|]. split; [exact Zq_distinguished|].
  split; [split; [repeat constructor|]; intros pre v s a1 H; apply PR in H as [-> ->]; split; [apply any_coh|]|].
  - assert (Q : prime bigp /\ In bigp [bigp]) by (split; [exact prime_bigp|now left]).
    repeat (apply OiOr || apply Forall_cons || apply Forall_nil || (apply OiDL; exact Q)).
  - split; [intros q [<-|[]]; exact bigp_size|]. split; [|split; [apply prover_asks|split; [apply spread_five; vm_compute; reflexivity|rewrite (won_all _ _ _ _ _ 2 2); [reflexivity|reflexivity|vm_compute; reflexivity]]]].
    intros z v s a1 H P. apply PR in P as [-> _]. apply andb_prop in H as [_ H].
    destruct (n_resp z) as [| | | | | |[|[| | | | |[|[|c| | | | | |] [|[|c'| | | | | |] [|]]]| |] [|rs [|]]]|]; try discriminate H.
    cbn in H. apply andb_prop in H as [E1 E2]. apply Z.ltb_lt in E1, E2. unfold exO.
    eapply (CaOr _ _ _ _ [c; c']); [left; reflexivity|reflexivity|repeat constructor; assumption|].
    intros [|[|j]] y t Y _; [injection Y as <-; constructor|injection Y as <-; constructor|destruct j; discriminate].
Qed.

(** Signature and range proofs in the random oracle model. *)
From Coq Require Import String Znumtheory.
From Verif Require Import Base World Val Expr Utils Stmt Prove Verify Spec Shapes Claims Clauses Extract Ident Alike Bbs Lib Tree Sound Sound2 Sound3 Sound4
  RangeC RangeS RangeS2 Opening RangeX Oracle Forking OracleProofs.
Open Scope Z_scope.
Open Scope list_scope.

Section O.
Context {W : World}.
Theorem rom_signature ok pk sig es ss ms r1 r2 d1 d2 sim a adv A K Q g0 g1 g2 gens :
  let sv := es :: ss :: ms in
  let s0 := SExt (KBBS pk sig (firstn (List.length sv) (pk_gens pk)) sv r1 r2 d1 d2) sim VNone None in
  let q := order (grp g0) in
  plain ok -> (forall g, distinguished g) -> bbs_pk_ok pk -> pk_gens pk = g0 :: g1 :: g2 :: gens ->
  (forall G, pairs G (grp (pk_h0 pk)) <> None -> G = grp g0) -> prime q ->
  (forall pre v s a1, process_pre s0 (get_verifier s0) pre a = Ok ((v, s), a1) -> coh (env a1) (svars s)) ->
  asks Q adv -> spread A [q] K -> 0 <= K ->
  Z.of_nat (Q + 2) * K * len A ^ Z.of_nat (Q + 2) < len A * count (won ok s0 a adv) (tapes A (Q + 2)) ->
  exists z z' v s a1 w, two_runs ok s0 a adv A (Q + 2) z z' /\ process_pre s0 (get_verifier s0) (n_pre z) a = Ok ((v, s), a1) /\
    Extr w s (n_chal z) (n_chal z') (n_resp z) (n_resp z') /\
    let x n := w q (sname n) in
    padd (pmul (x d1 - x es * x r1) g1) (pmul (x d2 - x es * x r2) g2) = inf (grp g0) /\
    (((q | x d1 - x es * x r1) /\ (q | x d2 - x es * x r2)) -> exists A2, getitem (n_pre z) (lit "A2") = Ok (VPt A2) /\
       bbs_valid pk (mkSig (padd A2 (pmul (- x r1) g2)) (x es) (x ss)) (x es) (x ss) (map x ms)).
Proof.
  intros sv s0 q Pl Di PK Eg PG Pq Co As Sp HK Lt.
  destruct (rom_fork ok s0 a adv A [q] K Q Pl Di As Sp HK Lt) as
    (t & t' & z & z' & msg & m & m' & v & s & a1 & com & I1 & I2 & (u & y & y' & r & r' & _ & _ & E & E' & Ap) & S1 & S2 & O1 & O2 & W1 & W2 & EP & P & V & V').
  destruct (bbs_sound pk sig es ss ms r1 r2 d1 d2 sim (n_pre z) a v s a1 (env a1) com (n_chal z) (n_chal z') (n_resp z) (n_resp z') g0 g1 g2 gens PK Eg PG P Pq (Co _ _ _ _ P)) as (w & X & R1 & R2); auto.
  { rewrite E, E'. apply (apart_in [q]); auto. now left. }
  exists z, z', v, s, a1, w. split; [exists t, t', msg, m, m'; auto 10|]. auto.
Qed.

Theorem rom_power_range ok com g h n isp x r rs sim a adv A K Q :
  let s0 := SExt (KRange com g h n isp x r rs) sim VNone None in let q := order (grp g) in
  plain ok -> (forall g, distinguished g) -> prime q -> 2 ^ 129 <= q -> grp h = grp g -> List.length rs = n ->
  (forall pre v s a1, process_pre s0 (get_verifier s0) pre a = Ok ((v, s), a1) -> coh (env a1) (svars s)) ->
  (forall z v s a1, ok z = true -> process_pre s0 (get_verifier s0) (n_pre z) a = Ok ((v, s), a1) ->
     canonical s (n_resp z) /\ exists cs, getitem (n_pre z) (lit "Cs") = Ok (VList cs) /\ List.length cs = n) ->
  asks Q adv -> spread A [2 ^ 128; q] K -> 0 <= K ->
  Z.of_nat (Q + 2) * K * len A ^ Z.of_nat (Q + 2) < len A * count (won ok s0 a adv) (tapes A (Q + 2)) ->
  exists z z' u t, two_runs ok s0 a adv A (Q + 2) z z' /\
    opening q (n_pre z) (n_resp z) (n_resp z') n u t /\ 0 <= u < 2 ^ Z.of_nat n /\ com = padd (pmul u g) (pmul t h).
Proof.
  intros s0 q Pl Di Pq Bq Gh Lr Co Ca As Sp HK Lt.
  destruct (rom_fork ok s0 a adv A [2 ^ 128; q] K Q Pl Di As Sp HK Lt) as
    (t & t' & z & z' & msg & m & m' & v & s & a1 & cm & I1 & I2 & (u & y & y' & r0 & r' & _ & _ & E & E' & Ap) & S1 & S2 & O1 & O2 & W1 & W2 & EP & P & V & V').
  destruct (Ca z v s a1 O1 P) as (K1 & cs & EC & LC). assert (P' := P). rewrite EP in P'. destruct (Ca z' v s a1 O2 P') as (K2 & _).
  destruct (range_sound_from com g h n isp x r rs sim (n_pre z) a v s a1 (env a1) cm (n_chal z) (n_chal z') (n_resp z) (n_resp z') cs P) as (k & l & OP & R & EQ); auto.
  - rewrite E, E'. eapply apart_in; eauto. right. now left.
  - rewrite E, E'. eapply apart_in; eauto. now left.
  - eauto.
  - exists z, z', k, l. split; [exists t, t', msg, m, m'; auto 10|]. auto.
Qed.

Theorem rom_range ok com g h a b x r x1 x2 rs1 rs2 sb s0 st adv A K Q :
  let n := num_bits (b - a - 1) in let q := order (grp g) in
  plain ok -> (forall g, distinguished g) -> prime q -> 2 ^ 129 <= q -> a < b -> 2 ^ (Z.of_nat n + 1) <= q ->
  mk_range com g h a b x r x1 x2 rs1 rs2 sb = Ok (s0, st) -> List.length rs1 = n -> List.length rs2 = n -> grp h = grp g ->
  (forall pre v s a1, process_pre s0 (get_verifier s0) pre st = Ok ((v, s), a1) -> coh (env a1) (svars s)) ->
  (forall z v s a1, ok z = true -> process_pre s0 (get_verifier s0) (n_pre z) st = Ok ((v, s), a1) ->
     canonical s (n_resp z) /\ forall i, i = 1%nat \/ i = 2%nat -> exists p cs, index (n_pre z) i = Ok p /\ getitem p (lit "Cs") = Ok (VList cs) /\ List.length cs = n) ->
  asks Q adv -> spread A [2 ^ 128; q] K -> 0 <= K ->
  Z.of_nat (Q + 2) * K * len A ^ Z.of_nat (Q + 2) < len A * count (won ok s0 st adv) (tapes A (Q + 2)) ->
  exists z z' v s a1 w p1 p2 u1 t1 u2 t2 z1 z1' z2 z2', two_runs ok s0 st adv A (Q + 2) z z' /\
    process_pre s0 (get_verifier s0) (n_pre z) st = Ok ((v, s), a1) /\
    Extr w s (n_chal z) (n_chal z') (n_resp z) (n_resp z') /\ index (n_pre z) 1 = Ok p1 /\ index (n_pre z) 2 = Ok p2 /\
    index (n_resp z) 1 = Ok z1 /\ index (n_resp z') 1 = Ok z1' /\ opening q p1 z1 z1' n u1 t1 /\
    index (n_resp z) 2 = Ok z2 /\ index (n_resp z') 2 = Ok z2' /\ opening q p2 z2 z2' n u2 t2 /\
    com = padd (pmul (w q (sname x)) g) (pmul (w q (sname r)) h) /\
    com = padd (pmul (a + u1) g) (pmul t1 h) /\ com = padd (pmul (b - 2 ^ Z.of_nat n + u2) g) (pmul t2 h) /\
    ((a <= a + u1 < b /\ (q | w q (sname x) - (a + u1))) \/
     ~ (q | w q (sname x) - (a + u1)) \/ ~ (q | a + u1 - (b - 2 ^ Z.of_nat n + u2))).
Proof.
  intros n q Pl Di Pq Bq AB Bn MK L1 L2 Gh Co Ca As Sp HK Lt.
  destruct (rom_fork ok s0 st adv A [2 ^ 128; q] K Q Pl Di As Sp HK Lt) as
    (t & t' & z & z' & msg & m & m' & v & s & a1 & cm & I1 & I2 & (u & y & y' & r0 & r' & _ & _ & E & E' & Ap) & S1 & S2 & O1 & O2 & W1 & W2 & EP & P & V & V').
  destruct (Ca z v s a1 O1 P) as (K1 & CS). assert (P' := P). rewrite EP in P'. destruct (Ca z' v s a1 O2 P') as (K2 & _).
  destruct (CS 1%nat ltac:(auto)) as (p1 & cs1 & J1 & C1 & N1). destruct (CS 2%nat ltac:(auto)) as (p2 & cs2 & J2 & C2 & N2).
  destruct (range_sound_all_from com g h a b x r x1 x2 rs1 rs2 sb s0 (n_pre z) st v s a1 (env a1) cm (n_chal z) (n_chal z') (n_resp z) (n_resp z') p1 p2 cs1 cs2 MK P L1 L2 Gh J1 C1 N1 J2 C2 N2)
    as (w & u1 & t1 & u2 & t2 & z1 & z1' & z2 & z2' & R); auto.
  - rewrite E, E'. eapply apart_in; eauto. right. now left.
  - rewrite E, E'. eapply apart_in; eauto. now left.
  - eauto.
  - exists z, z', v, s, a1, w, p1, p2, u1, t1, u2, t2, z1, z1', z2, z2'. split; [exists t, t', msg, m, m'; auto 10|]. tauto.
Qed.
End O.

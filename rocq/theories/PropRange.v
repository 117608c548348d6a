(** Property C54: soundness of generic ranges (RangeStmt). *)
From Coq Require Import String Znumtheory.
From Verif Require Import Base World Val Expr Utils Stmt Prove Verify Spec Shapes Claims Honest Clauses Supply Extract Runs
  Sound Sound2 Sound3 Sound4 Prims RangeC RangeS RangeS2 Leak Opening RangeX ZqWorld Ex ExTree Proth PropSound PropPrim.
Open Scope Z_scope.
Open Scope list_scope.

(** From two accepted answers to one commitment three openings of the commitment are computed (from the representation and
    from the two power-of-two ranges): either the value of the first is in the range, or two of them are different, which is a
    relation between the two bases. Partial as C30: the numbers of bit commitments and the sub-challenges are as an honest
    prover sends them, which the verifier does not check. *)
Theorem C54_range_sound_partial : forall (W : World) com g h a b x r x1 x2 rs1 rs2 sb s0 pre st v s st1 e c0 c c' z z' p1 p2 cs1 cs2,
  let n := num_bits (b - a - 1) in let q := order (grp g) in
  mk_range com g h a b x r x1 x2 rs1 rs2 sb = Ok (s0, st) ->
  process_pre s0 (get_verifier s0) pre st = Ok ((v, s), st1) -> List.length rs1 = n -> List.length rs2 = n -> grp h = grp g ->
  index pre 1 = Ok p1 -> getitem p1 (lit "Cs") = Ok (VList cs1) -> List.length cs1 = n ->
  index pre 2 = Ok p2 -> getitem p2 (lit "Cs") = Ok (VList cs2) -> List.length cs2 = n ->
  prime q -> 2 ^ 129 <= q -> a < b -> 2 ^ (Z.of_nat n + 1) <= q ->
  ~ (q | c - c') -> ~ (2 ^ 128 | c - c') -> coh e (svars s) -> canonical s z -> canonical s z' ->
  verify_resp e s v c0 c z = Ok true -> verify_resp e s v c0 c' z' = Ok true ->
  exists w u1 t1 u2 t2 z1 z1' z2 z2',
    Extr w s c c' z z' /\
    index z 1 = Ok z1 /\ index z' 1 = Ok z1' /\ opening q p1 z1 z1' n u1 t1 /\
    index z 2 = Ok z2 /\ index z' 2 = Ok z2' /\ opening q p2 z2 z2' n u2 t2 /\
    com = padd (pmul (w q (sname x)) g) (pmul (w q (sname r)) h) /\
    com = padd (pmul (a + u1) g) (pmul t1 h) /\ com = padd (pmul (b - 2 ^ Z.of_nat n + u2) g) (pmul t2 h) /\
    ((a <= a + u1 < b /\ (q | w q (sname x) - (a + u1))) \/
     ~ (q | w q (sname x) - (a + u1)) \/ ~ (q | a + u1 - (b - 2 ^ Z.of_nat n + u2))).
Proof. exact @range_sound_all_from. Qed.
Print Assumptions C54_range_sound_partial.

(** The commitment 9*3 + 20*5 and the range [8, 12): two bits each, both reduced commitments are 1*3 + 20*5 (see C30_ex). *)
Definition exR2 : M stmt := mk_range (Bp 127) (Bp 3) (Bp 5) 8 12 sv sr sx sy [sr0; sr1] [sr2; su].
Definition exR2s0 : stmt := match run exR2 st0 with Ok s => s | Err _ => exDL end.
Definition exR2pre : val := VList [VNone; exRgpre; exRgpre].
Definition exR2com : val := VList [VPt (Bp (11*3 + 13*5)); exRgcom; exRgcom].
Definition exR2a (c : Z) : val := VList [VList [VInt (11 + c*9); VInt (13 + c*20)]; exRga c; exRga c].
Definition exR2s : stmt :=
  match run (process_pre exR2s0 (get_verifier exR2s0) exR2pre) st0 with Ok (_, s) => s | Err _ => exDL end.
Definition exR2v : verifier :=
  match run (process_pre exR2s0 (get_verifier exR2s0) exR2pre) st0 with Ok (v, _) => v | Err _ => RDL end.
Example C54_ex : let q := bigp in
  exR2 st0 = Ok (exR2s0, st0) /\ process_pre exR2s0 (get_verifier exR2s0) exR2pre st0 = Ok ((exR2v, exR2s), st0) /\
  num_bits (12 - 8 - 1) = 2%nat /\ index exR2pre 1 = Ok exRgpre /\ index exR2pre 2 = Ok exRgpre /\
  getitem exRgpre (lit "Cs") = Ok (VList [VPt (Bp 38); VPt (Bp 55)]) /\
  prime q /\ 2 ^ 129 <= q /\ 2 ^ (2 + 1) <= q /\ ~ (q | 100 - 200) /\ ~ (2 ^ 128 | 100 - 200) /\ coh (env st0) (svars exR2s) /\
  canonical exR2s (exR2a 100) /\ canonical exR2s (exR2a 200) /\
  verify_resp (env st0) exR2s exR2v exR2com 100 (exR2a 100) = Ok true /\
  verify_resp (env st0) exR2s exR2v exR2com 200 (exR2a 200) = Ok true.
Proof.
  assert (K : forall c, Z.abs (c - 9) < 2 ^ challenge_length -> Z.abs (c - 8) < 2 ^ challenge_length -> canonical exR2s (exR2a c)).
  { intros c K1 K2. apply CaAnd. intros [|[|[|i]]] u0 r0 N0 I0; [| | |destruct i; discriminate]; injection N0 as <-; injection I0 as <-; [constructor| |];
    (apply CaExt; apply CaAnd; intros i u ri N I;
    assert (forall p q j y w z, nth_error [SDL p; SDL q] j = Some y -> index w j = Ok z -> canonical y z) as D;
    [intros p q [|[|j]] y w z Y _; try (injection Y as <-; constructor); destruct j; discriminate|];
    destruct i as [|[|i]]; [| |destruct i; discriminate]; injection N as <-; injection I as <-;
    [eapply (CaOr _ _ _ _ [9; c - 9]); [left; reflexivity|reflexivity|repeat constructor; auto|intros j y z; apply D]
    |eapply (CaOr _ _ _ _ [c - 8; 8]); [left; reflexivity|reflexivity|repeat constructor; auto|intros j y z; apply D]]). }
  cbv zeta. split; [reflexivity|]. split; [reflexivity|]. do 4 (split; [reflexivity|]). split; [exact prime_bigp|]. split; [exact bigp_size|].
  split; [vm_compute; discriminate|].
  split; [apply nd_small; vm_compute; split; reflexivity|]. split; [apply nd_small; vm_compute; split; reflexivity|].
  split; [apply any_coh|]. split; [apply K; vm_compute; reflexivity|]. split; [apply K; vm_compute; reflexivity|].
  split; vm_compute; reflexivity.
Qed.

(** Without these checks the claim is false: who knows an opening of the commitment to any value [u], in the range or
    not, can answer every challenge. *)
Theorem C54_out_of_range_refuted : forall (W : World) com g h a b x r x1 x2 rs1 rs2 sb s0 st u t,
  let n := num_bits (b - a - 1) in
  mk_range com g h a b x r x1 x2 rs1 rs2 sb = Ok (s0, st) -> has_sub (grp g) = true -> grp h = grp g -> com = padd (pmul u g) (pmul t h) ->
  (2 <= n)%nat -> List.length rs1 = n -> List.length rs2 = n -> sname x <> sname r ->
  env sb (sid x) = None -> env sb (sid x1) = None -> env sb (sid x2) = None ->
  exists pre v s, process_pre s0 (get_verifier s0) pre st = Ok ((v, s), st) /\
    exists c0, forall e c, exists z, verify_resp e s v c0 c z = Ok true.
Proof. exact @range_forgery_all. Qed.
Print Assumptions C54_out_of_range_refuted.

(** A proof object for "the value committed to in 50*3 + 20*5 is in [8, 12)", accepted by verify(), in the group of order
    101. Each reduced commitment is its own first bit; the superfluous sub-challenge makes up the sum. *)
Definition exO2s0 : stmt :=
  match run (mk_range (Pt (50*3 + 20*5)) (Pt 3) (Pt 5) 8 12 sv sr sx sy [sr0; sr1] [sr2; su]) st0 with Ok s => s | Err _ => exDL end.
Definition exO2pre : val :=
  let p := VDict [(lit "Cs", VList [VPt (Pt (42*3 + 20*5)); VPt (Pt 0)]); (lit "rand", VInt 0)] in VList [VNone; p; p].
Definition exO2a (c : Z) : val :=
  let o := VTuple [VList [VInt 0; VInt 0; VInt c]; VList [VList [VInt 0]; VList [VInt 0]]] in
  VList [VList [VInt (c*50); VInt (c*20)]; VList [o; o]; VList [o; o]].
Definition exO2proof : res nizk :=
  let? s := run (let! vs := process_pre exO2s0 (get_verifier exO2s0) exO2pre in ret (snd vs)) st0 in
  let? h := prehash_input s in
  let? c := fs_challenge h [exO2pre; neutral_com s] (lit "msg") in
  Ok (mkNizk c (exO2a c) exO2pre (VBytes (sha256 h))).
Example C54_forged_ex :
  (match exO2proof with
   | Ok z => match run (verify exO2s0 z (lit "msg")) st0 with Ok (b, _) => b | Err _ => false end
   | Err _ => false end) = true.
Proof. vm_compute. reflexivity. Qed.

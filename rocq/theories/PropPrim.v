(** Properties of the primitives: C27, C29, C30, C32 (provability), and what is wrong with them. *)
From Coq Require Import String Znumtheory.
From Verif Require Import Base World Val Expr Utils Stmt Prove Verify Spec Shapes Claims Honest Clauses Supply Extract Runs
  Sound Sound2 Sound3 Sound4 Prims RangeC RangeS Leak Opening RangeX ZqWorld Ex ExTree Proth PropSound.
Open Scope Z_scope.
Open Scope list_scope.

(** C27. [b] is the blinder that will be drawn. The verifier's statement has the same points and distinct
    secrets with any names. *)
Theorem C27_inequality_complete : forall (W : World) H0 g H1 h x al be bnd v sd msg st,
  NoDup (map sname [x; al; be]) -> NoDup (map sid [x; al; be]) -> has_sub (grp g) = true -> grp H1 = grp g -> grp h = grp g ->
  H0 = pmul v g -> given x v sd (env st) ->
  let q := order (grp g) in let b := tape st (pos st) mod q in
  (exists z s' st', prove (mk_neq H0 g H1 h x al be bnd false) sd msg st = Ok ((z, s'), st') /\
     forall x' al' be' stv, NoDup (map sname [x'; al'; be']) ->
       let sv := mk_neq H0 g H1 h x' al' be' bnd false in
       (b <> 0 -> H1 <> pmul v h -> prime q -> exists sv', verify sv z msg stv = Ok ((true, sv'), stv)) /\
       (b = 0 \/ H1 = pmul v h -> verify sv z msg stv = Err EValidation)) \/
  oversized (mk_neq H0 g H1 h x al be bnd false) sd st.
Proof. exact @neq_complete. Qed.
Print Assumptions C27_inequality_complete.

Definition accepts (sp : stmt) (sd : dict Z) (a : st) (sv : stmt) (stv : st) : res bool :=
  match run (prove sp sd (lit "msg")) a with
  | Ok (z, _) => match run (verify sv z (lit "msg")) stv with Ok (b, _) => Ok b | Err e => Err e end
  | Err e => Err e end.
Example C27_ex : (* 21 = 7*3, 36 <> 7*5, but 35 = 7*5 *)
  given su 7 [(su, 7)] (env st0) /\ tape st0 (pos st0) mod 101 <> 0 /\ Pt 36 <> pmul 7 (Pt 5) /\
  accepts (mk_neq (Pt 21) (Pt 3) (Pt 36) (Pt 5) su sal sbe true false) [(su, 7)] st0
          (mk_neq (Pt 21) (Pt 3) (Pt 36) (Pt 5) sx sy sz true false) st0 = Ok true /\
  accepts (mk_neq (Pt 21) (Pt 3) (Pt 35) (Pt 5) su sal sbe true false) [(su, 7)] st0
          (mk_neq (Pt 21) (Pt 3) (Pt 35) (Pt 5) sx sy sz true false) st0 = Err EValidation.
Proof.
  split; [split; [intros k u [E|[]]; injection E as <- <-; auto|split; [discriminate|left; discriminate]]|].
  split; [vm_compute; discriminate|]. split; [vm_compute; discriminate|]. split; vm_compute; reflexivity.
Qed.

(** C29. The prover's secrets have values when the statement is built (see C47 for the other case). *)
Theorem C29_range_complete : forall (W : World) com g h n x r rs v t sd msg st s,
  mk_range2 com g h n x r rs st = Ok (s, st) ->
  NoDup (map sname (x :: r :: rs)) -> NoDup (map sid (x :: r :: rs)) -> List.length rs = n -> (2 <= n)%nat -> has_sub (grp g) = true -> grp h = grp g ->
  com = padd (pmul v g) (pmul t h) -> 0 <= v < 2 ^ Z.of_nat n ->
  env st (sid x) = Some v -> env st (sid r) = Some t -> (forall k u, In (k, u) sd -> (k = x /\ u = v) \/ (k = r /\ u = t)) ->
  (exists z s' st', prove s sd msg st = Ok ((z, s'), st') /\
     forall x' r' rs' sv stv, NoDup (map sname rs') -> List.length rs' = n ->
       mk_range2 com g h n x' r' rs' stv = Ok (sv, stv) -> env stv (sid x') = None ->
       exists sv', verify sv z msg stv = Ok ((true, sv'), stv)) \/
  oversized s sd st.
Proof. exact @range2_complete. Qed.
Print Assumptions C29_range_complete.

Definition made (m : M stmt) (a : st) (k : stmt -> st -> res bool) : res bool :=
  match m a with Ok (s, a') => k s a' | Err e => Err e end.
Definition rs3 := [sr0; sr1; sr2].
Example C29_ex : (* commitment 5*3 + 20*5, three bits *)
  let a := with_vals [(4%nat, 5); (5%nat, 20)] in
  NoDup (map sname (sv :: sr :: rs3)) /\ NoDup (map sid (sv :: sr :: rs3)) /\ env a (sid sv) = Some 5 /\
  env a (sid sr) = Some 20 /\
  made (mk_range2 (Pt (5*3 + 20*5)) (Pt 3) (Pt 5) 3 sv sr rs3) a (fun s a =>
  made (mk_range2 (Pt (5*3 + 20*5)) (Pt 3) (Pt 5) 3 sx sy [T 40 "a"; T 41 "b"; T 42 "c"]) st0 (fun s' a' =>
  accepts s [] a s' a')) = Ok true.
Proof.
  cbv zeta. split; [repeat constructor; simpl; intuition discriminate|].
  split; [repeat constructor; simpl; intuition discriminate|]. split; [reflexivity|]. split; [reflexivity|].
  vm_compute. reflexivity.
Qed.

(** C32: every value in the range can be proved, for ranges of at least three elements ([2 <= n]; see below for
    smaller ones). [sb] is the state before the prover's statement is built, [sbv] the one of the verifier, who has no
    values. *)
Theorem C32_range_provable : forall (W : World) com g h a b x r x1 x2 rs1 rs2 v t sd msg sb st s,
  let n := num_bits (b - a - 1) in let all := x :: r :: x1 :: x2 :: rs1 ++ rs2 in
  mk_range com g h a b x r x1 x2 rs1 rs2 sb = Ok (s, st) ->
  NoDup (map sname all) -> NoDup (map sid all) -> List.length rs1 = n -> List.length rs2 = n -> (2 <= n)%nat ->
  grp h = grp g -> com = padd (pmul v g) (pmul t h) -> a <= v < b ->
  env sb (sid x) = Some v -> env sb (sid r) = Some t -> (forall k u, In (k, u) sd -> (k = x /\ u = v) \/ (k = r /\ u = t)) ->
  (exists z s' st', prove s sd msg st = Ok ((z, s'), st') /\
     forall x' r' x1' x2' rs1' rs2' svst sbv stv, NoDup (map sname (x' :: r' :: x1' :: x2' :: rs1' ++ rs2')) ->
       List.length rs1' = n -> List.length rs2' = n ->
       mk_range com g h a b x' r' x1' x2' rs1' rs2' sbv = Ok (svst, stv) ->
       env sbv (sid x') = None -> env sbv (sid x1') = None -> env sbv (sid x2') = None ->
       exists sv', verify svst z msg stv = Ok ((true, sv'), stv)) \/
  oversized s sd st.
Proof. exact @range_complete. Qed.
Print Assumptions C32_range_provable.
(** The statement can be built. *)
Theorem C32_range_formed : forall (W : World) com g h a b x r x1 x2 rs1 rs2 sb, has_sub (grp g) = true -> grp com = grp g -> grp h = grp g ->
  exists s st, mk_range com g h a b x r x1 x2 rs1 rs2 sb = Ok (s, st).
Proof. exact @mk_range_total. Qed.
Print Assumptions C32_range_formed.
(** Ranges of one or two elements: nothing can ever be proved. *)
Theorem C32_small_ranges_refuted : forall (W : World) com g h a b x r x1 x2 rs1 rs2 sb s st, a < b <= a + 2 ->
  mk_range com g h a b x r x1 x2 rs1 rs2 sb = Ok (s, st) -> forall sd msg st1 y, prove s sd msg st1 <> Ok y.
Proof. exact @range_small. Qed.
Print Assumptions C32_small_ranges_refuted.
Example C32_ex2 : (* 10 is in [8, 14) and in [10, 12) *)
  let a := with_vals [(4%nat, 10); (5%nat, 20)] in
  let all := sv :: sr :: sx :: sy :: rs3 ++ [X 15 "r3"; X 16 "r4"; X 17 "r5"] in
  NoDup (map sname all) /\ NoDup (map sid all) /\ env a (sid sv) = Some 10 /\ env a (sid sr) = Some 20 /\
  made (mk_range (Pt (10*3 + 20*5)) (Pt 3) (Pt 5) 8 14 sv sr sx sy rs3 [X 15 "r3"; X 16 "r4"; X 17 "r5"]) a (fun s a =>
  made (mk_range (Pt (10*3 + 20*5)) (Pt 3) (Pt 5) 8 14 (T 50 "v") (T 51 "r") (T 52 "x") (T 53 "y")
          [T 40 "a"; T 41 "b"; T 42 "c"] [T 43 "d"; T 44 "e"; T 45 "f"]) st0 (fun s' a' =>
  accepts s [] a s' a')) = Ok true /\
  made (mk_range (Pt (10*3 + 20*5)) (Pt 3) (Pt 5) 10 12 sv sr sx sy [sr0] [sr1]) a (fun s a =>
  accepts s [] a s a) = Err EValueErr.
Proof.
  cbv zeta. split; [repeat constructor; simpl; intuition discriminate|].
  split; [repeat constructor; simpl; intuition discriminate|]. split; [reflexivity|]. split; [reflexivity|].
  split; vm_compute; reflexivity.
Qed.

(** C30, partial: the first message has exactly [n] commitments, sub-challenges are as an honest prover sends them, the
    group is large. The verifier checks none of this, see the refutations below. Number and opening are computed from the two
    responses ([opening]); that some numbers open the commitment says little (in a cyclic group there always are some). *)
Theorem C30_range_sound_partial : forall (W : World) com g h n isp x r rs sim pre st v s st1 e c0 c c' a a' cs,
  let s0 := SExt (KRange com g h n isp x r rs) sim VNone None in let q := order (grp g) in
  process_pre s0 (get_verifier s0) pre st = Ok ((v, s), st1) -> List.length rs = n -> grp h = grp g ->
  getitem pre (lit "Cs") = Ok (VList cs) -> List.length cs = n ->
  prime q -> 2 ^ 129 <= q -> ~ (q | c - c') -> ~ (2 ^ 128 | c - c') -> coh e (svars s) -> canonical s a -> canonical s a' ->
  verify_resp e s v c0 c a = Ok true -> verify_resp e s v c0 c' a' = Ok true ->
  exists u t, opening q pre a a' n u t /\ 0 <= u < 2 ^ Z.of_nat n /\ com = padd (pmul u g) (pmul t h).
Proof. exact @range_sound_from. Qed.
Print Assumptions C30_range_sound_partial.

(** commitment 1*3 + 20*5, two bits with randomizers 7 and 11, 7 + 2*11 - 20 = 9 *)
Definition exRg : stmt := SExt (KRange (Bp 103) (Bp 3) (Bp 5) 2 false sv sr [sr0; sr1]) false VNone None.
Definition exRgpre : val := VDict [(lit "Cs", VList [VPt (Bp 38); VPt (Bp 55)]); (lit "rand", VInt 9)].
Definition exRgcom : val :=
  VList [VList [VPt (Bp (100 - 9*38)); VPt (Bp 50)]; VList [VPt (Bp 65); VPt (Bp (150 - 8*52))]].
Definition exRga (c : Z) : val :=
  VList [VTuple [VList (map VInt [9; c - 9]); VList [VList [VInt 20]; VList [VInt (7*(c-9) + 10)]]];
         VTuple [VList (map VInt [c - 8; 8]); VList [VList [VInt (11*(c-8) + 13)]; VList [VInt 30]]]].
Definition exRgs : stmt :=
  match run (process_pre exRg (get_verifier exRg) exRgpre) st0 with Ok (_, s) => s | Err _ => exRg end.
Definition exRgv : verifier :=
  match run (process_pre exRg (get_verifier exRg) exRgpre) st0 with Ok (v, _) => v | Err _ => RDL end.
Example C30_ex : let q := bigp in
  process_pre exRg (get_verifier exRg) exRgpre st0 = Ok ((exRgv, exRgs), st0) /\
  getitem exRgpre (lit "Cs") = Ok (VList [VPt (Bp 38); VPt (Bp 55)]) /\
  prime q /\ 2 ^ 129 <= q /\ ~ (q | 100 - 200) /\ ~ (2 ^ 128 | 100 - 200) /\ coh (env st0) (svars exRgs) /\
  canonical exRgs (exRga 100) /\ canonical exRgs (exRga 200) /\
  verify_resp (env st0) exRgs exRgv exRgcom 100 (exRga 100) = Ok true /\
  verify_resp (env st0) exRgs exRgv exRgcom 200 (exRga 200) = Ok true /\
  opening q exRgpre (exRga 100) (exRga 200) 2 1 20.
Proof.
  assert (K : forall c, Z.abs (c - 9) < 2 ^ challenge_length -> Z.abs (c - 8) < 2 ^ challenge_length -> canonical exRgs (exRga c)).
  { intros c K1 K2. apply CaExt. apply CaAnd. intros i u ri N I.
    assert (forall p q j y w z, nth_error [SDL p; SDL q] j = Some y -> index w j = Ok z -> canonical y z) as D.
    { intros p q [|[|j]] y w z Y _; try (injection Y as <-; constructor). destruct j; discriminate. }
    destruct i as [|[|i]]; [| |destruct i; discriminate]; injection N as <-; injection I as <-.
    - eapply (CaOr _ _ _ _ [9; c - 9]); [left; reflexivity|reflexivity|repeat constructor; auto|intros j y z; apply D].
    - eapply (CaOr _ _ _ _ [c - 8; 8]); [left; reflexivity|reflexivity|repeat constructor; auto|intros j y z; apply D]. }
  cbv zeta. split; [reflexivity|]. split; [reflexivity|]. split; [exact prime_bigp|]. split; [exact bigp_size|].
  split; [apply nd_small; vm_compute; split; reflexivity|]. split; [apply nd_small; vm_compute; split; reflexivity|].
  split; [apply any_coh|]. split; [apply K; vm_compute; reflexivity|]. split; [apply K; vm_compute; reflexivity|].
  split; [vm_compute; reflexivity|]. split; [vm_compute; reflexivity|].
  exists [1; 0], [7; 11], 9. split; [reflexivity|]. split; [reflexivity|]. split; [|split; [reflexivity|split; reflexivity]].
  intros [|[|j]] b t E1 E2; [| |destruct j; discriminate E1]; injection E1 as <-; injection E2 as <-.
  - do 2 eexists. split; [reflexivity|]. split; [reflexivity|].
    eapply (BitFrom _ _ _ 1); try reflexivity; [lia|apply nd_small; vm_compute; split; reflexivity|exists 0; reflexivity].
  - do 2 eexists. split; [reflexivity|]. split; [reflexivity|].
    eapply (BitFrom _ _ _ 0); try reflexivity; [lia|apply nd_small; vm_compute; split; reflexivity|exists 0; reflexivity].
Qed.

(** A range proof is accepted for every commitment: for one first message and one commitment every challenge can be
    answered, without any secret. First way: the responses carry superfluous sub-challenges. *)
Theorem C30_forgery_refuted : forall (W : World) com g h n x r rs st,
  has_sub (grp g) = true -> grp com = grp g -> grp h = grp g -> (2 <= n)%nat -> List.length rs = n ->
  let s0 := SExt (KRange com g h n false x r rs) false VNone None in
  exists pre v s, process_pre s0 (get_verifier s0) pre st = Ok ((v, s), st) /\
    exists c0, forall e c, exists a, verify_resp e s v c0 c a = Ok true.
Proof. exact @range_forgery. Qed.
Print Assumptions C30_forgery_refuted.
(** Second way: the first message has one commitment too many; the responses look like those of an honest prover. *)
Theorem C30_extra_commitment_refuted : forall (W : World) com g h n x r rs st,
  has_sub (grp g) = true -> grp com = grp g -> grp h = grp g -> (2 <= n)%nat -> List.length rs = n -> Z.odd (order (grp g)) = true ->
  let s0 := SExt (KRange com g h n false x r rs) false VNone None in
  exists pre v s, process_pre s0 (get_verifier s0) pre st = Ok ((v, s), st) /\
    exists c0, forall e c, 0 <= c < 2 ^ 128 -> exists a, canonical s a /\ counted s a /\ verify_resp e s v c0 c a = Ok true.
Proof. exact @range_extra. Qed.
Print Assumptions C30_extra_commitment_refuted.
(** A proof object for "the value committed to in 50*3 + 20*5 has two bits" (in a group of order 101). The first message
    has commitments 0, 0 and (50*3 + 20*5)/4. *)
Definition exFr : stmt := SExt (KRange (Pt (50*3 + 20*5)) (Pt 3) (Pt 5) 2 false sv sr [sr0; sr1]) false VNone None.
Definition exFrpre : val := VDict [(lit "Cs", VList [VPt (Pt 0); VPt (Pt 0); VPt (Pt (250 * 76))]); (lit "rand", VInt 0)].
Definition exFra (c : Z) : val :=
  let a := VTuple [VList [VInt c; VInt 0]; VList [VList [VInt 0]; VList [VInt 0]]] in VList [a; a].
Definition exFrproof : res nizk :=
  let? s := run (let! vs := process_pre exFr (get_verifier exFr) exFrpre in ret (snd vs)) st0 in
  let? h := prehash_input s in
  let? c := fs_challenge h [exFrpre; neutral_com s] (lit "msg") in
  Ok (mkNizk c (exFra c) exFrpre (VBytes (sha256 h))).
Example C30_forged_ex : 4 * 76 mod 101 = 1 /\ Z.odd 101 = true /\
  (match exFrproof with
   | Ok z => match run (verify exFr z (lit "msg")) st0 with Ok (b, _) => b | Err _ => false end
   | Err _ => false end) = true.
Proof. split; [reflexivity|]. split; [reflexivity|]. vm_compute. reflexivity. Qed.

(** C31 is false: one function computes the value from the response of every range proof, except if one of
    the published sub-challenges is 0. [x]: the secret, [v]: its value after the values
    [sd] passed to prove() have been stored. *)
Theorem C31_value_hidden_refuted : forall W : World, exists read : val -> Z,
  forall com g h n isp x r rs sim pre0 con sd msg st z s' st', List.length rs = n -> ~ In (sid x) (map sid rs) ->
  prove (SExt (KRange com g h n isp x r rs) sim pre0 con) sd msg st = Ok ((z, s'), st') ->
  exists v st1, update_secret_values sd st = Ok (tt, st1) /\ env st1 (sid x) = Some v /\
    (read (n_resp z) = v \/ zero_somewhere (n_resp z)).
Proof. exact @range_leak. Qed.
Print Assumptions C31_value_hidden_refuted.
Example C31_ex : (* bits 1, 0, 1 of the value 5 *)
  let neg r := match r with VTuple [VList [VInt a; VInt b]; _] => (0 <=? a) && (b <? 0) | _ => false end in
  let pos r := match r with VTuple [VList [VInt a; VInt b]; _] => (a <? 0) && (0 <=? b) | _ => false end in
  match prove (SExt exRangeK false VNone None) [] (lit "msg") (with_vals [(4%nat, 5); (5%nat, 20)]) with
  | Ok ((z, _), _) => match n_resp z with VList [r0; r1; r2] => neg r0 && pos r1 && neg r2 | _ => false end
  | Err _ => false end = true.
Proof. vm_compute. reflexivity. Qed.

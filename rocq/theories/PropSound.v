(** What acceptance proves: properties C09, C10, C11 (positive part), C14, C20, C28, C35, C38, C41.

    The verifier's statement [s0] and the first message [pre] of the prover are arbitrary;
    [process_pre] turns [s0] into the statement [s] that is checked and the verifier object [v].
    The other messages are arbitrary values. *)
From Coq Require Import String Znumtheory.
From Verif Require Import Base World Val Expr Utils Stmt Prove Verify Spec Shapes Claims Honest Clauses Supply Extract Runs
  Sound Sound2 Sound3 Sound4 Prims ZqWorld Ex ExTree Proth.
Open Scope Z_scope.
Open Scope list_scope.

(** C09 *)
Theorem C09_wrong_values_rejected : forall (W : World) d d' vs c p rd st com p1 st1 st2 r st3,
  dl_shape d -> prime (order (grp (dl_lhs d))) ->
  Forall2 (fun x v => dget (env st2) (dl_vals d) x = Some v) (dl_secs d) vs ->
  dl_lhs d <> lincomb (grp (dl_lhs d)) vs (dl_bases d) ->
  internal_commit (SDL d) p rd st = Ok ((com, p1), st1) -> compute_response (SDL d) p1 c st2 = Ok (r, st3) ->
  dl_lhs d' = dl_lhs d -> dl_bases d' = dl_bases d -> ~ (order (grp (dl_lhs d)) | c) ->
  forall e v, verify_resp e (SDL d') v com c r <> Ok true.
Proof. exact @wrong_rejected. Qed.
Print Assumptions C09_wrong_values_rejected.

Definition exW := mkDL (Pt 17) [Pt 3; Pt 5] [sx; sy] [(sx, 4); (sy, 2)] false.
Example C09_ex : (* 4*3 + 2*5 is not 17; the honest run with challenge 2 is rejected *)
  dl_shape exW /\ Forall2 (fun x v => dget (env st0) (dl_vals exW) x = Some v) (dl_secs exW) [4; 2] /\
  dl_lhs exW <> lincomb (grp (dl_lhs exW)) [4; 2] (dl_bases exW) /\
  match internal_commit (SDL exW) (PDL None) None st0 with
  | Ok ((com, p), st1) => match compute_response (SDL exW) p 2 st1 with
                          | Ok (r, _) => verify_resp (env st0) (SDL exW) RDL com 2 r
                          | Err e => Err e end
  | Err e => Err e end = Ok false.
Proof.
  split; [split; [reflexivity|split; [discriminate|repeat constructor]]|]. split; [repeat constructor|].
  split; [vm_compute; discriminate|vm_compute; reflexivity].
Qed.

(** C10: conjunctions (primitives included, if built without disjunctions). [Extr] says that the
    values are computed from the two responses; [Sat] that they satisfy all equations: one value
    per secret and group order. *)
Theorem C10_special_soundness : forall (W : World) s0 pre st v s st1 e com c c' r r',
  process_pre s0 (get_verifier s0) pre st = Ok ((v, s), st1) -> wfs s0 -> coh e (svars s) -> noor s ->
  orders_in (fun q => prime q /\ ~ (q | c - c')) s ->
  verify_resp e s v com c r = Ok true -> verify_resp e s v com c' r' = Ok true ->
  exists w, Extr w s c c' r r' /\ Sat w s.
Proof. exact @soundness. Qed.
Print Assumptions C10_special_soundness.

(** all groups of the same order: one value per secret *)
Theorem C10_one_value : forall (W : World) s0 pre st v s st1 e com c c' r r' q,
  process_pre s0 (get_verifier s0) pre st = Ok ((v, s), st1) -> wfs s0 -> coh e (svars s) -> noor s ->
  prime q -> ~ (q | c - c') -> orders_in (eq q) s ->
  verify_resp e s v com c r = Ok true -> verify_resp e s v com c' r' = Ok true ->
  exists w : bytes -> Z, Extr (fun _ => w) s c c' r r' /\ Sat (fun _ => w) s.
Proof. exact @soundness_one. Qed.
Print Assumptions C10_one_value.

(** x*3 + y*5 = 42 and x*7 = 28, randomizers 10 and 20, challenges 2 and 5 *)
Definition exA := SAnd [SDL (mkDL (Pt 42) [Pt 3; Pt 5] [sx; sy] [] false); SDL (mkDL (Pt 28) [Pt 7] [sx] [] false)] false.
Definition exAcom : val := VList [VPt (Pt 130); VPt (Pt 70)].
Definition exAr (z t : Z) : val := VList [VList [VInt z; VInt t]; VList [VInt z]].
Lemma any_coh l : coh (env st0) l.
Proof. intros x y _ _ _. reflexivity. Qed.
Example C10_ex :
  run (process_pre exA (get_verifier exA) VNone) st0 = Ok (get_verifier exA, exA) /\ wfs exA /\ coh (env st0) (svars exA) /\
  noor exA /\ prime 101 /\ ~ (101 | 2 - 5) /\ orders_in (eq 101) exA /\
  verify_resp (env st0) exA (get_verifier exA) exAcom 2 (exAr 18 32) = Ok true /\
  verify_resp (env st0) exA (get_verifier exA) exAcom 5 (exAr 30 50) = Ok true.
Proof.
  split; [reflexivity|]. split; [repeat constructor|]. split; [apply any_coh|]. split; [repeat constructor|].
  split; [exact prime101|]. split; [apply nd_small; vm_compute; split; reflexivity|].
  split; [repeat constructor|]. split; vm_compute; reflexivity.
Qed.

(** C11, partial: it is assumed that every disjunction comes with exactly one sub-challenge per branch, of absolute
    value below 2^128 ([canonical]), and that group orders are at least 2^129. The verifier checks neither: see
    PropOr.v for the refutation of the unconditional claim. *)
Theorem C11_or_soundness_partial : forall (W : World) s0 pre st v s st1 e com c c' r r',
  process_pre s0 (get_verifier s0) pre st = Ok ((v, s), st1) -> wfs s0 -> coh e (svars s) ->
  orders_in (fun q => prime q /\ ~ (q | c - c') /\ 2 ^ 129 <= q) s ->
  canonical s r -> canonical s r' -> ~ (2 ^ 128 | c - c') ->
  verify_resp e s v com c r = Ok true -> verify_resp e s v com c' r' = Ok true ->
  exists w, Extr w s c c' r r' /\ Sat w s.
Proof. exact @or_soundness. Qed.
Print Assumptions C11_or_soundness_partial.

(** x*3 = 12 or y*5 = 7 in a group of order 5*2^127+1; x = 4 with randomizer 10, the second branch
    simulated with challenge 9 and response 20 *)
Definition Gbig : zgid := (0%N, Z.to_N (bigp - 2)).
Definition Bp (v : Z) : @pt Zq := zmk Gbig v.
Definition exB := SOr [SDL (mkDL (Bp 12) [Bp 3] [sx] [] false); SDL (mkDL (Bp 7) [Bp 5] [sy] [] false)] false None.
Definition exBcom : val := VList [VPt (Bp 30); VPt (Bp 37)].
Definition exBr (a : Z) : val := VTuple [VList (map VInt [a; 9]); VList [VList [VInt (4 * a + 10)]; VList [VInt 20]]].
Example C11_ex :
  run (process_pre exB (get_verifier exB) VNone) st0 = Ok (get_verifier exB, exB) /\ wfs exB /\ coh (env st0) (svars exB) /\
  orders_in (fun q => prime q /\ ~ (q | 100 - 200) /\ 2 ^ 129 <= q) exB /\
  canonical exB (exBr 91) /\ canonical exB (exBr 191) /\ ~ (2 ^ 128 | 100 - 200) /\
  verify_resp (env st0) exB (get_verifier exB) exBcom 100 (exBr 91) = Ok true /\
  verify_resp (env st0) exB (get_verifier exB) exBcom 200 (exBr 191) = Ok true.
Proof.
  assert (Q : prime bigp /\ ~ (bigp | 100 - 200) /\ 2 ^ 129 <= bigp).
  { split; [exact prime_bigp|]. split; [apply nd_small; vm_compute; split; reflexivity|exact bigp_size]. }
  assert (K : forall a, Z.abs a < 2 ^ challenge_length -> canonical exB (exBr a)).
  { intros a Ha. eapply CaOr; [left; reflexivity|reflexivity|repeat constructor; auto|].
    intros [|[|i]] s ri N _; try (injection N as <-; constructor). destruct i; discriminate. }
  split; [reflexivity|]. split; [repeat constructor|]. split; [apply any_coh|].
  split; [repeat (apply OiOr || apply Forall_cons || apply Forall_nil || (apply OiDL; exact Q))|].
  split; [apply K; vm_compute; reflexivity|]. split; [apply K; vm_compute; reflexivity|].
  split; [apply nd_small; vm_compute; split; reflexivity|]. split; vm_compute; reflexivity.
Qed.

(** C14: for a fixed challenge, the honest run and the simulation are functions of the random numbers [t] drawn;
    only the first [n] of them matter, modulo the group order. [to] and [of] translate one into the other. Hence both
    have the same set of outcomes, each obtained from exactly one choice of [n] numbers modulo the order. *)
Theorem C14_honest_verifier_zk : forall (W : World) d w c e, dl_shape d -> dl_holds w d -> coh e (dl_secs d) ->
  (forall x, In x (dl_secs d) -> dget e (dl_vals d) x = Some (w (sname x))) ->
  let q := order (grp (dl_lhs d)) in
  exists (n : nat) (to of : (nat -> Z) -> nat -> Z),
    (forall t, exists com r, outcome (honest_run d c) e t = Ok (com, r)) /\
    (forall t, outcome (honest_run d c) e t = outcome (sim_run d c) e (to t)) /\
    (forall t, outcome (sim_run d c) e t = outcome (honest_run d c) e (of t)) /\
    (forall t t', outcome (honest_run d c) e t = outcome (honest_run d c) e t' <-> forall j, (j < n)%nat -> (q | t j - t' j)) /\
    (forall t t', outcome (sim_run d c) e t = outcome (sim_run d c) e t' <-> forall j, (j < n)%nat -> (q | t j - t' j)).
Proof. exact @hvzk. Qed.
Print Assumptions C14_honest_verifier_zk.

Definition exT14 := mkDL (Pt (4*3 - 6*5 + 4*7)) [Pt 3; Pt 5; Pt 7] [sx; sy; sx] [(sx, 4); (sy, -6)] false.
Example C14_ex : dl_shape exT14 /\ dl_holds exw exT14 /\ coh (env st0) (dl_secs exT14) /\
  (forall x, In x (dl_secs exT14) -> dget (env st0) (dl_vals exT14) x = Some (exw (sname x))) /\
  (* random numbers 11, 22 and challenge 3: responses 4*3+11, -6*3+22, 4*3+11 *)
  let is o := match o with
              | Ok (VPt p, r) => (zv p =? (11*3 + 22*5 + 11*7) mod 101) && val_eqb r (VList [VInt 23; VInt 4; VInt 23])
              | _ => false end in
  is (outcome (honest_run exT14 3) (env st0) (fun i => 11 * (Z.of_nat i + 1))) = true /\
  is (outcome (sim_run exT14 3) (env st0) (fun i => match i with O => 23 | _ => 4 end)) = true.
Proof.
  split; [split; [reflexivity|split; [discriminate|repeat constructor]]|]. split; [pteq|]. split; [apply any_coh|].
  split; [|split; vm_compute; reflexivity].
  intros x H. simpl in H. repeat (destruct H as [<-|H]; [reflexivity|]). destruct H.
Qed.

(** C20: in the statement and in each branch of each disjunction all occurrences of one secret have the same response;
    otherwise a ValidationError is raised. *)
Theorem C20_accepted_consistent : forall (W : World) s0 pre st v s st1 e com c r b,
  process_pre s0 (get_verifier s0) pre st = Ok ((v, s), st1) ->
  verify_resp e s v com c r = Ok b -> forall s' r', scope s r s' r' -> one_response e s' r'.
Proof. exact @accepted_one. Qed.
Print Assumptions C20_accepted_consistent.
Theorem C20_nizk_consistent : forall (W : World) s0 z msg st b s st', verify s0 z msg st = Ok ((b, s), st') ->
  forall s' r', scope s (n_resp z) s' r' -> one_response (env st') s' r'.
Proof. exact @accept_one_nizk. Qed.
Print Assumptions C20_nizk_consistent.
Theorem C20_clash_raises : forall (W : World) s0 pre st v s st1 e com c r s' r' x y a b,
  process_pre s0 (get_verifier s0) pre st = Ok ((v, s), st1) -> vready v -> full_validate s = Ok tt -> Rshape s r ->
  scope s r s' r' -> Occ s' r' x a -> Occ s' r' y b -> same_secret e x y -> a <> b ->
  verify_resp e s v com c r = Err EValidation.
Proof. exact @clash_rejected. Qed.
Print Assumptions C20_clash_raises.
Example C20_ex : (* the two occurrences of x get different responses *)
  let r := VList [VList [VInt 18; VInt 32]; VList [VInt 19]] in
  vready (get_verifier exA) /\ full_validate exA = Ok tt /\ Rshape exA r /\ scope exA r exA r /\
  Occ exA r sx (VInt 18) /\ Occ exA r sx (VInt 19) /\ same_secret (env st0) sx sx /\
  verify_resp (env st0) exA (get_verifier exA) exAcom 2 r = Err EValidation.
Proof.
  cbv zeta. split; [repeat constructor|]. split; [reflexivity|]. split.
  { constructor. intros [|[|i]] s N; [| |destruct i; discriminate]; injection N as <-; eexists; (split; [reflexivity|]);
      constructor; simpl; intros [|[|i]] L; try lia; eexists; reflexivity. }
  split; [left; auto|]. split; [eapply (OcAnd _ _ _ 0); [reflexivity|reflexivity|]; eapply (OcDL _ _ 0); reflexivity|].
  split; [eapply (OcAnd _ _ _ 1); [reflexivity|reflexivity|]; eapply (OcDL _ _ 0); reflexivity|].
  split; [split; reflexivity|vm_compute; reflexivity].
Qed.

(** C28: two accepting conversations of an inequality proof with the same first messages give [y] with H0 = y g and
    H1 <> y h; if the proof is binding, y is the extracted value of the secret. Needs h in the group of g and g not
    neutral. *)
Theorem C28_inequality_sound : forall (W : World) H0 g H1 h x al be bnd sim pre st v s st1 e com c c' r r',
  process_pre (mk_neq H0 g H1 h x al be bnd sim) (get_verifier (mk_neq H0 g H1 h x al be bnd sim)) pre st = Ok ((v, s), st1) ->
  let q := order (grp g) in prime q -> grp h = grp g -> g <> inf (grp g) -> coh e (svars s) -> ~ (q | c - c') ->
  verify_resp e s v com c r = Ok true -> verify_resp e s v com c' r' = Ok true ->
  exists w y, Extr w s c c' r r' /\ (q | w q (sname be) * y + w q (sname al)) /\ ~ (q | w q (sname be)) /\
    H0 = pmul y g /\ H1 <> pmul y h /\ (bnd = true -> (q | y - w q (sname x))).
Proof. exact @neq_sound. Qed.
Print Assumptions C28_inequality_sound.

(** 21 = 7*3 and 36 <> 7*5: blinder 2, precommitment 2*(36 - 35) = 2; secrets 7, -14, 2 with randomizers 10, 20, 30 *)
Definition exN := mk_neq (Pt 21) (Pt 3) (Pt 36) (Pt 5) su sal sbe true false.
Definition exNpre : val := VPt (Pt 2).
Definition neq_conversation (c : Z) : res bool :=
  match process_pre exN (get_verifier exN) exNpre st0 with
  | Ok ((v, s), _) =>
      verify_resp (env st0) s v
        (VList [VPt (Pt (20*3 + 30*21)); VPt (Pt (20*5 + 30*36)); VPt (Pt (10*3))]) c
        (VList [VList [VInt (-14*c + 20); VInt (2*c + 30)]; VList [VInt (-14*c + 20); VInt (2*c + 30)]; VList [VInt (7*c + 10)]])
  | Err e => Err e end.
Example C28_ex :
  let q := 101 in prime q /\ grp (Pt 5) = grp (Pt 3) /\ Pt 3 <> inf G101 /\
  (forall v s st1, process_pre exN (get_verifier exN) exNpre st0 = Ok ((v, s), st1) -> coh (env st0) (svars s)) /\
  ~ (q | 2 - 5) /\ neq_conversation 2 = Ok true /\ neq_conversation 5 = Ok true.
Proof.
  cbv zeta. split; [exact prime101|]. split; [reflexivity|]. split; [vm_compute; discriminate|].
  split; [intros; apply any_coh|]. split; [apply nd_small; vm_compute; split; reflexivity|].
  split; vm_compute; reflexivity.
Qed.

(** C35, completeness: the holder of a valid signature is accepted by every verifier's statement
    for the same public key with distinct names in the same pattern (or runs into numbers too
    large for msgpack). The verifier's statement has no signature. *)
Theorem C35_signature_complete : forall (W : World) pk sg es ss ms r1 r2 d1 d2 w sd msg sb st s,
  let sv := es :: ss :: ms in let is := [r1; r2; d1; d2] in
  mk_bbs sv pk (Some sg) r1 r2 d1 d2 false sb = Ok (s, st) ->
  wfL (sv ++ is) -> NoDup (map sid is) -> (forall x y, In x is -> In y sv -> sid x <> sid y) ->
  bbs_pk_ok pk -> in_group (grp (sig_A sg)) (pk_gens pk) -> (3 <= List.length sv <= List.length (pk_gens pk))%nat ->
  w (sname es) = sig_e sg -> w (sname ss) = sig_s sg ->
  bbs_valid pk sg (sig_e sg) (sig_s sg) (map (fun m => w (sname m)) ms) ->
  entries_ok sv w sd -> agree w (env sb) ms -> (forall m, In m ms -> known sd m \/ env sb (sid m) <> None) ->
  (exists z s' st', prove s sd msg st = Ok ((z, s'), st') /\
     forall es' ss' ms' r1' r2' d1' d2' f g sb' svst stv,
       Forall2 (ren f g) (sv ++ is) ((es' :: ss' :: ms') ++ [r1'; r2'; d1'; d2']) ->
       mk_bbs (es' :: ss' :: ms') pk None r1' r2' d1' d2' false sb' = Ok (svst, stv) ->
       exists sv', verify svst z msg stv = Ok ((true, sv'), stv)) \/
  oversized s sd st.
Proof. exact @bbs_complete. Qed.
Print Assumptions C35_signature_complete.

(** C35, soundness: two accepting conversations with the same first messages give values for all
    secrets, and then either a linear relation between two bases of the key with coefficients
    that are not both 0, or a valid signature (computed from the precommitment and the values)
    on the extracted messages. *)
Theorem C35_signature_sound : forall (W : World) pk sig es ss ms r1 r2 d1 d2 sim pre st v s st1 e com c c' r r' g0 g1 g2 gens,
  let sv := es :: ss :: ms in
  let s0 := SExt (KBBS pk sig (firstn (List.length sv) (pk_gens pk)) sv r1 r2 d1 d2) sim VNone None in
  bbs_pk_ok pk -> pk_gens pk = g0 :: g1 :: g2 :: gens -> (forall G, pairs G (grp (pk_h0 pk)) <> None -> G = grp g0) ->
  process_pre s0 (get_verifier s0) pre st = Ok ((v, s), st1) ->
  let q := order (grp g0) in prime q -> coh e (svars s) -> ~ (q | c - c') ->
  verify_resp e s v com c r = Ok true -> verify_resp e s v com c' r' = Ok true ->
  exists w, Extr w s c c' r r' /\
  let x n := w q (sname n) in
  padd (pmul (x d1 - x es * x r1) g1) (pmul (x d2 - x es * x r2) g2) = inf (grp g0) /\
  (((q | x d1 - x es * x r1) /\ (q | x d2 - x es * x r2)) -> exists A2, getitem pre (lit "A2") = Ok (VPt A2) /\
     bbs_valid pk (mkSig (padd A2 (pmul (- x r1) g2)) (x es) (x ss)) (x es) (x ss) (map x ms)).
Proof. exact @bbs_sound. Qed.
Print Assumptions C35_signature_sound.

(** h0 = 1, secret key 10; generators 2, 3, 5, 7; signature A = 16, e = 4, s = 6 on the messages 8, 9 *)
Definition B1 (v : Z) : @pt Zq := zmk (1%N, 99%N) v.
Definition B2 (v : Z) : @pt Zq := zmk (2%N, 99%N) v.
Definition exPk := let gs := [B1 2; B1 3; B1 5; B1 7] in mkPk (B2 10) (B2 1) gs (map (fun g => pairing g (B2 1)) gs).
Definition exSig := mkSig (B1 16) 4 6.
Definition exBs := [X 30 "e"; X 31 "s"; X 32 "m1"; X 33 "m2"].
Definition exBsd : dict Z := [(X 32 "m1", 8); (X 33 "m2", 9)].
Definition exBw (n : bytes) : Z :=
  if bytes_eqb n (lit "e") then 4 else if bytes_eqb n (lit "s") then 6 else if bytes_eqb n (lit "m1") then 8 else 9.
Definition exBi := [X 34 "r1"; X 35 "r2"; X 36 "d1"; X 37 "d2"].
Definition exBB : stmt :=
  SExt (KBBS exPk (Some exSig) (pk_gens exPk) exBs (X 34 "r1") (X 35 "r2") (X 36 "d1") (X 37 "d2")) false VNone None.
Definition exBV : stmt :=
  SExt (KBBS exPk None (pk_gens exPk) exBs (X 34 "r1") (X 35 "r2") (X 36 "d1") (X 37 "d2")) false VNone None.
(** the honest prover's answers to two challenges, both checked by the verifier *)
Definition two_conversations (sp sv : stmt) (sd : dict Z) (c c' : Z) : M (res bool * res bool) :=
  let! o := get_prover sp sd in
  match fst o with
  | None => raise EAttributeErr
  | Some p =>
    let! (pre, p, sp) := precommit (snd o) p in
    let! (v, sv) := process_pre sv (get_verifier sv) pre in
    let! (_, com, p) := commit sp p in
    let! r := compute_response sp p c in
    let! r' := compute_response sp p c' in
    let! e := get_env in
    ret (verify_resp e sv v com c r, verify_resp e sv v com c' r')
  end.
Definition stB : st := mkSt (upd (upd (env st0) 30 (Some 4)) 31 (Some 6)) (tape st0) 0.
Example C35_ex :
  mk_bbs exBs exPk (Some exSig) (X 34 "r1") (X 35 "r2") (X 36 "d1") (X 37 "d2") false st0 = Ok (exBB, stB) /\
  wfL (exBs ++ exBi) /\ NoDup (map sid exBi) /\ (forall x y, In x exBi -> In y exBs -> sid x <> sid y) /\
  bbs_pk_ok exPk /\ in_group (grp (sig_A exSig)) (pk_gens exPk) /\
  exBw (sname (X 30 "e")) = sig_e exSig /\ exBw (sname (X 31 "s")) = sig_s exSig /\
  bbs_valid exPk exSig 4 6 (map (fun m => exBw (sname m)) [X 32 "m1"; X 33 "m2"]) /\
  entries_ok exBs exBw exBsd /\ (forall m, In m [X 32 "m1"; X 33 "m2"] -> known exBsd m) /\
  (match run (prove exBB exBsd (lit "msg")) stB with
   | Ok (z, _) => match run (verify exBV z (lit "msg")) st0 with Ok (b, _) => b | Err _ => false end
   | Err _ => false end) = true /\
  (forall G, pairs G (grp (pk_h0 exPk)) <> None -> G = (1%N, 99%N)) /\
  prime 101 /\ ~ (101 | 2 - 5) /\ run (two_conversations exBB exBV exBsd 2 5) stB = Ok (Ok true, Ok true).
Proof.
  split; [reflexivity|]. split; [apply wfLb_ok; vm_compute; reflexivity|]. split; [repeat constructor; simpl; lia|].
  split; [intros x y; simpl; intuition (subst; simpl in *; lia)|]. split.
  { exists (1%N, 99%N), (2%N, 99%N), (3%N, 99%N). repeat split; try reflexivity. repeat constructor. }
  split; [repeat constructor|]. split; [reflexivity|]. split; [reflexivity|]. split; [apply zpt_eq; vm_compute; reflexivity|].
  split. { intros k v [E|[E|[]]]; injection E as <- <-; (split; [simpl; auto|reflexivity]). }
  split. { intros m [<-|[<-|[]]]; [exists (X 32 "m1"), 8|exists (X 33 "m2"), 9]; split; try reflexivity; simpl; auto. }
  split; [vm_compute; reflexivity|]. split.
  { intros [a b]. unfold pairs; simpl. unfold zpairs. simpl. destruct (N.eqb a 1) eqn:E1; [|tauto]. destruct (N.eqb b 99) eqn:E2; [|tauto].
    apply N.eqb_eq in E1, E2. now subst. }
  split; [exact prime101|]. split; [apply nd_small; vm_compute; split; reflexivity|]. vm_compute. reflexivity.
Qed.

(** C38, first part: one function computes every secret value, modulo the group order, from the two
    challenges and the two responses at a place that is proven for real. Statements and prover
    objects are arbitrary; the prover object has answered both challenges after one commit. *)
Theorem C38_two_responses_reveal : forall W : World, exists reveal : Z -> Z -> Z -> Z -> Z -> Z,
  forall s p rd com pc st0 st1 st2 st3 st2' st3' c c' r r' d a a' u u',
  internal_commit s p rd st0 = Ok ((com, pc), st1) ->
  env st2 = env st2' -> compute_response s pc c st2 = Ok (r, st3) -> compute_response s pc c' st2' = Ok (r', st3') ->
  leaf2 s pc c c' r r' d a a' u u' ->
  forall i x, nth_error (dl_secs d) i = Some x -> exists b0 bs v z z', dl_bases d = b0 :: bs /\
    dget (env st2) (dl_vals d) x = Some v /\ index u i = Ok (VInt z) /\ index u' i = Ok (VInt z') /\
    let q := order (grp b0) in (q | v * (a - a') - (z - z')) /\
    (prime q -> ~ (q | a - a') -> v mod q = reveal q a a' z z').
Proof. exact @two_responses. Qed.
Print Assumptions C38_two_responses_reveal.

(** C38, second part: whatever randomizers the prover object holds, a new commit reads the next random
    numbers, a different one for every secret. *)
Theorem C38_new_commit_fresh : forall (W : World) d b0 bs o e t k,
  dl_shape d -> dl_bases d = b0 :: bs -> coh e (dl_secs d) -> exists n com (j : bytes -> nat),
  internal_commit (SDL d) (PDL o) None (mkSt e t k) =
    Ok ((com, PDL (Some (map (fun x => t (k + j (sname x))%nat mod order (grp b0)) (dl_secs d)))), mkSt e t (k + n)) /\
  (forall x, In x (dl_secs d) -> (j (sname x) < n)%nat) /\
  (forall x y, In x (dl_secs d) -> In y (dl_secs d) -> j (sname x) = j (sname y) -> sname x = sname y).
Proof. exact @commit_fresh. Qed.
Print Assumptions C38_new_commit_fresh.

Definition exRp := mkDL (Pt 42) [Pt 3; Pt 5] [sx; sy] [(sx, 4); (sy, 6)] false.
Definition exCp := PDL (Some [28; 11]).
Example C38_ex : (* secrets 4 and 6; (z - z') / (2 - 5) in the field of order 101 *)
  dl_shape exRp /\ coh (env st0) (dl_secs exRp) /\
  match internal_commit (SDL exRp) (PDL None) None st0 with
  | Ok ((_, p), st1) =>
      match compute_response (SDL exRp) p 2 st1, compute_response (SDL exRp) p 5 st1, internal_commit (SDL exRp) p None st1 with
      | Ok (VList [VInt z; VInt t], _), Ok (VList [VInt z'; VInt t'], _), Ok ((_, PDL (Some k2)), _) =>
          match p with
          | PDL (Some k1) => ((4 * (2 - 5) - (z - z')) mod 101 =? 0) && ((6 * (2 - 5) - (t - t')) mod 101 =? 0) &&
                             negb (nth 0 k1 0 =? nth 0 k2 0)
          | _ => false end
      | _, _, _ => false end
  | _ => false end = true.
Proof.
  split; [split; [reflexivity|split; [discriminate|repeat constructor]]|]. split; [apply any_coh|]. vm_compute. reflexivity.
Qed.

(** C41 (the part about get_random_num is in PropArith.v) *)
Theorem C41_response_range : forall (W : World) d p c st r st', compute_response (SDL d) p c st = Ok (r, st') ->
  exists zs b0 bs, r = VList (map VInt zs) /\ dl_bases d = b0 :: bs /\ Forall (fun z => 0 <= z < order (grp b0)) zs.
Proof. exact @response_range. Qed.
Print Assumptions C41_response_range.
Theorem C41_challenge_range : forall (W : World) s v h com st c st',
  send_challenge s v h com st = Ok (c, st') -> 0 <= c < 2 ^ 128.
Proof. exact @challenge_range. Qed.
Print Assumptions C41_challenge_range.
Example C41_ex :
  match compute_response (SDL exRp) exCp (-77) st0 with Ok (VList [VInt a; VInt b], _) => (a =? 23) && (b =? 54) | _ => false end = true /\
  match stmt_digest (SDL exRp) with
  | Ok h => match send_challenge (SDL exRp) RDL (VBytes h) (VPt (Pt 3)) st0 with Ok (c, _) => c =? 12345 | _ => false end
  | _ => false end = true.
Proof. split; vm_compute; reflexivity. Qed.

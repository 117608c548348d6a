(** Credentials from the key on: properties C56 and C57. *)
From Coq Require Import String Znumtheory.
From Verif Require Import Base World Val Expr Utils Stmt Prove Verify Spec Shapes Claims Supply Bbs ZqWorld Ex ExTree PropBbs Cred.
Open Scope Z_scope.
Open Scope list_scope.

(** ** C56: who got a signature on messages can prove it *)

(** Keys are generated for up to [n] messages, the messages [vals] are committed to (blinded or not), the issuer signs and
    the user completes the signature. The proof of possession with one new Secret object per message, given the messages,
    is then accepted by every verifier that holds the public key and has made a statement of the same length from distinct
    Secret objects (or the numbers are too large for msgpack). *)
Theorem C56_possession_accepted : forall (W : World) G1 G2 GT n stk sk pk stk' vals zkp ss st b s1 st1 st2 sg st3 es s ms r1 r2 d1 d2 msg sb stm stp,
  pairs G1 G2 = Some GT -> keygen G1 G2 n stk = Ok ((sk, pk), stk') ->
  commit_messages pk None vals zkp ss st = Ok ((b, s1), st1) -> sign sk (bl_com b) st2 = Ok (sg, st3) ->
  (1 <= List.length vals <= n)%nat -> List.length ms = List.length vals ->
  let all := (es :: s :: ms) ++ [r1; r2; d1; d2] in
  NoDup (map sname all) -> NoDup (map sid all) -> (forall m, In m ms -> env sb (sid m) = None) ->
  mk_bbs (es :: s :: ms) pk (Some (obtain_signature s1 sg)) r1 r2 d1 d2 false sb = Ok (stm, stp) ->
  (exists z stm' stp', prove stm (combine ms vals) msg stp = Ok ((z, stm'), stp') /\
     forall es' s' ms' r1' r2' d1' d2' sb' smv stv,
       List.length ms' = List.length ms -> NoDup (map sname ((es' :: s' :: ms') ++ [r1'; r2'; d1'; d2'])) ->
       mk_bbs (es' :: s' :: ms') pk None r1' r2' d1' d2' false sb' = Ok (smv, stv) ->
       exists smv', verify smv z msg stv = Ok ((true, smv'), stv)) \/
  oversized stm (combine ms vals) stp.
Proof. exact @possession. Qed.
Print Assumptions C56_possession_accepted.

(** A key for three messages, two messages signed blindly; proofs for these and for another message *)
Definition cred_ms := [X 62 "m1"; X 63 "m2"].
Definition cred_run (given : list Z) : M bool :=
  let! (sk, pk) := keygen (W := Zq) exG1 exG2 3 in
  let! (b, s1) := commit_messages pk None [8; 9] true exSs in
  let! sg := sign sk (bl_com b) in
  let! s := mk_bbs (X 60 "e" :: X 61 "s" :: cred_ms) pk (Some (obtain_signature s1 sg)) (X 64 "r1") (X 65 "r2") (X 66 "d1") (X 67 "d2") false in
  let! (z, _) := prove s (combine cred_ms given) (lit "hello") in
  let! v := mk_bbs [X 70 "E"; X 71 "S"; X 72 "A"; X 73 "B"] pk None (X 74 "R1") (X 75 "R2") (X 76 "D1") (X 77 "D2") false in
  let! r := verify v z (lit "hello") in ret (fst r).
Example C56_ex :
  pairs exG1 exG2 = Some exGT /\
  NoDup (map sname ((X 60 "e" :: X 61 "s" :: cred_ms) ++ [X 64 "r1"; X 65 "r2"; X 66 "d1"; X 67 "d2"])) /\
  NoDup (map sid ((X 60 "e" :: X 61 "s" :: cred_ms) ++ [X 64 "r1"; X 65 "r2"; X 66 "d1"; X 67 "d2"])) /\
  run (cred_run [8; 9]) st0 = Ok true /\ run (cred_run [8; 10]) st0 = Ok false.
Proof.
  split; [reflexivity|]. split; [repeat constructor; simpl; intuition discriminate|].
  split; [repeat constructor; simpl; lia|]. split; vm_compute; reflexivity.
Qed.

(** ** C57: an accepted blinding shows that the user knows what will be signed *)

(** Two proofs that verify_blinding accepts for one commitment, made from one first message [cm] with different challenges,
    give an opening of the commitment: a blinding [t] and messages [ms], computed from the responses. Whatever the issuer
    signs on this commitment is then a valid signature on [ms] once [t] is added. The numbers of responses may be smaller
    than the number of messages of the key, and different. *)
Theorem C57_blinding_sound : forall (W : World) G1 G2 GT n stk sk pk stk' com z z' ss ss' st st' stv stv' cm,
  pairs G1 G2 = Some GT -> keygen G1 G2 n stk = Ok ((sk, pk), stk') -> prime (order G1) -> grp com = G1 ->
  verify_blinding (mkBlinded com (Some z)) pk ss st = Ok (true, st') ->
  verify_blinding (mkBlinded com (Some z')) pk ss' stv = Ok (true, stv') ->
  (forall l, as_iter (n_resp z) = Ok l -> (List.length l <= List.length ss)%nat) ->
  (forall l, as_iter (n_resp z') = Ok l -> (List.length l <= List.length ss')%nat) ->
  let d := mkDL com (skipn 1 (pk_gens pk)) [] [] false in
  recompute_dl d (n_chal z) (n_resp z) = Ok cm -> recompute_dl d (n_chal z') (n_resp z') = Ok cm ->
  ~ (order G1 | n_chal z - n_chal z') ->
  exists zs zs' t ms g0 g1 gens, as_iter (n_resp z) = Ok (map VInt zs) /\ as_iter (n_resp z') = Ok (map VInt zs') /\
    pk_gens pk = g0 :: g1 :: gens /\ List.length ms = n /\ com = padd (pmul t g1) (lincomb G1 ms gens) /\
    (forall j, (j <= n)%nat -> (order G1 | nth j (t :: ms) 0 * (n_chal z - n_chal z') - (nth j zs 0 - nth j zs' 0))) /\
    forall sta sg stb, sign sk com sta = Ok (sg, stb) ->
      verify_signature (mkSig (sig_A sg) (sig_e sg) (sig_s sg + t)) pk ms = Ok true.
Proof. exact @blinding_extract. Qed.
Print Assumptions C57_blinding_sound.

(** One first message with two challenges (the precommitment, ignored by a representation, is hashed); both accepted *)
Definition blind_run : M (bool * bool * bool * bool) :=
  let! (sk, pk) := keygen (W := Zq) exG1 exG2 3 in
  match skipn 1 (pk_gens pk) with
  | g1 :: g2 :: _ =>
    let! com := lift (padd_chk (pmul 5 g1) (pmul 7 g2)) in
    let! d := mk_dlrep com (eadd (emul (X 50 "a") g1) (emul (X 51 "b") g2)) false in
    let! o := get_prover (SDL d) [(X 50 "a", 5); (X 51 "b", 7)] in
    match fst o with
    | Some p =>
      let! (cm, p) := internal_commit (snd o) p None in
      let! h := lift (prehash_input (snd o)) in
      let! c := lift (fs_challenge h [VNone; cm] []) in
      let! c' := lift (fs_challenge h [VInt 1; cm] []) in
      let! r := compute_response (snd o) p c in
      let! r' := compute_response (snd o) p c' in
      let! a := verify_blinding (mkBlinded com (Some (mkNizk c r VNone (VBytes (sha256 h))))) pk exSs in
      let! b := verify_blinding (mkBlinded com (Some (mkNizk c' r' (VInt 1) (VBytes (sha256 h))))) pk exSs in
      let d := mkDL com (skipn 1 (pk_gens pk)) [] [] false in
      ret (a, b, match recompute_dl d c r, recompute_dl d c' r' with Ok x, Ok y => val_eqb x cm && val_eqb y cm | _, _ => false end,
           negb ((c - c') mod 101 =? 0))
    | None => raise EAttributeErr
    end
  | _ => raise EIndexErr
  end.
Example C57_ex : pairs exG1 exG2 = Some exGT /\ prime (order exG1) /\ run blind_run st0 = Ok (true, true, true, true).
Proof. split; [reflexivity|]. split; [exact prime101|]. vm_compute. reflexivity. Qed.

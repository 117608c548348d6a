(** Property C78: the primitives that the documentation defines as examples. *)
From Coq Require Import String Znumtheory.
From Verif Require Import Base World Val Expr Utils Stmt Prove Verify Spec Shapes Claims Honest Supply Extract Custom Tutorial TutorialSpec TutorialProofs
  ZqWorld Ex ExTree.
Open Scope Z_scope.
Open Scope list_scope.

(** Plaintexts of ciphertexts c1 = r*g, c2 = r*h + m*g. Values of the secrets come from their objects or from the dictionary. The proof is
    accepted by every object for the ciphertext and key, whatever its Secret objects, if these have different names. *)
Theorem C78_plaintext_complete : forall (W : World) c1 c2 g h m r mv rv sd msg st,
  sname m <> sname r -> sid m <> sid r -> grp h = grp g -> c1 = pmul rv g -> c2 = padd (pmul rv h) (pmul mv g) ->
  given2 m r mv rv sd (env st) ->
  (exists z st', cprove (elgamal c1 c2 g h m r) sd msg st = Ok (z, st') /\
     forall m' r' stv, sname m' <> sname r' -> cverify (elgamal c1 c2 g h m' r') z msg stv = Ok (true, stv)) \/
  oversized (SExt (KCustom (lit "AdditiveElgamalPlaintextProof") (elgamal_rows c1 c2 g h m r)) false VNone None) sd st.
Proof. exact @elgamal_complete. Qed.
Print Assumptions C78_plaintext_complete.
(** Two accepted answers: the verifier has a ciphertext, and plaintext and randomizer are computed from the answers. *)
Theorem C78_plaintext_sound : forall (W : World) c1 c2 g h m r pre stv c stv' e com ch ch' z z', let K := elgamal c1 c2 g h m r in
  c_con K pre stv = Ok (c, stv') -> let q := order (grp g) in
  prime (order (grp c1)) -> prime (order (grp c2)) -> ~ (order (grp c1) | ch - ch') -> ~ (order (grp c2) | ch - ch') -> coh e [r; m] ->
  cverify_resp K e pre c com ch z = Ok true -> cverify_resp K e pre c com ch' z' = Ok true ->
  exists w, let rv := w q (sname r) in let mv := w q (sname m) in
    Extr w c ch ch' z z' /\ grp h = grp g /\ c1 = pmul rv g /\ c2 = padd (pmul rv h) (pmul mv g).
Proof. exact @elgamal_sound. Qed.
Print Assumptions C78_plaintext_sound.

(** The inequality of the tutorial does what that of the library does without binding; they have the same name, so that one accepts the
    proofs of the other. *)
Theorem C78_inequality_as_in_library : forall (W : World) H0 g H1 h x al be b z sd msg a,
  let K := tutorial_neq H0 g H1 h x al be in let s := mk_neq H0 g H1 h x al be false b in
  cprove K sd msg a = match prove s sd msg a with Ok ((z, _), a') => Ok (z, a') | Err e => Err e end /\
  cverify K z msg a = match verify s z msg a with Ok ((r, _), a') => Ok (r, a') | Err e => Err e end.
Proof. exact @tutorial_neq_library. Qed.
Print Assumptions C78_inequality_as_in_library.
(** So do simulate() and verify_simulation_consistency(). The proof of a plaintext has no simulate_precommit of its own: simulate() raises
    StatementSpecError. *)
Theorem C78_inequality_simulated : forall (W : World) H0 g H1 h x al be b ch t hh a,
  let K := tutorial_neq H0 g H1 h x al be in let s := mk_neq H0 g H1 h x al be false b in
  csimulate K ch a = match simulate s ch a with Ok ((t, h, _), a') => Ok ((t, h), a') | Err e => Err e end /\
  cverify_simulation K t hh a = verify_simulation s t hh a.
Proof. exact @tutorial_neq_simulated. Qed.
Print Assumptions C78_inequality_simulated.
Theorem C78_plaintext_simulated : forall (W : World) c1 c2 g h m r ch a, csimulate (elgamal c1 c2 g h m r) ch a = Err EStatementSpec.
Proof. exact @elgamal_simulated. Qed.
Print Assumptions C78_plaintext_simulated.
(** True inequalities are accepted unless the blinder is 0; for false ones, and for the blinder 0, verify() raises ValidationError. *)
Theorem C78_inequality_complete : forall (W : World) H0 g H1 h x al be v sd msg st,
  NoDup (map sname [x; al; be]) -> NoDup (map sid [x; al; be]) -> has_sub (grp g) = true -> grp H1 = grp g -> grp h = grp g ->
  H0 = pmul v g -> given x v sd (env st) ->
  let q := order (grp g) in let b := tape st (pos st) mod q in
  (exists z st', cprove (tutorial_neq H0 g H1 h x al be) sd msg st = Ok (z, st') /\
     forall x' al' be' stv, NoDup (map sname [x'; al'; be']) ->
     let KV := tutorial_neq H0 g H1 h x' al' be' in
     (b <> 0 -> H1 <> pmul v h -> prime q -> cverify KV z msg stv = Ok (true, stv)) /\
     (b = 0 \/ H1 = pmul v h -> cverify KV z msg stv = Err EValidation)) \/
  oversized (mk_neq H0 g H1 h x al be false false) sd st.
Proof. exact @tutorial_neq_complete. Qed.
Print Assumptions C78_inequality_complete.
Theorem C78_inequality_sound : forall (W : World) H0 g H1 h x al be pre stv c stv' e com ch ch' r r', let K := tutorial_neq H0 g H1 h x al be in
  c_con K pre stv = Ok (c, stv') ->
  let q := order (grp g) in prime q -> grp h = grp g -> g <> inf (grp g) -> coh e [al; be] -> ~ (q | ch - ch') ->
  cverify_resp K e pre c com ch r = Ok true -> cverify_resp K e pre c com ch' r' = Ok true ->
  exists w y, Extr w c ch ch' r r' /\ (q | w q (sname be) * y + w q (sname al)) /\ ~ (q | w q (sname be)) /\ H0 = pmul y g /\ H1 <> pmul y h.
Proof. exact @tutorial_neq_sound. Qed.
Print Assumptions C78_inequality_sound.

(** ** Examples *)
Definition ok (K KV : cls) (sd : dict Z) : bool :=
  match cprove K sd (lit "m") st0 with
  | Ok (z, _) => match cverify KV z (lit "m") st0 with Ok (b, _) => b | Err _ => false end
  | Err _ => false end.
(** g = 3, h = 5; plaintext 42, randomizer 17; another ciphertext is not accepted *)
Definition ec1 : @pt Zq := pmul 17 (Pt 3).
Definition ec2 : @pt Zq := padd (pmul 17 (Pt 5)) (pmul 42 (Pt 3)).
Example C78_plaintext_ex :
  sname sx <> sname sy /\ sid sx <> sid sy /\ given2 sx sy 42 17 [(sx, 42); (sy, 17)] (env st0) /\
  ok (elgamal ec1 ec2 (Pt 3) (Pt 5) sx sy) (elgamal ec1 ec2 (Pt 3) (Pt 5) su sz) [(sx, 42); (sy, 17)] = true /\
  ok (elgamal ec1 ec2 (Pt 3) (Pt 5) sx sy) (elgamal ec1 (pmul 2 ec2) (Pt 3) (Pt 5) su sz) [(sx, 42); (sy, 17)] = false.
Proof.
  split; [discriminate|]. split; [discriminate|]. split.
  - split; [|split; [discriminate|split; [discriminate|split]]].
    + intros k u [[= <- <-]|[[= <- <-]|[]]]; auto.
    + left. exists sx, 42. simpl. auto.
    + left. exists sy, 17. simpl. auto.
  - split; vm_compute; reflexivity.
Qed.
(** two answers with the randomizers 10 (of the randomizer) and 20 (of the plaintext), challenges 2 and 5 *)
Definition ecom : val := VList [VPt (Pt 30); VPt (Pt (50 + 60))].
Definition eans (c : Z) : val := VList [VList [VInt (10 + c * 17)]; VList [VInt (10 + c * 17); VInt (20 + c * 42)]].
Definition econ : stmt := SAnd [SDL (mkDL ec1 [Pt 3] [sz] [] false); SDL (mkDL ec2 [Pt 5; Pt 3] [sz; su] [] false)] false.
Example C78_plaintext_sound_ex : let K := elgamal ec1 ec2 (Pt 3) (Pt 5) su sz in
  c_con K (VList []) st0 = Ok (econ, st0) /\ prime (order (grp ec1)) /\ ~ (order (grp ec1) | 2 - 5) /\ coh (env st0) [sz; su] /\
  cverify_resp K (env st0) (VList []) econ ecom 2 (eans 2) = Ok true /\ cverify_resp K (env st0) (VList []) econ ecom 5 (eans 5) = Ok true.
Proof.
  cbv zeta. split; [reflexivity|]. split; [exact prime101|]. split; [intros D; apply Zdivide_mod in D; vm_compute in D; discriminate D|].
  split; [intros x y _ _ _; reflexivity|]. split; vm_compute; reflexivity.
Qed.
(** a simulation for points that are not known to be different *)
Example C78_simulated_ex :
  match csimulate (tutorial_neq (Pt 25) (Pt 3) (Pt 26) (Pt 5) sx sy su) (Some 9) st0 with
  | Ok ((t, h), _) => match cverify_simulation (tutorial_neq (Pt 25) (Pt 3) (Pt 26) (Pt 5) sx sy su) t h st0 with Ok (b, _) => b && (t_chal t =? 9) | Err _ => false end
  | Err _ => false end = true.
Proof. vm_compute. reflexivity. Qed.
(** lines 50-56 of the example: x = 42, 42*g and 41*h; and 42*h, which is refused *)
Definition eH0 : @pt Zq := pmul 42 (Pt 3).
Definition eH1 : @pt Zq := pmul 41 (Pt 5).
Example C78_inequality_ex :
  NoDup (map sname [sx; sy; sz]) /\ NoDup (map sid [sx; sy; sz]) /\ given sx 42 [(sx, 42)] (env st0) /\ has_sub (grp (Pt 3)) = true /\
  tape st0 (pos st0) mod order (grp (Pt 3)) <> 0 /\ eH1 <> pmul 42 (Pt 5) /\
  ok (tutorial_neq eH0 (Pt 3) eH1 (Pt 5) sx sy sz) (tutorial_neq eH0 (Pt 3) eH1 (Pt 5) su (T 20 "a") (T 21 "b")) [(sx, 42)] = true /\
  ok (tutorial_neq eH0 (Pt 3) (pmul 42 (Pt 5)) (Pt 5) sx sy sz) (tutorial_neq eH0 (Pt 3) (pmul 42 (Pt 5)) (Pt 5) su (T 20 "a") (T 21 "b")) [(sx, 42)] = false.
Proof.
  split; [repeat constructor; simpl; intuition discriminate|]. split; [repeat constructor; simpl; intuition discriminate|].
  split; [split; [|split; [discriminate|left; discriminate]]; intros k u [[= <- <-]|[]]; auto|].
  split; [reflexivity|]. split; [vm_compute; discriminate|]. split; [intros E; apply (f_equal (@zv)) in E; vm_compute in E; discriminate E|].
  split; vm_compute; reflexivity.
Qed.
(** the blinder 1: alpha = 42, beta = -1, precommitment 5; randomizers 10 and 20, challenges 2 and 5 *)
Definition nans (c : Z) : val := VList [VList [VInt (10 + c * 42); VInt (20 - c)]; VList [VInt (10 + c * 42); VInt (20 - c)]].
Definition ncon : stmt :=
  SAnd [SDL (mkDL (inf (grp (Pt 3))) [Pt 3; eH0] [sal; sbe] [] false); SDL (mkDL (Pt 5) [Pt 5; eH1] [sal; sbe] [] false)] false.
Definition ncom : val := VList [VPt (padd (pmul 10 (Pt 3)) (pmul 20 eH0)); VPt (padd (pmul 10 (Pt 5)) (pmul 20 eH1))].
Example C78_inequality_sound_ex : let K := tutorial_neq eH0 (Pt 3) eH1 (Pt 5) sx sal sbe in
  c_con K (VPt (Pt 5)) st0 = Ok (ncon, st0) /\ prime (order (grp (Pt 3))) /\ Pt 3 <> inf (grp (Pt 3)) /\ coh (env st0) [sal; sbe] /\
  ~ (order (grp (Pt 3)) | 2 - 5) /\
  cverify_resp K (env st0) (VPt (Pt 5)) ncon ncom 2 (nans 2) = Ok true /\ cverify_resp K (env st0) (VPt (Pt 5)) ncon ncom 5 (nans 5) = Ok true.
Proof.
  cbv zeta. split; [reflexivity|]. split; [exact prime101|]. split; [intros E; apply (f_equal (@zv)) in E; vm_compute in E; discriminate E|].
  split; [intros x y _ _ _; reflexivity|]. split; [intros D; apply Zdivide_mod in D; vm_compute in D; discriminate D|]. split; vm_compute; reflexivity.
Qed.

(** Property C88: non-interactive proofs in the random oracle model. *)
From Coq Require Import String Znumtheory.
From Verif Require Import Base World Val Expr Utils Stmt Prove Verify Spec Shapes Claims Extract Ident Alike Cheat Oracle Forking OracleProofs
  ZqWorld ZqFacts Ex ExTree Proth PropSound PropCheat PropWire.
Open Scope Z_scope.
Open Scope list_scope.

(** The verifier that asks for hash values is the verifier of the library if sha256 answers. *)
Theorem C88_verifier : forall (W : World) s z msg a, with_fun sha256 (verify_ro s z msg a) = verify s z msg a.
Proof. exact @verify_ro_fun. Qed.
Print Assumptions C88_verifier.
(** Answers given one after the other are the answers of a function, and those of every function arise. *)
Theorem C88_sampling : forall R (p : prog R) t r m f, sample p [] t = Some (r, m) -> (forall b y, look m b = Some y -> f b = y) -> with_fun f p = r.
Proof. intros R p t r m f. exact (sample_fun p [] t r m f). Qed.
Print Assumptions C88_sampling.
Theorem C88_functions : forall R (p : prog R) f n, asks n p -> exists t m, (List.length t <= n)%nat /\ sample p [] t = Some (with_fun f p, m).
Proof.
  intros R p f n H. destruct (fun_sample p f n [] H) as (t & m & L & _ & S & _); [discriminate|]. exact (ex_intro _ t (ex_intro _ m (conj L S))).
Qed.
Print Assumptions C88_functions.

(** Statements without disjunctions. Whoever gets more than (Q+2)*K of N answers right, with Q questions, has shown two proofs
    for one message from which numbers that satisfy the statement are computed ([Extr]: (r - r') / (c - c')). N is the number
    of possible answers; K of them at most give challenges that are congruent modulo a group order. *)
Theorem C88_extract : forall (W : World) ok s0 a adv A qs K Q, plain ok -> (forall g, distinguished g) -> sane qs s0 a ->
  (forall pre v s a1, process_pre s0 (get_verifier s0) pre a = Ok ((v, s), a1) -> noor s) ->
  asks Q adv -> spread A qs K -> 0 <= K ->
  Z.of_nat (Q + 2) * K * len A ^ Z.of_nat (Q + 2) < len A * count (won ok s0 a adv) (tapes A (Q + 2)) ->
  exists t t' z z' msg m m' v s a1 w, In t (tapes A (Q + 2)) /\ In t' (tapes A (Q + 2)) /\
    sample adv [] t = Some ((z, msg), m) /\ sample adv [] t' = Some ((z', msg), m') /\ ok z = true /\ ok z' = true /\
    won ok s0 a adv t = true /\ won ok s0 a adv t' = true /\
    n_pre z = n_pre z' /\ process_pre s0 (get_verifier s0) (n_pre z) a = Ok ((v, s), a1) /\
    Extr w s (n_chal z) (n_chal z') (n_resp z) (n_resp z') /\ Sat w s.
Proof. exact @rom_extract. Qed.
Print Assumptions C88_extract.
(** A statement that no numbers satisfy: whatever the prover does with Q questions, the probability is at most (Q+2)*K/N, *)
Theorem C88_false_statement : forall (W : World) ok s0 a adv A qs K Q, plain ok -> (forall g, distinguished g) -> sane qs s0 a ->
  (forall pre v s a1, process_pre s0 (get_verifier s0) pre a = Ok ((v, s), a1) -> noor s /\ forall w, ~ Sat w s) ->
  asks Q adv -> spread A qs K -> 0 <= K ->
  len A * count (won ok s0 a adv) (tapes A (Q + 2)) <= Z.of_nat (Q + 2) * K * len A ^ Z.of_nat (Q + 2).
Proof. exact @rom_false. Qed.
Print Assumptions C88_false_statement.
(** which for all digests of 32 bytes, in groups of order q, is (Q+2) * (1/q + 1/2^256) at most. *)
Theorem C88_sha256 : forall (W : World) ok s0 a adv q Q, plain ok -> (forall g, distinguished g) -> sane [q] s0 a -> 1 < q ->
  (forall pre v s a1, process_pre s0 (get_verifier s0) pre a = Ok ((v, s), a1) -> noor s /\ forall w, ~ Sat w s) -> asks Q adv ->
  len digests = 2 ^ 256 /\
  2 ^ 256 * count (won ok s0 a adv) (tapes digests (Q + 2)) <= Z.of_nat (Q + 2) * (2 ^ 256 / q + 1) * (2 ^ 256) ^ Z.of_nat (Q + 2).
Proof. exact @rom_sha. Qed.
Print Assumptions C88_sha256.
(** Inequalities of logarithms that are equal *)
Theorem C88_inequality : forall (W : World) ok H0 g H1 h x al be bnd sim a adv A K Q,
  let s0 := mk_neq H0 g H1 h x al be bnd sim in let q := order (grp g) in
  plain ok -> (forall g, distinguished g) -> prime q -> grp h = grp g -> g <> inf (grp g) ->
  (forall pre v s a1, process_pre s0 (get_verifier s0) pre a = Ok ((v, s), a1) -> coh (env a1) (svars s)) ->
  (forall y, H0 = pmul y g -> H1 = pmul y h) ->
  asks Q adv -> spread A [q] K -> 0 <= K ->
  len A * count (won ok s0 a adv) (tapes A (Q + 2)) <= Z.of_nat (Q + 2) * K * len A ^ Z.of_nat (Q + 2).
Proof. exact @rom_inequality. Qed.
Print Assumptions C88_inequality.
(** Disjunctions, if the verifier also looked at the sub-challenges (without this the claim is false: C11_nizk_forgery_refuted). *)
Theorem C88_extract_or_partial : forall (W : World) ok s0 a adv A qs K Q, plain ok -> (forall g, distinguished g) -> sane qs s0 a ->
  (forall q, In q qs -> 2 ^ 129 <= q) ->
  (forall z v s a1, ok z = true -> process_pre s0 (get_verifier s0) (n_pre z) a = Ok ((v, s), a1) -> canonical s (n_resp z)) ->
  asks Q adv -> spread A (2 ^ 128 :: qs) K -> 0 <= K ->
  Z.of_nat (Q + 2) * K * len A ^ Z.of_nat (Q + 2) < len A * count (won ok s0 a adv) (tapes A (Q + 2)) ->
  exists t t' z z' msg m m' v s a1 w, In t (tapes A (Q + 2)) /\ In t' (tapes A (Q + 2)) /\
    sample adv [] t = Some ((z, msg), m) /\ sample adv [] t' = Some ((z', msg), m') /\ ok z = true /\ ok z' = true /\
    won ok s0 a adv t = true /\ won ok s0 a adv t' = true /\
    n_pre z = n_pre z' /\ process_pre s0 (get_verifier s0) (n_pre z) a = Ok ((v, s), a1) /\
    Extr w s (n_chal z) (n_chal z') (n_resp z) (n_resp z') /\ Sat w s.
Proof. exact @rom_extract_or. Qed.
Print Assumptions C88_extract_or_partial.

(** ** Examples *)
Definition noneok (z : @nizk Zq) : bool := is_none (n_pre z).
Lemma plain_noneok : plain noneok.
Proof.
  assert (N : forall z : @nizk Zq, noneok z = true -> n_pre z = VNone) by (intros z; unfold noneok; destruct (n_pre z); try discriminate; reflexivity).
  split; intros z.
  - intros H. now rewrite (N z H).
  - intros z' H H' _. now rewrite (N z H), (N z' H').
Qed.
Lemma Zq_distinguished g : @distinguished Zq g.
Proof. destruct C39_ex_tree as (D & _). apply D. Qed.

(** The false statement of C66 (x*3 = 12 and x*5 = 7 in a group of 5*2^127+1 elements). The prover asks for the digest and hopes
    for the challenge 9. *)
Definition adv9 : prog (@nizk Zq * bytes) :=
  match prehash_input exC with
  | Ok h => Ask h (fun y => Ret (mkNizk 9 (exCr 9) VNone (VBytes y), lit "m"))
  | Err _ => Ret (mkNizk 9 (exCr 9) VNone VNone, lit "m")
  end.
Lemma exC_process pre a v s a1 : process_pre exC (get_verifier exC) pre a = Ok ((v, s), a1) -> s = exC /\ a1 = a.
Proof.
  cbn [exC process_pre get_verifier map]. destruct (is_none pre); [intros H; injection H as <- <- <-; auto|].
  unfold bind, lift, ret. destruct (index pre 0); [|discriminate]. destruct (index pre 1); [|discriminate].
  intros H. injection H as <- <- <-. auto.
Qed.
Example C88_ex_false :
  plain noneok /\ (forall g, @distinguished Zq g) /\ sane [bigp] exC st0 /\ 1 < bigp /\
  (forall pre v s a1, process_pre exC (get_verifier exC) pre st0 = Ok ((v, s), a1) -> noor s /\ forall w, ~ Sat w s) /\ asks 1 adv9 /\
  won noneok exC st0 adv9 [lit "digest"; [byte_of 9]; []] = true /\ won noneok exC st0 adv9 [lit "digest"; [byte_of 8]; []] = false /\
  2 ^ 256 / bigp + 1 < 2 ^ 127.
Proof.
  destruct C66_ex as (_ & Wf & No & Or & Fl & _).
  split; [exact plain_noneok|]. split; [exact Zq_distinguished|].
  split; [split; [exact Wf|]; intros pre v s a1 H; apply exC_process in H as [-> ->]; split; [intros x y _ _ _; reflexivity|]|].
  - assert (Q : prime bigp /\ In bigp [bigp]) by (split; [exact prime_bigp|now left]).
    repeat (apply OiAnd || apply Forall_cons || apply Forall_nil || (apply OiDL; exact Q)).
  - split; [vm_compute; reflexivity|]. split; [intros pre v s a1 H; apply exC_process in H as [-> _]; auto|].
    split; [|split; [|split]]; [|vm_compute; reflexivity|vm_compute; reflexivity|vm_compute; reflexivity].
    unfold adv9. destruct (prehash_input exC); [|exact I]. intros y. exact I.
Qed.

(** A prover that knows the logarithm 4 of 12 to the base 3 and asks for digest and challenge always succeeds: 625 lists of
    four answers out of five. *)
Definition exK := SDL (mkDL (Pt 12) [Pt 3] [sx] [] false).
Definition adv4 : prog (@nizk Zq * bytes) :=
  match prehash_input exK with
  | Ok h => Ask h (fun y =>
      match fs_input h [VNone; VPt (Pt 30)] (lit "m") with
      | Ok i => Ask i (fun c => Ret (mkNizk (be_int c) (VList [VInt (10 + 4 * be_int c)]) VNone (VBytes y), lit "m"))
      | Err _ => Ret (mkNizk 0 VNone VNone VNone, [])
      end)
  | Err _ => Ret (mkNizk 0 VNone VNone VNone, [])
  end.
Definition five : list bytes := map (fun i => [byte_of i]) [1; 2; 3; 4; 5].
Example C88_ex_extract :
  sane [101] exK st0 /\ (forall pre v s a1, process_pre exK (get_verifier exK) pre st0 = Ok ((v, s), a1) -> noor s) /\
  asks 2 adv4 /\ spread five [101] 1 /\ count (won noneok exK st0 adv4) (tapes five 4) = 625 /\
  Z.of_nat (2 + 2) * 1 * len five ^ Z.of_nat (2 + 2) < len five * count (won noneok exK st0 adv4) (tapes five (2 + 2)).
Proof.
  assert (P : forall pre v s a1, process_pre exK (get_verifier exK) pre st0 = Ok ((v, s), a1) -> s = exK /\ a1 = st0).
  { intros pre v s a1 H. cbn in H. injection H as <- <- <-. auto. }
  assert (C : count (won noneok exK st0 adv4) (tapes five 4) = 625) by (vm_compute; reflexivity).
  split; [split; [repeat constructor|]; intros pre v s a1 H; apply P in H as [-> ->]; split; [intros x y _ _ _; reflexivity|]|].
  - apply OiDL. split; [exact prime101|now left].
  - split; [intros pre v s a1 H; apply P in H as [-> _]; constructor|].
    split; [unfold adv4; destruct (prehash_input exK); [|exact I]; intros y; destruct (fs_input _ _ _); [intros c; exact I|exact I]|].
    split; [intros y Iy; cbn in Iy; repeat (destruct Iy as [<-|Iy]; [vm_compute; discriminate|]); destruct Iy|].
    split; [exact C|]. change (2 + 2)%nat with 4%nat. rewrite C. vm_compute. reflexivity.
Qed.

(** BBS+ signatures: properties C33 and C34. Keys are those of BBSPlusKeypair.generate ([keygen]) for a bilinear pair
    ([pairs G1 G2 = Some GT]). *)
From Coq Require Import String Znumtheory.
From Verif Require Import Base World Val Expr Utils Stmt Prove Verify Spec Shapes Claims Clauses Supply Bbs BbsProofs ZqWorld Ex ExTree.
Open Scope Z_scope.
Open Scope list_scope.

(** verify_signature decides the equation of the scheme. *)
Theorem C33_verification_decides : forall (W : World) pk sg ms,
  bbs_pk_ok pk -> in_group (grp (sig_A sg)) (pk_gens pk) -> pk_gens pk <> [] ->
  exists b, verify_signature sg pk ms = Ok b /\ (b = true <-> bbs_valid pk sg (sig_e sg) (sig_s sg) ms).
Proof. exact @verify_signature_valid. Qed.
Print Assumptions C33_verification_decides.

(** What a new creator and a signer make is accepted, with or without blinding, for any number of messages (surplus
    messages are ignored on both sides, see C34); the holder is in the situation of C35. *)
Theorem C33_issued_verifies : forall (W : World) G1 G2 GT n stk sk pk stk' ms zkp ss st b s1 st1 st2 sg st3,
  pairs G1 G2 = Some GT -> keygen G1 G2 n stk = Ok ((sk, pk), stk') ->
  commit_messages pk None ms zkp ss st = Ok ((b, s1), st1) -> sign sk (bl_com b) st2 = Ok (sg, st3) ->
  let sg' := obtain_signature s1 sg in
  verify_signature sg' pk ms = Ok true /\
  bbs_pk_ok pk /\ in_group (grp (sig_A sg')) (pk_gens pk) /\ bbs_valid pk sg' (sig_e sg') (sig_s sg') ms.
Proof. exact @issued. Qed.
Print Assumptions C33_issued_verifies.

(** Issuing succeeds for as many messages as the key is made for; [ss] are the new Secret objects of commit. The signer
    fails only if the number it draws is the negative of its key. *)
Theorem C33_issuing_succeeds : forall (W : World) G1 G2 GT n stk ms zkp ss st st2,
  pairs G1 G2 = Some GT -> prime (order G1) -> (List.length ms <= n)%nat ->
  List.length ss = (List.length ms + 1)%nat -> NoDup (map sname ss) -> NoDup (map sid ss) -> (forall x, In x ss -> env st (sid x) = None) ->
  exists sk pk stk', keygen G1 G2 n stk = Ok ((sk, pk), stk') /\
   ((exists b s1 st1, commit_messages pk None ms zkp ss st = Ok ((b, s1), st1) /\
       ((exists sg st3, sign sk (bl_com b) st2 = Ok (sg, st3)) \/ (order G1 | sk_gamma sk + tape st2 (pos st2)))) \/
    zkp = true /\ let t := tape st (pos st) mod order G1 in let bs := firstn (List.length ss) (skipn 1 (pk_gens pk)) in
      oversized (SDL (mkDL (lincomb G1 (t :: ms) bs) bs ss [] false)) (combine ss (t :: ms)) (mkSt (env st) (tape st) (S (pos st)))).
Proof. exact @issuing_succeeds. Qed.
Print Assumptions C33_issuing_succeeds.

(** The proof that goes with a blinded commitment is accepted. *)
Theorem C33_blinding_accepted : forall (W : World) G1 G2 GT n stk sk pk stk' s0 ms ss st b s1 st1 ss' stv,
  pairs G1 G2 = Some GT -> keygen G1 G2 n stk = Ok ((sk, pk), stk') ->
  List.length ss = (List.length ms + 1)%nat -> NoDup (map sname ss) -> NoDup (map sid ss) -> (forall x, In x ss -> env st (sid x) = None) ->
  NoDup (map sname ss') -> (List.length ms + 1 <= List.length ss')%nat ->
  commit_messages pk s0 ms true ss st = Ok ((b, s1), st1) -> verify_blinding b pk ss' stv = Ok (true, stv).
Proof. exact @issued_blinding. Qed.
Print Assumptions C33_blinding_accepted.

(** A creator that has made a blinded commitment before (its attribute s1 is set) makes a useless signature from an
    unblinded one. *)
Theorem C33_reused_creator_refuted : forall (W : World) G1 G2 GT n stk sk pk stk' t ms ss st b s1 st1 st2 sg st3 g0 g1 gens,
  pairs G1 G2 = Some GT -> keygen G1 G2 n stk = Ok ((sk, pk), stk') ->
  pk_gens pk = g0 :: g1 :: gens -> pairing (pmul t g1) (pk_h0 pk) <> inf GT ->
  commit_messages pk (Some t) ms false ss st = Ok ((b, s1), st1) -> sign sk (bl_com b) st2 = Ok (sg, st3) ->
  verify_signature (obtain_signature s1 sg) pk ms = Ok false.
Proof. exact @stale. Qed.
Print Assumptions C33_reused_creator_refuted.

(** A key for two messages over the groups of order 101; blinded and unblinded signatures; a reused creator *)
Definition exG1 : zgid := (1%N, 99%N).
Definition exG2 : zgid := (2%N, 99%N).
Definition exGT : zgid := (3%N, 99%N).
Definition exSs := [X 50 "a"; X 51 "b"; X 52 "c"].
Definition issue (zkp1 : bool) (again : bool) (ms : list Z) : M (res bool * res bool) :=
  let! (sk, pk) := keygen (W := Zq) exG1 exG2 2 in
  let! (b, s1) := commit_messages pk None ms zkp1 exSs in
  let! sg := sign sk (bl_com b) in
  if again then
    let! (b2, s2) := commit_messages pk s1 ms false exSs in
    let! sg2 := sign sk (bl_com b2) in
    ret (verify_signature (obtain_signature s1 sg) pk ms, verify_signature (obtain_signature s2 sg2) pk ms)
  else
    let! bl := if zkp1 then verify_blinding b pk exSs else ret true in
    ret (verify_signature (obtain_signature s1 sg) pk ms, Ok bl).
Example C33_ex :
  pairs exG1 exG2 = Some exGT /\ prime (order exG1) /\ NoDup (map sname exSs) /\ NoDup (map sid exSs) /\
  (forall x, In x exSs -> env st0 (sid x) = None) /\
  run (issue true false [8; 9]) st0 = Ok (Ok true, Ok true) /\ run (issue false false [8; 9]) st0 = Ok (Ok true, Ok true) /\
  run (issue true true [8; 9]) st0 = Ok (Ok true, Ok false) /\
  run (let! (sk, pk) := keygen (W := Zq) exG1 exG2 2 in
       let! (b, s1) := commit_messages pk None [8; 9] true exSs in
       ret (match pk_gens pk, s1 with
            | _ :: g1 :: _, Some t => negb (pt_eqb (pairing (pmul t g1) (pk_h0 pk)) (inf exGT)) | _, _ => false end)) st0 = Ok true.
Proof.
  split; [reflexivity|]. split; [exact prime101|]. split; [repeat constructor; simpl; intuition discriminate|].
  split; [repeat constructor; simpl; lia|]. split; [reflexivity|]. do 3 (split; [vm_compute; reflexivity|]). vm_compute. reflexivity.
Qed.

(** Messages beyond the number of the key's bases are ignored by verification and by the unblinded commitment. *)
Theorem C34_surplus_messages_refuted : forall (W : World) pk sg s1 ms extra ss st,
  (List.length (pk_gens pk) <= List.length ms + 2)%nat ->
  verify_signature sg pk (ms ++ extra) = verify_signature sg pk ms /\
  commit_messages pk s1 (ms ++ extra) false ss st = commit_messages pk s1 ms false ss st.
Proof. exact (fun W pk sg s1 ms extra ss st L => conj (@surplus_ignored W pk sg ms extra L) (@surplus_committed W pk s1 ms extra ss st L)). Qed.
Print Assumptions C34_surplus_messages_refuted.

(** The number of messages is not signed: zeros can be added or removed at the end. *)
Theorem C34_trailing_zeros_refuted : forall (W : World) pk sg ms k,
  bbs_pk_ok pk -> in_group (grp (sig_A sg)) (pk_gens pk) -> pk_gens pk <> [] ->
  verify_signature sg pk (ms ++ repeat 0 k) = verify_signature sg pk ms.
Proof. exact @trailing_zero. Qed.
Print Assumptions C34_trailing_zeros_refuted.

(** If the pairing with h0 is not degenerate: messages at the same place, below the number of bases (missing ones
    counting as 0), differ only by the coefficients of a relation between the bases. *)
Theorem C34_bound_partial : forall (W : World) pk sg ms ms' g0 g1 gens GT,
  bbs_pk_ok pk -> pk_gens pk = g0 :: g1 :: gens -> in_group (grp (sig_A sg)) (pk_gens pk) ->
  pairs (grp g0) (grp (pk_h0 pk)) = Some GT ->
  (forall X, grp X = grp g0 -> pairing X (pk_h0 pk) = inf GT -> X = inf (grp g0)) ->
  verify_signature sg pk ms = Ok true -> verify_signature sg pk ms' = Ok true ->
  lincomb (grp g0) (map (fun i => nth i ms 0 - nth i ms' 0) (seq 0 (List.length gens))) gens = inf (grp g0).
Proof. exact @two_lists. Qed.
Print Assumptions C34_bound_partial.

(** h0 = 1, key 10; generators 2, 3, 5, 7; signature on 8, 9; also valid for 8 + 7, 9 - 5 as 5*7 - 7*5 = 0, and for 8, 9, 77 *)
Definition ex4p (v : Z) : @pt Zq := zmk exG1 v.
Definition ex4Pk := let gs := [ex4p 2; ex4p 3; ex4p 5; ex4p 7] in
  mkPk (zmk exG2 10 : @pt Zq) (zmk exG2 1 : @pt Zq) gs (map (fun g => pairing g (zmk exG2 1 : @pt Zq)) gs).
Definition ex4Sig := mkSig (ex4p 16) 4 6.
Example C34_ex :
  bbs_pk_ok ex4Pk /\ in_group (grp (sig_A ex4Sig)) (pk_gens ex4Pk) /\
  (forall X : @pt Zq, grp X = exG1 -> pairing X (pk_h0 ex4Pk) = inf exGT -> X = inf exG1) /\
  verify_signature ex4Sig ex4Pk [8; 9] = Ok true /\ verify_signature ex4Sig ex4Pk [15; 4] = Ok true /\
  verify_signature ex4Sig ex4Pk [8; 9; 77] = Ok true /\ verify_signature ex4Sig ex4Pk [8; 10] = Ok false /\
  (List.length (pk_gens ex4Pk) <= List.length [8; 9] + 2)%nat.
Proof.
  split. { exists exG1, exG2, exGT. repeat split; try reflexivity. repeat constructor. }
  split; [repeat constructor|]. split.
  { intros X GX E. apply zpt_eq; [exact GX|]. apply (f_equal zv) in E. revert E. destruct X as [g v ok]. cbn in GX. subst g.
    assert (OK := ok). apply andb_prop in OK. destruct OK as [O1 O2]. apply Z.leb_le in O1. apply Z.ltb_lt in O2. change (zorder exG1) with 101 in O2.
    cbn [pairing inf Zq zmk zv pk_h0 ex4Pk zg]. change (zorder exG1) with 101. change (zorder (3%N, snd exG1)) with 101.
    change (zorder exGT) with 101. change (zorder exG2) with 101. change (1 mod 101) with 1. rewrite Z.mul_1_r, !Z.mod_small by lia. auto. }
  do 4 (split; [vm_compute; reflexivity|]). simpl. lia.
Qed.

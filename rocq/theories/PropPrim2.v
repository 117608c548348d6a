(** Further properties of the primitives: C44, C45, C46, C47. *)
From Coq Require Import String Znumtheory.
From Verif Require Import Base World Val Expr Utils Stmt Prove Verify Spec Shapes Claims Honest Clauses Supply Extract Runs Ident
  Complete2 Prims2 ZqFacts ZqWorld Ex ExTree PropPrim.
Open Scope Z_scope.
Open Scope list_scope.

(** C44, partial: the statement is not an extended one with a single representation inside ([root_ok]). The run is
    between an honest prover and an independent verifier and is accepted. *)
Theorem C44_interactive_partial : forall (W : World) U w s sd ord st f g sv,
  honest U w s sd (env st) -> Shape s -> Supplied sd w (env st) s -> Ords ord s -> Apart s -> root_ok s ->
  Pat f g s sv -> (forall e, Forall (vkOK e) (kinds sv)) ->
  exists p s1 st1 pre p2 s2 st2 i,
    get_prover s sd st = Ok ((Some p, s1), st1) /\ precommit s1 p st1 = Ok ((pre, p2, s2), st2) /\
    get_proof_id s2 None = Ok i /\
    (nonneutral s2 -> ~ Big (VStr (pystr i)) -> exists st3, run_interactive s1 p sv st1 = Ok (true, st3)) /\
    (noext s -> nonneutral s2 /\ get_proof_id s None = Ok i).
Proof. exact @run_complete. Qed.
Print Assumptions C44_interactive_partial.
(** An extended statement that consists of one representation cannot be run interactively. *)
Theorem C44_single_refuted : forall (W : World) sp p cls row b pre con st x,
  run_interactive sp p (SExt (KCustom cls [row]) b pre con) st <> Ok x.
Proof. exact @custom_interactive. Qed.
Print Assumptions C44_single_refuted.

Definition interactively (s : stmt) (sd : dict Z) (sv : stmt) : res bool :=
  match get_prover s sd st0 with
  | Ok ((Some p, s1), st1) => run (run_interactive s1 p sv) st1
  | _ => Err EException
  end.
Definition one_row (a b : secret) : stmt := SExt (KCustom (lit "Mine") [(Pt 27, [(a, Pt 3); (b, Pt 5)])]) false VNone None.
Example C44_ex : (* 27 = 4*3 + 3*5 *)
  honest exU exw exS exsd (env st0) /\ Shape exS /\ Supplied exsd exw (env st0) exS /\ Ords exord exS /\
  Apart exS /\ root_ok exS /\ Pat tick untick exS exV /\ (forall e, Forall (vkOK e) (kinds exV)) /\
  interactively exS exsd exV = Ok true /\
  interactively (SExt exNeqK false VNone None) exsd (mk_neq (Pt 21) (Pt 3) (Pt 36) (Pt 5) sx sy sz true false) = Ok true /\
  interactively (one_row sx sy) [(sx, 4); (sy, 3)] (one_row su sz) = Err ETypeErr /\
  accepts (one_row sx sy) [(sx, 4); (sy, 3)] st0 (one_row su sz) st0 = Ok true.
Proof.
  split; [exact exS_honest|]. split; [exact exS_shape|]. split; [exact exS_supplied|]. split; [exact exS_ords|].
  split; [exact exS_apart|]. split; [exact I|]. split; [exact exV_pat|]. split; [exact exV_vals|].
  repeat (split; [vm_compute; reflexivity|]). vm_compute. reflexivity.
Qed.

(** C45 is false: without the secret and its value no statement can be constructed; *)
Theorem C45_construction_refuted : forall (W : World) G a b r x1 x2 rs1 rs2 st,
  (forall x, env st (sid x) = None -> sid r <> sid x -> mk_range_only G a b (Some x) r x1 x2 rs1 rs2 st = Err EIncompleteValues) /\
  mk_range_only G a b None r x1 x2 rs1 rs2 st = Err ETypeErr.
Proof. exact @range_only_fails. Qed.
Print Assumptions C45_construction_refuted.
(** with a value, it is about the randomizer drawn by whoever constructs it, like a range statement about [com]; *)
Theorem C45_range_only_is_range : forall (W : World) G a b x r x1 x2 rs1 rs2 st v, env st (sid x) = Some v -> sid r <> sid x -> sid x1 <> sid x ->
  let g := hash_to_point G (lit "g") in let h := hash_to_point G (lit "h") in
  let t := tape st (pos st) mod order G in
  let st1 := mkSt (upd (env st) (sid r) (Some t)) (tape st) (S (pos st)) in
  mk_range_only G a b (Some x) r x1 x2 rs1 rs2 st = mk_range (padd (pmul v g) (pmul t h)) g h a b x r x1 x2 rs1 rs2 st1.
Proof. exact @range_only_eq. Qed.
Print Assumptions C45_range_only_is_range.
(** and the verifier of a range statement about another commitment raises an exception (or there is a collision). *)
Theorem C45_other_commitment : forall (W : World) com com' g h g' h' a b a' b' x r x1 x2 rs1 rs2 x' r' x1' x2' rs1' rs2' sb s st sb' sv stv
    sd msg st0 z sp st1 msg' stv0 v sv1 st2, repr_ok ->
  mk_range com g h a b x r x1 x2 rs1 rs2 sb = Ok (s, st) ->
  mk_range com' g' h' a' b' x' r' x1' x2' rs1' rs2' sb' = Ok (sv, stv) ->
  prove s sd msg st0 = Ok ((z, sp), st1) -> verify sv z msg' stv0 = Ok ((v, sv1), st2) ->
  repr_pt com = repr_pt com' \/ exists i i', i <> i' /\ sha256 i = sha256 i'.
Proof. exact @range_other_com. Qed.
Print Assumptions C45_other_commitment.
(** What can be done: the verifier is told the commitment and uses RangeStmt. *)
Theorem C45_with_commitment_partial : forall (W : World) G a b x r x1 x2 rs1 rs2 v sd msg st s st1,
  let g := hash_to_point G (lit "g") in let h := hash_to_point G (lit "h") in
  let n := num_bits (b - a - 1) in let all := x :: r :: x1 :: x2 :: rs1 ++ rs2 in
  let com := padd (pmul v g) (pmul (tape st (pos st) mod order G) h) in
  mk_range_only G a b (Some x) r x1 x2 rs1 rs2 st = Ok (s, st1) ->
  NoDup (map sname all) -> NoDup (map sid all) -> List.length rs1 = n -> List.length rs2 = n -> (2 <= n)%nat ->
  a <= v < b -> env st (sid x) = Some v -> (forall k u, In (k, u) sd -> k = x /\ u = v) ->
  (exists z s' st', prove s sd msg st1 = Ok ((z, s'), st') /\
     forall x' r' x1' x2' rs1' rs2' svst sbv stv, NoDup (map sname (x' :: r' :: x1' :: x2' :: rs1' ++ rs2')) ->
       List.length rs1' = n -> List.length rs2' = n ->
       mk_range com g h a b x' r' x1' x2' rs1' rs2' sbv = Ok (svst, stv) ->
       env sbv (sid x') = None -> env sbv (sid x1') = None -> env sbv (sid x2') = None ->
       exists sv', verify svst z msg stv = Ok ((true, sv'), stv)) \/
  oversized s sd st1.
Proof. exact @range_only_complete. Qed.
Print Assumptions C45_with_commitment_partial.
(** the value 10 in [8, 14): the prover's own statement, a second one made with the value, one without *)
Definition exRo (i : nat) (x : option secret) : M stmt :=
  mk_range_only G101 8 14 x (X (60 + i) "ro") (X (61 + i) "x1") (X (62 + i) "x2")
    [X (63 + i) "a"; X (64 + i) "b"; X (65 + i) "c"] [X (66 + i) "d"; X (67 + i) "e"; X (68 + i) "f"].
Example C45_ex :
  let a := with_vals [(4%nat, 10)] in
  let all := sv :: X 60 "ro" :: X 61 "x1" :: X 62 "x2" :: [X 63 "a"; X 64 "b"; X 65 "c"] ++ [X 66 "d"; X 67 "e"; X 68 "f"] in
  let g := hash_to_point G101 (lit "g") in let h := hash_to_point G101 (lit "h") in
  NoDup (map sname all) /\ NoDup (map sid all) /\ num_bits (14 - 8 - 1) = 3%nat /\
  made (exRo 0 (Some sv)) a (fun s a => accepts s [] a s a) = Ok true /\
  made (exRo 0 (Some sv)) a (fun s a1 => made (exRo 20 (Some sv)) a1 (fun s' a2 => accepts s [] a1 s' a2)) = Err EStatementMismatch /\
  made (exRo 0 (Some sv)) a (fun s a1 => made
    (mk_range (padd (pmul 10 g) (pmul (tape a (pos a) mod 101) h)) g h 8 14 (T 50 "v") (T 51 "r") (T 52 "x") (T 53 "y")
          [T 40 "a"; T 41 "b"; T 42 "c"] [T 43 "d"; T 44 "e"; T 45 "f"]) st0 (fun s' _ => accepts s [] a1 s' st0)) = Ok true /\
  match exRo 0 (Some sx) a with Err EIncompleteValues => true | _ => false end = true /\ @repr_ok Zq.
Proof.
  cbv zeta. split; [repeat constructor; simpl; intuition discriminate|].
  split; [repeat constructor; simpl; intuition discriminate|].
  do 5 (split; [vm_compute; reflexivity|]). exact zq_repr_ok.
Qed.

(** C46 is false: if h is in another group than g, every pair of points is accepted: for one first message and one
    commitment every challenge can be answered. Nothing is known about H1; H0 is only needed with bind=True. *)
Theorem C46_two_groups_refuted : forall (W : World) H0 g H1 h x al be bnd v st, grp H0 = grp g -> grp H1 = grp h -> grp h <> grp g ->
  (bnd = true -> H0 = pmul v g /\ sname x <> sname al /\ sname x <> sname be) ->
  let s0 := mk_neq H0 g H1 h x al be bnd false in
  exists pre u s, process_pre s0 (get_verifier s0) pre st = Ok ((u, s), st) /\
    exists c0, forall e c, exists a, verify_resp e s u c0 c a = Ok true.
Proof. exact @neq_forgery. Qed.
Print Assumptions C46_two_groups_refuted.
(** Partial: it holds if the first message is not the neutral element of the group of h, which nobody checks. *)
Theorem C46_two_groups_partial : forall (W : World) H0 g H1 h x al be bnd sim pre st v s st1 e com c c' r r',
  process_pre (mk_neq H0 g H1 h x al be bnd sim) (get_verifier (mk_neq H0 g H1 h x al be bnd sim)) pre st = Ok ((v, s), st1) ->
  let q := order (grp g) in prime q -> order (grp h) = q -> pre <> VPt (inf (grp h)) -> g <> inf (grp g) ->
  coh e (svars s) -> ~ (q | c - c') ->
  verify_resp e s v com c r = Ok true -> verify_resp e s v com c' r' = Ok true ->
  exists w y, Extr w s c c' r r' /\ (q | w q (sname be) * y + w q (sname al)) /\ ~ (q | w q (sname be)) /\
    H0 = pmul y g /\ H1 <> pmul y h /\ (bnd = true -> (q | y - w q (sname x))).
Proof. exact @neq_sound2. Qed.
Print Assumptions C46_two_groups_partial.
(** An honest run of the library proves 7 <> 7: g = 3 and h = 5 are in different groups, the points are 7*3 and 7*5. With
    36 instead of 35 the first message is not neutral. *)
Definition Pq (v : Z) : @pt Zq := zmk (5%N, 99%N) v.
Definition exNq (v : Z) (x al be : secret) : stmt := mk_neq (Pt 21) (Pt 3) (Pq v) (Pq 5) x al be true false.
Definition exNqpre (v : Z) : val :=
  match run (let! a := get_prover (exNq v su sal sbe) [(su, 7)] in
             match fst a with Some p => let! b := precommit (snd a) p in ret (fst (fst b)) | None => ret VNone end) st0 with
  | Ok p => p | Err _ => VNone end.
Example C46_ex :
  grp (Pq 5) <> grp (Pt 3) /\ order (grp (Pq 5)) = order (grp (Pt 3)) /\ Pt 21 = pmul 7 (Pt 3) /\ Pq 35 = pmul 7 (Pq 5) /\
  accepts (exNq 35 su sal sbe) [(su, 7)] st0 (exNq 35 sx sy sz) st0 = Ok true /\
  val_eqb (exNqpre 35) (VPt (inf (grp (Pq 5)))) = true /\
  accepts (exNq 36 su sal sbe) [(su, 7)] st0 (exNq 36 sx sy sz) st0 = Ok true /\
  val_eqb (exNqpre 36) (VPt (inf (grp (Pq 5)))) = false.
Proof.
  split; [discriminate|]. split; [reflexivity|]. split; [now apply zpt_eq|]. split; [now apply zpt_eq|].
  repeat (split; [vm_compute; reflexivity|]). vm_compute. reflexivity.
Qed.

(** C47 is false: a range statement that was built when one of the values was missing can never be proved. *)
Theorem C47_power_two_refuted : forall (W : World) com g h n x r rs st s, mk_range2 com g h n x r rs st = Ok (s, st) ->
  env st (sid x) = None \/ env st (sid r) = None -> forall sd msg st1, prove s sd msg st1 = Err EAttributeErr.
Proof. exact @range2_late. Qed.
Print Assumptions C47_power_two_refuted.
Theorem C47_range_refuted : forall (W : World) com g h a b x r x1 x2 rs1 rs2 sb s st,
  mk_range com g h a b x r x1 x2 rs1 rs2 sb = Ok (s, st) -> sid r <> sid x1 -> sid r <> sid x2 ->
  env sb (sid x1) = None -> env sb (sid x) = None \/ env sb (sid r) = None ->
  forall sd msg st1 y, prove s sd msg st1 <> Ok y.
Proof. exact @range_late. Qed.
Print Assumptions C47_range_refuted.
Example C47_ex : (* the same commitment as in C29_ex and C32_ex2; the values are passed to prove *)
  made (mk_range2 (Pt (5*3 + 20*5)) (Pt 3) (Pt 5) 3 sv sr rs3) st0 (fun s a => accepts s [(sv, 5); (sr, 20)] a s a) = Err EAttributeErr /\
  made (mk_range (Pt (10*3 + 20*5)) (Pt 3) (Pt 5) 8 14 sv sr sx sy rs3 [X 15 "r3"; X 16 "r4"; X 17 "r5"]) st0 (fun s a =>
    accepts s [(sv, 10); (sr, 20)] a s a) = Err EAttributeErr.
Proof. split; vm_compute; reflexivity. Qed.

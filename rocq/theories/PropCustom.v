(** Properties C73, C74, C75: primitives defined by users of the library (docs/new_primitives.rst). *)
From Coq Require Import String Znumtheory.
From Verif Require Import Base World Val Expr Utils Stmt Prove Verify Spec Shapes Claims Honest Supply Extract Custom CustomProofs ZqWorld Ex ExTree PropSound.
Open Scope Z_scope.
Open Scope list_scope.

(** The primitives of the library are such classes: used on their own, objects of the other theorems do the same. (The class of the
    tutorial is DLNotEqual without the binding.) *)
Theorem C73_library_prove : forall (W : World) k b q con sd msg a,
  cprove (class_of k) sd msg a = match prove (SExt k b q con) sd msg a with Ok ((z, _), a') => Ok (z, a') | Err e => Err e end.
Proof. exact @link_prove. Qed.
Print Assumptions C73_library_prove.
Theorem C73_library_verify : forall (W : World) k b q z msg a,
  cverify (class_of k) z msg a = match verify (SExt k b q None) z msg a with Ok ((r, _), a') => Ok (r, a') | Err e => Err e end.
Proof. exact @link_verify. Qed.
Print Assumptions C73_library_verify.
Theorem C73_library_simulate : forall (W : World) k b q con ch a,
  csimulate (class_of k) ch a = match simulate (SExt k b q con) ch a with Ok ((t, h, _), a') => Ok ((t, h), a') | Err e => Err e end.
Proof. exact @link_simulate. Qed.
Print Assumptions C73_library_simulate.

(** C73, partial. Take any class whose methods, in the state given, return a precommitment and a statement [c] without primitives
    that holds for the values the prover has. Then prove() returns a proof. verify() of any class of the same name accepts it if its
    construct_stmt makes of the precommitment a statement of the same form with its own secrets, and its validate raises nothing.
    Excluded: secrets shared between an or-clause and the rest (Apart), precommitments None or a string, messages of 2^32 bytes, and
    statements with primitives (C75). *)
Theorem C73_complete_partial : forall (W : World) K U w sd ord msg a a0 pre a1 c a2,
  update_secret_values sd a = Ok (tt, a0) -> c_pre K a0 = Ok (pre, a1) -> c_con K pre a1 = Ok (c, a2) ->
  let sv := dupdate (env a0) [] sd in
  noext c -> honest U w c sv (env a2) -> Shape c -> Supplied sv w (env a2) c -> Ords ord c -> Apart c ->
  pre <> VNone -> (forall b, pre <> VStr b) ->
  (exists z a', cprove K sd msg a = Ok (z, a') /\
     forall KV f g stv cv stv', c_name KV = c_name K -> c_con KV pre stv = Ok (cv, stv') -> Pat f g c cv -> c_val KV pre = Ok tt ->
     cverify KV z msg stv = Ok (true, stv')) \/
  exists q c1 com p3 a3 a4 i, copen K sd a = Ok ((pre, q, c1), a3) /\ ccommit c1 q a3 = Ok ((com, p3), a4) /\ get_proof_id c1 None = Ok i /\
    (Big (VStr (pystr (VList [VStr (c_name K); pre; i]))) \/ Big pre \/ Big com).
Proof. exact @custom_complete. Qed.
Print Assumptions C73_complete_partial.

(** Two classes. The plaintext proof of docs/new_primitives.rst, with the ciphertext (r*3, r*5 + m*3), and one with a precommitment to
    the secret x of 12 = x*3: it draws t, sends x*3 + t*5 and proves 12 = x*3 and C = x*3 + t*5. *)
Definition exElg (c1 c2 : @pt Zq) (m r : secret) : cls := mkCls (lit "AdditiveElgamalPlaintextProof")
  (ret (VList []))
  (fun _ => let! p1 := lift2 (mk_dlrep c1 (emul r (Pt 3)) false) in
            let! p2 := lift2 (mk_dlrep c2 (eadd (emul r (Pt 5)) (emul m (Pt 3))) false) in lift (mk_and [p1; p2]))
  (raise EStatementSpec) (fun _ => Ok tt).
Definition exCom (x t : secret) : cls := mkCls (lit "Committed")
  (let! u := draw 101 in
   let! v := value_of x in
   set_value (sid t) u ;;
   let! C := lift (padd_chk (pmul v (Pt 3)) (pmul u (Pt 5))) in ret (VPt C))
  (fun pre => let! C := lift (as_pt pre) in
              let! p1 := lift2 (mk_dlrep (Pt 12) (emul x (Pt 3)) false) in
              let! p2 := lift2 (mk_dlrep C (eadd (emul x (Pt 3)) (emul t (Pt 5))) false) in lift (mk_and [p1; p2]))
  (let! u := draw 101 in ret (VPt (pmul u (Pt 3))))
  (fun pre => if val_eqb pre (VPt (Pt 0)) then Err EValidation else Ok tt).
Definition stx := X 6 "t".
Definition cw (n : bytes) : Z := if bytes_eqb n (lit "x") then 4 else 23.
Definition exCa0 : st := mkSt (upd (fun _ => None) 0%nat (Some 4)) (tape st0) 0.
Definition exCa1 : st := mkSt (upd (env exCa0) 6%nat (Some 23)) (tape st0) 1.
Definition exCP : @pt Zq := padd (pmul 4 (Pt 3)) (pmul 23 (Pt 5)).
Definition exCp : val := VPt exCP.
Definition exCc : stmt := SAnd [SDL (mkDL (Pt 12) [Pt 3] [sx] [(sx, 4)] false);
  SDL (mkDL exCP [Pt 3; Pt 5] [sx; stx] [(sx, 4); (stx, 23)] false)] false.
Definition exCcv : stmt := SAnd [SDL (mkDL (Pt 12) [Pt 3] [T 20 "x"] [] false);
  SDL (mkDL exCP [Pt 3; Pt 5] [T 20 "x"; T 21 "t"] [] false)] false.
Example C73_ex :
  let sv := dupdate (env exCa0) [] [(sx, 4)] in
  update_secret_values [(sx, 4)] st0 = Ok (tt, exCa0) /\ c_pre (exCom sx stx) exCa0 = Ok (exCp, exCa1) /\
  c_con (exCom sx stx) exCp exCa1 = Ok (exCc, exCa1) /\
  noext exCc /\ honest [sx; stx] cw exCc sv (env exCa1) /\ Shape exCc /\ Supplied sv cw (env exCa1) exCc /\ Ords exord exCc /\ Apart exCc /\
  exCp <> VNone /\ (forall b, exCp <> VStr b) /\
  (* the verifier *)
  c_con (exCom (T 20 "x") (T 21 "t")) exCp st0 = Ok (exCcv, st0) /\ Pat tick untick exCc exCcv /\
  c_val (exCom (T 20 "x") (T 21 "t")) exCp = Ok tt.
Proof.
  cbv zeta. split; [reflexivity|]. split; [reflexivity|]. split; [reflexivity|].
  split; [repeat constructor|].
  assert (E : dupdate (env exCa0) [] [(sx, 4)] = [(sx, 4)]) by reflexivity. rewrite E.
  assert (D : forall l, incl l [(sx, 4); (stx, 23)] -> entries_ok [sx; stx] cw l).
  { intros l I k v H. apply I in H. destruct H as [[= <- <-]|[[= <- <-]|[]]]; split; [in_list|reflexivity|in_list|reflexivity]. }
  assert (N : forall l x, In (x, l) [(sx, 4); (stx, 23)] -> forall d, In (x, l) d -> known d x) by (intros l x _ d H; exists x, l; auto).
  split; [|split; [|split; [|split; [|split]]]].
  - constructor.
    + apply SoAnd. constructor; [|constructor; [|constructor]]; (apply SoDL; [incl_list|reflexivity|discriminate]).
    + apply wfLb_ok. reflexivity.
    + constructor.
    + intros x y [].
    + apply TrAnd. constructor; [|constructor; [|constructor]]; (apply TrDL; split; [repeat constructor|pteq]).
    + apply VaAnd. constructor; [|constructor; [|constructor]]; (apply VaDL; apply D; incl_list).
    + apply D. incl_list.
    + intros x v [<-|[<-|[]]]; intros H; vm_compute in H; injection H as <-; reflexivity.
  - apply ShAnd. constructor; [|constructor; [|constructor]]; (apply ShDL; split; [reflexivity|]; split; [discriminate|]; repeat constructor).
  - apply SuAnd. constructor; [|constructor; [|constructor]]; apply SuDL; cbn [dl_secs dl_vals].
    + intros x [<-|[]]. left. apply (N 4 sx); in_list.
    + intros x [<-|[<-|[]]]; left; [apply (N 4 sx)|apply (N 23 stx)]; in_list.
  - apply OrAnd. constructor; [ex_ords|constructor; [ex_ords|constructor]].
  - apply ApAnd; [repeat constructor|]. intros pre o post x y H. exfalso. inversion H as [|l1 s l2 b pr oo po C E1]; subst.
    destruct l1 as [|a1 [|a2 l1]]; simpl in E1; injection E1; intros; subst; inversion C; subst; destruct l1; discriminate.
  - split; [discriminate|]. split; [discriminate|]. split; [reflexivity|]. split; [|reflexivity].
    apply PaAnd. constructor; [|constructor; [|constructor]]; (apply PaDL; [reflexivity|reflexivity|]; repeat constructor; vm_compute; reflexivity).
Qed.
(** The messages of the example are not too big: the verifier does accept. Likewise for the plaintext proof. *)
Definition round (K KV : cls) (sd : dict Z) : bool :=
  match cprove K sd (lit "m") st0 with
  | Ok (z, _) => match cverify KV z (lit "m") st0 with Ok (b, _) => b | Err _ => false end
  | Err _ => false end.
Example C73_ex_accepted :
  round (exCom sx stx) (exCom (T 20 "x") (T 21 "t")) [(sx, 4)] = true /\
  round (exElg (Pt 12) (Pt (20 + 21)) su sx) (exElg (Pt 12) (Pt (20 + 21)) (T 20 "m") (T 21 "r")) [(sx, 4); (su, 7)] = true /\
  (* another ciphertext *)
  round (exElg (Pt 12) (Pt (20 + 21)) su sx) (exElg (Pt 12) (Pt (20 + 22)) (T 20 "m") (T 21 "r")) [(sx, 4); (su, 7)] = false.
Proof. split; [|split]; vm_compute; reflexivity. Qed.

(** Simulated transcripts of a class that overrides simulate_precommit are accepted by verify_simulation_consistency. *)
Theorem C73_simulation : forall (W : World) K U ch a pre a1 c a2 t h a',
  c_sim K a = Ok (pre, a1) -> c_con K pre a1 = Ok (c, a2) -> noext c -> Sok U c -> wfL U ->
  csimulate K ch a = Ok ((t, h), a') -> t_pre t = pre /\ (forall x, ch = Some x -> t_chal t = x) /\
  forall KV f g stv cv stv', c_name KV = c_name K -> c_con KV pre stv = Ok (cv, stv') -> Pat f g c cv -> c_val KV pre = Ok tt ->
  cverify_simulation KV t h stv = Ok (true, stv').
Proof. exact @custom_simulation. Qed.
Print Assumptions C73_simulation.
Definition exSP : @pt Zq := pmul 23 (Pt 3).
Definition exSimc : stmt := SAnd [SDL (mkDL (Pt 12) [Pt 3] [T 20 "x"] [] false);
  SDL (mkDL exSP [Pt 3; Pt 5] [T 20 "x"; T 21 "t"] [] false)] false.
Definition okb {A} (r : res A) : bool := match r with Ok _ => true | Err _ => false end.
Lemma okb_sim (r : res ((@sim Zq * @val Zq) * st)) : okb r = true -> exists t h a', r = Ok ((t, h), a').
Proof. destruct r as [[[t h] a']|]; [eauto|discriminate]. Qed.
Example C73_simulation_ex :
  let K := exCom (T 20 "x") (T 21 "t") in
  exists a1, c_sim K st0 = Ok (VPt exSP, a1) /\ c_con K (VPt exSP) a1 = Ok (exSimc, a1) /\ noext exSimc /\
  Sok [T 20 "x"; T 21 "t"] exSimc /\ wfL [T 20 "x"; T 21 "t"] /\ exists t h a', csimulate K (Some 11) st0 = Ok ((t, h), a').
Proof.
  cbv zeta. exists (mkSt (fun _ => None) (tape st0) 1). split; [reflexivity|]. split; [reflexivity|]. split; [repeat constructor|].
  split; [apply SoAnd; constructor; [|constructor; [|constructor]]; (apply SoDL; [incl_list|reflexivity|discriminate])|].
  split; [apply wfLb_ok; reflexivity|]. apply okb_sim. vm_compute. reflexivity.
Qed.

(** C74: a verifier object of any class that accepts two answers to one commitment and precommitment: then validate() has raised
    nothing for the precommitment, and the statement that construct_stmt makes of it holds for values that are computed from the two
    answers. Partial: statements without disjunctions and without primitives. *)
Theorem C74_sound_partial : forall (W : World) K e pre stv c stv' com ch ch' r r',
  c_con K pre stv = Ok (c, stv') -> noext c -> wfs c -> coh e (svars c) -> noor c ->
  orders_in (fun q => prime q /\ ~ (q | ch - ch')) c ->
  cverify_resp K e pre c com ch r = Ok true -> cverify_resp K e pre c com ch' r' = Ok true ->
  c_val K pre = Ok tt /\ exists w, Extr w c ch ch' r r' /\ Sat w c.
Proof. exact @custom_sound. Qed.
Print Assumptions C74_sound_partial.

(** The class of the example with two answers; x = 4, t = 23, randomizers 10 and 20, challenges 2 and 5. *)
Definition exCcom : val := VList [VPt (Pt 30); VPt (Pt (30 + 100))].
Definition exCr (z t : Z) : val := VList [VList [VInt z]; VList [VInt z; VInt t]].
Example C74_ex :
  let K := exCom (T 20 "x") (T 21 "t") in
  c_con K exCp st0 = Ok (exCcv, st0) /\ noext exCcv /\ wfs exCcv /\ coh (env st0) (svars exCcv) /\ noor exCcv /\
  orders_in (fun q => prime q /\ ~ (q | 2 - 5)) exCcv /\
  cverify_resp K (env st0) exCp exCcv exCcom 2 (exCr 18 66) = Ok true /\
  cverify_resp K (env st0) exCp exCcv exCcom 5 (exCr 30 135) = Ok true /\
  (* other precommitments are not accepted with these *)
  cverify_resp K (env st0) (VPt (Pt 0)) exCcv exCcom 5 (exCr 30 135) = Err EValidation.
Proof.
  assert (P : prime 101 /\ ~ (101 | 2 - 5)) by (split; [exact prime101|intros [k H]; lia]).
  cbv zeta. split; [reflexivity|]. split; [repeat constructor|]. split; [repeat constructor|]. split; [intros x y _ _ _; reflexivity|].
  split; [repeat constructor|]. split; [|split; [|split]; vm_compute; reflexivity].
  apply OiAnd. constructor; [|constructor; [|constructor]]; apply OiDL; exact P.
Qed.

(** With disjunctions, under the conditions of C11: exactly one sub-challenge per branch, of absolute value below 2^128. *)
Theorem C74_sound_or_partial : forall (W : World) K e pre stv c stv' com ch ch' r r',
  c_con K pre stv = Ok (c, stv') -> noext c -> wfs c -> coh e (svars c) ->
  orders_in (fun q => prime q /\ ~ (q | ch - ch') /\ 2 ^ 129 <= q) c -> canonical c r -> canonical c r' -> ~ (2 ^ 128 | ch - ch') ->
  cverify_resp K e pre c com ch r = Ok true -> cverify_resp K e pre c com ch' r' = Ok true ->
  c_val K pre = Ok tt /\ exists w, Extr w c ch ch' r r' /\ Sat w c.
Proof. exact @custom_sound_or. Qed.
Print Assumptions C74_sound_or_partial.
(** a class whose statement is the disjunction of the example of C11 *)
Definition exEither : cls := mkCls (lit "Either") (ret (VList [])) (fun _ => ret exB) (ret (VList [])) (fun _ => Ok tt).
Example C74_or_ex :
  c_con exEither (VList []) st0 = Ok (exB, st0) /\ noext exB /\ wfs exB /\ coh (env st0) (svars exB) /\
  orders_in (fun q => prime q /\ ~ (q | 100 - 200) /\ 2 ^ 129 <= q) exB /\ canonical exB (exBr 91) /\ canonical exB (exBr 191) /\
  ~ (2 ^ 128 | 100 - 200) /\
  cverify_resp exEither (env st0) (VList []) exB exBcom 100 (exBr 91) = Ok true /\
  cverify_resp exEither (env st0) (VList []) exB exBcom 200 (exBr 191) = Ok true.
Proof.
  destruct C11_ex as (_ & A & B & C & D & E & F & _). split; [reflexivity|]. split; [repeat constructor|].
  do 6 (split; [assumption|]). split; vm_compute; reflexivity.
Qed.

(** C75 is false for classes whose construct_stmt makes a statement that contains primitives, as "our new primitive can now be used in
    bigger proofs" suggests: verify() of such an object never returns, with any proof, because the verifier constructs only the outer
    statement. *)
Theorem C75_nested_verify_refuted : forall (W : World) K z msg a c a1,
  c_con K (n_pre z) a = Ok (c, a1) -> unbuilt c -> forall r, cverify K z msg a <> Ok r.
Proof. exact @nested_never. Qed.
Print Assumptions C75_nested_verify_refuted.
(** Nor does check_statement() of the interactive verifier, *)
Theorem C75_nested_check_refuted : forall (W : World) K h a c a1 pre,
  c_con K pre a = Ok (c, a1) -> unbuilt c -> exists e, ccheck K pre c h = Err e.
Proof. exact @nested_refused. Qed.
Print Assumptions C75_nested_check_refuted.
(** nor simulate(). *)
Theorem C75_nested_simulate_refuted : forall (W : World) K ch a pre a1 c a2,
  c_sim K a = Ok (pre, a1) -> c_con K pre a1 = Ok (c, a2) -> unbuilt c -> forall r, csimulate K ch a <> Ok r.
Proof. exact @nested_no_simulation. Qed.
Print Assumptions C75_nested_simulate_refuted.
(** A class that conjoins a representation and an inequality of discrete logarithms: prove() returns a proof, after construct_stmt made
    a statement with an unconstructed primitive. *)
Definition exNest (x u al be : secret) : cls := mkCls (lit "Nested")
  (ret (VList []))
  (fun _ => let! p := lift2 (mk_dlrep (Pt 12) (emul x (Pt 3)) false) in
            lift (mk_and [p; SExt (KNeq (Pt 21) (Pt 3) (Pt 36) (Pt 5) u al be true) false VNone None]))
  (ret (VList [])) (fun _ => Ok tt).
Lemma okb_proof (r : res (@nizk Zq * st)) : okb r = true -> exists z a, r = Ok (z, a).
Proof. destruct r as [[z a]|]; [eauto|discriminate]. Qed.
Example C75_ex :
  (exists z a, cprove (exNest sx su sal sbe) [(sx, 4); (su, 7)] (lit "m") st0 = Ok (z, a)) /\
  exists c, (forall pre, c_con (exNest (T 20 "x") (T 21 "u") (T 30 "al") (T 31 "be")) pre st0 = Ok (c, st0)) /\ unbuilt c.
Proof.
  split; [apply okb_proof; vm_compute; reflexivity|].
  eexists. split; [intros pre; reflexivity|]. eapply UbAnd; [right; left; reflexivity|apply UbExt].
Qed.

(** Property C83: disjunctions with primitives defined by users of the library. *)
From Coq Require Import String Znumtheory Lia.
From Verif Require Import Base World Val Expr Utils Stmt Prove Verify Spec Shapes Claims Honest Clauses Supply Extract Lib Custom Mixed MixedOr MixedOrProofs2 MixedOrSound MixedOrLink
  Sound4 Proth ZqWorld Ex ExTree PropSound PropCustom PropMixed.
Open Scope Z_scope.
Open Scope list_scope.

(** The primitives of the library are such classes: disjunctions of their objects and of other statements, with any marks, do the same
    as those of the other theorems. *)
Theorem C83_library_prove : forall (W : World) l subs sd msg a, Forall2 marked l subs ->
  oprove l sd msg a = match prove (SOr subs false None) sd msg a with Ok ((z, _), a') => Ok (z, a') | Err e => Err e end.
Proof. exact @olink_prove. Qed.
Print Assumptions C83_library_prove.
Theorem C83_library_verify : forall (W : World) l subs z msg a, Forall2 libpart l subs ->
  overify l z msg a = match verify (SOr subs false None) z msg a with Ok ((r, _), a') => Ok (r, a') | Err e => Err e end.
Proof. exact @olink_verify. Qed.
Print Assumptions C83_library_verify.
Example C83_library_ex : Forall2 marked [(US exDL, true); (UK (class_of exNeqK), false); (US exOr, false); (UK (class_of exRangeK), true)]
  [set_simulated true exDL; SExt exNeqK false VNone None; set_simulated false exOr; SExt exRangeK true VNone None].
Proof.
  constructor; [exists exDL; split; [constructor|reflexivity]|]. constructor; [exists (SExt exNeqK false VNone None); split; [constructor|reflexivity]|].
  constructor; [exists exOr; split; [constructor|reflexivity]|]. constructor; [exists (SExt exRangeK false VNone None); split; [constructor|reflexivity]|]. constructor.
Qed.

(** C83, partial. Take any list of objects of users' classes and of statements without primitives, some of them marked as simulated, not
    all. Let simulate_precommit() of the classes return precommitments of which construct_stmt makes statements without primitives
    ([able]), and let the parts that are not marked hold for values that the prover has ([able], [provable]: for an object of a class
    this is asked only if get_prover() chooses it, of the statement made in this run). Then prove() of the disjunction returns a proof.
    verify() of a disjunction of objects of classes of the same names accepts it if their construct_stmt makes of the precommitments
    statements of the same form, with the verifier's own secrets, and their validate raises nothing. Excluded: secrets shared between
    an or-clause and the rest (Apart) inside the statements, messages of 2^32 bytes, disjunctions all of whose precommitments are empty
    (C83_empty_refuted), parts with primitives of the library among the statements (as classes they are covered). *)
Theorem C83_complete_partial : forall (W : World) U w ord sd l msg a K b, wfL U -> entries_ok U w sd -> agree w (env a) U ->
  Forall (able U w sd (env a) ord) l -> (exists u, In (u, false) l) -> provable U l sd a ->
  In (UK K, b) l -> (forall pre c, made K pre c -> truthy pre = true) ->
  (exists z a' vs, oprove l sd msg a = Ok (z, a') /\ n_pre z = VList vs /\ List.length vs = List.length l /\
     forall f g lv stv, Forall2 (meets f g) (combine l vs) lv -> exists stv', overify lv z msg stv = Ok (true, stv')) \/ ooversized l sd a.
Proof. exact @mixed_or_complete. Qed.
Print Assumptions C83_complete_partial.

(** Three branches: the commitment to x of C73, with 12 = x*3; 22 = u*3 and another such commitment, to y, are simulated. *)
Definition sy' := X 8 "y".
Definition st' := X 9 "s".
Definition oU := [sx; stx; su; sy'; st'].
Definition ow (n : bytes) : Z := if bytes_eqb n (lit "x") then 4 else 23.
Definition osd : dict Z := [(sx, 4)].
Definition oD (u : secret) : @stmt Zq := SDL (mkDL (Pt 22) [Pt 3] [u] [] false).
Definition ol : list mpart := [(US (oD su), true); (UK (exCom sx stx), false); (UK (exCom sy' st'), true)].
Definition olv : list upart := [US (oD (T 22 "u")); UK (exCom (T 20 "x") (T 21 "t")); UK (exCom (T 23 "y") (T 24 "s"))].
Lemma exCom_con x t C a : exists d1 d2, c_con (exCom x t) (VPt C) a =
  Ok (SAnd [SDL (mkDL (Pt 12) [Pt 3] [x] d1 false); SDL (mkDL C [Pt 3; Pt 5] [x; t] d2 false)] false, a).
Proof. do 2 eexists. reflexivity. Qed.
Lemma exCom_made x t pre c : made (exCom x t) pre c -> exists C d1 d2, pre = VPt C /\
  c = SAnd [SDL (mkDL (Pt 12) [Pt 3] [x] d1 false); SDL (mkDL C [Pt 3; Pt 5] [x; t] d2 false)] false.
Proof.
  intros (a & a1 & a2 & P & Q). assert (E : exists C, pre = VPt C).
  { destruct P as [P|P]; cbn [exCom c_pre c_sim] in P.
    - apply bind_ok in P as (u & b1 & _ & P). apply bind_ok in P as (v & b2 & _ & P). apply bind_ok in P as ([] & b3 & _ & P).
      apply bind_ok in P as (C & b4 & _ & P). unfold ret in P. injection P as <- _. eauto.
    - apply bind_ok in P as (u & b1 & _ & P). unfold ret in P. injection P as <- _. eauto. }
  destruct E as [C ->]. destruct (exCom_con x t C a1) as (d1 & d2 & E). rewrite E in Q. injection Q as <- _. eauto.
Qed.
Lemma exCom_apart (a b : @dlrep Zq) : Apart (SAnd [SDL a; SDL b] false).
Proof.
  apply ApAnd; [repeat constructor|]. intros pre o post x y H. exfalso. refine (no_clause _ _ _ _ _ H (NoAnd _ _ _)). repeat constructor.
Qed.
Lemma exCom_able x t b : In x oU -> In t oU -> able oU ow osd (env st0) exord (UK (exCom x t), b).
Proof.
  intros IX IT. cbn [able]. split.
  - intros a AG. exists (VPt (pmul (tape a (pos a) mod 101) (Pt 3))).
    destruct (exCom_con x t (pmul (tape a (pos a) mod 101) (Pt 3)) (mkSt (env a) (tape a) (S (pos a)))) as (d1 & d2 & E).
    eexists _, _, _. split; [reflexivity|]. split; [exact E|]. split; [repeat constructor|]. split; [|split; [|exact AG]].
    + apply SoAnd. constructor; [|constructor; [|constructor]]; apply SoDL; try reflexivity; try discriminate; cbn [dl_secs]; intros z Z; cbn in Z; intuition (subst; auto).
    + apply ShAnd. constructor; [|constructor; [|constructor]]; apply ShDL; (split; [reflexivity|split; [discriminate|repeat constructor]]).
  - intros pre c M. apply exCom_made in M as (C & d1 & d2 & -> & ->). split; [discriminate|]. split; [|apply exCom_apart].
    apply OrAnd. constructor; [ex_ords|constructor; [|constructor]]. ex_ords.
Qed.
Definition ow' (n : bytes) : Z := if bytes_eqb n (lit "x") then 4 else 12.
Lemma o_wfL : wfL oU. Proof. apply wfLb_ok. reflexivity. Qed.
Lemma o_provable : provable oU ol osd st0.
Proof.
  intros i sv ts s a1 K b G N.
  assert (Q : match oget ol osd st0 with
              | Ok ((Some (POr i (PExt sv None) ts), s), a1) => Some (i, sv, env a1 0%nat, env a1 6%nat, env a1 3%nat, env a1 8%nat, env a1 9%nat, tape a1 (pos a1) mod 101)
              | _ => None end = Some (1%nat, osd, Some 4, None, None, None, None, 12)) by (vm_compute; reflexivity).
  rewrite G in Q. injection Q as -> -> E0 E6 E3 E8 E9 D. clear G. cbn in N. injection N as <- <-. destruct a1 as [e tp ps]. cbn [env tape pos] in *.
  exists ow', (VPt (padd (pmul 4 (Pt 3)) (pmul 12 (Pt 5)))), (mkSt (upd e 6%nat (Some 12)) tp (S ps)).
  exists (SAnd [SDL (mkDL (Pt 12) [Pt 3] [sx] [(sx, 4)] false); SDL (mkDL (padd (pmul 4 (Pt 3)) (pmul 12 (Pt 5))) [Pt 3; Pt 5] [sx; stx] [(sx, 4); (stx, 12)] false)] false).
  eexists. split; [|split].
  - unfold exCom. cbn [c_pre]. unfold draw, value_of, get_env, set_value, lift, bind, ret. cbn [env tape pos]. change (sid sx) with 0%nat. rewrite E0, D. reflexivity.
  - unfold exCom. cbn [c_con]. unfold lift2, mk_dlrep, get_env, lift, bind, ret. cbn [as_pt emul eadd e_bases e_secs app forallb fold_left env sid sx stx X upd Nat.eqb]. change (gid_eqb (grp (Pt 3)) (grp (Pt 3))) with true. change (gid_eqb (grp (Pt 5)) (grp (Pt 3))) with true. unfold upd. cbn [andb env Nat.eqb]. rewrite E0. reflexivity.
  - assert (A : agree ow' (env (mkSt (upd e 6%nat (Some 12)) tp (S ps))) oU).
    { intros x v I V. cbn [env] in V. destruct I as [<-|[<-|[<-|[<-|[<-|[]]]]]]; cbn in V; rewrite ?E0, ?E3, ?E8, ?E9 in V; try discriminate V; injection V as <-; reflexivity. }
    assert (EN : forall l, incl l [(sx, 4); (stx, 12)] -> entries_ok oU ow' l).
    { intros l I k v H. apply I in H. destruct H as [[= <- <-]|[[= <- <-]|[]]]; split; try reflexivity; in_list. }
    split; [repeat constructor|]. split; [|split].
    + constructor; [|exact o_wfL|exact (NoDup_nil _)|intros x y []| | |apply EN; incl_list|exact A].
      * apply SoAnd. constructor; [|constructor; [|constructor]]; apply SoDL; try reflexivity; try discriminate; incl_list.
      * apply TrAnd. constructor; [|constructor; [|constructor]]; apply TrDL; (split; [repeat constructor|pteq]).
      * apply VaAnd. constructor; [|constructor; [|constructor]]; apply VaDL; apply EN; incl_list.
    + apply ShAnd. constructor; [|constructor; [|constructor]]; apply ShDL; (split; [reflexivity|split; [discriminate|repeat constructor]]).
    + apply SuAnd. constructor; [|constructor; [|constructor]]; apply SuDL; cbn [dl_secs dl_vals].
      * intros x [<-|[]]. left. exists sx, 4. split; [in_list|reflexivity].
      * intros x [<-|[<-|[]]]; left; [exists sx, 4|exists stx, 12]; (split; [in_list|reflexivity]).
Qed.
Example C83_ex :
  wfL oU /\ entries_ok oU ow osd /\ agree ow (env st0) oU /\ Forall (able oU ow osd (env st0) exord) ol /\ (exists u, In (u, false) ol) /\
  provable oU ol osd st0 /\ In (UK (exCom sx stx), false) ol /\ (forall pre c, made (exCom sx stx) pre c -> truthy pre = true) /\
  (* the verifier, for all precommitments but the ones that its validate does not accept *)
  forall C C', val_eqb (VPt C) (VPt (Pt 0)) = false -> val_eqb (VPt C') (VPt (Pt 0)) = false ->
  Forall2 (meets tick untick) (combine ol [VNone; VPt C; VPt C']) olv.
Proof.
  split; [exact o_wfL|]. split; [intros k v [[= <- <-]|[]]; split; [in_list|reflexivity]|].
  split; [intros x v [<-|[<-|[<-|[<-|[<-|[]]]]]] H; discriminate H|].
  split; [|split; [|split; [exact o_provable|split; [|split]]]].
  - assert (D : able oU ow osd (env st0) exord (US (oD su), true)).
    { cbn [able]. split; [constructor|]. split; [apply SoDL; [incl_list|reflexivity|discriminate]|].
      split; [apply ShDL; split; [reflexivity|split; [discriminate|repeat constructor]]|]. split; [ex_ords|]. split; [constructor|discriminate]. }
    exact (Forall_cons _ D (Forall_cons _ (exCom_able sx stx false ltac:(in_list) ltac:(in_list)) (Forall_cons _ (exCom_able sy' st' true ltac:(in_list) ltac:(in_list)) (Forall_nil _)))).
  - exists (UK (exCom sx stx)). in_list.
  - in_list.
  - intros pre c M. apply exCom_made in M as (C & d1 & d2 & -> & _). reflexivity.
  - intros C C' N N'. assert (M : forall x t y v b P, val_eqb (VPt P) (VPt (Pt 0)) = false -> tick (sname x) = sname y -> tick (sname t) = sname v ->
      untick (sname y) = sname x -> untick (sname v) = sname t -> meets tick untick ((UK (exCom x t), b), VPt P) (UK (exCom y v))).
    { intros x t y v b P NP T1 T2 T3 T4. unfold meets. cbn [fst snd]. split; [reflexivity|]. split; [cbn [exCom c_val]; now rewrite NP|].
      intros c MA a. apply exCom_made in MA as (P' & d1 & d2 & [= <-] & ->). destruct (exCom_con y v P a) as (d1' & d2' & E). do 2 eexists. split; [exact E|].
      apply PaAnd. constructor; [|constructor; [|constructor]]; (apply PaDL; [reflexivity|reflexivity|]; repeat constructor; auto). }
    constructor; [|constructor; [|constructor; [|constructor]]].
    + unfold meets. cbn [fst]. apply PaDL; [reflexivity|reflexivity|]; repeat constructor; vm_compute; reflexivity.
    + apply M; auto; vm_compute; reflexivity.
    + apply M; auto; vm_compute; reflexivity.
Qed.
(** The messages of the example are not too big: the verifier does accept. Not a disjunction with another value or in another order. *)
Definition oround (lv : list upart) : bool :=
  match oprove ol osd (lit "m") st0 with
  | Ok (z, _) => match overify lv z (lit "m") st0 with Ok (b, _) => b | Err _ => false end
  | Err _ => false end.
Example C83_ex_accepted : oround olv = true /\
  oround [US (SDL (mkDL (Pt 21) [Pt 3] [T 22 "u"] [] false)); UK (exCom (T 20 "x") (T 21 "t")); UK (exCom (T 23 "y") (T 24 "s"))] = false /\
  oround [UK (exCom (T 20 "x") (T 21 "t")); US (oD (T 22 "u")); UK (exCom (T 23 "y") (T 24 "s"))] = false.
Proof. split; [|split]; vm_compute; reflexivity. Qed.

(** C83, soundness. A verifier of a disjunction of objects of any classes and of any statements, primitives of the library included,
    that accepts two answers to one commitment and precommitment: a branch holds, for values computed from the answers. If it is an
    object of a class, it is the statement that its construct_stmt makes of the precommitment for which its validate has raised
    nothing. Partial: under the conditions of C11. *)
Theorem C83_sound_partial : forall (W : World) l pre st v s st1 e com ch ch' r r', oprocess l pre st = Ok ((v, s), st1) -> wfs s -> coh e (svars s) ->
  orders_in (fun q => prime q /\ ~ (q | ch - ch') /\ 2 ^ 129 <= q) s -> canonical s r -> canonical s r' -> ~ (2 ^ 128 | ch - ch') ->
  overify_resp e l s v com ch r = Ok true -> overify_resp e l s v com ch' r' = Ok true ->
  exists i u w x cs cs' ci ci' rs rs' ri ri', nth_error l i = Some u /\
  index r 0 = Ok cs /\ index r' 0 = Ok cs' /\ index cs i = Ok (VInt ci) /\ index cs' i = Ok (VInt ci') /\
  index r 1 = Ok rs /\ index r' 1 = Ok rs' /\ index rs i = Ok ri /\ index rs' i = Ok ri' /\ ~ (2 ^ 128 | ci - ci') /\
  Extr w x ci ci' ri ri' /\ Sat w x /\
  match u with
  | UK K => exists p a a', index pre i = Ok p /\ c_con K p a = Ok (x, a') /\ c_val K p = Ok tt
  | US _ => exists subs, s = SOr subs false None /\ nth_error subs i = Some x
  end.
Proof. exact @mixed_or_sound. Qed.
Print Assumptions C83_sound_partial.
(** The disjunction of the example of C11, its first branch made by a class. *)
Definition exOne : cls := mkCls (lit "One") (ret (VList [])) (fun _ => ret (SDL (mkDL (Bp 12) [Bp 3] [sx] [] false))) (ret (VList []))
  (fun pre => match pre with VList [] => Ok tt | _ => Err EValidation end).
Definition oneS : stmt := SOr [obj_of exOne (VList []) (Some (SDL (mkDL (Bp 12) [Bp 3] [sx] [] false))); SDL (mkDL (Bp 7) [Bp 5] [sy] [] false)] false None.
Example C83_sound_ex :
  let l := [UK exOne; US (SDL (mkDL (Bp 7) [Bp 5] [sy] [] false))] in let pre := VList [VList []; VNone] in let v := ROr [RExt (Some RDL); RDL] in
  oprocess l pre st0 = Ok ((v, oneS), st0) /\ wfs oneS /\ coh (env st0) (svars oneS) /\
  orders_in (fun q => prime q /\ ~ (q | 100 - 200) /\ 2 ^ 129 <= q) oneS /\ canonical oneS (exBr 91) /\ canonical oneS (exBr 191) /\ ~ (2 ^ 128 | 100 - 200) /\
  overify_resp (env st0) l oneS v exBcom 100 (exBr 91) = Ok true /\ overify_resp (env st0) l oneS v exBcom 200 (exBr 191) = Ok true /\
  (* not with a precommitment that validate does not accept *)
  (let s := SOr [obj_of exOne VNone (Some (SDL (mkDL (Bp 12) [Bp 3] [sx] [] false))); SDL (mkDL (Bp 7) [Bp 5] [sy] [] false)] false None in
   oprocess l (VList [VNone; VNone]) st0 = Ok ((v, s), st0) /\ overify_resp (env st0) l s v exBcom 100 (exBr 91) = Err EValidation).
Proof.
  destruct C11_ex as (_ & A & B & C & D & E & F & _). cbv zeta. assert (Q : prime bigp /\ ~ (bigp | 100 - 200) /\ 2 ^ 129 <= bigp).
  { split; [exact prime_bigp|]. split; [apply nd_small; vm_compute; split; reflexivity|exact bigp_size]. }
  assert (K : forall a, Z.abs a < 2 ^ challenge_length -> canonical oneS (exBr a)).
  { intros a Ha. eapply CaOr; [left; reflexivity|reflexivity|repeat constructor; auto|].
    intros [|[|i]] s ri N _; [injection N as <-; apply CaExt; constructor|injection N as <-; constructor|destruct i; discriminate]. }
  split; [reflexivity|]. split; [repeat constructor|]. split; [apply any_coh|].
  split; [apply OiOr; constructor; [apply OiExt, OiDL; exact Q|constructor; [apply OiDL; exact Q|constructor]]|].
  split; [apply K; vm_compute; reflexivity|]. split; [apply K; vm_compute; reflexivity|]. split; [exact F|].
  split; [vm_compute; reflexivity|]. split; [vm_compute; reflexivity|]. split; [reflexivity|vm_compute; reflexivity].
Qed.

(** The precommitments that C83 excludes. The base class of primitives has a precommit() that returns the empty list, for classes without
    precommitments. To use such a class in or-proofs one must override simulate_precommit (extended.py:63-74; new_primitives.rst:141
    says that nothing is needed, refuted in C37). That is not enough: if the precommitments of all parts are
    empty, or None or 0, prove() can return a proof, and no verifier that has an object of a user's class among the parts accepts it:
    the precommitment of the disjunction is None (composition.py:601-602), and the statements of the objects are never constructed. *)
Theorem C83_empty_refuted : forall (W : World) l sd msg a z a' lv K, Forall hollow l -> oprove l sd msg a = Ok (z, a') -> In (UK K) lv ->
  forall stv r, overify lv z msg stv <> Ok r.
Proof. exact @hollow_never. Qed.
Print Assumptions C83_empty_refuted.
(** The plaintext proof of the documentation with a simulate_precommit that returns the empty list: the proof exists, if the object is
    the part proved and if it is simulated. With a commitment as a third branch the proof is accepted. *)
Definition exVoid (K : @cls Zq) : cls := mkCls (c_name K) (ret (VList [])) (c_con K) (ret (VList [])) (c_val K).
Definition oaccepted (l : list mpart) (lv : list upart) : bool :=
  match oprove l msd (lit "m") st0 with
  | Ok (z, _) => match overify lv z (lit "m") st0 with Ok (b, _) => b | Err _ => false end
  | Err _ => false end.
Example C83_empty_ex :
  let KV := exVoid (exElg (Pt 12) (Pt 41) (T 22 "u") (T 20 "x")) in
  let Dv := SDL (mkDL (Pt 21) [Pt 3] [T 22 "u"] [] false) in
  (forall b b', Forall hollow [(UK (exVoid mE), b); (US mD, b')]) /\
  (exists z a, oprove [(UK (exVoid mE), false); (US mD, true)] msd (lit "m") st0 = Ok (z, a)) /\
  (exists z a, oprove [(UK (exVoid mE), true); (US mD, false)] msd (lit "m") st0 = Ok (z, a)) /\
  oaccepted [(UK (exVoid mE), true); (US mD, false); (UK (exCom sx stx), true)] [UK KV; US Dv; UK (exCom (T 20 "x") (T 21 "t"))] = true /\
  oaccepted [(UK (exVoid mE), false); (US mD, true); (UK (exCom sx stx), true)] [UK KV; US Dv; UK (exCom (T 20 "x") (T 21 "t"))] = true.
Proof.
  cbv zeta. split.
  { intros b b'. constructor; [intros a x a'; split; intros H; injection H as <- _; reflexivity|constructor; [exists (mkDL (Pt 21) [Pt 3] [su] [] false); reflexivity|constructor]]. }
  split; [apply okb_proof; vm_compute; reflexivity|]. split; [apply okb_proof; vm_compute; reflexivity|]. split; vm_compute; reflexivity.
Qed.

(** Property C84: primitives defined by users anywhere in nested compositions. *)
From Coq Require Import String Znumtheory Lia.
From Verif Require Import Base World Val Expr Utils Stmt Prove Verify Spec Shapes Claims Honest Clauses Supply Extract Lib Custom Mixed MixedOr Nested
  NestedProofs3 NestedSound NestedLink Sound4 Proth ZqWorld Ex ExTree PropSound PropCustom PropMixed PropMixedOr.
Open Scope Z_scope.
Open Scope list_scope.

(** The model of compositions of objects of any classes does, for the library's own primitives and for the other statements, the same
    as the main model: for all nestings, marks, states and arguments. *)
Theorem C84_library_prove : forall (W : World) t s sd msg a, tlib t s ->
  tprove t sd msg a = match prove s sd msg a with Ok ((z, _), a') => Ok (z, a') | Err e => Err e end.
Proof. exact @tlink_prove. Qed.
Print Assumptions C84_library_prove.
Theorem C84_library_verify : forall (W : World) t s z msg a, tlib t s ->
  tverify t z msg a = match verify s z msg a with Ok ((r, _), a') => Ok (r, a') | Err e => Err e end.
Proof. exact @tlink_verify. Qed.
Print Assumptions C84_library_verify.
Theorem C84_library_run : forall (W : World) t s sd tv sv a, tlib t s -> tlib tv sv ->
  trun t sd tv a = bind (get_prover s sd) (fun r => match r with (Some p, s) => run_interactive s p sv | (None, _) => raise EAttributeErr end) a.
Proof. exact @tlink_run. Qed.
Print Assumptions C84_library_run.
Example C84_library_ex :
  tlib (TA [TS exDL; TO [TK (class_of exNeqK) true; TA [TK (class_of exRangeK) false; TS exVR] false] false] false)
       (SAnd [exDL; SOr [SExt exNeqK true VNone None; SAnd [SExt exRangeK false VNone None; exVR] false] false None] false).
Proof. repeat constructor. Qed.

(** C84, partial. Take any tree of conjunctions and disjunctions of objects of users' classes and of statements without primitives.
    Parts of disjunctions can be simulated, and one of them is not marked as simulated; the statements that the prover may have to prove
    hold for values that they have ([tok]); an object that precommit() is called for in this run makes a statement that holds
    ([tsincere]). Then prove() returns a proof, with precommitments in the form of the tree, and verify() of every object of the same
    form accepts it: classes of the same names whose construct_stmt makes statements of the same form and whose validate raises nothing.
    Excluded: secrets shared between an or-clause and the rest (Apart), messages of 2^32 bytes, precommitments that are None or, in
    disjunctions, all empty ([heard]; refuted in C73 and C83). *)
Theorem C84_complete_partial : forall (W : World) U w ord sd t msg a, wfL U -> entries_ok U w sd -> agree w (env a) U ->
  tok U w sd (env a) t -> heard t -> (forall c, fill t c -> Ords ord c /\ Apart c) ->
  (forall p s a1, tget t sd a = Ok ((Some p, s), a1) -> tsincere U w t s p a1) ->
  match t with TA _ _ | TO _ _ => True | _ => False end ->
  (exists z a', tprove t sd msg a = Ok (z, a') /\ tpres t (n_pre z) /\
     forall f g tv stv, tmeets f g t (n_pre z) tv -> exists stv', tverify tv z msg stv = Ok (true, stv')) \/ toversized t sd a.
Proof. exact @nested_complete. Qed.
Print Assumptions C84_complete_partial.
(** The same for the interactive protocol. *)
Theorem C84_interactive_partial : forall (W : World) U w ord sd t a f g tv, wfL U -> entries_ok U w sd -> agree w (env a) U ->
  tok U w sd (env a) t -> heard t -> (forall c, fill t c -> Ords ord c /\ Apart c) ->
  (forall p s a1, tget t sd a = Ok ((Some p, s), a1) -> tsincere U w t s p a1) ->
  match t with TA _ _ | TO _ _ => True | _ => False end ->
  (exists pre p s a1, topen t sd a = Ok ((pre, p, s), a1) /\ tpres t pre /\
     (tmeets f g t pre tv -> exists a', trun t sd tv a = Ok (true, a'))) \/ toversized t sd a.
Proof. exact @nested_interactive. Qed.
Print Assumptions C84_interactive_partial.

(** A commitment to q with 12 = q*3, and: such a commitment to x, or (simulated) 22 = u*3 and such a commitment to y. *)
Definition sq := X 10 "q".
Definition sk := X 11 "k".
Definition nU := [sx; stx; su; sy'; st'; sq; sk].
Definition nw (n : bytes) : Z := if bytes_eqb n (lit "x") then 4 else if bytes_eqb n (lit "q") then 4 else if bytes_eqb n (lit "k") then 85 else 12.
Definition nsd : dict Z := [(sx, 4); (sq, 4)].
Definition nt : mtree := TA [TK (exCom sq sk) false; TO [TK (exCom sx stx) false; TA [TS (oD su); TK (exCom sy' st') false] true] false] false.
Definition ntv : mtree := TA [TK (exCom (T 25 "q") (T 26 "k")) false;
  TO [TK (exCom (T 20 "x") (T 21 "t")) false; TA [TS (oD (T 22 "u")); TK (exCom (T 23 "y") (T 24 "s")) false] false] false] false.
Lemma n_wfL : wfL nU. Proof. apply wfLb_ok. reflexivity. Qed.
Lemma n_simulable x t : In x nU -> In t nU -> simulable nU nw (exCom x t).
Proof.
  intros IX IT a AG. exists (VPt (pmul (tape a (pos a) mod 101) (Pt 3))).
  destruct (exCom_con x t (pmul (tape a (pos a) mod 101) (Pt 3)) (mkSt (env a) (tape a) (S (pos a)))) as (d1 & d2 & E).
  eexists _, _, _. split; [reflexivity|]. split; [exact E|]. split; [repeat constructor|]. split; [|split; [|exact AG]].
  + apply SoAnd. constructor; [|constructor; [|constructor]]; apply SoDL; try reflexivity; try discriminate; cbn [dl_secs]; intros z Z; cbn in Z; intuition (subst; auto).
  + apply ShAnd. constructor; [|constructor; [|constructor]]; apply ShDL; (split; [reflexivity|split; [discriminate|repeat constructor]]).
Qed.
(** precommit() of such a commitment to 4, whose random number is [d]. *)
Lemma n_sincere x t d a : In x nU -> In t nU -> sid t <> sid x -> nw (sname x) = 4 -> nw (sname t) = d -> env a (sid x) = Some 4 ->
  tape a (pos a) mod 101 = d -> agree nw (env a) nU ->
  (forall vs, Tru nsd nw (SDL (mkDL (padd (pmul 4 (Pt 3)) (pmul d (Pt 5))) [Pt 3; Pt 5] [x; t] vs false))) ->
  (forall vs, Tru nsd nw (SDL (mkDL (Pt 12) [Pt 3] [x] vs false))) ->
  exists pre a1 c a2, c_pre (exCom x t) a = Ok (pre, a1) /\ c_con (exCom x t) pre a1 = Ok (c, a2) /\ hon nU nw c nsd (env a2).
Proof.
  intros IX IT N WX WT E0 D AG T2 T1. destruct a as [e tp ps]. cbn [env tape pos] in *.
  exists (VPt (padd (pmul 4 (Pt 3)) (pmul d (Pt 5)))), (mkSt (upd e (sid t) (Some d)) tp (S ps)).
  exists (SAnd [SDL (mkDL (Pt 12) [Pt 3] [x] [(x, 4)] false); SDL (mkDL (padd (pmul 4 (Pt 3)) (pmul d (Pt 5))) [Pt 3; Pt 5] [x; t] [(x, 4); (t, d)] false)] false).
  exists (mkSt (upd e (sid t) (Some d)) tp (S ps)). split; [|split].
  - unfold exCom. cbn [c_pre]. unfold draw, value_of, get_env, set_value, lift, bind, ret. cbn [env tape pos]. rewrite E0, D. reflexivity.
  - assert (U1 : upd e (sid t) (Some d) (sid x) = Some 4) by (unfold upd; destruct (Nat.eqb_spec (sid x) (sid t)) as [Q|]; [congruence|exact E0]).
    assert (U2 : upd e (sid t) (Some d) (sid t) = Some d) by (unfold upd; now rewrite Nat.eqb_refl).
    assert (NN : sname x <> sname t) by (intros Q; apply (n_wfL x t IX IT) in Q; congruence).
    assert (K : forall e', sec_eqb e' x t = false).
    { intros e'. unfold sec_eqb. destruct (bytes_eqb (sname x) (sname t)) eqn:B; [|reflexivity]. apply bytes_eqb_eq in B. contradiction. }
    generalize dependent (upd e (sid t) (Some d)). intros e' U1 U2.
    unfold exCom. cbn [c_con]. unfold lift2, mk_dlrep, get_env, lift, bind, ret. cbn [as_pt emul eadd e_bases e_secs app forallb fold_left env].
    change (gid_eqb (grp (Pt 3)) (grp (Pt 3))) with true. change (gid_eqb (grp (Pt 5)) (grp (Pt 3))) with true. cbn [andb env]. rewrite U1, U2.
    cbn [dset]. rewrite K. reflexivity.
  - assert (A : agree nw (upd e (sid t) (Some d)) nU).
    { intros y v I V. unfold upd in V. destruct (Nat.eqb_spec (sid y) (sid t)) as [Q|Q]; [|exact (AG y v I V)].
      injection V as <-. apply (n_wfL y t I IT) in Q. now rewrite Q. }
    assert (EN : forall l, incl l [(x, 4); (t, d)] -> entries_ok nU nw l).
    { intros l I k v H. apply I in H. destruct H as [[= <- <-]|[[= <- <-]|[]]]; split; auto. }
    split; [repeat constructor|]. split; [|split].
    + constructor; [|exact n_wfL|exact (NoDup_nil _)|intros y z []| | | |exact A].
      * apply SoAnd. constructor; [|constructor; [|constructor]]; apply SoDL; try reflexivity; try discriminate; cbn [dl_secs]; intros z Z; cbn in Z; intuition (subst; auto).
      * apply TrAnd. constructor; [apply T1|constructor; [apply T2|constructor]].
      * apply VaAnd. constructor; [|constructor; [|constructor]]; apply VaDL; apply EN; intros k; cbn; tauto.
      * intros k v [[= <- <-]|[[= <- <-]|[]]]; split; try reflexivity; in_list.
    + apply ShAnd. constructor; [|constructor; [|constructor]]; apply ShDL; (split; [reflexivity|split; [discriminate|repeat constructor]]).
    + apply SuAnd. constructor; [|constructor; [|constructor]]; apply SuDL; cbn [dl_secs dl_vals].
      * intros y [<-|[]]. left. exists x, 4. split; [now left|reflexivity].
      * intros y [<-|[<-|[]]]; left; [exists x, 4|exists t, d]; (split; [cbn; tauto|reflexivity]).
Qed.
Lemma n_made p s a1 : tget nt nsd st0 = Ok ((Some p, s), a1) -> tsincere nU nw nt s p a1.
Proof.
  intros G.
  assert (Q : match tget nt nsd st0 with
    | Ok ((Some (PAnd [PExt sv None; POr i (PExt sv' None) ts]), SAnd [s1; SOr [s2; s3] b c] b'), a1) =>
        match tpre (TK (exCom sq sk) false) s1 (PExt sv None) a1 with
        | Ok (_, a2) => Some (i, sv, sv', map (env a1) [0; 6; 3; 8; 9; 10; 11]%nat, tape a1 (pos a1) mod 101,
                              map (env a2) [0; 6; 3; 8; 9; 10; 11]%nat, tape a2 (pos a2) mod 101)
        | _ => None end
    | _ => None end = Some (0%nat, nsd, nsd, [Some 4; None; None; None; None; Some 4; None], 85,
                            [Some 4; None; None; None; None; Some 4; Some 85], 12)) by (vm_compute; reflexivity).
  rewrite G in Q. clear G.
  destruct p as [|[|[| | |sv [|]] [|[| |i [| | |sv' [|]] ts|] [|]]]| |]; try discriminate Q.
  destruct s as [| [|s1 [|[| |[|s2 [|s3 [|]]] b c|] [|]]] b'| |]; try discriminate Q.
  destruct (tpre (TK (exCom sq sk) false) s1 (PExt sv None) a1) as [[r a2]|] eqn:P; [|discriminate Q].
  injection Q as -> -> -> E0 E6 E3 E8 E9 E10 E11 D F0 F6 F3 F8 F9 F10 F11 D2.
  assert (T2 : forall d x t vs, nw (sname x) = 4 -> nw (sname t) = d -> d = 85 \/ d = 12 ->
    Tru nsd nw (SDL (mkDL (padd (pmul 4 (Pt 3)) (pmul d (Pt 5))) [Pt 3; Pt 5] [x; t] vs false))).
  { intros d x t vs X1 X2 X3. apply TrDL. split; [repeat constructor|]. unfold dl_holds. cbn [dl_lhs dl_bases dl_secs map]. rewrite X1, X2. destruct X3 as [-> | ->]; pteq. }
  assert (T1 : forall x vs, nw (sname x) = 4 -> Tru nsd nw (SDL (mkDL (Pt 12) [Pt 3] [x] vs false))).
  { intros x vs X1. apply TrDL. split; [repeat constructor|]. unfold dl_holds. cbn [dl_lhs dl_bases dl_secs map]. rewrite X1. pteq. }
  unfold nt. cbn [tsincere each]. split; [|intros r' a' P'; split; [|intros; exact Logic.I]].
  - apply (n_sincere sq sk 85); try reflexivity; try (in_list; fail); try discriminate; auto.
    intros x v I V. destruct I as [<-|[<-|[<-|[<-|[<-|[<-|[<-|[]]]]]]]]; cbn in V; rewrite ?E0, ?E6, ?E3, ?E8, ?E9, ?E10, ?E11 in V; try discriminate V; injection V as <-; reflexivity.
  - rewrite P in P'. injection P' as _ <-. cbn [nth_part].
    apply (n_sincere sx stx 12); try reflexivity; try (in_list; fail); try discriminate; auto.
    intros x v I V. destruct I as [<-|[<-|[<-|[<-|[<-|[<-|[<-|[]]]]]]]]; cbn in V; rewrite ?F0, ?F6, ?F3, ?F8, ?F9, ?F10, ?F11 in V; try discriminate V; injection V as <-; reflexivity.
Qed.
Lemma n_apart c1 c2 c3 b1 b2 b3 : (exists C d1 d2, c1 = SAnd [SDL (mkDL (Pt 12) [Pt 3] [sq] d1 false); SDL (mkDL C [Pt 3; Pt 5] [sq; sk] d2 false)] false) ->
  (exists C d1 d2, c2 = SAnd [SDL (mkDL (Pt 12) [Pt 3] [sx] d1 false); SDL (mkDL C [Pt 3; Pt 5] [sx; stx] d2 false)] false) ->
  (exists C d1 d2, c3 = SAnd [SDL (mkDL (Pt 12) [Pt 3] [sy'] d1 false); SDL (mkDL C [Pt 3; Pt 5] [sy'; st'] d2 false)] false) ->
  forall ch, Apart (SAnd [c1; SOr [c2; SAnd [oD su; c3] b1] b2 ch] b3).
Proof.
  intros (C1 & d1 & d1' & ->) (C2 & d2 & d2' & ->) (C3 & d3 & d3' & ->) ch.
  assert (NO : forall l b, Forall noor l -> Forall Apart l -> Apart (SAnd l b)).
  { intros l b F G. apply ApAnd; [exact G|]. intros pre o post x y H. exfalso. exact (no_clause _ _ _ _ _ H (NoAnd _ _ F)). }
  apply ApAnd.
  - constructor; [apply exCom_apart|constructor; [|constructor]]. apply ApOr. constructor; [apply exCom_apart|constructor; [|constructor]].
    apply NO; repeat constructor. intros pre o post x y H. exfalso. refine (no_clause _ _ _ _ _ H (NoAnd _ _ _)). repeat constructor.
  - intros pre o post x y H Hx Hy. inversion H as [|l1 s l2 b pr oo po C E1]; subst.
    destruct l1 as [|a1 [|a2 l1]]; simpl in E1; injection E1; intros; subst.
    + exfalso. refine (no_clause _ _ _ _ _ C (NoAnd _ _ _)). repeat constructor.
    + inversion C; subst. simpl in Hx, Hy.
      repeat (destruct Hx as [<-|Hx]; [repeat (destruct Hy as [<-|Hy]; [discriminate|]); destruct Hy|]). destruct Hx.
    + match goal with K : ?l ++ _ :: _ = [] |- _ => destruct l; discriminate K end.
Qed.
Lemma n_fill c : fill nt c -> Ords exord c /\ Apart c.
Proof.
  intros F. inversion F as [| |? ? cs b1 F1|]; subst. inversion F1 as [|? c1 ? ? A1 F2]; subst. inversion F2 as [|? c2 ? ? A2 F3]; subst. inversion F3; subst.
  inversion A1 as [? ? ? ? M1| | |]; subst. inversion A2 as [| | |? ? cs b2 ch F4]; subst.
  inversion F4 as [|? c3 ? ? A3 F5]; subst. inversion F5 as [|? c4 ? ? A4 F6]; subst. inversion F6; subst.
  inversion A3 as [? ? ? ? M3| | |]; subst. inversion A4 as [| |? ? cs b3 F7|]; subst.
  inversion F7 as [|? c5 ? ? A5 F8]; subst. inversion F8 as [|? c6 ? ? A6 F9]; subst. inversion F9; subst.
  inversion A5; subst. inversion A6 as [? ? ? ? M6| | |]; subst.
  apply exCom_made in M1 as (C1 & d1 & d1' & _ & ->). apply exCom_made in M3 as (C2 & d2 & d2' & _ & ->). apply exCom_made in M6 as (C3 & d3 & d3' & _ & ->).
  split; [|apply n_apart; eauto].
  assert (OC : forall x t C e1 e2, exord (sname x) = 101 -> exord (sname t) = 101 ->
    Ords exord (SAnd [SDL (mkDL (Pt 12) [Pt 3] [x] e1 false); SDL (mkDL C [Pt 3; Pt 5] [x; t] e2 false)] false)).
  { intros x t C e1 e2 X1 X2. apply OrAnd.
    refine (Forall_cons _ _ (Forall_cons _ _ (Forall_nil _))); apply OrDL; intros z b Z; cbn in Z.
    - destruct Z as [[= <- <-]|[]]. exact X1.
    - destruct Z as [[= <- <-]|[[= <- <-]|[]]]; [exact X1|exact X2]. }
  apply OrAnd. constructor; [apply OC; reflexivity|constructor; [|constructor]]. apply OrOr. constructor; [apply OC; reflexivity|constructor; [|constructor]].
  apply OrAnd. constructor; [ex_ords|constructor; [apply OC; reflexivity|constructor]].
Qed.
Lemma n_meets x t y v b P : val_eqb (VPt P) (VPt (Pt 0)) = false -> tick (sname x) = sname y -> tick (sname t) = sname v ->
  untick (sname y) = sname x -> untick (sname v) = sname t -> forall b', tmeets tick untick (TK (exCom x t) b) (VPt P) (TK (exCom y v) b').
Proof.
  intros NP T1 T2 T3 T4 b'. apply TmK; [reflexivity|cbn [exCom c_val]; now rewrite NP|].
  intros c MA a. apply exCom_made in MA as (P' & d1 & d2 & [= <-] & ->). destruct (exCom_con y v P a) as (d1' & d2' & E). do 2 eexists. split; [exact E|].
  apply PaAnd. constructor; [|constructor; [|constructor]]; (apply PaDL; [reflexivity|reflexivity|]; repeat constructor; auto).
Qed.
Example C84_ex :
  wfL nU /\ entries_ok nU nw nsd /\ agree nw (env st0) nU /\ tok nU nw nsd (env st0) nt /\ heard nt /\ (forall c, fill nt c -> Ords exord c /\ Apart c) /\
  (forall p s a1, tget nt nsd st0 = Ok ((Some p, s), a1) -> tsincere nU nw nt s p a1) /\
  (* the verifier, for all precommitments but the ones that its validate does not accept *)
  forall C C' C'', Forall (fun C => val_eqb (VPt C) (VPt (Pt 0)) = false) [C; C'; C''] ->
  tmeets tick untick nt (VList [VPt C; VList [VPt C'; VList [VNone; VPt C'']]]) ntv.
Proof.
  assert (HK : forall x t b, heard (TK (exCom x t) b)) by (intros x t b; apply HeK; intros pre c M; apply exCom_made in M as (C & d1 & d2 & -> & _); discriminate).
  split; [exact n_wfL|]. split; [intros k v [[= <- <-]|[[= <- <-]|[]]]; (split; [in_list|reflexivity])|].
  split; [intros x v _ H; discriminate H|]. split; [|split; [|split; [exact n_fill|split; [exact n_made|]]]].
  - apply ToA. constructor; [apply ToK|constructor; [|constructor]]. apply ToO.
    + constructor; [apply TsK, n_simulable; in_list|constructor; [|constructor]]. apply TsA.
      constructor; [apply TsS; [constructor| |]|constructor; [apply TsK, n_simulable; in_list|constructor]].
      * apply SoDL; [incl_list|reflexivity|discriminate].
      * apply ShDL; split; [reflexivity|split; [discriminate|repeat constructor]].
    + eexists. split; [left; reflexivity|reflexivity].
    + intros t [<-|[<-|[]]] S; [apply ToK|discriminate S].
  - apply HeA.
    + constructor; [apply HK|constructor; [|constructor]]. apply HeO.
      * constructor; [apply HK|constructor; [|constructor]]. apply HeA; [constructor; [apply HeS|constructor; [apply HK|constructor]]|].
        eexists. split; [right; left; reflexivity|discriminate].
      * eexists. split; [right; left; reflexivity|exact Logic.I].
    + eexists. split; [left; reflexivity|discriminate].
  - intros C C' C'' F. assert (F1 := Forall_inv F). assert (F2 := Forall_inv (Forall_inv_tail F)). assert (F3 := Forall_inv (Forall_inv_tail (Forall_inv_tail F))).
    unfold nt, ntv. apply TmA. apply TmC; [apply n_meets; auto; vm_compute; reflexivity|]. apply TmC; [|apply TmN]. apply TmO.
    apply TmC; [apply n_meets; auto; vm_compute; reflexivity|]. apply TmC; [|apply TmN]. apply TmA.
    apply TmC; [apply TmS; apply PaDL; [reflexivity|reflexivity|]; repeat constructor; vm_compute; reflexivity|].
    apply TmC; [apply n_meets; auto; vm_compute; reflexivity|apply TmN].
Qed.
(** The messages of the example are not too big: the verifier does accept, in both protocols. Not if the branches of the disjunction are
    swapped. *)
Definition nround (tv : mtree) : bool :=
  match tprove nt nsd (lit "m") st0 with
  | Ok (z, _) => match tverify tv z (lit "m") st0 with Ok (b, _) => b | Err _ => false end
  | Err _ => false end.
Definition nrun (tv : mtree) : bool := match trun nt nsd tv st0 with Ok (b, _) => b | Err _ => false end.
Definition ntx : mtree := TA [TK (exCom (T 25 "q") (T 26 "k")) false;
  TO [TA [TS (oD (T 22 "u")); TK (exCom (T 23 "y") (T 24 "s")) false] false; TK (exCom (T 20 "x") (T 21 "t")) false] false] false.
Example C84_ex_accepted : nround ntv = true /\ nrun ntv = true /\ nround ntx = false /\ nrun ntx = false.
Proof. split; [|split; [|split]]; vm_compute; reflexivity. Qed.

(** C84, soundness. A verifier of a tree of objects of any classes and of any statements, primitives of the library included, that
    accepts two answers to one commitment and precommitment: the tree holds, for values computed from the answers as in C11 ([Extr]).
    Of objects: the statement that construct_stmt makes of the part of the precommitment that is theirs, which validate has accepted.
    Partial: under the conditions of C11. *)
Theorem C84_sound_partial : forall (W : World) t pre st v s st1 e com ch ch' r r', tproc t pre st = Ok ((v, s), st1) -> wfs s -> coh e (svars s) ->
  orders_in (fun q => prime q /\ ~ (q | ch - ch') /\ 2 ^ 129 <= q) s -> canonical s r -> canonical s r' -> ~ (2 ^ 128 | ch - ch') ->
  tverify_resp e t s v com ch r = Ok true -> tverify_resp e t s v com ch' r' = Ok true ->
  exists w, Extr w s ch ch' r r' /\ tholds w t pre s ch ch' r r'.
Proof. exact @nested_sound. Qed.
Print Assumptions C84_sound_partial.
(** The example of C83, in a conjunction. *)
Definition n1 : mtree := TA [TO [TK exOne false; TS (SDL (mkDL (Bp 7) [Bp 5] [sy] [] false))] false] false.
Definition n1s : stmt := SAnd [oneS] false.
Example C84_sound_ex :
  let pre := VList [VList [VList []; VNone]] in let v := RAnd [ROr [RExt (Some RDL); RDL]] in
  tproc n1 pre st0 = Ok ((v, n1s), st0) /\ wfs n1s /\ coh (env st0) (svars n1s) /\
  orders_in (fun q => prime q /\ ~ (q | 100 - 200) /\ 2 ^ 129 <= q) n1s /\ canonical n1s (VList [exBr 91]) /\ canonical n1s (VList [exBr 191]) /\
  ~ (2 ^ 128 | 100 - 200) /\
  tverify_resp (env st0) n1 n1s v (VList [exBcom]) 100 (VList [exBr 91]) = Ok true /\ tverify_resp (env st0) n1 n1s v (VList [exBcom]) 200 (VList [exBr 191]) = Ok true.
Proof.
  destruct C83_sound_ex as (_ & B & C & D & E & F & G & _). cbv zeta.
  split; [reflexivity|]. split; [repeat constructor|]. split; [apply any_coh|]. split; [exact (OiAnd _ _ _ (Forall_cons _ D (Forall_nil _)))|].
  split; [apply CaAnd; intros [|[|i]] s ri N Q; try discriminate N; injection N as <-; injection Q as <-; exact E|]. split; [apply CaAnd; intros [|[|i]] s ri N Q; try discriminate N; injection N as <-; injection Q as <-; exact F|]. split; [exact G|].
  split; vm_compute; reflexivity.
Qed.

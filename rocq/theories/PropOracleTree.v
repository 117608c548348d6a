(** Property C90: primitives defined by users of the library, in the random oracle model. *)
From Coq Require Import String Znumtheory Lia.
From Verif Require Import Base World Val Expr Utils Stmt Prove Verify Spec Shapes Claims Clauses Honest Supply Extract Ident Alike Lib Custom Mixed MixedOr Nested Oracle OracleZk OracleTree
  Forking OracleProofs OracleTreeProofs OracleTreeZk Sound ZqWorld ZqFacts Ex ExTree Proth PropSound PropCustom PropMixed PropMixedOr PropNested PropWire PropOracle PropOraclePrim.
Open Scope Z_scope.
Open Scope list_scope.

(** The prover and the verifier of this property are those of C84: with answers from sha256 they do the same. *)
Theorem C90_verifier : forall (W : World) t z msg a, with_fun sha256 (tverify_ro t z msg a) = tverify t z msg a.
Proof. exact @tverify_ro_fun. Qed.
Print Assumptions C90_verifier.
Theorem C90_prover : forall (W : World) t sd msg a, with_fun sha256 (tprove_ro t sd msg a) = tprove t sd msg a.
Proof. exact @tprove_ro_fun. Qed.
Print Assumptions C90_prover.

(** C90, soundness. Any tree of conjunctions of objects of users' classes and of statements, primitives of the library included. A
    prover of any kind that asks at most [Q] questions and is accepted for more than a share (Q+2)*K/N of the lists of answers has
    shown, for two such lists, two accepted proofs with one message and one precommitment, from which values are computed that meet
    the whole tree: for an object of a class, the statement that its construct_stmt makes of the precommitment, and validate raised
    nothing for it. *)
Theorem C90_extract : forall (W : World) ok t a adv A qs K Q, plain ok -> (forall g, distinguished g) -> tsane ok qs t a ->
  (forall z v s a1, reached ok t a z v s a1 -> noor s) ->
  asks Q adv -> spread A qs K -> 0 <= K ->
  Z.of_nat (Q + 2) * K * len A ^ Z.of_nat (Q + 2) < len A * count (twon ok t a adv) (tapes A (Q + 2)) ->
  exists z z' v s a1 w, ttwo_runs ok t a adv A (Q + 2) z z' /\ reached ok t a z v s a1 /\
    tholds w t (n_pre z) s (n_chal z) (n_chal z') (n_resp z) (n_resp z').
Proof. exact @trom_extract. Qed.
Print Assumptions C90_extract.
(** The same with disjunctions. Partial: only answers with parts of the challenge below 2^128, in groups of at least 2^129 elements (C11). *)
Theorem C90_extract_or_partial : forall (W : World) ok t a adv A qs K Q, plain ok -> (forall g, distinguished g) -> tsane ok qs t a ->
  (forall q, In q qs -> 2 ^ 129 <= q) ->
  (forall z v s a1, reached ok t a z v s a1 -> canonical s (n_resp z)) ->
  asks Q adv -> spread A (2 ^ 128 :: qs) K -> 0 <= K ->
  Z.of_nat (Q + 2) * K * len A ^ Z.of_nat (Q + 2) < len A * count (twon ok t a adv) (tapes A (Q + 2)) ->
  exists z z' v s a1 w, ttwo_runs ok t a adv A (Q + 2) z z' /\ reached ok t a z v s a1 /\
    tholds w t (n_pre z) s (n_chal z) (n_chal z') (n_resp z) (n_resp z').
Proof. exact @trom_extract_or. Qed.
Print Assumptions C90_extract_or_partial.
(** A tree that holds for no values is accepted with at most this probability. *)
Theorem C90_false : forall (W : World) ok t a adv A qs K Q, plain ok -> (forall g, distinguished g) -> tsane ok qs t a ->
  (forall z v s a1, reached ok t a z v s a1 -> noor s /\ forall w c c' r r', ~ tholds w t (n_pre z) s c c' r r') ->
  asks Q adv -> spread A qs K -> 0 <= K ->
  len A * count (twon ok t a adv) (tapes A (Q + 2)) <= Z.of_nat (Q + 2) * K * len A ^ Z.of_nat (Q + 2).
Proof. exact @trom_false. Qed.
Print Assumptions C90_false.
(** C90, completeness: C84 with any function for sha256. Partial as C84_complete_partial is. *)
Theorem C90_complete_partial : forall (W : World) (H : bytes -> bytes) U w ord sd t msg a, wfL U -> entries_ok U w sd -> agree w (env a) U ->
  tok U w sd (env a) t -> heard t -> (forall c, fill t c -> Ords ord c /\ Apart c) ->
  (forall p s a1, tget t sd a = Ok ((Some p, s), a1) -> tsincere U w t s p a1) ->
  match t with TA _ _ | TO _ _ => True | _ => False end ->
  (exists z a', with_fun H (tprove_ro t sd msg a) = Ok (z, a') /\ tpres t (n_pre z) /\
     forall f g tv stv, tmeets f g t (n_pre z) tv -> exists stv', with_fun H (tverify_ro tv z msg stv) = Ok (true, stv')) \/ toversized t sd a.
Proof. exact @trom_complete. Qed.
Print Assumptions C90_complete_partial.

(** Who needs only [u] answers to succeed always, succeeds with all longer lists of answers. *)
Lemma twon_all {W : World} ok s a adv A u k n : n = (u + k)%nat -> forallb (twon ok s a adv) (tapes A u) = true -> count (twon ok s a adv) (tapes A n) = len A ^ Z.of_nat n.
Proof.
  intros -> H. rewrite <- Forking.tapes_len. rewrite forallb_forall in H.
  assert (X : forall t, In t (tapes A (u + k)) -> twon ok s a adv t = true).
  { intros t I. apply Forking.tapes_in in I as [L F]. rewrite <- (firstn_skipn u t) in F |- *. apply Forall_app in F as [F _].
    assert (Y : twon ok s a adv (firstn u t) = true) by (apply H, Forking.tapes_in; split; [rewrite firstn_length; lia|exact F]).
    unfold twon in *. destruct (sample (tgame s a adv) [] (firstn u t)) as [[r m]|] eqn:E; [|discriminate]. now rewrite (OracleProofs.sample_more _ _ _ _ _ _ E). }
  induction (tapes A (u + k)) as [|t T I]; [reflexivity|]. unfold count, len in *. cbn [filter List.length]. rewrite X by now left. cbn [List.length].
  rewrite !Nat2Z.inj_succ. f_equal. apply I. intros t' I'. apply X. now right.
Qed.

(** The tree of C84, whose example shows these conditions, with a constant function and with another. *)
Definition hround (H : bytes -> bytes) (tv : mtree) : bool :=
  match with_fun H (tprove_ro nt nsd (lit "m") st0) with
  | Ok (z, _) => match with_fun H (tverify_ro tv z (lit "m") st0) with Ok (b, _) => b | Err _ => false end
  | Err _ => false end.
Example C90_ex_complete :
  (wfL nU /\ entries_ok nU nw nsd /\ agree nw (env st0) nU /\ tok nU nw nsd (env st0) nt /\ heard nt /\ (forall c, fill nt c -> Ords exord c /\ Apart c) /\
   (forall p s a1, tget nt nsd st0 = Ok ((Some p, s), a1) -> tsincere nU nw nt s p a1)) /\
  forallb (fun H => hround H ntv) [(fun _ => [byte_of 9]); (fun b => firstn 3 (rev b))] = true.
Proof.
  destruct C84_ex as (H1 & H2 & H3 & H4 & H5 & H6 & H7 & _). split; [tauto|]. vm_compute. reflexivity.
Qed.
(** prove() of a tree *)
Definition tprover_of (t : mtree) (sd : dict Z) (a : st) : prog (@nizk Zq * bytes) :=
  pbind (tprove_ro t sd (lit "m") a) (fun r => Ret (match r with Ok (z, _) => z | Err _ => mkNizk 0 VNone VNone VNone end, lit "m")).
Lemma tprover_asks t sd a : asks 2 (tprover_of t sd a).
Proof.
  unfold tprover_of, tprove_ro. destruct (bind (topen t sd) _ a) as [[[[[pre com] p] s'] a']|]; [|exact I]. destruct (prehash_input s'); [|exact I].
  cbn [pbind]. intros y. destruct (fs_input _ _ _); [|exact I]. cbn [pbind]. intros y'. exact I.
Qed.
(** A commitment to x with 12 = x*3 (the class of C73), and 22 = u*3; the prover knows x and u. *)
Definition ct : mtree := TA [TK (exCom sx stx) false; TS (oD su)] false.
Definition ctok (z : @nizk Zq) : bool := okv (zg (Pt 3)) z && true.
Lemma lift_same {A} (r : res A) a x a1 : lift r a = Ok (x, a1) -> a1 = a.
Proof. unfold lift. destruct r; [|discriminate]. now intros [= _ <-]. Qed.
Lemma exCom_proc x t p a c a1 : c_con (exCom x t) p a = Ok (c, a1) -> a1 = a /\ exists C d1 d2, p = VPt C /\
  c = SAnd [SDL (mkDL (Pt 12) [Pt 3] [x] d1 false); SDL (mkDL C [Pt 3; Pt 5] [x; t] d2 false)] false.
Proof.
  destruct p as [| |C| | | | |]; try discriminate. destruct (exCom_con x t C a) as (d1 & d2 & E). rewrite E. intros H. injection H as <- <-. eauto 6.
Qed.
Lemma ct_reached z a v s a1 : reached ctok ct a z v s a1 -> a1 = a /\ exists C d1 d2, grp C = zg (Pt 3) /\
  s = SAnd [obj_of (exCom sx stx) (VPt C) (Some (SAnd [SDL (mkDL (Pt 12) [Pt 3] [sx] d1 false); SDL (mkDL C [Pt 3; Pt 5] [sx; stx] d2 false)] false)); oD su] false.
Proof.
  intros (O & P & (h & Ph) & V). cbn [ct tproc tloop] in P. destruct (is_none (n_pre z)) eqn:N.
  - exfalso. injection P as <- <- <-. vm_compute in Ph. discriminate Ph.
  - apply bind_ok in P as (r & a2 & P & Q). apply ret_ok in Q as [Q <-]. injection Q as <- <-.
    apply bind_ok in P as (p & a3 & I0 & P). apply bind_ok in P as (r0 & a4 & P0 & P). apply bind_ok in P0 as (c & a5 & CN & P0). apply ret_ok in P0 as [<- <-].
    apply exCom_proc in CN as (-> & C & d1 & d2 & -> & ->).
    apply bind_ok in P as (rs & a6 & P & R). apply ret_ok in R as [<- <-].
    apply bind_ok in P as (p1 & a7 & I1 & P). apply bind_ok in P as (r1 & a8 & P1 & P). apply bind_ok in P as (rs1 & a9 & P2 & P). apply ret_ok in P as [<- <-].
    apply ret_ok in P2 as [<- <-]. cbn in P1. injection P1 as <- <-. assert (a3 = a) as -> by (unfold lift in I0; destruct (index _ _); [now injection I0|discriminate I0]). split; [unfold lift in I1; destruct (index _ _) in I1; [now injection I1|discriminate I1]|]. exists C, d1, d2. split; [|reflexivity].
    unfold lift in I0. destruct (index (n_pre z) 0) as [p|] eqn:I; [|discriminate]. injection I0 as ->.
    unfold ctok, okv in O. apply andb_prop in O as [O _]. apply andb_prop in O as [O _].
    destruct (n_pre z) as [| | |b|b|l|l|]; try discriminate I; try discriminate O; cbn [index] in I; try (destruct (nth_error b 0); discriminate I).
    destruct (nth_error l 0) eqn:E; [|discriminate I]. injection I as ->. apply nth_error_In in E. cbn [plainv] in O. rewrite forallb_forall in O.
    apply O in E. cbn [plainv] in E. change (zg C = zg (Pt 3)). revert E. generalize (zg C) (zg (Pt 3)). intros g g' E. now apply zgid_eqb_spec.
Qed.
Example C90_ex_extract :
  plain ctok /\ (forall g, @distinguished Zq g) /\ tsane ctok [101] ct st0 /\ (forall z v s a1, reached ctok ct st0 z v s a1 -> noor s) /\
  asks 2 (tprover_of ct [(sx, 4); (su, 41)] st0) /\ spread five [101] 1 /\
  Z.of_nat (2 + 2) * 1 * len five ^ Z.of_nat (2 + 2) < len five * count (twon ctok ct st0 (tprover_of ct [(sx, 4); (su, 41)] st0)) (tapes five (2 + 2)).
Proof.
  split; [apply okv_plain|]. split; [exact Zq_distinguished|]. split; [|split; [|split; [apply tprover_asks|split; [apply spread_five; vm_compute; reflexivity|rewrite (twon_all _ _ _ _ _ 2 2); [reflexivity|reflexivity|vm_compute; reflexivity]]]]].
  - intros z v s a1 R. assert (P := proj1 (proj2 R)). destruct (ct_reached _ _ _ _ _ R) as (-> & C & d1 & d2 & G & ->).
    split; [repeat constructor|]. split; [apply any_coh|].
    assert (Q : prime 101 /\ In 101 [101]) by (split; [exact prime101|now left]).
    apply OiAnd. constructor; [|constructor; [|constructor]]; [unfold obj_of; apply OiExt, OiAnd; constructor; [|constructor; [|constructor]]|]; apply OiDL; try exact Q.
    cbn [dl_lhs]. rewrite G. exact Q.
  - intros z v s a1 R. destruct (ct_reached _ _ _ _ _ R) as (-> & C & d1 & d2 & _ & ->). unfold obj_of. repeat constructor.
Qed.
(** 12 = x*3, made by a class, or 7 = y*5; the prover knows x. *)
Definition exSev : cls := mkCls (lit "One") (ret (VList [VInt 7])) (fun _ => ret (SDL (mkDL (Bp 12) [Bp 3] [sx] [] false))) (ret (VList [VInt 7]))
  (fun pre => if val_eqb pre (VList [VInt 7]) then Ok tt else Err EValidation).
Definition ot : mtree := TO [TK exSev false; TS (SDL (mkDL (Bp 7) [Bp 5] [sy] [] false))] false.
Definition otok (z : @nizk Zq) : bool := okv (zg (Bp 3)) z && bit_resp (n_resp z).
Lemma ot_reached z a v s a1 : reached otok ot a z v s a1 -> a1 = a /\ exists p,
  s = SOr [obj_of exSev p (Some (SDL (mkDL (Bp 12) [Bp 3] [sx] [] false))); SDL (mkDL (Bp 7) [Bp 5] [sy] [] false)] false None.
Proof.
  intros (O & P & (h & Ph) & V). cbn [ot tproc tloop] in P. destruct (is_none (n_pre z)) eqn:N.
  - exfalso. injection P as <- <- <-. vm_compute in Ph. discriminate Ph.
  - apply bind_ok in P as (r & a2 & P & Q). apply ret_ok in Q as [Q <-]. injection Q as <- <-.
    apply bind_ok in P as (p & a3 & I0 & P). apply bind_ok in P as (r0 & a4 & P0 & P). apply bind_ok in P0 as (c & a5 & CN & P0). apply ret_ok in P0 as [<- <-].
    cbn [exSev c_con] in CN. apply ret_ok in CN as [<- <-].
    apply bind_ok in P as (rs & a6 & P & R). apply ret_ok in R as [<- <-].
    apply bind_ok in P as (p1 & a7 & I1 & P). apply bind_ok in P as (r1 & a8 & P1 & P). apply bind_ok in P as (rs1 & a9 & P2 & P). apply ret_ok in P as [<- <-].
    apply ret_ok in P2 as [<- <-]. cbn in P1. injection P1 as <- <-. split; [apply lift_same in I0, I1; congruence|]. exists p. reflexivity.
Qed.
Example C90_ex_or :
  plain otok /\ tsane otok [bigp] ot st0 /\ (forall q, In q [bigp] -> 2 ^ 129 <= q) /\
  (forall z v s a1, reached otok ot st0 z v s a1 -> canonical s (n_resp z)) /\
  asks 2 (tprover_of ot [(sx, 4)] st0) /\ spread five [2 ^ 128; bigp] 1 /\
  Z.of_nat (2 + 2) * 1 * len five ^ Z.of_nat (2 + 2) < len five * count (twon otok ot st0 (tprover_of ot [(sx, 4)] st0)) (tapes five (2 + 2)).
Proof.
  split; [apply okv_plain|]. split; [|split; [intros q [<-|[]]; exact bigp_size|split; [|split; [apply tprover_asks|split; [apply spread_five; vm_compute; reflexivity|rewrite (twon_all _ _ _ _ _ 2 2); [reflexivity|reflexivity|vm_compute; reflexivity]]]]]].
  - intros z v s a1 R. destruct (ot_reached _ _ _ _ _ R) as (-> & p & ->). split; [repeat constructor|]. split; [apply any_coh|].
    assert (Q : prime bigp /\ In bigp [bigp]) by (split; [exact prime_bigp|now left]).
    apply OiOr. constructor; [|constructor; [|constructor]]; [unfold obj_of; apply OiExt|]; apply OiDL; exact Q.
  - intros z v s a1 R. destruct (ot_reached _ _ _ _ _ R) as (-> & p & ->). destruct R as (H & _). apply andb_prop in H as [_ H].
    destruct (n_resp z) as [| | | | | |[|[| | | | |[|[|c| | | | | |] [|[|c'| | | | | |] [|]]]| |] [|rs [|]]]|]; try discriminate H.
    cbn in H. apply andb_prop in H as [E1 E2]. apply Z.ltb_lt in E1, E2.
    eapply (CaOr _ _ _ _ [c; c']); [left; reflexivity|reflexivity|repeat constructor; assumption|].
    intros [|[|j]] y t Y _; [injection Y as <-; unfold obj_of; repeat constructor|injection Y as <-; constructor|destruct j; discriminate].
Qed.
(** 12 = x*3, made by a class, and 15 = x*3 *)
Definition exPt12 : cls := mkCls (lit "Twelve") (ret (VList [])) (fun _ => ret (SDL (mkDL (Pt 12) [Pt 3] [sx] [] false))) (ret (VList []))
  (fun _ => Ok tt).
Definition ft : mtree := TA [TK exPt12 false; TS (SDL (mkDL (Pt 15) [Pt 3] [sx] [] false))] false.
Lemma ft_reached z a v s a1 : reached ctok ft a z v s a1 -> a1 = a /\ exists p,
  s = SAnd [obj_of exPt12 p (Some (SDL (mkDL (Pt 12) [Pt 3] [sx] [] false))); SDL (mkDL (Pt 15) [Pt 3] [sx] [] false)] false.
Proof.
  intros (O & P & (h & Ph) & V). cbn [ft tproc tloop] in P. destruct (is_none (n_pre z)) eqn:N.
  - exfalso. injection P as <- <- <-. vm_compute in Ph. discriminate Ph.
  - apply bind_ok in P as (r & a2 & P & Q). apply ret_ok in Q as [Q <-]. injection Q as <- <-.
    apply bind_ok in P as (p & a3 & I0 & P). apply bind_ok in P as (r0 & a4 & P0 & P). apply bind_ok in P0 as (c & a5 & CN & P0). apply ret_ok in P0 as [<- <-].
    cbn [exPt12 c_con] in CN. apply ret_ok in CN as [<- <-].
    apply bind_ok in P as (rs & a6 & P & R). apply ret_ok in R as [<- <-].
    apply bind_ok in P as (p1 & a7 & I1 & P). apply bind_ok in P as (r1 & a8 & P1 & P). apply bind_ok in P as (rs1 & a9 & P2 & P). apply ret_ok in P as [<- <-].
    apply ret_ok in P2 as [<- <-]. cbn in P1. injection P1 as <- <-. split; [apply lift_same in I0, I1; congruence|]. exists p. reflexivity.
Qed.
Example C90_ex_false :
  plain ctok /\ tsane ctok [101] ft st0 /\
  (forall z v s a1, reached ctok ft st0 z v s a1 -> noor s /\ forall w c c' r r', ~ tholds w ft (n_pre z) s c c' r r').
Proof.
  split; [apply okv_plain|]. split.
  - intros z v s a1 R. destruct (ft_reached _ _ _ _ _ R) as (-> & p & ->). split; [repeat constructor|]. split; [apply any_coh|].
    assert (Q : prime 101 /\ In 101 [101]) by (split; [exact prime101|now left]).
    apply OiAnd. constructor; [|constructor; [|constructor]]; [unfold obj_of; apply OiExt|]; apply OiDL; exact Q.
  - intros z v s a1 R. destruct (ft_reached _ _ _ _ _ R) as (-> & p & ->). split; [unfold obj_of; repeat constructor|]. intros w c c' r r' H.
    inversion H as [| |? ? ? ? ? ? ? ? ? ? ? F|]; subst.
    destruct (F 0%nat _ _ eq_refl eq_refl) as (p0 & r0 & r0' & _ & _ & _ & T0). destruct (F 1%nat _ _ eq_refl eq_refl) as (p1 & r1 & r1' & _ & _ & _ & T1).
    clear H F. inversion T0 as [? ? ? ? ? ? ? ? ? ? ? ? CN _ X0| | |]; subst. inversion T1 as [|? ? ? ? ? ? ? ? X1| |]; subst.
    cbn [exPt12 c_con] in CN. apply ret_ok in CN as [<- _]. apply Extr_Sat in X0, X1. inversion X0 as [? _ S0| | |]; inversion X1 as [? _ S1| | |]; subst.
    cbn [dl_lhs] in S0, S1. unfold dl_holds in S0, S1. cbn [dl_lhs dl_bases dl_secs map] in S0, S1. change (order (grp (Pt 15))) with 101 in S1. change (order (grp (Pt 12))) with 101 in S0.
    change (grp (Pt 15)) with (grp (Pt 12)) in S1. rewrite <- S0 in S1. apply (f_equal zv) in S1. vm_compute in S1. discriminate S1.
Qed.

(** Proofs by those who have seen proofs of others. *)
From Coq Require Import String Znumtheory Lia.
From Verif Require Import Base World Val Expr Utils Stmt Prove Verify Spec Shapes Claims Extract Ident Alike Lib Tree Sound Sound2 Sound3 Sound4 IdProofs2 IdProofs3
  Frame Wrong Second Fork History Honest Clauses Supply Distrib Custom CustomProofs Mixed MixedOr Nested NestedSound TreeZk Oracle Forking OracleProofs OracleZk OracleZkProofs Chance ChanceProofs
  OracleTree OracleTreeProofs OracleTreeSim OracleMany OracleManyProofs Chosen ChosenProofs ChosenTree ChosenTreeProofs Forgery.
Open Scope Z_scope.
Open Scope list_scope.

(** * The questions of the adversary and the challenges of the simulators, kept apart *)
Definition qtag (b : bytes) : bytes := byte_of 0 :: b.
Definition stag (n : nat) : bytes := byte_of 1 :: repeat (byte_of 0) n.
Lemma qtag_inj b c : qtag b = qtag c -> b = c. Proof. now intros [= ->]. Qed.
Lemma stag_inj n k : stag n = stag k -> n = k.
Proof. intros [= H]. apply (f_equal (@List.length _)) in H. now rewrite !repeat_length in H. Qed.
Lemma tags b n : qtag b <> stag n. Proof. intros H. apply (f_equal (hd (byte_of 0))) in H. vm_compute in H. discriminate H. Qed.
Lemma eqb_qtag b c : bytes_eqb (qtag b) (qtag c) = bytes_eqb b c.
Proof.
  destruct (bytes_eqb b c) eqn:E; [apply bytes_eqb_eq in E; subst; now apply bytes_eqb_eq|].
  destruct (bytes_eqb (qtag b) (qtag c)) eqn:E'; [|reflexivity]. apply bytes_eqb_eq, qtag_inj in E'. subst. rewrite (proj2 (bytes_eqb_eq c c) eq_refl) in E. discriminate.
Qed.
Lemma eqb_no (b c : bytes) : b <> c -> bytes_eqb b c = false.
Proof. intros H. destruct (bytes_eqb b c) eqn:E; [apply bytes_eqb_eq in E; contradiction|reflexivity]. Qed.
Lemma eqb_yes (b : bytes) : bytes_eqb b b = true. Proof. now apply bytes_eqb_eq. Qed.

Section O.
Context {W : World}.

(** What a simulator does with two answers *)
Definition sshape := bytes -> (nat -> Z) -> res (bytes * (bytes -> bytes -> res (nizk * bytes))).
Definition shaped (K : party) (F : sshape) : Prop := forall msg m tp t, p_sim K msg m tp t =
  match F msg t with
  | Err e => Some (Err e, m, tp, None)
  | Ok (h, G) =>
    match reply m tp h with
    | None => None
    | Some (y, m, tp) =>
      match tp with
      | [] => None
      | y' :: tp' => match G y y' with Err e => Some (Err e, m, tp, None) | Ok (z, i) => Some (Ok z, (i, y') :: m, tp', Some i) end
      end
    end
  end.
Definition honest_shape (F : sshape) : Prop := forall msg t h G, F msg t = Ok (h, G) -> exists s, prehash_input s = Ok h /\
  forall y y' z i, G y y' = Ok (z, i) -> exists com, framed (n_pre z) /\ framed com /\ fs_input h [n_pre z; com] msg = Ok i.

Fixpoint osim {R} (r0 : R) (v : obs R) (l : list (sshape * (nat -> Z))) (T : memo) : prog (option R * memo) :=
  match v with
  | ODone r => Ret (Some r, T)
  | OAsk b k => match look T b with Some y => osim r0 (k y) l T | None => Ask (qtag b) (fun y => osim r0 (k y) l T) end
  | OProof msg k =>
      match l with
      | [] => Ret (None, T)
      | (F, t) :: l' =>
        match F msg t with
        | Err e => Ret (Some r0, T)
        | Ok (h, G) =>
          let go y := Ask (stag (List.length l')) (fun y' =>
            match G y y' with Err e => Ret (Some r0, T) | Ok (z, i) => osim r0 (k (Ok z)) l' ((i, y') :: T) end) in
          match look T h with Some y => go y | None => Ask (qtag h) go end
        end
      end
  | OSkip k => match l with [] => Ret (None, T) | _ :: l' => osim r0 k l' T end
  end.
Fixpoint quits {R} (r0 : R) (v : obs R) : Prop :=
  match v with
  | ODone _ => True
  | OAsk _ k => forall y, quits r0 (k y)
  | OProof _ k => (forall e, k (Err e) = ODone r0) /\ forall z, quits r0 (k (Ok z))
  | OSkip k => quits r0 k
  end.
Lemma osim_asks {R} (r0 : R) v : forall a l T, oasks a v -> asks (a + 2 * List.length l) (osim r0 v l T).
Proof.
  assert (G : forall S (p : prog S) n k, (n <= k)%nat -> asks n p -> asks k p).
  { induction p as [r|b f IH]; intros n k L H; [exact I|]. cbn [asks] in *. destruct n as [|n]; [destruct H|]. destruct k as [|k]; [lia|]. intros y. apply (IH y n); [lia|auto]. }
  induction v as [r|b k IH|msg k IH|k IH]; intros a l T H; cbn [osim oasks] in *.
  - exact I.
  - destruct a as [|a]; [destruct H|]. destruct (look T b); [apply (G _ _ (a + 2 * List.length l)%nat); [lia|auto]|]. cbn [asks Nat.add]. intros y. auto.
  - destruct l as [|[F t] l']; [exact I|]. destruct (F msg t) as [[h Gz]|]; [|exact I].
    assert (X : forall y, asks (a + 2 * List.length l' + 1) (Ask (stag (List.length l')) (fun y' =>
            match Gz y y' with Err e => Ret (Some r0, T) | Ok (z, i) => osim r0 (k (Ok z)) l' ((i, y') :: T) end))).
    { intros y. replace (a + 2 * List.length l' + 1)%nat with (S (a + 2 * List.length l')) by lia. cbn [asks]. intros y'. destruct (Gz y y') as [[z i]|]; [|exact I]. apply IH. auto. }
    cbv zeta. destruct (look T h) as [y|].
    + apply (G _ _ (a + 2 * List.length l' + 1)%nat); [cbn [List.length]; lia|apply X].
    + apply (G _ _ (S (a + 2 * List.length l' + 1))%nat); [cbn [List.length]; lia|]. cbn [asks]. intros y. apply X.
  - destruct l as [|x l']; [exact I|]. apply (G _ _ (a + 2 * List.length l')%nat); [cbn [List.length]; lia|]. auto.
Qed.

Definition same_memo (M T m : memo) : Prop := forall b, look m b = match look T b with Some y => Some y | None => look M (qtag b) end.
Definition untouched (M : memo) (n : nat) : Prop := forall j, (j < n)%nat -> look M (stag j) = None.
Lemma same_ask M T m b y : same_memo M T m -> look T b = None -> same_memo ((qtag b, y) :: M) T ((b, y) :: m).
Proof.
  intros H N c. rewrite !look_cons, eqb_qtag, H. destruct (bytes_eqb b c) eqn:E; [|reflexivity]. apply bytes_eqb_eq in E. subst c. now rewrite N.
Qed.
Lemma same_prog M T m i n y : same_memo M T m -> same_memo ((stag n, y) :: M) ((i, y) :: T) ((i, y) :: m).
Proof.
  intros H c. rewrite !look_cons, H. destruct (bytes_eqb i c); [reflexivity|]. rewrite (eqb_no (stag n) (qtag c)); [reflexivity|]. intros E. symmetry in E. exact (tags _ _ E).
Qed.
Lemma untouched_ask M n b y : untouched M n -> untouched ((qtag b, y) :: M) n.
Proof. intros H j L. rewrite look_cons, (eqb_no (qtag b) (stag j)); [auto|apply tags]. Qed.
Lemma untouched_prog M n y : untouched M (S n) -> untouched ((stag n, y) :: M) n.
Proof. intros H j L. rewrite look_cons, (eqb_no (stag n) (stag j)); [apply H; lia|]. intros E. apply stag_inj in E. lia. Qed.
Lemma untouched_less M n k : (k <= n)%nat -> untouched M n -> untouched M k.
Proof. intros L H j J. apply H. lia. Qed.

Lemma osim_ideal {R} (r0 : R) v : quits r0 v -> forall l lk T M m tp,
  Forall2 (fun (p : party * (nat -> Z)) (f : sshape * (nat -> Z)) => shaped (fst p) (fst f) /\ snd p = snd f) l lk ->
  same_memo M T m -> untouched M (List.length lk) ->
  option_map (fun r => fst (fst r)) (sample (osim r0 v lk T) M tp) = option_map fst (oideal v l m tp).
Proof.
  induction v as [r|b k IH|msg k IH|k IH]; intros Qt l lk T M m tp F SM UN; cbn [osim oideal quits] in *.
  - reflexivity.
  - unfold reply. rewrite SM. destruct (look T b) as [y|] eqn:L; [now apply IH|]. cbn [sample]. destruct (look M (qtag b)) as [y|]; [now apply IH|].
    destruct tp as [|y tp]; [reflexivity|]. apply IH; auto using same_ask, untouched_ask.
  - destruct F as [|[K t] [Fk t'] l lk [SH E] F]; [reflexivity|]. cbn [fst snd] in SH, E. subst t'. rewrite SH. destruct Qt as [Q1 Q2].
    destruct (Fk msg t) as [[h G]|e]; [|rewrite Q1; reflexivity]. cbv zeta.
    assert (X : forall y M1 m1 tp1, same_memo M1 T m1 -> untouched M1 (S (List.length lk)) ->
      option_map (fun r : option R * memo * memo => fst (fst r)) (sample (Ask (stag (List.length lk)) (fun y' : bytes =>
         match G y y' with Err _ => Ret (Some r0, T) | Ok (z, i) => osim r0 (k (Ok z)) lk ((i, y') :: T) end)) M1 tp1) =
      option_map fst (match match tp1 with [] => None
         | y' :: tp' => match G y y' with Err e => Some (Err e, m1, tp1, None) | Ok (z, i) => Some (Ok z, (i, y') :: m1, tp', Some i) end end with
         | Some (z, m2, tp2, _) => oideal (k z) l m2 tp2 | None => None end)).
    { intros y M1 m1 tp1 S1 U1. cbn [sample]. rewrite (U1 (List.length lk)) by lia. destruct tp1 as [|y' tp1]; [reflexivity|].
      destruct (G y y') as [[z i]|e]; [|rewrite Q1; reflexivity]. apply IH; auto using same_prog, untouched_prog. }
    unfold reply. rewrite SM. destruct (look T h) as [y|] eqn:L; [now apply X|]. cbn [sample]. destruct (look M (qtag h)) as [y|]; [now apply X|].
    destruct tp as [|y tp]; [reflexivity|]. apply X; [now apply same_ask|now apply untouched_ask].
  - destruct F as [|[K t] [Fk t'] l lk [SH E] F]; [reflexivity|]. apply IH; auto. eapply untouched_less; [|exact UN]. cbn [List.length]. lia.
Qed.

(** * The table has only questions for the messages of the proofs *)
Definition table_ok (ms : list bytes) (T : memo) : Prop := Forall (fun p => exists msg s h pre com, In msg ms /\ prehash_input s = Ok h /\ framed pre /\ framed com /\
  fs_input h [pre; com] msg = Ok (fst p)) T.
Lemma table_more ms msg T : table_ok ms T -> table_ok (msg :: ms) T.
Proof. apply Forall_impl. intros p (m & s & h & pre & com & I & H). exists m, s, h, pre, com. split; [now right|exact H]. Qed.
Lemma onote_inv {A R} (v : obs A) (k : A -> list bytes -> obs (option R)) : forall ms l T M tp o M', Forall (fun f : sshape * (nat -> Z) => honest_shape (fst f)) l -> table_ok ms T ->
  sample (osim None (onote v ms k) l T) M tp = Some (o, M') ->
  fst o = None \/ fst o = Some None \/ exists x ms' l' T' M1 tp1, table_ok ms' T' /\ sample (osim None (k x ms') l' T') M1 tp1 = Some (o, M').
Proof.
  induction v as [r|b f IH|msg f IH|f IH]; intros ms l T M tp o M' HF TO S; cbn [onote osim] in S.
  - right. right. exists r, ms, l, T, M, tp. auto.
  - destruct (look T b) as [y|]; [eapply IH; eauto|]. cbn [sample] in S. destruct (look M (qtag b)) as [y|]; [eapply IH; eauto|]. destruct tp; [discriminate|eapply IH; eauto].
  - destruct l as [|[F t] l']; [injection S as <- <-; auto|]. inversion HF as [|? ? HS HF']; subst. cbn [fst] in HS. destruct (F msg t) as [[h G]|e] eqn:Ft; [|injection S as <- <-; auto].
    cbv zeta in S. destruct (HS _ _ _ _ Ft) as (s & Ph & Gz).
    assert (X : forall y M1 tp1, sample (Ask (stag (List.length l')) (fun y' : bytes =>
         match G y y' with Err _ => Ret (Some None, T) | Ok (z, i) => osim None (onote (f (Ok z)) (msg :: ms) k) l' ((i, y') :: T) end)) M1 tp1 = Some (o, M') ->
       fst o = None \/ fst o = Some None \/ exists x ms' l' T' M1 tp1, table_ok ms' T' /\ sample (osim None (k x ms') l' T') M1 tp1 = Some (o, M')).
    { intros y M1 tp1 S1.
      assert (Y : forall y' M2 tp2, sample (match G y y' with Err _ => Ret (Some None, T) | Ok (z, i) => osim None (onote (f (Ok z)) (msg :: ms) k) l' ((i, y') :: T) end) M2 tp2 = Some (o, M') ->
        fst o = None \/ fst o = Some None \/ exists x ms' l' T' M1 tp1, table_ok ms' T' /\ sample (osim None (k x ms') l' T') M1 tp1 = Some (o, M')).
      { intros y' M2 tp2 S2. destruct (G y y') as [[z i]|e] eqn:GE; [|injection S2 as <- <-; auto]. destruct (Gz _ _ _ _ GE) as (com & F1 & F2 & F3).
        eapply IH; [exact HF'| |exact S2]. constructor; [|now apply table_more]. exists msg, s, h, (n_pre z), com. split; [now left|]. auto. }
      rewrite sample_ask in S1. destruct (reply M1 tp1 (stag (List.length l'))) as [[[y' M2] tp2]|]; [exact (Y _ _ _ S1)|discriminate S1]. }
    destruct (look T h) as [y|]; [eapply X; eauto|]. rewrite sample_ask in S. destruct (reply M tp (qtag h)) as [[[y M1] tp1]|]; [exact (X _ _ _ S)|discriminate S].
  - destruct l as [|x l']; [injection S as <- <-; auto|]. inversion HF; subst. eapply IH; eauto.
Qed.

(** the question is in the table, or has been asked *)
Lemma verify_inv {R} t z msg a (k : res (bool * st) -> obs (option R)) l T M tp o M' :
  (forall r, taccepts r = false -> exists x, k r = ODone x) ->
  sample (osim None (othen (tverify_ro t z msg a) k) l T) M tp = Some (o, M') ->
  (exists r, taccepts r = false /\ o = (match k r with ODone x => Some x | _ => None end, T)) \/
  exists v s1 a1 h com i y r, tprocessed t (n_pre z) a = Ok ((v, s1), a1) /\ prehash_input s1 = Ok h /\
    tpre_validation (env a1) t s1 v (n_resp z) = Ok tt /\ recompute s1 (n_chal z) (n_resp z) = Ok com /\
    fs_input h [n_pre z; com] msg = Ok i /\ n_chal z = be_int y /\ taccepts r = true /\ exists M1 tp1, 
    sample (osim None (k r) l T) M1 tp1 = Some (o, M') /\ (look T i <> None \/ look M1 (qtag i) = Some y).
Proof.
  intros KD S. unfold tverify_ro in S. change ((if is_none (n_pre z) then ret (get_verifier (tshell t), tshell t) else tproc t (n_pre z)) a) with (tprocessed t (n_pre z) a) in S.
  assert (BAD : forall r M1 tp1, taccepts r = false -> sample (osim None (k r) l T) M1 tp1 = Some (o, M') ->
    exists r, taccepts r = false /\ o = (match k r with ODone x => Some x | _ => None end, T)).
  { intros r M1 tp1 N S1. exists r. split; auto. destruct (KD r N) as (x & E). rewrite E in *. cbn [osim sample] in S1. now injection S1 as <- <-. }
  destruct (tprocessed t (n_pre z) a) as [[[v s1] a1]|e]; [|left; eapply BAD; [|exact S]; reflexivity].
  destruct (prehash_input s1) as [h|e] eqn:Ph; [|left; eapply BAD; [|exact S]; reflexivity]. cbn [othen osim] in S.
  match type of S with sample (match _ with Some y => @?p y | None => _ end) _ _ = _ => assert (X : exists y0 M1 tp1, sample (p y0) M1 tp1 = Some (o, M')) end.
  { destruct (look T h) as [y|]; [eauto|]. cbn [sample] in S. destruct (look M (qtag h)) as [y|]; [eauto|]. destruct tp; [discriminate|eauto]. }
  clear S. cbv beta in X. destruct X as (y0 & M1 & tp1 & S).
  destruct (val_eqb (n_hash z) (VBytes y0)); [|left; eapply BAD; [|exact S]; reflexivity].
  destruct (tpre_validation (env a1) t s1 v (n_resp z)) as [[]|e] eqn:V; [|left; eapply BAD; [|exact S]; reflexivity].
  destruct (recompute s1 (n_chal z) (n_resp z)) as [com|e] eqn:Rc; [|left; eapply BAD; [|exact S]; reflexivity].
  destruct (fs_input h [n_pre z; com] msg) as [i|e] eqn:Fi; [|left; eapply BAD; [|exact S]; reflexivity].
  cbn [othen osim] in S.
  assert (Y : exists y M2 tp2, sample (osim None (k (Ok (n_chal z =? be_int y, a1))) l T) M2 tp2 = Some (o, M') /\ (look T i <> None \/ look M2 (qtag i) = Some y)).
  { destruct (look T i) as [y|] eqn:L; [exists y, M1, tp1; split; [exact S|left; congruence]|]. cbn [sample] in S. destruct (look M1 (qtag i)) as [y|] eqn:L1; [exists y, M1, tp1; auto|].
    destruct tp1 as [|y tp1]; [discriminate|]. exists y, ((qtag i, y) :: M1), tp1. split; [exact S|]. right. now rewrite look_cons, eqb_yes. }
  destruct Y as (y & M2 & tp2 & S2 & L). destruct (n_chal z =? be_int y) eqn:E; [|left; eapply BAD; [|exact S2]; reflexivity]. apply Z.eqb_eq in E.
  right. exists v, s1, a1, h, com, i, y, (Ok (true, a1)). repeat (split; [assumption || reflexivity|]). exists M2, tp2. auto.
Qed.

Lemma forgery_inv a v l tp acc t z msg ms T' M' : Forall (fun f : sshape * (nat -> Z) => honest_shape (fst f)) l ->
  sample (osim None (forgery a v) l []) [] tp = Some ((Some (Some (acc, (t, z, msg), ms)), T'), M') -> acc = true -> framed (n_pre z) -> ~ In msg ms ->
  exists v s1 a1 h com i y, tprocessed t (n_pre z) a = Ok ((v, s1), a1) /\ prehash_input s1 = Ok h /\
    tpre_validation (env a1) t s1 v (n_resp z) = Ok tt /\ recompute s1 (n_chal z) (n_resp z) = Ok com /\
    fs_input h [n_pre z; com] msg = Ok i /\ n_chal z = be_int y /\ tdecisive t a z msg = Some i /\ look M' (qtag i) = Some y.
Proof.
  intros HF S -> Fr New. unfold forgery in S. apply onote_inv in S; [|exact HF|constructor].
  destruct S as [S|[S|([[t0 z0] msg0] & ms0 & l0 & T0 & M0 & tp0 & TO & S)]]; [discriminate|discriminate|]. cbn [fst snd] in S.
  apply verify_inv in S; [|intros r _; eauto].
  destruct S as [(r & N & E)|(v0 & s1 & a1 & h & com & i & y & r & P & Ph & V & Rc & Fi & E & Ac & M1 & tp1 & S & L)].
  - injection E as E _ _ _ _ _. congruence.
  - cbn [osim sample] in S. injection S as _ <- <- <- <- <- <-. exists v0, s1, a1, h, com, i, y. repeat (split; [assumption|]).
    split; [unfold tdecisive; now rewrite P, Ph, Rc, Fi|]. destruct L as [L|L]; [|exact L]. exfalso. apply New.
    unfold look in L. destruct (find (fun p => bytes_eqb (fst p) i) T0) as [[i' y']|] eqn:FE; [|exfalso; now apply L]. apply find_some in FE as [Ii Ei]. cbn [fst] in Ei. apply bytes_eqb_eq in Ei. subst i'.
    unfold table_ok in TO. rewrite Forall_forall in TO. destruct (TO _ Ii) as (msg' & s' & h' & pre' & com' & Im & Ph' & F1 & F2 & Fi'). cbn [fst] in Fi'.
    destruct (input_frame _ _ _ _ _ _ _ _ _ _ _ Ph Ph' Fr F1 (recompute_framed _ _ _ _ Rc) F2 Fi Fi') as (_ & _ & _ & ->). exact Im.
Qed.

(** * The library's simulators have this shape *)
Lemma simulate_framed s : forall rd c a x a', simulate_proof s rd c a = Ok (x, a') -> framed (t_com x).
Proof.
  induction s as [d|subs b IH|subs b ch IH|k b p|k b p con IH] using stmt_ind'; intros rd c a x a' H; cbn [simulate_proof] in H.
  - unfold simulate_dl, bind in H.
    repeat match type of H with match ?e with _ => _ end = _ => destruct e as [[? ?]|] eqn:?; [|discriminate H] end.
    apply ret_ok in H as [<- <-]. cbn [t_com]. match goal with E : lift _ _ = Ok _ |- _ => unfold lift in E end.
    match goal with E : match recompute_dl ?d ?c ?r with _ => _ end = _ |- _ => destruct (recompute_dl d c r) eqn:Rc; [|discriminate E]; injection E as <- <- end.
    apply (recompute_framed (SDL d) _ _ _ Rc).
  - unfold bind in H. repeat match type of H with match ?e with _ => _ end = _ => destruct e as [[? ?]|]; [|discriminate H] end. apply ret_ok in H as [<- <-]. exact I.
  - unfold bind at 1 in H. destruct (or_draw c a) as [[c1 a1]|]; [|discriminate H]. unfold bind at 1 in H.
    match type of H with match ?e with _ => _ end = _ => destruct e as [[? ?]|]; [|discriminate H] end. apply ret_ok in H as [<- <-]. exact I.
  - discriminate.
  - unfold bind in H. destruct (simulate_proof con rd c a) as [[x1 a1]|] eqn:E; [|discriminate]. apply ret_ok in H as [<- <-]. cbn [t_com]. eauto.
Qed.
Definition shape_of (prep : (nat -> Z) -> res (stmt * st)) (out : val -> val) : sshape := fun msg t =>
  match prep t with
  | Err e => Err e
  | Ok (s, a) =>
    match prehash_input s with
    | Err e => Err e
    | Ok h => Ok (h, fun y y' =>
        match simulate_proof s None (Some (be_int y')) a with
        | Err e => Err e
        | Ok (x, _) =>
          match fs_input h [out (t_pre x); t_com x] msg with
          | Err e => Err e
          | Ok i => Ok (mkNizk (be_int y') (t_resp x) (out (t_pre x)) (VBytes y), i)
          end
        end)
    end
  end.
Lemma shape_honest K prep out : shaped K (shape_of prep out) -> sends_framed K -> honest_shape (shape_of prep out).
Proof.
  intros SH TI msg t h G H. assert (SH0 := SH msg [] []). unfold shape_of in H. destruct (prep t) as [[s a]|] eqn:P; [|discriminate]. destruct (prehash_input s) as [h0|] eqn:Ph; [|discriminate].
  injection H as <- <-. exists s. split; [exact Ph|]. intros y y' z i E.
  assert (FP : framed (n_pre z)).
  { assert (X := SH msg [] [y; y'] t). unfold shape_of in X. rewrite P, Ph in X.
    assert (RE : reply [] [y; y'] h0 = Some (y, [(h0, y)], [y'])) by reflexivity. rewrite RE in X. cbv beta iota in X, E. rewrite E in X. exact (TI _ _ _ _ _ _ _ _ X). }
  destruct (simulate_proof s None (Some (be_int y')) a) as [[x a1]|] eqn:Sx; [|discriminate]. destruct (fs_input h0 [out (t_pre x); t_com x] msg) as [i0|] eqn:Fi; [|discriminate].
  injection E as <- <-. exists (t_com x). split; [exact FP|]. split; [eapply simulate_framed; eauto|exact Fi].
Qed.
Lemma proves_shape K : provers K -> sends_framed K -> exists F, shaped K F /\ honest_shape F.
Proof.
  intros [s sd e e0|T sd e e0] TI.
  - assert (SH : shaped (stmt_party s sd e e0) (shape_of (fun t => prepare_sim s (mkSt e0 t 0)) sent)).
    { intros msg m tp t. cbn [stmt_party p_sim]. unfold simulator, shape_of. destruct (prepare_sim s _) as [[s1 a1]|]; [|reflexivity]. destruct (prehash_input s1) as [h|]; [|reflexivity].
      destruct (reply m tp h) as [[[y m1] [|y' tp1]]|]; try reflexivity. destruct (simulate_proof s1 None _ a1) as [[x a2]|]; [|reflexivity]. destruct (fs_input h _ msg); reflexivity. }
    eexists. split; [exact SH|]. eapply shape_honest; eauto.
  - assert (SH : shaped (tree_party T sd e e0) (shape_of (fun t => tprep T (set_simulated true (tshell T)) (mkSt e0 t 0)) (tsent T))).
    { intros msg m tp t. cbn [tree_party p_sim]. unfold tsimulator, shape_of. destruct (tprep T _ _) as [[s1 a1]|]; [|reflexivity]. destruct (prehash_input s1) as [h|]; [|reflexivity].
      destruct (reply m tp h) as [[[y m1] [|y' tp1]]|]; try reflexivity. destruct (simulate_proof s1 None _ a1) as [[x a2]|]; [|reflexivity]. destruct (fs_input h _ msg); reflexivity. }
    eexists. split; [exact SH|]. eapply shape_honest; eauto.
Qed.
Lemma proves_provers Q K : proves Q K -> provers K.
Proof. intros [|]; constructor. Qed.
Lemma proves_shapes Ks : Forall provers Ks -> Forall sends_framed Ks -> exists Fs, Forall2 shaped Ks Fs /\ Forall honest_shape Fs.
Proof.
  intros H. induction H as [|K Ks P H IH]; intros T; [exists []; split; constructor|]. inversion T; subst.
  destruct (proves_shape K P) as (F & A & B); auto. destruct IH as (Fs & C & D); auto. exists (F :: Fs). split; constructor; auto.
Qed.
Lemma forgery_quits a v : quits None (forgery a v).
Proof.
  assert (TH : forall A R (r0 : R) (p : prog A) k, (forall x, quits r0 (k x)) -> quits r0 (othen p k)).
  { induction p as [x|b f IH]; intros k H; cbn; auto. }
  assert (G : forall A R (w : obs A) (k : A -> list bytes -> obs (option R)) ms, (forall x ms, quits None (k x ms)) -> quits None (onote w ms k)).
  { induction w as [r|b f IH|msg f IH|f IH]; intros k ms H; cbn; auto. }
  apply G. intros x ms. apply TH. intros r. exact I.
Qed.
Lemma forgery_asks a v b : oasks b v -> oasks (b + 2) (forgery a v).
Proof.
  assert (MO : forall R (w : obs R) n k, (n <= k)%nat -> oasks n w -> oasks k w).
  { induction w as [r|b0 f IH|msg f IH|f IH]; intros n k L H; cbn [oasks] in *; [exact I| |intros z; eapply IH; eauto|eapply IH; eauto].
    destruct n as [|n]; [destruct H|]. destruct k as [|k]; [lia|]. intros y. apply (IH y n); [lia|auto]. }
  assert (TH : forall A R (p : prog A) (k : A -> obs R) n c, asks n p -> (forall x, oasks c (k x)) -> oasks (n + c) (othen p k)).
  { induction p as [x|b0 f IH]; intros k n c H K; cbn [othen].
    - apply (MO _ _ c); [lia|apply K].
    - cbn [asks] in H. destruct n as [|n]; [destruct H|]. cbn [Nat.add oasks]. intros y. apply IH; auto. }
  assert (G : forall A R (w : obs A) (k : A -> list bytes -> obs (option R)) c n ms, oasks n w -> (forall x ms, oasks c (k x ms)) -> oasks (n + c) (onote w ms k)).
  { induction w as [r|b0 f IH|msg f IH|f IH]; intros k c n ms H K; cbn [onote oasks] in *.
    - apply (MO _ _ c); [lia|apply K].
    - destruct n as [|n]; [destruct H|]. cbn [Nat.add]. intros y. apply IH; auto.
    - intros [z|e]; [apply IH; auto|exact I].
    - apply IH; auto. }
  intros H. apply G; [exact H|]. intros x ms. apply (TH _ _ _ _ 2%nat 0%nat); [apply asks_tverify|intros; exact I].
Qed.

(** * Forks *)
Lemma fork_end ok qs a t t' z z' msg msg' v v' s s' a1 a1' h h' com com' i c c' :
  readable -> (forall g, distinguished g) -> (forall t z, ok t z = true -> framed (n_pre z)) ->
  (forall t z v s a1, reached (ok t) t a z v s a1 -> coh (env a1) (svars s)) -> ok t z = true -> ok t' z' = true ->
  tprocessed t (n_pre z) a = Ok ((v, s), a1) -> prehash_input s = Ok h -> tpre_validation (env a1) t s v (n_resp z) = Ok tt ->
  recompute s (n_chal z) (n_resp z) = Ok com -> fs_input h [n_pre z; com] msg = Ok i -> n_chal z = be_int c ->
  tprocessed t' (n_pre z') a = Ok ((v', s'), a1') -> prehash_input s' = Ok h' -> tpre_validation (env a1') t' s' v' (n_resp z') = Ok tt ->
  recompute s' (n_chal z') (n_resp z') = Ok com' -> fs_input h' [n_pre z'; com'] msg' = Ok i -> n_chal z' = be_int c' -> apart qs c c' = true ->
  msg' = msg /\ exists f g, reached (ok t) t a z v s a1 /\ reached (ok t') t' a z' v' s' a1' /\
    alike f g s s' /\ (forall q, In q qs -> ~ (q | n_chal z - n_chal z')) /\
    tverify_resp (env a1) t s v com (n_chal z) (n_resp z) = Ok true /\ tverify_resp (env a1) t s v com (n_chal z') (n_resp z') = Ok true.
Proof.
  intros [Ro Ri] Di Fr Co Oz Oz' P Ph V Rc Fi E P' Ph' V' Rc' Fi' E' Ap.
  destruct (input_frame _ _ _ _ _ _ _ _ _ _ _ Ph Ph' (Fr _ _ Oz) (Fr _ _ Oz') (recompute_framed _ _ _ _ Rc) (recompute_framed _ _ _ _ Rc') Fi Fi')
    as (<- & _ & Ac & <-). split; [reflexivity|].
  assert (PP := tprocessed_tproc _ _ _ _ _ _ _ _ _ P Ph V). assert (PP' := tprocessed_tproc _ _ _ _ _ _ _ _ _ P' Ph' V').
  destruct (same_prehash s s' h Ro Ph Ph') as (f & g & Al).
  assert (R : reached (ok t) t a z v s a1).
  { split; [auto|]. split; [auto|]. split; [eauto|]. unfold tpre_validation in V. destruct (tvalid t s) as [[]|]; [reflexivity|discriminate]. }
  assert (R' : reached (ok t') t' a z' v' s' a1').
  { split; [auto|]. split; [auto|]. split; [eauto|]. unfold tpre_validation in V'. destruct (tvalid t' s') as [[]|]; [reflexivity|discriminate]. }
  destruct (alike_tvalid f g (env a1) (env a1') t t' s s' v v' (n_resp z) (n_resp z') (alike_pts f g s Ri s' Al) Al) as [V2 Re]; eauto.
  { eapply tr_match, tproc_tr; eauto. } { eapply tr_match, tproc_tr; eauto. }
  rewrite Re in Rc'. assert (Ec := recompute_alike s Di _ _ _ _ _ _ Rc Rc' Ac). subst com'.
  exists f, g. split; [exact R|]. split; [exact R'|]. split; [exact Al|].
  split; [intros q Iq; rewrite E, E'; eapply apart_in; eauto|].
  split; unfold tverify_resp; [rewrite V|rewrite V2]; cbn [rbind]; [rewrite Rc|rewrite Rc']; cbn [rbind]; now rewrite val_eqb_refl.
Qed.
Definition FD (ok : mtree -> nizk -> bool) (a : st) (o : option (option (bool * (mtree * nizk * bytes) * list bytes)) * memo) : option bytes :=
  match fst o with
  | Some (Some (acc, (t, z, msg), ms)) => if acc && ok t z && negb (existsb (bytes_eqb msg) ms) then option_map qtag (tdecisive t a z msg) else None
  | _ => None
  end.
Lemma existsb_in msg ms : negb (existsb (bytes_eqb msg) ms) = true -> ~ In msg ms.
Proof. intros H I. apply negb_true_iff in H. assert (X : existsb (bytes_eqb msg) ms = true) by (apply existsb_exists; exists msg; split; [exact I|apply eqb_yes]). congruence. Qed.

Lemma forge_fork ok a v Ks ts A qs K b : readable -> (forall g, distinguished g) ->
  (forall t z, ok t z = true -> framed (n_pre z)) -> (forall t z v s a1, reached (ok t) t a z v s a1 -> coh (env a1) (svars s)) ->
  Forall provers Ks -> Forall sends_framed Ks -> List.length ts = List.length Ks -> oasks b v -> spread A qs K -> 0 <= K ->
  let n := (b + 2 + 2 * List.length Ks)%nat in
  Z.of_nat n * K * len A ^ Z.of_nat n < len A * count (fun y => forged ok (oideal (forgery a v) (combine Ks ts) [] y)) (tapes A n) ->
  exists t t' z z' v' v'' s s' a1 a1' com f g, two_forgeries ok a v Ks ts A n t t' z z' /\ reached (ok t) t a z v' s a1 /\ reached (ok t') t' a z' v'' s' a1' /\
    alike f g s s' /\ (forall q, In q qs -> ~ (q | n_chal z - n_chal z')) /\
    tverify_resp (env a1) t s v' com (n_chal z) (n_resp z) = Ok true /\ tverify_resp (env a1) t s v' com (n_chal z') (n_resp z') = Ok true.
Proof.
  intros Rd Di Fr Co Pv Ti Lt0 As Sp HK n Lt.
  destruct (proves_shapes Ks Pv Ti) as (Fs & SHs & HSs).
  assert (LF : List.length Fs = List.length Ks) by (clear - SHs; induction SHs; cbn; congruence).
  set (lk := combine Fs ts).
  assert (F2 : Forall2 (fun (p : party * (nat -> Z)) (f : sshape * (nat -> Z)) => shaped (fst p) (fst f) /\ snd p = snd f) (combine Ks ts) lk).
  { unfold lk. clear - SHs. revert ts. induction SHs; intros [|t ts]; cbn; constructor; auto. }
  assert (HF : Forall (fun f : sshape * (nat -> Z) => honest_shape (fst f)) lk).
  { unfold lk. clear - HSs. revert ts. induction HSs; intros [|t ts]; cbn; constructor; auto. }
  assert (Lk : List.length lk = List.length Ks) by (unfold lk; rewrite combine_length; lia).
  assert (ID : forall y, option_map (fun r => fst (fst r)) (sample (osim None (forgery a v) lk []) [] y) = option_map fst (oideal (forgery a v) (combine Ks ts) [] y)).
  { intros y. apply osim_ideal; [apply forgery_quits|exact F2|intros c; reflexivity|intros j _; reflexivity]. }
  assert (INV : forall y o M c, sample (osim None (forgery a v) lk []) [] y = Some (o, M) -> FD ok a o = Some c ->
    exists t z msg ms T m w s1 a1 h com i x, o = (Some (Some (true, (t, z, msg), ms)), T) /\ oideal (forgery a v) (combine Ks ts) [] y = Some (Some (Some (true, (t, z, msg), ms)), m) /\
      ok t z = true /\ ~ In msg ms /\ tprocessed t (n_pre z) a = Ok ((w, s1), a1) /\ prehash_input s1 = Ok h /\
      tpre_validation (env a1) t s1 w (n_resp z) = Ok tt /\ recompute s1 (n_chal z) (n_resp z) = Ok com /\
      fs_input h [n_pre z; com] msg = Ok i /\ n_chal z = be_int x /\ c = qtag i /\ look M (qtag i) = Some x).
  { intros y o M c S D. specialize (ID y). rewrite S in ID. destruct o as [[[[[acc [[t z] msg]] ms]|]|] T]; unfold FD in D; cbn [fst] in D; try discriminate D.
    destruct (acc && ok t z && negb (existsb (bytes_eqb msg) ms)) eqn:B; [|discriminate D]. rewrite !andb_true_iff in B. destruct B as [[-> Oz] Nw]. apply existsb_in in Nw.
    destruct (forgery_inv a v lk y true t z msg ms T M HF S eq_refl (Fr _ _ Oz) Nw) as (v1 & s1 & a1 & h & com & i & x & P & Ph & V & Rc & Fi & E & Dc & L).
    rewrite Dc in D. injection D as <-. cbn [option_map fst] in ID. destruct (oideal (forgery a v) (combine Ks ts) [] y) as [[o m]|]; [|discriminate ID]. cbn in ID. injection ID as <-.
    exists t, z, msg, ms, T, m, v1, s1, a1, h, com, i, x. repeat (split; [assumption || reflexivity|]). exact L. }
  destruct (forking (FD ok a) (apart qs) A K (osim None (forgery a v) lk []) Sp HK n [] n) as [F|C]; auto.
  - unfold n. rewrite <- Lk. apply osim_asks, forgery_asks, As.
  - intros y o M' c S D. destruct (INV _ _ _ _ S D) as (t & z & msg & ms & T & m & v1 & s1 & a1 & h & com & i & x & _ & _ & _ & _ & _ & _ & _ & _ & _ & _ & -> & L). congruence.
  - destruct F as (u & y & y' & x & x' & c & o & o' & m1 & m2 & I1 & I2 & Ap & S1 & S2 & D1 & D2 & L1 & L2).
    destruct (INV _ _ _ _ S1 D1) as (t & z & msg & ms & T & m & v1 & s1 & a1 & h & com & i & w & -> & O1 & Oz & N1 & P & Ph & V & Rc & Fi & E & -> & Lk1).
    destruct (INV _ _ _ _ S2 D2) as (t' & z' & msg' & ms' & T' & m' & v1' & s1' & a1' & h' & com' & i' & w' & -> & O2 & Oz' & N2 & P' & Ph' & V' & Rc' & Fi' & E' & Ei & Lk2).
    apply qtag_inj in Ei. subst i'. rewrite L1 in Lk1. injection Lk1 as <-. rewrite L2 in Lk2. injection Lk2 as <-.
    destruct (fork_end ok qs a t t' z z' msg msg' v1 v1' s1 s1' a1 a1' h h' com com' i y y' Rd Di Fr Co Oz Oz' P Ph V Rc Fi E P' Ph' V' Rc' Fi' E' Ap)
      as (-> & f & g & R & R' & Al & Q1 & Q2 & Q3).
    exists t, t', z, z', v1, v1', s1, s1', a1, a1', com, f, g. split; [|auto 10].
    exists (u ++ y :: x), (u ++ y' :: x'), msg, ms, ms', m, m'. repeat (split; [assumption|]). assumption.
  - exfalso. assert (X : count (fun y => forged ok (oideal (forgery a v) (combine Ks ts) [] y)) (tapes A n) <= count (new (FD ok a) (osim None (forgery a v) lk []) []) (tapes A n)).
    { apply count_mono. intros y _ H. unfold forged in H. specialize (ID y). destruct (oideal (forgery a v) (combine Ks ts) [] y) as [[[[[[acc [[t z] msg]] ms]|]|] m]|]; try discriminate H.
      cbn in ID. unfold new. destruct (sample (osim None (forgery a v) lk []) [] y) as [[[o T] M]|] eqn:S; [|discriminate ID]. cbn in ID. injection ID as ->.
      assert (B := H). rewrite !andb_true_iff in B. destruct B as [[-> Oz] Nw]. apply existsb_in in Nw.
      destruct (forgery_inv a v lk y true t z msg ms T M HF S eq_refl (Fr _ _ Oz) Nw) as (v1 & s1 & a1 & h & com & i & x & _ & _ & _ & _ & _ & _ & Dc & _).
      unfold FD. cbn [fst]. rewrite H, Dc. reflexivity. }
    assert (0 <= len A) by (unfold len; lia). nia.
Qed.

(** * Counting *)
Lemma count_prod {A B} (F : A -> B -> bool) l m : count (fun p => F (fst p) (snd p)) (list_prod l m) = tot (fun x => count (F x) m) l.
Proof.
  induction l as [|x l IH]; [reflexivity|]. cbn [list_prod]. rewrite OracleManyProofs.count_app, IH, tot_cons. f_equal.
  rewrite count_map. apply count_ext'. reflexivity.
Qed.
Lemma tot_le {A} (f : A -> Z) k l : (forall x, In x l -> f x <= k) -> tot f l <= k * len l.
Proof.
  induction l as [|x l IH]; intros H; [cbn; lia|]. rewrite tot_cons, len_cons. assert (f x <= k) by (apply H; now left). assert (tot f l <= k * len l) by (apply IH; intros; apply H; now right). lia.
Qed.
Lemma tot_scale {A} (f : A -> Z) c l : c * tot f l = tot (fun x => c * f x) l.
Proof. induction l as [|x l IH]; [cbn; lia|]. rewrite !tot_cons, <- IH. lia. Qed.
Lemma tot_some {A} (f : A -> Z) k l : k * len l < tot f l -> exists x, In x l /\ k < f x.
Proof.
  intros H. destruct (some_or_none (fun x => k < f x) (fun x => f x <= k) l) as [E|E]; [intros x _; lia|exact E|]. apply (tot_le f k) in E. lia.
Qed.
Lemma boxes_length sz l : In l (boxes sz) -> List.length l = List.length sz.
Proof.
  revert l. induction sz as [|[n q] sz IH]; intros l H; [destruct H as [<-|[]]; reflexivity|]. cbn [boxes] in H. apply in_flat_map in H as (x & _ & H). apply in_map_iff in H as (l' & <- & H).
  cbn. f_equal. now apply IH.
Qed.
Theorem forge_count Q Ks : 0 <= Q -> Forall (proves Q) Ks -> Forall sends_framed Ks ->
  exists sz, List.length sz = List.length Ks /\ Forall (fun s => forall j, (j < fst s)%nat -> 1 < snd s j) sz /\
  (forall ok a v ps y b, oasks b v -> (b + 2 + 2 * List.length Ks <= List.length y)%nat -> Forall2 (fun s p => congr (fst s) (snd s) (fst p) (snd p)) sz ps ->
    forges ok a v Ks (map fst ps) y = forges ok a v Ks (map snd ps) y) /\
  forall ok a v A K b, oasks b v -> let n := (b + 2 + 2 * List.length Ks)%nat in
  (Q * Z.of_nat n * K + len A * len Ks * Z.of_nat n) * (len (boxes sz) * len A ^ Z.of_nat n) <
    len A * Q * count (fun p => forges ok a v Ks (map vec (fst p)) (snd p)) (list_prod (boxes sz) (tapes A n)) ->
  exists l, In l (boxes sz) /\ List.length (map vec l) = List.length Ks /\
    Z.of_nat n * K * len A ^ Z.of_nat n < len A * count (fun y => forged ok (oideal (forgery a v) (combine Ks (map vec l)) [] y)) (tapes A n).
Proof.
  intros QP Pr Ti. destruct (many_zk Q Ks QP Pr) as (sz & L & P & H). exists sz. split; [exact L|]. split; [exact P|]. split.
  { intros ok a v ps y b As Ly C. unfold forges. f_equal. exact (proj1 (proj1 (H _ (forgery a v) (b + 2)%nat [] y (forgery_asks a v b As) Ly) ps C)). }
  intros ok a v A K b As n Lt.
  set (Re := fun l y => forges ok a v Ks (map vec l) y). set (Id := fun l y => forged ok (oideal (forgery a v) (combine Ks (map vec l)) [] y)).
  rewrite (count_prod Re) in Lt. rewrite (tot_swap Re) in Lt.
  assert (Cl : Q * Z.abs (tot (fun y => count (fun l => Re l y) (boxes sz)) (tapes A n) - tot (fun y => count (fun l => Id l y) (boxes sz)) (tapes A n)) <=
    (len Ks * Z.of_nat n * len (boxes sz)) * len (tapes A n)).
  { apply tot_close; [exact QP|]. intros y Iy. apply tapes_in in Iy as [Ly _].
    assert (X := proj2 (H _ (forgery a v) (b + 2)%nat [] y (forgery_asks a v b As) ltac:(rewrite Ly; unfold n; lia)) (forged ok)).
    unfold all_chances in X. etransitivity; [exact X|]. unfold n. apply Z.mul_le_mono_nonneg_r; [apply boxes_nonneg|]. apply Z.mul_le_mono_nonneg_l; [apply len_nonneg|].
    unfold len. cbn [List.length]. lia. }
  rewrite <- (tot_swap Id) in Cl. rewrite tapes_len in Cl.
  set (re := tot _ _) in Lt, Cl. set (id := tot _ _) in Cl.
  assert (LB : 0 <= len (boxes sz)) by apply len_nonneg. assert (LA : 0 <= len A) by apply len_nonneg. assert (LK : 0 <= len Ks) by apply len_nonneg.
  assert (LP : 0 <= len A ^ Z.of_nat n) by (apply Z.pow_nonneg; exact LA).
  set (B := len (boxes sz)) in *. set (P0 := len A ^ Z.of_nat n) in *. set (N := len A) in *. set (nn := Z.of_nat n) in *.
  assert (AB : forall r : Z, r <= Z.abs r) by (intros r; lia).
  assert (X : Q * (re - id) <= len Ks * nn * B * P0) by (etransitivity; [apply Z.mul_le_mono_nonneg_l; [exact QP|apply AB]|exact Cl]).
  assert (Y : N * (Q * (re - id)) <= N * (len Ks * nn * B * P0)) by (apply Z.mul_le_mono_nonneg_l; assumption).
  assert (Z0 : Q * (nn * K * P0 * B) < Q * (N * id)).
  { replace (Q * (nn * K * P0 * B)) with ((Q * nn * K + N * len Ks * nn) * (B * P0) - N * (len Ks * nn * B * P0)) by ring.
    replace (Q * (N * id)) with (N * Q * re - N * (Q * (re - id))) by ring. lia. }
  assert (Z1 : nn * K * P0 * B < N * id).
  { destruct (Z.eq_dec Q 0) as [->|]; [lia|]. apply (Z.mul_lt_mono_pos_l Q); [lia|exact Z0]. }
  unfold id in Z1. rewrite tot_scale in Z1. apply tot_some in Z1 as (l & Il & Hl). exists l. split; [exact Il|]. split; [rewrite map_length, <- L; now apply boxes_length|exact Hl].
Qed.

(** * Theorems *)
Theorem forge_extract Q Ks : 0 <= Q -> Forall (proves Q) Ks -> Forall sends_framed Ks ->
  exists sz, List.length sz = List.length Ks /\ Forall (fun s => forall j, (j < fst s)%nat -> 1 < snd s j) sz /\
  (forall ok a v ps y b, oasks b v -> (b + 2 + 2 * List.length Ks <= List.length y)%nat -> Forall2 (fun s p => congr (fst s) (snd s) (fst p) (snd p)) sz ps ->
    forges ok a v Ks (map fst ps) y = forges ok a v Ks (map snd ps) y) /\
  forall ok a v A qs K b, readable -> (forall g, distinguished g) -> tusual ok qs a -> (forall t z v s a1, reached (ok t) t a z v s a1 -> noor s) ->
  oasks b v -> spread A qs K -> 0 <= K -> let n := (b + 2 + 2 * List.length Ks)%nat in
  (Q * Z.of_nat n * K + len A * len Ks * Z.of_nat n) * (len (boxes sz) * len A ^ Z.of_nat n) <
    len A * Q * count (fun p => forges ok a v Ks (map vec (fst p)) (snd p)) (list_prod (boxes sz) (tapes A n)) ->
  exists ts t t' z z' v' s a1 w, two_forgeries ok a v Ks ts A n t t' z z' /\ reached (ok t) t a z v' s a1 /\
    Extr w s (n_chal z) (n_chal z') (n_resp z) (n_resp z') /\ tholds w t (n_pre z) s (n_chal z) (n_chal z') (n_resp z) (n_resp z').
Proof.
  intros QP Pr Ti. destruct (forge_count Q Ks QP Pr Ti) as (sz & L & P & C & H). exists sz. split; [exact L|]. split; [exact P|]. split; [exact C|].
  intros ok a v A qs K b Rd Di Us No As Sp HK n Lt. destruct (H ok a v A K b As Lt) as (l & _ & Ll & Li).
  assert (Pv : Forall provers Ks) by (eapply Forall_impl; [|exact Pr]; apply proves_provers).
  destruct (forge_fork ok a v Ks (map vec l) A qs K b Rd Di (fun t z O => proj2 (Us t) z O) (fun t z v s a1 R => proj1 (proj2 (proj1 (Us t) z v s a1 R))) Pv Ti Ll As Sp HK Li)
    as (t & t' & z & z' & v1 & v1' & s & s' & a1 & a1' & com & f & g & TF & O1 & O2 & Al & Ap & V & V').
  destruct (proj1 (Us t) _ _ _ _ O1) as (Wf & Ch & O). assert (PP := proj1 (proj2 O1)).
  destruct (nested_bounds t (n_pre z) a v1 s a1 (env a1) com (n_chal z) (n_chal z') (n_resp z) (n_resp z') PP Wf Ch) as (w & Ex & St); auto.
  - eapply orders_impl; [|exact O]. intros q [Q1 Q2]. auto.
  - left. eauto.
  - exists (map vec l), t, t', z, z', v1, s, a1, w. auto.
Qed.
Theorem forge_false Q Ks : 0 <= Q -> Forall (proves Q) Ks -> Forall sends_framed Ks ->
  exists sz, List.length sz = List.length Ks /\ Forall (fun s => forall j, (j < fst s)%nat -> 1 < snd s j) sz /\
  (forall ok a v ps y b, oasks b v -> (b + 2 + 2 * List.length Ks <= List.length y)%nat -> Forall2 (fun s p => congr (fst s) (snd s) (fst p) (snd p)) sz ps ->
    forges ok a v Ks (map fst ps) y = forges ok a v Ks (map snd ps) y) /\
  forall ok a v A qs K b, readable -> (forall g, distinguished g) -> tusual ok qs a ->
  (forall t z v s a1, reached (ok t) t a z v s a1 -> noor s /\ forall w c c' r r', tholds w t (n_pre z) s c c' r r' -> ~ Sat w s) ->
  oasks b v -> spread A qs K -> 0 <= K -> let n := (b + 2 + 2 * List.length Ks)%nat in
  len A * Q * count (fun p => forges ok a v Ks (map vec (fst p)) (snd p)) (list_prod (boxes sz) (tapes A n)) <=
  (Q * Z.of_nat n * K + len A * len Ks * Z.of_nat n) * (len (boxes sz) * len A ^ Z.of_nat n).
Proof.
  intros QP Pr Ti. destruct (forge_extract Q Ks QP Pr Ti) as (sz & L & P & C & H). exists sz. split; [exact L|]. split; [exact P|]. split; [exact C|].
  intros ok a v A qs K b Rd Di Us No As Sp HK n. apply Z.nlt_ge. intros Lt.
  destruct (H ok a v A qs K b Rd Di Us (fun t z v s a1 O => proj1 (No t z v s a1 O)) As Sp HK Lt) as (ts & t & t' & z & z' & v1 & s & a1 & w & _ & O1 & Ex & St).
  exact (proj2 (No _ _ _ _ _ O1) _ _ _ _ _ St (Extr_Sat _ _ _ _ _ _ Ex)).
Qed.
Theorem forge_sha Q Ks : 0 <= Q -> Forall (proves Q) Ks -> Forall sends_framed Ks ->
  exists sz, List.length sz = List.length Ks /\ Forall (fun s => forall j, (j < fst s)%nat -> 1 < snd s j) sz /\
  (forall ok a v ps y b, oasks b v -> (b + 2 + 2 * List.length Ks <= List.length y)%nat -> Forall2 (fun s p => congr (fst s) (snd s) (fst p) (snd p)) sz ps ->
    forges ok a v Ks (map fst ps) y = forges ok a v Ks (map snd ps) y) /\
  forall ok a v q b, readable -> (forall g, distinguished g) -> tusual ok [q] a -> 1 < q ->
  (forall t z v s a1, reached (ok t) t a z v s a1 -> noor s /\ forall w c c' r r', tholds w t (n_pre z) s c c' r r' -> ~ Sat w s) ->
  oasks b v -> let n := (b + 2 + 2 * List.length Ks)%nat in
  2 ^ 256 * Q * count (fun p => forges ok a v Ks (map vec (fst p)) (snd p)) (list_prod (boxes sz) (tapes digests n)) <=
  (Q * Z.of_nat n * (2 ^ 256 / q + 1) + 2 ^ 256 * len Ks * Z.of_nat n) * (len (boxes sz) * (2 ^ 256) ^ Z.of_nat n).
Proof.
  intros QP Pr Ti. destruct (forge_false Q Ks QP Pr Ti) as (sz & L & P & C & H). exists sz. split; [exact L|]. split; [exact P|]. split; [exact C|].
  intros ok a v q b Rd Di Us Hq No As n.
  assert (E : len digests = 2 ^ 256).
  { unfold digests. rewrite strings_len. change (Z.of_nat 32) with 32. change 256 with (2 ^ 8) at 1. rewrite <- Z.pow_mul_r by lia. reflexivity. }
  assert (P' : 256 ^ Z.of_nat 32 = 2 ^ 256) by reflexivity. assert (S := spread_digests 32 q Hq). change (strings 32) with digests in S. rewrite P' in S.
  assert (X := H ok a v digests [q] (2 ^ 256 / q + 1) b Rd Di Us No As S). rewrite E in X. apply X.
  assert (0 <= 2 ^ 256 / q) by (apply Z.div_pos; [apply Z.pow_nonneg|]; lia). lia.
Qed.
Theorem forge_extract_or Q Ks : 0 <= Q -> Forall (proves Q) Ks -> Forall sends_framed Ks ->
  exists sz, List.length sz = List.length Ks /\ Forall (fun s => forall j, (j < fst s)%nat -> 1 < snd s j) sz /\
  (forall ok a v ps y b, oasks b v -> (b + 2 + 2 * List.length Ks <= List.length y)%nat -> Forall2 (fun s p => congr (fst s) (snd s) (fst p) (snd p)) sz ps ->
    forges ok a v Ks (map fst ps) y = forges ok a v Ks (map snd ps) y) /\
  forall ok a v A qs K b, readable -> (forall g, distinguished g) -> tusual ok qs a -> (forall q, In q qs -> 2 ^ 129 <= q) ->
  (forall t z v s a1, reached (ok t) t a z v s a1 -> canonical s (n_resp z)) ->
  oasks b v -> spread A (2 ^ 128 :: qs) K -> 0 <= K -> let n := (b + 2 + 2 * List.length Ks)%nat in
  (Q * Z.of_nat n * K + len A * len Ks * Z.of_nat n) * (len (boxes sz) * len A ^ Z.of_nat n) <
    len A * Q * count (fun p => forges ok a v Ks (map vec (fst p)) (snd p)) (list_prod (boxes sz) (tapes A n)) ->
  exists ts t t' z z' v' s a1 w, two_forgeries ok a v Ks ts A n t t' z z' /\ reached (ok t) t a z v' s a1 /\
    Extr w s (n_chal z) (n_chal z') (n_resp z) (n_resp z') /\ tholds w t (n_pre z) s (n_chal z) (n_chal z') (n_resp z) (n_resp z').
Proof.
  intros QP Pr Ti. destruct (forge_count Q Ks QP Pr Ti) as (sz & L & P & C & H). exists sz. split; [exact L|]. split; [exact P|]. split; [exact C|].
  intros ok a v A qs K b Rd Di Us Big Ca As Sp HK n Lt. destruct (H ok a v A K b As Lt) as (l & _ & Ll & Li).
  assert (Pv : Forall provers Ks) by (eapply Forall_impl; [|exact Pr]; apply proves_provers).
  destruct (forge_fork ok a v Ks (map vec l) A (2 ^ 128 :: qs) K b Rd Di (fun t z O => proj2 (Us t) z O) (fun t z v s a1 R => proj1 (proj2 (proj1 (Us t) z v s a1 R))) Pv Ti Ll As Sp HK Li)
    as (t & t' & z & z' & v1 & v1' & s & s' & a1 & a1' & com & f & g & TF & O1 & O2 & Al & Ap & V & V').
  destruct (proj1 (Us t) _ _ _ _ O1) as (Wf & Ch & O). assert (PP := proj1 (proj2 O1)).
  destruct (nested_sound t (n_pre z) a v1 s a1 (env a1) com (n_chal z) (n_chal z') (n_resp z) (n_resp z') PP Wf Ch) as (w & Ex & St); auto.
  - eapply orders_impl; [|exact O]. intros q [Q1 Q2]. split; auto. split; [apply Ap; now right|now apply Big].
  - eapply Ca; eauto.
  - eapply (alike_canonical g f s'); [now apply alike_sym|]. eapply Ca; eauto.
  - apply Ap. now left.
  - exists (map vec l), t, t', z, z', v1, s, a1, w. auto.
Qed.

(** * Any messages *)
Lemma prover_asks K msg t : provers K -> asks 2 (p_real K msg t).
Proof.
  intros [s sd e e0|T sd e e0]; cbn [stmt_party tree_party p_real]; apply (asks_pbind _ _ 0) with (n := 2%nat); try (intros; exact I).
  - unfold prove_ro. destruct (committed _ _ _) as [[[[[pre com] p] s'] a']|]; [|exact I]. destruct (prehash_input s'); [|exact I].
    intros y. destruct (fs_input _ _ _); [|exact I]. intros y'. exact I.
  - unfold tprove_ro. destruct (bind (topen T sd) _ _) as [[[[[pre com] p] s'] a']|]; [|exact I]. destruct (prehash_input s'); [|exact I].
    intros y. destruct (fs_input _ _ _); [|exact I]. intros y'. exact I.
Qed.
Lemma asks_up {R} (p : prog R) : forall n k, (n <= k)%nat -> asks n p -> asks k p.
Proof.
  induction p as [r|b f IH]; intros n k L H; [exact I|]. cbn [asks] in *. destruct n as [|n]; [destruct H|]. destruct k as [|k]; [lia|]. intros y. apply (IH y n); [lia|auto].
Qed.
Lemma oreal_asks {R} (v : obs R) : forall a l, Forall (fun p => provers (fst p)) l -> oasks a v -> asks (a + 2 * List.length l) (oreal v l).
Proof.
  induction v as [r|b k IH|msg k IH|k IH]; intros a l F H; cbn [oreal oasks] in *.
  - exact I.
  - destruct a as [|a]; [destruct H|]. cbn [asks Nat.add]. intros y. auto.
  - destruct F as [|[K t] l P F]; [exact I|]. replace (a + 2 * List.length ((K, t) :: l))%nat with (2 + (a + 2 * List.length l))%nat by (cbn [List.length]; lia).
    apply asks_pbind; [intros z; auto|now apply prover_asks].
  - destruct F as [|[K t] l P F]; [exact I|]. apply (asks_up _ (a + 2 * List.length l)%nat); [cbn [List.length]; lia|auto].
Qed.
Lemma seen_asks v l d b : Forall (fun p => provers (fst p)) l -> oasks b v -> asks (b + 2 * List.length l) (seen_proofs v l d).
Proof. intros F H. rewrite <- (Nat.add_0_r (b + _)). apply asks_pbind; [intros; exact I|now apply oreal_asks]. Qed.
Theorem after_false ok a v l d A qs K b : readable -> (forall g, distinguished g) -> tusual ok qs a ->
  (forall t z v s a1, reached (ok t) t a z v s a1 -> noor s /\ forall w c c' r r', tholds w t (n_pre z) s c c' r r' -> ~ Sat w s) ->
  Forall (fun p => provers (fst p)) l -> oasks b v -> spread A qs K -> 0 <= K -> let n := (b + 2 * List.length l + 2)%nat in
  len A * count (tcwon ok a (seen_proofs v l d)) (tapes A n) <= Z.of_nat n * K * len A ^ Z.of_nat n.
Proof. intros Rd Di Us No F As Sp HK n. apply (tchosen_false ok a (seen_proofs v l d) A qs K); auto. now apply seen_asks. Qed.

(** * Precommitments of the library *)
Lemma stmt_framed s sd e e0 : sends_framed (stmt_party s sd e e0).
Proof.
  intros msg m tp t z m' tp' i H. cbn [stmt_party p_sim] in H. unfold simulator in H. destruct (prepare_sim s _) as [[s1 a1]|] eqn:PS; [|discriminate].
  destruct (prehash_input s1) as [h|]; [|discriminate]. destruct (reply m tp h) as [[[y m1] [|y' tp1]]|]; try discriminate.
  destruct (simulate_proof s1 None _ a1) as [[x a2]|] eqn:SP; [|discriminate]. destruct (fs_input h _ msg); [|discriminate]. injection H as <- <- <- <-. cbn [n_pre].
  assert (LI : forall l : list val, framed (sent (VList l))) by (intros l; cbn [sent]; destruct (forallb is_none _); exact I).
  destruct s as [d|subs b|subs b c|k b p c]; cbn [prepare_sim] in PS.
  - apply ret_ok in PS as [E1 E2]; subst s1. cbn [simulate_proof] in SP. unfold simulate_dl, bind in SP.
    repeat match type of SP with match ?e with _ => _ end = _ => destruct e as [[? ?]|]; [|discriminate SP] end. apply ret_ok in SP as [<- <-]. exact I.
  - unfold bind in PS. destruct (mapM prepare_sim subs _) as [[l a3]|]; [|discriminate]. apply ret_ok in PS as [<- <-]. cbn [simulate_proof] in SP. unfold bind in SP.
    repeat match type of SP with match ?e with _ => _ end = _ => destruct e as [[? ?]|]; [|discriminate SP] end. apply ret_ok in SP as [<- <-]. apply LI.
  - unfold bind in PS. destruct (mapM prepare_sim subs _) as [[l a3]|]; [|discriminate]. apply ret_ok in PS as [<- <-]. cbn [simulate_proof] in SP. unfold bind at 1 in SP.
    destruct (or_draw _ _) as [[c1 a4]|]; [|discriminate SP]. unfold bind at 1 in SP.
    match type of SP with match ?e with _ => _ end = _ => destruct e as [[? ?]|]; [|discriminate SP] end. apply ret_ok in SP as [<- <-]. apply LI.
  - unfold bind in PS. destruct (ksim_precommit k _) as [[q a3]|] eqn:KS; [|discriminate]. unfold full_construct, bind in PS. destruct (construct k q a3) as [[c0 a4]|]; [|discriminate].
    apply ret_ok in PS as [<- <-]. cbn [simulate_proof] in SP. unfold bind in SP. destruct (simulate_proof c0 None _ _) as [[x1 a5]|]; [|discriminate]. apply ret_ok in SP as [<- <-]. cbn [t_pre].
    destruct k; cbn [ksim_precommit] in KS; unfold bind in KS.
    + destruct (draw _ _) as [[? ?]|]; [|discriminate]. apply ret_ok in KS as [<- <-]. exact I.
    + destruct (mapM _ _ _) as [[rv a6]|]; [|discriminate]. destruct (map _ rv) as [|c1 cs]; [discriminate|]. destruct (lift _ _) as [[? ?]|]; [|discriminate]. apply ret_ok in KS as [<- <-]. exact I.
    + match type of KS with match ?l with _ => _ end _ = _ => destruct l end; [discriminate|]. destruct (draw _ _) as [[? ?]|]; [|discriminate]. destruct (draw _ _) as [[? ?]|]; [|discriminate]. apply ret_ok in KS as [<- <-]. exact I.
    + discriminate.
Qed.
Lemma tree_framed l b sd e e0 : sends_framed (tree_party (TA l b) sd e e0) /\ sends_framed (tree_party (TO l b) sd e e0).
Proof.
  split; intros msg m tp t z m' tp' i H; cbn [tree_party p_sim] in H; unfold tsimulator in H; destruct (tprep _ _ _) as [[s1 a1]|] eqn:PS; try discriminate H;
  (destruct (prehash_input s1) as [h|]; [|discriminate]); (destruct (reply m tp h) as [[[y m1] [|y' tp1]]|]; try discriminate);
  (destruct (simulate_proof s1 None _ a1) as [[x a2]|] eqn:SP; [|discriminate]); (destruct (fs_input h _ msg); [|discriminate]); injection H as <- <- <- <-; cbn [n_pre];
  cbn [tshell set_simulated tprep] in PS; unfold bind in PS; (destruct (zipM _ _ _ _) as [[r a3]|]; [|discriminate]); apply ret_ok in PS as [<- <-]; cbn [simulate_proof] in SP; unfold bind at 1 in SP.
  - unfold bind in SP. repeat match type of SP with match ?e with _ => _ end = _ => destruct e as [[? ?]|]; [|discriminate SP] end. apply ret_ok in SP as [<- <-].
    cbn [t_pre tsent]. unfold pre_list. destruct (forallb _ _); exact I.
  - destruct (or_draw _ _) as [[c1 a4]|]; [|discriminate SP]. unfold bind at 1 in SP.
    match type of SP with match ?e with _ => _ end = _ => destruct e as [[? ?]|]; [|discriminate SP] end. apply ret_ok in SP as [<- <-]. exact I.
Qed.
End O.

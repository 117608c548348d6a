(** Non-interactive proofs in the random oracle model: completeness and zero-knowledge. *)
From Coq Require Import String Znumtheory Lia.
From Verif Require Import Base World Val Expr Utils Stmt Prove Verify Spec Claims Shapes Honest Clauses Supply Extract Runs Views Distrib
  Ident Alike Lib DictProofs Keeps Tree ArithProofs Sigma Validate Commit Build Process Lin Ktruth Provers Complete Compose Total Total2 Total3 Total4
  Frame SimIndep Sound Sound2 Sound3 ZkTree ZkPre TreeZk IdProofs2 IdProofs4 IdProofs6 Wrong Second Oracle Forking OracleProofs OracleZk.
Open Scope Z_scope.
Open Scope list_scope.

Section O.
Context {W : World}.

Lemma prove_ro_fun s sd msg a : with_fun sha256 (prove_ro s sd msg a) = match prove s sd msg a with Ok ((z, s'), a') => Ok (z, s', a') | Err e => Err e end.
Proof.
  unfold prove_ro, committed, prove, get_nizk_proof, bind. destruct (get_prover s sd a) as [[[[p|] s1] a1]|e]; [|reflexivity|reflexivity].
  destruct (precommit s1 p a1) as [[[[pre p2] s2] a2]|e]; [|reflexivity]. destruct (internal_commit s2 p2 None a2) as [[[com p3] a3]|e]; [|reflexivity].
  unfold ret, lift. destruct (prehash_input s2) as [h|e]; [|reflexivity]. unfold fs_challenge. cbn [with_fun]. destruct (fs_input h [pre; com] msg) as [i|e]; [|reflexivity].
  cbn [with_fun rbind]. destruct (compute_response s2 p3 _ a3) as [[r a4]|e]; reflexivity.
Qed.

(** * Completeness *)
Lemma accept_ro (H : bytes -> bytes) f g s sv pre r com R st h i msg :
  PreRel s pre -> ConOK s -> Pat f g s sv -> Forall (vkOK (env st)) (kinds sv) ->
  full_validate s = Ok tt -> Cons R s r -> recompute s (be_int (H i)) r = Ok com ->
  prehash_input s = Ok h -> fs_input h [pre; com] msg = Ok i ->
  exists sv', with_fun H (verify_ro sv (mkNizk (be_int (H i)) r pre (VBytes (H h))) msg st) = Ok (true, sv', st).
Proof.
  intros HP HC HPat HV V C HR Hh Hc.
  destruct (process_ok f g s sv pre st HP HC HPat HV) as (sv' & E & S).
  exists sv'. unfold verify_ro, processed. cbn [n_pre n_hash n_chal n_resp].
  assert (E0 : (if is_none pre then ret (get_verifier sv, sv) else process_pre sv (get_verifier sv) pre) st =
     Ok ((fverifier sv', sv'), st)).
  { destruct (is_none pre) eqn:EN; [|exact E]. destruct pre; try discriminate EN.
    assert (N := PreRel_none s HP). destruct (Pat_noext_Sim f g s sv N HPat) as [S0 N0].
    destruct sv; simpl in E; inversion HPat; subst; inversion N0; subst; simpl in *; unfold ret in *; congruence. }
  rewrite E0. rewrite <- (Sim_prehash f g s sv' S), Hh. cbn [with_fun]. rewrite val_eqb_refl.
  rewrite (pre_validation_ok _ f g R s sv' r S V C). rewrite <- (Sim_recompute f g s sv' _ _ S), HR, Hc. cbn [with_fun].
  now rewrite Z.eqb_refl.
Qed.
Theorem rom_complete (H : bytes -> bytes) U w s sd msg st z s' st' :
  honest U w s sd (env st) -> with_fun H (prove_ro s sd msg st) = Ok (z, s', st') -> nonneutral s' ->
  forall f g sv stv, Pat f g s sv -> Forall (vkOK (env stv)) (kinds sv) ->
  exists sv', with_fun H (verify_ro sv z msg stv) = Ok (true, sv', stv).
Proof.
  intros HH HP HN f g sv stv Pt VK. unfold prove_ro in HP. destruct (committed s sd st) as [[[[[pre com] p3] s2] st4]|] eqn:CO; [|discriminate HP].
  unfold committed in CO. apply bind_ok in CO as ([[p|] s1] & st1 & GP & CO); [|discriminate].
  apply bind_ok in CO as ([[pre' p2] s2'] & st3 & PC & CO). apply bind_ok in CO as ([com' p3'] & st5 & IC & CO). apply ret_ok in CO as [CO ->]. injection CO as -> -> -> ->.
  destruct (prehash_input s2) as [h|] eqn:Hh; [|discriminate HP]. cbn [with_fun] in HP. destruct (fs_input h [pre; com] msg) as [i|] eqn:Hi; [|discriminate HP]. cbn [with_fun] in HP.
  destruct (compute_response s2 p3 (be_int (H i)) st5) as [[r a4]|] eqn:CR; [|discriminate HP]. injection HP as <- <- <-.
  destruct (honest_ready _ _ _ _ _ _ _ _ _ _ _ _ HH GP PC) as (w' & L & HL & _ & PS & PO & RD).
  destruct (honest_done w' L s2 pre p2 None st3 com p3 st5 HL PO RD eq_refl IC) as (K & ord & D).
  destruct (respond_ok _ _ _ _ _ _ D (be_int (H i)) st5) as (r' & CR' & RC & CO).
  rewrite CR in CR'. injection CR' as <- _.
  destruct PO as (P1 & P2 & P3 & P4 & P5 & P6 & P7 & P8).
  eapply accept_ro; eauto.
  - eapply Pat_same; [symmetry; exact PS|]. exact Pt.
  - now apply VOK_valid.
Qed.

(** * Zero-knowledge *)
Lemma sample_ask {R} b (k : bytes -> prog R) m t : sample (Ask b k) m t = match reply m t b with Some (y, m, t) => sample (k y) m t | None => None end.
Proof. cbn [sample]. unfold reply. destruct (look m b); [reflexivity|]. destruct t; reflexivity. Qed.
Lemma strip_prehash s s' : strip s = strip s' -> prehash_input s = prehash_input s'.
Proof. intros E. unfold prehash_input. now rewrite (strip_id s s' E). Qed.
Lemma look_cons m b y b' : look ((b, y) :: m) b' = if bytes_eqb b b' then Some y else look m b'.
Proof. unfold look. cbn [find fst]. destruct (bytes_eqb b b'); reflexivity. Qed.

(** the challenge that the simulator takes *)
Definition taken (m : memo) (t : list bytes) (s : stmt) : Z :=
  match prehash_input s with
  | Ok h => match reply m t h with Some (_, _, y :: _) => be_int y | _ => 0 end
  | Err _ => 0
  end.
Definition run_with (op : M (val * prover * stmt)) (C : stmt -> Z) : M (val * val * val * res bytes) :=
  let! (pre, p, s) := op in let! cp := internal_commit s p None in let! r := compute_response s (snd cp) (C s) in ret (pre, fst cp, r, prehash_input s).
Definition sim_with (pr : M stmt) (vs : val -> val) (C : stmt -> Z) : M (val * val * val * res bytes) :=
  let! s := pr in let! x := simulate_proof s None (Some (C s)) in ret (vs (t_pre x), t_com x, t_resp x, prehash_input s).

Section D.
Context {R : Type} (D : res nizk -> prog R) (m : memo) (t0 : list bytes) (msg : bytes).
(** after commitment and precommitment, with [rc] the response to a challenge *)
Definition rest (pre com : val) (ph : res bytes) (rc : Z -> option val) : option (R * memo) :=
  match ph with
  | Err e => sample (D (Err e)) m t0
  | Ok h => match reply m t0 h with None => None | Some (y, m1, t1) =>
      match fs_input h [pre; com] msg with
      | Err e => sample (D (Err e)) m1 t1
      | Ok i => match reply m1 t1 i with None => None | Some (y', m2, t2) =>
          match rc (be_int y') with Some r => sample (D (Ok (mkNizk (be_int y') r pre (VBytes y)))) m2 t2 | None => None end end
      end end
  end.
Lemma real_form s sd e t : (forall c, exists pre com r a, outcome (run_with (opened s sd) (fun _ => c)) e t = Ok (pre, com, r, a)) ->
  forall C pre com r ph, outcome (run_with (opened s sd) C) e t = Ok (pre, com, r, ph) ->
  real s sd msg D m t0 (mkSt e t 0) = rest pre com ph (fun c => match outcome (run_with (opened s sd) (fun _ => c)) e t with Ok (_, _, r, _) => Some r | Err _ => None end).
Proof.
  intros RU C pre com r ph H. unfold outcome in *. unfold run_with, opened in *.
  unfold real, prove_ro, committed. 
  unfold bind in *. destruct (get_prover s sd (mkSt e t 0)) as [[[[p|] s1] a1]|] eqn:GP; [| |]; cbn [fst snd] in *; try discriminate H.
  destruct (precommit s1 p a1) as [[[[pre' p2] s2] a2]|] eqn:PC; cbn [fst snd] in *; try discriminate H.
  destruct (internal_commit s2 p2 None a2) as [[[com' p3] a3]|] eqn:IC; cbn [fst snd] in *; try discriminate H.
  unfold ret in *. destruct (compute_response s2 p3 (C s2) a3) as [[r' a4]|] eqn:CR; [|discriminate H]. injection H as -> -> -> <-.
  unfold rest. destruct (prehash_input s2) as [h|]; [|reflexivity]. cbn [pbind]. rewrite sample_ask. destruct (reply m t0 h) as [[[y m1] t1]|]; [|reflexivity].
  destruct (fs_input h [pre; com] msg) as [i|]; [|reflexivity]. cbn [pbind]. rewrite sample_ask. destruct (reply m1 t1 i) as [[[y' m2] t2]|]; [|reflexivity].
  cbn [pbind]. destruct (RU (be_int y')) as (? & ? & ? & ? & X). destruct (compute_response s2 p3 (be_int y') a3) as [[r2 a5]|]; [|discriminate X]. reflexivity.
Qed.
Definition shown (x : val * val * val * res bytes) : option (res nizk * memo * list bytes * option bytes) :=
  match x with (pre, com, r, ph) =>
  match ph with
  | Err e => Some (Err e, m, t0, None)
  | Ok h => match reply m t0 h with None => None | Some (y, m1, t1) =>
      match t1 with [] => None | y' :: t2 =>
      match fs_input h [pre; com] msg with
      | Err e => Some (Err e, m1, t1, None)
      | Ok i => Some (Ok (mkNizk (be_int y') r pre (VBytes y)), (i, y') :: m1, t2, Some i)
      end end end
  end end.
Lemma simulator_form s e t x : outcome (sim_with (prepare_sim s) sent (taken m t0)) e t = Ok x -> simulator s msg m t0 (mkSt e t 0) = shown x.
Proof.
  unfold outcome, sim_with, simulator, bind, taken. destruct (prepare_sim s (mkSt e t 0)) as [[s1 a1]|]; [|discriminate].
  destruct (prehash_input s1) as [h|] eqn:PH.
  - destruct (reply m t0 h) as [[[y m1] [|y' t1]]|] eqn:RP.
    + destruct (simulate_proof s1 None (Some 0) a1) as [[tr a2]|]; [|discriminate]. intros [= <-]. cbn [shown]. now rewrite RP.
    + destruct (simulate_proof s1 None (Some (be_int y')) a1) as [[tr a2]|]; [|discriminate]. intros [= <-]. cbn [shown]. rewrite RP. reflexivity.
    + destruct (simulate_proof s1 None (Some 0) a1) as [[tr a2]|]; [|discriminate]. intros [= <-]. cbn [shown]. now rewrite RP.
  - destruct (simulate_proof s1 None (Some 0) a1) as [[tr a2]|]; [|discriminate]. intros [= <-]. reflexivity.
Qed.
End D.

(** the question for the challenge is not the question for the digest *)
Lemma encode_nonempty v : encode v <> Ok [].
Proof. intros H. destruct (pack_frame v VNone [] [byte_of 192] [byte_of 192] [] H eq_refl eq_refl) as [_ X]. discriminate X. Qed.
Lemma input_new h pre com msg i : framed com -> fs_input h [pre; com] msg = Ok i -> bytes_eqb h i = false.
Proof.
  intros F H. destruct (bytes_eqb h i) eqn:E; [|reflexivity]. exfalso. apply bytes_eqb_eq in E. subst i. unfold fs_input in H. cbn [rmap] in H.
  rewrite (fs_arg_framed com F) in H. destruct (fs_arg pre) as [a|]; [|discriminate]. cbn [rbind] in H. destruct (encode com) as [b|] eqn:E; [|discriminate].
  cbn [rbind] in H. injection H as H. apply (f_equal (@List.length _)) in H. cbn [List.concat] in H. rewrite !app_length in H.
  destruct b; [now apply (encode_nonempty com)|]. simpl in H. lia.
Qed.
Lemma scom_framed K c s : framed (scom K c s).
Proof. induction s as [d|subs b IH|subs b ch IH|k b q|k b q con IH] using stmt_ind'; cbn; auto. Qed.

(** commitments with different numbers *)
Lemma lincomb_moved g (K K' : bytes -> Z) x ss bs : in_group g bs -> List.length ss = List.length bs ->
  (forall y, In y ss -> sname y <> sname x -> K (sname y) = K' (sname y)) ->
  lincomb g (map (fun y => K (sname y)) ss) bs = lincomb g (map (fun y => K' (sname y)) ss) bs ->
  pmul (K (sname x) - K' (sname x)) (lincomb g (map (fun y => if bytes_eqb (sname y) (sname x) then 1 else 0) ss) bs) = inf g.
Proof.
  intros G L A E. apply lincomb_diff in E; rewrite ?map_length; auto. rewrite <- E, <- lincomb_scale by auto. f_equal. clear E G L bs.
  unfold zdiff. induction ss as [|y ss IH]; [reflexivity|]. cbn [map combine fst snd]. f_equal; [|apply IH; intros; apply A; simpl; auto].
  destruct (bytes_eqb (sname y) (sname x)) eqn:B; [apply bytes_eqb_eq in B; rewrite B; lia|]. rewrite (A y); [lia|now left|].
  intros X. rewrite X, bytes_eqb_refl in B. discriminate.
Qed.
(** representations in a conjunction, also in what a primitive has constructed *)
Inductive inner : stmt -> list nat -> dlrep -> Prop :=
| InHere d : inner (SDL d) [] d
| InAnd subs b i s path d : nth_error subs i = Some s -> inner s path d -> inner (SAnd subs b) (i :: path) d
| InExt k b q con path d : inner con path d -> inner (SExt k b q (Some con)) path d.
Lemma conjunct_inner s path d : conjunct s path d -> inner s path d.
Proof. induction 1; econstructor; eauto. Qed.
Lemma inner_alike K K' c s path d : inner s path d -> wire_alike (scom K c s) (scom K' c s) -> wire_alike (scom K c (SDL d)) (scom K' c (SDL d)).
Proof.
  induction 1 as [|subs b i s path d N C IH|]; [auto| |auto]. intros A. apply IH. cbn [scom] in A. inversion A as [| | | | |v w l m V1 V2 F|]; subst.
  destruct V1 as [V1|V1], V2 as [V2|V2]; try discriminate. injection V1 as <-. injection V2 as <-.
  clear A IH C path d. revert i N. induction subs as [|a subs IHs]; intros [|i] N; try discriminate; inversion F; subst.
  - injection N as ->. assumption.
  - eapply IHs; eauto.
Qed.
Lemma inner_ready w ord s path d : inner s path d -> forall p, Ready w s p -> ordOK ord s -> leafok w ord d.
Proof.
  induction 1 as [|subs b i s path d N C IH|k b q con path d C IH]; intros p R O.
  - inversion R; subst. eapply dl_leafok; eauto.
  - inversion R as [|? ? ps F| |]; subst. inversion O as [|? ? FO| |]; subst.
    destruct (Forall2_in_l_ex _ _ _ F s ltac:(eapply nth_error_In; eauto)) as (p & _ & Rp). apply (IH p Rp).
    rewrite Forall_forall in FO. apply FO. eapply nth_error_In; eauto.
  - inversion R; subst. inversion O; subst. eapply IH; eauto.
Qed.
Lemma conjunct_same s path d : conjunct s path d -> forall s', pstrip s' = pstrip s -> exists d', conjunct s' path d' /\
  dl_lhs d' = dl_lhs d /\ dl_bases d' = dl_bases d /\ dl_secs d' = dl_secs d.
Proof.
  induction 1 as [|subs b i s path d N C IH]; intros s' E.
  - destruct s' as [d'| | |]; try discriminate. injection E as E1 E2 E3. exists d'. repeat split; auto. constructor.
  - destruct s' as [|subs' b'| |]; try discriminate. injection E as E.
    assert (N' : nth_error (map pstrip subs') i = Some (pstrip s)) by (rewrite E; now apply map_nth_error).
    destruct (nth_error subs' i) as [x|] eqn:X.
    + rewrite (map_nth_error pstrip _ _ X) in N'. injection N' as N'. destruct (IH x N') as (d' & C' & R). exists d'. split; [econstructor; eauto|exact R].
    + apply nth_error_None in X. assert (nth_error (map pstrip subs') i = None) by (apply nth_error_None; now rewrite map_length). congruence.
Qed.
Lemma inner_svars s path d : inner s path d -> incl (dl_secs d) (svars s).
Proof.
  induction 1 as [|subs b i s path d N C IH|]; [apply incl_refl| |auto]. intros x Hx. cbn. apply in_concat. exists (svars s). split; [apply in_map; eapply nth_error_In; eauto|auto].
Qed.
Lemma spans_same d d' x : dl_lhs d' = dl_lhs d -> dl_bases d' = dl_bases d -> dl_secs d' = dl_secs d -> spans d x -> spans d' x.
Proof. unfold spans. intros -> -> ->. auto. Qed.

(** what the primitives have constructed *)
Lemma spans_head d x b xs bs G : dl_secs d = x :: xs -> dl_bases d = b :: bs -> grp (dl_lhs d) = G -> in_group G (b :: bs) ->
  Forall (fun y => sname y <> sname x) xs -> (forall k, pmul k b = inf G -> (order G | k)) -> spans d x.
Proof.
  intros E1 E2 EG GR N O. unfold spans. rewrite E1, E2, EG. split; [now left|]. cbv zeta. cbn [map lincomb]. rewrite bytes_eqb_refl. inversion GR as [|? ? GB GR']; subst.
  rewrite lincomb_zeros; [|exact GR'|].
  - intros k H. rewrite add_inf_r' in H by (now rewrite grp_mul). rewrite mul_mul in H. apply O in H. now rewrite Z.mul_1_r in H.
  - rewrite Forall_forall in *. intros z Hz. apply in_map_iff in Hz as (y & <- & Hy). apply N in Hy. destruct (bytes_eqb (sname y) (sname x)) eqn:B; [apply bytes_eqb_eq in B; congruence|reflexivity].
Qed.
Lemma gok_in g b bs x : gok x -> e_bases x = b :: bs -> grp b = g -> in_group g (b :: bs).
Proof. intros [_ (g' & G)] E Eg. rewrite E in G. assert (X : grp b = g') by (inversion G; assumption). rewrite Eg in X. now subst g'. Qed.
Lemma spanned_inner x G s : spanned x G s -> forall st s' st', prepare_sim s st = Ok (s', st') -> exists path d, inner s' path d /\ spans d x /\ grp (dl_lhs d) = G.
Proof.
  induction 1 as [d S E|subs b s I S IH|H0 g H1 h y be bnd b q c Gg NB O|pk sig g0 g1 gs e svs r1 r2 d2 b q c G0 G1 N2 NE O|nm rows lhs terms b q c I S Gl]; intros st s' st' P.
  - cbn in P. apply ret_ok in P as [E1 E2]; subst. exists [], d. split; [constructor|auto].
  - cbn [prepare_sim] in P. apply bind_ok in P as (l & s1 & E & P). apply ret_ok in P as [E1 E2]; subst.
    apply In_nth_error in I as (i & N). destruct (mapM_at _ _ _ _ _ _ _ E N) as (a & y & a' & N' & Ey). destruct (IH _ _ _ Ey) as (path & d & J & R).
    exists (i :: path), d. split; [econstructor; eauto|exact R].
  - cbn [prepare_sim] in P. apply bind_ok in P as (p & s1 & _ & P). unfold full_construct in P. apply bind_ok in P as (c0 & s2 & C & P). apply ret_ok in P as [E1 E2]; subst s' st'.
    cbn [construct] in C. apply construct_neq_inv in C as (_ & PP & _ & K1 & _ & ->).
    eexists [0%nat], _. split; [constructor; econstructor; [reflexivity|constructor]|]. cbn [dl_lhs]. rewrite grp_inf. split; [|exact Gg].
    eapply (spans_head _ x g [be] [H0] G); try reflexivity; [cbn [dl_lhs]; now rewrite grp_inf|eapply gok_in; [exact K1|reflexivity|exact Gg]|now constructor|exact O].
  - cbn [prepare_sim] in P. apply bind_ok in P as (p & s1 & _ & P). unfold full_construct in P. apply bind_ok in P as (c0 & s2 & C & P). apply ret_ok in P as [E1 E2]; subst s' st'.
    cbn [construct] in C. apply construct_bbs_inv in C as (_ & A1 & A2 & g0' & g1' & g2 & bs' & e' & svs' & aw & gp0 & plhs & ah & g2w & gp1 & gp2 & gps & x3 & _ & _ & EB & ES & _ & _ & _ & _ & _ & _ & _ & K2 & _ & ->).
    injection EB as <- <- ->. injection ES as <- <-.
    eexists [1%nat], _. split; [constructor; econstructor; [reflexivity|constructor]|]. cbn [dl_lhs]. rewrite grp_inf. split; [|exact G0].
    eapply (spans_head _ x g1 [d2; e] [g2; pmul (-1) A1] G); try reflexivity; [cbn [dl_lhs]; now rewrite grp_inf|eapply gok_in; [exact K2|reflexivity|exact G1]|repeat (constructor; [assumption|]); constructor|exact O].
  - cbn [prepare_sim] in P. apply bind_ok in P as (p & s1 & _ & P). unfold full_construct in P. apply bind_ok in P as (c0 & s2 & C & P). apply ret_ok in P as [E1 E2]; subst s' st'.
    cbn [construct] in C. apply construct_custom_inv in C as (_ & _ & C). cbv zeta in C.
    set (dd e := mkDL lhs (map snd terms) (map fst terms) (snapshot e (map fst terms)) false).
    assert (J : In (SDL (dd (env s1))) (map (fun rw => dlx (env s1) (fst rw) (row_expr (snd rw))) rows)) by (apply in_map_iff; exists (lhs, terms); split; [reflexivity|exact I]).
    assert (SS : spans (dd (env s1)) x) by (eapply (spans_same (mkDL lhs (map snd terms) (map fst terms) [] false)); [reflexivity|reflexivity|reflexivity|exact S]).
    destruct (map _ rows) as [|d0 [|d1 l]]; [destruct J| |].
    + subst c0. destruct J as [J|[]]. subst d0. exists [], (dd (env s1)). split; [constructor; constructor|]. split; [exact SS|exact Gl].
    + destruct C as [-> _]. apply In_nth_error in J as (i & N). exists [i], (dd (env s1)). split; [constructor; econstructor; [exact N|constructor]|]. split; [exact SS|exact Gl].
Qed.
Lemma inner_strip s path d : inner s path d -> forall s', strip s = strip s' -> exists d', inner s' path d' /\
  dl_lhs d' = dl_lhs d /\ dl_bases d' = dl_bases d /\ dl_secs d' = dl_secs d.
Proof.
  induction 1 as [|subs b i s path d N C IH|k b q con path d C IH]; intros s' E.
  - destruct s' as [d'| | |? ? ? [?|]]; try discriminate. injection E as E1 E2 E3. exists d'. repeat split; auto. constructor.
  - destruct s' as [|subs' b'| |? ? ? [?|]]; try discriminate. injection E as E.
    assert (N' : nth_error (map strip subs') i = Some (strip s)) by (rewrite <- E; now apply map_nth_error).
    destruct (nth_error subs' i) as [x|] eqn:X.
    + rewrite (map_nth_error strip _ _ X) in N'. injection N' as N'. destruct (IH x (eq_sym N')) as (d' & C' & R). exists d'. split; [econstructor; eauto|exact R].
    + apply nth_error_None in X. assert (nth_error (map strip subs') i = None) by (apply nth_error_None; now rewrite map_length). congruence.
  - destruct s' as [|subs' b'| |k' b' q' [c'|]]; try discriminate. injection E as _ _ E. destruct (IH c' E) as (d' & C' & R). exists d'. split; [constructor; exact C'|exact R].
Qed.

(** at most one number for every question *)
Lemma count_known m (f : Z -> option bytes) vs : NoDup vs -> (forall v v' b, In v vs -> In v' vs -> f v = Some b -> f v' = Some b -> v = v') ->
  count (fun v => match f v with Some b => asked m b | None => false end) vs <= len m.
Proof.
  intros N I. unfold count, len. apply inj_le.
  rewrite <- (map_length fst m).
  set (l := filter _ vs).
  assert (P : forall v, In v l -> exists b, f v = Some b /\ In b (map fst m)).
  { intros v Hv. apply filter_In in Hv as [_ Hv]. destruct (f v) as [b|]; [|discriminate]. exists b. split; [reflexivity|]. unfold asked, look in Hv.
    destruct (find _ m) as [[b' y]|] eqn:F; [|discriminate]. apply find_some in F as [F1 F2]. cbn [fst] in F2. apply bytes_eqb_eq in F2. subst.
    apply in_map_iff. exists (b, y). auto. }
  assert (NL : NoDup l) by (now apply NoDup_filter).
  assert (IL : incl l vs) by (intros v Hv; now apply filter_In in Hv).
  clearbody l. generalize (map fst m) P. clear P. intros k P.
  assert (X : NoDup (map (fun v => match f v with Some b => b | None => [] end) l)).
  { induction NL as [|v l NV NL IHl]; [constructor|]. cbn [map]. constructor; [|apply IHl; [intros z Hz; apply IL; now right|intros z Hz; apply P; now right]].
    intros Q. apply in_map_iff in Q as (v' & E & Hv'). destruct (P v ltac:(now left)) as (b & E1 & _). destruct (P v' ltac:(now right)) as (b' & E2 & _).
    rewrite E1, E2 in E. subst b'. apply NV. rewrite (I v v' b); auto; apply IL; simpl; auto. }
  rewrite <- (map_length (fun v => match f v with Some b => b | None => [] end) l). apply NoDup_incl_length; [exact X|].
  intros b Hb. apply in_map_iff in Hb as (v & <- & Hv). destruct (P v Hv) as (b & -> & Hb). exact Hb.
Qed.

(** [fr]: a run of the prover that starts with [op]; [sm]: a run of the simulator that starts with [pr] *)
Lemma phase_couple op pr sn P n q to of X ord e e0 : phase P op pr sn n q to of X ord e e0 ->
  exists n q, (forall j, (j < n)%nat -> 1 < q j) /\
  forall R (D : res nizk -> prog R) m tp msg (fr : (nat -> Z) -> option (R * memo)) (sm : (nat -> Z) -> option (res nizk * memo * list bytes * option bytes)),
  (forall t, (forall c, exists pre com r a, outcome (run_with op (fun _ => c)) e t = Ok (pre, com, r, a)) ->
     forall C pre com r ph, outcome (run_with op C) e t = Ok (pre, com, r, ph) ->
     fr t = rest D m tp msg pre com ph (fun c => match outcome (run_with op (fun _ => c)) e t with Ok (_, _, r, _) => Some r | Err _ => None end)) ->
  (forall t x, outcome (sim_with pr sn (taken m tp)) e0 t = Ok x -> sm t = shown m tp msg x) ->
  let g t := match sm t with Some (z, m, t, _) => sample (D z) m t | None => None end in
  let bad t := match sm t with Some (_, _, _, Some i) => asked m i | _ => false end in
  exists to of, bijection n q to of /\
    (forall t t', congr n q t t' -> fr t = fr t') /\ (forall t t', congr n q t t' -> sm t = sm t') /\
    ((2 <= List.length tp)%nat -> forall t, bad (to t) = false -> fr t = g (to t)) /\
    forall x G, (forall s', P s' -> exists path d, inner s' path d /\ spans d x /\ grp (dl_lhs d) = G) -> distinguished G ->
    exists j, (j < n)%nat /\ q j = order G /\
      forall t vs, NoDup vs -> (forall v, In v vs -> 0 <= v < order G) -> count (fun v => bad (put t j v)) vs <= len m.
Proof.
  intros PH0. exists (n + List.length (nubn (map sname X)))%nat, (qapp n q (fun j => ord (nth j (nubn (map sname X)) []))). split.
  { destruct (phase_with (fun _ => tt) (fun _ => 0) _ _ _ _ _ _ _ _ _ _ _ _ (fun _ _ _ => eq_refl) (fun _ _ _ => eq_refl) PH0) as (_ & (? & ? & B & _) & _). exact (proj1 B). }
  intros R D m tp msg fr sm RF SF0 gi bd. unfold gi, bd. clear gi bd.
  assert (TK : forall s1 s2, strip s1 = strip s2 -> taken m tp s1 = taken m tp s2) by (intros s1 s2 E; unfold taken; now rewrite (strip_prehash s1 s2 E)).
  destruct (phase_with prehash_input (taken m tp) _ _ _ _ _ _ _ _ _ _ _ _ strip_prehash TK PH0) as (P1 & (to' & of' & B & F1 & F2 & F3) & FM).
  assert (PC : forall c, (forall t, exists pre com r a, outcome (run_with op (fun _ => c)) e t = Ok (pre, com, r, a)) /\
     let ns := nubn (map sname X) in forall t t', congr (n + List.length ns) (qapp n q (fun j => ord (nth j ns []))) t t' ->
       outcome (run_with op (fun _ => c)) e t = outcome (run_with op (fun _ => c)) e t').
  { intros c. destruct (phase_with prehash_input (fun _ => c) _ _ _ _ _ _ _ _ _ _ _ _ strip_prehash (fun _ _ _ => eq_refl) PH0) as (Q1 & (? & ? & _ & Q2 & _) & _). auto. }
  fold (run_with op (taken m tp)) in *. fold (sim_with pr sn (taken m tp)) in *.
  set (ns := nubn (map sname X)) in *. set (N := (n + List.length ns)%nat) in *. set (Q := qapp n q _) in *. cbv zeta in *.
  assert (SM : forall u, exists y, outcome (sim_with pr sn (taken m tp)) e0 u = Ok y).
  { intros u. destruct (FM u) as (? & ? & ? & ? & _ & _ & _ & _ & _ & Z). specialize (Z u (congr_refl _ _ _)). eauto. }
  assert (SI : forall u u', congr N Q u u' -> sm u = sm u').
  { intros u u' C. destruct (SM u) as (y & E). rewrite (SF0 u y E). rewrite (F2 u u' C) in E. now rewrite (SF0 u' y E). }
  exists to', of'. split; [exact B|]. split; [|split; [exact SI|split]].
  - intros t t' C. destruct (P1 t) as (pre & com & r & ph & E). destruct (P1 t') as (pre' & com' & r' & ph' & E').
    rewrite (RF t ltac:(intros c; apply PC) _ _ _ _ _ E), (RF t' ltac:(intros c; apply PC) _ _ _ _ _ E').
    rewrite (F1 t t' C), E' in E. injection E as <- <- <- <-. unfold rest. destruct ph' as [h|]; [|reflexivity]. destruct (reply m tp h) as [[[y m1] t1]|]; [|reflexivity].
    destruct (fs_input h [pre'; com'] msg) as [i|]; [|reflexivity]. destruct (reply m1 t1 i) as [[[y' m2] t2]|]; [|reflexivity].
    destruct (PC (be_int y')) as [_ G]. now rewrite (G t t' C).
  - intros LT t. destruct (P1 t) as (pre & com & r & ph & E). rewrite (RF t ltac:(intros c; apply PC) _ _ _ _ _ E).
    assert (E' := E). rewrite F3 in E'. rewrite (SF0 (to' t) _ E').
    unfold rest, shown. destruct ph as [h|]; [|reflexivity]. destruct (reply m tp h) as [[[y m1] t1]|] eqn:RH; [|reflexivity].
    assert (FR : framed com).
    { destruct (FM (to' t)) as (? & ? & ? & ? & _ & _ & _ & _ & _ & Z). specialize (Z (to' t) (congr_refl _ _ _)). cbv zeta in Z. rewrite E' in Z.
      injection Z as _ -> _ _. apply scom_framed. }
    assert (T1 : exists y' t2, t1 = y' :: t2).
    { unfold reply in RH. destruct (look m h); [injection RH as _ _ <-|destruct tp; [discriminate|injection RH as _ _ <-]].
      - destruct tp; [simpl in LT; lia|eauto].
      - destruct tp; [simpl in LT; lia|eauto]. }
    destruct T1 as (y' & t2 & ->). destruct (fs_input h [pre; com] msg) as [i|] eqn:FI; [|reflexivity].
    intros NA. unfold asked in NA. destruct (look m i) eqn:LM; [discriminate|].
    assert (LI : look m1 i = None).
    { unfold reply in RH. destruct (look m h); [injection RH as _ <- _; exact LM|]. destruct tp; [discriminate|]. injection RH as <- <- _. rewrite look_cons.
      rewrite (input_new h pre com msg i FR FI). exact LM. }
    unfold reply. rewrite LI.
    destruct (PC (be_int y')) as [_ _].
    assert (ER : outcome (run_with op (fun _ => be_int y')) e t = Ok (pre, com, r, Ok h)).
    { rewrite <- E. unfold outcome, run_with, bind. destruct (op (mkSt e t 0)) as [[[[pre' p'] s'] a']|] eqn:OP; [|reflexivity].
      destruct (internal_commit s' p' None a') as [[[c' p2] a2]|] eqn:IC; [|reflexivity]. cbn [fst snd].
      replace (taken m tp s') with (be_int y'); [reflexivity|]. unfold taken.
      unfold outcome, run_with, bind in E. rewrite OP, IC in E. cbn [fst snd] in E. destruct (compute_response _ _ _ _) as [[? ?]|] in E; [|discriminate].
      injection E as _ _ _ PH. rewrite PH, RH. reflexivity. }
    rewrite ER. reflexivity.
  - intros x g CJ DI. exists (n + npos (sname x) ns)%nat.
    assert (XX : In x X /\ ord (sname x) = order g).
    { destruct (FM (fun _ => 0)) as (pre & p & s' & w' & RD & SV & NO & OO & PS & _). destruct (CJ s' PS) as (path & d & C' & (Sx & _) & GD).
      split; [rewrite <- SV; apply (inner_svars _ _ _ C'), Sx|]. destruct (inner_ready w' ord s' path d C' p RD OO) as (_ & _ & _ & _ & L5 & _). rewrite <- GD. now apply L5. }
    destruct XX as [XX OX]. destruct (npos_in (sname x) ns) as [J1 J2]; [apply nubn_in; now apply in_map|].
    split; [unfold N; lia|]. split.
    { unfold Q, qapp. destruct (Nat.ltb_spec (n + npos (sname x) ns) n); [lia|]. replace (n + npos (sname x) ns - n)%nat with (npos (sname x) ns) by lia.
      now rewrite (nth_error_nth _ _ _ J2). }
    intros t vs ND IV. destruct (FM t) as (pre & p & s' & w' & RD & SV & NO & OO & PS & Z).
    destruct (CJ s' PS) as (path & d & C' & (Sx & Sp) & GD).
    destruct (inner_ready w' ord s' path d C' p RD OO) as (L1 & L2 & L3 & L4 & L5 & L6).
    set (KV v n' := put t (n + npos (sname x) ns) v (n + npos n' ns) mod ord n').
    assert (KX : forall v, In v vs -> KV v (sname x) = v).
    { intros v Hv. unfold KV, put. rewrite Nat.eqb_refl, OX. apply Z.mod_small. auto. }
    assert (KY : forall v v' y, In y X -> sname y <> sname x -> KV v (sname y) = KV v' (sname y)).
    { intros v v' y Hy NE. unfold KV, put. destruct (Nat.eqb_spec (n + npos (sname y) ns) (n + npos (sname x) ns)) as [E|]; [|reflexivity].
      exfalso. apply NE. destruct (npos_in (sname y) ns) as [_ J3]; [apply nubn_in; now apply in_map|]. replace (npos (sname y) ns) with (npos (sname x) ns) in J3 by lia. congruence. }
    assert (SF : forall v, outcome (sim_with pr sn (taken m tp)) e0 (put t (n + npos (sname x) ns) v) = Ok (pre, scom (KV v) (taken m tp s') s', vresp (KV v) s', prehash_input s')).
    { intros v. apply (Z (put t (n + npos (sname x) ns) v)). intros j Hj. unfold put. destruct (Nat.eqb_spec j (n + npos (sname x) ns)); [lia|]. rewrite Z.sub_diag. apply Z.divide_0_r. }
    set (f v := match shown m tp msg (pre, scom (KV v) (taken m tp s') s', vresp (KV v) s', prehash_input s') with Some (_, _, _, o) => o | None => None end).
    replace (count _ vs) with (count (fun v => match f v with Some b => asked m b | None => false end) vs).
    2:{ unfold count. f_equal. apply filter_ext. intros v. unfold f. rewrite (SF0 _ _ (SF v)). destruct (shown _ _ _ _) as [[[[? ?] ?] ?]|]; reflexivity. }
    apply count_known; [exact ND|]. intros v v' b Hv Hv' E E'.
    assert (FI : forall v, f v = Some b -> exists h, prehash_input s' = Ok h /\ fs_input h [pre; scom (KV v) (taken m tp s') s'] msg = Ok b).
    { intros v0 E0. unfold f, shown in E0. destruct (prehash_input s') as [h|]; [|discriminate]. exists h. split; [reflexivity|].
      destruct (reply m tp h) as [[[y m1] [|y' t1]]|]; try discriminate. destruct (fs_input _ _ _) as [i|]; [|discriminate]. now injection E0 as ->. }
    destruct (FI v E) as (h & PH & H1). destruct (FI v' E') as (h' & PH' & H2). rewrite PH in PH'. injection PH' as <-.
    destruct (input_same_pre s' s' h h pre _ _ msg msg b PH PH (scom_framed _ _ _) (scom_framed _ _ _) H1 H2) as (_ & A & _).
    apply (inner_alike _ _ _ _ _ _ C') in A. cbn [scom] in A. inversion A as [| |pa pb EX| | |? ? ? ? VV|]; subst; [|destruct VV; discriminate].
    cbv zeta in Sp. set (g := grp (dl_lhs d)) in *.
    assert (G : forall K, grp (lincomb g (map (fun y => K (sname y)) (dl_secs d)) (dl_bases d)) = g) by (intros K; now apply grp_lincomb).
    apply DI in EX; [|rewrite grp_add; rewrite ?grp_mul, ?G; auto|rewrite grp_add; rewrite ?grp_mul, ?G; auto].
    apply add_cancel_r in EX; rewrite ?grp_mul, ?G; auto.
    apply (lincomb_moved g (KV v) (KV v') x) in EX; auto.
    + rewrite KX, KX in EX by auto. apply Sp in EX. apply IV in Hv, Hv'. destruct EX as [k EX].
      assert (k = 0) by nia. lia.
    + intros y Hy NE. apply KY; auto. now apply (inner_svars _ _ _ C').
Qed.
Lemma rom_couple U w s sd ord e e0 : honest U w s sd e -> Shape s -> Supplied sd w e s -> Ords ord s -> conj_of (blinded w) s ->
  exists n q, (forall j, (j < n)%nat -> 1 < q j) /\
  forall R (D : res nizk -> prog R) m tp msg,
  let f t := real s sd msg D m tp (mkSt e t 0) in let g t := ideal s msg D m tp (mkSt e0 t 0) in let bad t := reused s msg m tp (mkSt e0 t 0) in
  exists to of, bijection n q to of /\
    (forall t t', congr n q t t' -> f t = f t') /\
    (forall t t', congr n q t t' -> simulator s msg m tp (mkSt e0 t 0) = simulator s msg m tp (mkSt e0 t' 0)) /\
    ((2 <= List.length tp)%nat -> forall t, bad (to t) = false -> f t = g (to t)) /\
    forall x G, spanned x G s -> distinguished G ->
    exists j, (j < n)%nat /\ q j = order G /\
      forall t vs, NoDup vs -> (forall v, In v vs -> 0 <= v < order G) -> count (fun v => bad (put t j v)) vs <= len m.
Proof.
  intros HH HS SU HO HC. destruct (whole_phase U w s sd ord e e0 HH HS SU HO HC) as (n & q & to & of & X & P).
  assert (P' : phase (fun s2 => exists u s' u', prepare_sim s u = Ok (s', u') /\ strip s' = strip s2) (opened s sd) (prepare_sim s) sent n q to of X ord e e0).
  { destruct P as [B P]. split; [exact B|]. intros t. destruct (P t) as (pre & p & s2 & e2 & w2 & L & R1 & R2 & R3 & R4 & R5 & R6 & R7 & R8 & R9 & R10 & R11 & _ & R12).
    exists pre, p, s2, e2, w2, L. repeat (split; [assumption|]). split; [|exact R12]. destruct (R12 (to t) (congr_refl _ _ _)) as (s' & E & St). eauto. }
  destruct (phase_couple (opened s sd) (prepare_sim s) sent _ n q to of X ord e e0 P') as (n' & q' & Q1 & PC). exists n', q'. split; [exact Q1|].
  intros R D m tp msg f g bad.
  destruct (PC R D m tp msg f (fun t => simulator s msg m tp (mkSt e0 t 0))) as (to' & of' & B & F1 & F2 & F4 & F5).
  - intros t. apply real_form.
  - intros t x. apply simulator_form.
  - exists to', of'. do 4 (split; [assumption|]). intros x G SP DI. apply (F5 x G); [|exact DI].
    intros s2 (u & s' & u' & E & St). destruct (spanned_inner x G s SP _ _ _ E) as (path & d & I & Sd & GD).
    destruct (inner_strip _ _ _ I s2 St) as (d' & C' & D1 & D2 & D3). exists path, d'. split; [exact C'|]. split; [eapply spans_same; eauto|now rewrite D1].
Qed.
Lemma rom_zk_at U w s sd ord e e0 x G : honest U w s sd e -> Shape s -> Supplied sd w e s -> Ords ord s -> conj_of (blinded w) s ->
  spanned x G s -> distinguished G ->
  exists n q, forall R (D : res nizk -> prog R) m tp msg,
  (forall t t', congr n q t t' -> real s sd msg D m tp (mkSt e t 0) = real s sd msg D m tp (mkSt e t' 0)) /\
  (forall t t', congr n q t t' -> simulator s msg m tp (mkSt e0 t 0) = simulator s msg m tp (mkSt e0 t' 0)) /\
  ((2 <= List.length tp)%nat -> until_at n q (len m) (order G) (fun t => real s sd msg D m tp (mkSt e t 0)) (fun t => ideal s msg D m tp (mkSt e0 t 0))
    (fun t => reused s msg m tp (mkSt e0 t 0))).
Proof.
  intros HH HS SU HO HC SP DI. destruct (rom_couple U w s sd ord e e0 HH HS SU HO HC) as (n & q & _ & RC). exists n, q. intros R D m tp msg.
  destruct (RC R D m tp msg) as (to & of & B & F1 & F2 & F4 & F5). split; [exact F1|]. split; [exact F2|]. intros LT.
  exists to, of. split; [exact B|]. split; [exact F1|]. split; [intros t t' C; unfold ideal; now rewrite (F2 t t' C)|].
  split; [intros t t' C; unfold reused; now rewrite (F2 t t' C)|]. split; [exact (F4 LT)|]. exact (F5 x G SP DI).
Qed.
Theorem rom_zk {R} (D : res nizk -> prog R) m tp msg U w s sd ord e e0 x G :
  honest U w s sd e -> Shape s -> Supplied sd w e s -> Ords ord s -> conj_of (blinded w) s ->
  (2 <= List.length tp)%nat -> spanned x G s -> distinguished G ->
  until (len m) (order G) (fun t => real s sd msg D m tp (mkSt e t 0)) (fun t => ideal s msg D m tp (mkSt e0 t 0))
    (fun t => reused s msg m tp (mkSt e0 t 0)).
Proof.
  intros HH HS SU HO HC LT SP DI. destruct (rom_zk_at U w s sd ord e e0 x G HH HS SU HO HC SP DI) as (n & q & H).
  exists n, q. exact (proj2 (proj2 (H R D m tp msg)) LT).
Qed.
Theorem rom_zk_first {R} (D : res nizk -> prog R) tp msg U w s sd ord e e0 :
  honest U w s sd e -> Shape s -> Supplied sd w e s -> Ords ord s -> conj_of (blinded w) s -> (2 <= List.length tp)%nat ->
  same_distribution (fun t => real s sd msg D [] tp (mkSt e t 0)) (fun t => ideal s msg D [] tp (mkSt e0 t 0)).
Proof.
  intros HH HS SU HO HC LT. destruct (rom_couple U w s sd ord e e0 HH HS SU HO HC) as (n & q & _ & RC).
  destruct (RC R D [] tp msg) as (to & of & (B1 & B2 & B3 & B4 & B5) & F1 & F2 & F4 & _).
  exists n, q, to, of. split; [assumption|]. split; [assumption|]. split; [intros t t' C; unfold ideal; now rewrite (F2 t t' C)|].
  repeat (split; [assumption|]). intros t. apply (F4 LT). unfold reused. destruct (simulator _ _ _ _ _) as [[[[? ?] ?] [i|]]|]; reflexivity.
Qed.
End O.

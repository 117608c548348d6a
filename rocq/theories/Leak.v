(** Which branch an or-prover works on, and how the published sub-challenges show it. *)
From Coq Require Import String Znumtheory.
From Verif Require Import Base World Val Expr Utils Stmt Prove Verify Spec Shapes Claims Clauses Extract Lib DictProofs Keeps Tree
  Sigma ArithProofs Build Process Ktruth Provers Supply Total Total4 RangeC Runs.
Open Scope Z_scope.
Open Scope list_scope.

Section L.
Context {W : World}.

Definition chal_ok (t : sim) : Prop := 0 <= t_chal t < 2 ^ challenge_length.

Lemma random_range st c st' : get_random_num challenge_length st = Ok (c, st') -> 0 <= c < 2 ^ challenge_length.
Proof. intros H. unfold get_random_num, draw in H. injection H as <- _. apply Z.mod_pos_bound. reflexivity. Qed.
Lemma sim_chal_range s : forall rd st t st', simulate_proof s rd None st = Ok (t, st') -> chal_ok t.
Proof.
  unfold chal_ok. induction s as [d|subs b IH|subs b ch IH|k b q|k b q con IH] using stmt_ind'; intros rd st t st' H.
  - simpl in H. unfold simulate_dl in H. minv H. apply random_range in E0; exact E0.
  - simpl in H. minv H. apply random_range in E0; exact E0.
  - rewrite simulate_or in H. minv H. apply random_range in E; exact E.
  - discriminate.
  - simpl in H. minv H. apply IH in E. exact E.
Qed.

Lemma setup_sims idx l : forall i st l' ts st', setup_loop idx i l st = Ok ((l', ts), st') ->
  Forall chal_ok ts /\ ((i <= idx < i + List.length l)%nat -> S (List.length ts) = List.length l) /\
  ((idx < i)%nat -> List.length ts = List.length l).
Proof.
  induction l as [|x l IH]; intros i st l' ts st' H; simpl in H.
  - minv H. injection H as <- <-. simpl. split; [constructor|]. split; intros; lia.
  - destruct (Nat.eqb i idx) eqn:E.
    + apply Nat.eqb_eq in E. subst. apply bind_ok in H as ([l1 t1] & s1 & E & H). apply ret_ok in H as [H _].
      injection H as <- <-. apply IH in E as (A & B & C). simpl. split; auto. split; intros; [|lia]. rewrite C by lia. auto.
    + apply Nat.eqb_neq in E. apply bind_ok in H as (x' & s1 & E1 & H). apply bind_ok in H as (t & s2 & E2 & H).
      apply bind_ok in H as ([l1 t1] & s3 & E3 & H). apply ret_ok in H as [H _]. injection H as <- <-.
      apply IH in E3 as (A & B & C). apply sim_chal_range in E2. simpl. split; [constructor; auto|].
      split; intros; [rewrite B by lia; auto|rewrite C by lia; auto].
Qed.

(** the choice loop *)
Lemma or_loop_inv {A} (gps : list (M (option A * stmt))) : forall fuel possible cur st r cur' st',
  or_loop fuel gps possible cur st = Ok ((r, cur'), st') -> (List.length possible <= fuel)%nat ->
  match r with
  | Some (i, p) => In i possible /\ exists m a s' b, nth_error gps i = Some m /\ m a = Ok ((Some p, s'), b)
  | None => forall i, In i possible -> exists m a s' b, nth_error gps i = Some m /\ m a = Ok ((None, s'), b)
  end.
Proof.
  induction fuel as [|fuel IH]; intros possible cur st r cur' st' H LF.
  - simpl in H. minv H. injection H as <- <-. destruct possible; [intros i []|simpl in LF; lia].
  - cbn [or_loop] in H. apply bind_ok in H as (n & s1 & _ & H).
    destruct (nth_error possible (Z.to_nat n)) as [i|] eqn:Ni; [|discriminate].
    destruct (nth_error gps i) as [m|] eqn:Nm; [|discriminate].
    apply bind_ok in H as ([o s'] & s2 & Em & H). cbn [fst snd] in H. destruct o as [p|].
    + minv H. injection H as <- <-. split; [eapply nth_error_In; eauto|eauto 6].
    + assert (Hi := nth_error_In _ _ Ni).
      destruct (remove Nat.eq_dec i possible) as [|i1 rest] eqn:ER; cbn [empty_dict] in H.
      * minv H. injection H as <- <-. intros j Hj. destruct (Nat.eq_dec i j) as [<-|N]; [eauto 6|].
        assert (K : In j (remove Nat.eq_dec i possible)) by (apply in_in_remove; auto). rewrite ER in K. destruct K.
      * rewrite <- ER in H. apply IH in H.
        2:{ assert (X := remove_length_lt _ _ Hi). lia. }
        destruct r as [[j p]|].
        -- destruct H as [Hj H]. apply in_remove in Hj as [Hj _]. auto.
        -- intros j Hj. destruct (Nat.eq_dec i j) as [<-|N]; [eauto 6|]. apply H. apply in_in_remove; auto.
Qed.

(** The branch chosen. *)
Lemma get_prover_or_inv subs b ch sd st o s' st' : get_prover (SOr subs b ch) sd st = Ok ((o, s'), st') ->
  match o with
  | Some p => b = false /\ exists i q sims subs' x x' sta stb, p = POr i q sims /\ s' = SOr subs' b (Some i) /\
      nth_error subs i = Some x /\ simulated x = false /\ get_prover x sd sta = Ok ((Some q, x'), stb) /\
      Forall chal_ok sims /\ S (List.length sims) = List.length subs
  | None => b = true \/ forall x, In x subs -> simulated x = false ->
      exists sta x' stb, get_prover x sd sta = Ok ((None, x'), stb)
  end.
Proof.
  intros H. cbn [get_prover] in H. apply bind_ok in H as ([] & st1 & _ & H).
  destruct b; [minv H; injection H as <- <-; now left|].
  cbv zeta in H. destruct (empty_dict _) eqn:EC.
  - minv H. injection H as <- <-. right. intros x Hx Sx. apply In_nth_error in Hx as (i & Hi).
    assert (K := proj2 (cands_in subs i) (ex_intro _ x (conj Hi Sx))).
    destruct (map fst _); [destruct K|discriminate].
  - apply bind_ok in H as ([r cur] & st2 & E & H). cbn [fst snd] in H.
    assert (PS : List.length cur = List.length subs).
    { apply or_loop_pstrip with (subs := subs) in E; auto; [|intros; eapply get_prover_pstrip; eauto].
      apply (f_equal (@List.length _)) in E. now rewrite !map_length in E. }
    apply or_loop_inv in E; auto. destruct r as [[i q]|].
    + destruct E as (Hi & m & a & x' & b & Nm & Em). apply cands_in in Hi as (x & Nx & Sx).
      rewrite nth_error_map, Nx in Nm. injection Nm as <-.
      apply bind_ok in H as ([subs' sims] & st3 & ES & H). minv H. injection H as <- <-. split; auto.
      rewrite setup_simulations_eq in ES. apply setup_sims in ES as (F & L & _).
      exists i, q, sims, subs', x, x', a, b. repeat (split; auto). rewrite <- PS. apply L.
      assert (nth_error subs i <> None) by congruence. apply nth_error_Some in H. lia.
    + minv H. injection H as <- <-. right. intros x Hx Sx. apply In_nth_error in Hx as (i & Ni).
      destruct (E i) as (m & a & s' & b & Nm & Em); [apply cands_in; eauto|].
      rewrite nth_error_map, Ni in Nm. injection Nm as <-. eauto.
Qed.

(** ** What the answer of an or-prover shows *)
Fixpoint first_neg (l : list val) : option nat :=
  match l with
  | [] => None
  | VInt z :: l => if z <? 0 then Some O else option_map S (first_neg l)
  | _ :: l => option_map S (first_neg l)
  end.
Definition neg_branch (r : val) : option nat :=
  match r with VTuple [VList l; _] => first_neg l | _ => None end.

Definition OrAt (i : nat) (p : prover) : Prop :=
  exists q sims, p = POr i q sims /\ Forall chal_ok sims /\ (i <= List.length sims)%nat.
(** the sub-challenge of branch [i] is published as zero *)

Lemma first_neg_insert i c l : Forall (fun z => 0 <= z) l -> (i <= List.length l)%nat -> c < 0 ->
  first_neg (map VInt (insert_at i c l)) = Some i.
Proof.
  intros F. revert l F. induction i as [|i IH]; intros l F L Hc.
  - unfold insert_at. simpl. destruct (Z.ltb_spec c 0); [auto|lia].
  - destruct l as [|z l]; [simpl in L; lia|]. inversion F; subst.
    change (insert_at (S i) c (z :: l)) with (z :: insert_at i c l). cbn [map first_neg].
    destruct (Z.ltb_spec z 0); [lia|]. rewrite IH; auto. simpl in L. lia.
Qed.
Lemma insert_nth {A} i (x : A) l : (i <= List.length l)%nat -> nth_error (insert_at i x l) i = Some x.
Proof.
  intros L. unfold insert_at. rewrite nth_error_app2; rewrite firstn_length; [|lia]. now rewrite Nat.min_l, Nat.sub_diag by lia.
Qed.

Lemma or_answer subs b ch p i c st r st' : OrAt i p -> compute_response (SOr subs b ch) p c st = Ok (r, st') ->
  neg_branch r = Some i \/ zero_at r i.
Proof.
  intros (q & sims & -> & F & L) H. rewrite compute_response_or in H. cbv zeta in H.
  apply bind_ok in H as (a & s1 & _ & H). minv H.
  set (rc := find_residual (map t_chal sims) c challenge_length).
  assert (rc <= 0).
  { unfold rc. rewrite find_residual_mod by (unfold challenge_length; lia).
    assert (0 <= (zsum (map t_chal sims) - c) mod 2 ^ challenge_length) by (apply Z.mod_pos_bound; reflexivity). lia. }
  destruct (Z.eq_dec rc 0) as [E|N].
  - right. exists (VList (map VInt (insert_at i rc (map t_chal sims)))). split; auto. simpl.
    rewrite nth_error_map, insert_nth by (rewrite map_length; auto). simpl. now rewrite E.
  - left. simpl. apply first_neg_insert; [|now rewrite map_length|lia].
    apply Forall_map. eapply Forall_impl; [|exact F]. intros t [A _]. exact A.
Qed.
Lemma or_precommit_at subs b ch p i st pre p' s' st' : OrAt i p ->
  precommit (SOr subs b ch) p st = Ok ((pre, p', s'), st') -> OrAt i p' /\ exists subs', s' = SOr subs' b ch.
Proof.
  intros (q & sims & -> & F & L) H. rewrite precommit_or in H. apply bind_ok in H as ([[v q'] l] & s1 & _ & H). cbv zeta in H.
  minv H. injection H as <- <- <-. split; [exists q', sims; auto|eauto].
Qed.
Lemma or_commit_at subs b ch p i rd st com p' st' : OrAt i p ->
  internal_commit (SOr subs b ch) p rd st = Ok ((com, p'), st') -> OrAt i p'.
Proof.
  intros (q & sims & -> & F & L) H. rewrite internal_commit_or in H. minv H. injection H as <- <-. exists (snd a1), sims. auto.
Qed.

Lemma branch_revealed : exists guess : val -> option nat, forall subs b ch sd msg st z s' st',
  prove (SOr subs b ch) sd msg st = Ok ((z, s'), st') ->
  exists subs' i x, s' = SOr subs' false (Some i) /\ nth_error subs i = Some x /\ simulated x = false /\
    (guess (n_resp z) = Some i \/ zero_at (n_resp z) i).
Proof.
  exists neg_branch. intros subs b ch sd msg st z s' st' H. unfold prove in H.
  apply bind_ok in H as ([[p|] s1] & st1 & GP & H); [|discriminate].
  apply bind_ok in H as ([[z0 p0] s0] & st2 & GN & H). apply ret_ok in H as [H _]. injection H as <- <-.
  apply get_prover_or_inv in GP as (-> & i & q & sims & subs' & x & x' & sta & stb & -> & -> & Nx & Sx & _ & F & L).
  assert (P0 : OrAt i (POr i q sims)).
  { exists q, sims. repeat split; auto. assert (nth_error subs i <> None) as K by congruence. apply nth_error_Some in K. lia. }
  unfold get_nizk_proof in GN. apply bind_ok in GN as ([[pre p1] s1] & st3 & PC & GN).
  apply (or_precommit_at _ _ _ _ i) in PC as (P1 & subs1 & ->); auto.
  apply bind_ok in GN as ([com p2] & st4 & IC & GN). apply (or_commit_at _ _ _ _ i) in IC; auto.
  minv GN. minvs. exists subs1, i, x. repeat (split; auto). simpl.
  exact (or_answer _ _ _ _ _ _ _ _ _ IC E1).
Qed.

(** ** Range proofs: every bit *)
Definition bit_of (o : option nat) : Z := match o with Some n => Z.of_nat n | None => 0 end.
Definition read_bits (r : val) : Z :=
  match r with VList l => binval (map (fun x => bit_of (neg_branch x)) l) | _ => 0 end.
(** some sub-challenge is published as zero *)

Lemma bit_prover e h C C1 r b sd st p s' st' : b = 0 \/ b = 1 ->
  get_prover (bitx e h C C1 r (Some b)) sd st = Ok ((Some p, s'), st') ->
  OrAt (Z.to_nat b) p /\ exists subs ch, s' = SOr subs false ch.
Proof.
  intros B H. apply get_prover_or_inv in H as (_ & i & q & sims & subs' & x & x' & sta & stb & -> & -> & Nx & Sx & _ & F & L).
  simpl in L. assert (i = Z.to_nat b) as ->.
  { destruct i as [|[|i]]; simpl in Nx; [| |destruct i; discriminate]; injection Nx as <-; simpl in Sx;
      apply Z.eqb_neq in Sx; destruct B; subst; auto; lia. }
  split; [|eauto]. exists q, sims. repeat split; auto. destruct B; subst; simpl; lia.
Qed.

Inductive Tr : list Z -> list stmt -> list prover -> Prop :=
| Tr_nil : Tr [] [] []
| Tr_cons b subs ch p bs ss ps : OrAt (Z.to_nat b) p -> Tr bs ss ps -> Tr (b :: bs) (SOr subs false ch :: ss) (p :: ps).

Definition provs {A} (l : list (option prover * A)) : list prover :=
  flat_map (fun r => match fst r with Some p => [p] | None => [] end) l.

Lemma bits_provers bits : Forall (fun b => b = 0 \/ b = 1) bits -> forall subs sd st l st',
  Forall2 (fun b s => exists e h C C1 r, s = bitx e h C C1 r (Some b)) bits subs ->
  mapM (fun s => get_prover s sd) subs st = Ok (l, st') -> forallb (fun r => is_some (fst r)) l = true ->
  Tr bits (map snd l) (provs l).
Proof.
  induction 1 as [|b bits B BB IH]; intros subs sd st l st' F H FL; inversion F; subst.
  - simpl in H. minvs. constructor.
  - destruct H2 as (e & h & C & C1 & r & ->). cbn [mapM] in H.
    apply bind_ok in H as ([o s'] & s1 & E1 & H). apply bind_ok in H as (l1 & s2 & E2 & H). apply ret_ok in H as [<- _].
    cbn [forallb fst] in FL. apply andb_true_iff in FL as [FO FL]. destruct o as [p|]; [|discriminate].
    apply bit_prover in E1 as (P & subs & ch & ->); auto. simpl. constructor; auto. eapply IH; eauto.
Qed.
Lemma bits_commit bs ss ps rd : Tr bs ss ps -> forall st l st',
  zipM (fun s p => internal_commit s p rd) ss ps st = Ok (l, st') -> Tr bs ss (map snd l).
Proof.
  induction 1 as [|b subs ch p bs ss ps P T IH]; intros st l st' H; cbn [zipM] in H.
  - minvs. constructor.
  - apply bind_ok in H as ([c p'] & s1 & E1 & H). apply bind_ok in H as (l1 & s2 & E2 & H). apply ret_ok in H as [<- _].
    simpl. constructor; eauto. eapply or_commit_at; eauto.
Qed.
Lemma bits_respond bs ss ps c : Tr bs ss ps -> forall st l st',
  zipM (fun s p => compute_response s p c) ss ps st = Ok (l, st') ->
  Forall2 (fun b r => neg_branch r = Some (Z.to_nat b) \/ zero_at r (Z.to_nat b)) bs l.
Proof.
  induction 1 as [|b subs ch p bs ss ps P T IH]; intros st l st' H; cbn [zipM] in H.
  - minvs. constructor.
  - apply bind_ok in H as (r & s1 & E1 & H). apply bind_ok in H as (l1 & s2 & E2 & H). apply ret_ok in H as [<- _].
    constructor; eauto. eapply or_answer; eauto.
Qed.

Lemma read_bits_ok bits rs : Forall (fun b => b = 0 \/ b = 1) bits ->
  Forall2 (fun b r => neg_branch r = Some (Z.to_nat b) \/ zero_at r (Z.to_nat b)) bits rs ->
  read_bits (VList rs) = binval bits \/ zero_somewhere (VList rs).
Proof.
  intros B F. unfold read_bits, zero_somewhere. induction F as [|b r bits rs H F IH]; [left; reflexivity|].
  inversion B; subst. destruct H as [H|H].
  - destruct IH as [IH|(j & k & rj & IH & Z0)]; auto.
    + left. cbn [map]. rewrite H. simpl. fold (binval bits). unfold binval in IH. unfold binval. rewrite IH.
      rewrite Z2Nat.id by lia. reflexivity.
    + right. exists (S j), k, rj. auto.
  - right. exists 0%nat, (Z.to_nat b), r. auto.
Qed.

Lemma set_values_keep rs q i : ~ In i (map sid rs) -> forall st a st',
  mapM (fun r => let! v := draw q in set_value (sid r) v) rs st = Ok (a, st') -> env st' i = env st i.
Proof.
  induction rs as [|r rs IH]; intros NI st a st' H; simpl in H.
  - minv H. auto.
  - apply bind_ok in H as (u & s1 & E & H). apply bind_ok in H as (us & s2 & E2 & H). minv H.
    apply bind_ok in E as (v & s3 & E & E3). unfold draw in E. injection E as <- <-. unfold set_value in E3. injection E3 as <- <-.
    rewrite (IH (fun X => NI (or_intror X)) _ _ _ E2). simpl. unfold upd. destruct (Nat.eqb_spec i (sid r)); auto. subst. destruct NI. now left.
Qed.

Lemma range_pre_env com g h n isp x r rs st pre st' : ~ In (sid x) (map sid rs) ->
  kprecommit (KRange com g h n isp x r rs) st = Ok (pre, st') -> isp = true /\ env st' (sid x) = env st (sid x).
Proof.
  intros NX H. cbn [kprecommit] in H. destruct isp; [|discriminate]. split; auto.
  apply bind_ok in H as (v & s1 & E & H). unfold value_of in E. apply bind_ok in E as (e & s2 & E & E'). unfold get_env in E.
  injection E as <- <-. destruct (env st (sid x)) eqn:Ex; [|discriminate]. apply ret_ok in E' as [_ <-].
  apply bind_ok in H as (bits & s9 & E & H). apply lift_ok in E as [_ ->].
  cbv zeta in H. apply bind_ok in H as (u & s3 & E & H). apply set_values_keep with (i := sid x) in E; auto.
  rewrite <- Ex, <- E. clear E.
  apply bind_ok in H as (rv & s4 & E & H).
  assert (K : s4 = s3).
  { assert (Q : forall l a b c, mapM value_of l a = Ok (b, c) -> c = a).
    { induction l as [|y l IH]; intros a b c Q; cbn [mapM] in Q; [minvs; auto|].
      apply bind_ok in Q as (v1 & a1 & Q1 & Q). unfold value_of in Q1. apply bind_ok in Q1 as (e & a2 & Q2 & Q1).
      unfold get_env in Q2. injection Q2 as <- <-. destruct (env a (sid y)); [|discriminate]. apply ret_ok in Q1 as [_ <-].
      apply bind_ok in Q as (vs & a3 & Q2 & Q). apply ret_ok in Q as [_ <-]. eauto. }
    eauto. }
  subst s4. apply bind_ok in H as (cs & s4 & E2 & H). apply lift_ok in E2 as [_ ->].
  apply bind_ok in H as (r0 & s4 & E2 & H). unfold value_of in E2. apply bind_ok in E2 as (e & a2 & Q2 & Q1).
  unfold get_env in Q2. injection Q2 as <- <-. destruct (env s3 (sid r)); [|discriminate]. apply ret_ok in Q1 as [_ <-].
  apply ret_ok in H as [_ <-]. auto.
Qed.

Lemma range_leak : exists read : val -> Z, forall com g h n isp x r rs sim pre0 con sd msg st z s' st',
  List.length rs = n -> ~ In (sid x) (map sid rs) ->
  prove (SExt (KRange com g h n isp x r rs) sim pre0 con) sd msg st = Ok ((z, s'), st') ->
  exists v st1, update_secret_values sd st = Ok (tt, st1) /\ env st1 (sid x) = Some v /\
    (read (n_resp z) = v \/ zero_somewhere (n_resp z)).
Proof.
  exists read_bits. intros com g h n isp x r rs sim pre0 con sd msg st z s' st' LR NX H. unfold prove in H.
  apply bind_ok in H as ([o s1] & st1 & GP & H).
  cbn [get_prover] in GP. apply bind_ok in GP as ([] & st2 & US & GP). apply bind_ok in GP as (e & st3 & GE & GP).
  unfold get_env in GE. injection GE as <- <-. apply ret_ok in GP as [GP <-]. injection GP as <- <-.
  apply bind_ok in H as ([[z0 p0] s0] & st3 & GN & H). apply ret_ok in H as [H _]. injection H as <- <-.
  unfold get_nizk_proof in GN. apply bind_ok in GN as ([[pre p1] s1] & st4 & PC & GN).
  apply bind_ok in GN as ([com0 p2] & st5 & IC & GN). apply bind_ok in GN as (hh & st6 & E & GN). apply lift_ok in E as [_ ->].
  apply bind_ok in GN as (c & st6 & E & GN). apply lift_ok in E as [_ ->]. apply bind_ok in GN as (resp & st6 & CR & GN).
  apply ret_ok in GN as [GN _]. injection GN as <- <- <-. cbn [n_resp].
  cbn [precommit] in PC. apply bind_ok in PC as (pr & st7 & KP & PC). apply bind_ok in PC as (cc & st8 & CO & PC).
  apply bind_ok in PC as ([o c'] & st9 & GP & PC). apply ret_ok in PC as [PC _]. injection PC as <- <- <-.
  apply range_pre_env in KP as [-> EN]; auto.
  cbn [construct] in CO. apply construct_range_inv in CO as (-> & bits & subs & KB & -> & _ & LS & FB).
  assert (LB := krange_bits_len _ _ _ _ _ KB). destruct KB as (v & l & Ev & D & ->).
  apply decompose_eq in D as (_ & Ll & Bl & BV).
  exists v, st1. split; [exact US|]. split; [congruence|]. subst v.
  cbn [get_prover] in GP. apply bind_ok in GP as ([] & st10 & _ & GP). apply bind_ok in GP as (ls & st11 & GM & GP).
  destruct (forallb _ ls) eqn:FL; [|discriminate]. apply ret_ok in GP as [GP _]. injection GP as <- <-.
  apply (bits_provers l Bl) in GM; auto.
  2:{ clear - LS FB Ll LR. rewrite combine_length, map_length, Nat.min_l in LS by lia.
      revert subs rs LS FB LR. generalize (env st7). intros e.
      assert (forall i subs rs, List.length subs = List.length rs -> List.length rs = List.length l ->
        (forall j r b, nth_error (combine rs (map Some l)) j = Some (r, b) -> exists C C1, get_C pr (i + j) = Ok C /\
           psub_chk C g = Ok C1 /\ nth_error subs j = Some (bitx e h C C1 r b)) ->
        Forall2 (fun b s => exists e h C C1 r, s = bitx e h C C1 r (Some b)) l subs) as K.
      { clear. induction l as [|b l IH]; intros i [|s subs] [|r rs] L1 L2 H; try discriminate; constructor.
        - destruct (H 0%nat r (Some b) eq_refl) as (C & C1 & _ & _ & N). injection N as ->. eauto 6.
        - apply (IH (S i) subs rs); auto. intros j r0 b0 N. destruct (H (S j) r0 b0 N) as (C & C1 & G1 & G2 & G3).
          exists C, C1. rewrite Nat.add_succ_r in G1. auto. }
      intros subs rs L1 H L2. apply (K 0%nat subs rs); auto. lia. }
  cbn [internal_commit] in IC. apply bind_ok in IC as ([cm q] & st12 & IC & IC'). apply ret_ok in IC' as [IC' _].
  injection IC' as <- <-. apply bind_ok in IC as (e & st13 & _ & IC). apply bind_ok in IC as (u & st14 & _ & IC).
  apply bind_ok in IC as (rd & st15 & _ & IC). apply bind_ok in IC as (lc & st16 & IC & IC'). apply ret_ok in IC' as [IC' _].
  injection IC' as <- <-. apply (bits_commit l) in IC; auto.
  cbn [compute_response] in CR. apply bind_ok in CR as (lr & st17 & CR & CR'). apply ret_ok in CR' as [<- _].
  apply (bits_respond l) in CR; auto. apply read_bits_ok; auto.
Qed.
End L.

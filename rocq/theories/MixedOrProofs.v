(** Disjunctions with primitives defined by users: completeness. *)
From Coq Require Import String Znumtheory Lia.
From Verif Require Import Base World Val Expr Utils Stmt Prove Verify Spec Shapes Claims Honest Clauses Supply Extract Lib DictProofs Keeps Sigma Tree Build Process
  Provers Commit Total Total2 Total4 Complete Complete2 Checks2 IdProofs3 History AnswerProofs Sound4 WiProofs Custom CustomProofs Mixed MixedProofs MixedProofs2 MixedOr.
Open Scope Z_scope.
Open Scope list_scope.

Section M.
Context {W : World}.
Context (U : list secret) (w : bytes -> Z) (ord : bytes -> Z).

(** A branch when all statements are constructed: [c] is the statement without primitives in [s], [v] the precommitment. *)
Definition br (u : mpart) (c : stmt) (v : val) (s : stmt) : Prop :=
  noext c /\ wfs c /\ incl (svars c) U /\ Ords ord c /\ Apart c /\ PreRel s v /\
  match fst u with
  | UK K => (exists c0, made K v c0 /\ pstrip c = pstrip c0) /\ v <> VNone /\ exists b, s = set_simulated b (obj_of K v (Some c))
  | US s0 => pstrip c = pstrip s0 /\ s = c
  end.
Inductive brs : list mpart -> list stmt -> list val -> list stmt -> Prop :=
| BrN : brs [] [] [] []
| BrC u l c cs v vs s ss : br u c v s -> brs l cs vs ss -> brs (u :: l) (c :: cs) (v :: vs) (s :: ss).
Lemma brs_app l1 cs1 vs1 ss1 l2 cs2 vs2 ss2 : brs l1 cs1 vs1 ss1 -> brs l2 cs2 vs2 ss2 -> brs (l1 ++ l2) (cs1 ++ cs2) (vs1 ++ vs2) (ss1 ++ ss2).
Proof. induction 1; cbn [app]; auto. intros H2. constructor; auto. Qed.

Lemma noext_svars c : noext c -> Sok U c -> incl (svars c) U.
Proof.
  intros N OK. revert OK N. induction c as [d|subs b IH|subs b ch IH|k b q|k b q con IH] using stmt_ind'; intros OK N; inversion OK; inversion N; subst; cbn [svars]; auto;
    intros x I; apply in_concat in I as (l & I1 & I2); apply in_map_iff in I1 as (y & <- & I1); rewrite Forall_forall in *; eapply IH; eauto.
Qed.
Lemma noext_typ c : noext c -> Shape c -> Typ c.
Proof.
  induction c as [d|subs b IH|subs b ch IH|k b q|k b q con IH] using stmt_ind'; intros N S; inversion N; inversion S; subst; constructor; auto;
    rewrite Forall_forall in *; auto.
Qed.

(** ** Simulations *)
Definition simmed (u : mpart) (c : stmt) (s : stmt) (t : sim) : Prop := br u c (t_pre t) s /\ SimOK s t.
Inductive sims : list mpart -> list stmt -> list stmt -> list sim -> Prop :=
| SmN : sims [] [] [] []
| SmC u l c cs s ss t ts : simmed u c s t -> sims l cs ss ts -> sims (u :: l) (c :: cs) (s :: ss) (t :: ts).
Lemma sims_brs l cs ss ts : sims l cs ss ts -> brs l cs (map t_pre ts) ss /\ Forall2 SimOK ss ts.
Proof. induction 1 as [|u l c cs s ss t ts [B S] H [IH1 IH2]]; cbn [map]; split; constructor; auto. Qed.

Lemma osim1_ok sd e u a : wfL U -> able U w sd e ord u -> agree w (env a) U -> exists s t c a', osim1 u (oshell u) a = Ok ((s, t), a') /\ agree w (env a') U /\ simmed u c s t.
Proof.
  intros WF AB AG. destruct u as [[K|s0] b]; cbn [able] in AB; unfold osim1; cbn [fst snd].
  - destruct AB as (SI & MD). destruct (SI a AG) as (pre & a1 & c & a2 & CS & CC & N & OK & SH & A2).
    assert (MA : made K pre c) by (exists a, a1, a2; auto). destruct (MD pre c MA) as (NN & OR & AP).
    destruct (simulate_total c None None a2) as (t & a3 & E).
    { now apply noext_typ. } { apply wfL_coh. eapply wfL_incl; [|exact WF]. now apply noext_svars. } { discriminate. }
    unfold bind. rewrite CS, CC, E. unfold ret. do 4 eexists. split; [reflexivity|].
    assert (KE := keeps_simulate_proof c None None _ _ _ E). split; [rewrite KE; auto|].
    assert (Wf := Sok_wfs U c OK N).
    destruct (simulate_ok c None None a2 t a3) as (A & B & _ & CO & _); auto using noext_prenn, Tree.noext_built.
    { apply wfL_coh. eapply wfL_incl; [|exact WF]. now apply noext_svars. } { discriminate. }
    assert (PR : PreRel (set_simulated b (obj_of K pre (Some c))) pre) by (cbn; now constructor).
    split.
    + unfold br. cbn [t_pre fst]. split; [exact N|]. split; auto. split; [now apply noext_svars|]. do 2 (split; auto). split; auto. split; [eauto|]. split; auto. eauto.
    + unfold SimOK. cbn [t_chal t_resp t_com t_pre]. split; [exact A|]. split; auto. destruct CO as [R CO]. exists R. cbn. now constructor.
  - destruct AB as (N & OK & SH & OR & AP & _). unfold oshell. cbn [fst snd shell].
    assert (PE := set_simulated_pstrip b s0).
    assert (N' : noext (set_simulated b s0)) by (apply noext_pstrip; rewrite PE; now apply noext_pstrip).
    assert (KK : kinds (set_simulated b s0) = []) by now apply noext_kinds.
    assert (K0 : kints s0 = []) by (unfold kints; now rewrite (noext_kinds s0 N)).
    destruct (prepare_total (set_simulated b s0) a) as (s1 & a1 & E1 & EE & T1); rewrite ?KK; auto using Forall_nil.
    { apply Shape_pstrip. rewrite PE. now apply Shape_pstrip. }
    assert (SW : Swf U U (set_simulated b s0)).
    { eapply Swf_same; [symmetry; exact PE|]. apply Sok_Swf; auto; rewrite ?K0; [intros ? []|constructor|intros ? ? []]. }
    destruct (prepare_ok U U _ _ _ _ SW (incl_refl _) E1) as [PP PS]. assert (PP' := PP). destruct PP' as (P1 & P2 & P3 & P4 & P5 & P6 & P7).
    destruct (simulate_total s1 None None a1) as (t & a2 & E2); auto. { rewrite EE. apply wfL_coh. eapply wfL_incl; eauto. } { discriminate. }
    assert (SM := simulate_simd U s1 None a1 t a2 PP WF E2). destruct SM as [_ SM].
    unfold bind. rewrite E1, E2. unfold ret. exists s1, t, s1, a2. split; auto.
    split; [rewrite (keeps_simulate_proof s1 None None _ _ _ E2), EE; auto|].
    assert (PQ : pstrip s1 = pstrip s0) by congruence.
    split; auto. unfold br. cbn [fst].
    split; [apply noext_pstrip; rewrite PQ; now apply noext_pstrip|]. split; auto. split; auto.
    split; [eapply Ords_same; [symmetry; exact PQ|auto]|]. split; [eapply Apart_same; [symmetry; exact PQ|auto]|].
    split; [apply SM|]. auto.
Qed.
Lemma osetup_all sd e idx l : wfL U -> Forall (able U w sd e ord) l -> forall i a, agree w (env a) U -> (idx < i)%nat ->
  exists ss ts cs a', osetup idx i l (map oshell l) a = Ok ((ss, ts), a') /\ agree w (env a') U /\ sims l cs ss ts.
Proof.
  intros WF F. induction F as [|u l H F IH]; intros i a AG LT.
  - exists [], [], [], a. split; [reflexivity|]. split; auto. constructor.
  - destruct (osim1_ok sd e u a WF H AG) as (s & t & c & a1 & E & A1 & S). destruct (IH (Datatypes.S i) a1 A1 ltac:(lia)) as (ss & ts & cs & a2 & E2 & A2 & S2).
    exists (s :: ss), (t :: ts), (c :: cs), a2. split; [|split; auto; now constructor]. cbn [map osetup].
    replace (Nat.eqb i idx) with false by (symmetry; apply Nat.eqb_neq; lia). unfold bind. rewrite E, E2. reflexivity.
Qed.
Lemma osetup_split sd e idx la u x lb : wfL U -> Forall (able U w sd e ord) la -> Forall (able U w sd e ord) lb ->
  forall i a, agree w (env a) U -> (i + List.length la = idx)%nat ->
  exists sa sb ta tb ca cb a', osetup idx i (la ++ u :: lb) (map oshell la ++ x :: map oshell lb) a = Ok ((sa ++ x :: sb, ta ++ tb), a') /\
    agree w (env a') U /\ sims la ca sa ta /\ sims lb cb sb tb.
Proof.
  intros WF F G. induction F as [|u' l H F IH]; intros i a AG LE.
  - destruct (osetup_all sd e idx lb WF G (S i) a AG) as (ss & ts & cs & a' & E & A & S); [cbn in LE; lia|].
    exists [], ss, [], ts, [], cs, a'. split; [|split; [auto|split; [constructor|auto]]]. cbn [app map osetup].
    replace (Nat.eqb i idx) with true by (symmetry; apply Nat.eqb_eq; cbn in LE; lia). unfold bind. rewrite E. reflexivity.
  - destruct (osim1_ok sd e u' a WF H AG) as (s & t & c & a1 & E & A1 & S).
    destruct (IH (Datatypes.S i) a1 A1) as (sa & sb & ta & tb & ca & cb & a2 & E2 & A2 & S2 & S3); [cbn in LE; lia|].
    exists (s :: sa), sb, (t :: ta), tb, (c :: ca), cb, a2. split; [|split; [auto|split; [now constructor|auto]]]. cbn [app map osetup].
    replace (Nat.eqb i idx) with false by (symmetry; apply Nat.eqb_neq; cbn in LE; lia). unfold bind. rewrite E, E2. reflexivity.
Qed.

(** ** get_prover *)
Lemma candidates_in l i : In i (candidates l) <-> exists u, nth_error l i = Some (u, false).
Proof.
  unfold candidates. rewrite in_map_iff. split.
  - intros ((j & [u b]) & <- & H). apply filter_In in H as [H1 H2]. cbn [fst snd] in *. destruct b; [discriminate H2|].
    apply (In_nth_error) in H1 as [k H1]. exists u.
    assert (L : (k < List.length l)%nat).
    { assert (Q : nth_error (combine (seq 0 (List.length l)) l) k <> None) by congruence. apply nth_error_Some in Q. rewrite combine_length in Q. lia. }
    clear - H1 L. assert (G : forall (l : list mpart) n k x j, nth_error (combine (seq n (List.length l)) l) k = Some (j, x) -> j = (n + k)%nat /\ nth_error l k = Some x).
    { clear. induction l as [|y l IH]; intros n [|k] x j H; cbn in H; try discriminate H.
      - injection H as <- <-. split; [lia|reflexivity].
      - apply IH in H as [-> H]. split; [lia|exact H]. }
    apply G in H1 as [-> H1]. exact H1.
  - intros [u H]. exists (i, (u, false)). split; auto. apply filter_In. split; auto.
    assert (G : forall (l : list mpart) n k x, nth_error l k = Some x -> In ((n + k)%nat, x) (combine (seq n (List.length l)) l)).
    { clear. induction l as [|y l IH]; intros n [|k] x H; cbn in H |- *; try discriminate H.
      - injection H as <-. left. now rewrite Nat.add_0_r.
      - right. replace (n + S k)%nat with (S n + k)%nat by lia. now apply IH. }
    exact (G l 0%nat i _ H).
Qed.
(** the prover of the chosen branch *)
Definition chosen (sd : dict Z) (u : upart) (s : stmt) (p : prover) : Prop :=
  match u with
  | UK K => exists e, p = PExt (dupdate e [] sd) None
  | US c => exists v, ready U w c s p v
  end.
Lemma oget1 sd e u a : wfL U -> entries_ok U w sd -> able U w sd e ord (u, false) -> agree w (env a) U ->
  exists p s a', get_prover (oshell (u, false)) sd a = Ok ((Some p, s), a') /\ agree w (env a') U /\ chosen sd u s p.
Proof.
  intros WF EN AB AG. destruct u as [K|s].
  - unfold oshell. cbn [fst snd shell]. unfold obj_of. cbn [set_simulated get_prover]. unfold bind, get_env, ret.
    destruct (update_secret_values sd a) as [[u' a1]|] eqn:UP; [|discriminate].
    do 3 eexists. split; [reflexivity|]. split; [eapply estep_agree2; eauto using incl_refl; eapply estep_update; eauto|].
    unfold chosen. eauto.
  - cbn [able] in AB. destruct AB as (N & OK & SH & OR & AP & H). specialize (H eq_refl).
    apply (hon_env U w _ sd e (env a) AG) in H. destruct H as (N' & H & S & P).
    destruct (leaf_ready U w _ sd a N' H S P) as (p & s1 & a1 & v & E & A & R). exists p, s1, a1. split; [exact E|]. split; auto.
    exists v. destruct R as (R1 & R2 & R). split; auto. split; auto. rewrite R2. apply set_simulated_pstrip.
Qed.
Lemma oget_ok sd e l a : wfL U -> entries_ok U w sd -> agree w (env a) U -> Forall (able U w sd e ord) l -> (exists u, In (u, false) l) ->
  exists la u lb p s sa sb ta tb ca cb a', l = la ++ (u, false) :: lb /\
    oget l sd a = Ok ((Some (POr (List.length la) p (ta ++ tb)), SOr (sa ++ s :: sb) false (Some (List.length la))), a') /\
    agree w (env a') U /\ sims la ca sa ta /\ sims lb cb sb tb /\ chosen sd u s p.
Proof.
  intros WF EN AG AB (u0 & I0). unfold oget. unfold bind at 1.
  destruct (update_secret_values sd a) as [[x a0]|] eqn:UP; [|discriminate].
  assert (A0 : agree w (env a0) U) by (eapply estep_agree2; eauto using incl_refl; eapply estep_update; eauto).
  assert (NE : candidates l <> []).
  { apply In_nth_error in I0 as [i I0]. intros E. assert (H : In i (candidates l)) by (apply candidates_in; eauto). rewrite E in H. destruct H. }
  destruct (candidates l) as [|c0 cl] eqn:EC; [congruence|]. clear NE. cbv zeta. cbn [empty_dict]. rewrite <- EC.
  set (cands := candidates l) in *. replace (List.length cands) with (S (List.length cl)) by (rewrite EC; reflexivity). cbn [or_loop].
  unfold bind at 1. unfold bind at 1. destruct (draw (len cands) a0) as [[z a1]|] eqn:D; [|discriminate D].
  assert (LT : (Z.to_nat z < List.length cands)%nat).
  { unfold draw in D. injection D as <- _. assert (Q : 0 < len cands) by (unfold len; rewrite EC; cbn [List.length]; lia).
    destruct (Z.mod_pos_bound (tape a0 (pos a0)) (len cands) Q) as [Q1 Q2]. unfold len in *. lia. }
  apply keeps_draw in D. destruct (nth_error cands (Z.to_nat z)) as [i|] eqn:Ni; [|apply nth_error_None in Ni; lia].
  apply nth_error_In in Ni. apply candidates_in in Ni as [u Ni]. destruct (nth_error_split _ _ Ni) as (la & lb & -> & LA).
  rewrite map_map, nth_error_map, Ni. cbn [option_map].
  apply Forall_app in AB as [AB1 AB2]. inversion AB2 as [|? ? AB0 AB3]; subst.
  destruct (oget1 sd e u a1 WF EN AB0) as (p & s & a2 & E & A2 & CH); [rewrite D; auto|].
  unfold bind at 1. rewrite E. cbn [fst snd]. unfold ret at 1. cbn [fst snd].
  assert (RE : replace (List.length la) s (map oshell (la ++ (u, false) :: lb)) = map oshell la ++ s :: map oshell lb).
  { rewrite map_app. cbn [map]. rewrite <- (map_length oshell la). clear. induction (map oshell la) as [|x m IH]; cbn; [reflexivity|]. now rewrite IH. }
  destruct (osetup_split sd e (List.length la) la (u, false) s lb WF AB1 AB3 0 a2 A2 eq_refl) as (sa & sb & ta & tb & ca & cb & a3 & E3 & A3 & S1 & S2).
  exists la, u, lb, p, s, sa, sb, ta, tb, ca, cb, a3. split; auto. unfold bind.
  match goal with |- context [osetup ?x1 ?x2 ?x3 ?x4 a2] => replace (osetup x1 x2 x3 x4 a2) with (Ok (sa ++ s :: sb, ta ++ tb, a3)) end.
  { unfold ret. cbn [fst snd]. auto. }
  rewrite <- E3. f_equal. symmetry. exact RE.
Qed.
End M.

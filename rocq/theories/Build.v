(** Construction of the inner statements of the primitives. *)
From Coq Require Import String.
From Verif Require Import Base World Val Expr Utils Stmt Prove Verify Spec Shapes Lib DictProofs Keeps Tree Sigma
  Validate Commit ArithProofs.
Open Scope Z_scope.
Open Scope list_scope.

Lemma imapM_F2 {A B} (f : nat -> A -> M B) (R : A -> B -> Prop) l :
  forall s, (forall i x y s', In x l -> f i x s = Ok (y, s') -> s' = s /\ R x y) ->
  forall i ys s', imapM f i l s = Ok (ys, s') -> s' = s /\ Forall2 R l ys.
Proof.
  intros s. induction l as [|x l IH]; intros H i ys s' E; simpl in E; minvs; [split; auto|].
  apply H in E0 as [-> R0]; [|left; auto].
  apply IH in E1 as [-> F]; [|intros; eapply H; eauto; now right]. auto.
Qed.
Lemma mapM_F2 {A B} (f : A -> M B) (R : A -> B -> Prop) l :
  forall s, (forall x y s', In x l -> f x s = Ok (y, s') -> s' = s /\ R x y) ->
  forall ys s', mapM f l s = Ok (ys, s') -> s' = s /\ Forall2 R l ys.
Proof.
  intros s. induction l as [|x l IH]; intros H ys s' E; simpl in E; minvs; [split; auto|].
  apply H in E0 as [-> R0]; [|left; auto].
  apply IH in E1 as [-> F]; [|intros; eapply H; eauto; now right]. auto.
Qed.

Section B.
Context {W : World}.

(** values of the listed secrets, as DLRep.__init__ records them *)
Definition snapshot (e : nat -> option Z) (ss : list secret) : dict Z :=
  fold_left (fun d s => match e (sid s) with Some v => dset e d s v | None => d end) ss [].

Lemma snapshot_in e ss k v : In (k, v) (snapshot e ss) -> In k ss /\ e (sid k) = Some v.
Proof.
  unfold snapshot.
  assert (G : forall ss d, (forall k v, In (k, v) d -> e (sid k) = Some v) ->
    forall k v, In (k, v) (fold_left (fun d s => match e (sid s) with Some v => dset e d s v | None => d end) ss d) ->
    (In k ss \/ exists v', In (k, v') d) /\ e (sid k) = Some v).
  { clear. induction ss as [|s ss IH]; intros d Hd k v H; simpl in H.
    - split; [right; eauto|auto].
    - destruct (e (sid s)) as [z|] eqn:Es.
      + apply IH in H as [H1 H2].
        * split; auto. destruct H1 as [H1|(v' & H1)]; [left; now right|].
          apply dset_keys in H1 as [->|H1]; [left; now left|right; auto].
        * intros k' v' K. apply dset_in in K as [K|(-> & E & _)]; auto.
          apply sec_eqb_iff in E as [_ E]. congruence.
      + apply IH in H as [H1 H2]; auto. split; auto. destruct H1; auto. left. now right. }
  intros H. apply G in H as [[H1|(v' & [])] H2]; auto. intros ? ? [].
Qed.

Lemma mk_dlrep_ok lhs x b st d st' : mk_dlrep lhs x b st = Ok (d, st') ->
  st' = st /\ d = mkDL lhs (e_bases x) (e_secs x) (snapshot (env st) (e_secs x)) b /\
  e_bases x <> [] /\ exists g, in_group g (e_bases x).
Proof.
  unfold mk_dlrep. destruct (e_bases x) as [|b0 bs] eqn:EB; [discriminate|].
  destruct (forallb _ (b0 :: bs)) eqn:F; [|discriminate]. intros H. minvs.
  split; auto. split; auto. split; [discriminate|]. exists (grp b0).
  apply Forall_forall. intros p Hp. rewrite forallb_forall in F. apply F, gid_eqb_spec in Hp. auto.
Qed.
Lemma mk_dlrep_total lhs x b st g : e_bases x <> [] -> in_group g (e_bases x) ->
  mk_dlrep lhs x b st = Ok (mkDL lhs (e_bases x) (e_secs x) (snapshot (env st) (e_secs x)) b, st).
Proof.
  intros N H. unfold mk_dlrep. destruct (e_bases x) as [|b0 bs] eqn:EB; [congruence|].
  replace (forallb _ (b0 :: bs)) with true; [reflexivity|]. symmetry. apply forallb_forall.
  intros p Hp. unfold in_group in H. rewrite Forall_forall in H. apply gid_eqb_spec.
  rewrite (H p Hp). symmetry. apply H. now left.
Qed.

Definition knb (k : kind) : bool := match k with KRange _ _ _ _ p _ _ _ => p | _ => false end.

Definition expr_ok (x : expr) : Prop := List.length (e_secs x) = List.length (e_bases x).
Lemma expr_ok_mul s b : expr_ok (emul s b). Proof. reflexivity. Qed.
Lemma expr_ok_add x y : expr_ok x -> expr_ok y -> expr_ok (eadd x y).
Proof. unfold expr_ok. simpl. rewrite !app_length. congruence. Qed.
Lemma expr_ok_row t : expr_ok (row_expr t).
Proof. unfold expr_ok. simpl. now rewrite !map_length. Qed.
Lemma wsum_secrets_eq ss bs x : wsum_secrets ss bs = Ok x ->
  e_secs x = ss /\ e_bases x = bs /\ List.length ss = List.length bs.
Proof.
  unfold wsum_secrets. destruct (Nat.eqb _ _) eqn:L; [|discriminate]. apply Nat.eqb_eq in L.
  destruct ss as [|s ss], bs as [|b bs]; try discriminate. intros H. injection H as <-.
  assert (G : forall ss bs a, List.length ss = List.length bs ->
    e_secs (fold_left (fun acc sb => eadd acc (emul (fst sb) (snd sb))) (combine ss bs) a) = e_secs a ++ ss /\
    e_bases (fold_left (fun acc sb => eadd acc (emul (fst sb) (snd sb))) (combine ss bs) a) = e_bases a ++ bs).
  { clear. induction ss as [|s ss IH]; intros [|b bs] a L; simpl in *; try discriminate.
    - now rewrite !app_nil_r.
    - destruct (IH bs (eadd a (emul s b))) as [A B]; [congruence|]. rewrite A, B. simpl.
      now rewrite <- !app_assoc. }
  destruct (G ss bs (emul s b)) as [A B]; [simpl in L; congruence|]. rewrite A, B. auto.
Qed.

(** Shape of a constructed statement: a representation, or conjunctions / disjunctions of them;
    every leaf records the current values. *)
Inductive leafy (P : dlrep -> Prop) : stmt -> Prop :=
| LfDL d : P d -> leafy P (SDL d)
| LfAnd l b : Forall (leafy P) l -> leafy P (SAnd l b)
| LfOr l b c : Forall (leafy P) l -> leafy P (SOr l b c).

Definition fresh_leaf (e : nat -> option Z) (l : list secret) (d : dlrep) : Prop :=
  dl_vals d = snapshot e (dl_secs d) /\ incl (dl_secs d) l /\
  List.length (dl_secs d) = List.length (dl_bases d) /\ dl_bases d <> [] /\
  exists g, in_group g (dl_bases d).

Lemma leafy_noext P s : leafy P s -> noext s.
Proof.
  induction s as [d|subs b IH|subs b ch IH|k b q|k b q con IH] using stmt_ind'; intros H;
    inversion H; subst; constructor; auto; rewrite Forall_forall in *; intros; auto.
Qed.
Lemma leafy_impl (P Q : dlrep -> Prop) s : (forall d, P d -> Q d) -> leafy P s -> leafy Q s.
Proof.
  intros I. induction s as [d|subs b IH|subs b ch IH|k b q|k b q con IH] using stmt_ind'; intros H;
    inversion H; subst; constructor; auto; rewrite Forall_forall in *; intros; auto.
Qed.
Lemma leafy_wfs e l s : leafy (fresh_leaf e l) s -> wfs s.
Proof.
  induction s as [d|subs b IH|subs b ch IH|k b q|k b q con IH] using stmt_ind'; intros H;
    inversion H; subst; constructor; try (rewrite Forall_forall in *; auto; fail).
  match goal with X : fresh_leaf _ _ _ |- _ => destruct X as (_ & _ & X & _); auto end.
Qed.
Lemma leafy_svars e l s : leafy (fresh_leaf e l) s -> incl (svars s) l.
Proof.
  induction s as [d|subs b IH|subs b ch IH|k b q|k b q con IH] using stmt_ind'; intros H;
    inversion H; subst; simpl.
  - match goal with X : fresh_leaf _ _ _ |- _ => destruct X as (_ & X & _); auto end.
  - intros x Hx. apply in_concat in Hx as (y & Hy & Hx). apply in_map_iff in Hy as (s & <- & Hs).
    rewrite Forall_forall in *. eapply IH; eauto.
  - intros x Hx. apply in_concat in Hx as (y & Hy & Hx). apply in_map_iff in Hy as (s & <- & Hs).
    rewrite Forall_forall in *. eapply IH; eauto.
Qed.

Lemma lift2_dl_ok lhs x b l st s st' : expr_ok x -> incl (e_secs x) l ->
  lift2 (mk_dlrep lhs x b) st = Ok (s, st') ->
  st' = st /\ s = SDL (mkDL lhs (e_bases x) (e_secs x) (snapshot (env st) (e_secs x)) b) /\
  leafy (fresh_leaf (env st) l) s.
Proof.
  intros X I H. unfold lift2 in H. minvs. apply mk_dlrep_ok in E as (-> & -> & N & G).
  split; auto. split; auto. constructor. unfold fresh_leaf. simpl. auto.
Qed.

Lemma mk_and_ok l s : mk_and l = Ok s -> s = SAnd l false /\ (2 <= List.length l)%nat.
Proof.
  unfold mk_and. destruct (_ <? _)%nat eqn:E; [discriminate|]. apply Nat.ltb_ge in E.
  intros H. injection H as <-. auto.
Qed.

Lemma set_simulated_leafy e l b s : leafy (fresh_leaf e l) s -> leafy (fresh_leaf e l) (set_simulated b s).
Proof. intros H. inversion H; subst; simpl; constructor; auto. Qed.

Lemma bit_stmt_ok g h C r b st s st' : bit_stmt g h C r b st = Ok (s, st') ->
  st' = st /\ exists C1, psub_chk C g = Ok C1 /\
  s = SOr [SDL (mkDL C [h] [r] (snapshot (env st) [r]) (match b with Some b => b =? 1 | None => false end));
           SDL (mkDL C1 [h] [r] (snapshot (env st) [r]) (match b with Some b => b =? 0 | None => false end))]
          false None.
Proof.
  unfold bit_stmt. intros H. minv H.
  apply mk_dlrep_ok in E as (-> & -> & _). minv E0.
  apply mk_dlrep_ok in E1 as (-> & -> & _).
  split; auto. exists a0. split; auto.
  destruct b; simpl in H; unfold mk_or in H; simpl in H; congruence.
Qed.

(** a DLRep made of an expression *)
Definition gok (x : expr) : Prop := e_bases x <> [] /\ exists g, in_group g (e_bases x).
Definition dlx (e : nat -> option Z) (lhs : pt) (x : expr) : stmt :=
  SDL (mkDL lhs (e_bases x) (e_secs x) (snapshot e (e_secs x)) false).
Lemma lift2_dl_iff lhs x st s st' : lift2 (mk_dlrep lhs x false) st = Ok (s, st') <->
  st' = st /\ s = dlx (env st) lhs x /\ gok x.
Proof.
  split.
  - unfold lift2. intros H. minvs. apply mk_dlrep_ok in E as (-> & -> & N & G). unfold gok. auto.
  - intros (-> & -> & N & g & G). unfold lift2, bind. rewrite (mk_dlrep_total _ _ _ _ g); auto.
Qed.
Lemma lift2_dl_run lhs x st : gok x -> lift2 (mk_dlrep lhs x false) st = Ok (dlx (env st) lhs x, st).
Proof. intros G. apply lift2_dl_iff. auto. Qed.
Lemma gok1 s p : gok (emul s p).
Proof. split; [discriminate|exists (grp p); repeat constructor]. Qed.
Lemma dlx_leafy e lhs x l : expr_ok x -> gok x -> incl (e_secs x) l -> leafy (fresh_leaf e l) (dlx e lhs x).
Proof. intros H [G1 G2] I. constructor. unfold fresh_leaf. simpl. auto. Qed.

Ltac dlinv := repeat match goal with
  | H : lift2 (mk_dlrep _ _ false) _ = Ok _ |- _ =>
      apply lift2_dl_iff in H as (? & ? & ?); subst
  | H : mk_and _ = Ok _ |- _ => apply mk_and_ok in H as [? ?]; subst
  | H : as_pt ?v = Ok _ |- _ => destruct v; try discriminate H; injection H as ->
  end.

Lemma construct_neq_inv H0 g H1 h x al be bnd pre st c st' :
  construct_neq H0 g H1 h x al be bnd pre st = Ok (c, st') ->
  st' = st /\ exists P, pre = VPt P /\
  gok (eadd (emul al g) (emul be H0)) /\ gok (eadd (emul al h) (emul be H1)) /\
  c = SAnd (dlx (env st) (inf (grp g)) (eadd (emul al g) (emul be H0)) ::
            dlx (env st) P (eadd (emul al h) (emul be H1)) ::
            (if bnd then [dlx (env st) H0 (emul x g)] else [])) false.
Proof.
  unfold construct_neq. intros H. destruct bnd; minvs; dlinv; split; auto; exists a; auto.
Qed.

(** what a range statement needs to be constructed: the value of the secret is in range *)
Definition krange_bits (e : nat -> option Z) (n : nat) (isp : bool) (x : secret) (bits : list (option Z)) : Prop :=
  if isp then exists v l, e (sid x) = Some v /\ decompose v n = Ok l /\ bits = map Some l
  else bits = repeat None n.
Definition bitx (e : nat -> option Z) (h C C1 : pt) (r : secret) (b : option Z) : stmt :=
  SOr [SDL (mkDL C [h] [r] (snapshot e [r]) (match b with Some b => b =? 1 | None => false end));
       SDL (mkDL C1 [h] [r] (snapshot e [r]) (match b with Some b => b =? 0 | None => false end))]
      false None.

Lemma imapM_inv {A B} (f : nat -> A -> M B) l :
  forall s, (forall i x y s', f i x s = Ok (y, s') -> s' = s) ->
  forall i ys s', imapM f i l s = Ok (ys, s') ->
  s' = s /\ List.length ys = List.length l /\
  forall j x, nth_error l j = Some x -> exists y, nth_error ys j = Some y /\ f (i + j)%nat x s = Ok (y, s).
Proof.
  intros s. induction l as [|x l IH]; intros H i ys s' E; simpl in E; minvs.
  - repeat split; auto. intros [|j] x; discriminate.
  - assert (s0 = s) by eauto. subst s0. apply IH in E1 as (-> & L & F); auto. simpl.
    repeat split; auto. intros [|j] y N; simpl in N.
    + injection N as <-. exists a. rewrite Nat.add_0_r. auto.
    + apply F in N as (z & N & E). exists z. split; auto. replace (i + S j)%nat with (S i + j)%nat by lia. auto.
Qed.
Lemma imapM_total {A B} (f : nat -> A -> M B) (g : nat -> A -> B) l :
  forall s i, (forall j x, nth_error l j = Some x -> f (i + j)%nat x s = Ok (g (i + j)%nat x, s)) ->
  imapM f i l s = Ok (map (fun p => g (fst p) (snd p)) (combine (seq i (List.length l)) l), s).
Proof.
  intros s. induction l as [|x l IH]; intros i H; simpl; auto.
  unfold bind. assert (H0 := H 0%nat x eq_refl). rewrite Nat.add_0_r in H0. rewrite H0.
  rewrite IH; auto. intros j y N. assert (Hj := H (S j) y N).
  replace (i + S j)%nat with (S i + j)%nat in Hj by lia. auto.
Qed.

Lemma construct_range_inv g h n isp x rs pre st c st' :
  construct_range g h n isp x rs pre st = Ok (c, st') ->
  st' = st /\ exists bits subs, krange_bits (env st) n isp x bits /\ c = SAnd subs false /\
    (2 <= List.length subs)%nat /\ List.length subs = List.length (combine rs bits) /\
    forall j r b, nth_error (combine rs bits) j = Some (r, b) ->
      exists C C1, get_C pre j = Ok C /\ psub_chk C g = Ok C1 /\
        nth_error subs j = Some (bitx (env st) h C C1 r b).
Proof.
  unfold construct_range. intros H.
  apply bind_ok in H as (e0 & s0 & E & H). injection E as <- <-.
  apply bind_ok in H as (bits & s0 & EB & H). apply bind_ok in H as (a1 & s1 & EI & H).
  assert (s0 = st /\ krange_bits (env st) n isp x bits) as (-> & KB).
  { clear EI. unfold krange_bits. destruct isp.
    - destruct (env st (sid x)) as [v|] eqn:Ev; minvs. repeat split; auto. exists v, a. auto.
    - minvs. auto. }
  apply imapM_inv in EI as (-> & L & F).
  - apply lift_ok in H as [H ->]. apply mk_and_ok in H as [-> L2]. split; auto. exists bits, a1. repeat split; auto.
    intros j r b N. apply F in N as (y & N & E). simpl in E. minvs.
    apply bit_stmt_ok in E as (_ & C1 & E1 & ->). exists a, C1. auto.
  - intros i y z s' E. minvs. apply bit_stmt_ok in E as (-> & _). auto.
Qed.

Lemma construct_bbs_inv pk bs sv r1 r2 d1 d2 pre st c st' :
  construct_bbs pk bs sv r1 r2 d1 d2 pre st = Ok (c, st') ->
  st' = st /\ exists A1 A2 g0 g1 g2 bs' e svs aw gp0 plhs ah g2w gp1 gp2 gps x3,
    (let? a := getitem pre (lit "A1") in as_pt a) = Ok A1 /\
    (let? a := getitem pre (lit "A2") in as_pt a) = Ok A2 /\
    bs = g0 :: g1 :: g2 :: bs' /\ sv = e :: svs /\ pk_genpairs pk = gp0 :: gp1 :: gp2 :: gps /\
    pairing_chk A2 (pk_w pk) = Ok aw /\ padd_chk aw (pmul (-1) gp0) = Ok plhs /\
    pairing_chk A2 (pk_h0 pk) = Ok ah /\ pairing_chk g2 (pk_w pk) = Ok g2w /\
    wsum_secrets (e :: r1 :: d1 :: svs)
      ([pmul (-1) ah; g2w; gp2] ++ firstn (List.length bs - 1) (gp1 :: gp2 :: gps)) = Ok x3 /\
    gok (eadd (emul r1 g1) (emul r2 g2)) /\
    gok (eadd (eadd (emul d1 g1) (emul d2 g2)) (emul e (pmul (-1) A1))) /\ gok x3 /\
    c = SAnd [dlx (env st) A1 (eadd (emul r1 g1) (emul r2 g2));
              dlx (env st) (inf (grp g0)) (eadd (eadd (emul d1 g1) (emul d2 g2)) (emul e (pmul (-1) A1)));
              dlx (env st) plhs x3] false.
Proof.
  unfold construct_bbs. intros H.
  apply bind_ok in H as (A1 & s1 & E1 & H). apply lift_ok in E1 as [E1 ->].
  apply bind_ok in H as (A2 & s1 & E2 & H). apply lift_ok in E2 as [E2 ->].
  destruct bs as [|g0 [|g1 [|g2 bs']]]; try discriminate H.
  destruct sv as [|e svs]; try discriminate H.
  apply bind_ok in H as (y1 & s1 & Y1 & H). apply lift2_dl_iff in Y1 as (-> & -> & G1).
  apply bind_ok in H as (y2 & s1 & Y2 & H). apply lift2_dl_iff in Y2 as (-> & -> & G2).
  apply bind_ok in H as (aw & s1 & E3 & H). apply lift_ok in E3 as [E3 ->].
  destruct (pk_genpairs pk) as [|gp0 gps] eqn:EG; try discriminate H.
  apply bind_ok in H as (plhs & s1 & E4 & H). apply lift_ok in E4 as [E4 ->].
  apply bind_ok in H as (ah & s1 & E5 & H). apply lift_ok in E5 as [E5 ->].
  apply bind_ok in H as (g2w & s1 & E6 & H). apply lift_ok in E6 as [E6 ->].
  destruct gps as [|gp1 [|gp2 gps]]; try discriminate H.
  apply bind_ok in H as (x3 & s1 & E7 & H). apply lift_ok in E7 as [E7 ->].
  apply bind_ok in H as (y3 & s1 & Y3 & H). apply lift2_dl_iff in Y3 as (-> & -> & G3).
  apply lift_ok in H as [H ->]. apply mk_and_ok in H as [-> _].
  split; auto. exists A1, A2, g0, g1, g2, bs', e, svs, aw, gp0, plhs, ah, g2w, gp1, gp2, gps, x3.
  repeat (split; [assumption || reflexivity|]). auto.
Qed.

Lemma construct_custom_inv rows st c st' : construct_custom rows st = Ok (c, st') ->
  st' = st /\ Forall (fun rw => gok (row_expr (snd rw))) rows /\
  let ds := map (fun rw => dlx (env st) (fst rw) (row_expr (snd rw))) rows in
  match ds with [d] => c = d | _ => c = SAnd ds false /\ (2 <= List.length ds)%nat end.
Proof.
  unfold construct_custom. intros H. apply bind_ok in H as (ds & s1 & E & H).
  assert (K : s1 = st /\ Forall (fun rw => gok (row_expr (snd rw))) rows /\
              ds = map (fun rw => dlx (env st) (fst rw) (row_expr (snd rw))) rows).
  { clear H. revert ds s1 E. induction rows as [|rw rows IH]; intros ds s1 E; simpl in E; minvs; auto.
    apply lift2_dl_iff in E0 as (-> & -> & G). apply IH in E1 as (-> & F & ->). auto. }
  destruct K as (-> & F & ->).
  destruct (map _ rows) as [|d [|d' l]]; minvs; auto.
  - apply mk_and_ok in H as [-> L]. auto.
  - apply mk_and_ok in H as [-> L]. auto.
Qed.

Lemma expr_ok_wsum ss bs x : wsum_secrets ss bs = Ok x -> expr_ok x.
Proof. intros H. apply wsum_secrets_eq in H as (A & B & C). unfold expr_ok. congruence. Qed.

Lemma construct_leafy k pre st c st' : construct k pre st = Ok (c, st') ->
  st' = st /\ leafy (fresh_leaf (env st) (kuser k ++ kint k)) c.
Proof.
  destruct k as [H0 g H1 h x al be bnd|com g h n isp x r rs|pk sig bs sv r1 r2 d1 d2|cls rows]; simpl construct.
  - intros H. apply construct_neq_inv in H as (-> & P & -> & G1 & G2 & ->). split; auto.
    constructor. constructor; [apply dlx_leafy; auto; [reflexivity|intros y; simpl; tauto]|].
    constructor; [apply dlx_leafy; auto; [reflexivity|intros y; simpl; tauto]|].
    destruct bnd; constructor; auto. apply dlx_leafy; [reflexivity| |intros y; simpl; tauto].
    split; [discriminate|exists (grp g); repeat constructor].
  - intros H. apply construct_range_inv in H as (-> & bits & subs & KB & -> & _ & L & F). split; auto.
    constructor. apply Forall_forall. intros s Hs. apply In_nth_error in Hs as (j & Hj).
    destruct (nth_error (combine rs bits) j) as [[r' b]|] eqn:N.
    + assert (In r' rs) by (apply nth_error_In in N; eapply in_combine_l; eauto).
      apply F in N as (C & C1 & _ & _ & N). rewrite Hj in N. injection N as ->.
      assert (incl [r'] ([x; r] ++ rs)) by (intros y [<-|[]]; simpl; auto).
      assert (G : gok (emul r' h)) by (split; [discriminate|exists (grp h); repeat constructor]).
      destruct G as [G1 G2].
      constructor. repeat (apply Forall_cons || apply Forall_nil); constructor; unfold fresh_leaf; simpl; auto.
    + apply nth_error_None in N. rewrite <- L in N. apply nth_error_None in N. congruence.
  - intros H. apply construct_bbs_inv in H as (-> & A1 & A2 & g0 & g1 & g2 & bs' & e & svs & aw & gp0 & plhs
      & ah & g2w & gp1 & gp2 & gps & x3 & E1 & E2 & -> & -> & EG & E3 & E4 & E5 & E6 & E7 & G1 & G2 & G3 & ->).
    split; auto. constructor. repeat (apply Forall_cons || apply Forall_nil); apply dlx_leafy; auto; try reflexivity.
    + intros y; simpl; rewrite in_app_iff; simpl; tauto.
    + intros y; simpl; rewrite in_app_iff; simpl; tauto.
    + eapply expr_ok_wsum; eauto.
    + apply wsum_secrets_eq in E7 as (-> & _). intros y. simpl. rewrite in_app_iff. simpl. tauto.
  - intros H. apply construct_custom_inv in H as (-> & F & H). split; auto.
    assert (K : Forall (leafy (fresh_leaf (env st) (kuser (KCustom cls rows) ++ [])))
       (map (fun rw => dlx (env st) (fst rw) (row_expr (snd rw))) rows)).
    { apply Forall_forall. intros s Hs. apply in_map_iff in Hs as (rw & <- & Hr).
      apply dlx_leafy; [apply expr_ok_row| |].
      - rewrite Forall_forall in F. auto.
      - simpl. intros y Hy. rewrite app_nil_r. apply in_concat. exists (map fst (snd rw)). split; auto.
        apply in_map_iff. eauto. }
    destruct (map _ rows) as [|d [|d' l]]; simpl in H.
    + destruct H as [-> _]. constructor; auto.
    + subst. inversion K; auto.
    + destruct H as [-> _]. constructor; auto.
Qed.

Lemma construct_neq_total H0 g H1 h x al be bnd P st :
  gok (eadd (emul al g) (emul be H0)) -> gok (eadd (emul al h) (emul be H1)) ->
  construct_neq H0 g H1 h x al be bnd (VPt P) st =
  Ok (SAnd (dlx (env st) (inf (grp g)) (eadd (emul al g) (emul be H0)) ::
            dlx (env st) P (eadd (emul al h) (emul be H1)) ::
            (if bnd then [dlx (env st) H0 (emul x g)] else [])) false, st).
Proof.
  intros G1 G2. unfold construct_neq. cbn [as_pt]. rewrite bind_lift_ok. unfold bind at 1.
  rewrite lift2_dl_run by auto. unfold bind at 1. rewrite lift2_dl_run by auto.
  destruct bnd; [|reflexivity]. unfold bind at 1. rewrite lift2_dl_run by apply gok1. reflexivity.
Qed.

Lemma gok_bases x y : e_bases x = e_bases y -> gok x -> gok y.
Proof. unfold gok. intros ->. auto. Qed.
Lemma Sim_dlx f g e e' lhs x y : e_bases x = e_bases y -> Forall2 (ren f g) (e_secs x) (e_secs y) ->
  Sim f g (dlx e lhs x) (dlx e' lhs y).
Proof. intros B R. constructor; simpl; auto. Qed.

Lemma krange_bits_len e n isp x bits : krange_bits e n isp x bits -> List.length bits = n.
Proof.
  unfold krange_bits. destruct isp.
  - intros (v & l & _ & D & ->). rewrite map_length. now apply decompose_eq in D.
  - intros ->. apply repeat_length.
Qed.
Lemma nth_error_combine {A B} (l : list A) : forall (m : list B) j a b,
  nth_error (combine l m) j = Some (a, b) <-> nth_error l j = Some a /\ nth_error m j = Some b.
Proof.
  induction l as [|x l IH]; intros [|y m] [|j] a b; simpl; try (split; [discriminate|intros []; discriminate]).
  - split; [intros H; injection H as -> ->; auto|intros [H K]; congruence].
  - apply IH.
Qed.
Lemma Forall2_nth {A B} (R : A -> B -> Prop) l m : Forall2 R l m <->
  List.length l = List.length m /\
  forall j a b, nth_error l j = Some a -> nth_error m j = Some b -> R a b.
Proof.
  split.
  - induction 1 as [|x y l m H F [L IH]]; simpl; split; auto; intros [|j] a b; simpl; try discriminate.
    + intros E1 E2. congruence.
    + apply IH.
  - revert m. induction l as [|x l IH]; intros [|y m] [L H]; try discriminate; constructor.
    + apply (H 0%nat); auto.
    + apply IH. split; [simpl in L; congruence|]. intros j. apply (H (S j)).
Qed.

Lemma bit_stmt_total g h C C1 r b st : psub_chk C g = Ok C1 ->
  bit_stmt g h C r b st = Ok (bitx (env st) h C C1 r b, st).
Proof.
  intros E. unfold bit_stmt, bind, mk_dlrep. simpl.
  rewrite (proj2 (gid_eqb_spec (grp h) (grp h)) eq_refl). simpl.
  unfold bind, get_env, ret, lift. rewrite E. destruct b; reflexivity.
Qed.

Lemma construct_sim f g k k' pre st c st' st2 :
  KSim f g k k' -> construct k pre st = Ok (c, st') -> vkOK (env st2) k' ->
  exists c', construct k' pre st2 = Ok (c', st2) /\ Sim f g c c'.
Proof.
  intros HK H V. destruct HK as [H0 b H1 h x al be x' al' be' bnd Rx Ra Rb
    |com b h n p x r rs p' x' r' rs' Rr|pk sig sig' bs sv sv' r1 r2 d1 d2 r1' r2' d1' d2' Rs R1 R2 R3 R4
    |cls rows rows' Rr]; simpl construct in *.
  - apply construct_neq_inv in H as (-> & P & -> & G1 & G2 & ->).
    rewrite construct_neq_total by (eapply gok_bases; eauto; reflexivity).
    eexists. split; [reflexivity|]. constructor. constructor; [apply Sim_dlx; simpl; auto|].
    constructor; [apply Sim_dlx; simpl; auto|].
    destruct bnd; constructor; auto. apply Sim_dlx; simpl; auto.
  - apply construct_range_inv in H as (-> & bits & subs & KB & -> & L2 & L & F).
    assert (exists bits', krange_bits (env st2) n p' x' bits' /\
      (if p' then match env st2 (sid x') with
                  | Some v => let! l := lift (decompose v n) in ret (map Some l)
                  | None => raise ETypeErr end
       else ret (repeat None n)) st2 = Ok (bits', st2)) as (bits' & KB' & EB).
    { unfold krange_bits. destruct p'; simpl in V.
      - destruct V as (v & Ev & Hv). destruct (decompose_total v n Hv) as (l & El).
        exists (map Some l). rewrite Ev. split; [eauto|]. unfold bind, lift. rewrite El. reflexivity.
      - exists (repeat None n). split; auto. }
    apply krange_bits_len in KB, KB'. assert (Lr := Forall2_len _ _ _ Rr).
    set (subs' := map (fun p => match nth_error subs (fst p) with
                       | Some (SOr [SDL d1; SDL d2] _ _) => bitx (env st2) h (dl_lhs d1) (dl_lhs d2) (fst (snd p)) (snd (snd p))
                       | _ => SAnd [] false end)
                   (combine (seq 0 (List.length (combine rs' bits'))) (combine rs' bits'))).
    assert (EI : imapM (fun i rb => let! C := lift (get_C pre i) in bit_stmt b h C (fst rb) (snd rb)) 0
                  (combine rs' bits') st2 = Ok (subs', st2)).
    { apply (imapM_total _ (fun i p => match nth_error subs i with
                       | Some (SOr [SDL d1; SDL d2] _ _) => bitx (env st2) h (dl_lhs d1) (dl_lhs d2) (fst p) (snd p)
                       | _ => SAnd [] false end)).
      intros j [r0 b0] N. simpl fst. simpl snd. change (0 + j)%nat with j.
      apply nth_error_combine in N as [N1 N2].
      assert (j < List.length rs')%nat by (apply nth_error_Some; congruence).
      assert (j < List.length bits')%nat by (apply nth_error_Some; congruence).
      destruct (nth_error rs j) as [r1|] eqn:M1; [|apply nth_error_None in M1; lia].
      destruct (nth_error bits j) as [b1|] eqn:M2; [|apply nth_error_None in M2; lia].
      destruct (F j r1 b1) as (C & C1 & E1 & E2 & E3); [now apply nth_error_combine|].
      rewrite E3, E1, bind_lift_ok. simpl. now apply bit_stmt_total. }
    assert (Ls : List.length subs' = List.length subs).
    { unfold subs'. rewrite map_length, combine_length, seq_length, L, !combine_length. lia. }
    exists (SAnd subs' false). split.
    + unfold construct_range. unfold bind at 1. simpl get_env. unfold get_env. unfold bind at 1. rewrite EB.
      unfold bind at 1. rewrite EI. unfold lift, mk_and.
      replace (_ <? _)%nat with false; [reflexivity|]. symmetry. apply Nat.ltb_ge. lia.
    + constructor. apply Forall2_nth. split; [auto|]. intros j s s' N1 N2.
      assert (Hj : (j < List.length subs')%nat) by (apply nth_error_Some; congruence).
      unfold subs' in N2. rewrite nth_error_map in N2.
      destruct (nth_error (combine _ _) j) as [[j' [r0 b0]]|] eqn:N3; [|discriminate].
      simpl in N2. injection N2 as <-.
      apply nth_error_combine in N3 as [M0 N3].
      assert (j' = j).
      { assert (X := nth_error_nth _ _ 0%nat M0). rewrite seq_nth in X; [lia|].
        rewrite <- (seq_length (List.length (combine rs' bits')) 0). apply nth_error_Some. congruence. }
      subst j'. rewrite N1. apply nth_error_combine in N3 as [M1 M2].
      assert (j < List.length rs')%nat by (apply nth_error_Some; congruence).
      assert (j < List.length bits')%nat by (apply nth_error_Some; congruence).
      destruct (nth_error rs j) as [r1|] eqn:M3; [|apply nth_error_None in M3; lia].
      destruct (nth_error bits j) as [b1|] eqn:M4; [|apply nth_error_None in M4; lia].
      destruct (F j r1 b1) as (C & C1 & E1 & E2 & E3); [now apply nth_error_combine|].
      rewrite N1 in E3. injection E3 as ->. simpl.
      apply Forall2_nth in Rr as [_ Rr]. specialize (Rr j r1 r0 M3 M1).
      repeat constructor; simpl; auto; apply Rr.
  - apply construct_bbs_inv in H as (-> & A1 & A2 & g0 & g1 & g2 & bs' & e & svs & aw & gp0 & plhs
      & ah & g2w & gp1 & gp2 & gps & x3 & E1 & E2 & -> & -> & EG & E3 & E4 & E5 & E6 & E7 & G1 & G2 & G3 & ->).
    inversion Rs as [|? e' ? svs' Re Rsv]; subst.
    assert (exists x3', wsum_secrets (e' :: r1' :: d1' :: svs')
      ([pmul (-1) ah; g2w; gp2] ++ firstn (List.length (g0 :: g1 :: g2 :: bs') - 1) (gp1 :: gp2 :: gps)) = Ok x3'
      /\ e_bases x3' = e_bases x3 /\ Forall2 (ren f g) (e_secs x3) (e_secs x3')) as (x3' & E7' & EB & ES).
    { assert (K := wsum_secrets_eq _ _ _ E7). destruct K as (K1 & K2 & K3).
      unfold wsum_secrets. replace (Nat.eqb _ _) with true.
      2:{ symmetry. apply Nat.eqb_eq. rewrite <- K3. simpl. do 3 f_equal. symmetry. eapply Forall2_len; eauto. }
      match goal with |- context [?u ++ ?v] => remember (u ++ v) as bb0 end. destruct bb0 as [|b0 bb]; [discriminate|].
      eexists. split; [reflexivity|].
      assert (K' : wsum_secrets (e' :: r1' :: d1' :: svs') (b0 :: bb) =
        Ok (fold_left (fun acc sb => eadd acc (emul (fst sb) (snd sb))) (combine (r1' :: d1' :: svs') bb) (emul e' b0))).
      { unfold wsum_secrets. replace (Nat.eqb _ _) with true; [reflexivity|].
        symmetry. apply Nat.eqb_eq. rewrite <- K3. simpl. do 3 f_equal. symmetry. eapply Forall2_len; eauto. }
      apply wsum_secrets_eq in K' as (K4 & K5 & _). rewrite K4, K5, K1, K2. split; auto. }
    assert (G1' : gok (eadd (emul r1' g1) (emul r2' g2))) by (eapply gok_bases; eauto; reflexivity).
    assert (G2' : gok (eadd (eadd (emul d1' g1) (emul d2' g2)) (emul e' (pmul (-1) A1))))
      by (eapply gok_bases; eauto; reflexivity).
    assert (G3' : gok x3') by (eapply gok_bases; [symmetry; eauto|auto]).
    eexists. split.
    + unfold construct_bbs. rewrite E1, bind_lift_ok, E2, bind_lift_ok, EG.
      unfold bind at 1. rewrite lift2_dl_run by auto.
      unfold bind at 1. rewrite lift2_dl_run by auto.
      rewrite E3, bind_lift_ok, E4, bind_lift_ok, E5, bind_lift_ok, E6, bind_lift_ok, E7', bind_lift_ok.
      unfold bind at 1. rewrite lift2_dl_run by auto.
      reflexivity.
    + constructor. constructor; [apply Sim_dlx; simpl; auto|].
      constructor; [apply Sim_dlx; simpl; auto|]. constructor; [apply Sim_dlx; simpl; auto|constructor].
  - apply construct_custom_inv in H as (-> & FG & H).
    assert (EM : mapM (fun rw => lift2 (mk_dlrep (fst rw) (row_expr (snd rw)) false)) rows' st2 =
      Ok (map (fun rw => dlx (env st2) (fst rw) (row_expr (snd rw))) rows', st2) /\
      Forall2 (Sim f g) (map (fun rw => dlx (env st) (fst rw) (row_expr (snd rw))) rows)
                        (map (fun rw => dlx (env st2) (fst rw) (row_expr (snd rw))) rows')).
    { clear H. induction Rr as [|rw rw' rows rows' [El Rt] Rr IH]; [split; [reflexivity|constructor]|].
      inversion FG as [|? ? P Q]; subst. destruct (IH Q V) as [EM FS].
      assert (EB : e_bases (row_expr (snd rw)) = e_bases (row_expr (snd rw')) /\
                   Forall2 (ren f g) (e_secs (row_expr (snd rw))) (e_secs (row_expr (snd rw')))).
      { simpl. clear -Rt. induction Rt as [|t u l m [R E] Rt [IH1 IH2]]; simpl; split; auto. congruence. }
      destruct EB as [EB ES]. split.
      - simpl. unfold bind at 1. rewrite lift2_dl_run by (eapply gok_bases; eauto).
        unfold bind. rewrite EM. reflexivity.
      - simpl. constructor; auto. rewrite <- El. apply Sim_dlx; auto. }
    destruct EM as [EM FS]. unfold construct_custom, bind. rewrite EM.
    destruct FS as [|d d' l l' S1 FS]; [|destruct FS as [|d2 d2' l l' S2 FS]].
    + destruct H as [_ H]. simpl in H. lia.
    + simpl in H; subst c. exists d'. split; auto.
    + simpl in H; destruct H as [-> _]. eexists. split; [reflexivity|]. constructor; auto.
Qed.
End B.

(** The composition checks succeed on statements with one group order per secret and with
    disjunctions over secrets of their own. *)
From Coq Require Import String.
From Verif Require Import Base World Val Expr Utils Stmt Prove Verify Spec Shapes Claims Lib Lin DictProofs Keeps Tree Sigma
  Validate Commit ArithProofs Build Process Ktruth Provers Clauses Compose Supply Total.
Open Scope Z_scope.
Open Scope list_scope.

Section T.
Context {W : World}.

Lemma Ords_pstrip ord s : Ords ord (pstrip s) <-> Ords ord s.
Proof.
  induction s as [d|subs b IH|subs b ch IH|k b q|k b q con IH] using stmt_ind'; simpl; split; intros H;
    inversion H; subst; constructor; auto; rewrite ?Forall_map, ?Forall_forall in *.
  - intros x Hx. apply IH; auto.
  - intros x Hx. apply IH; auto.
  - intros x Hx. apply IH; auto.
  - intros x Hx. apply IH; auto.
Qed.
Lemma Ords_same ord a b : pstrip a = pstrip b -> Ords ord a -> Ords ord b.
Proof. intros E H. apply Ords_pstrip. rewrite <- E. now apply Ords_pstrip. Qed.

Lemma dvars_pstrip s : dvars (pstrip s) = dvars s.
Proof.
  induction s as [d|subs b IH|subs b ch IH|k b q|k b q con IH] using stmt_ind'; simpl; auto;
    f_equal; rewrite map_map; apply map_ext_Forall; auto.
Qed.
Lemma map_dvars_pstrip l : map dvars (map pstrip l) = map dvars l.
Proof. rewrite map_map. apply map_ext. apply dvars_pstrip. Qed.
Lemma clause_pstrip s pre o post : clause dvars s pre o post -> clause dvars (pstrip s) pre (pstrip o) post.
Proof.
  induction 1; simpl.
  - constructor.
  - rewrite map_app. simpl. rewrite <- (map_dvars_pstrip l1), <- (map_dvars_pstrip l2). now constructor.
Qed.
Lemma clause_pstrip_inv s : forall pre o post, clause dvars (pstrip s) pre o post ->
  exists o', clause dvars s pre o' post /\ dvars o' = dvars o.
Proof.
  induction s as [d|subs b IH|subs b ch IH|k b q|k b q con IH] using stmt_ind'; intros pre o post H; simpl in H;
    inversion H; subst.
  - match goal with X : _ ++ _ :: _ = map pstrip subs |- _ => symmetry in X; apply map_eq_app in X as (m1 & m2 & -> & <- & X) end.
    match goal with X : map pstrip m2 = _ |- _ => apply map_eq_cons in X as (y & m3 & -> & <- & <-) end.
    rewrite !map_dvars_pstrip. rewrite Forall_forall in IH.
    destruct (IH y) with (pre := pre0) (o := o) (post := post0) as (o' & C & E); auto.
    { apply in_app_iff. right. now left. }
    exists o'. split; auto. now constructor.
  - exists (SOr subs b ch). split; [constructor|]. simpl. now rewrite map_dvars_pstrip.
Qed.
Lemma Apart_pstrip s : Apart (pstrip s) <-> Apart s.
Proof.
  induction s as [d|subs b IH|subs b ch IH|k b q|k b q con IH] using stmt_ind'; simpl; split; intros H;
    inversion H; subst; constructor; auto; rewrite ?Forall_map, ?Forall_forall in *.
  - intros x Hx. apply IH; auto.
  - intros pre o post x y C. apply clause_pstrip in C. simpl in C.
    intros Hx Hy. rewrite <- dvars_pstrip in Hx. eauto.
  - intros x Hx. apply IH; auto.
  - intros pre o post x y C Hx Hy. change (SAnd (map pstrip subs) false) with (pstrip (SAnd subs b)) in C.
    apply clause_pstrip_inv in C as (o' & C & E). rewrite <- E in Hx. eauto.
  - intros x Hx. apply IH; auto.
  - intros x Hx. apply IH; auto.
Qed.
Lemma Apart_same a b : pstrip a = pstrip b -> Apart a -> Apart b.
Proof. intros E H. apply Apart_pstrip. rewrite <- E. now apply Apart_pstrip. Qed.

Lemma noext_strip_iff s : noext (strip s) <-> noext s.
Proof.
  induction s as [d|subs b IH|subs b ch IH|k b q|k b q con IH] using stmt_ind'; simpl; split; intros H;
    inversion H; subst; constructor; rewrite ?Forall_map, ?Forall_forall in *;
    intros x Hx; apply IH; auto.
Qed.

Lemma nodup_name_idx rs : NoDup (map sname rs) -> forall i j (a b : secret),
  nth_error rs i = Some a -> nth_error rs j = Some b -> sname a = sname b -> i = j.
Proof.
  intros N i j a b Ha Hb E. apply (proj1 (NoDup_nth_error (map sname rs)) N).
  - rewrite map_length. apply nth_error_Some. congruence.
  - rewrite !nth_error_map, Ha, Hb. simpl. now rewrite E.
Qed.

Lemma Apart_dls l b : Forall (fun s => exists d, s = SDL d) l -> Apart (SAnd l b).
Proof.
  intros F. constructor.
  - eapply Forall_impl; [|exact F]. intros a (d & ->). constructor.
  - intros pre o post x y C. inversion C as [|l1 s l2 ? ? ? ? C']; subst.
    apply Forall_app in F as [_ F]. inversion F as [|? ? (d & ->)]; subst. inversion C'.
Qed.
Lemma Ords_dlx ord e lhs x : (forall y p, In (y, p) (combine (e_secs x) (e_bases x)) -> ord (sname y) = order (grp p)) ->
  Ords ord (dlx e lhs x).
Proof. intros H. constructor. auto. Qed.

Lemma con_good ord k pre st c st' : construct k pre st = Ok (c, st') -> kshape k -> kord ord k ->
  NoDup (map sname (kint k)) -> Ords ord c /\ Apart c /\ noext c.
Proof.
  intros C KS KO ND. assert (Lf := proj2 (construct_leafy _ _ _ _ _ C)).
  assert (NE := leafy_noext _ _ Lf). split; [|split; auto].
  - destruct k as [H0 g H1 h x al be bnd|com g h n isp x r rs|pk sg bs sv r1 r2 d1 d2|cls rows]; cbn [construct] in C.
    + apply construct_neq_inv in C as (_ & P & _ & _ & _ & ->). simpl in KO.
      constructor. constructor; [|constructor].
      * apply Ords_dlx. simpl. intros y p [[= <- <-]|[[= <- <-]|[]]]; apply KO; simpl; auto.
      * apply Ords_dlx. simpl. intros y p [[= <- <-]|[[= <- <-]|[]]]; apply KO; simpl; auto.
      * destruct bnd; constructor; auto. apply Ords_dlx. simpl. intros y p [[= <- <-]|[]]; apply KO; simpl; auto.
    + apply construct_range_inv in C as (_ & bits & subs & KB & -> & L2 & LS & N). simpl in KO.
      constructor. apply Forall_forall. intros z Hz. apply In_nth_error in Hz as (j & Nj).
      destruct (nth_error (combine rs bits) j) as [[r0 b0]|] eqn:Ec.
      2:{ apply nth_error_None in Ec. assert (j < List.length subs)%nat by (apply nth_error_Some; congruence). lia. }
      destruct (N j r0 b0 Ec) as (C & C1 & _ & _ & Nz). rewrite Nz in Nj. injection Nj as <-.
      apply nth_error_combine in Ec as [Er _]. apply nth_error_In in Er.
      constructor. constructor; [|constructor; [|constructor]]; constructor; simpl; intros y p [[= <- <-]|[]]; auto.
    + apply construct_bbs_inv in C as (_ & A1 & A2 & g0 & g1 & g2 & bs' & e & svs & aw & gp0 & plhs & ah & g2w & gp1 & gp2 & gps & x3 &
        _ & _ & -> & -> & EG & Paw & Ppl & Pah & Pg2 & WS & G1 & G2 & G3 & ->).
      simpl in KO, KS. destruct KS as (I1 & I2 & IT & m & PR & IG & GW & GH & GP & LM & EB & _ & _).
      assert (BI : forall p, In p (g0 :: g1 :: g2 :: bs') -> grp p = I1).
      { intros p Hp. rewrite EB in Hp. unfold in_group in IG. rewrite Forall_forall in IG. apply IG.
        rewrite <- (firstn_skipn m). apply in_app_iff. now left. }
      assert (OT : order IT = order I1) by (destruct (order_pairs _ _ _ PR); auto).
      assert (KO1 : forall y, In y (e :: r1 :: d1 :: d2 :: r2 :: svs) -> ord (sname y) = order I1).
      { intros y Hy. rewrite <- (BI g0) by (now left). apply (KO y g0); [|now left].
        simpl in *. rewrite in_app_iff. simpl. tauto. }
      constructor. constructor; [|constructor; [|constructor; [|constructor]]].
      * apply Ords_dlx. simpl. intros y p [[= <- <-]|[[= <- <-]|[]]]; rewrite BI by (simpl; auto); apply KO1; simpl; auto 10.
      * apply Ords_dlx. destruct G2 as [_ (g & G2)]. simpl in G2. apply Forall_cons_iff in G2 as [X1 G2].
        apply Forall_cons_iff in G2 as [X2 G2]. apply Forall_cons_iff in G2 as [X3 _].
        assert (H : g = I1) by (rewrite <- X1; apply BI; simpl; auto).
        simpl. intros y p [[= <- <-]|[[= <- <-]|[[= <- <-]|[]]]]; rewrite ?X3, ?X2, ?X1, ?H; apply KO1; simpl; auto 10.
      * apply Ords_dlx. destruct G3 as [_ (g & G3)]. apply wsum_secrets_eq in WS as (E1 & E2 & _).
        rewrite E1, E2 in *.
        assert (g = IT).
        { simpl in G3. apply Forall_cons_iff in G3 as [X1 G3]. apply Forall_cons_iff in G3 as [X2 _]. rewrite <- X2.
          unfold pairing_chk in Pg2. destruct (pairs (grp g2) (grp (pk_w pk))) eqn:EP; [|discriminate]. injection Pg2 as <-.
          apply grp_pairing. rewrite BI, GW by (simpl; auto). auto. }
        subst g. intros y p Hy. unfold in_group in G3; rewrite Forall_forall in G3. rewrite (G3 p), OT by (apply in_combine_r in Hy; auto).
        apply KO1. apply in_combine_l in Hy. simpl in *. tauto.
    + apply construct_custom_inv in C as (_ & F & C). cbv zeta in C.
      set (ds := map _ rows) in *. assert (FO : Forall (Ords ord) ds).
      { unfold ds. apply Forall_map. simpl in KO. rewrite Forall_forall in *. intros rw Hr. apply Ords_dlx. simpl.
        specialize (KO rw Hr). rewrite Forall_forall in KO. intros y p Hyp.
        assert (In (y, p) (snd rw)) as Hin.
        { clear -Hyp. induction (snd rw) as [|[u v] l IH]; simpl in *; [tauto|]. destruct Hyp as [[= -> ->]|Hyp]; auto. }
        apply (KO _ Hin). }
      destruct ds as [|d1 [|d2 ds']]; [destruct C as [-> _]; constructor; auto| |destruct C as [-> _]; constructor; auto].
      subst c. now inversion FO.
  - destruct k as [H0 g H1 h x al be bnd|com g h n isp x r rs|pk sg bs sv r1 r2 d1 d2|cls rows]; cbn [construct] in C.
    + apply construct_neq_inv in C as (_ & P & _ & _ & _ & ->). apply Apart_dls.
      constructor; [eexists; reflexivity|]. constructor; [eexists; reflexivity|].
      destruct bnd; constructor; [eexists; reflexivity|constructor].
    + apply construct_range_inv in C as (_ & bits & subs & KB & -> & L2 & LS & N). simpl in ND.
      assert (Q : forall j z, nth_error subs j = Some z -> exists r0 C C1 b0, nth_error rs j = Some r0 /\ z = bitx (env st) h C C1 r0 b0).
      { intros j z Nj. destruct (nth_error (combine rs bits) j) as [[r0 b0]|] eqn:Ec.
        2:{ apply nth_error_None in Ec. assert (j < List.length subs)%nat by (apply nth_error_Some; congruence). lia. }
        destruct (N j r0 b0 Ec) as (C & C1 & _ & _ & Nz). rewrite Nz in Nj. injection Nj as <-.
        apply nth_error_combine in Ec as [Er _]. eauto 10. }
      constructor.
      * apply Forall_forall. intros z Hz. apply In_nth_error in Hz as (j & Nj).
        destruct (Q j z Nj) as (r0 & C & C1 & b0 & _ & ->). constructor. repeat constructor.
      * intros pre0 o post x0 y0 CL Hx Hy. inversion CL as [|l1 s l2 ? p1 ? p2 C']; subst.
        destruct (Q (List.length l1) s) as (r0 & C & C1 & b0 & Nr & ->); [apply nth_middle'|].
        inversion C'; subst. simpl in Hx.
        assert (x0 = r0) by (destruct Hx as [|[|[]]]; congruence). subst x0.
        rewrite app_nil_r in Hy. simpl in Hy. rewrite <- concat_app, <- map_app in Hy.
        apply in_concat in Hy as (vl & Hv & Hy). apply in_map_iff in Hv as (z & <- & Hz).
        intros EN. apply in_app_iff in Hz as [Hz|Hz]; apply In_nth_error in Hz as (j & Nj).
        -- destruct (Q j z) as (r2 & C2 & C3 & b2 & Nr2 & ->).
           { rewrite nth_error_app1; auto. apply nth_error_Some. congruence. }
           assert (y0 = r2) by (simpl in Hy; destruct Hy as [|[|[]]]; congruence). subst y0.
           assert (j = List.length l1) by (eapply nodup_name_idx; eauto; congruence).
           assert (j < List.length l1)%nat by (apply nth_error_Some; congruence). lia.
        -- destruct (Q (List.length l1 + S j)%nat z) as (r2 & C2 & C3 & b2 & Nr2 & ->).
           { rewrite nth_error_app2 by lia. replace (List.length l1 + S j - List.length l1)%nat with (S j) by lia. auto. }
           assert (y0 = r2) by (simpl in Hy; destruct Hy as [|[|[]]]; congruence). subst y0.
           assert (List.length l1 = List.length l1 + S j)%nat by (eapply nodup_name_idx; eauto; congruence). lia.
    + apply construct_bbs_inv in C as (_ & A1 & A2 & g0 & g1 & g2 & bs' & e & svs & aw & gp0 & plhs & ah & g2w & gp1 & gp2 & gps & x3 &
        _ & _ & -> & -> & EG & Paw & Ppl & Pah & Pg2 & WS & G1 & G2 & G3 & ->).
      apply Apart_dls. repeat (constructor; [eexists; reflexivity|]). constructor.
    + apply construct_custom_inv in C as (_ & F & C). cbv zeta in C.
      set (ds := map _ rows) in *. assert (FD : Forall (fun s => exists d, s = SDL d) ds).
      { unfold ds. apply Forall_map, Forall_forall. intros rw _. eexists. reflexivity. }
      destruct ds as [|d1 [|d2 ds']]; [destruct C as [-> _]; now apply Apart_dls| |destruct C as [-> _]; now apply Apart_dls].
      subst c. inversion FD as [|? ? (d & ->)]; subst. constructor.
Qed.

Lemma svars_strip s : svars (strip s) = svars s.
Proof.
  induction s as [d|subs b IH|subs b ch IH|k b q|k b q con IH] using stmt_ind'; simpl; auto;
    f_equal; rewrite map_map; apply map_ext_Forall; auto.
Qed.

(** primitives that are well typed and have distinct internal names *)
Definition kgood (k : kind) : Prop := kshape k /\ NoDup (map sname (kint k)).

Lemma svars_dvars s : built s -> ConOK s -> incl (svars s) (dvars s).
Proof.
  induction s as [d|subs b IH|subs b ch IH|k b q|k b q con IH] using stmt_ind'; intros B C; inversion B; inversion C; subst; simpl.
  - apply incl_refl.
  - intros x Hx. apply in_concat in Hx as (vl & Hv & Hx). apply in_map_iff in Hv as (z & <- & Hz).
    apply in_concat. exists (dvars z). split; [now apply in_map|]. rewrite Forall_forall in *. apply (IH z Hz); auto.
  - intros x Hx. apply in_concat in Hx as (vl & Hv & Hx). apply in_map_iff in Hv as (z & <- & Hz).
    apply in_concat. exists (dvars z). split; [now apply in_map|]. rewrite Forall_forall in *. apply (IH z Hz); auto.
  - match goal with X : construct _ _ _ = _, Y : strip con = strip _ |- _ =>
      apply construct_leafy in X as [_ X]; apply leafy_svars in X; rewrite <- (svars_strip con), Y, svars_strip; auto end.
Qed.
Lemma con_strip con c : strip con = strip c -> noext c -> noext con /\ pstrip con = pstrip c.
Proof.
  intros E N. assert (N' : noext con) by (apply noext_strip_iff; rewrite E; now apply noext_strip_iff).
  split; auto. now rewrite <- !noext_strip.
Qed.
Lemma noext_kgood s : noext s -> Forall kgood (kinds s).
Proof. intros H. rewrite (noext_kinds s H). constructor. Qed.

Lemma ords_pairs ord s : wfs s -> built s -> ConOK s -> Ords ord s -> Forall kgood (kinds s) ->
  forall bs, get_bases s = Ok bs -> pairs_ok ord (svars s) bs.
Proof.
  induction s as [d|subs b IH|subs b ch IH|k b q|k b q con IH] using stmt_ind'; intros WF B C O K bs G.
  - simpl in *. injection G as <-. inversion O; subst. intros s p Hp. symmetry. auto.
  - simpl in *. inversion WF; inversion B; inversion C; inversion O; subst.
    apply rbind_ok in G as (l & G & E). injection E as <-. clear WF B C O.
    revert l G. induction subs as [|x subs IHs]; intros l G; simpl in G.
    + injection G as <-. intros s p [].
    + apply rbind_ok in G as (bx & Gx & G). apply rbind_ok in G as (bl & Gl & G). injection G as <-.
      repeat match goal with X : Forall _ (x :: subs) |- _ => apply Forall_cons_iff in X as [? ?] end.
      simpl in K. apply Forall_app in K as [K1 K2]. simpl.
      intros s p Hp. rewrite combine_app in Hp by (apply (get_bases_length x); auto).
      apply in_app_iff in Hp as [Hp|Hp]; [|eapply IHs; eauto].
      match goal with X : wfs x -> _ |- _ => eapply X; eauto end.
  - simpl in *. inversion WF; inversion B; inversion C; inversion O; subst.
    apply rbind_ok in G as (l & G & E). injection E as <-. clear WF B C O.
    revert l G. induction subs as [|x subs IHs]; intros l G; simpl in G.
    + injection G as <-. intros s p [].
    + apply rbind_ok in G as (bx & Gx & G). apply rbind_ok in G as (bl & Gl & G). injection G as <-.
      repeat match goal with X : Forall _ (x :: subs) |- _ => apply Forall_cons_iff in X as [? ?] end.
      simpl in K. apply Forall_app in K as [K1 K2]. simpl.
      intros s p Hp. rewrite combine_app in Hp by (apply (get_bases_length x); auto).
      apply in_app_iff in Hp as [Hp|Hp]; [|eapply IHs; eauto].
      match goal with X : wfs x -> _ |- _ => eapply X; eauto end.
  - inversion B.
  - inversion WF; inversion B; inversion C; inversion O; subst. simpl in G |- *.
    simpl in K. inversion K as [|? ? [K1 K2] _]; subst.
    match goal with X : construct _ _ _ = _, Y : strip con = strip _ |- _ =>
      destruct (con_good ord _ _ _ _ _ X) as (O1 & _ & N1); auto; destruct (con_strip _ _ Y N1) as [N2 E2] end.
    apply IH; auto.
    + now apply noext_ConOK.
    + eapply Ords_same; [symmetry; exact E2|auto].
    + now apply noext_kgood.
Qed.

Lemma vgo_ok ord e s : wfs s -> built s -> ConOK s -> Ords ord s -> Forall kgood (kinds s) ->
  validate_group_orders e s = Ok tt.
Proof.
  intros WF B C O K. destruct (built_bases s B) as (bs & G).
  assert (P := ords_pairs ord s WF B C O K bs G).
  destruct (vgo_cases e s bs B G (get_bases_length s WF bs G)) as [[V _]|[_ (x & p & y & q & Hx & Hy & [N _] & NE)]]; auto.
  exfalso. apply NE. rewrite (P _ _ Hx), (P _ _ Hy). now rewrite N.
Qed.

Lemma clause_dvars s pre o post : clause svars s pre o post -> built s -> ConOK s ->
  exists pre' post', clause dvars s pre' o post' /\ incl pre pre' /\ incl post post' /\ incl (svars o) (dvars o).
Proof.
  assert (L : forall l, Forall built l -> Forall ConOK l -> incl (List.concat (map svars l)) (List.concat (map dvars l))).
  { intros l Fb Fc x Hx. apply in_concat in Hx as (vl & Hv & Hx). apply in_map_iff in Hv as (z & <- & Hz).
    apply in_concat. exists (dvars z). split; [now apply in_map|]. rewrite Forall_forall in *. apply svars_dvars; auto. }
  induction 1 as [subs b c|l1 s l2 b pre o post CL IH]; intros B C.
  - exists [], []. split; [constructor|]. split; [apply incl_refl|]. split; [apply incl_refl|]. now apply svars_dvars.
  - inversion B as [|? ? FB| |]; subst. inversion C as [|? ? FC| |]; subst.
    apply Forall_app in FB as [B1 B2]. apply Forall_app in FC as [C1 C2].
    apply Forall_cons_iff in B2 as [Bs B2]. apply Forall_cons_iff in C2 as [Cs C2].
    destruct (IH Bs Cs) as (pre' & post' & CL' & I1 & I2 & I3).
    exists (List.concat (map dvars l1) ++ pre'), (post' ++ List.concat (map dvars l2)).
    split; [now constructor|]. repeat split; auto.
    + apply incl_app; [apply incl_appl, L; auto|now apply incl_appr].
    + apply incl_app; [now apply incl_appl|apply incl_appr, L; auto].
Qed.

Lemma Apart_checked ord e s : wfs s -> built s -> ConOK s -> Ords ord s -> Apart s -> Forall kgood (kinds s) -> Checked e s.
Proof.
  induction s as [d|subs b IH|subs b ch IH|k b q|k b q con IH] using stmt_ind'; intros WF B C O A K.
  - constructor.
  - constructor.
    + unfold validate_and. rewrite (vgo_ok ord) by auto. cbn [rbind].
      destruct (reocc_and e subs b B) as [[V _]|[_ (pre & o & post & x & y & CL & Hx & Hy & [N _])]]; auto.
      exfalso. destruct (clause_dvars _ _ _ _ CL B C) as (pre' & post' & CL' & I1 & I2 & I3).
      inversion A as [|? ? _ AP| |]; subst. apply (AP pre' o post' x y); auto.
      apply in_app_iff. apply in_app_iff in Hy as [Hy|Hy]; auto.
    + inversion WF; inversion B; inversion C; inversion O; inversion A; subst.
      simpl in K. rewrite Forall_forall in *. intros x Hx. apply IH; auto.
      rewrite Forall_forall. intros k Hk. apply K. eapply kinds_sub; eauto.
  - constructor.
    + now apply (vgo_ok ord).
    + inversion WF; inversion B; inversion C; inversion O; inversion A; subst.
      simpl in K. rewrite Forall_forall in *. intros x Hx. apply IH; auto.
      rewrite Forall_forall. intros k Hk. apply K. eapply kinds_sub; eauto.
  - inversion B.
  - inversion WF; inversion B; inversion C; inversion O; subst. constructor.
    simpl in K. inversion K as [|? ? [K1 K2] _]; subst.
    match goal with X : construct _ _ _ = _, Y : strip con = strip _ |- _ =>
      destruct (con_good ord _ _ _ _ _ X) as (O1 & A1 & N1); auto; destruct (con_strip _ _ Y N1) as [N2 E2] end.
    apply IH; auto.
    + now apply noext_ConOK.
    + eapply Ords_same; [symmetry; exact E2|auto].
    + eapply Apart_same; [symmetry; exact E2|auto].
    + now apply noext_kgood.
Qed.
End T.

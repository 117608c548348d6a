(** Completeness of single primitives, as instances of the theorems about trees. *)
From Coq Require Import String Znumtheory.
From Verif Require Import Base World Val Expr Utils Stmt Prove Verify Spec Shapes Claims Lib Lin DictProofs Keeps Tree Sigma
  Validate Commit ArithProofs Build Process Ktruth Provers Honest Complete Clauses Compose Supply Total Total2 Total3 Total4 Complete2 Sound2.
Open Scope Z_scope.
Open Scope list_scope.

Section P.
Context {W : World}.

Lemma in_firstn_in {A} n (l : list A) x : In x (firstn n l) -> In x l.
Proof. intros H. rewrite <- (firstn_skipn n l). apply in_or_app. auto. Qed.
Lemma app_inv_length {A} (a b c d : list A) : a ++ b = c ++ d -> List.length a = List.length c -> c = a /\ d = b.
Proof.
  revert c. induction a as [|x a IH]; intros [|y c] E L; simpl in *; try lia; [auto|]. injection E as <- E.
  destruct (IH c E) as [-> ->]; [lia|auto].
Qed.

(** ** Renamings *)
Lemma rename_exists (l : list secret) : forall l', NoDup (map sname l) -> NoDup (map sname l') -> List.length l = List.length l' ->
  exists f g, Forall2 (ren f g) l l'.
Proof.
  induction l as [|x l IH]; intros [|y l'] N N' L; simpl in L; try discriminate; [exists (fun n => n), (fun n => n); constructor|].
  simpl in N, N'. inversion N as [|? ? Nx N1]; subst. inversion N' as [|? ? Ny N2]; subst.
  destruct (IH l' N1 N2) as (f & g & H); [lia|].
  exists (fun n => if bytes_eqb n (sname x) then sname y else f n), (fun n => if bytes_eqb n (sname y) then sname x else g n).
  assert (B : forall n, bytes_eqb n n = true) by (intros n; now apply bytes_eqb_eq).
  constructor; [split; now rewrite B|].
  assert (Ix : forall a, In a l -> sname a <> sname x) by (intros a Ha E; apply Nx; rewrite <- E; now apply in_map).
  assert (Iy : forall a, In a l' -> sname a <> sname y) by (intros a Ha E; apply Ny; rewrite <- E; now apply in_map).
  clear -H Ix Iy. induction H as [|a b l l' [H1 H2] H IH]; constructor.
  - split.
    + destruct (bytes_eqb (sname a) (sname x)) eqn:E; [apply bytes_eqb_eq in E; exfalso; apply (Ix a); [now left|auto]|auto].
    + destruct (bytes_eqb (sname b) (sname y)) eqn:E; [apply bytes_eqb_eq in E; exfalso; apply (Iy b); [now left|auto]|auto].
  - apply IH; intros c Hc; [apply Ix|apply Iy]; now right.
Qed.

Lemma nodup_wfL l : NoDup (map sname l) -> NoDup (map sid l) -> wfL l.
Proof.
  intros A B s t Hs Ht.
  assert (P : forall (C : Type) (f : secret -> C), NoDup (map f l) -> f s = f t -> s = t).
  { intros C f N E. clear A B. induction l as [|x l0 IH]; [destruct Hs|]. simpl in N. inversion N as [|? ? Nx N1]; subst.
    destruct Hs as [->|Hs], Ht as [->|Ht]; auto; exfalso; apply Nx; [rewrite E|rewrite <- E]; now apply in_map. }
  split; intros E; [apply P in E; auto|apply P in E; auto]; now subst.
Qed.

(** ** The verdict on an honest proof *)
Lemma prove_verdict U w s sd msg st z s' st' :
  honest U w s sd (env st) -> prove s sd msg st = Ok ((z, s'), st') ->
  forall f g sv stv, Pat f g s sv -> Forall (vkOK (env stv)) (kinds sv) -> n_pre z <> VNone ->
  exists sv', verify sv z msg stv = match full_validate s' with Ok _ => Ok ((true, sv'), stv) | Err e => Err e end.
Proof.
  intros HH HP f g sv stv Pt VK PN. unfold prove in HP.
  apply bind_ok in HP as ([[p|] s1] & st1 & GP & HP); [|discriminate].
  apply bind_ok in HP as ([[z' p'] s'']  & st2 & GN & HP). apply ret_ok in HP as [HP ->]. injection HP as -> ->.
  unfold get_nizk_proof in GN.
  apply bind_ok in GN as ([[pre p2] s2] & st3 & PC & GN).
  apply bind_ok in GN as ([com p3] & st4 & IC & GN).
  apply bind_ok in GN as (h & st5 & Hh & GN). apply lift_ok in Hh as [Hh ->].
  apply bind_ok in GN as (c & st5 & Hc & GN). apply lift_ok in Hc as [Hc ->].
  apply bind_ok in GN as (r & st5 & CR & GN). apply ret_ok in GN as [GN ->]. injection GN as <- <- <-.
  destruct (honest_ready _ _ _ _ _ _ _ _ _ _ _ _ HH GP PC) as (w' & L & HL & _ & PS & PO & RD).
  destruct (honest_done w' L s2 pre p2 None st3 com p3 st4 HL PO RD eq_refl IC) as (K & ord & D).
  destruct (respond_ok _ _ _ _ _ _ D c st4) as (r' & CR' & RC & CO).
  rewrite CR in CR'. injection CR' as <- _.
  destruct PO as (P1 & P2 & P3 & P4 & P5 & P6 & P7 & P8).
  assert (Pt2 : Pat f g s2 sv) by (eapply Pat_same; [symmetry; exact PS|exact Pt]).
  destruct (full_validate s2) as [[]|e] eqn:V.
  - destruct (accept_nizk f g s2 sv pre c r com _ stv h msg P1 P4 Pt2 VK V CO RC Hh Hc) as [sv' E]. exists sv'. exact E.
  - destruct (process_ok f g s2 sv pre stv P1 P4 Pt2 VK) as (sv' & E & S). exists sv'.
    unfold verify, verify_nizk. cbn [n_pre n_hash n_chal n_resp] in *.
    replace (is_none pre) with false by (destruct pre; auto; congruence).
    unfold bind at 1. rewrite E. unfold check_statement.
    rewrite <- (Sim_prehash f g s2 sv' S), Hh. cbn [rbind]. rewrite val_eqb_refl.
    rewrite bind_lift_ok. unfold bind at 1, get_env.
    unfold pre_validation. rewrite <- (Sim_validate f g s2 sv' S), V. reflexivity.
Qed.

(** ** One primitive *)
Record single (w : bytes -> Z) (ord : bytes -> Z) (k : kind) (sd : dict Z) (e : nat -> option Z) : Prop := {
  si_names : wfL (kuser k ++ kint k);
  si_int : NoDup (map sid (kint k));
  si_disj : forall x y, In x (kint k) -> In y (kuser k) -> sid x <> sid y;
  si_true : KTrue w k;
  si_shape : kshape k;
  si_ord : kord ord k;
  si_dict : entries_ok (kuser k) w sd;
  si_env : agree w e (kuser k);
  si_known : forall x, In x (kuser k) -> known sd x \/ e (sid x) <> None;
  si_real : kreal w k }.

Lemma single_honest w ord k b sd e : single w ord k sd e -> honest (kuser k) w (SExt k b VNone None) sd e.
Proof.
  intros H. constructor; rewrite ?kints_one; try apply H.
  - constructor. apply incl_refl.
  - constructor. apply H.
  - constructor.
Qed.

Lemma prove_ext k b sd msg st z s' st' : prove (SExt k b VNone None) sd msg st = Ok ((z, s'), st') ->
  exists st1 pre st2 con, update_secret_values sd st = Ok (tt, st1) /\ kprecommit k st1 = Ok (pre, st2) /\
    s' = SExt k b pre (Some con) /\ n_pre z = pre.
Proof.
  intros H. unfold prove in H.
  apply bind_ok in H as ([[p|] s1] & st1 & GP & HP); [|discriminate].
  simpl in GP. apply bind_ok in GP as ([] & sta & U & GP). minvs.
  unfold get_nizk_proof in *. minvs. simpl in *. minvs. destruct a0 as [com pp], a as [[za pa] sa]. minvs.
  match goal with K : kprecommit k ?a = Ok (?p, ?b) |- _ => exists a, p, b; eexists; repeat split; eauto end.
Qed.

Lemma single_complete w ord k sd msg st : single w ord k sd (env st) ->
  (exists z pre con st1 st2 st', prove (SExt k false VNone None) sd msg st = Ok ((z, SExt k false pre (Some con)), st') /\
     update_secret_values sd st = Ok (tt, st1) /\ kprecommit k st1 = Ok (pre, st2) /\
     (~ neq_neutral k pre -> forall f g k' stv, KSim f g k k' -> vkOK (env stv) k' ->
      exists sv', verify (SExt k' false VNone None) z msg stv = Ok ((true, sv'), stv)) /\
     (n_pre z <> VNone -> forall f g k' stv, KSim f g k k' -> vkOK (env stv) k' ->
      exists sv', verify (SExt k' false VNone None) z msg stv =
        match kvalidate k pre with Ok _ => Ok ((true, sv'), stv) | Err e => Err e end)) \/
  oversized (SExt k false VNone None) sd st.
Proof.
  intros S. destruct (nizk_complete (kuser k) w (SExt k false VNone None) sd ord msg st) as [H|H].
  - now apply single_honest with ord.
  - constructor. apply S.
  - constructor; apply S.
  - constructor; apply S.
  - constructor.
  - left. destruct H as (z & s' & st' & P & AC).
    destruct (prove_ext _ _ _ _ _ _ _ _ P) as (st1 & pre & st2 & con & U & K & -> & E).
    exists z, pre, con, st1, st2, st'. split; [auto|]. split; [auto|]. split; [auto|]. split.
    { intros N f g k' stv KS VK. apply (AC N f g); simpl; auto. now constructor. }
    intros N f g k' stv KS VK.
    eapply (prove_verdict (kuser k) w _ sd msg st z _ st' (single_honest w ord k false sd (env st) S) P f g (SExt k' false VNone None)); auto.
    + constructor. exact KS.
    + simpl. auto.
  - right. exact H.
Qed.

(** *** Inequality *)
(** [x] gets the value [v] from its object or from the dictionary, and no other value. *)
Lemma given_known x v sd e : given x v sd e -> known sd x \/ e (sid x) <> None.
Proof.
  intros (A & _ & [N|N]); [left|right; exact N]. destruct sd as [|[k u] sd]; [congruence|].
  destruct (A k u) as [-> ->]; [now left|]. exists x, v. split; [now left|auto].
Qed.

Lemma update_value x v sd st st1 : given x v sd (env st) -> update_secret_values sd st = Ok (tt, st1) ->
  env st1 (sid x) = Some v /\ tape st1 = tape st /\ pos st1 = pos st.
Proof.
  intros (A & B & C) U. unfold update_secret_values in U. injection U as <-. simpl. split; [|auto].
  destruct st as [e t n]. simpl in *. clear t n. revert e B C.
  induction sd as [|[k u] sd IH]; intros e B C; simpl.
  - destruct C as [C|C]; [congruence|]. destruct (e (sid x)) as [u|] eqn:E; [|congruence]. f_equal. auto.
  - destruct (A k u) as [-> ->]; [now left|]. apply IH.
    + intros k' u' H. apply A. now right.
    + intros u. rewrite upd_same. congruence.
    + right. rewrite upd_same. discriminate.
Qed.

Lemma neq_complete H0 g H1 h x al be bnd v sd msg st :
  NoDup (map sname [x; al; be]) -> NoDup (map sid [x; al; be]) -> has_sub (grp g) = true -> grp H1 = grp g -> grp h = grp g ->
  H0 = pmul v g -> given x v sd (env st) ->
  let q := order (grp g) in let b := tape st (pos st) mod q in
  (exists z s' st', prove (mk_neq H0 g H1 h x al be bnd false) sd msg st = Ok ((z, s'), st') /\
     forall x' al' be' stv, NoDup (map sname [x'; al'; be']) ->
     let sv := mk_neq H0 g H1 h x' al' be' bnd false in
     (b <> 0 -> H1 <> pmul v h -> prime q -> exists sv', verify sv z msg stv = Ok ((true, sv'), stv)) /\
     (b = 0 \/ H1 = pmul v h -> verify sv z msg stv = Err EValidation)) \/
  oversized (mk_neq H0 g H1 h x al be bnd false) sd st.
Proof.
  intros N1 N2 HS G1 Gh E0 GV q b. set (k := KNeq H0 g H1 h x al be bnd).
  assert (G0 : grp H0 = grp g) by (rewrite E0; apply grp_mul).
  assert (GV2 := GV). destruct GV2 as (A & B & C).
  assert (S : single (fun _ => v) (fun _ => q) k sd (env st)).
  { constructor.
    - apply nodup_wfL; auto.
    - simpl in N2 |- *. now inversion N2.
    - intros y z Hy [<-|[]]. simpl in N2, Hy. inversion N2 as [|? ? N3 N4]; subst. intros E. apply N3. rewrite <- E.
      destruct Hy as [<-|[<-|[]]]; [now left|right; now left].
    - constructor; auto; congruence.
    - repeat split; auto.
    - intros y p _ Hp. simpl in Hp. unfold q. destruct Hp as [<-|[<-|[<-|[<-|[]]]]]; congruence.
    - intros k' u Hk. destruct (A k' u Hk) as [-> ->]. split; [now left|auto].
    - intros y u [<-|[]] Hu. now apply B.
    - intros y [<-|[]]. eapply given_known; eauto.
    - exact I. }
  destruct (single_complete _ _ k sd msg st S) as [(z & pre & con & st1 & st2 & st' & P & U & K & _ & V)|OV]; [left|right; exact OV].
  exists z, (SExt k false pre (Some con)), st'. split; [exact P|].
  destruct (update_value x v sd st st1 GV U) as (Ev & Et & Ep).
  assert (EP : pre = VPt (pmul b (padd (pmul v h) (pneg H1)))).
  { simpl in K. minvs. repeat match goal with
      | H : draw _ _ = Ok _ |- _ => unfold draw in H; injection H as ? ?; subst
      | H : value_of _ _ = Ok _ |- _ => apply value_of_ok in H as [-> H]
      | H : set_value _ _ _ = Ok _ |- _ => unfold set_value in H; injection H as ?; subst end. simpl in *.
    assert (X1 : sid x <> sid al /\ sid x <> sid be).
    { simpl in N2. inversion N2 as [|? ? N3 N4]; subst. simpl in N3. intuition. }
    rewrite !upd_other in * by tauto. rewrite Ev in *.
    repeat match goal with H : Some _ = Some _ |- _ => injection H as ?; subst end.
    match goal with H : psub_chk _ _ = Ok _ |- _ => apply psub_chk_ok in H as [? ->] end.
    unfold b, q. now rewrite Et, Ep. }
  intros x' al' be' stv N3 sv.
  destruct (rename_exists [x; al; be] [x'; al'; be'] N1 N3 eq_refl) as (f & f' & R).
  inversion R as [|? ? ? ? R1 R2]; subst. inversion R2 as [|? ? ? ? R3 R4]; subst. inversion R4 as [|? ? ? ? R5 R6]; subst.
  assert (EZ : n_pre z <> VNone).
  { destruct (prove_ext _ _ _ _ _ _ _ _ P) as (? & ? & ? & ? & _ & _ & EE & ->). injection EE as <- _. discriminate. }
  destruct (V EZ f f' (KNeq (pmul v g) g H1 h x' al' be' bnd) stv) as [sv' HV]; [now constructor|exact I|].
  fold (mk_neq (pmul v g) g H1 h x' al' be' bnd false) in HV. fold sv in HV.
  assert (GD : grp (padd (pmul v h) (pneg H1)) = grp g) by (rewrite grp_add; rewrite ?grp_mul, ?grp_neg; congruence).
  split.
  - intros Nb Nh PR. exists sv'. rewrite HV. simpl.
    destruct (pt_eqb (pmul b (padd (pmul v h) (pneg H1))) (inf (grp g))) eqn:EQ; [|reflexivity]. exfalso.
    apply pt_eqb_spec in EQ.
    assert (I : padd (pmul v h) (pneg H1) = inf (grp g)).
    { rewrite <- GD. eapply prime_mul_inf; [now rewrite GD|rewrite GD; exact EQ|]. rewrite GD. fold q.
      intros D. apply Nb. assert (0 < q) by (unfold q; pose proof (order_gt1 (grp g)); lia).
      apply Znumtheory.Zdivide_mod in D. unfold b in *. rewrite Z.mod_mod in D by lia. exact D. }
    apply Nh. apply (add_inf_eq (grp g)) in I; rewrite ?grp_mul, ?grp_neg; auto.
    rewrite I. unfold pneg. rewrite mul_mul. now rewrite mul_1.
  - intros HB. rewrite HV. simpl.
    replace (pt_eqb _ _) with true; [reflexivity|]. symmetry. apply pt_eqb_spec. destruct HB as [Hb|Hh].
    + rewrite Hb, mul_0. congruence.
    + rewrite Hh, add_neg_r, grp_mul, mul_inf. congruence.
Qed.

(** *** Power-of-two ranges *)
Lemma mk_range2_eq com g h n x r rs st : mk_range2 com g h n x r rs st =
  Ok (SExt (KRange com g h n (is_some (env st (sid x)) && is_some (env st (sid r))) x r rs) false VNone None, st).
Proof. reflexivity. Qed.
Lemma range2_complete com g h n x r rs v t sd msg st s :
  mk_range2 com g h n x r rs st = Ok (s, st) ->
  NoDup (map sname (x :: r :: rs)) -> NoDup (map sid (x :: r :: rs)) -> List.length rs = n -> (2 <= n)%nat -> has_sub (grp g) = true -> grp h = grp g ->
  com = padd (pmul v g) (pmul t h) -> 0 <= v < 2 ^ Z.of_nat n ->
  env st (sid x) = Some v -> env st (sid r) = Some t -> (forall k u, In (k, u) sd -> (k = x /\ u = v) \/ (k = r /\ u = t)) ->
  (exists z s' st', prove s sd msg st = Ok ((z, s'), st') /\
     forall x' r' rs' sv stv, NoDup (map sname rs') -> List.length rs' = n ->
       mk_range2 com g h n x' r' rs' stv = Ok (sv, stv) -> env stv (sid x') = None ->
       exists sv', verify sv z msg stv = Ok ((true, sv'), stv)) \/
  oversized s sd st.
Proof.
  intros MK N1 N2 L2 Ln HS Gh EC RV Ex Er SD. rewrite mk_range2_eq, Ex, Er in MK. injection MK as <-. subst n com.
  set (k := KRange _ g h (List.length rs) true x r rs).
  assert (xr : sname r <> sname x) by (clear - N1; simpl in N1; apply NoDup_cons_iff in N1 as [N3 N4]; simpl in N3; intuition).
  set (w := fun n => if bytes_eqb n (sname x) then v else t).
  assert (wx : w (sname x) = v) by (unfold w; now rewrite (proj2 (bytes_eqb_eq _ _) eq_refl)).
  assert (wr : w (sname r) = t).
  { unfold w. destruct (bytes_eqb (sname r) (sname x)) eqn:E; auto. apply bytes_eqb_eq in E. congruence. }
  assert (S : single w (fun _ => order (grp h)) k sd (env st)).
  { constructor.
    - apply nodup_wfL; auto.
    - simpl in N2 |- *. apply NoDup_cons_iff in N2 as [N3 N4]. now apply NoDup_cons_iff in N4.
    - intros y z Hy Hz E. simpl in Hy, Hz, N2. apply NoDup_cons_iff in N2 as [N3 N4]. apply NoDup_cons_iff in N4 as [N5 N6].
      destruct Hz as [<-|[<-|[]]]; [apply N3; right; rewrite <- E; now apply in_map|apply N5; rewrite <- E; now apply in_map].
    - constructor; auto. now rewrite wx, wr.
    - repeat split; auto. rewrite grp_add; rewrite ?grp_mul; congruence.
    - intros y _. reflexivity.
    - intros k' u Hk. destruct (SD k' u Hk) as [[-> ->]|[-> ->]]; simpl; auto.
    - intros y u [<-|[<-|[]]] Hu; rewrite ?Ex, ?Er in Hu; congruence.
    - intros y [<-|[<-|[]]]; right; congruence.
    - simpl. rewrite wx. auto. }
  destruct (single_complete _ _ k sd msg st S) as [(z & pre & con & st1 & st2 & st' & P & U & K & V & _)|OV]; [left|right; exact OV].
  exists z, (SExt k false pre (Some con)), st'. split; [exact P|].
  intros x' r' rs' sv stv N3 L3 MK Ex'. rewrite mk_range2_eq, Ex' in MK. injection MK as <-.
  destruct (rename_exists rs rs') as (f & f' & R); auto.
  { simpl in N1. apply NoDup_cons_iff in N1 as [N4 N5]. now apply NoDup_cons_iff in N5. }
  destruct (V (fun F => F) f f' (KRange (padd (pmul v g) (pmul t h)) g h (List.length rs) false x' r' rs') stv) as [sv' HV]; [now constructor|exact I|].
  exists sv'. exact HV.
Qed.

(** *** Signatures *)
Lemma bbs_complete pk sg es ss ms r1 r2 d1 d2 w sd msg sb st s :
  let sv := es :: ss :: ms in let is := [r1; r2; d1; d2] in
  mk_bbs sv pk (Some sg) r1 r2 d1 d2 false sb = Ok (s, st) ->
  wfL (sv ++ is) -> NoDup (map sid is) -> (forall x y, In x is -> In y sv -> sid x <> sid y) ->
  bbs_pk_ok pk -> in_group (grp (sig_A sg)) (pk_gens pk) -> (3 <= List.length sv <= List.length (pk_gens pk))%nat ->
  w (sname es) = sig_e sg -> w (sname ss) = sig_s sg ->
  bbs_valid pk sg (sig_e sg) (sig_s sg) (map (fun m => w (sname m)) ms) ->
  entries_ok sv w sd -> agree w (env sb) ms -> (forall m, In m ms -> known sd m \/ env sb (sid m) <> None) ->
  (exists z s' st', prove s sd msg st = Ok ((z, s'), st') /\
     forall es' ss' ms' r1' r2' d1' d2' f g sb' svst stv,
       Forall2 (ren f g) (sv ++ is) ((es' :: ss' :: ms') ++ [r1'; r2'; d1'; d2']) ->
       mk_bbs (es' :: ss' :: ms') pk None r1' r2' d1' d2' false sb' = Ok (svst, stv) ->
       exists sv', verify svst z msg stv = Ok ((true, sv'), stv)) \/
  oversized s sd st.
Proof.
  intros sv is MK WF ND DJ PK GA LN Ee Es BV SD AG KN.
  unfold mk_bbs in MK. destruct (firstn (List.length sv) (pk_gens pk)) as [|g0 gens] eqn:EF; [discriminate|]. rewrite <- EF in *.
  assert (MK2 : s = SExt (KBBS pk (Some sg) (firstn (List.length sv) (pk_gens pk)) sv r1 r2 d1 d2) false VNone None /\
     env st = upd (upd (env sb) (sid es) (Some (sig_e sg))) (sid ss) (Some (sig_s sg))).
  { unfold bind, ret, set_value, sv in MK. cbn [env tape pos] in MK. injection MK as <- <-. split; reflexivity. }
  clear MK. destruct MK2 as [-> ENV].
  assert (Isv : forall x, In x sv -> In x (sv ++ is)) by (intros; apply in_or_app; auto).
  assert (AGS : agree w (env st) sv).
  { intros y u Hy Hu. rewrite ENV in Hu. unfold upd in Hu.
    destruct (Nat.eqb (sid y) (sid ss)) eqn:E1.
    { apply Nat.eqb_eq, (WF y ss) in E1; [|now apply Isv|apply Isv; right; now left]. injection Hu as <-. congruence. }
    destruct (Nat.eqb (sid y) (sid es)) eqn:E2.
    { apply Nat.eqb_eq, (WF y es) in E2; [|now apply Isv|apply Isv; now left]. injection Hu as <-. congruence. }
    destruct Hy as [->|[->|Hy]]; [rewrite Nat.eqb_refl in E2; discriminate|rewrite Nat.eqb_refl in E1; discriminate|].
    now apply AG. }
  set (k := KBBS pk (Some sg) (firstn (List.length sv) (pk_gens pk)) sv r1 r2 d1 d2).
  destruct PK as (G1 & G2 & GT & PP & IG & GW & GH & GP).
  assert (EA : grp (sig_A sg) = G1).
  { destruct (pk_gens pk) as [|p0 ps] eqn:EG; [discriminate|]. inversion GA as [|? ? Ga _]; subst. inversion IG; subst. congruence. }
  assert (S : single w (fun _ => order G1) k sd (env st)).
  { constructor; auto.
    - unfold k, sv. apply KT_BBS; auto.
      + exists G1, G2, GT. auto.
      + simpl in LN. lia.
      + rewrite Ee, Es. exact BV.
    - exists G1, G2, GT, (List.length sv). repeat (split; auto). intros a Ha. now injection Ha as <-.
    - intros y b _ Hb. unfold in_group in IG. rewrite Forall_forall in IG. rewrite (IG b); auto. eapply in_firstn_in; eauto.
    - intros y Hy. simpl in Hy. rewrite ENV. unfold upd.
      destruct (Nat.eqb (sid y) (sid ss)) eqn:E1; [right; discriminate|].
      destruct (Nat.eqb (sid y) (sid es)) eqn:E2; [right; discriminate|].
      destruct Hy as [->|[->|Hy]]; [rewrite Nat.eqb_refl in E2; discriminate|rewrite Nat.eqb_refl in E1; discriminate|].
      now apply KN.
    - simpl. discriminate. }
  destruct (single_complete _ _ k sd msg st S) as [(z & pre & con & st1 & st2 & st' & P & U & K & V & _)|OV]; [left|right; exact OV].
  exists z, (SExt k false pre (Some con)), st'. split; [exact P|].
  intros es' ss' ms' r1' r2' d1' d2' f g sb' svst stv R MK.
  assert (ML : List.length ms' = List.length ms).
  { apply Forall2_len in R. unfold sv, is in R. rewrite !app_length in R. simpl in R. lia. }
  unfold mk_bbs in MK. destruct (firstn (List.length (es' :: ss' :: ms')) (pk_gens pk)) as [|g1 gens'] eqn:EF'; [discriminate|].
  unfold bind, ret in MK. injection MK as <- <-. rewrite <- EF'. clear EF'.
  apply Forall2_app_inv_l in R as (a & b & R1 & R2 & EQ).
  assert (a = es' :: ss' :: ms' /\ b = [r1'; r2'; d1'; d2']) as [-> ->].
  { apply app_inv_length in EQ; [now destruct EQ|]. apply Forall2_len in R1. rewrite <- R1. unfold sv. simpl. lia. }
  inversion R2 as [|? ? ? ? Q1 R3]; subst. inversion R3 as [|? ? ? ? Q2 R4]; subst. inversion R4 as [|? ? ? ? Q3 R5]; subst.
  inversion R5 as [|? ? ? ? Q4 R6]; subst.
  apply (V (fun F => F) f g); [|exact I]. unfold k.
  replace (List.length sv) with (List.length (es' :: ss' :: ms')) by (unfold sv; simpl; lia).
  constructor; auto.
Qed.
End P.

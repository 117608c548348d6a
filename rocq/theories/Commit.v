(** Commit and respond: the recomputed commitment is the commitment, responses are consistent. *)
From Coq Require Import String.
From Verif Require Import Base World Val Expr Utils Stmt Prove Verify Spec Shapes Lib DictProofs Keeps Tree Sigma Validate.
Open Scope Z_scope.
Open Scope list_scope.

Inductive Forall3 {A B C} (R : A -> B -> C -> Prop) : list A -> list B -> list C -> Prop :=
| F3nil : Forall3 R [] [] []
| F3cons a b c l m n : R a b c -> Forall3 R l m n -> Forall3 R (a :: l) (b :: m) (c :: n).

Section C.
Context {W : World}.

(** A representation that holds for the valuation [w], whose prover knows the values. *)
Definition dl_ok (w : bytes -> Z) (g : gid) (d : dlrep) : Prop :=
  in_group g (dl_bases d) /\ dl_bases d <> [] /\
  List.length (dl_secs d) = List.length (dl_bases d) /\
  dl_lhs d = lincomb g (map (fun s => w (sname s)) (dl_secs d)) (dl_bases d) /\
  forall s, In s (dl_secs d) -> forall e, dget e (dl_vals d) s = Some (w (sname s)).

(** A statement with its prover, ready to commit. *)
Inductive Ready (w : bytes -> Z) : stmt -> prover -> Prop :=
| RyDL d o g : dl_ok w g d -> Ready w (SDL d) (PDL o)
| RyAnd subs b ps : Forall2 (Ready w) subs ps -> Ready w (SAnd subs b) (PAnd ps)
| RyOr l1 x l2 b ch sp t1 t2 :
    Forall2 SimOK l1 t1 -> Forall2 SimOK l2 t2 -> Ready w x sp ->
    Ready w (SOr (l1 ++ x :: l2) b ch) (POr (List.length l1) sp (t1 ++ t2))
| RyExt k b pre con sv q : Ready w con q -> Ready w (SExt k b pre (Some con)) (PExt sv (Some (Some q))).

(** After the commitment: [K] gives the randomizers, [ord] the moduli in the current scope. *)
Inductive Done (w : bytes -> Z) : (bytes -> Z) -> (bytes -> Z) -> stmt -> prover -> val -> Prop :=
| DnDL K ord d g : dl_ok w g d -> (forall s, In s (dl_secs d) -> ord (sname s) = order g) ->
    Done w K ord (SDL d) (PDL (Some (map (fun s => K (sname s)) (dl_secs d))))
      (VPt (lincomb g (map (fun s => K (sname s)) (dl_secs d)) (dl_bases d)))
| DnAnd K ord subs b ps coms : Forall3 (Done w K ord) subs ps coms ->
    Done w K ord (SAnd subs b) (PAnd ps) (VList coms)
| DnOr K ord K' ord' l1 x l2 b ch sp t1 t2 com :
    Forall2 SimOK l1 t1 -> Forall2 SimOK l2 t2 -> Done w K' ord' x sp com ->
    Done w K ord (SOr (l1 ++ x :: l2) b ch) (POr (List.length l1) sp (t1 ++ t2))
      (VList (map t_com t1 ++ com :: map t_com t2))
| DnExt K ord k b pre con sv q com : Done w K ord con q com ->
    Done w K ord (SExt k b pre (Some con)) (PExt sv (Some (Some q))) com.

Lemma insert_at_split {A} (x : A) a b n : List.length a = n -> insert_at n x (a ++ b) = a ++ x :: b.
Proof.
  intros <-. unfold insert_at. rewrite firstn_app, Nat.sub_diag, firstn_all. simpl.
  rewrite app_nil_r. f_equal. f_equal. rewrite skipn_app, skipn_all, Nat.sub_diag. auto.
Qed.
Lemma nth_middle' {A} (a : list A) x b : nth_error (a ++ x :: b) (List.length a) = Some x.
Proof. rewrite nth_error_app2, Nat.sub_diag; auto. Qed.

Lemma rmap_respond e vals (w K : bytes -> Z) c q : forall ss,
  (forall s, In s ss -> dget e vals s = Some (w (sname s))) ->
  rmap (fun sk => let? v := dget_err e vals (fst sk) in Ok ((v * c + snd sk) mod q))
       (combine ss (map (fun s => K (sname s)) ss)) =
  Ok (map (fun s => (w (sname s) * c + K (sname s)) mod q) ss).
Proof.
  induction ss as [|s ss IH]; intros H; simpl; auto.
  unfold dget_err at 1. rewrite (H s) by (left; auto). cbn [rbind].
  rewrite IH; auto. intros; apply H; now right.
Qed.
Lemma combine_maps {A} (f g : A -> Z) (h : Z -> Z -> Z) l :
  map (fun p => h (fst p) (snd p)) (combine (map f l) (map g l)) = map (fun a => h (f a) (g a)) l.
Proof. induction l; simpl; auto. now rewrite IHl. Qed.

Lemma zipM_respond (f : stmt -> prover -> M val) subs : forall ps rs st,
  Forall3 (fun s p r => f s p st = Ok (r, st)) subs ps rs -> zipM f subs ps st = Ok (rs, st).
Proof.
  intros ps rs st H. induction H; simpl; auto. unfold bind. rewrite H, IHForall3. reflexivity.
Qed.

Lemma respond_ok w s : forall K ord p com, Done w K ord s p com ->
  forall c st, exists r, compute_response s p c st = Ok (r, st) /\ recompute s c r = Ok com /\
    Cons (fun n => (w n * c + K n) mod ord n) s r.
Proof.
  induction s as [d|subs b IH|subs b ch IH|k b q|k b q con IH] using stmt_ind';
    intros K ord p com H c st; inversion H; subst; clear H.
  - match goal with X : dl_ok w _ _ |- _ => destruct X as (Hg & Hne & Hl & Hh & Hv) end.
    destruct (dl_bases d) as [|b0 bs] eqn:EB; [congruence|].
    assert (Eb0 : grp b0 = g) by (inversion Hg; auto).
    simpl. unfold respond_dl. rewrite EB. unfold bind, get_env, lift.
    rewrite (rmap_respond _ _ w K) by (intros; apply Hv; auto).
    eexists. split; [reflexivity|]. split.
    + simpl. unfold recompute_dl. cbn [as_iter rbind]. rewrite wsum_v_ints, EB.
      assert (Gl : grp (dl_lhs d) = g) by (rewrite Hh; now apply grp_lincomb).
      rewrite Gl, wsum_lincomb by auto. cbn [rbind].
      rewrite padd_chk_same by (rewrite grp_mul, Gl; apply grp_lincomb; auto). cbn [rbind].
      do 2 f_equal. rewrite Hh.
      assert (X := lincomb_response g (b0 :: bs) c Hg (map (fun s => w (sname s)) (dl_secs d))
                  (map (fun s => K (sname s)) (dl_secs d))).
      rewrite !map_length in X. specialize (X Hl Hl).
      rewrite (combine_maps (fun s => w (sname s)) (fun s => K (sname s)) (fun v k => (v * c + k) mod order g)) in X.
      rewrite Eb0. exact X.
    + rewrite map_map, Eb0.
      rewrite (map_ext_in _ (fun s => VInt ((fun n => (w n * c + K n) mod ord n) (sname s)))); [constructor|].
      intros s Hs. cbv beta. match goal with X : forall s, In s _ -> ord _ = _ |- _ => now rewrite X end.
  - match goal with X : Forall3 _ _ _ _ |- _ => rename X into F end.
    assert (G : exists rs, Forall3 (fun s p r => compute_response s p c st = Ok (r, st)) subs ps rs /\
       List.length rs = List.length subs /\ List.length coms = List.length subs /\
       Forall2 (fun s rc => recompute s c (fst rc) = Ok (snd rc)) subs (combine rs coms) /\
       Forall2 (Cons (fun n => (w n * c + K n) mod ord n)) subs rs).
    { induction F as [|s p com l m n H F IHF]; [exists []; repeat split; constructor|].
      inversion IH as [|? ? P Q]; subst. destruct (P _ _ _ _ H c st) as (r & R1 & R2 & R3).
      destruct (IHF Q) as (rs & S1 & S2 & S3 & S4 & S5). exists (r :: rs).
      split; [constructor; auto|]. split; [simpl; congruence|]. split; [simpl; congruence|].
      split; [simpl; constructor; auto|constructor; auto]. }
    destruct G as (rs & G1 & G2 & G3 & G4 & G5). exists (VList rs).
    split; [|split].
    + simpl. unfold bind at 1. rewrite (zipM_respond _ subs ps rs st G1). reflexivity.
    + apply recompute_and_ok; auto.
    + constructor; auto.
  - match goal with X : Done _ _ _ x _ _ |- _ => rename X into HD end.
    match goal with X : Forall2 SimOK l1 t1 |- _ => rename X into F1 end.
    match goal with X : Forall2 SimOK l2 t2 |- _ => rename X into F2 end.
    assert (IHx : In x (l1 ++ x :: l2)) by (apply in_app_iff; right; left; auto).
    rewrite Forall_forall in IH.
    set (rc := find_residual (map t_chal (t1 ++ t2)) c challenge_length).
    destruct (IH x IHx _ _ _ _ HD rc st) as (r & R1 & R2 & R3).
    assert (L1 : List.length t1 = List.length l1) by (symmetry; eapply Forall2_len; eauto).
    assert (L2 : List.length t2 = List.length l2) by (symmetry; eapply Forall2_len; eauto).
    exists (VTuple [VList (map VInt (map t_chal t1 ++ rc :: map t_chal t2));
                    VList (map t_resp t1 ++ r :: map t_resp t2)]).
    split; [|split].
    + rewrite compute_response_or. unfold bind at 1. rewrite sel_loop_eq, nth_middle'. fold rc.
      rewrite R1. rewrite (map_app t_resp). replace (map t_chal (t1 ++ t2)) with (map t_chal t1 ++ map t_chal t2) by (now rewrite map_app).
      rewrite !insert_at_split by (now rewrite map_length). reflexivity.
    + apply recompute_or_ok; rewrite ?app_length; simpl; rewrite ?map_length; auto.
      * apply (residual_zero _ (map t_chal (t1 ++ t2))); [unfold challenge_length; lia|].
        fold rc. rewrite map_app. unfold zsum. rewrite !fold_right_app. simpl.
        assert (FR : forall l a, fold_right Z.add a l = fold_right Z.add 0 l + a).
        { induction l as [|y l IHl]; intros a; simpl; [lia|]. rewrite IHl. lia. }
        rewrite (FR _ (rc + _)), (FR _ (fold_right _ _ (map t_chal t2))). lia.
      * clearbody rc. clear -F1 F2 R2. intros i s ci r' com' N1 N2 N3 N4. revert i N1 N2 N3 N4.
        induction F1 as [|y t l m (B & _) F1 IHF]; intros [|i] N1 N2 N3 N4; simpl in *.
        -- congruence.
        -- clear -F2 N1 N2 N3 N4. revert i N1 N2 N3 N4.
           induction F2 as [|y t l m (B & _) F2 IHF]; intros [|i] N1 N2 N3 N4; simpl in *; try discriminate.
           ++ congruence.
           ++ eauto.
        -- congruence.
        -- eauto.
    + constructor. apply Forall2_app'.
      * rewrite Forall2_map_r. eapply Forall2_impl; [|apply F1]. unfold SimOK. tauto.
      * constructor; [eauto|]. rewrite Forall2_map_r. eapply Forall2_impl; [|apply F2]. unfold SimOK. tauto.
  - match goal with X : Done _ _ _ con _ _ |- _ => destruct (IH _ _ _ _ X c st) as (r & R1 & R2 & R3) end.
    exists r. split; [exact R1|]. split; [exact R2|]. now constructor.
Qed.

Lemma commit_dl_ok w g d rd st com p' st' :
  dl_ok w g d -> coh (env st) (dl_secs d) ->
  (forall dd, rd = Some dd -> exists R, covers (env st) dd R (dl_secs d)) ->
  commit_dl d rd st = Ok ((com, p'), st') ->
  (exists K, (forall dd K', rd = Some dd -> covers (env st) dd K' (dl_secs d) ->
                forall s, In s (dl_secs d) -> K' (sname s) = K (sname s)) /\
     p' = PDL (Some (map (fun s => K (sname s)) (dl_secs d))) /\
     com = VPt (lincomb g (map (fun s => K (sname s)) (dl_secs d)) (dl_bases d))).
Proof.
  intros (Hg & Hne & Hl & Hh & Hv) C Hrd H. unfold commit_dl in H. minvs.
  apply update_randomizers_spec in E as (Ee & Ed & K & HK); auto using keeps_randomizers_dl.
  2: apply randomizers_dl_covers.
  destruct (dl_bases d) as [|b0 bs] eqn:EB; [congruence|]. minvs.
  rewrite Ee, (rmap_dget _ _ K) in E1 by auto. injection E1 as <-.
  rewrite wsum_lincomb in E. 2:{ replace (grp b0) with g; auto. inversion Hg; auto. }
  injection E as <-. exists K. split.
  - intros dd K' -> HK' s Hs. rewrite (Ed _ eq_refl) in HK. assert (A := HK s Hs). assert (B := HK' s Hs). congruence.
  - split; auto. do 2 f_equal. inversion Hg; auto.
Qed.

Lemma internal_commit_and subs b ps rd :
  internal_commit (SAnd subs b) (PAnd ps) rd =
  (let! e := get_env in
   let! _ := lift (validate_and e (SAnd subs b)) in
   let! rd := update_randomizers (randomizers_and (SAnd subs b)) (get_secret_vars (SAnd subs b)) rd in
   let! l := zipM (fun s p => internal_commit s p (Some rd)) subs ps in
   ret (VList (map fst l), PAnd (map snd l))).
Proof. reflexivity. Qed.

Lemma zipM_F3 {A B C} (f : A -> B -> M C) (I : st -> Prop) (R : A -> B -> C -> Prop) l :
  forall m s zs s', List.length l = List.length m ->
  zipM f l m s = Ok (zs, s') -> I s ->
  (forall i x y a z b, nth_error l i = Some x -> nth_error m i = Some y -> I a -> f x y a = Ok (z, b) -> I b /\ R x y z) ->
  I s' /\ Forall3 R l m zs.
Proof.
  induction l as [|x l IH]; intros [|y m] s zs s' HL H Hi Hs; simpl in H; try discriminate; minvs.
  - split; auto. constructor.
  - destruct (Hs 0%nat x y s a s0) as [Hi0 Hr]; simpl; auto.
    edestruct (IH m) as (Hi' & Hr'); eauto.
    { intros i x' y' a' z b N1 N2. apply (Hs (S i)); auto. }
    split; auto. constructor; auto.
Qed.

Lemma commit_ok w s : forall p rd st com p' st',
  Ready w s p -> wfs s -> built s -> coh (env st) (svars s) ->
  internal_commit s p rd st = Ok ((com, p'), st') ->
  (forall dd K ord, rd = Some dd -> covers (env st) dd K (svars s) -> ordOK ord s ->
     Done w K ord s p' com) /\
  (rd = None -> exists K ord, Done w K ord s p' com).
Proof.
  induction s as [d|subs b IH|subs b ch IH|k b q|k b q con IH] using stmt_ind';
    intros p rd st com p' st' HR HW HB C H; inversion HR; subst; clear HR.
  - match goal with X : dl_ok w g d |- _ => rename X into HD end. simpl in H.
    assert (Hord : forall ord, ordOK ord (SDL d) -> forall s, In s (dl_secs d) -> ord (sname s) = order g).
    { intros ord HO s Hs. inversion HO; subst. destruct HD as (Hg & _ & Hl & _).
      destruct (in_combine_l_ex (dl_secs d) (dl_bases d) s Hs Hl) as (y & Hy).
      rewrite <- (H1 s y Hy). apply in_combine_r in Hy.
      unfold in_group in Hg. rewrite Forall_forall in Hg. now rewrite Hg. }
    split.
    + intros dd K ord -> HK HO.
      eapply commit_dl_ok in H as (K' & A & -> & ->); eauto.
      2:{ intros dd' X. injection X as <-. exists K. exact HK. }
      assert (E : map (fun s => K' (sname s)) (dl_secs d) = map (fun s => K (sname s)) (dl_secs d)).
      { apply map_ext_in. intros s Hs. symmetry. eapply A; eauto. }
      rewrite E. econstructor; eauto.
    + intros ->. eapply commit_dl_ok in H as (K' & A & -> & ->); eauto; [|discriminate].
      exists K', (fun _ => order g). econstructor; eauto.
  - match goal with X : Forall2 (Ready w) subs ps |- _ => rename X into F end.
    rewrite internal_commit_and in H. minvs. rename a1 into rd'. rename a2 into l.
    rewrite built_svars in E1 by auto. unfold validate_and in E0. minvs. destruct a.
    assert (Hwf : exists ord, ordOK ord (SAnd subs b)) by (eapply vgo_ordOK; eauto).
    assert (W1 : Forall wfs subs) by (inversion HW; auto).
    assert (W2 : Forall built subs) by (inversion HB; auto).
    assert (G : forall K ord, env s1 = env s -> covers (env s) rd' K (svars (SAnd subs b)) ->
      ordOK ord (SAnd subs b) -> Done w K ord (SAnd subs b) (PAnd (map snd l)) (VList (map fst l))).
    { intros K ord Es HK HO. constructor.
      assert (W3 : Forall (ordOK ord) subs) by (inversion HO; auto).
      edestruct (zipM_F3 (fun s p => internal_commit s p (Some rd')) (fun x => env x = env s)
        (fun s p r => Done w K ord s (snd r) (fst r)) subs ps) as [_ F3]; eauto.
      - eapply Forall2_len; eauto.
      - intros i x y a z b0 N1 N2 Ha Hc.
        split; [rewrite (keeps_internal_commit _ _ _ _ _ _ Hc); auto|].
        assert (Hx : In x subs) by (eapply nth_error_In; eauto).
        assert (I : incl (svars x) (svars (SAnd subs b))) by (apply svars_sub; auto).
        rewrite Forall_forall in IH, W1, W2, W3.
        assert (Rx : Ready w x y).
        { clear -F N1 N2. revert i N1 N2. induction F; intros [|i] N1 N2; simpl in *; try discriminate; eauto.
          congruence. }
        destruct z as [zc zp]. cbn [fst snd].
        destruct (IH x Hx y (Some rd') a zc zp b0) as [A _]; auto.
        + rewrite Ha. eapply coh_incl; eauto.
        + apply (A rd'); auto. rewrite Ha. eapply covers_incl; eauto.
      - clear -F3. induction F3; simpl; constructor; auto. }
    split.
    + intros dd K ord -> HK HO.
      rewrite (update_randomizers_covered _ _ dd K) in E1 by auto. injection E1 as <- <-. auto.
    + intros ->. apply update_randomizers_spec in E1 as (Ee & Ed & K & HK); auto using keeps_randomizers_and.
      2:{ intros r s' X. eapply randomizers_and_covers; eauto. }
      2:{ discriminate. }
      destruct Hwf as (ord & HO). eauto.
  - match goal with X : Ready w x _ |- _ => rename X into HRx end.
    rewrite internal_commit_or in H. minvs. rewrite sel_loop_eq, nth_middle' in E1.
    destruct a1 as [zc zp]. cbn [fst snd].
    assert (Hx : In x (l1 ++ x :: l2)) by (apply in_app_iff; right; left; auto).
    inversion HW; inversion HB; subst. rewrite Forall_forall in *.
    assert (I : incl (svars x) (svars (SOr (l1 ++ x :: l2) b ch))) by (apply svars_sub; auto).
    destruct (IH x Hx sp None s zc zp s1) as [_ A]; auto.
    { eapply coh_incl; eauto. }
    destruct (A eq_refl) as (K' & ord' & HD).
    assert (L1 : List.length t1 = List.length l1).
    { symmetry. match goal with X : Forall2 SimOK l1 t1 |- _ => eapply Forall2_len; exact X end. }
    rewrite map_app, insert_at_split by (now rewrite map_length).
    assert (HDn : forall K ord, Done w K ord (SOr (l1 ++ x :: l2) b ch) (POr (List.length l1) zp (t1 ++ t2))
      (VList (map t_com t1 ++ zc :: map t_com t2))) by (intros; econstructor; eauto).
    split; [auto|]. intros _. exists (fun _ => 0), (fun _ => 0). auto.
  - simpl in H. minvs. destruct a as [zc zp]. cbn [fst snd].
    inversion HW; inversion HB; subst.
    match goal with X : Ready w con _ |- _ => rename X into HRc end.
    edestruct (IH q0 rd st zc zp) as [A B]; eauto. split.
    + intros dd K ord -> HK HO. inversion HO; subst. constructor. eauto.
    + intros ->. destruct (B eq_refl) as (K & ord & HD). exists K, ord. constructor. auto.
Qed.
End C.

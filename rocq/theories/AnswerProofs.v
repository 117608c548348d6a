(** What a verifier answers to messages of the right form (C67). *)
From Coq Require Import String.
From Verif Require Import Base World Val Expr Utils Stmt Prove Verify Spec Shapes Claims Clauses Supply Extract Ident Answers Lib
  DictProofs Keeps Tree Sigma ArithProofs Build Process Ktruth Provers Honest Total Total2 Total3 Total4 Sound Second IdProofs2 IdProofs4.
Open Scope Z_scope.
Open Scope list_scope.

Section A.
Context {W : World}.

Lemma listing_index v l i x : listing v l -> nth_error l i = Some x -> index v i = Ok x.
Proof. intros [->| ->] N; cbn [index]; now rewrite N. Qed.
Lemma listing_iter v l : listing v l -> as_iter v = Ok l.
Proof. intros [->| ->]; reflexivity. Qed.
Lemma nth_app_l {A B} (R : A -> B -> Prop) l m more i x : Forall2 R l m -> nth_error l i = Some x ->
  exists y, nth_error (m ++ more) i = Some y /\ R x y.
Proof.
  intros F. revert i. induction F as [|a b l m H F IH]; intros [|i] N; try discriminate; simpl in *; eauto.
  injection N as ->. eauto.
Qed.

Lemma formed_rshape s : forall r, formed s r -> Rshape s r.
Proof.
  induction s as [d|subs b IH|subs b ch IH|k b q|k b q con IH] using stmt_ind'; intros r F; inversion F; subst.
  - constructor. intros i L. match goal with K : listing r _ |- _ => rename K into LL end.
    destruct (nth_error l i) as [a|] eqn:N; [|apply nth_error_None in N; lia]. exists a. eapply listing_index; eauto.
  - constructor. intros i s N. match goal with K : Forall2 _ _ _ |- _ => destruct (nth_app_l _ _ _ more _ _ K N) as (y & Ny & Fy) end.
    exists y. split; [eapply listing_index; eauto|]. rewrite Forall_forall in IH. apply IH; auto. eapply nth_error_In; eauto.
  - constructor. intros i s N. match goal with K : Forall2 _ _ _ |- _ => destruct (nth_app_l _ _ _ more _ _ K N) as (y & Ny & Fy) end.
    exists rsv, y. split; [eapply listing_index; eauto; reflexivity|]. split; [eapply listing_index; eauto|].
    rewrite Forall_forall in IH. apply IH; auto. eapply nth_error_In; eauto.
  - constructor. auto.
Qed.

(** ** Recomputation of commitments *)
Lemma numbers_map l : Forall number l -> exists zs, l = map VInt zs.
Proof. induction 1 as [|x l (z & ->) F (zs & ->)]; [exists []; auto|exists (z :: zs); auto]. Qed.
Lemma numbers_wsum g ws ps : in_group g ps -> exists x, wsum_v g (map VInt ws) ps = Ok x /\ grp x = g.
Proof.
  unfold wsum_v. intros IG. 
  assert (K : forall a, grp a = g -> exists x, fold_left (fun acc wp => let? a := acc in let? w := as_int (fst wp) in
     padd_chk a (pmul w (snd wp))) (combine (map VInt ws) ps) (Ok a) = Ok x /\ grp x = g).
  { revert ps IG. induction ws as [|w ws IH]; intros [|p ps] IG a Ha; simpl; eauto. inversion IG; subst.
    rewrite padd_chk_same by (rewrite grp_mul; congruence). apply IH; auto. rewrite grp_add; auto. rewrite grp_mul; congruence. }
  apply K. apply grp_inf.
Qed.
Definition good_com (r : res val) : Prop := match r with Ok _ => True | Err e => e = EInconsistentChallenge end.
Lemma rimap_good (f : nat -> stmt -> res val) l : forall i, (forall j x, nth_error l j = Some x -> good_com (f (i + j)%nat x)) ->
  match rimap f i l with Ok _ => True | Err e => e = EInconsistentChallenge end.
Proof.
  induction l as [|x l IH]; intros i H; simpl; auto. assert (H0 := H 0%nat x eq_refl). rewrite Nat.add_0_r in H0.
  destruct (f i x); cbn [good_com rbind] in *; auto.
  specialize (IH (S i)). destruct (rimap f (S i) l); cbn [rbind]; auto; apply IH; intros j y N;
    specialize (H (S j) y N); now rewrite <- plus_n_Sm in H.
Qed.
Lemma recompute_good s : forall c r, Typ s -> formed s r -> good_com (recompute s c r).
Proof.
  induction s as [d|subs b IH|subs b ch IH|k b q|k b q con IH] using stmt_ind'; intros c r T F; inversion T; inversion F; subst.
  - cbn [recompute]. unfold recompute_dl. match goal with K : listing r _ |- _ => rewrite (listing_iter _ _ K) end. cbn [rbind].
    match goal with K : Forall number _ |- _ => destruct (numbers_map _ K) as (zs & ->) end.
    match goal with K : dl_shape d |- _ => destruct K as (_ & _ & IG) end.
    destruct (numbers_wsum _ zs _ IG) as (x & E & G). rewrite E. cbn [rbind].
    rewrite padd_chk_same by (rewrite grp_mul; congruence). exact Logic.I.
  - cbn [recompute]. match goal with |- good_com (rbind ?m _) => assert (K : match m with Ok _ => True | Err e => e = EInconsistentChallenge end) end.
    { apply rimap_good. intros j x N. simpl.
      match goal with K : Forall2 _ _ _ |- _ => destruct (nth_app_l _ _ _ more _ _ K N) as (y & Ny & Fy) end.
      match goal with K : listing r _ |- _ => rewrite (listing_index _ _ _ _ K Ny) end. cbn [rbind].
      rewrite Forall_forall in *. apply nth_error_In in N. auto. }
    destruct (rimap _ _ _); cbn [rbind good_com]; auto.
  - cbn [recompute]. match goal with K : listing r _ |- _ => rewrite (listing_index _ _ 0 _ K eq_refl), (listing_index _ _ 1 _ K eq_refl) end.
    cbn [rbind chal_list]. match goal with K : Forall number _ |- _ => destruct (numbers_map _ K) as (zs & ->) end.
    assert (E : rmap as_int (map VInt zs) = Ok zs) by (clear; induction zs as [|z zs IHz]; simpl; auto; now rewrite IHz).
    rewrite E. cbn [rbind]. destruct (find_residual zs c challenge_length =? 0); [|reflexivity].
    match goal with |- good_com (rbind ?m _) => assert (K : match m with Ok _ => True | Err e => e = EInconsistentChallenge end) end.
    { apply rimap_good. intros j x N. simpl.
      match goal with K : (List.length subs <= _)%nat |- _ => rename K into L end.
      destruct (nth_error (map VInt zs) j) as [a|] eqn:Nj.
      2:{ apply nth_error_None in Nj. assert (j < List.length subs)%nat by (apply nth_error_Some; congruence). lia. }
      cbn [rbind]. destruct (nth_error zs j) as [z|] eqn:Nz; [|rewrite nth_error_map, Nz in Nj; discriminate].
      rewrite nth_error_map, Nz in Nj. injection Nj as <-. cbn [as_int rbind].
      match goal with K : Forall2 _ _ _ |- _ => destruct (nth_app_l _ _ _ more _ _ K N) as (y & Ny & Fy) end.
      match goal with K : listing rsv _ |- _ => rewrite (listing_index _ _ _ _ K Ny) end. cbn [rbind].
      rewrite Forall_forall in *. apply nth_error_In in N. auto. }
    destruct (rimap _ _ _); cbn [rbind good_com]; auto.
  - cbn [recompute]. auto.
Qed.

(** ** Precommitments *)
Definition valid_or (s : stmt) : Prop := full_validate s = Ok tt \/ full_validate s = Err EValidation.
Lemma kvalid_good k pre : kshape k -> kformed k pre -> kvalidate k pre = Ok tt \/ kvalidate k pre = Err EValidation.
Proof.
  destruct k as [H0 g H1 h x al be bd|com g h n isp x r rs|pk sig bs sv r1 r2 d1 d2|]; intros KS KF; try (now left).
  - cbn [kvalidate]. destruct (val_eqb _ _); auto.
  - destruct KF as (Cs & rand & -> & L & IG). destruct KS as (_ & Gc & Gh & _). rewrite kvalidate_range, getitem_rand, getitem_Cs.
    cbn [rbind as_iter]. destruct (vfold_ok _ _ IG (inf (grp g)) 1 (grp_inf _)) as (u & E). rewrite E. cbn [rbind as_int].
    rewrite padd_chk_same by (rewrite grp_mul; congruence). cbn [rbind]. destruct (pt_eqb _ _); auto.
Qed.
Lemma kcon_good k pre st : kshape k -> vkOK (env st) k -> kformed k pre -> exists c, construct k pre st = Ok (c, st) /\ Typ c /\ noext c.
Proof.
  intros KS VK KF. 
  assert (K : exists c, construct k pre st = Ok (c, st) /\ Typ c).
  { destruct k as [H0 g H1 h x al be bd|com g h n isp x r rs|pk sig bs sv r1 r2 d1 d2|]; cbn [kformed] in KF.
    - destruct KF as (P & -> & G). now apply neq_con.
    - destruct KF as (Cs & rand & -> & L & IG). now apply range_con.
    - destruct KF as (A1 & A2 & -> & G). now apply bbs_con.
    - subst. now apply custom_con. }
  destruct K as (c & C & T). exists c. split; [auto|split; [auto|]]. eapply leafy_noext. apply (construct_leafy _ _ _ _ _ C).
Qed.
Lemma noext_valid' s : noext s -> full_validate s = Ok tt.
Proof.
  induction s as [d|subs b IH|subs b ch IH|k b q|k b q con IH] using stmt_ind'; intros N; inversion N; subst; cbn [full_validate]; auto;
    (assert (K : forall l, Forall (fun s => full_validate s = Ok tt) l -> exists u, rmap full_validate l = Ok u);
      [clear; intros l; induction 1 as [|x l E F (u & IHl)]; [exists []; reflexivity|cbn [rmap]; rewrite E; cbn [rbind]; rewrite IHl; cbn [rbind]; eauto]|];
     destruct (K subs) as (u & ->); [|reflexivity]; rewrite Forall_forall in *; auto).
Qed.
Lemma Shape_Typ s : Shape s -> noext s -> Typ s.
Proof.
  induction s as [d|subs b IH|subs b ch IH|k b q|k b q con IH] using stmt_ind'; intros S N; inversion S; inversion N; subst;
    constructor; auto; rewrite Forall_forall in *; auto.
Qed.
Lemma valid_list l : Forall valid_or l -> (exists u, rmap full_validate l = Ok u) \/ rmap full_validate l = Err EValidation.
Proof.
  induction 1 as [|x l [E|E] F [(u & IH)|IH]]; cbn [rmap]; try rewrite E; cbn [rbind]; try rewrite IH; cbn [rbind]; eauto.
Qed.
Definition fine (s : stmt) (v : verifier) : Prop := Typ s /\ v = fverifier s /\ valid_or s.

Lemma noext_process s st : noext s -> process_pre s (get_verifier s) VNone st = Ok ((get_verifier s, s), st).
Proof. intros N. inversion N; reflexivity. Qed.

Lemma process_fine s : forall pre st, Shape s -> Forall (vkOK (env st)) (kinds s) -> preformed s pre ->
  exists v s', process_pre s (get_verifier s) pre st = Ok ((v, s'), st) /\ fine s' v.
Proof.
  assert (NN : forall s st, Shape s -> noext s -> exists v s', process_pre s (get_verifier s) VNone st = Ok ((v, s'), st) /\ fine s' v).
  { clear s. intros s st SH N. exists (get_verifier s), s. split; [now apply noext_process|]. split; [now apply Shape_Typ|].
    split; [symmetry; now apply noext_verifier|left; now apply noext_valid']. }
  assert (LP : forall subs, Forall (fun s => forall pre st, Shape s -> Forall (vkOK (env st)) (kinds s) -> preformed s pre ->
      exists v s', process_pre s (get_verifier s) pre st = Ok ((v, s'), st) /\ fine s' v) subs ->
      forall pre l more st, listing pre (l ++ more) -> Forall Shape subs -> Forall (vkOK (env st)) (List.concat (map kinds subs)) ->
      Forall2 preformed subs l -> exists r, pp_loop process_pre pre 0 subs (map get_verifier subs) st = Ok (r, st) /\
        Forall (fun p => fine (snd p) (fst p)) r /\ List.length r = List.length subs).
  { clear. intros subs IH pre l more st LL. change (l ++ more) with ([] ++ (l ++ more)) in LL.
    change 0%nat with (@List.length val []). generalize (@nil val) as hd, LL. clear LL. revert l.
    induction IH as [|x subs Hx IH IHl]; intros l hd LL SH VK F; cbn [pp_loop map].
    - exists []. split; [reflexivity|split; [constructor|reflexivity]].
    - inversion F as [|? y ? l' P1 F']; subst. inversion SH; subst. cbn [map List.concat] in VK. apply Forall_app in VK as [V1 V2].
      destruct (Hx y st) as (v & s' & E & G); auto.
      rewrite (listing_index _ _ (List.length hd) y LL) by (rewrite nth_error_app2 by lia; now rewrite Nat.sub_diag).
      rewrite bind_lift_ok. unfold bind at 1. rewrite E.
      destruct (IHl l' (hd ++ [y])) as (r & E2 & G2 & L2); auto.
      { now rewrite <- app_assoc. }
      rewrite app_length, Nat.add_1_r in E2. unfold bind at 1. rewrite E2. exists ((v, s') :: r).
      split; [reflexivity|]. split; [constructor; auto|simpl; lia]. }
  induction s as [d|subs b IH|subs b ch IH|k b q|k b q con IH] using stmt_ind'; intros pre st SH VK F.
  - inversion F; subst. apply NN; auto.
  - inversion F; subst; [apply NN; auto|]. inversion SH; subst. cbn [get_verifier]. rewrite process_pre_and.
    match goal with K : listing pre _ |- _ => rename K into LL end.
    replace (is_none pre) with false by (destruct LL as [-> | ->]; reflexivity).
    destruct (LP subs IH pre l more st) as (r & E & G & L); auto. unfold bind at 1. rewrite E.
    exists (RAnd (map fst r)), (SAnd (map snd r) b). split; [reflexivity|]. split; [|split].
    + constructor. apply Forall_map. eapply Forall_impl; [|exact G]. intros p (T & _). exact T.
    + cbn [fverifier]. f_equal. rewrite map_map. apply map_ext_in. intros p Hp. rewrite Forall_forall in G. now apply G.
    + unfold valid_or. cbn [full_validate]. destruct (valid_list (map snd r)) as [(u & ->)| ->]; auto.
      apply Forall_map. eapply Forall_impl; [|exact G]. intros p (_ & _ & V). exact V.
  - inversion F; subst; [apply NN; auto|]. inversion SH; subst. cbn [get_verifier]. rewrite process_pre_or.
    match goal with K : listing pre _ |- _ => rename K into LL end.
    replace (is_none pre) with false by (destruct LL as [-> | ->]; reflexivity).
    destruct (LP subs IH pre l more st) as (r & E & G & L); auto. unfold bind at 1. rewrite E.
    exists (ROr (map fst r)), (SOr (map snd r) b ch). split; [reflexivity|]. split; [|split].
    + constructor; [destruct r; [destruct subs; [auto|discriminate L]|discriminate]|].
      apply Forall_map. eapply Forall_impl; [|exact G]. intros p (T & _). exact T.
    + cbn [fverifier]. f_equal. rewrite map_map. apply map_ext_in. intros p Hp. rewrite Forall_forall in G. now apply G.
    + unfold valid_or. cbn [full_validate]. destruct (valid_list (map snd r)) as [(u & ->)| ->]; auto.
      apply Forall_map. eapply Forall_impl; [|exact G]. intros p (_ & _ & V). exact V.
  - inversion F as [? N| | |]; subst; [inversion N|]. inversion SH; subst. cbn [kinds] in VK. inversion VK; subst.
    destruct (kcon_good k pre st) as (c & E & T & NE); auto. cbn [process_pre get_verifier]. unfold bind at 1. rewrite E.
    exists (RExt (Some (get_verifier c))), (SExt k b pre (Some c)). split; [reflexivity|]. split; [now constructor|].
    split; [cbn [fverifier]; now rewrite noext_verifier|]. apply kvalid_good; auto.
  - inversion F as [? N| | |]; subst; [inversion N|]. inversion SH; subst. cbn [kinds] in VK. inversion VK; subst.
    destruct (kcon_good k pre st) as (c & E & T & NE); auto. cbn [process_pre get_verifier]. unfold bind at 1. rewrite E.
    exists (RExt (Some (get_verifier c))), (SExt k b pre (Some c)). split; [reflexivity|]. split; [now constructor|].
    split; [cbn [fverifier]; now rewrite noext_verifier|]. apply kvalid_good; auto.
Qed.

Lemma preformed_framed s pre : preformed s pre -> framed pre.
Proof.
  intros P. inversion P; subst; try exact Logic.I; try (match goal with K : listing _ _ |- _ => destruct K as [-> | ->]; exact Logic.I end).
  destruct k; cbn [kformed] in *; repeat (match goal with K : exists _, _ |- _ => destruct K | K : _ /\ _ |- _ => destruct K end); subst; exact Logic.I.
Qed.

Lemma verifier_answers s z msg st : Shape s -> Forall (vkOK (env st)) (kinds s) -> preformed s (n_pre z) ->
  exists v s', processed s (n_pre z) st = Ok ((v, s'), st) /\
    (formed s' (n_resp z) -> answered (verify s z msg st) \/ overflow s' z).
Proof.
  intros SH VK PF. destruct (process_fine s (n_pre z) st) as (v & s' & E & T & EV & V); auto.
  assert (P : processed s (n_pre z) st = Ok ((v, s'), st)).
  { unfold processed. destruct (is_none (n_pre z)) eqn:N; [|exact E]. destruct (n_pre z) eqn:NP; try discriminate N.
    inversion PF as [? NE| ? ? ? ? ? LL|? ? ? ? ? ? LL|? ? ? ? ? KF]; subst.
    - rewrite noext_process in E by auto. injection E as <- <-. reflexivity.
    - destruct LL; discriminate.
    - destruct LL; discriminate.
    - destruct k; cbn [kformed] in KF; repeat (match goal with K : exists _, _ |- _ => destruct K | K : _ /\ _ |- _ => destruct K end); discriminate. }
  exists v, s'. split; auto. intros F.
  destruct (proof_id_total s' (Typ_built _ T)) as [(i & I) _].
  destruct (encode (VStr (pystr i))) as [h|e] eqn:EN; [|right; left; exists i; split; auto; eapply encode_big; eauto].
  assert (PH : prehash_input s' = Ok h) by (unfold prehash_input; now rewrite I).
  destruct (val_eqb (n_hash z) (VBytes (sha256 h))) eqn:HH.
  2:{ left. rewrite (mismatch s z msg st v s' st h); auto; [cbn [answered]; auto|]. intros K. rewrite K, val_eqb_refl in HH. discriminate. }
  apply val_eqb_eq in HH. unfold verify, verify_nizk. unfold bind at 1. unfold processed in P. rewrite P. 
  assert (CS : check_statement s' (n_hash z) = Ok h) by (unfold check_statement; rewrite PH; cbn [rbind]; now rewrite HH, val_eqb_refl).
  rewrite CS, bind_lift_ok. unfold bind at 1, get_env. unfold pre_validation.
  destruct V as [V|V]; rewrite V; cbn [rbind]; [|left; hnf; auto].
  destruct (consistent_total (env st) s' (n_resp z) []) as (o & CO); [now apply formed_rshape|]. rewrite EV, CO. cbn [rbind].
  destruct o as [d|]; [|left; hnf; auto]. rewrite bind_lift_ok.
  assert (RG := recompute_good s' (n_chal z) (n_resp z) T F).
  destruct (recompute s' (n_chal z) (n_resp z)) as [com|e] eqn:RC.
  2:{ cbn [good_com] in RG. subst e. left. hnf. auto. }
  rewrite bind_lift_ok. unfold fs_challenge, fs_input. cbn [rmap].
  rewrite (fs_arg_framed (n_pre z)) by (eapply preformed_framed; eauto).
  rewrite (fs_arg_framed com) by (eapply recompute_framed; eauto).
  destruct (encode (n_pre z)) as [ep|] eqn:EP; [|right; right; left; eapply encode_big; eauto].
  destruct (encode com) as [ec|] eqn:EC; [|right; right; right; exists com; split; auto; eapply encode_big; eauto].
  left. exact Logic.I.
Qed.

(** ** Messages of another form *)
Lemma malformed_responses d z msg st h : prehash_input (SDL d) = Ok h -> n_pre z = VNone -> n_hash z = VBytes (sha256 h) ->
  dl_secs d <> [] ->
  (n_resp z = VNone -> verify (SDL d) z msg st = Err ETypeErr) /\
  (n_resp z = VList [] -> verify (SDL d) z msg st = Err EIndexErr) /\
  (forall b l, dl_secs d = [b] -> dl_bases d <> [] -> n_resp z = VList (VStr l :: nil) -> verify (SDL d) z msg st = Err ETypeErr).
Proof.
  intros PH EP EH NE.
  assert (K : forall e, pre_validation (env st) (SDL d) RDL (n_resp z) = Err e \/
      (pre_validation (env st) (SDL d) RDL (n_resp z) = Ok tt /\ recompute (SDL d) (n_chal z) (n_resp z) = Err e) ->
    verify (SDL d) z msg st = Err e).
  { intros e K. unfold verify, verify_nizk. rewrite EP.
    assert (CS : check_statement (SDL d) (n_hash z) = Ok h) by (unfold check_statement; rewrite PH; cbn [rbind]; now rewrite EH, val_eqb_refl).
    cbn [is_none]. unfold bind, ret, lift, get_env. rewrite CS. cbn [get_verifier].
    destruct K as [K|[K1 K2]]; [rewrite K; reflexivity|rewrite K1, K2; reflexivity]. }
  unfold pre_validation in K. cbn [full_validate rbind consistent] in K. unfold consistent_dl in K.
  destruct (dl_secs d) as [|x ss] eqn:ES; [congruence|]. cbn [dget] in K. repeat split.
  - intros E. rewrite E in K. apply K. now left.
  - intros E. rewrite E in K. apply K. now left.
  - intros b l [= -> ->] NB E. rewrite E in K. cbn [index nth_error rbind recompute] in K. apply K. right. split; auto.
    unfold recompute_dl. cbn [as_iter rbind].
    destruct (dl_bases d) as [|b0 bs]; [congruence|]. unfold wsum_v. cbn [combine fold_left fst as_int rbind]. reflexivity.
Qed.
Lemma malformed_precommitment H0 g H1 h x al be bd b z msg st :
  (n_pre z = VNone -> verify (SExt (KNeq H0 g H1 h x al be bd) b VNone None) z msg st = Err EValueErr) /\
  (forall n, n_pre z = VInt n -> verify (SExt (KNeq H0 g H1 h x al be bd) b VNone None) z msg st = Err ETypeErr).
Proof. unfold verify, verify_nizk. split; [intros ->; reflexivity|intros n ->; reflexivity]. Qed.
End A.

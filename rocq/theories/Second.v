(** Second proofs with one challenge, for statements of any form (C39). *)
From Coq Require Import String Znumtheory.
From Verif Require Import Base World Val Expr Utils Stmt Prove Verify Spec Claims Shapes Honest Clauses Supply Extract Ident Alike Places
  Lib DictProofs Keeps Tree Sigma Validate Commit ArithProofs Build Process Lin Ktruth Provers Complete Sound Sound2 Sound3 Wire IdProofs IdProofs2 IdProofs4 IdProofs6 Frame Wrong.
Open Scope Z_scope.
Open Scope list_scope.

Section S.
Context {W : World}.

Lemma rimap_at {A B} (f : nat -> A -> res B) l : forall i ys j x, rimap f i l = Ok ys -> nth_error l j = Some x ->
  exists y, nth_error ys j = Some y /\ f (i + j)%nat x = Ok y.
Proof.
  induction l as [|x0 l IH]; intros i ys j x H N; [destruct j; discriminate|]. simpl in H.
  destruct (f i x0) as [y0|] eqn:E0; [|discriminate]. simpl in H.
  destruct (rimap f (S i) l) as [ys0|] eqn:E1; [|discriminate]. simpl in H. injection H as <-.
  destruct j as [|j].
  - injection N as <-. exists y0. rewrite Nat.add_0_r. auto.
  - destruct (IH _ _ _ _ E1 N) as (y & Ny & E). exists y. replace (i + S j)%nat with (S i + j)%nat by lia. auto.
Qed.

Lemma place_leaf s c r path d a u : place s c r path d a u -> leaf s path d.
Proof. induction 1; econstructor; eauto. Qed.

(** Where the commitment is recomputed, every leaf has a response. *)
Lemma leaf_place s path d : leaf s path d -> forall c r com, recompute s c r = Ok com -> exists a u, place s c r path d a u.
Proof.
  induction 1 as [d|subs b i s path d N L IH|subs b ch i s path d N L IH|k b pre con path d L IH]; intros c r com H.
  - eexists _, _. constructor.
  - cbn [recompute] in H. apply rbind_ok in H as (l & H & _).
    destruct (rimap_at _ _ _ _ _ _ H N) as (y & _ & E). simpl in E. apply rbind_ok in E as (ri & Ei & E).
    destruct (IH _ _ _ E) as (a & u & P). exists a, u. econstructor; eauto.
  - cbn [recompute] in H. apply rbind_ok in H as (cs & E0 & H). apply rbind_ok in H as (rs & E1 & H).
    apply rbind_ok in H as (zs & E2 & H). destruct (find_residual _ _ _ =? 0); [|discriminate].
    apply rbind_ok in H as (l & H & _).
    destruct (rimap_at _ _ _ _ _ _ H N) as (y & _ & E). simpl in E. apply rbind_ok in E as (ci & Ei & E).
    apply rbind_ok in E as (zi & Ez & E). apply rbind_ok in E as (ri & Er & E).
    destruct ci; try discriminate. injection Ez as ->.
    destruct (IH _ _ _ E) as (a & u & P). exists a, u. eapply PlOr; eauto.
  - destruct (IH _ _ _ H) as (a & u & P). exists a, u. now constructor.
Qed.

Lemma place_recompute s c r path d a u : place s c r path d a u -> forall com, recompute s c r = Ok com ->
  exists x, at_path com path x /\ recompute_dl d a u = Ok x.
Proof.
  induction 1 as [d c r|subs b c r i s ri path d a u N I P IH|subs b ch c r i s cs rs ci ri path d a u N I0 I1 Ic Ir P IH|k b pre con c r path d a u P IH]; intros com H.
  - exists com. split; [constructor|exact H].
  - cbn [recompute] in H. apply rbind_ok in H as (l & H & E). injection E as <-.
    destruct (rimap_at _ _ _ _ _ _ H N) as (y & Ny & E). simpl in E. rewrite I in E. simpl in E.
    destruct (IH _ E) as (x & A & Ex). exists x. split; [econstructor; eauto|exact Ex].
  - cbn [recompute] in H. rewrite I0, I1 in H. cbn [rbind] in H.
    apply rbind_ok in H as (zs & E2 & H). destruct (find_residual _ _ _ =? 0); [|discriminate].
    apply rbind_ok in H as (l & H & E). injection E as <-.
    destruct (rimap_at _ _ _ _ _ _ H N) as (y & Ny & E). simpl in E. rewrite Ic in E. simpl in E. rewrite Ir in E. simpl in E.
    destruct (IH _ E) as (x & A & Ex). exists x. split; [econstructor; eauto|exact Ex].
  - apply IH. exact H.
Qed.

(** Two answers with one commitment. *)
Lemma lincomb_zdiff g bs zs zs' : in_group g bs -> List.length zs = List.length bs -> List.length zs' = List.length bs ->
  padd (lincomb g (zdiff zs zs') bs) (lincomb g zs' bs) = lincomb g zs bs.
Proof.
  intros I L L'. rewrite <- lincomb_add; auto.
  2:{ unfold zdiff. rewrite map_length, combine_length. lia. }
  f_equal. clear I. revert zs zs' L L'. induction bs as [|b bs IH]; intros [|x zs] [|y zs'] L L'; simpl in *; try discriminate; auto.
  change (map _ (combine (map _ (combine zs zs')) zs')) with (map (fun p => fst p + snd p) (combine (zdiff zs zs') zs')).
  rewrite IH by congruence. f_equal. lia.
Qed.
Lemma zdiff_eq g bs zs zs' p c c' : in_group g bs -> grp p = g -> List.length zs = List.length bs -> List.length zs' = List.length bs ->
  padd (lincomb g zs bs) (pmul (- c) p) = padd (lincomb g zs' bs) (pmul (- c') p) ->
  lincomb g (zdiff zs zs') bs = pmul (c - c') p.
Proof.
  intros I Gp L L' E. pose proof (lincomb_zdiff _ _ _ _ I L L') as D.
  assert (G1 := grp_lincomb g zs bs I). assert (G2 := grp_lincomb g zs' bs I). assert (G3 := grp_lincomb g (zdiff zs zs') bs I).
  revert D E G1 G2 G3. generalize (lincomb g zs bs) as X, (lincomb g zs' bs) as Y, (lincomb g (zdiff zs zs') bs) as D.
  intros X Y D <- E GX GY GD.
  apply (add_cancel_r (padd Y (pmul (- c) p))).
  - now rewrite grp_add, GY, ?GD by (rewrite grp_mul; congruence).
  - rewrite grp_add by (rewrite grp_mul; congruence). now rewrite grp_mul, GY.
  - transitivity (padd (padd D Y) (pmul (- c) p)).
    + rewrite add_assoc; auto; rewrite ?grp_mul; congruence.
    + rewrite E. glin g.
Qed.

Lemma places_relation s c r s' c' r' path d a u d' a' u' com com' zs zs' :
  place s c r path d a u -> place s' c' r' path d' a' u' -> recompute s c r = Ok com -> recompute s' c' r' = Ok com' ->
  wire_alike com com' -> distinguished (grp (dl_lhs d)) -> dl_lhs d' = dl_lhs d -> dl_bases d' = dl_bases d ->
  u = VList (map VInt zs) -> u' = VList (map VInt zs') -> List.length zs = List.length (dl_bases d) -> List.length zs' = List.length (dl_bases d) ->
  lincomb (grp (dl_lhs d)) (zdiff zs zs') (dl_bases d) = pmul (a - a') (dl_lhs d).
Proof.
  intros P P' R R' A D El Eb -> -> L L'.
  destruct (place_recompute _ _ _ _ _ _ _ P _ R) as (x & Ax & Ex). destruct (place_recompute _ _ _ _ _ _ _ P' _ R') as (x' & Ax' & Ex').
  pose proof (path_alike _ _ _ _ Ax _ A Ax') as Al.
  apply recompute_dl_group in Ex as [I ->]; auto. apply recompute_dl_group in Ex' as [_ ->]; [|congruence].
  rewrite El, Eb in Al. inversion Al as [| |? ? E| | |? ? ? ? E _ _|]; [|destruct E; discriminate].
  apply D in E.
  - apply zdiff_eq; auto.
  - now rewrite grp_add, grp_lincomb by (auto; rewrite grp_mul, grp_lincomb; auto).
  - now rewrite grp_add, grp_lincomb by (auto; rewrite grp_mul, grp_lincomb; auto).
Qed.

Lemma recompute_framed s : forall c r com, recompute s c r = Ok com -> framed com.
Proof.
  induction s as [d|subs b IH|subs b ch IH|k b p|k b p con IH] using stmt_ind'; intros c r com H; cbn [recompute] in H.
  - unfold recompute_dl in H. minv H. injection H as <-. exact I.
  - apply rbind_ok in H as (l & _ & H). injection H as <-. exact I.
  - apply rbind_ok in H as (cs & E0 & H). apply rbind_ok in H as (rs & E1 & H).
    apply rbind_ok in H as (zs & E2 & H). destruct (find_residual _ _ _ =? 0); [|discriminate].
    apply rbind_ok in H as (l & _ & H). injection H as <-. exact I.
  - discriminate.
  - eauto.
Qed.

Lemma second_proof s s' z z' msg msg' st st' s1 st1 s1' st1' :
  (exists n, forall b, List.length (sha256 b) = n) ->
  verify s z msg st = Ok ((true, s1), st1) -> verify s' z' msg' st' = Ok ((true, s1'), st1') ->
  n_chal z = n_chal z' -> framed (n_pre z) -> framed (n_pre z') ->
  (exists h com i h' com' i', prehash_input s1 = Ok h /\ prehash_input s1' = Ok h' /\
     recompute s1 (n_chal z) (n_resp z) = Ok com /\ recompute s1' (n_chal z') (n_resp z') = Ok com' /\
     fs_input h [n_pre z; com] msg = Ok i /\ fs_input h' [n_pre z'; com'] msg' = Ok i' /\ i <> i' /\ sha256 i = sha256 i') \/
  (msg = msg' /\ wire_alike (n_pre z) (n_pre z') /\ n_hash z = n_hash z' /\
   (exists h, prehash_input s1 = Ok h /\ prehash_input s1' = Ok h) /\
   forall path d a u d' a' u' zs zs',
     place s1 (n_chal z) (n_resp z) path d a u -> place s1' (n_chal z') (n_resp z') path d' a' u' ->
     distinguished (grp (dl_lhs d)) -> dl_lhs d' = dl_lhs d -> dl_bases d' = dl_bases d ->
     u = VList (map VInt zs) -> u' = VList (map VInt zs') -> List.length zs = List.length (dl_bases d) -> List.length zs' = List.length (dl_bases d) ->
     lincomb (grp (dl_lhs d)) (zdiff zs zs') (dl_bases d) = pmul (a - a') (dl_lhs d)).
Proof.
  intros [n Ln] V V' Ec F F'. apply verify_inv in V as (v & h & com & i & _ & Eh & En & _ & Er & Ei & B).
  apply verify_inv in V' as (v' & h' & com' & i' & _ & Eh' & En' & _ & Er' & Ei' & B').
  symmetry in B, B'. apply Z.eqb_eq in B, B'.
  assert (S : sha256 i = sha256 i') by (apply be_int_inj; [now rewrite !Ln|congruence]).
  destruct (list_eq_dec ascii_dec i i') as [->|N].
  - right. destruct (input_frame _ _ _ _ _ _ _ _ _ _ _ Eh Eh' F F' (recompute_framed _ _ _ _ Er) (recompute_framed _ _ _ _ Er') Ei Ei') as (-> & A1 & A2 & ->).
    split; auto. split; auto. split; [congruence|]. split; [eauto|].
    intros. eapply places_relation; eauto.
  - left. exists h, com, i, h', com', i'. auto 10.
Qed.

(** A different sub-challenge in a group of prime order: a witness. *)
Lemma other_challenge d a a' ds : in_group (grp (dl_lhs d)) (dl_bases d) -> prime (order (grp (dl_lhs d))) -> ~ (order (grp (dl_lhs d)) | a - a') ->
  lincomb (grp (dl_lhs d)) ds (dl_bases d) = pmul (a - a') (dl_lhs d) ->
  exists ws, Forall2 (fun w z => (order (grp (dl_lhs d)) | w * (a - a') - z)) ws ds /\ dl_lhs d = lincomb (grp (dl_lhs d)) ws (dl_bases d).
Proof.
  intros I P N E. set (q := order (grp (dl_lhs d))) in *. assert (Y := zinv_spec (a - a') q P N).
  exists (map (Z.mul (zinv (a - a') q)) ds). split.
  - clear E I. induction ds as [|z ds IH]; simpl; constructor; auto.
    replace (zinv (a - a') q * z * (a - a') - z) with (z * (zinv (a - a') q * (a - a') - 1)) by ring. now apply Z.divide_mul_r.
  - rewrite lincomb_scale, E by auto. rewrite mul_mul. destruct Y as [k Y].
    replace (zinv (a - a') q * (a - a')) with (1 + k * q) by lia.
    rewrite mul_add, mul_1, <- mul_mul. unfold q. rewrite mul_order, mul_inf. symmetry. now apply add_inf_r'.
Qed.
Lemma verify_places s z msg st b s1 st1 path d : verify s z msg st = Ok ((b, s1), st1) -> leaf s1 path d ->
  exists a u, place s1 (n_chal z) (n_resp z) path d a u.
Proof. intros V L. apply verify_inv in V as (v & h & com & i & _ & _ & _ & _ & Er & _). eapply leaf_place; eauto. Qed.
(** Outside of disjunctions the challenge is that of the whole proof. *)
Lemma place_noor s c r path d a u : place s c r path d a u -> noor s -> a = c.
Proof.
  induction 1 as [d c r|subs b c r i s ri path d a u N I P IH|subs b ch c r i s cs rs ci ri path d a u N I0 I1 Ic Ir P IH|k b pre con c r path d a u P IH]; intros H; auto.
  - inversion H as [|? ? F|]; subst. apply IH. eapply Forall_forall in F; [exact F|]. eapply nth_error_In; eauto.
  - inversion H.
  - inversion H; subst. auto.
Qed.
End S.

(** Accepted proofs of disjunctions made without any witness. *)
From Coq Require Import String Znumtheory Zpow_facts.
From Verif Require Import Base World Val Expr Utils Stmt Prove Verify Spec Shapes Clauses Extract Lib Lin DictProofs
  Keeps Tree Sigma ArithProofs Process Sound Sound2 Supply Total4.
Open Scope Z_scope.
Open Scope list_scope.

Section F.
Context {W : World}.
Let R0 : bytes -> Z := fun _ => 0.

Notation zcom := neutral_com.

Lemma forall2_ex {A B} (P : A -> B -> Prop) l : (forall x, In x l -> exists y, P x y) -> exists m, Forall2 P l m.
Proof.
  induction l as [|x l IH]; intros H; [exists []; constructor|].
  destruct (H x (or_introl eq_refl)) as [y Hy]. destruct IH as [m Hm]; [intros; apply H; now right|]. exists (y :: m). now constructor.
Qed.
Lemma and_zcom subs b c rs : Forall2 (fun s r => recompute s c r = Ok (zcom s)) subs rs ->
  recompute (SAnd subs b) c (VList rs) = Ok (VList (map zcom subs)).
Proof.
  intros H. apply recompute_and_ok; [|symmetry; eapply Forall2_len; eauto|now rewrite map_length].
  induction H; simpl; constructor; auto.
Qed.
Lemma residual_cong cs c : (2 ^ challenge_length | zsum cs - c) -> find_residual cs c challenge_length = 0.
Proof.
  intros H. rewrite find_residual_mod by discriminate. apply Z.mod_divide in H; [|discriminate]. rewrite H. reflexivity.
Qed.
Lemma or_zcom subs b ch c cs rs : (2 ^ challenge_length | zsum cs - c) -> (List.length subs <= List.length cs)%nat ->
  List.length rs = List.length subs ->
  (forall i s ci r, nth_error subs i = Some s -> nth_error cs i = Some ci -> nth_error rs i = Some r ->
     recompute s ci r = Ok (zcom s)) ->
  recompute (SOr subs b ch) c (VTuple [VList (map VInt cs); VList rs]) = Ok (VList (map zcom subs)).
Proof.
  intros Hr Lc Lr H.
  change (recompute (SOr subs b ch) c (VTuple [VList (map VInt cs); VList rs])) with
    (let? l0 := chal_list (VList (map VInt cs)) in
     if find_residual l0 c challenge_length =? 0 then
       let? l := rimap (fun i s => let? ci := index (VList (map VInt cs)) i in let? ci := as_int ci in
                                   let? ri := index (VList rs) i in recompute s ci ri) 0 subs in Ok (VList l)
     else Err EInconsistentChallenge).
  rewrite chal_list_ints. cbv [rbind]. rewrite (residual_cong _ _ Hr). change (0 =? 0) with true. cbv iota.
  match goal with |- match ?t with _ => _ end = _ => assert (E : t = Ok (map zcom subs)); [|rewrite E; reflexivity] end.
  apply rimap_ok. split; [now rewrite map_length|]. intros j x Hx. exists (zcom x).
  split; [now apply map_nth_error|]. rewrite Nat.add_0_l.
  assert (Lj : (j < List.length subs)%nat) by (apply nth_error_Some; congruence).
  destruct (nth_error cs j) as [ci|] eqn:Ec; [|apply nth_error_None in Ec; lia].
  destruct (nth_error rs j) as [r|] eqn:Er; [|apply nth_error_None in Er; lia].
  simpl. rewrite (map_nth_error VInt _ _ Ec), Er. simpl. eauto.
Qed.

Lemma leaf_zcom d c : in_group (grp (dl_lhs d)) (dl_bases d) -> (order (grp (dl_lhs d)) | c) ->
  recompute_dl d c (VList (map (fun s => VInt (R0 (sname s))) (dl_secs d))) = Ok (VPt (inf (grp (dl_lhs d)))).
Proof.
  intros I D. unfold recompute_dl. cbv [as_iter]. simpl rbind.
  replace (map (fun s => @VInt W (R0 (sname s))) (dl_secs d)) with (map (@VInt W) (map (fun _ => 0) (dl_secs d))) by now rewrite map_map.
  rewrite wsum_v_ints, (wsum_lincomb _ _ _ I). simpl rbind.
  rewrite lincomb_zeros; auto; [|apply Forall_map, Forall_forall; auto].
  unfold padd_chk. rewrite grp_inf, grp_mul, gid_eqb_refl. simpl.
  rewrite mul_div by (destruct D as [k D]; exists (- k); lia). do 2 f_equal.
  rewrite <- (grp_inf (grp (dl_lhs d))) at 1. apply add_inf_l.
Qed.

Lemma Forall2_both {A B} (P Q : A -> B -> Prop) l m : Forall2 (fun x y => P x y /\ Q x y) l m <-> Forall2 P l m /\ Forall2 Q l m.
Proof.
  split; [induction 1 as [|x y l m [] _ []]; split; constructor; auto|].
  intros [H K]. revert K. induction H; intros K; inversion K; subst; constructor; auto.
Qed.


Lemma zsum_zeros {A} (l : list A) : zsum (map (fun _ => 0) l) = 0.
Proof. induction l; simpl; lia. Qed.

(** challenges that are multiples of all group orders are answered with zeros *)
Lemma zero_answer s : groups_ok s -> forall c, orders_in (fun q => (q | c)) s ->
  exists r, recompute s c r = Ok (zcom s) /\ Cons R0 s r /\ counted s r.
Proof.
  induction s as [d|subs f IH|subs f ch IH|k f q|k f q con IH] using stmt_ind'; intros G c O; inversion G; inversion O; subst.
  - eexists. split; [apply leaf_zcom; auto|]. split; constructor.
  - destruct (forall2_ex (fun s r => recompute s c r = Ok (zcom s) /\ Cons R0 s r /\ counted s r) subs) as [rs Hrs].
    { rewrite Forall_forall in *. intros x Hx. auto. }
    apply Forall2_both in Hrs. destruct Hrs as [X1 X2]. apply Forall2_both in X2. destruct X2 as [X2 X3].
    exists (VList rs). split; [now apply and_zcom|]. split; constructor; auto.
  - destruct subs as [|s0 subs]; [congruence|].
    assert (IG : Forall groups_ok (s0 :: subs)) by auto. assert (IO : Forall (orders_in (fun q => (q | c))) (s0 :: subs)) by auto.
    clear G O. inversion IG; inversion IO; inversion IH; subst.
    destruct (forall2_ex (fun s r => recompute s 0 r = Ok (zcom s) /\ Cons R0 s r /\ counted s r) subs) as [rs Hrs].
    { rewrite Forall_forall in *. intros x Hx. match goal with X : forall x, In x subs -> groups_ok x -> _ |- _ => apply X; auto end.
      eapply orders_impl; [|match goal with X : forall x, In x subs -> orders_in _ x |- _ => apply X; auto end]. intros; apply Z.divide_0_r. }
    apply Forall2_both in Hrs. destruct Hrs as [X1 X2]. apply Forall2_both in X2. destruct X2 as [X2 X3].
    match goal with X : groups_ok s0 -> _ |- _ => destruct (X ltac:(auto) c ltac:(auto)) as (r0 & Y1 & Y2 & Y3) end.
    exists (VTuple [VList (map VInt (c :: map (fun _ => 0) subs)); VList (r0 :: rs)]). split; [|split].
    + apply or_zcom; [simpl zsum; rewrite zsum_zeros; exists 0; lia|simpl; rewrite map_length; lia|simpl; f_equal; symmetry; eapply Forall2_len; eauto|].
      intros [|i] s ci r N1 N2 N3; simpl in N1, N2, N3.
      * injection N1 as <-. injection N2 as <-. injection N3 as <-. auto.
      * assert (ci = 0). { apply nth_error_In in N2. apply in_map_iff in N2. destruct N2 as (? & <- & _). auto. } subst.
        clear - X1 N1 N3. revert i N1 N3. induction X1; intros [|i] N1 N3; try discriminate; simpl in *; [congruence|eauto].
    + constructor. constructor; [eauto|]. eapply Forall2_impl; [|exact X2]. eauto.
    + constructor; [simpl; now rewrite map_length|]. constructor; auto.
  - edestruct IH as (r & A & B & C); eauto. exists r. split; [exact A|]. split; constructor; auto.
Qed.

(** a superfluous challenge makes up the sum *)
Lemma extra_answer s : groups_ok s -> orders_in (fun _ => True) s -> guarded s -> forall c,
  exists r, recompute s c r = Ok (zcom s) /\ Cons R0 s r.
Proof.
  induction s as [d|subs f IH|subs f ch IH|k f q|k f q con IH] using stmt_ind'; intros G O Gu c; inversion Gu; subst.
  - inversion G; inversion O; subst.
    destruct (forall2_ex (fun s r => recompute s c r = Ok (zcom s) /\ Cons R0 s r) subs) as [rs Hrs].
    { rewrite Forall_forall in *. intros x Hx. auto. }
    apply Forall2_both in Hrs. destruct Hrs as [X1 X2].
    exists (VList rs). split; [now apply and_zcom|]. constructor; auto.
  - inversion G; inversion O; subst.
    destruct (forall2_ex (fun s r => recompute s 0 r = Ok (zcom s) /\ Cons R0 s r /\ counted s r) subs) as [rs Hrs].
    { rewrite Forall_forall in *. intros x Hx. apply zero_answer; auto.
      eapply orders_impl; [|match goal with X : forall x, In x subs -> orders_in _ x |- _ => apply X; auto end]. intros; apply Z.divide_0_r. }
    apply Forall2_both in Hrs. destruct Hrs as [X1 X2]. apply Forall2_both in X2. destruct X2 as [X2 X3].
    exists (VTuple [VList (map VInt (map (fun _ => 0) subs ++ [c])); VList rs]). split.
    + apply or_zcom; [rewrite zsum_app, zsum_zeros; simpl; exists 0; lia|rewrite app_length, map_length; simpl; lia|symmetry; eapply Forall2_len; eauto|].
      intros i s ci r N1 N2 N3. assert (L : (i < List.length subs)%nat) by (apply nth_error_Some; congruence).
      rewrite nth_error_app1 in N2 by (rewrite map_length; auto).
      assert (ci = 0). { apply nth_error_In in N2. apply in_map_iff in N2. destruct N2 as (? & <- & _). auto. } subst.
      clear - X1 N1 N3. revert i N1 N3. induction X1; intros [|i] N1 N3; try discriminate; simpl in *; [congruence|eauto].
    + constructor. eapply Forall2_impl; [|exact X2]. eauto.
  - inversion G; inversion O; subst. edestruct IH as (r & A & B); eauto. exists r. split; [exact A|]. constructor; auto.
Qed.

(** a large challenge in the first place, a multiple of the order *)
Lemma crt_challenge q c : Z.odd q = true -> exists a, (q | a) /\ (2 ^ challenge_length | a - c).
Proof.
  intros H. assert (R : rel_prime q (2 ^ challenge_length)).
  { apply rel_prime_Zpower_r; [discriminate|]. apply rel_prime_sym, prime_rel_prime; [exact prime_2|]. intros [k K].
    rewrite K, Z.odd_mul in H. rewrite andb_false_r in H. discriminate. }
  apply rel_prime_bezout in R. destruct R as [u v E]. exists (c * u * q). split; [apply Z.divide_factor_r|].
  exists (- c * v). replace (c * u * q - c) with (c * (u * q - 1)) by ring. replace (u * q - 1) with (- (v * 2 ^ challenge_length)) by lia. ring.
Qed.
Lemma crt_answer subs b ch q : subs <> [] -> Forall groups_ok subs -> Forall (orders_in (eq q)) subs -> Z.odd q = true -> forall c,
  exists r, recompute (SOr subs b ch) c r = Ok (zcom (SOr subs b ch)) /\ Cons R0 (SOr subs b ch) r /\ counted (SOr subs b ch) r.
Proof.
  intros N G O Hq c. destruct (crt_challenge q c Hq) as (a & A1 & A2).
  destruct (zero_answer (SOr subs b ch) ltac:(constructor; auto) a) as (r & B1 & B2 & B3).
  { constructor. eapply Forall_impl; [|exact O]. intros s Hs. eapply orders_impl; [|exact Hs]. intros ? <-. exact A1. }
  exists r. split; [|auto]. rewrite <- B1.
  inversion B3; subst. clear - A2.
  change (recompute (SOr subs b ch) c (VTuple [VList (map VInt cs); VList rs]) = recompute (SOr subs b ch) a (VTuple [VList (map VInt cs); VList rs])).
  assert (E : find_residual cs c challenge_length = find_residual cs a challenge_length).
  { rewrite !find_residual_mod by discriminate. f_equal. destruct A2 as [k K]. 
    replace (zsum cs - c) with (zsum cs - a + k * 2 ^ challenge_length) by lia. apply Z.mod_add. discriminate. }
  assert (U : forall x, recompute (SOr subs b ch) x (VTuple [VList (map VInt cs); VList rs]) =
    (let? l0 := chal_list (VList (map VInt cs)) in
     if find_residual l0 x challenge_length =? 0 then
       let? l := rimap (fun i s => let? ci := index (VList (map VInt cs)) i in let? ci := as_int ci in
                                   let? ri := index (VList rs) i in recompute s ci ri) 0 subs in Ok (VList l)
     else Err EInconsistentChallenge)) by reflexivity.
  rewrite !U, chal_list_ints. cbv [rbind]. now rewrite E.
Qed.

(** ** Accepted by the verifier *)
Lemma answer_accepted e s c r : full_validate s = Ok tt -> recompute s c r = Ok (zcom s) -> Cons R0 s r ->
  verify_resp e s (fverifier s) (zcom s) c r = Ok true.
Proof.
  intros V E C. unfold verify_resp, pre_validation. rewrite V. simpl rbind.
  destruct (consistent_ok e s R0 r [] C) as (rd & -> & _); [intros ? ? []|]. simpl rbind. rewrite E. simpl. f_equal. apply val_eqb_refl.
Qed.

Lemma groups_orders s : groups_ok s -> orders_in (fun _ => True) s.
Proof.
  induction s as [d|subs f IH|subs f ch IH|k f q|k f q con IH] using stmt_ind'; intros G; inversion G; subst; constructor; auto;
    rewrite Forall_forall in *; auto.
Qed.
Lemma or_forgery s0 pre st v s st1 : process_pre s0 (get_verifier s0) pre st = Ok ((v, s), st1) -> vready v ->
  full_validate s = Ok tt -> guarded s -> groups_ok s ->
  exists com, forall e c, exists r, verify_resp e s v com c r = Ok true.
Proof.
  intros P V F Gu G. exists (zcom s). intros e c. apply process_match in P. rewrite (vready_full _ _ P V).
  destruct (extra_answer s G (groups_orders s G) Gu c) as (r & A & B). exists r. now apply answer_accepted.
Qed.
Lemma noext_valid s : noext s -> full_validate s = Ok tt.
Proof.
  induction s as [d|l f IH|l f c0 IH|k f p|k f p con IH] using stmt_ind'; intros NE; inversion NE; subst; auto; simpl;
  (assert (E : exists us, rmap full_validate l = Ok us); [|destruct E as [us ->]; auto]);
  (match goal with H : Forall noext l |- _ => revert IH H end); clear; induction 1; simpl; eauto; inversion 1; subst;
  rewrite H by auto; destruct IHIH as [us ->]; auto; simpl; eauto.
Qed.
Lemma or_crt_forgery subs b ch q e : Forall noext subs -> subs <> [] -> Forall groups_ok subs -> Forall (orders_in (eq q)) subs ->
  Z.odd q = true -> let s := SOr subs b ch in
  exists com, forall c, exists r, counted s r /\ verify_resp e s (get_verifier s) com c r = Ok true.
Proof.
  intros X N G O Q s. exists (zcom s). intros c. destruct (crt_answer subs b ch q N G O Q c) as (r & A & B & C).
  exists r. split; auto. assert (NE : noext s) by now constructor. rewrite <- noext_verifier by auto.
  apply answer_accepted; auto. now apply noext_valid.
Qed.

Lemma fs_total h pre com msg : (forall b, pre <> VStr b) -> (forall b, com <> VStr b) ->
  (exists c, fs_challenge h [pre; com] msg = Ok c) \/ Big pre \/ Big com.
Proof.
  intros N1 N2.
  assert (A : forall v, (forall b, v <> VStr b) -> (exists b, fs_arg v = Ok b) \/ Big v).
  { intros v N. destruct v; simpl; eauto; try (match goal with |- (exists b, ?t = Ok b) \/ _ => destruct t as [b|x] eqn:E; [eauto|right; eapply encode_big; exact E] end).
    exfalso. eapply N; eauto. }
  destruct (A pre N1) as [[b1 E1]|]; [|auto]. destruct (A com N2) as [[b2 E2]|]; [|auto].
  left. unfold fs_challenge, fs_input. simpl. rewrite E1, E2. simpl. eauto.
Qed.
Lemma zcom_nstr s b : zcom s <> VStr b.
Proof. induction s using stmt_ind'; simpl; congruence. Qed.

Lemma nizk_forgery s0 pre st v s st1 h msg : process_pre s0 (get_verifier s0) pre st = Ok ((v, s), st1) -> vready v ->
  (pre = VNone -> noext s0) -> (forall b, pre <> VStr b) ->
  full_validate s = Ok tt -> guarded s -> groups_ok s -> prehash_input s = Ok h ->
  (exists z, verify s0 z msg st = Ok ((true, s), st1)) \/ Big pre \/ Big (zcom s).
Proof.
  intros P V NE NS F Gu G Hh. destruct (fs_total h pre (zcom s) msg NS (zcom_nstr s)) as [[c Hc]|]; [left|auto].
  destruct (extra_answer s G (groups_orders s G) Gu c) as (r & A & B).
  exists (mkNizk c r pre (VBytes (sha256 h))). unfold verify, verify_nizk. cbn [n_pre n_hash n_chal n_resp].
  assert (E0 : (if is_none pre then ret (get_verifier s0, s0) else process_pre s0 (get_verifier s0) pre) st = Ok ((v, s), st1)).
  { destruct (is_none pre) eqn:EN; [|exact P]. assert (pre = VNone) by (destruct pre; try discriminate EN; auto). subst.
    specialize (NE eq_refl). rewrite <- P. destruct s0; simpl; auto. inversion NE. }
  unfold bind at 1. rewrite E0. cbv beta iota. unfold check_statement. rewrite Hh. cbn [rbind].
  rewrite val_eqb_refl, bind_lift_ok. unfold bind at 1, get_env.
  assert (Q := process_match _ _ _ _ _ _ P). rewrite (vready_full _ _ Q V) in *.
  assert (PV := answer_accepted (env st1) s c r F A B). unfold verify_resp in PV. apply rbind_ok in PV. destruct PV as ([] & PV & _).
  rewrite PV, bind_lift_ok, A, bind_lift_ok, Hc, bind_lift_ok. unfold ret. now rewrite Z.eqb_refl.
Qed.
End F.

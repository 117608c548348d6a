(** A request for a blind signature hides the messages. *)
From Coq Require Import String Znumtheory.
From Verif Require Import Base World Val Expr Utils Stmt Prove Verify Bbs Spec Runs Distrib Request Lib DictProofs ArithProofs Build Sound2 Sound3 Prims ZkPre UnlinkProofs.
Open Scope Z_scope.
Open Scope list_scope.

(** ** Objects with different names *)
Lemma eqb_names e x y : sname x <> sname y -> sec_eqb e x y = false.
Proof. intros N. unfold sec_eqb. destruct (bytes_eqb _ _) eqn:E; auto. now apply bytes_eqb_eq in E. Qed.
Lemma sec_set_distinct e ss : NoDup (map sname ss) -> sec_set e ss = ss.
Proof.
  unfold sec_set. enough (H : forall acc, NoDup (map sname (acc ++ ss)) -> fold_left (fun acc s => if sec_mem e s acc then acc else acc ++ [s]) ss acc = acc ++ ss) by exact (H []).
  induction ss as [|x ss IH]; intros acc N; simpl; [now rewrite app_nil_r|].
  assert (M : sec_mem e x acc = false).
  { rewrite map_app in N. apply NoDup_remove_2 in N. clear IH. induction acc as [|y acc IH]; simpl; auto. rewrite eqb_names.
    - apply IH. intros H. apply N. now right.
    - intros E. apply N. left. auto. }
  rewrite M. rewrite IH; rewrite <- app_assoc; auto.
Qed.
Lemma dset_new {A} e (d : dict A) x v : ~ In (sname x) (map sname (map fst d)) -> dset e d x v = d ++ [(x, v)].
Proof.
  induction d as [|[k w] d IH]; simpl; intros N; auto. rewrite eqb_names by tauto. rewrite IH by tauto. reflexivity.
Qed.
Lemma dupdate_distinct {A} e (d : dict A) : NoDup (map sname (map fst d)) -> dupdate e [] d = d.
Proof.
  unfold dupdate. enough (H : forall acc, NoDup (map sname (map fst (acc ++ d))) -> fold_left (fun d kv => dset e d (fst kv) (snd kv)) d acc = acc ++ d) by exact (H []).
  induction d as [|[k v] d IH]; intros acc N; simpl; [now rewrite app_nil_r|]. rewrite dset_new.
  - rewrite IH; rewrite <- app_assoc; auto.
  - rewrite !map_app in N. cbn [map fst] in N. apply NoDup_remove_2 in N. intros H. apply N. apply in_or_app. auto.
Qed.
Lemma fst_combine {A B} (l : list A) : forall m : list B, List.length l = List.length m -> map fst (combine l m) = l.
Proof. induction l as [|x l IH]; intros [|y m] H; simpl in *; try discriminate; auto. f_equal. auto. Qed.
Lemma rmap_ext_in {A B} (f g : A -> res B) l : (forall x, In x l -> f x = g x) -> rmap f l = rmap g l.
Proof. induction l as [|x l IH]; intros H; simpl; auto. rewrite (H x) by now left. rewrite IH; auto. intros; apply H; now right. Qed.
Lemma rmap_ok_in {A B} (f : A -> res B) l ys x : rmap f l = Ok ys -> In x l -> exists y, f x = Ok y.
Proof.
  revert ys. induction l as [|z l IH]; intros ys H Hx; [destruct Hx|]. destruct Hx as [->|Hx]; simpl in H.
  - destruct (f x); [eauto|discriminate H].
  - destruct (f z); [|discriminate H]. cbn [rbind] in H. destruct (rmap f l) eqn:E; [|discriminate H]. now apply (IH _ eq_refl).
Qed.
Lemma rmap_distinct e ss : forall vs : list Z, NoDup (map sname ss) -> List.length ss = List.length vs -> rmap (dget_err e (combine ss vs)) ss = Ok vs.
Proof.
  induction ss as [|x ss IH]; intros [|v vs] N H; try discriminate; auto. cbn [map] in N. apply NoDup_cons_iff in N as [N1 N2]. cbn [rmap combine].
  unfold dget_err at 1. cbn [dget]. rewrite sec_eqb_refl. cbn [rbind].
  rewrite (rmap_ext_in (dget_err e ((x, v) :: combine ss vs)) (dget_err e (combine ss vs))).
  - rewrite IH; auto.
  - intros y Hy. unfold dget_err. cbn [dget]. rewrite eqb_names; auto. intros E. apply N1. rewrite E. now apply in_map.
Qed.
Lemma mapM_draws (q : Z) {A} (l : list A) e t : forall b, mapM (fun _ => draw q) l (mkSt e t b) =
  Ok (map (fun j => t (b + j)%nat mod q) (seq 0 (List.length l)), mkSt e t (b + List.length l)).
Proof.
  induction l as [|x l IH]; intros b; simpl; [now rewrite Nat.add_0_r|]. unfold bind at 1. unfold draw at 1. simpl. unfold bind at 1. rewrite IH. unfold ret.
  rewrite Nat.add_0_r. rewrite <- seq_shift, map_map. rewrite Nat.add_succ_r. do 3 f_equal. apply map_ext. intros j. now rewrite Nat.add_succ_r.
Qed.

Section D.
Context {W : World}.
(** the places of secrets with different names are numbered *)
Lemma assign_distinct ss : NoDup (map sname ss) -> assign_secret_ids ss = combine (map sname ss) (map Z.of_nat (seq 0 (List.length ss))).
Proof.
  unfold assign_secret_ids. enough (H : forall n m, NoDup (map fst m ++ map sname ss) ->
    snd (fold_left (fun (acc : Z * list (bytes * Z)) s => let (n, m) := acc in
      if existsb (fun p => bytes_eqb (fst p) (sname s)) m then acc else (n + 1, m ++ [(sname s, n)])) ss (Z.of_nat n, m)) =
    m ++ combine (map sname ss) (map Z.of_nat (seq n (List.length ss)))) by exact (H 0%nat []).
  induction ss as [|x ss IH]; intros n m N; cbn [fold_left map combine seq List.length]; [now rewrite app_nil_r|].
  assert (E : existsb (fun p => bytes_eqb (fst p) (sname x)) m = false).
  { apply Bool.not_true_iff_false. intros E. apply existsb_exists in E as ([k v] & I & E). apply bytes_eqb_eq in E. cbn [fst map] in *. subst k.
    apply NoDup_remove_2 in N. apply N. apply in_or_app. left. now apply (in_map fst) in I. }
  rewrite E. replace (Z.of_nat n + 1) with (Z.of_nat (S n)) by lia. rewrite IH.
  - now rewrite <- app_assoc.
  - rewrite map_app. cbn [map fst]. now rewrite <- app_assoc.
Qed.
Lemma lookup_distinct ss : forall is : list Z, NoDup (map sname ss) -> List.length ss = List.length is ->
  rmap (fun s => id_lookup (combine (map sname ss) is) (sname s)) ss = Ok is.
Proof.
  induction ss as [|x ss IH]; intros [|v vs] N H; try discriminate; auto. cbn [map] in N. apply NoDup_cons_iff in N as [N1 N2]. cbn [rmap combine map id_lookup].
  rewrite bytes_eqb_refl. cbn [rbind].
  rewrite (rmap_ext_in (fun s => if bytes_eqb (sname x) (sname s) then Ok v else id_lookup (combine (map sname ss) vs) (sname s))
    (fun s => id_lookup (combine (map sname ss) vs) (sname s))).
  - rewrite IH; auto.
  - intros y Hy. destruct (bytes_eqb _ _) eqn:E; auto. apply bytes_eqb_eq in E. exfalso. apply N1. rewrite E. now apply in_map.
Qed.
Definition hashed (C : pt) (bs : list pt) : res bytes :=
  encode (VStr (pystr (VList [VStr (lit "DLRep"); VList (map VPt bs); VList (map VInt (map Z.of_nat (seq 0 (List.length bs)))); VPt C]))).
Lemma prehash_distinct C bs ss v b : NoDup (map sname ss) -> List.length ss = List.length bs -> prehash_input (SDL (mkDL C bs ss v b)) = hashed C bs.
Proof.
  intros N L. unfold prehash_input, hashed. cbn [get_proof_id dl_secs dl_bases dl_lhs]. rewrite assign_distinct by auto.
  rewrite lookup_distinct; auto; [|now rewrite map_length, seq_length]. now rewrite L.
Qed.

(** prove() of a representation with different secrets *)
Definition draws (t : nat -> Z) (b : nat) (q : Z) (n : nat) : list Z := map (fun j => t (b + j)%nat mod q) (seq 0 n).
Definition made_nizk (C : pt) (bs : list pt) (R : pt) (rs : Z -> list Z) (msg : bytes) : res nizk :=
  match hashed C bs with
  | Err x => Err x
  | Ok h => match fs_challenge h [VNone; VPt R] msg with
            | Err x => Err x
            | Ok c => Ok (mkNizk c (VList (map VInt (rs c))) VNone (VBytes (sha256 h)))
            end
  end.
Lemma prove_distinct C b0 bs ss vs msg e t b : NoDup (map sname ss) -> List.length ss = List.length (b0 :: bs) -> List.length vs = List.length ss ->
  in_group (grp b0) (b0 :: bs) ->
  let q := order (grp b0) in let ks := draws t b q (List.length ss) in
  match prove (SDL (mkDL C (b0 :: bs) ss [] false)) (combine ss vs) msg (mkSt e t b) with Ok ((z, _), _) => Ok z | Err x => Err x end =
  made_nizk C (b0 :: bs) (lincomb (grp b0) ks (b0 :: bs)) (fun c => map (fun p => (fst p * c + snd p) mod q) (combine vs ks)) msg.
Proof.
  intros N L LV G q ks. set (d := mkDL C (b0 :: bs) ss (combine ss vs) true).
  assert (LK : List.length ks = List.length ss) by (unfold ks, draws; now rewrite map_length, seq_length).
  assert (GP : get_prover (SDL (mkDL C (b0 :: bs) ss [] false)) (combine ss vs) (mkSt e t b) = Ok ((Some (PDL None), SDL d), mkSt e t b)).
  { cbn [get_prover]. unfold get_prover_dl, bind, get_env, ret. cbn [dl_vals dl_secs dl_bases dl_lhs env]. rewrite dupdate_distinct by (rewrite fst_combine; auto).
    assert (X : existsb (fun s => negb (dmem e (combine ss vs) s)) ss = false).
    { apply Bool.not_true_iff_false. intros X. apply existsb_exists in X as (x & Hx & X). assert (R := rmap_distinct e ss vs N (eq_sym LV)).
      unfold dmem in X. destruct (dget e (combine ss vs) x) eqn:Q; [discriminate X|]. destruct (rmap_ok_in _ _ _ x R Hx) as [y Y]. unfold dget_err in Y. rewrite Q in Y. discriminate Y. }
    assert (E : empty_dict (combine ss vs) = false) by (destruct ss, vs; try discriminate; reflexivity).
    rewrite X, E. reflexivity. }
  assert (IC : commit_dl d None (mkSt e t b) = Ok ((VPt (lincomb (grp b0) ks (b0 :: bs)), PDL (Some ks)), mkSt e t (b + List.length ss))).
  { unfold commit_dl, randomizers_dl. cbn [update_randomizers]. cbn [dl_bases dl_secs d]. unfold bind, get_env, ret, lift. cbn [env]. rewrite sec_set_distinct by auto. rewrite mapM_draws.
    fold q. fold (draws t b q (List.length ss)). fold ks. change (fold_left (fun o sr => dset e o (fst sr) (snd sr)) (combine ss ks) []) with (dupdate e [] (combine ss ks)).
    rewrite dupdate_distinct by (rewrite fst_combine; auto). cbn [env]. rewrite rmap_distinct by auto. now rewrite wsum_lincomb by auto. }
  assert (RS : forall c a, env a = e -> respond_dl d (Some ks) c a = Ok (VList (map VInt (map (fun p => (fst p * c + snd p) mod q) (combine vs ks))), a)).
  { intros c a EA. unfold respond_dl. cbn [dl_bases dl_secs dl_vals d]. unfold bind, get_env, lift, ret. rewrite EA. fold q.
    assert (Z : rmap (fun sk => let? v := dget_err e (combine ss vs) (fst sk) in Ok ((v * c + snd sk) mod q)) (combine ss ks) =
      Ok (map (fun p => (fst p * c + snd p) mod q) (combine vs ks))).
    { assert (R := rmap_distinct e ss vs N (eq_sym LV)). clear - R LV LK. clearbody ks q. revert R. generalize (combine ss vs). revert vs ks LV LK.
      induction ss as [|x ss IH]; intros [|v vs] [|k ks] LV LK D R; try discriminate; auto. cbn [rmap combine map fst snd] in *.
      destruct (dget_err e D x) as [v'|]; [|discriminate R]. cbn [rbind] in *. destruct (rmap _ ss) as [l|] eqn:Q; [|discriminate R]. cbn [rbind] in R. injection R as -> ->.
      rewrite (IH vs ks ltac:(cbn in LV; lia) ltac:(cbn in LK; lia) D); auto. }
    now rewrite Z. }
  unfold prove, bind. rewrite GP. unfold get_nizk_proof. cbn [precommit internal_commit]. unfold bind, ret. cbv beta iota. cbn [internal_commit]. rewrite IC. unfold lift.
  unfold d at 1. rewrite prehash_distinct by auto. unfold made_nizk. destruct (hashed C (b0 :: bs)) as [h|]; [|reflexivity].
  destruct (fs_challenge h _ msg) as [c|]; [|reflexivity]. cbn [compute_response]. rewrite RS by auto. reflexivity.
Qed.
End D.

Section R.
Context {W : World}.
Variables (pk : bbs_pk) (g0 g1 : pt) (gens : list pt).
Hypothesis EG : pk_gens pk = g0 :: g1 :: gens.
Let G := grp g0.
Hypothesis HG : in_group G (g1 :: gens).
Let q := order G.

Lemma request_run s1 ms ss e t : new_secrets (S (List.length ms)) ss e -> (List.length ms <= List.length gens)%nat ->
  let fs := firstn (List.length ms) gens in let x := t 0%nat mod q in let C := padd (pmul x g1) (lincomb G ms fs) in let ks := draws t 1 q (S (List.length ms)) in
  outcome (request pk s1 ms ss) e t =
  match made_nizk C (g1 :: fs) (lincomb G ks (g1 :: fs)) (fun c => map (fun p => (fst p * c + snd p) mod q) (combine (x :: ms) ks)) (lit "") with
  | Ok z => Ok (mkBlinded C (Some z)) | Err y => Err y end.
Proof.
  intros (L & N & V) LG fs x C ks. assert (GF : in_group G (g1 :: fs)).
  { unfold in_group, fs in *. inversion HG; subst. constructor; auto. rewrite Forall_forall in *. intros p Hp. apply H2. now apply in_firstn_in in Hp. }
  assert (G1 : grp g1 = G) by now inversion GF. assert (GFS : in_group G fs) by now inversion GF.
  unfold outcome, request, commit_messages. rewrite EG. unfold bind at 1. unfold bind at 1. change (skipn 1 (g1 :: gens)) with gens. fold fs. fold G.
  rewrite wsum_lincomb by auto. unfold lift at 1. unfold bind at 1. unfold draw at 1. cbn [tape pos env]. fold q. fold x.
  unfold bind at 1. rewrite padd_chk_same by (now rewrite grp_mul, grp_lincomb). fold C. unfold lift at 1.
  replace (firstn (List.length ms + 1) (g1 :: gens)) with (g1 :: fs) by (rewrite Nat.add_1_r; reflexivity).
  assert (LF : List.length fs = List.length ms) by (unfold fs; apply firstn_length_le; auto).
  destruct (wsum_secrets ss (g1 :: fs)) as [ex|er] eqn:WS.
  2:{ exfalso. revert WS. unfold wsum_secrets. cbn [List.length]. rewrite L, LF, Nat.eqb_refl. destruct ss; [discriminate L|discriminate]. }
  apply wsum_secrets_eq in WS as (E1 & E2 & _). unfold bind at 1. unfold lift at 1. unfold bind at 1.
  assert (MD : mk_dlrep C ex false (mkSt e t 1) = Ok (mkDL C (g1 :: fs) ss [] false, mkSt e t 1)).
  { unfold mk_dlrep. rewrite E1, E2. replace (forallb _ _) with true.
    - unfold bind, get_env, ret. cbn [env]. do 3 f_equal. clear - V. enough (H : forall acc, fold_left (fun d s => match e (sid s) with Some v => dset e d s v | None => d end) ss acc = acc) by apply H.
      induction ss as [|y ss IH]; intros acc; simpl; auto. rewrite V by now left. apply IH. intros z Hz. apply V. now right.
    - symmetry. apply forallb_forall. intros p Hp. apply gid_eqb_spec. rewrite G1. unfold in_group in GF. rewrite Forall_forall in GF. now apply GF. }
  rewrite MD. unfold bind at 1.
  assert (P := prove_distinct C g1 fs ss (x :: ms) (lit "") e t 1 N). cbn [List.length] in P. rewrite L, LF, G1 in P. fold q in P. fold ks in P.
  rewrite <- P by auto. destruct (prove _ _ _ _) as [[[z s'] a]|]; reflexivity.
Qed.
Lemma request_short s1 ms ss e t : new_secrets (S (List.length ms)) ss e -> (List.length gens < List.length ms)%nat -> outcome (request pk s1 ms ss) e t = Err EValueErr.
Proof.
  intros (L & N & V) LG. assert (G1 : grp g1 = G) by now inversion HG. assert (GFS : in_group G gens) by now inversion HG.
  unfold outcome, request, commit_messages. rewrite EG. unfold bind at 1. unfold bind at 1. change (skipn 1 (g1 :: gens)) with gens. rewrite firstn_all2 by lia. fold G.
  rewrite wsum_lincomb by auto. unfold lift at 1. unfold bind at 1. unfold draw at 1. cbn [tape pos env].
  unfold bind at 1. rewrite padd_chk_same by (now rewrite grp_mul, grp_lincomb). unfold lift at 1. rewrite firstn_all2 by (cbn; lia).
  unfold wsum_secrets. cbn [List.length]. rewrite L. replace (Nat.eqb (S (List.length ms)) (S (List.length gens))) with false; [reflexivity|]. symmetry. apply Nat.eqb_neq. lia.
Qed.
End R.

Lemma combine_seq {A} (vs : list Z) (f : nat -> A) : combine vs (map f (seq 0 (List.length vs))) = map (fun j => (nth j vs 0, f j)) (seq 0 (List.length vs)).
Proof.
  revert f. induction vs as [|v vs IH]; intros f; auto. cbn [List.length seq map combine nth]. f_equal. rewrite <- seq_shift, !map_map. rewrite IH. reflexivity.
Qed.
Section H.
Context {W : World}.
Variables (pk : bbs_pk) (g0 g1 : pt) (gens : list pt).
Hypothesis EG : pk_gens pk = g0 :: g1 :: gens.
Let G := grp g0.
Hypothesis HG : in_group G (g1 :: gens).
Let q := order G.
Hypothesis PQ : prime q.
Hypothesis GG : generated G.
Hypothesis NG : g1 <> inf G.
Variable n : nat.
Hypothesis LG : (n <= List.length gens)%nat.
Let fs := firstn n gens.
Let bs := g1 :: fs.
Definition rpub (c : Z) (u : nat -> Z) : (pt * pt) * list Z :=
  let C := pmul (u 0%nat) (gen G) in let rs := map (fun j => u (S j) mod q) (seq 0 (S n)) in ((C, padd (lincomb G rs bs) (pmul (- c) C)), rs).
Definition rchal (x : pt * pt) : Z :=
  match hashed (fst x) bs with Ok h => match fs_challenge h [VNone; VPt (snd x)] (lit "") with Ok c => c | Err _ => 0 end | Err _ => 0 end.
Definition rfin (x : pt * pt) (rs : list Z) : res Bbs.blinded :=
  match made_nizk (fst x) bs (snd x) (fun _ => rs) (lit "") with Ok z => Ok (mkBlinded (fst x) (Some z)) | Err y => Err y end.

Lemma request_half s1 ms ss e : List.length ms = n -> new_secrets (S n) ss e ->
  exists T O, (forall c, bij (S (S n)) (fun _ => q) (T c) (O c)) /\
    forall t, exists x rs, (forall c u, congr (S (S n)) (fun _ => q) u (T c t) -> rpub c u = (x, rs c)) /\ outcome (request pk s1 ms ss) e t = rfin x (rs (rchal x)).
Proof.
  intros LM NS. assert (Q1 : 1 < q) by apply order_gt1. assert (G1 : grp g1 = G) by now inversion HG.
  assert (GFS : in_group G fs). { inversion HG; subst. unfold in_group, fs in *. rewrite Forall_forall in *. intros p Hp. apply H2. now apply in_firstn_in in Hp. }
  assert (GB : in_group G bs) by (constructor; auto).
  assert (LF : List.length fs = n) by (apply firstn_length_le; auto).
  destruct (GG g1 G1) as [a A]. destruct (GG (lincomb G ms fs)) as [m M]; [now apply grp_lincomb|].
  assert (ND : ~ (q | a)). { intros D. apply NG. rewrite A. rewrite (mul_div a (gen G)); [now rewrite grp_gen|now rewrite grp_gen]. }
  destruct (prime_inv q a PQ ND) as [i [k I]].
  exists (fun c t j => match j with O => t 0%nat * a + m | S j => t (S j) + nth j (t 0%nat :: ms) 0 * c end).
  exists (fun c u j => match j with O => (u 0%nat - m) * i | S j => u (S j) - nth j ((u 0%nat - m) * i :: ms) 0 * c end).
  split.
  - intros c. split; [intros; exact Q1|].
    assert (Z0 : forall t t', congr (S (S n)) (fun _ => q) t t' -> (q | t 0%nat - t' 0%nat)) by (intros t t' H; apply (H 0%nat); lia).
    split; [|split; [|split]].
    + intros t t' H [|j] Hj.
      * replace (_ - _) with ((t 0%nat - t' 0%nat) * a) by ring. apply Z.divide_mul_l. eapply Z0; eauto.
      * destruct j as [|j]; cbn [nth].
        -- replace (_ - _) with ((t 1%nat - t' 1%nat) + (t 0%nat - t' 0%nat) * c) by ring. apply Z.divide_add_r; [apply H; lia|]. apply Z.divide_mul_l. eapply Z0; eauto.
        -- replace (_ - _) with (t (S (S j)) - t' (S (S j))) by ring. apply H. lia.
    + intros t t' H [|j] Hj.
      * replace (_ - _) with ((t 0%nat - t' 0%nat) * i) by ring. apply Z.divide_mul_l. eapply Z0; eauto.
      * destruct j as [|j]; cbn [nth].
        -- replace (_ - _) with ((t 1%nat - t' 1%nat) + (t 0%nat - t' 0%nat) * (- i * c)) by ring. apply Z.divide_add_r; [apply H; lia|]. apply Z.divide_mul_l. eapply Z0; eauto.
        -- replace (_ - _) with (t (S (S j)) - t' (S (S j))) by ring. apply H. lia.
    + intros t [|j] Hj; [|destruct j as [|j]; cbn [nth]].
      * exists (t 0%nat * k). transitivity (t 0%nat * (a * i - 1)); [ring|rewrite I; ring].
      * exists (- (t 0%nat * k) * c). transitivity (- (t 0%nat * (a * i - 1)) * c); [ring|rewrite I; ring].
      * exists 0. ring.
    + intros t [|j] Hj; [|destruct j as [|j]; cbn [nth]].
      * exists ((t 0%nat - m) * k). transitivity ((t 0%nat - m) * (a * i - 1)); [ring|rewrite I; ring].
      * exists 0. ring.
      * exists 0. ring.
  - intros t. set (x0 := t 0%nat mod q). set (C := padd (pmul x0 g1) (lincomb G ms fs)). set (ks := draws t 1 q (S n)).
    set (rsf := fun c => map (fun p => (fst p * c + snd p) mod q) (combine (x0 :: ms) ks)).
    assert (EC : C = lincomb G (x0 :: ms) bs) by reflexivity.
    assert (LK : List.length ks = S n) by (unfold ks, draws; now rewrite map_length, seq_length).
    exists (C, lincomb G ks bs), rsf. split.
    + intros c u H. unfold rpub.
      assert (E0 : pmul (u 0%nat) (gen G) = C).
      { rewrite (gen_eq G (u 0%nat) (t 0%nat * a + m)) by (apply (H 0%nat); lia). unfold C. rewrite mul_add, M. f_equal. unfold x0. rewrite A, mul_mul.
        rewrite <- (mul_mod (t 0%nat * a)), <- (mul_mod (t 0%nat mod q * a)), grp_gen. fold q. now rewrite Z.mul_mod_idemp_l by lia. }
      assert (ER : map (fun j => u (S j) mod q) (seq 0 (S n)) = rsf c).
      { unfold rsf, ks, draws. replace (S n) with (List.length (x0 :: ms)) by (cbn; now rewrite LM). rewrite combine_seq, map_map. apply map_ext_in. intros j Hj.
        apply in_seq in Hj as [_ Hj]. cbn [fst snd]. cbn [List.length] in Hj. assert (D := H (S j) ltac:(lia)). cbv beta iota in D. rewrite (mod_eq q _ _ Q1 D).
        change (1 + j)%nat with (S j). apply mod_eq; auto. destruct j as [|j]; cbn [nth].
        - destruct (mod_div_sub (t 0%nat) q) as [d1 D1]; [lia|]. destruct (mod_div_sub (t 1%nat) q) as [d2 D2]; [lia|]. fold x0 in D1. exists (- (d1 * c) - d2). transitivity (- ((x0 - t 0%nat) * c) - (t 1%nat mod q - t 1%nat)); [ring|rewrite D1, D2; ring].
        - destruct (mod_div_sub (t (S (S j))) q) as [d2 D2]; [lia|]. exists (- d2). transitivity (- (t (S (S j)) mod q - t (S (S j)))); [ring|rewrite D2; ring]. }
      rewrite E0, ER. do 2 f_equal. unfold rsf. rewrite EC. apply lincomb_response; auto; cbn [List.length bs]; lia.
    + assert (R := request_run pk g0 g1 gens EG HG s1 ms ss e t). rewrite LM in R. fold G q fs bs x0 C ks in R. fold rsf in R. rewrite R by auto.
      change (padd (pmul x0 g1) (lincomb G ms fs)) with C. change (g1 :: fs) with bs. unfold rfin, rchal, made_nizk. cbn [fst snd]. destruct (hashed C bs) as [h|]; auto. destruct (fs_challenge h _ _); auto.
Qed.
End H.

Section F.
Context {W : World}.
Theorem request_hides (pk : bbs_pk) g0 g1 gens ms ms' ss ss' s1 s1' e e' :
  pk_gens pk = g0 :: g1 :: gens -> in_group (grp g0) (g1 :: gens) -> prime (order (grp g0)) -> generated (grp g0) -> g1 <> inf (grp g0) ->
  List.length ms' = List.length ms -> new_secrets (S (List.length ms)) ss e -> new_secrets (S (List.length ms)) ss' e' ->
  same_distribution (outcome (request pk s1 ms ss) e) (outcome (request pk s1' ms' ss') e').
Proof.
  intros EG HG PQ GG NG LM N N'. destruct (Nat.le_gt_cases (List.length ms) (List.length gens)) as [L|L].
  - destruct (request_half pk g0 g1 gens EG HG PQ GG NG (List.length ms) L s1 ms ss e eq_refl N) as (TA & OA & BA & A).
    destruct (request_half pk g0 g1 gens EG HG PQ GG NG (List.length ms) L s1' ms' ss' e' LM N') as (TB & OB & BB & B).
    exact (chal_dist _ _ _ _ _ TA OA TB OB _ _ BA BB A B).
  - exists 0%nat, (fun _ => 2), (fun t => t), (fun t => t).
    assert (E : forall t, outcome (request pk s1 ms ss) e t = Err EValueErr) by (intros t; eapply request_short; eauto).
    assert (E' : forall t, outcome (request pk s1' ms' ss') e' t = Err EValueErr) by (intros t; eapply request_short; eauto; [rewrite LM; auto|lia]).
    split; [intros; lia|]. split; [intros; now rewrite !E|]. split; [intros; now rewrite !E'|]. split; [auto|]. split; [auto|].
    split; [intros t j Hj; lia|]. split; [intros t j Hj; lia|]. intros t. now rewrite E, E'.
Qed.
(** with the neutral element in the place of g1 *)
Lemma request_shows (pk : bbs_pk) g0 gens ms ss s1 e t b :
  pk_gens pk = g0 :: inf (grp g0) :: gens -> in_group (grp g0) gens -> new_secrets (S (List.length ms)) ss e ->
  outcome (request pk s1 ms ss) e t = Ok b -> bl_com b = lincomb (grp g0) ms gens.
Proof.
  intros EG HG N R. assert (HG' : in_group (grp g0) (inf (grp g0) :: gens)) by (constructor; auto; apply grp_inf).
  destruct (Nat.le_gt_cases (List.length ms) (List.length gens)) as [L|L].
  - rewrite (request_run pk g0 _ gens EG HG' s1 ms ss e t N L) in R. destruct (made_nizk _ _ _ _ _) as [z|]; [|discriminate R]. injection R as <-. cbn [bl_com].
    rewrite mul_inf, add_inf_l'; [|apply grp_lincomb]. 2:{ unfold in_group in *. rewrite Forall_forall in *. intros p Hp. apply HG. now apply in_firstn_in in Hp. }
    clear. revert gens. induction ms as [|m ms IH]; intros [|g gens]; cbn [List.length firstn lincomb]; auto. now rewrite IH.
  - rewrite (request_short pk g0 _ gens EG HG' s1 ms ss e t N L) in R. discriminate R.
Qed.
End F.

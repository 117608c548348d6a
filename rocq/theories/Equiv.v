(** Names and identities of Secret objects do not matter: every operation commutes with renaming. *)
From Coq Require Import String.
From Verif Require Import Base World Val Expr Utils Stmt Prove Verify Spec Shapes Ident Renamed.
Open Scope Z_scope.
Open Scope list_scope.

Section E.
Context {W : World}.
Variable f : bytes -> bytes.
Variable j : nat -> nat.
Hypothesis I : inj f.
Hypothesis J : forall a b, j a = j b -> a = b.

Notation r := (rsec f j).
Notation rd := (rdict f j).
Notation erel := (same_env j).
Notation srel := (same_state j).

Definition rres {A B} (T : A -> B) (x : res A) : res B := match x with Ok a => Ok (T a) | Err e => Err e end.
Definition eqv {A B} (T : A -> B) (m : M A) (m' : M B) : Prop := forall a a', srel a a' ->
  match m a with Ok (x, a1) => exists a1', m' a' = Ok (T x, a1') /\ srel a1 a1' | Err e => m' a' = Err e end.

(** ** The monad *)
Lemma eqv_ret {A B} (T : A -> B) x y : y = T x -> eqv T (ret x) (ret y).
Proof. intros -> a a' R. exists a'. split; auto. Qed.
Lemma eqv_raise {A B} (T : A -> B) e : eqv T (raise e) (raise e).
Proof. intros a a' R. reflexivity. Qed.
Lemma eqv_bind {A B C D} (T : A -> B) (U : C -> D) m m' k k' : eqv T m m' -> (forall x, eqv U (k x) (k' (T x))) -> eqv U (bind m k) (bind m' k').
Proof.
  intros H K a a' R. unfold bind. specialize (H a a' R). destruct (m a) as [[x a1]|e].
  - destruct H as (a1' & -> & R1). apply K; auto.
  - now rewrite H.
Qed.
Lemma eqv_env {C D} (U : C -> D) k k' : (forall e e', erel e e' -> eqv U (k e) (k' e')) -> eqv U (bind get_env k) (bind get_env k').
Proof. intros K a a' R. unfold bind, get_env. apply K; auto. apply R. Qed.
Lemma eqv_lift {A B} (T : A -> B) x y : y = rres T x -> eqv T (lift x) (lift y).
Proof. intros -> a a' R. unfold lift. destruct x; simpl; eauto. Qed.
Lemma eqv_draw n : eqv (fun x => x) (draw n) (draw n).
Proof.
  intros a a' (E & T & P). unfold draw. rewrite T, P. eexists. split; [reflexivity|]. split; [exact E|]. split; simpl; congruence.
Qed.
Lemma eqv_set i v : eqv (fun x => x) (set_value i v) (set_value (j i) v).
Proof.
  intros a a' (E & T & P). unfold set_value. eexists. split; [reflexivity|]. split; [|split; auto]. intros k. simpl. unfold upd.
  destruct (Nat.eqb_spec k i) as [->|N]; [now rewrite Nat.eqb_refl|]. destruct (Nat.eqb_spec (j k) (j i)) as [Q|_]; [apply J in Q; contradiction|apply E].
Qed.
Lemma eqv_ext {A B} (T U : A -> B) m m' : (forall x, T x = U x) -> eqv T m m' -> eqv U m m'.
Proof. intros E H a a' R. specialize (H a a' R). destruct (m a) as [[x a1]|]; auto. destruct H as (a1' & H & R1). exists a1'. rewrite <- E. auto. Qed.
Lemma eqv_mapM {A A' B B'} (h : A -> A') (T : B -> B') g g' l : (forall x, In x l -> eqv T (g x) (g' (h x))) ->
  eqv (map T) (mapM g l) (mapM g' (map h l)).
Proof.
  induction l as [|x l IH]; intros H; simpl; [now apply eqv_ret|].
  apply (eqv_bind T); [apply H; now left|]. intros y. apply (eqv_bind (map T)); [apply IH; intros; apply H; now right|]. intros ys. now apply eqv_ret.
Qed.
Lemma eqv_mapM0 {A B} (g g' : A -> M B) l : (forall x, In x l -> eqv (fun b => b) (g x) (g' x)) -> eqv (fun b => b) (mapM g l) (mapM g' l).
Proof.
  intros H. rewrite <- (map_id l) at 2. apply (eqv_ext (map (fun b => b))); [intros; apply map_id|]. now apply (eqv_mapM (fun x => x)).
Qed.
Lemma eqv_zipM {A A' B B' C C'} (h1 : A -> A') (h2 : B -> B') (T : C -> C') g g' l : forall m, (forall x y, In x l -> eqv T (g x y) (g' (h1 x) (h2 y))) ->
  eqv (map T) (zipM g l m) (zipM g' (map h1 l) (map h2 m)).
Proof.
  induction l as [|x l IH]; intros [|y m] H; simpl; try (now apply eqv_ret).
  apply (eqv_bind T); [apply H; now left|]. intros z. apply (eqv_bind (map T)); [apply IH; intros; apply H; now right|]. intros zs. now apply eqv_ret.
Qed.
Lemma eqv_imapM {A A' B B'} (h : A -> A') (T : B -> B') g g' l : forall i, (forall i x, eqv T (g i x) (g' i (h x))) ->
  eqv (map T) (imapM g i l) (imapM g' i (map h l)).
Proof.
  induction l as [|x l IH]; intros i H; simpl; [now apply eqv_ret|].
  apply (eqv_bind T); [apply H|]. intros y. apply (eqv_bind (map T)); [apply IH; auto|]. intros ys. now apply eqv_ret.
Qed.
Lemma rmap_res {A A' B B'} (h : A -> A') (T : B -> B') g g' l : (forall x, In x l -> g' (h x) = rres T (g x)) -> rmap g' (map h l) = rres (map T) (rmap g l).
Proof.
  induction l as [|x l IH]; intros H; simpl; auto. rewrite H by now left. destruct (g x); simpl; auto. rewrite IH by (intros; apply H; now right).
  destruct (rmap g l); reflexivity.
Qed.

(** ** Dictionaries *)
Lemma bytes_f a b : bytes_eqb (f a) (f b) = bytes_eqb a b.
Proof.
  destruct (bytes_eqb a b) eqn:E; [apply bytes_eqb_eq in E; subst; now apply bytes_eqb_eq|].
  destruct (bytes_eqb (f a) (f b)) eqn:F; auto. apply bytes_eqb_eq, I, bytes_eqb_eq in F. congruence.
Qed.
Lemma sec_eqb_r e e' x y : erel e e' -> sec_eqb e' (r x) (r y) = sec_eqb e x y.
Proof. intros R. unfold sec_eqb, rsec. simpl. now rewrite bytes_f, !R. Qed.
Lemma dget_r {A} e e' (d : dict A) x : erel e e' -> dget e' (rd d) (r x) = dget e d x.
Proof. intros R. induction d as [|[k v] d IH]; simpl; auto. rewrite (sec_eqb_r e) by auto. now destruct (sec_eqb e k x). Qed.
Lemma dmem_r {A} e e' (d : dict A) x : erel e e' -> dmem e' (rd d) (r x) = dmem e d x.
Proof. intros R. unfold dmem. now rewrite (dget_r e). Qed.
Lemma dget_err_r {A} e e' (d : dict A) x : erel e e' -> dget_err e' (rd d) (r x) = dget_err e d x.
Proof. intros R. unfold dget_err. now rewrite (dget_r e). Qed.
Lemma dset_r {A} e e' (d : dict A) x v : erel e e' -> dset e' (rd d) (r x) v = rd (dset e d x v).
Proof. intros R. induction d as [|[k u] d IH]; simpl; auto. rewrite (sec_eqb_r e) by auto. destruct (sec_eqb e k x); simpl; auto. now rewrite IH. Qed.
Lemma dupdate_r {A} e e' (d d' : dict A) : erel e e' -> dupdate e' (rd d) (rd d') = rd (dupdate e d d').
Proof.
  intros R. unfold dupdate. revert d. induction d' as [|[k v] d' IH]; intros d; simpl; auto. rewrite (dset_r e) by auto. apply IH.
Qed.
Lemma sec_mem_r e e' x l : erel e e' -> sec_mem e' (r x) (map r l) = sec_mem e x l.
Proof. intros R. induction l as [|y l IH]; simpl; auto. now rewrite (sec_eqb_r e), IH by auto. Qed.
Lemma sec_set_r e e' l : erel e e' -> sec_set e' (map r l) = map r (sec_set e l).
Proof.
  intros R. unfold sec_set.
  enough (H : forall acc, fold_left (fun acc s => if sec_mem e' s acc then acc else acc ++ [s]) (map r l) (map r acc) =
     map r (fold_left (fun acc s => if sec_mem e s acc then acc else acc ++ [s]) l acc)) by exact (H []).
  induction l as [|x l IH]; intros acc; cbn [map fold_left]; auto.
  rewrite (sec_mem_r e) by auto. destruct (sec_mem e x acc); [apply IH|]. rewrite <- IH, map_app. reflexivity.
Qed.
Lemma sec_count_r e e' x l : erel e e' -> sec_count e' (r x) (map r l) = sec_count e x l.
Proof.
  intros R. unfold sec_count. induction l as [|y l IH]; simpl; auto. rewrite (sec_eqb_r e) by auto. destruct (sec_eqb e y x); simpl; auto.
Qed.
Lemma existsb_r g h l : (forall x, g (r x) = h x) -> existsb g (map r l) = existsb h l.
Proof. intros H. induction l; simpl; auto. now rewrite H, IHl. Qed.
Lemma fold_set {A} e e' (l : list (secret * A)) : erel e e' -> forall d,
  fold_left (fun o sr => dset e' o (fst sr) (snd sr)) (map (fun kv => (r (fst kv), snd kv)) l) (rd d) =
  rd (fold_left (fun o sr => dset e o (fst sr) (snd sr)) l d).
Proof. intros R. induction l as [|[k v] l IH]; intros d; simpl; auto. rewrite (dset_r e) by auto. apply IH. Qed.
Lemma combine_r {A} (l : list secret) (m : list A) : combine (map r l) m = map (fun kv => (r (fst kv), snd kv)) (combine l m).
Proof. revert m. induction l as [|x l IH]; intros [|y m]; simpl; auto. now rewrite IH. Qed.
Lemma eqv_update sd : eqv (fun x => x) (update_secret_values sd) (update_secret_values (rd sd)).
Proof.
  intros a a' (E & T & P). unfold update_secret_values. eexists. split; [reflexivity|]. split; [|split; auto]. simpl.
  revert E. generalize (env a) (env a'). induction sd as [|[k v] sd IH]; intros e e' E; simpl; auto. apply IH. intros i. unfold upd.
  destruct (Nat.eqb_spec i (sid k)) as [->|N]; [now rewrite Nat.eqb_refl|]. destruct (Nat.eqb_spec (j i) (j (sid k))) as [Q|_]; [apply J in Q; contradiction|apply E].
Qed.

(** ** Statements *)
Notation rn := (rename f j).
Lemma rmap_concat {A} (T : A -> A) (F : stmt -> res (list A)) subs :
  Forall (fun s => F (rn s) = rres (map T) (F s)) subs ->
  (let? l := rmap F (map rn subs) in Ok (List.concat l)) = rres (map T) (let? l := rmap F subs in Ok (List.concat l)).
Proof.
  intros H. rewrite (rmap_res rn (map T) F F subs) by (intros x Hx; rewrite Forall_forall in H; auto).
  destruct (rmap F subs); simpl; auto. now rewrite concat_map.
Qed.
Lemma vars_r s : get_secret_vars (rn s) = rres (map r) (get_secret_vars s).
Proof. induction s as [d|subs b IH|subs b c IH|k b p|k b p c IH] using stmt_ind'; simpl; auto; apply rmap_concat; auto. Qed.
Lemma bases_r s : get_bases (rn s) = get_bases s.
Proof.
  assert (H : get_bases (rn s) = rres (map (fun p => p)) (get_bases s)).
  { induction s as [d|subs b IH|subs b c IH|k b p|k b p c IH] using stmt_ind'; simpl; auto; try (now rewrite map_id); apply rmap_concat; auto. }
  rewrite H. destruct (get_bases s); simpl; auto. now rewrite map_id.
Qed.
Lemma simulated_r s : simulated (rn s) = simulated s.
Proof. destruct s; reflexivity. Qed.
Lemma set_simulated_r b s : set_simulated b (rn s) = rn (set_simulated b s).
Proof. destruct s; reflexivity. Qed.
Lemma class_r k : class_name (rkind f j k) = class_name k.
Proof. destruct k; reflexivity. Qed.

Definition rids (m : list (bytes * Z)) := map (fun p : bytes * Z => (f (fst p), snd p)) m.
Lemma ids_r ss : assign_secret_ids (map r ss) = rids (assign_secret_ids ss).
Proof.
  unfold assign_secret_ids. enough (H : forall n m, snd (fold_left (fun (acc : Z * list (bytes * Z)) s => let (n, m) := acc in
     if existsb (fun p => bytes_eqb (fst p) (sname s)) m then acc else (n + 1, m ++ [(sname s, n)])) (map r ss) (n, rids m)) =
     rids (snd (fold_left (fun (acc : Z * list (bytes * Z)) s => let (n, m) := acc in
     if existsb (fun p => bytes_eqb (fst p) (sname s)) m then acc else (n + 1, m ++ [(sname s, n)])) ss (n, m)))) by exact (H 0 []).
  induction ss as [|s ss IH]; intros n m; cbn [map fold_left]; auto.
  assert (E : existsb (fun p => bytes_eqb (fst p) (sname (r s))) (rids m) = existsb (fun p => bytes_eqb (fst p) (sname s)) m).
  { unfold rids. change (sname (r s)) with (f (sname s)). clear - I. induction m as [|p m IH]; simpl; auto. now rewrite bytes_f, IH. }
  rewrite E. destruct (existsb _ m); [apply IH|]. rewrite <- IH. unfold rids. rewrite map_app. reflexivity.
Qed.
Lemma lookup_r m n : id_lookup (rids m) (f n) = id_lookup m n.
Proof. induction m as [|[k v] m IH]; simpl; auto. rewrite bytes_f. now destruct (bytes_eqb k n). Qed.
Lemma rmap_eq {A B} (h : A -> A) (g g' : A -> res B) l : (forall x, In x l -> g' (h x) = g x) -> rmap g' (map h l) = rmap g l.
Proof. induction l as [|x l IH]; intros H; simpl; auto. rewrite H by now left. now rewrite IH by (intros; apply H; now right). Qed.
Lemma id_r s : forall m, get_proof_id (rn s) (option_map rids m) = get_proof_id s m.
Proof.
  induction s as [d|subs b IH|subs b c IH|k b p|k b p c IH] using stmt_ind'; intros m.
  - cbn [rename get_proof_id dl_secs dl_bases dl_lhs]. rewrite ids_r.
    replace (match option_map rids m with Some m0 => m0 | None => rids (assign_secret_ids (dl_secs d)) end)
      with (rids (match m with Some m0 => m0 | None => assign_secret_ids (dl_secs d) end)) by now destruct m.
    rewrite (rmap_eq r (fun s => id_lookup (match m with Some m0 => m0 | None => assign_secret_ids (dl_secs d) end) (sname s))); auto.
    intros x _. apply lookup_r.
  - change (rn (SAnd subs b)) with (SAnd (map rn subs) b). 
    assert (V := vars_r (SAnd subs b)). assert (B := bases_r (SAnd subs b)). change (rn (SAnd subs b)) with (SAnd (map rn subs) b) in V, B.
    cbn [get_proof_id]. rewrite V, B.
    destruct (get_secret_vars (SAnd subs b)) as [ss|]; cbn [rres rbind]; auto.
    destruct (get_bases (SAnd subs b)) as [bs|]; cbn [rbind]; auto.
    rewrite ids_r. set (ids := match m with Some m0 => m0 | None => assign_secret_ids ss end).
    replace (match option_map rids m with Some m0 => m0 | None => rids (assign_secret_ids ss) end) with (rids ids) by (unfold ids; now destruct m).
    rewrite (rmap_eq rn (fun s => get_proof_id s (Some ids))); auto. intros x Hx. rewrite Forall_forall in IH. apply (IH x Hx (Some ids)).
  - assert (V := vars_r (SOr subs b c)). assert (B := bases_r (SOr subs b c)). change (rn (SOr subs b c)) with (SOr (map rn subs) b c) in *.
    cbn [get_proof_id]. rewrite V, B.
    destruct (get_secret_vars (SOr subs b c)) as [ss|]; cbn [rres rbind]; auto.
    destruct (get_bases (SOr subs b c)) as [bs|]; cbn [rbind]; auto.
    rewrite ids_r. set (ids := match m with Some m0 => m0 | None => assign_secret_ids ss end).
    replace (match option_map rids m with Some m0 => m0 | None => rids (assign_secret_ids ss) end) with (rids ids) by (unfold ids; now destruct m).
    rewrite (rmap_eq rn (fun s => get_proof_id s (Some ids))); auto. intros x Hx. rewrite Forall_forall in IH. apply (IH x Hx (Some ids)).
  - reflexivity.
  - cbn [rename option_map get_proof_id]. now rewrite IH, class_r.
Qed.
Lemma prehash_r s : prehash_input (rn s) = prehash_input s.
Proof. unfold prehash_input. assert (H := id_r s None). cbn [option_map] in H. now rewrite H. Qed.
Lemma digest_r s : stmt_digest (rn s) = stmt_digest s.
Proof. unfold stmt_digest. now rewrite prehash_r. Qed.
Lemma check_r s h : check_statement (rn s) h = check_statement s h.
Proof. unfold check_statement. now rewrite prehash_r. Qed.

Lemma rimap_eq {A B} (h : A -> A) (g g' : nat -> A -> res B) l : (forall i x, In x l -> g' i (h x) = g i x) -> forall i, rimap g' i (map h l) = rimap g i l.
Proof. induction l as [|x l IH]; intros H i; simpl; auto. rewrite H by now left. now rewrite IH by (intros; apply H; now right). Qed.
Lemma recompute_r s : forall c v, recompute (rn s) c v = recompute s c v.
Proof.
  induction s as [d|subs b IH|subs b ch IH|k b p|k b p con IH] using stmt_ind'; intros c v; auto; try rewrite Forall_forall in IH.
  - cbn [rename recompute]. rewrite (rimap_eq rn (fun i s => let? ri := index v i in recompute s c ri)); auto.
    intros i x Hx. destruct (index v i); cbn [rbind]; auto.
  - cbn [rename recompute]. destruct (index v 0); cbn [rbind]; auto. destruct (index v 1); cbn [rbind]; auto. destruct (chal_list a); cbn [rbind]; auto.
    destruct (_ =? 0); auto.
    rewrite (rimap_eq rn (fun i s => let? ci := index a i in let? ci := as_int ci in let? ri := index a0 i in recompute s ci ri)); auto.
    intros i x Hx. destruct (index a i); cbn [rbind]; auto. destruct (as_int a2); cbn [rbind]; auto. destruct (index a0 i); cbn [rbind]; auto.
  - cbn [rename option_map recompute]. auto.
Qed.

(** ** Validation *)
Lemma orders_r e e' s : erel e e' -> validate_group_orders e' (rn s) = validate_group_orders e s.
Proof.
  intros R. unfold validate_group_orders. rewrite bases_r, vars_r. destruct (get_bases s) as [bs|]; simpl; auto.
  destruct (get_secret_vars s) as [ss|]; simpl; auto. rewrite map_length.
  set (F := fun e (d : dict (list nat)) (iw : nat * secret) => match dget e d (snd iw) with
              | Some l => dset e d (snd iw) (l ++ [fst iw]) | None => dset e d (snd iw) [fst iw] end).
  assert (H : forall l d, fold_left (F e') (map (fun iw => (fst iw, r (snd iw))) l) (rd d) = rd (fold_left (F e) l d)).
  { induction l as [|[i w] l IH]; intros d; simpl; auto. unfold F at 2 4. cbn [fst snd]. rewrite (dget_r e) by auto.
    destruct (dget e d w); rewrite (dset_r e) by auto; apply IH. }
  assert (C : combine (seq 0 (List.length ss)) (map r ss) = map (fun iw => (fst iw, r (snd iw))) (combine (seq 0 (List.length ss)) ss)).
  { generalize (seq 0 (List.length ss)). clear. induction ss as [|x ss IH]; intros [|i l]; simpl; auto. now rewrite IH. }
  rewrite C. fold (F e) (F e'). change (@nil (secret * list nat)) with (rd (@nil (secret * list nat))) at 1. rewrite H. unfold rdict.
  rewrite (rmap_eq (fun kv => (r (fst kv), snd kv)) (fun wl : secret * list nat =>
              let idx := snd wl in
              let? b0 := match nth_error bs (hd 0%nat idx) with
                         | Some b => Ok b | None => Err EIndexErr end in
              rmap (fun i => match nth_error bs i with
                             | Some b => if order (grp b) =? order (grp b0) then Ok tt
                                         else Err EGroupMismatch
                             | None => Err EIndexErr end) idx)); auto.
Qed.
Lemma reoccurence_r e e' s : erel e e' -> forall forb, validate_reoccurence e' (rn s) (option_map (map r) forb) = validate_reoccurence e s forb.
Proof.
  intros R. induction s as [d|subs b IH|subs b ch IH|k b p|k b p con IH] using stmt_ind'; intros forb; auto; try rewrite Forall_forall in IH.
  - assert (V := vars_r (SAnd subs b)). change (rn (SAnd subs b)) with (SAnd (map rn subs) b) in *. cbn [validate_reoccurence]. rewrite V.
    assert (E : match option_map (map r) forb with Some f0 => Ok f0 | None => rres (map r) (get_secret_vars (SAnd subs b)) end =
      rres (map r) (match forb with Some f0 => Ok f0 | None => get_secret_vars (SAnd subs b) end)) by now destruct forb. rewrite E.
    destruct (match forb with Some f0 => Ok f0 | None => get_secret_vars (SAnd subs b) end) as [f0|]; cbn [rres rbind]; auto.
    rewrite (rmap_eq rn (fun p => validate_reoccurence e p (Some f0))); auto. intros x Hx. apply (IH x Hx (Some f0)).
  - assert (V := vars_r (SOr subs b ch)). change (rn (SOr subs b ch)) with (SOr (map rn subs) b ch) in *. cbn [validate_reoccurence]. rewrite V.
    destruct (get_secret_vars (SOr subs b ch)) as [sv|]; cbn [rres rbind]; auto. destruct forb as [f0|]; cbn [option_map]; auto.
    rewrite (sec_set_r e) by auto. rewrite (existsb_r _ (fun x => (sec_count e x sv <? sec_count e x f0)%nat)); auto.
    intros x. now rewrite !(sec_count_r e) by auto.
Qed.
Lemma validate_and_r e e' s : erel e e' -> validate_and e' (rn s) = validate_and e s.
Proof. intros R. unfold validate_and. rewrite (orders_r e) by auto. destruct (validate_group_orders e s); simpl; auto. now apply (reoccurence_r e e' s R None). Qed.
Lemma validate_or_r e e' s : erel e e' -> validate_or e' (rn s) = validate_or e s.
Proof. intros R. unfold validate_or. now apply orders_r. Qed.
Lemma kvalidate_r k p : kvalidate (rkind f j k) p = kvalidate k p.
Proof. destruct k; reflexivity. Qed.
Lemma full_validate_r s : full_validate (rn s) = full_validate s.
Proof.
  induction s as [d|subs b IH|subs b ch IH|k b p|k b p con IH] using stmt_ind'; simpl; auto using kvalidate_r;
  try rewrite Forall_forall in IH; rewrite (rmap_eq rn full_validate); auto.
Qed.

(** ** Primitives *)
Definition rx (x : expr) : expr := mkExpr (map r (e_secs x)) (e_bases x).
Definition rdl (d : dlrep) : dlrep := mkDL (dl_lhs d) (dl_bases d) (map r (dl_secs d)) (rd (dl_vals d)) (dl_sim d).
Lemma eqv_dlrep l x b : eqv rdl (mk_dlrep l x b) (mk_dlrep l (rx x) b).
Proof.
  unfold mk_dlrep. cbn [rx e_bases e_secs]. destruct (e_bases x) as [|b0 bs]; [apply eqv_raise|]. destruct (forallb _ _); [|apply eqv_raise].
  apply eqv_env. intros e e' R. apply eqv_ret. unfold rdl. cbn. f_equal.
  enough (H : forall d, fold_left (fun d s => match e' (sid s) with Some v => dset e' d s v | None => d end) (map r (e_secs x)) (rd d) =
    rd (fold_left (fun d s => match e (sid s) with Some v => dset e d s v | None => d end) (e_secs x) d)) by exact (H []).
  induction (e_secs x) as [|s l0 IH]; intros d; cbn [map fold_left]; auto. change (sid (r s)) with (j (sid s)). rewrite R.
  destruct (e (sid s)); [rewrite (dset_r e) by auto|]; apply IH.
Qed.
Lemma eqv_lift2 l x b y : y = rx x -> eqv rn (lift2 (mk_dlrep l x b)) (lift2 (mk_dlrep l y b)).
Proof. intros ->. unfold lift2. apply (eqv_bind rdl); [apply eqv_dlrep|]. intros d. now apply eqv_ret. Qed.
Lemma mk_and_r l : mk_and (map rn l) = rres rn (mk_and l).
Proof. unfold mk_and. rewrite map_length. destruct (_ <? 2)%nat; reflexivity. Qed.
Lemma mk_or_r l : mk_or (map rn l) = rres rn (mk_or l).
Proof. unfold mk_or. rewrite map_length. destruct (_ <? 2)%nat; reflexivity. Qed.
Lemma and_op_r a b : and_op (rn a) (rn b) = rres rn (and_op a b).
Proof. destruct a, b; cbn [rename and_op]; rewrite <- mk_and_r, ?map_app; reflexivity. Qed.
Lemma or_op_r a b : or_op (rn a) (rn b) = rres rn (or_op a b).
Proof. destruct a, b; cbn [rename or_op]; rewrite <- mk_or_r, ?map_app; reflexivity. Qed.
Lemma idres {A} (x : res A) : x = rres (fun a => a) x.
Proof. now destruct x. Qed.
Lemma eqv_lift0 {A} (x : res A) : eqv (fun a => a) (lift x) (lift x).
Proof. apply eqv_lift, idres. Qed.
Lemma eqv_value x : eqv (fun v => v) (value_of x) (value_of (r x)).
Proof. unfold value_of. apply eqv_env. intros e e' R. change (sid (r x)) with (j (sid x)). rewrite R. destruct (e (sid x)); [now apply eqv_ret|apply eqv_raise]. Qed.

Lemma eqv_bit g h C x b : eqv rn (bit_stmt g h C x b) (bit_stmt g h C (r x) b).
Proof.
  unfold bit_stmt. apply (eqv_bind rdl); [apply eqv_dlrep|]. intros p0. apply (eqv_bind (fun a => a)); [apply eqv_lift0|]. intros C1.
  apply (eqv_bind rdl); [apply eqv_dlrep|]. intros p1. apply eqv_lift. rewrite <- or_op_r. f_equal; destruct b; reflexivity.
Qed.
Lemma row_expr_r l : row_expr (map (fun t => (r (fst t), snd t)) l) = rx (row_expr l).
Proof. unfold row_expr, rx. cbn. now rewrite !map_map. Qed.
Lemma wsum_secrets_r ss bs : wsum_secrets (map r ss) bs = rres rx (wsum_secrets ss bs).
Proof.
  unfold wsum_secrets. rewrite map_length. destruct (Nat.eqb _ _); auto. destruct ss as [|s ss], bs as [|b bs]; cbn [map]; auto. rewrite combine_r.
  cbn [rres]. f_equal. change (emul (r s) b) with (rx (emul s b)). generalize (emul s b). induction (combine ss bs) as [|[x y] l IH]; intros x0; cbn [map fold_left]; auto.
  rewrite <- IH. f_equal. unfold eadd, rx, emul. cbn. now rewrite map_app.
Qed.

Lemma eqv_construct k p : eqv rn (construct k p) (construct (rkind f j k) p).
Proof.
  destruct k as [H0 g H1 h x al be bnd|com g h n isp x rr rs|pk sg bs sv r1 r2 d1 d2|c rows]; cbn [rkind construct].
  - unfold construct_neq. apply (eqv_bind (fun a => a)); [apply eqv_lift0|]. intros P.
    apply (eqv_bind rn); [now apply eqv_lift2|]. intros p1. apply (eqv_bind rn); [now apply eqv_lift2|]. intros p2.
    destruct bnd; [apply (eqv_bind rn); [now apply eqv_lift2|]; intros p3|]; apply eqv_lift; now rewrite <- mk_and_r.
  - unfold construct_range. apply eqv_env. intros e e' R. apply (eqv_bind (fun a => a)).
    { destruct isp; [|now apply eqv_ret]. change (sid (r x)) with (j (sid x)). rewrite R. destruct (e (sid x)); [|apply eqv_raise].
      apply (eqv_bind (fun a => a)); [apply eqv_lift0|]. intros l. now apply eqv_ret. }
    intros bits. rewrite combine_r. apply (eqv_bind (map rn)).
    { apply (eqv_imapM (fun kv : secret * option Z => (r (fst kv), snd kv))). intros i rb. apply (eqv_bind (fun a => a)); [apply eqv_lift0|]. intros C. apply eqv_bit. }
    intros subs. apply eqv_lift. now rewrite mk_and_r.
  - unfold construct_bbs. apply (eqv_bind (fun a => a)); [apply eqv_lift0|]. intros A1. apply (eqv_bind (fun a => a)); [apply eqv_lift0|]. intros A2.
    destruct bs as [|g0 [|g1 [|g2 bs]]]; try apply eqv_raise. destruct sv as [|ee svs]; cbn [map]; try apply eqv_raise.
    apply (eqv_bind rn); [now apply eqv_lift2|]. intros dl1. apply (eqv_bind rn); [now apply eqv_lift2|]. intros dl2.
    apply (eqv_bind (fun a => a)); [apply eqv_lift0|]. intros aw. destruct (pk_genpairs pk) as [|gp0 gps]; [apply eqv_raise|].
    apply (eqv_bind (fun a => a)); [apply eqv_lift0|]. intros plhs. apply (eqv_bind (fun a => a)); [apply eqv_lift0|]. intros ah.
    apply (eqv_bind (fun a => a)); [apply eqv_lift0|]. intros g2w. destruct gps as [|gp1 [|gp2 gps]]; try apply eqv_raise.
    apply (eqv_bind rx). { apply eqv_lift. rewrite <- wsum_secrets_r. reflexivity. }
    intros x. apply (eqv_bind rn); [now apply eqv_lift2|]. intros dl3. apply eqv_lift. now rewrite <- mk_and_r.
  - unfold construct_custom. apply (eqv_bind (map rn)).
    { apply eqv_mapM. intros [l t] _. cbn [fst snd]. apply eqv_lift2. apply row_expr_r. }
    intros [|d [|d2 ds]]; cbn [map].
    + apply eqv_lift. now rewrite <- mk_and_r.
    + now apply eqv_ret.
    + apply eqv_lift. now rewrite <- mk_and_r.
Qed.
Ltac idb := apply (eqv_bind (fun a => a)).
Lemma eqv_precommit k : eqv (fun v => v) (kprecommit k) (kprecommit (rkind f j k)).
Proof.
  destruct k as [H0 g H1 h x al be bnd|com g h n isp x rr rs|pk sg bs sv r1 r2 d1 d2|c rows]; cbn [rkind kprecommit].
  - idb; [apply eqv_draw|]. intros b. idb; [apply eqv_value|]. intros v. idb; [apply eqv_set|]. intros _. idb; [apply eqv_set|]. intros _.
    idb; [apply eqv_value|]. intros v'. idb; [apply eqv_lift0|]. intros d. now apply eqv_ret.
  - destruct isp; [|apply eqv_raise]. idb; [apply eqv_value|]. intros v. idb; [apply eqv_lift0|]. intros bits.
    apply (eqv_bind (map (fun u : unit => u))).
    { apply (eqv_mapM r). intros y _. idb; [apply eqv_draw|]. intros u. apply eqv_set. }
    intros _. apply (eqv_bind (map (fun u : Z => u))).
    { apply (eqv_mapM r). intros y _. apply eqv_value. }
    intros rv. rewrite map_id. idb; [apply eqv_lift0|]. intros cs. idb; [apply eqv_value|]. intros r0. now apply eqv_ret.
  - destruct sg as [sg|]; [|apply eqv_raise]. destruct bs as [|b0 [|b1 [|b2 bs]]]; try apply eqv_raise.
    idb; [apply eqv_draw|]. intros v1. idb; [apply eqv_draw|]. intros v2.
    do 4 (idb; [apply eqv_set|]; intros _). idb; [apply eqv_lift0|]. intros A1. idb; [apply eqv_lift0|]. intros A2. now apply eqv_ret.
  - now apply eqv_ret.
Qed.
Lemma eqv_sim_precommit k : eqv (fun v => v) (ksim_precommit k) (ksim_precommit (rkind f j k)).
Proof.
  destruct k as [H0 g H1 h x al be bnd|com g h n isp x rr rs|pk sg bs sv r1 r2 d1 d2|c rows]; cbn [rkind ksim_precommit].
  - idb; [apply eqv_draw|]. intros b. now apply eqv_ret.
  - idb; [apply eqv_mapM0; intros; apply eqv_draw|]. intros rv. destruct (map _ rv) as [|c0 cs]; [apply eqv_raise|]. idb; [apply eqv_lift0|]. intros c1. now apply eqv_ret.
  - destruct bs as [|b0 bs]; [apply eqv_raise|]. idb; [apply eqv_draw|]. intros a1. idb; [apply eqv_draw|]. intros a2. now apply eqv_ret.
  - apply eqv_raise.
Qed.

(** ** Simulation *)
Lemma eqv_prepare s : eqv rn (prepare_sim s) (prepare_sim (rn s)).
Proof.
  induction s as [d|subs b IH|subs b ch IH|k b p|k b p con IH] using stmt_ind'; cbn [rename prepare_sim]; try rewrite Forall_forall in IH.
  - now apply eqv_ret.
  - apply (eqv_bind (map rn)); [now apply eqv_mapM|]. intros l. now apply eqv_ret.
  - apply (eqv_bind (map rn)); [now apply eqv_mapM|]. intros l. now apply eqv_ret.
  - idb; [apply eqv_sim_precommit|]. intros v. unfold full_construct. apply (eqv_bind rn); [apply eqv_construct|]. intros c. now apply eqv_ret.
  - idb; [apply eqv_sim_precommit|]. intros v. unfold full_construct. apply (eqv_bind rn); [apply eqv_construct|]. intros c. now apply eqv_ret.
Qed.
Lemma eqv_or_draw o : eqv (fun c => c) (or_draw o) (or_draw o).
Proof. destruct o; [now apply eqv_ret|]. apply eqv_draw. Qed.
Lemma eqv_rand_dl d : eqv rd (randomizers_dl d) (randomizers_dl (rdl d)).
Proof.
  unfold randomizers_dl. cbn [rdl dl_bases dl_secs]. destruct (dl_bases d) as [|b0 bs]; [apply eqv_raise|]. apply eqv_env. intros e e' R. cbv zeta.
  rewrite (sec_set_r e) by auto. apply (eqv_bind (map (fun c : Z => c))); [apply (eqv_mapM r); intros; apply eqv_draw|].
  intros rs. apply eqv_ret. rewrite map_id, combine_r. apply (fold_set e e' _ R []).
Qed.
Lemma eqv_rand_and s : eqv rd (randomizers_and s) (randomizers_and (rn s)).
Proof.
  unfold randomizers_and. apply (eqv_bind (map r)); [apply eqv_lift, vars_r|]. intros ss. rewrite bases_r. idb; [apply eqv_lift0|]. intros bs.
  apply eqv_env. intros e e' R. cbv zeta. rewrite combine_r. assert (FS := fold_set e e' (combine ss bs) R []). cbn [rdict map] in FS. rewrite FS. clear FS.
  apply (eqv_bind (map (fun c : Z => c))); [apply (eqv_mapM (fun kv : secret * pt => (r (fst kv), snd kv))); intros; apply eqv_draw|].
  intros rs. apply eqv_ret. rewrite map_id. unfold rdict. rewrite map_map. cbn [fst]. rewrite <- (map_map fst r), combine_r. reflexivity.
Qed.
Lemma eqv_upd_rand g g' ss o : eqv rd g g' -> eqv rd (update_randomizers g ss o) (update_randomizers g' (rres (map r) ss) (option_map rd o)).
Proof.
  intros G. unfold update_randomizers. destruct o as [d|]; cbn [option_map]; auto. apply (eqv_bind (map r)); [now apply eqv_lift|]. intros l.
  apply eqv_env. intros e e' R. rewrite (existsb_r _ (fun x => negb (dmem e d x))) by (intros x; now rewrite (dmem_r e)).
  destruct (existsb _ l); [|now apply eqv_ret]. apply (eqv_bind rd); auto. intros t. apply eqv_env. intros e1 e1' R1. apply eqv_ret. now apply dupdate_r.
Qed.
Lemma eqv_simulate_dl d o c : eqv (fun t => t) (simulate_dl d o c) (simulate_dl (rdl d) (option_map rd o) c).
Proof.
  unfold simulate_dl. apply (eqv_bind rd). { apply (eqv_upd_rand _ _ (Ok (dl_secs d))). apply eqv_rand_dl. }
  intros rs. idb; [apply eqv_or_draw|]. intros c1. apply eqv_env. intros e e' R. idb.
  { apply eqv_lift. cbn [rdl dl_secs]. rewrite (rmap_res r (fun a => a) (dget_err e rs)).
    - destruct (rmap _ _); simpl; auto. now rewrite map_id.
    - intros x _. rewrite (dget_err_r e) by auto. apply idres. }
  intros l. idb; [apply eqv_lift0|]. intros com. now apply eqv_ret.
Qed.
Lemma eqv_simulate s : forall o c, eqv (fun t => t) (simulate_proof s o c) (simulate_proof (rn s) (option_map rd o) c).
Proof.
  induction s as [d|subs b IH|subs b ch IH|k b p|k b p con IH] using stmt_ind'; intros o c; try rewrite Forall_forall in IH.
  - apply eqv_simulate_dl.
  - assert (V := vars_r (SAnd subs b)). assert (G := eqv_rand_and (SAnd subs b)). change (rn (SAnd subs b)) with (SAnd (map rn subs) b) in *. cbn [simulate_proof].
    rewrite V. apply (eqv_bind rd); [now apply eqv_upd_rand|]. intros rs. idb; [apply eqv_or_draw|]. intros c1.
    apply (eqv_bind (map (fun t : sim => t))). { apply (eqv_mapM rn). intros x Hx. apply (IH x Hx (Some rs)). }
    intros ts. rewrite map_id. now apply eqv_ret.
  - cbn [rename simulate_proof]. idb; [apply eqv_or_draw|]. intros c1. idb; [|intros ts; now apply eqv_ret].
    match goal with |- eqv _ (?F subs []) (?G _ []) => enough (HH : forall cs, eqv (fun a => a) (F subs cs) (F (map rn subs) cs)) by exact (HH []) end.
    revert IH. induction subs as [|x l IHl]; intros IH chals; [apply eqv_raise|]. destruct l as [|y l].
    + cbn [map]. idb; [apply (IH x (or_introl eq_refl) None)|]. intros t. now apply eqv_ret.
    + cbn [map]. idb; [apply (IH x (or_introl eq_refl) None)|]. intros t. idb; [apply IHl; intros; apply IH; now right|]. intros ts. now apply eqv_ret.
  - apply eqv_raise.
  - cbn [rename option_map simulate_proof]. idb; [apply IH|]. intros t. now apply eqv_ret.
Qed.
Theorem eqv_simulate_all s c : eqv (fun x => (fst x, rn (snd x))) (simulate s c) (simulate (rn s) c).
Proof.
  unfold simulate. rewrite set_simulated_r. apply (eqv_bind rn); [apply eqv_prepare|]. intros s1. idb; [apply (eqv_simulate s1 None)|]. intros t.
  rewrite digest_r. idb; [apply eqv_lift0|]. intros h. now apply eqv_ret.
Qed.

(** ** Provers *)
Fixpoint rpro (p : prover) : prover :=
  match p with
  | PDL ks => PDL ks
  | PAnd l => PAnd (map rpro l)
  | POr i q sims => POr i (rpro q) sims
  | PExt sv con => PExt (rd sv) (option_map (option_map rpro) con)
  end.
Definition rgp (x : option prover * stmt) := (option_map rpro (fst x), rn (snd x)).
Lemma eqv_gp_dl d sd : eqv (fun x => (option_map rpro (fst x), rdl (snd x))) (get_prover_dl d sd) (get_prover_dl (rdl d) (rd sd)).
Proof.
  unfold get_prover_dl. apply eqv_env. intros e e' R. cbv zeta. cbn [rdl dl_vals dl_secs dl_bases dl_lhs]. rewrite (dupdate_r e) by auto.
  set (vals := dupdate e (dl_vals d) sd). replace (empty_dict (rd vals)) with (empty_dict vals) by now destruct vals.
  rewrite (existsb_r _ (fun s => negb (dmem e vals s))) by (intros x; now rewrite (dmem_r e)).
  destruct (_ || _); now apply eqv_ret.
Qed.
Lemma replace_map {A B} (h : A -> B) i x l : replace i (h x) (map h l) = map h (replace i x l).
Proof. revert i. induction l as [|y l IH]; intros [|i]; simpl; auto. now rewrite IH. Qed.
Lemma eqv_or_loop n : forall gps gps' poss subs, Forall2 (eqv rgp) gps gps' ->
  eqv (fun x => (option_map (fun ip => (fst ip, rpro (snd ip))) (fst x), map rn (snd x))) (or_loop n gps poss subs) (or_loop n gps' poss (map rn subs)).
Proof.
  induction n as [|n IH]; intros gps gps' poss subs F; cbn [or_loop]; [now apply eqv_ret|]. idb; [apply eqv_draw|]. intros i0.
  destruct (nth_error poss (Z.to_nat i0)) as [i|]; [|apply eqv_raise].
  assert (N : match nth_error gps i, nth_error gps' i with Some a, Some b => eqv rgp a b | None, None => True | _, _ => False end).
  { clear - F. revert i. induction F; intros [|i]; simpl; auto. apply IHF. }
  destruct (nth_error gps i) as [gp|], (nth_error gps' i) as [gp'|]; try contradiction; [|apply eqv_raise].
  apply (eqv_bind rgp); auto. intros [[p|] s1]; cbn [rgp fst snd option_map]; rewrite replace_map.
  - now apply eqv_ret.
  - destruct (empty_dict _); [now apply eqv_ret|]. now apply IH.
Qed.
Lemma eqv_setup idx subs : eqv (fun x => (map rn (fst x), snd x)) (setup_simulations idx subs) (setup_simulations idx (map rn subs)).
Proof.
  unfold setup_simulations. generalize 0%nat. induction subs as [|s l IH]; intros i; cbn [map]; [now apply eqv_ret|]. destruct (Nat.eqb i idx).
  - apply (eqv_bind (fun x => (map rn (fst x), snd x))); [apply IH|]. intros x. now apply eqv_ret.
  - apply (eqv_bind rn); [apply eqv_prepare|]. intros s1. idb; [apply (eqv_simulate s1 None)|]. intros t.
    apply (eqv_bind (fun x => (map rn (fst x), snd x))); [apply IH|]. intros x. now apply eqv_ret.
Qed.
Lemma eqv_get_prover s : forall sd, eqv rgp (get_prover s sd) (get_prover (rn s) (rd sd)).
Proof.
  induction s as [d|subs b IH|subs b ch IH|k b p|k b p con IH] using stmt_ind'; intros sd; cbn [rename get_prover]; try rewrite Forall_forall in IH.
  - apply (eqv_bind (fun x => (option_map rpro (fst x), rdl (snd x)))); [apply eqv_gp_dl|]. intros x. now apply eqv_ret.
  - idb; [apply eqv_update|]. intros _. destruct b; [now apply eqv_ret|]. apply (eqv_bind (map rgp)); [apply eqv_mapM; intros x Hx; now apply IH|]. intros l.
    assert (E : forallb (fun r0 => is_some (fst r0)) (map rgp l) = forallb (fun r0 => is_some (fst r0)) l).
    { clear. induction l as [|[[p|] s] l IH]; simpl; auto. }
    rewrite E. destruct (forallb _ l); [|apply eqv_raise]. apply eqv_ret. unfold rgp. cbn [fst snd option_map rpro rename]. f_equal.
    + f_equal. f_equal. clear. induction l as [|[[p|] s] l IH]; simpl; auto. now rewrite IH.
    + f_equal. now rewrite !map_map.
  - idb; [apply eqv_update|]. intros _. destruct b; [now apply eqv_ret|].
    assert (E : map fst (filter (fun p : nat * stmt => negb (simulated (snd p))) (combine (seq 0 (List.length (map rn subs))) (map rn subs))) =
                map fst (filter (fun p : nat * stmt => negb (simulated (snd p))) (combine (seq 0 (List.length subs)) subs))).
    { rewrite map_length. generalize (seq 0 (List.length subs)). clear. induction subs as [|x l IH]; intros [|i il]; simpl; auto.
      rewrite simulated_r. destruct (simulated x); simpl; auto. now rewrite IH. }
    rewrite E. set (cands := map fst _). destruct (empty_dict cands); [now apply eqv_ret|].
    apply (eqv_bind (fun x => (option_map (fun ip => (fst ip, rpro (snd ip))) (fst x), map rn (snd x)))).
    { apply eqv_or_loop. clear E cands. induction subs as [|x l IHl]; constructor; [apply IH; now left|apply IHl; intros; apply IH; now right]. }
    intros [[[i p]|] l]; cbn [fst snd option_map]; [|now apply eqv_ret].
    apply (eqv_bind (fun x => (map rn (fst x), snd x))); [apply eqv_setup|]. intros t. now apply eqv_ret.
  - idb; [apply eqv_update|]. intros _. apply eqv_env. intros e e' R. apply eqv_ret. unfold rgp. cbn. now rewrite <- (dupdate_r e e' [] sd).
  - idb; [apply eqv_update|]. intros _. apply eqv_env. intros e e' R. apply eqv_ret. unfold rgp. cbn. now rewrite <- (dupdate_r e e' [] sd).
Qed.
Definition rpc (x : val * prover * stmt) := (fst (fst x), rpro (snd (fst x)), rn (snd x)).
Lemma eqv_pc s : forall p, eqv rpc (precommit s p) (precommit (rn s) (rpro p)).
Proof.
  induction s as [d|subs b IH|subs b ch IH|k b q|k b q con IH] using stmt_ind'; intros p; try rewrite Forall_forall in IH; destruct p as [ks|ps|i sp sims|sv pc];
    cbn [rename rpro precommit]; try apply eqv_raise.
  - now apply eqv_ret.
  - apply (eqv_bind (map rpc)); [apply eqv_zipM; intros; now apply IH|]. intros l. apply eqv_ret. unfold rpc. cbn [fst snd rpro rename].
    rewrite !map_map. reflexivity.
  - apply (eqv_bind (fun x => (fst (fst x), rpro (snd (fst x)), map rn (snd x)))); [|intros x; now apply eqv_ret].
    revert i. induction subs as [|x l IHl]; intros i; [apply eqv_raise|]. destruct i as [|i]; cbn [map].
    + apply (eqv_bind rpc); [apply IH; now left|]. intros y. now apply eqv_ret.
    + apply (eqv_bind (fun x => (fst (fst x), rpro (snd (fst x)), map rn (snd x)))); [apply IHl; intros; apply IH; now right|]. intros y. now apply eqv_ret.
  - idb; [apply eqv_precommit|]. intros pre. apply (eqv_bind rn); [apply eqv_construct|]. intros c. apply (eqv_bind rgp); [apply eqv_get_prover|]. intros x. now apply eqv_ret.
  - idb; [apply eqv_precommit|]. intros pre. apply (eqv_bind rn); [apply eqv_construct|]. intros c. apply (eqv_bind rgp); [apply eqv_get_prover|]. intros x. now apply eqv_ret.
Qed.
Definition rcm (x : val * prover) := (fst x, rpro (snd x)).
Lemma eqv_commit_dl d o : eqv rcm (commit_dl d o) (commit_dl (rdl d) (option_map rd o)).
Proof.
  unfold commit_dl. apply (eqv_bind rd). { apply (eqv_upd_rand _ _ (Ok (dl_secs d))). apply eqv_rand_dl. }
  intros rs. apply eqv_env. intros e e' R. idb.
  { apply eqv_lift. cbn [rdl dl_secs]. rewrite (rmap_res r (fun a => a) (dget_err e rs)).
    - destruct (rmap _ _); simpl; auto. now rewrite map_id.
    - intros x _. rewrite (dget_err_r e) by auto. apply idres. }
  intros l. cbn [rdl dl_bases]. destruct (dl_bases d) as [|b0 bs]; [apply eqv_raise|]. idb; [apply eqv_lift0|]. intros com. now apply eqv_ret.
Qed.
Lemma eqv_commit s : forall p o, eqv rcm (internal_commit s p o) (internal_commit (rn s) (rpro p) (option_map rd o)).
Proof.
  induction s as [d|subs b IH|subs b ch IH|k b q|k b q con IH] using stmt_ind'; intros p o; try rewrite Forall_forall in IH; destruct p as [ks|ps|i sp sims|sv pc];
    try (cbn [rename rpro internal_commit]; apply eqv_raise).
  - apply eqv_commit_dl.
  - assert (V := vars_r (SAnd subs b)). assert (G := eqv_rand_and (SAnd subs b)). assert (VA := fun e e' => validate_and_r e e' (SAnd subs b)).
    change (rn (SAnd subs b)) with (SAnd (map rn subs) b) in *. cbn [internal_commit rpro]. apply eqv_env. intros e e' R. rewrite (VA e e' R), V.
    idb; [apply eqv_lift0|]. intros _. apply (eqv_bind rd); [now apply eqv_upd_rand|]. intros rs.
    apply (eqv_bind (map rcm)). { apply eqv_zipM. intros x y Hx. apply (IH x Hx y (Some rs)). }
    intros l. apply eqv_ret. unfold rcm. cbn [fst snd rpro]. now rewrite !map_map.
  - assert (VA := fun e e' => validate_or_r e e' (SOr subs b ch)).
    change (rn (SOr subs b ch)) with (SOr (map rn subs) b ch) in *. cbn [internal_commit rpro]. apply eqv_env. intros e e' R. rewrite (VA e e' R).
    idb; [apply eqv_lift0|]. intros _. apply (eqv_bind rcm); [|intros x; now apply eqv_ret]. clear VA.
    revert i. induction subs as [|x l IHl]; intros i; [apply eqv_raise|]. destruct i as [|i]; cbn [map].
    + apply (IH x (or_introl eq_refl) sp None).
    + apply IHl. intros; apply IH; now right.
  - cbn [rename option_map rpro internal_commit]. destruct pc as [[q0|]|]; cbn [option_map]; try apply eqv_raise.
    apply (eqv_bind rcm); [apply IH|]. intros x. now apply eqv_ret.
Qed.
Lemma eqv_respond_dl d ks c : eqv (fun v => v) (respond_dl d ks c) (respond_dl (rdl d) ks c).
Proof.
  unfold respond_dl. cbn [rdl dl_bases dl_vals dl_secs]. destruct ks as [ks|]; [|apply eqv_raise]. destruct (dl_bases d) as [|b0 bs]; [apply eqv_raise|].
  apply eqv_env. intros e e' R. idb; [|intros rs; now apply eqv_ret]. apply eqv_lift. rewrite combine_r.
  rewrite (rmap_res (fun kv : secret * Z => (r (fst kv), snd kv)) (fun a => a) (fun sk => let? v := dget_err e (dl_vals d) (fst sk) in Ok ((v * c + snd sk) mod order (grp b0)))).
  - destruct (rmap _ _); simpl; auto. now rewrite map_id.
  - intros [x k] _. cbn [fst snd]. rewrite (dget_err_r e) by auto. apply idres.
Qed.
Lemma eqv_response s : forall p c, eqv (fun v => v) (compute_response s p c) (compute_response (rn s) (rpro p) c).
Proof.
  induction s as [d|subs b IH|subs b ch IH|k b q|k b q con IH] using stmt_ind'; intros p c; try rewrite Forall_forall in IH; destruct p as [ks|ps|i sp sims|sv pc];
    cbn [rename rpro compute_response option_map]; try apply eqv_raise.
  - apply eqv_respond_dl.
  - apply (eqv_bind (map (fun v : val => v))). { apply (eqv_zipM rn rpro). intros x y Hx. now apply IH. }
    intros l. rewrite map_id. now apply eqv_ret.
  - cbv zeta. idb; [|intros x; now apply eqv_ret].
    revert i. induction subs as [|x l IHl]; intros i; [apply eqv_raise|]. destruct i as [|i]; cbn [map].
    + apply IH. now left.
    + apply IHl. intros; apply IH; now right.
  - destruct pc as [[q0|]|]; cbn [option_map]; try apply eqv_raise. apply IH.
Qed.
Theorem eqv_prove s sd msg : eqv (fun x => (fst x, rn (snd x))) (prove s sd msg) (prove (rn s) (rd sd) msg).
Proof.
  unfold prove. apply (eqv_bind rgp); [apply eqv_get_prover|]. intros [[p|] s1]; cbn [rgp fst snd option_map]; [|apply eqv_raise].
  apply (eqv_bind (fun x => (fst (fst x), rpro (snd (fst x)), rn (snd x)))); [|intros [[z p1] s2]; now apply eqv_ret].
  unfold get_nizk_proof. apply (eqv_bind rpc); [apply eqv_pc|]. intros [[pre p1] s2]. cbn [rpc fst snd].
  apply (eqv_bind rcm); [apply (eqv_commit s2 p1 None)|]. intros [com p2]. cbn [rcm fst snd]. rewrite prehash_r.
  idb; [apply eqv_lift0|]. intros h. idb; [apply eqv_lift0|]. intros c. idb; [apply eqv_response|]. intros v. now apply eqv_ret.
Qed.

(** ** Verifiers *)
Lemma get_verifier_r s : get_verifier (rn s) = get_verifier s.
Proof.
  induction s as [d|subs b IH|subs b ch IH|k b q|k b q con IH] using stmt_ind'; simpl; auto; rewrite map_map; f_equal; apply map_ext_in; rewrite Forall_forall in IH; auto.
Qed.
Definition rvs (x : verifier * stmt) := (fst x, rn (snd x)).
Lemma eqv_process s : forall v pre, eqv rvs (process_pre s v pre) (process_pre (rn s) v pre).
Proof.
  induction s as [d|subs b IH|subs b ch IH|k b q|k b q con IH] using stmt_ind'; intros v pre; try rewrite Forall_forall in IH; destruct v as [|vs|vs|ov];
    cbn [rename process_pre]; try apply eqv_raise.
  - now apply eqv_ret.
  - destruct (is_none pre); [now apply eqv_ret|]. apply (eqv_bind (map rvs)).
    + generalize 0%nat. revert vs. induction subs as [|x l IHl]; intros [|w vs] i; cbn [map]; try (now apply eqv_ret).
      idb; [apply eqv_lift0|]. intros p. apply (eqv_bind rvs); [apply IH; now left|]. intros y.
      apply (eqv_bind (map rvs)); [apply IHl; intros; apply IH; now right|]. intros ys. now apply eqv_ret.
    + intros l. apply eqv_ret. unfold rvs. cbn [fst snd rename]. now rewrite !map_map.
  - destruct (is_none pre); [now apply eqv_ret|]. apply (eqv_bind (map rvs)).
    + generalize 0%nat. revert vs. induction subs as [|x l IHl]; intros [|w vs] i; cbn [map]; try (now apply eqv_ret).
      idb; [apply eqv_lift0|]. intros p. apply (eqv_bind rvs); [apply IH; now left|]. intros y.
      apply (eqv_bind (map rvs)); [apply IHl; intros; apply IH; now right|]. intros ys. now apply eqv_ret.
    + intros l. apply eqv_ret. unfold rvs. cbn [fst snd rename]. now rewrite !map_map.
  - apply (eqv_bind rn); [apply eqv_construct|]. intros c. apply eqv_ret. now rewrite get_verifier_r.
  - apply (eqv_bind rn); [apply eqv_construct|]. intros c. apply eqv_ret. now rewrite get_verifier_r.
Qed.
Lemma consistent_dl_r e e' ss v d : erel e e' -> consistent_dl e' (map r ss) v (rd d) = rres (option_map rd) (consistent_dl e ss v d).
Proof.
  intros R. unfold consistent_dl. generalize 0%nat. revert d. induction ss as [|s ss IH]; intros d i; cbn [map]; auto.
  rewrite (dget_r e) by auto. destruct (dget e d s) as [x|]; destruct (index v i) as [ri|]; cbn [rbind rres]; auto.
  - destruct (val_eqb ri x); auto.
  - rewrite (dset_r e) by auto. apply IH.
Qed.
Lemma consistent_r e e' s : erel e e' -> forall v x d, consistent e' (rn s) v x (rd d) = rres (option_map rd) (consistent e s v x d).
Proof.
  intros R. induction s as [d0|subs b IH|subs b ch IH|k b q|k b q con IH] using stmt_ind'; intros v x d; try rewrite Forall_forall in IH; destruct v as [|vs|vs|ov];
    cbn [rename consistent option_map]; auto.
  - now apply consistent_dl_r.
  - generalize 0%nat. revert vs d. induction subs as [|y l IHl]; intros [|w vs] d i; cbn [map]; auto.
    destruct (index x i) as [ri|]; cbn [rbind rres]; auto. rewrite (IH y (or_introl eq_refl)). destruct (consistent e y w ri d) as [[d1|]|]; cbn [rbind rres option_map]; auto.
    apply IHl. intros; apply IH; now right.
  - generalize (index x 1). intros i1. generalize 0%nat. revert vs. induction subs as [|y l IHl]; intros [|w vs] i; cbn [map]; auto.
    destruct i1 as [rs|]; cbn [rbind rres]; auto. destruct (index rs i) as [ri|]; cbn [rbind rres]; auto.
    assert (HH := IH y (or_introl eq_refl) w ri []). cbn [rdict map] in HH. rewrite HH. clear HH. destruct (consistent e y w ri []) as [[d1|]|]; cbn [rbind rres option_map]; auto.
    apply IHl. intros; apply IH; now right.
  - destruct ov; auto.
Qed.
Lemma pre_validation_r e e' s v x : erel e e' -> pre_validation e' (rn s) v x = pre_validation e s v x.
Proof.
  intros R. unfold pre_validation. rewrite full_validate_r. destruct (full_validate s); simpl; auto.
  assert (H := consistent_r e e' s R v x []). cbn [rdict map] in H. rewrite H. destruct (consistent e s v x []) as [[?|]|]; reflexivity.
Qed.
Lemma verify_resp_r e e' s v com c x : erel e e' -> verify_resp e' (rn s) v com c x = verify_resp e s v com c x.
Proof. intros R. unfold verify_resp. now rewrite (pre_validation_r e), recompute_r. Qed.
Theorem eqv_verify s z msg : eqv (fun x => (fst x, rn (snd x))) (verify s z msg) (verify (rn s) z msg).
Proof.
  unfold verify, verify_nizk. rewrite get_verifier_r. apply (eqv_bind rvs).
  { destruct (is_none _); [now apply eqv_ret|apply eqv_process]. }
  intros [v s1]. cbn [rvs fst snd]. rewrite check_r. idb; [apply eqv_lift0|]. intros h. apply eqv_env. intros e e' R. rewrite (pre_validation_r e) by auto.
  idb; [apply eqv_lift0|]. intros _. rewrite recompute_r. idb; [apply eqv_lift0|]. intros com. idb; [apply eqv_lift0|]. intros c. now apply eqv_ret.
Qed.
Theorem eqv_verify_simulation s t h : eqv (fun b => b) (verify_simulation s t h) (verify_simulation (rn s) t h).
Proof.
  unfold verify_simulation. rewrite get_verifier_r. apply (eqv_bind rvs); [apply eqv_process|]. intros [v s1]. cbn [rvs fst snd]. rewrite check_r.
  idb; [apply eqv_lift0|]. intros _. apply eqv_env. intros e e' R. rewrite (verify_resp_r e) by auto. apply eqv_lift0.
Qed.
Lemma eqv_challenge s v h com : eqv (fun c => c) (send_challenge s v h com) (send_challenge (rn s) v h com).
Proof.
  unfold send_challenge. rewrite check_r. idb; [apply eqv_lift0|]. intros _. destruct v as [|?|?|[[|?|?|?]|]]; try apply eqv_raise; apply eqv_draw.
Qed.
Theorem eqv_interactive sp p sv : eqv (fun b => b) (run_interactive sp p sv) (run_interactive (rn sp) (rpro p) (rn sv)).
Proof.
  unfold run_interactive. apply (eqv_bind rpc); [apply eqv_pc|]. intros [[pre p1] sp1]. cbn [rpc fst snd]. rewrite get_verifier_r.
  apply (eqv_bind rvs); [apply eqv_process|]. intros [v sv1]. cbn [rvs fst snd].
  apply (eqv_bind (fun x => (fst x, rpro (snd x)))).
  { unfold commit. rewrite digest_r. idb; [apply eqv_lift0|]. intros h. apply (eqv_bind rcm); [apply (eqv_commit sp1 p1 None)|]. intros [com p2]. now apply eqv_ret. }
  intros [[h com] p2]. cbn [fst snd]. idb; [apply eqv_challenge|]. intros c. idb; [apply eqv_response|]. intros x. apply eqv_env. intros e e' R.
  rewrite (verify_resp_r e) by auto. apply eqv_lift0.
Qed.
End E.

Section E2.
Context {W : World}.
Lemma renamed_prove f j s sd msg a a' : inj f -> (forall x y, j x = j y -> x = y) -> same_state j a a' ->
  match prove s sd msg a with
  | Ok ((z, s1), a1) => exists a1', prove (rename f j s) (rdict f j sd) msg a' = Ok ((z, rename f j s1), a1') /\ same_state j a1 a1'
  | Err x => prove (rename f j s) (rdict f j sd) msg a' = Err x
  end.
Proof. intros I J R. assert (H := eqv_prove f j I J s sd msg a a' R). now destruct (prove s sd msg a) as [[[z s1] a1]|]. Qed.
Lemma renamed_verify_all f j s z msg a a' : inj f -> same_state j a a' ->
  match verify s z msg a with
  | Ok ((b, s1), a1) => exists a1', verify (rename f j s) z msg a' = Ok ((b, rename f j s1), a1') /\ same_state j a1 a1'
  | Err x => verify (rename f j s) z msg a' = Err x
  end.
Proof. intros I R. assert (H := eqv_verify f j I s z msg a a' R). now destruct (verify s z msg a) as [[[b s1] a1]|]. Qed.
Lemma renamed_simulate f j s c a a' : inj f -> same_state j a a' ->
  match simulate s c a with
  | Ok ((t, h, s1), a1) => exists a1', simulate (rename f j s) c a' = Ok ((t, h, rename f j s1), a1') /\ same_state j a1 a1'
  | Err x => simulate (rename f j s) c a' = Err x
  end.
Proof. intros I R. assert (H := eqv_simulate_all f j I s c a a' R). now destruct (simulate s c a) as [[[[t h] s1] a1]|]. Qed.
Lemma renamed_conversation f j sp sd sv a a' : inj f -> (forall x y, j x = j y -> x = y) -> same_state j a a' ->
  match conversation sp sd sv a with
  | Ok (b, a1) => exists a1', conversation (rename f j sp) (rdict f j sd) (rename f j sv) a' = Ok (b, a1') /\ same_state j a1 a1'
  | Err x => conversation (rename f j sp) (rdict f j sd) (rename f j sv) a' = Err x
  end.
Proof.
  intros I J. revert a a'. change (eqv j (fun b => b) (conversation sp sd sv) (conversation (rename f j sp) (rdict f j sd) (rename f j sv))).
  unfold conversation. apply (eqv_bind j (rgp f j)); [now apply eqv_get_prover|]. intros [[p|] s1]; cbn [rgp fst snd option_map]; [|apply eqv_raise].
  now apply eqv_interactive.
Qed.
End E2.

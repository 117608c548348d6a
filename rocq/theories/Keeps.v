(** Which computations leave the values of secrets unchanged; unfolding lemmas for the tree
    traversals of the model. *)
From Coq Require Import String.
From Verif Require Import Base World Val Expr Utils Stmt Prove Verify Spec Shapes Lib DictProofs.
Open Scope Z_scope.
Open Scope list_scope.

Definition keeps {A} (m : M A) : Prop := forall s a s', m s = Ok (a, s') -> env s' = env s.

Lemma keeps_ret {A} (a : A) : keeps (ret a).
Proof. intros s b s' H. minv H. auto. Qed.
Lemma keeps_raise {A} e : keeps (@raise A e).
Proof. intros s b s' H. discriminate. Qed.
Lemma keeps_lift {A} (r : res A) : keeps (lift r).
Proof. intros s b s' H. minv H. auto. Qed.
Lemma keeps_get_env : keeps get_env.
Proof. intros s b s' H. minv H. auto. Qed.
Lemma keeps_draw n : keeps (draw n).
Proof. intros s b s' H. unfold draw in H. injection H as <- <-. auto. Qed.
Lemma keeps_bind {A B} (m : M A) (f : A -> M B) : keeps m -> (forall a, keeps (f a)) -> keeps (bind m f).
Proof. intros H K s b s' E. minv E. rewrite (K _ _ _ _ E), (H _ _ _ E0). auto. Qed.
Lemma keeps_mapM {A B} (f : A -> M B) l : (forall x, In x l -> keeps (f x)) -> keeps (mapM f l).
Proof.
  induction l as [|x l IH]; simpl; intros H; [apply keeps_ret|].
  apply keeps_bind; [apply H; auto|]. intros y. apply keeps_bind; [apply IH; auto|].
  intros ys. apply keeps_ret.
Qed.
Lemma keeps_imapM {A B} (f : nat -> A -> M B) l : (forall i x, In x l -> keeps (f i x)) ->
  forall i, keeps (imapM f i l).
Proof.
  induction l as [|x l IH]; simpl; intros H i; [apply keeps_ret|].
  apply keeps_bind; [apply H; auto|]. intros y. apply keeps_bind; [apply IH; auto|].
  intros ys. apply keeps_ret.
Qed.
Lemma keeps_zipM {A B C} (f : A -> B -> M C) l : forall m,
  (forall x y, In x l -> keeps (f x y)) -> keeps (zipM f l m).
Proof.
  induction l as [|x l IH]; intros [|y m] H; simpl; try apply keeps_ret.
  apply keeps_bind; [apply H; simpl; auto|]. intros z. apply keeps_bind; [apply IH; intros; apply H; simpl; auto|].
  intros zs. apply keeps_ret.
Qed.

Ltac keeps_tac :=
  repeat first
    [ apply keeps_ret | apply keeps_raise | apply keeps_lift | apply keeps_get_env
    | apply keeps_draw | apply keeps_bind; [|intros ?]
    | apply keeps_mapM; intros ? ? | apply keeps_imapM; intros ? ? ?
    | match goal with
      | |- keeps (match ?x with _ => _ end) => destruct x
      | |- keeps (let (_, _) := ?x in _) => destruct x
      | |- keeps (if ?x then _ else _) => destruct x
      end ].

Section K.
Context {W : World}.

Lemma keeps_get_random_num n : keeps (get_random_num n).
Proof. apply keeps_draw. Qed.
Lemma keeps_randomizers_dl d : keeps (randomizers_dl d).
Proof. unfold randomizers_dl. keeps_tac. Qed.
Lemma keeps_randomizers_and s : keeps (randomizers_and s).
Proof. unfold randomizers_and. keeps_tac. Qed.
Lemma keeps_update_randomizers g ss o : keeps g -> keeps (update_randomizers g ss o).
Proof.
  intros H. unfold update_randomizers. destruct o as [d|]; auto.
  apply keeps_bind; [apply keeps_lift|]. intros a.
  apply keeps_bind; [apply keeps_get_env|]. intros e.
  destruct (existsb _ a); [|apply keeps_ret].
  apply keeps_bind; auto. intros t. keeps_tac.
Qed.
Lemma keeps_mk_dlrep l x b : keeps (mk_dlrep l x b).
Proof. unfold mk_dlrep. keeps_tac. Qed.
Lemma keeps_lift2 m : keeps m -> keeps (lift2 m).
Proof. intros H. apply keeps_bind; auto. intros d. apply keeps_ret. Qed.
Lemma keeps_bit_stmt g h C r b : keeps (bit_stmt g h C r b).
Proof.
  unfold bit_stmt. apply keeps_bind; [apply keeps_mk_dlrep|]. intros p0.
  apply keeps_bind; [apply keeps_lift|]. intros C1.
  apply keeps_bind; [apply keeps_mk_dlrep|]. intros p1. apply keeps_lift.
Qed.
Lemma keeps_construct k pre : keeps (construct k pre).
Proof.
  destruct k as [H0 g H1 h x al be bnd|com g h n isp x r rs|pk sig bs sv r1 r2 d1 d2|cls rows]; simpl.
  - unfold construct_neq.
    repeat first [ apply keeps_lift2, keeps_mk_dlrep | apply keeps_lift | apply keeps_bind; [|intros ?]
                 | match goal with |- keeps (if ?b then _ else _) => destruct b end ].
  - unfold construct_range. apply keeps_bind; [apply keeps_get_env|]. intros e.
    apply keeps_bind; [keeps_tac|]. intros bits.
    apply keeps_bind; [|intros; apply keeps_lift].
    apply keeps_imapM. intros i y _. apply keeps_bind; [apply keeps_lift|]. intros C.
    apply keeps_bit_stmt.
  - unfold construct_bbs.
    repeat first [ apply keeps_lift2, keeps_mk_dlrep | apply keeps_lift | apply keeps_raise
                 | apply keeps_bind; [|intros ?]
                 | match goal with |- keeps (match ?b with _ => _ end) => destruct b end ].
  - unfold construct_custom. apply keeps_bind.
    + apply keeps_mapM. intros. apply keeps_lift2, keeps_mk_dlrep.
    + intros ds. destruct ds as [|d [|]]; try apply keeps_ret; apply keeps_lift.
Qed.
Lemma keeps_ksim_precommit k : keeps (ksim_precommit k).
Proof.
  destruct k as [H0 g H1 h x al be bnd|com g h n isp x r rs|pk sig bs sv r1 r2 d1 d2|cls rows]; simpl.
  - keeps_tac.
  - apply keeps_bind; [keeps_tac|]. intros rv. destruct (map _ rv); keeps_tac.
  - destruct bs; keeps_tac.
  - apply keeps_raise.
Qed.
Lemma keeps_prepare_sim s : keeps (prepare_sim s).
Proof.
  induction s as [d|subs b IH|subs b c IH|k b p|k b p c IH] using stmt_ind'; simpl.
  - apply keeps_ret.
  - apply keeps_bind; [|intros; apply keeps_ret]. apply keeps_mapM. now apply Forall_forall.
  - apply keeps_bind; [|intros; apply keeps_ret]. apply keeps_mapM. now apply Forall_forall.
  - apply keeps_bind; [apply keeps_ksim_precommit|]. intros v. unfold full_construct.
    apply keeps_bind; [apply keeps_construct|]. intros; apply keeps_ret.
  - apply keeps_bind; [apply keeps_ksim_precommit|]. intros v. unfold full_construct.
    apply keeps_bind; [apply keeps_construct|]. intros; apply keeps_ret.
Qed.
Lemma keeps_or_draw o : keeps (or_draw o).
Proof. destruct o; [apply keeps_ret|apply keeps_draw]. Qed.
Lemma keeps_simulate_dl d rd c : keeps (simulate_dl d rd c).
Proof.
  unfold simulate_dl. apply keeps_bind; [apply keeps_update_randomizers, keeps_randomizers_dl|].
  intros r. apply keeps_bind; [apply keeps_or_draw|]. intros c'. keeps_tac.
Qed.

(** the loop of the simulated or-proof *)
Definition sim_or_loop (f : stmt -> option Z -> M sim) (c : Z) :=
  fix go (l : list stmt) (chals : list Z) {struct l} : M (list sim) := match l with
    | [] => raise EIndexErr
    | [x] => let fc := find_residual chals c challenge_length in
             let! t := f x (Some fc) in
             ret [mkSim (t_com t) fc (t_resp t) (t_pre t)]
    | x :: l => let! t := f x None in
                let! ts := go l (chals ++ [t_chal t]) in ret (t :: ts)
    end.
Lemma simulate_or subs b ch rd c :
  simulate_proof (SOr subs b ch) rd c =
  (let! c := or_draw c in
   let! ts := sim_or_loop (fun s => simulate_proof s None) c subs [] in
   ret (mkSim (VList (map t_com ts)) c
              (VTuple [VList (map (fun t => VInt (t_chal t)) ts); VList (map t_resp ts)])
              (VList (map t_pre ts)))).
Proof. reflexivity. Qed.

Lemma keeps_simulate_proof s : forall rd c, keeps (simulate_proof s rd c).
Proof.
  induction s as [d|subs b IH|subs b ch IH|k b p|k b p con IH] using stmt_ind'; intros rd c.
  - apply keeps_simulate_dl.
  - simpl. apply keeps_bind; [apply keeps_update_randomizers, keeps_randomizers_and|]. intros r.
    apply keeps_bind; [apply keeps_or_draw|]. intros c'.
    apply keeps_bind; [|intros; apply keeps_ret]. apply keeps_mapM. intros x Hx.
    rewrite Forall_forall in IH. now apply IH.
  - rewrite simulate_or. apply keeps_bind; [apply keeps_or_draw|]. intros c'.
    apply keeps_bind; [|intros; apply keeps_ret].
    assert (G : forall l chals, (forall x, In x l -> In x subs) ->
                keeps (sim_or_loop (fun s => simulate_proof s None) c' l chals)).
    { rewrite Forall_forall in IH. induction l as [|x l IHl]; intros chals Hl; simpl.
      - apply keeps_raise.
      - destruct l as [|y l].
        + apply keeps_bind; [apply IH, Hl; simpl; auto|intros; apply keeps_ret].
        + apply keeps_bind; [apply IH, Hl; simpl; auto|intros t].
          apply keeps_bind; [apply IHl; intros; apply Hl; simpl in *; auto|intros; apply keeps_ret]. }
    apply G; auto.
  - simpl. apply keeps_raise.
  - simpl. apply keeps_bind; [apply IH|intros; apply keeps_ret].
Qed.

Definition setup_loop (idx : nat) :=
  fix go (i : nat) (l : list stmt) {struct l} : M (list stmt * list sim) := match l with
     | [] => ret ([], [])
     | s :: l =>
       if Nat.eqb i idx then let! r := go (S i) l in ret (s :: fst r, snd r)
       else let! s := prepare_sim s in
            let! t := simulate_proof s None None in
            let! r := go (S i) l in ret (s :: fst r, t :: snd r)
     end.
Lemma setup_simulations_eq idx subs : setup_simulations idx subs = setup_loop idx 0 subs.
Proof. reflexivity. Qed.
Lemma keeps_setup idx l : forall i, keeps (setup_loop idx i l).
Proof.
  induction l as [|s l IH]; intros i; simpl; [apply keeps_ret|].
  destruct (Nat.eqb i idx).
  - apply keeps_bind; [apply IH|intros; apply keeps_ret].
  - apply keeps_bind; [apply keeps_prepare_sim|intros s'].
    apply keeps_bind; [apply keeps_simulate_proof|intros t].
    apply keeps_bind; [apply IH|intros; apply keeps_ret].
Qed.

(** selecting the sub-statement an or-prover works on *)
Definition or_pre_loop (f : stmt -> M (val * prover * stmt)) :=
  fix go (j : nat) (l : list stmt) {struct l} : M (val * prover * list stmt) := match l with
    | [] => raise EIndexErr
    | x :: l => match j with
                | O => let! r := f x in ret (fst r, snd r :: l)
                | S j => let! r := go j l in ret (fst r, x :: snd r)
                end
    end.
Lemma precommit_or subs b ch i sp sims :
  precommit (SOr subs b ch) (POr i sp sims) =
  (let! r := or_pre_loop (fun x => precommit x sp) i subs in
   let pres := insert_at i (fst (fst r)) (map t_pre sims) in
   ret (if existsb truthy pres then VList pres else VNone,
        POr i (snd (fst r)) sims, SOr (snd r) b ch)).
Proof. reflexivity. Qed.
Lemma or_pre_loop_ok f l : forall j s v p l' s',
  or_pre_loop f j l s = Ok ((v, p, l'), s') ->
  exists x x', nth_error l j = Some x /\ f x s = Ok ((v, p, x'), s') /\ l' = replace j x' l.
Proof.
  induction l as [|y l IH]; intros j s v p l' s' H; simpl in H; [discriminate|].
  destruct j as [|j].
  - minv H. destruct a as [[v' p'] x']. simpl in *. injection H as -> -> <-.
    exists y, x'. auto.
  - minv H. destruct a as [[v' p'] l2]. simpl in *. injection H as -> -> <-.
    apply IH in E as (x & x' & N & F & ->). exists x, x'. auto.
Qed.

Definition sel_loop {A} (f : stmt -> M A) :=
  fix go (j : nat) (l : list stmt) {struct l} : M A := match l with
    | [] => raise EIndexErr
    | x :: l => match j with O => f x | S j => go j l end
    end.
Lemma sel_loop_eq {A} (f : stmt -> M A) l : forall j s,
  sel_loop f j l s = match nth_error l j with Some x => f x s | None => Err EIndexErr end.
Proof. induction l as [|x l IH]; intros [|j] s; simpl; auto. Qed.
Lemma internal_commit_or subs b ch i sp sims rd :
  internal_commit (SOr subs b ch) (POr i sp sims) rd =
  (let! e := get_env in
   let! _ := lift (validate_or e (SOr subs b ch)) in
   let! r := sel_loop (fun x => internal_commit x sp None) i subs in
   ret (VList (insert_at i (fst r) (map t_com sims)), POr i (snd r) sims)).
Proof. reflexivity. Qed.
Lemma compute_response_or subs b ch i sp sims c :
  compute_response (SOr subs b ch) (POr i sp sims) c =
  (let rc := find_residual (map t_chal sims) c challenge_length in
   let! r := sel_loop (fun x => compute_response x sp rc) i subs in
   ret (VTuple [VList (map VInt (insert_at i rc (map t_chal sims)));
                VList (insert_at i r (map t_resp sims))])).
Proof. reflexivity. Qed.

(** verifiers: traversals *)
Definition pp_loop (f : stmt -> verifier -> val -> M (verifier * stmt)) (pre : val) :=
  fix go (i : nat) (l : list stmt) (vs : list verifier) {struct l} : M (list (verifier * stmt)) :=
    match l, vs with
    | x :: l, w :: vs => let! p := lift (index pre i) in
                         let! r := f x w p in
                         let! rs := go (S i) l vs in ret (r :: rs)
    | _, _ => ret []
    end.
Lemma process_pre_and subs b vs pre :
  process_pre (SAnd subs b) (RAnd vs) pre =
  if is_none pre then ret (RAnd vs, SAnd subs b) else
  let! l := pp_loop process_pre pre 0 subs vs in ret (RAnd (map fst l), SAnd (map snd l) b).
Proof. reflexivity. Qed.
Lemma process_pre_or subs b ch vs pre :
  process_pre (SOr subs b ch) (ROr vs) pre =
  if is_none pre then ret (ROr vs, SOr subs b ch) else
  let! l := pp_loop process_pre pre 0 subs vs in ret (ROr (map fst l), SOr (map snd l) b ch).
Proof. reflexivity. Qed.

Definition cand_loop (f : stmt -> verifier -> val -> dict val -> res (option (dict val))) (r : val) :=
  fix go (i : nat) (l : list stmt) (vs : list verifier) (rd : dict val) {struct l} :=
    match l, vs with
    | x :: l, w :: vs =>
        let? ri := index r i in
        let? o := f x w ri rd in
        match o with Some rd => go (S i) l vs rd | None => Ok None end
    | _, _ => Ok (Some rd)
    end.
Lemma consistent_and e subs b vs r rd :
  consistent e (SAnd subs b) (RAnd vs) r rd = cand_loop (consistent e) r 0 subs vs rd.
Proof. reflexivity. Qed.
Definition cor_loop (f : stmt -> verifier -> val -> dict val -> res (option (dict val))) (r : val)
    (rd : dict val) :=
  fix go (i : nat) (l : list stmt) (vs : list verifier) {struct l} :=
    match l, vs with
    | x :: l, w :: vs =>
        let? rs := index r 1 in
        let? ri := index rs i in
        let? o := f x w ri [] in
        match o with Some _ => go (S i) l vs | None => Ok None end
    | _, _ => Ok (Some rd)
    end.
Lemma consistent_or e subs b ch vs r rd :
  consistent e (SOr subs b ch) (ROr vs) r rd = cor_loop (consistent e) r rd 0 subs vs.
Proof. reflexivity. Qed.

Lemma keeps_commit_dl d rd : keeps (commit_dl d rd).
Proof.
  unfold commit_dl. apply keeps_bind; [apply keeps_update_randomizers, keeps_randomizers_dl|].
  intros r. keeps_tac.
Qed.
Lemma keeps_internal_commit s : forall p rd, keeps (internal_commit s p rd).
Proof.
  induction s as [d|subs b IH|subs b ch IH|k b q|k b q con IH] using stmt_ind';
    intros [ks|ps|i sp sims|sv cp] rd; try (apply keeps_raise).
  - apply keeps_commit_dl.
  - simpl. apply keeps_bind; [apply keeps_get_env|intros e].
    apply keeps_bind; [apply keeps_lift|intros _].
    apply keeps_bind; [apply keeps_update_randomizers, keeps_randomizers_and|intros r].
    apply keeps_bind; [|intros; apply keeps_ret].
    apply keeps_zipM. intros x y Hx. rewrite Forall_forall in IH. now apply IH.
  - rewrite internal_commit_or. apply keeps_bind; [apply keeps_get_env|intros e].
    apply keeps_bind; [apply keeps_lift|intros _].
    apply keeps_bind; [|intros; apply keeps_ret].
    intros s a s' H. rewrite sel_loop_eq in H. destruct (nth_error subs i) as [x|] eqn:N; [|discriminate].
    rewrite Forall_forall in IH. eapply IH; eauto. eapply nth_error_In; eauto.
  - simpl. destruct cp as [[q'|]|]; try apply keeps_raise.
    apply keeps_bind; [apply IH|intros; apply keeps_ret].
Qed.
Lemma respond_dl_st d ks c s a s' : respond_dl d ks c s = Ok (a, s') -> s' = s.
Proof.
  unfold respond_dl. destruct ks as [ks|], (dl_bases d) as [|b0 bs]; try discriminate.
  intros H. minvs. auto.
Qed.
Lemma keeps_process_pre s : forall v pre, keeps (process_pre s v pre).
Proof.
  assert (G : forall subs pre, (forall x, In x subs -> forall v p, keeps (process_pre x v p)) ->
              forall i vs, keeps (pp_loop process_pre pre i subs vs)).
  { induction subs as [|x subs IHs]; intros pre H i [|w vs]; simpl; try apply keeps_ret.
    apply keeps_bind; [apply keeps_lift|intros p].
    apply keeps_bind; [apply H; simpl; auto|intros r].
    apply keeps_bind; [apply IHs; intros; apply H; simpl; auto|intros; apply keeps_ret]. }
  induction s as [d|subs b IH|subs b ch IH|k b q|k b q con IH] using stmt_ind';
    intros [|vs|vs|c] pre; try apply keeps_raise; try apply keeps_ret.
  - rewrite process_pre_and. destruct (is_none pre); [apply keeps_ret|].
    apply keeps_bind; [apply G; intros x Hx; rewrite Forall_forall in IH; auto|intros; apply keeps_ret].
  - rewrite process_pre_or. destruct (is_none pre); [apply keeps_ret|].
    apply keeps_bind; [apply G; intros x Hx; rewrite Forall_forall in IH; auto|intros; apply keeps_ret].
  - simpl. apply keeps_bind; [apply keeps_construct|intros; apply keeps_ret].
  - simpl. apply keeps_bind; [apply keeps_construct|intros; apply keeps_ret].
Qed.
End K.

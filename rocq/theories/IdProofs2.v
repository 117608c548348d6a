(** Proofs bound to statements, messages; simulated transcripts; renaming; the wire. *)
From Coq Require Import String.
From Verif Require Import Base World Val Expr Utils Stmt Prove Verify Spec Claims Shapes Honest Clauses Supply Extract Ident
  Lib DictProofs Keeps Tree Sigma Validate Commit ArithProofs Build Process Ktruth Provers Complete Sound Wire IdProofs.
Open Scope Z_scope.
Open Scope list_scope.

(** ** Numbering of secrets *)
Definition assign_step (acc : Z * list (bytes * Z)) (s : secret) : Z * list (bytes * Z) :=
  let (n, m) := acc in
  if existsb (fun p => bytes_eqb (fst p) (sname s)) m then acc else (n + 1, m ++ [(sname s, n)]).
Lemma NoDup_snoc {A} (l : list A) x : NoDup l -> ~ In x l -> NoDup (l ++ [x]).
Proof.
  intros H N. apply (NoDup_Add (a := x) (l := l)); [|auto]. rewrite <- (app_nil_r l) at 1. apply Add_app.
Qed.
Lemma assign_inv ss : forall n m, NoDup (map snd m) -> (forall p, In p m -> snd p < n) ->
  NoDup (map snd (snd (fold_left assign_step ss (n, m)))).
Proof.
  induction ss as [|s ss IH]; intros n m ND B; [exact ND|]. simpl.
  destruct (existsb _ m); [now apply IH|]. apply IH.
  - rewrite map_app. simpl. apply NoDup_snoc; auto. intros I. apply in_map_iff in I as (p & E & I). apply B in I. lia.
  - intros p I. apply in_app_iff in I as [I|[<-|[]]]; simpl; [apply B in I|]; lia.
Qed.
Lemma assign_nodup ss : NoDup (map snd (assign_secret_ids ss)).
Proof. apply (assign_inv ss 0 []); [constructor|intros p []]. Qed.
Lemma id_lookup_in m a n : id_lookup m a = Ok n -> In (a, n) m.
Proof.
  induction m as [|[k v] m IH]; simpl; [discriminate|]. destruct (bytes_eqb k a) eqn:E; intros H.
  - apply bytes_eqb_eq in E. injection H as ->. left. congruence.
  - right. auto.
Qed.
Lemma nodup_snd (m : list (bytes * Z)) a b n : NoDup (map snd m) -> In (a, n) m -> In (b, n) m -> a = b.
Proof.
  induction m as [|[k v] m IH]; simpl; [intros _ []|]. intros ND [E1|I1] [E2|I2]; inversion ND; subst.
  - congruence.
  - injection E1 as -> ->. exfalso. match goal with X : ~ In _ _ |- _ => apply X end. apply in_map_iff. exists (b, n). auto.
  - injection E2 as -> ->. exfalso. match goal with X : ~ In _ _ |- _ => apply X end. apply in_map_iff. exists (a, n). auto.
  - auto.
Qed.
(** the translation of names given by two numberings *)
Definition through (m m' : list (bytes * Z)) (a : bytes) : bytes :=
  match id_lookup m a with
  | Ok n => match find (fun p => snd p =? n) m' with Some p => fst p | None => a end
  | Err _ => a
  end.
Lemma through_ok m m' a b n : NoDup (map snd m') -> id_lookup m a = Ok n -> id_lookup m' b = Ok n -> b = through m m' a.
Proof.
  intros ND H1 H2. unfold through. rewrite H1. apply id_lookup_in in H2.
  destruct (find (fun p => snd p =? n) m') as [[k v]|] eqn:E.
  - apply find_some in E as [I E]. apply Z.eqb_eq in E. simpl in *. subst v. eapply nodup_snd; eauto.
  - exfalso. eapply find_none in E; [|exact H2]. simpl in E. now rewrite Z.eqb_refl in E.
Qed.

Section I.
Context {W : World}.

Lemma same_list_inv v m : same (VList v) m -> exists l, m = VList l /\ Forall2 same v l.
Proof. intros H. inversion H; subst; [match goal with X : is_atom (VList _) |- _ => destruct X end|eauto]. Qed.
Lemma same_tuple_inv v m : same (VTuple v) m -> exists l, m = VTuple l /\ Forall2 same v l.
Proof. intros H. inversion H; subst; [match goal with X : is_atom (VTuple _) |- _ => destruct X end|eauto]. Qed.
Lemma same_str_inv v m : same (VStr v) m -> m = VStr v.
Proof. intros H. inversion H; subst; [match goal with X : is_atom (VStr _) |- _ => destruct X end|reflexivity]. Qed.
Lemma same_pts bs : forall bs', Forall2 same (map VPt bs) (map VPt bs') -> Forall2 alike_pt bs bs'.
Proof.
  induction bs as [|b bs IH]; intros [|c bs'] H; inversion H; subst; constructor; auto.
  match goal with X : same (VPt _) _ |- _ => inversion X; subst; assumption end.
Qed.
Lemma same_ints is : forall is', Forall2 same (map VInt is) (map VInt is') -> is = is'.
Proof.
  induction is as [|b bs IH]; intros [|c bs'] H; inversion H; subst; auto. f_equal; auto.
  match goal with X : same (VInt _) _ |- _ => inversion X; subst end.
  match goal with X : pystr _ = pystr _ |- _ => now apply dec_inj in X end.
Qed.
Lemma F2_eq_map {A B} (f : A -> res B) l is : rmap f l = Ok is -> Forall2 (fun x i => f x = Ok i) l is.
Proof. apply rmap_ok. Qed.

Lemma ids_rel m m' ss ss' is : NoDup (map snd m) -> NoDup (map snd m') ->
  rmap (fun s => id_lookup m (sname s)) ss = Ok is -> rmap (fun s => id_lookup m' (sname s)) ss' = Ok is ->
  Forall2 (ren (through m m') (through m' m)) ss ss'.
Proof.
  intros N N' H H'. apply rmap_ok in H, H'. revert ss' H'. induction H as [|x i ss is Hx H IH]; intros ss' H'; inversion H'; subst; constructor; auto.
  split; eapply through_ok; eauto.
Qed.

Definition idm (m : list (bytes * Z)) (s : stmt) : res val := get_proof_id s (Some m).
Lemma same_id_map m m' s : NoDup (map snd m) -> NoDup (map snd m') -> forall s' i i',
  get_proof_id s (Some m) = Ok i -> get_proof_id s' (Some m') = Ok i' -> same i i' ->
  alike (through m m') (through m' m) s s'.
Proof.
  intros N N'.
  assert (G : forall subs, Forall (fun s => forall s' i i', get_proof_id s (Some m) = Ok i -> get_proof_id s' (Some m') = Ok i' -> same i i' ->
       alike (through m m') (through m' m) s s') subs -> forall subs' l l',
     rmap (fun s => get_proof_id s (Some m)) subs = Ok l -> rmap (fun s => get_proof_id s (Some m')) subs' = Ok l' ->
     Forall2 same l l' -> Forall2 (alike (through m m') (through m' m)) subs subs').
  { clear s. induction 1 as [|s subs Hs F IH]; intros subs' l l' H H' S.
    - injection H as <-. inversion S; subst. destruct subs' as [|x y]; [constructor|]. simpl in H'. minvs. discriminate.
    - simpl in H. minv H. injection H as <-. inversion S; subst. destruct subs' as [|x0 y0]; [discriminate H'|]. simpl in H'. minv H'.
      injection H' as <- <-. constructor; eauto. }
  induction s as [d|subs b IH|subs b ch IH|k b q|k b q con IH] using stmt_ind'; intros s' i i' H H' S; simpl in H.
  - minv H. injection H as <-. apply same_list_inv in S as (l & -> & S).
    inversion S as [|? x1 ? l1 S1 R1]; subst. apply same_str_inv in S1. subst x1.
    inversion R1 as [|? x2 ? l2 S2 R2]; subst. inversion R2 as [|? x3 ? l3 S3 R3]; subst. inversion R3 as [|? x4 ? l4 S4 R4]; subst.
    inversion R4; subst.
    destruct s' as [d'| | |k' b' p' [c'|]]; simpl in H'; minv H'; try discriminate H'.
    injection H' as <- <- <-. apply same_list_inv in S2 as (? & X2 & S2). injection X2 as <-.
    apply same_list_inv in S3 as (? & X3 & S3). injection X3 as <-.
    apply same_pts in S2. apply same_ints in S3. subst.
    constructor; [now inversion S4| auto | eapply ids_rel; eauto].
  - minv H. injection H as <-. apply same_tuple_inv in S as (l & -> & S).
    inversion S as [|? x1 ? l1 S1 R1]; subst. apply same_str_inv in S1. subst x1.
    inversion R1 as [|? x2 ? l2 S2 R2]; subst. inversion R2; subst.
    destruct s' as [d'|subs' b'|subs' b' c'|k' b' p' [c'|]]; simpl in H'; minv H'; try discriminate H'.
    injection H' as <-. apply same_list_inv in S2 as (? & X2 & S2). injection X2 as <-. constructor. eapply G; eauto.
  - minv H. injection H as <-. apply same_tuple_inv in S as (l & -> & S).
    inversion S as [|? x1 ? l1 S1 R1]; subst. apply same_str_inv in S1. subst x1.
    inversion R1 as [|? x2 ? l2 S2 R2]; subst. inversion R2; subst.
    destruct s' as [d'|subs' b'|subs' b' c'|k' b' p' [c'|]]; simpl in H'; minv H'; try discriminate H'.
    injection H' as <-. apply same_list_inv in S2 as (? & X2 & S2). injection X2 as <-. constructor. eapply G; eauto.
  - discriminate H.
  - minv H. injection H as <-. apply same_list_inv in S as (l & -> & S).
    inversion S as [|? x1 ? l1 S1 R1]; subst. apply same_str_inv in S1. subst x1.
    inversion R1 as [|? x2 ? l2 S2 R2]; subst. inversion R2 as [|? x3 ? l3 S3 R3]; subst. inversion R3; subst.
    destruct s' as [d'|subs' b'|subs' b' c'|k' b' p' [c'|]]; simpl in H'; minv H'; try discriminate H'.
    injection H' as H1 <- <-. constructor; eauto.
Qed.

(** the numbering get_proof_id chooses *)
Fixpoint top_map (s : stmt) : list (bytes * Z) :=
  match s with
  | SExt _ _ _ (Some c) => top_map c
  | _ => assign_secret_ids (svars s)
  end.
Lemma top_map_nodup s : NoDup (map snd (top_map s)).
Proof. induction s as [d|subs b IH|subs b ch IH|k b q|k b q con IH] using stmt_ind'; cbn [top_map]; auto; apply assign_nodup. Qed.
Lemma top_map_ok s : forall i, get_proof_id s None = Ok i -> get_proof_id s (Some (top_map s)) = Ok i.
Proof.
  induction s as [d|subs b IH|subs b ch IH|k b q|k b q con IH] using stmt_ind'; intros i H; auto.
  - change (get_proof_id (SAnd subs b) None) with
      (let? ss := get_secret_vars (SAnd subs b) in let? _ := get_bases (SAnd subs b) in
       let? l := rmap (fun s => get_proof_id s (Some (assign_secret_ids ss))) subs in Ok (VTuple [VStr (lit "AndProofStmt"); VList l])) in H.
    change (get_proof_id (SAnd subs b) (Some (top_map (SAnd subs b)))) with
      (let? ss := get_secret_vars (SAnd subs b) in let? _ := get_bases (SAnd subs b) in
       let? l := rmap (fun s => get_proof_id s (Some (assign_secret_ids (svars (SAnd subs b))))) subs in Ok (VTuple [VStr (lit "AndProofStmt"); VList l])).
    destruct (get_secret_vars (SAnd subs b)) as [ss|] eqn:E; [|discriminate]. apply svars_eq in E as ->. exact H.
  - change (get_proof_id (SOr subs b ch) None) with
      (let? ss := get_secret_vars (SOr subs b ch) in let? _ := get_bases (SOr subs b ch) in
       let? l := rmap (fun s => get_proof_id s (Some (assign_secret_ids ss))) subs in Ok (VTuple [VStr (lit "OrProofStmt"); VList l])) in H.
    change (get_proof_id (SOr subs b ch) (Some (top_map (SOr subs b ch)))) with
      (let? ss := get_secret_vars (SOr subs b ch) in let? _ := get_bases (SOr subs b ch) in
       let? l := rmap (fun s => get_proof_id s (Some (assign_secret_ids (svars (SOr subs b ch))))) subs in Ok (VTuple [VStr (lit "OrProofStmt"); VList l])).
    destruct (get_secret_vars (SOr subs b ch)) as [ss|] eqn:E; [|discriminate]. apply svars_eq in E as ->. exact H.
  - simpl in *. minv H. injection H as <-. rewrite (IH _ E). reflexivity.
Qed.

Lemma same_id s s' i i' : get_proof_id s None = Ok i -> get_proof_id s' None = Ok i' -> same i i' ->
  exists f g, alike f g s s'.
Proof.
  intros H H' S. exists (through (top_map s) (top_map s')), (through (top_map s') (top_map s)).
  eapply same_id_map; [apply top_map_nodup|apply top_map_nodup|apply top_map_ok; exact H|apply top_map_ok; exact H'|exact S].
Qed.

Lemma encode_str_inj a b x : encode (VStr a) = Ok x -> encode (VStr b) = Ok x -> a = b.
Proof.
  intros H K. assert (E : VStr a = VStr b /\ @nil ascii = []); [|now destruct E as [E _]; injection E].
  eapply (pack_prefix (VStr a) (VStr b)); [constructor|constructor|exact H|exact K|reflexivity].
Qed.

Lemma same_prehash s s' h : repr_ok -> prehash_input s = Ok h -> prehash_input s' = Ok h -> exists f g, alike f g s s'.
Proof.
  intros RO H H'. unfold prehash_input in *. minv H. minv H'. assert (E1 := encode_str_inj _ _ _ H H').
  eapply same_id; eauto. now apply pystr_same.
Qed.

(** equal identifiers, equal relations *)
Lemma F2_alike bs bs' : (forall p q : pt, repr_pt p = repr_pt q -> p = q) -> Forall2 alike_pt bs bs' -> bs = bs'.
Proof. intros I. induction 1; auto. f_equal; auto. Qed.
Lemma ren_map f g (w : bytes -> Z) ss ss' : Forall2 (ren f g) ss ss' ->
  map (fun s => w (sname s)) ss = map (fun s => w (g (sname s))) ss'.
Proof. induction 1 as [|x y l m [_ E] F IH]; simpl; auto. rewrite E. f_equal. auto. Qed.
Lemma ren_map' f g (w : bytes -> Z) ss ss' : Forall2 (ren f g) ss ss' ->
  map (fun s => w (sname s)) ss' = map (fun s => w (f (sname s))) ss.
Proof. induction 1 as [|x y l m [E _] F IH]; simpl; auto. rewrite E. f_equal. auto. Qed.
Lemma alike_sym f g s : forall s', alike f g s s' -> alike g f s' s.
Proof.
  assert (G : forall l l', Forall (fun s => forall s', alike f g s s' -> alike g f s' s) l -> Forall2 (alike f g) l l' -> Forall2 (alike g f) l' l).
  { intros l l' F H. revert F. induction H; intros F; inversion F; subst; constructor; auto. }
  assert (GS : forall v w, same v w -> same w v).
  { fix IH 3. intros v w [? ? A B E|?|?|l m F|l m F|d e F].
    - now apply SmAtom.
    - apply SmStr.
    - apply SmBytes.
    - apply SmList. revert l m F. fix IHF 3. intros l m [|x y l0 m0 Hx F]; constructor; [now apply IH|now apply IHF].
    - apply SmTuple. revert l m F. fix IHF 3. intros l m [|x y l0 m0 Hx F]; constructor; [now apply IH|now apply IHF].
    - apply SmDict. revert d e F. fix IHF 3. intros l m [|x y l0 m0 [Hx Hy] F]; constructor; [split; [now symmetry|now apply IH]|now apply IHF]. }
  induction s as [d|subs b IH|subs b ch IH|k b q|k b q con IH] using stmt_ind'; intros s' H; inversion H; subst.
  - constructor; [now symmetry| |].
    + match goal with X : Forall2 alike_pt _ _ |- _ => clear -X; induction X; constructor; auto; now symmetry end.
    + match goal with X : Forall2 (ren _ _) _ _ |- _ => clear -X; induction X as [|? ? ? ? [? ?]]; constructor; auto; now split end.
  - constructor. auto.
  - constructor. auto.
  - constructor; auto.
Qed.
Lemma alike_Sat f g s : (forall p q : pt, repr_pt p = repr_pt q -> p = q) -> forall s' w, alike f g s s' ->
  Sat w s -> Sat (fun q n => w q (g n)) s'.
Proof.
  intros I. induction s as [d|subs b IH|subs b ch IH|k b q|k b q con IH] using stmt_ind'; intros s' w H HS; inversion H; subst; inversion HS; subst.
  - match goal with X : Forall2 alike_pt _ _ |- _ => apply (F2_alike _ _ I) in X; rename X into EB end.
    match goal with X : alike_pt _ _ |- _ => apply I in X; rename X into EL end.
    constructor; rewrite <- EL; [now rewrite <- EB|].
    unfold dl_holds in *. rewrite <- EL, <- EB. match goal with X : Forall2 (ren f g) _ _ |- _ => rewrite <- (ren_map f g _ _ _ X) end. assumption.
  - constructor. match goal with X : Forall2 (alike _ _) _ _ |- _ => rename X into HF end.
    match goal with X : Forall (Sat _) _ |- _ => rename X into HW end.
    clear -IH HF HW. induction HF; inversion IH; inversion HW; subst; constructor; auto.
  - match goal with X : Forall2 (alike _ _) _ _ |- _ => rename X into HF end.
    match goal with X : In _ subs |- _ => rename X into HI end.
    assert (K : exists y, In y l' /\ alike f g x y).
    { clear -HF HI. induction HF; [destruct HI|]. destruct HI as [<-|HI]; [eexists; split; [left; reflexivity|auto]|].
      destruct (IHHF HI) as (y0 & ? & ?). exists y0. split; [right; auto|auto]. }
    destruct K as (y & Iy & Ay). rewrite Forall_forall in IH. econstructor; [exact Iy|]. eapply IH; eauto.
  - constructor. auto.
Qed.
Lemma alike_Sat_iff f g s s' w : (forall p q : pt, repr_pt p = repr_pt q -> p = q) -> alike f g s s' ->
  (Sat w s <-> Sat (fun q n => w q (g n)) s').
Proof.
  intros I A. split; [now apply (alike_Sat f g)|]. intros H.
  (* back along the inverse; the names of s are g of names of s' *)
  revert s' w A H. induction s as [d|subs b IH|subs b ch IH|k b q|k b q con IH] using stmt_ind'; intros s' w H HS; inversion H; subst; inversion HS; subst.
  - match goal with X : Forall2 alike_pt _ _ |- _ => apply (F2_alike _ _ I) in X; rename X into EB end.
    match goal with X : alike_pt _ _ |- _ => apply I in X; rename X into EL end.
    constructor; rewrite EL; [now rewrite EB|].
    unfold dl_holds in *. rewrite EL, EB. erewrite ren_map by eassumption. assumption.
  - constructor. match goal with X : Forall2 (alike _ _) _ _ |- _ => rename X into HF end.
    match goal with X : Forall (Sat _) _ |- _ => rename X into HW end.
    clear -IH HF HW. induction HF; inversion IH; inversion HW; subst; constructor; eauto.
  - match goal with X : Forall2 (alike _ _) _ _ |- _ => rename X into HF end.
    match goal with X : In _ l' |- _ => rename X into HI end.
    assert (K : exists y, In y subs /\ alike f g y x).
    { clear -HF HI. induction HF; [destruct HI|]. destruct HI as [<-|HI]; [eexists; split; [left; reflexivity|auto]|].
      destruct (IHHF HI) as (y0 & ? & ?). exists y0. split; [right; auto|auto]. }
    destruct K as (y & Iy & Ay). econstructor; [exact Iy|].
    match goal with X : Sat _ x |- _ => eapply (alike_Sat g f x I y) in X; [exact X|now apply alike_sym] end.
  - constructor. eauto.
Qed.

(** ** What verify() checks about the hashes *)
Lemma verify_inv s z msg st b s1 st1 : verify s z msg st = Ok ((b, s1), st1) ->
  exists v h com i, processed s (n_pre z) st = Ok ((v, s1), st1) /\ prehash_input s1 = Ok h /\ n_hash z = VBytes (sha256 h) /\
    pre_validation (env st1) s1 v (n_resp z) = Ok tt /\ recompute s1 (n_chal z) (n_resp z) = Ok com /\
    fs_input h [n_pre z; com] msg = Ok i /\ b = (n_chal z =? be_int (sha256 i)).
Proof.
  intros H. unfold verify, verify_nizk in H. apply bind_ok in H as ([v s2] & st2 & E & H).
  apply bind_ok in H as (h & st3 & E1 & H). apply lift_ok in E1 as [E1 ->]. unfold check_statement in E1.
  apply rbind_ok in E1 as (hb & Eh & E1). destruct (val_eqb (n_hash z) _) eqn:EV; [|discriminate]. injection E1 as <-.
  apply val_eqb_eq in EV. apply bind_ok in H as (e & st4 & E2 & H). injection E2 as <- <-.
  apply bind_ok in H as (u & st5 & E3 & H). apply lift_ok in E3 as [E3 ->]. destruct u.
  apply bind_ok in H as (com & st6 & E4 & H). apply lift_ok in E4 as [E4 ->].
  apply bind_ok in H as (c & st7 & E5 & H). apply lift_ok in E5 as [E5 ->]. apply ret_ok in H as [H ->]. injection H as <- <-.
  unfold fs_challenge in E5. apply rbind_ok in E5 as (i & Ei & E5). injection E5 as <-.
  exists v, hb, com, i. repeat split; auto.
Qed.
Lemma verify_run s z msg st v s1 st1 h com i : processed s (n_pre z) st = Ok ((v, s1), st1) -> prehash_input s1 = Ok h ->
  n_hash z = VBytes (sha256 h) -> pre_validation (env st1) s1 v (n_resp z) = Ok tt ->
  recompute s1 (n_chal z) (n_resp z) = Ok com -> fs_input h [n_pre z; com] msg = Ok i ->
  verify s z msg st = Ok ((n_chal z =? be_int (sha256 i), s1), st1).
Proof.
  intros E1 E2 E3 E4 E5 E6. unfold verify, verify_nizk. unfold bind at 1. unfold processed in E1. rewrite E1.
  unfold check_statement. rewrite E2. cbn [rbind]. rewrite E3, val_eqb_refl, bind_lift_ok. unfold bind at 1, get_env.
  rewrite E4, bind_lift_ok, E5, bind_lift_ok. unfold fs_challenge. rewrite E6. reflexivity.
Qed.
Lemma mismatch s z msg st v s1 st1 h : processed s (n_pre z) st = Ok ((v, s1), st1) -> prehash_input s1 = Ok h ->
  n_hash z <> VBytes (sha256 h) -> verify s z msg st = Err EStatementMismatch.
Proof.
  intros E1 E2 N. unfold verify, verify_nizk. unfold bind at 1. unfold processed in E1. rewrite E1.
  unfold check_statement. rewrite E2. cbn [rbind]. destruct (val_eqb (n_hash z) (VBytes (sha256 h))) eqn:E; [|reflexivity].
  apply val_eqb_eq in E. contradiction.
Qed.

Lemma prove_hash s sd msg st z s1 st1 : prove s sd msg st = Ok ((z, s1), st1) ->
  exists h, prehash_input s1 = Ok h /\ n_hash z = VBytes (sha256 h).
Proof.
  intros H. unfold prove in H. apply bind_ok in H as ([[p|] s2] & st2 & E & H); [|discriminate H].
  apply bind_ok in H as ([[z0 p0] s3] & st3 & E0 & H). apply ret_ok in H as [H ->]. injection H as <- <-.
  unfold get_nizk_proof in E0. apply bind_ok in E0 as ([[pre p1] s4] & st4 & E1 & E0).
  apply bind_ok in E0 as ([com p2] & st5 & E2 & E0). apply bind_ok in E0 as (h & st6 & E3 & E0). apply lift_ok in E3 as [E3 ->].
  apply bind_ok in E0 as (c & st7 & E4 & E0). apply lift_ok in E4 as [E4 ->]. apply bind_ok in E0 as (r & st8 & E5 & E0).
  apply ret_ok in E0 as [E0 ->]. injection E0 as <- <- <-. exists h. auto.
Qed.

(** C16 *)
Lemma bound_to_statement sp sd msg st z sp1 st1 sv msg' stv b sv1 stv1 : repr_ok ->
  prove sp sd msg st = Ok ((z, sp1), st1) -> verify sv z msg' stv = Ok ((b, sv1), stv1) ->
  exists h h', prehash_input sp1 = Ok h /\ prehash_input sv1 = Ok h' /\ sha256 h = sha256 h' /\
    (h = h' -> exists f g, alike f g sp1 sv1).
Proof.
  intros RO HP HV. apply prove_hash in HP as (h & Hh & E). apply verify_inv in HV as (v & h' & com & i & _ & Hh' & E' & _).
  exists h, h'. split; auto. split; auto. split; [congruence|]. intros ->. eapply same_prehash; eauto.
Qed.
(** C18 *)
Lemma bound_to_message sv z m1 m2 st s1 st1 s2 st2 : (exists n, forall b, List.length (sha256 b) = n) ->
  verify sv z m1 st = Ok ((true, s1), st1) -> verify sv z m2 st = Ok ((true, s2), st2) -> m1 <> m2 ->
  exists h com i1 i2, prehash_input s1 = Ok h /\ recompute s1 (n_chal z) (n_resp z) = Ok com /\
   fs_input h [n_pre z; com] m1 = Ok i1 /\ fs_input h [n_pre z; com] m2 = Ok i2 /\ i1 <> i2 /\ sha256 i1 = sha256 i2.
Proof.
  intros [n L] H1 H2 N. apply verify_inv in H1 as (v1 & h1 & c1 & i1 & P1 & Q1 & _ & _ & R1 & F1 & B1).
  apply verify_inv in H2 as (v2 & h2 & c2 & i2 & P2 & Q2 & _ & _ & R2 & F2 & B2).
  rewrite P1 in P2. injection P2 as <- <- <-. rewrite Q1 in Q2. injection Q2 as <-. rewrite R1 in R2. injection R2 as <-.
  exists h1, c1, i1, i2. repeat (split; [assumption|]). split.
  - intros <-. apply N. unfold fs_input in *. minv F1. minv F2. rewrite E in E0. injection E0 as <-. injection F1 as F1. injection F2 as F2.
    rewrite <- F2 in F1. now apply app_inv_head, app_inv_head in F1.
  - symmetry in B1, B2. apply Z.eqb_eq in B1, B2. apply be_int_inj; [now rewrite !L|congruence].
Qed.
(** C15 *)
Lemma simulated_verify U s c st t h s' st' : Sok U s -> wfL (U ++ kints s) -> NoDup (map sid (kints s)) ->
  (forall x y, In x (kints s) -> In y U -> sid x <> sid y) ->
  simulate s c st = Ok ((t, h, s'), st') -> nonneutral s' ->
  forall f g sv stv msg hb i, Pat f g s sv -> Forall (vkOK (env stv)) (kinds sv) ->
  prehash_input s' = Ok hb -> fs_input hb [t_pre t; t_com t] msg = Ok i ->
  exists sv', verify sv (mkNizk (t_chal t) (t_resp t) (t_pre t) h) msg stv = Ok ((t_chal t =? be_int (sha256 i), sv'), stv).
Proof.
  intros HS HL HN HD H NN f g sv stv msg hb i Pt VK Hb Hi. unfold simulate in H. cbv zeta in H.
  apply bind_ok in H as (s1 & st1 & E1 & H). apply bind_ok in H as (t1 & st2 & E2 & H).
  apply bind_ok in H as (hh & st3 & Hh & H). apply lift_ok in Hh as [Hh ->]. apply ret_ok in H as [H ->].
  injection H as <- <- <-.
  assert (SW : Swf U (U ++ kints s) (set_simulated true s)).
  { eapply Swf_same; [symmetry; apply set_simulated_pstrip|]. apply Sok_Swf; auto. apply incl_appr, incl_refl. }
  destruct (prepare_ok _ _ _ _ _ _ SW ltac:(apply incl_appl, incl_refl) E1) as [PP PS].
  rewrite set_simulated_pstrip in PS.
  destruct PP as (P1 & P2 & P3 & P4 & P5 & P6 & P7).
  destruct (simulate_ok s1 None c st1 t1 st2) as (A & RC & _ & (R & CO) & PR); auto.
  { apply wfL_coh. eapply wfL_incl; eauto. }
  { discriminate. }
  assert (Pt' : Pat f g s1 sv) by (eapply Pat_same; [symmetry; exact PS|exact Pt]).
  destruct (process_ok f g s1 sv (t_pre t1) stv) as (sv' & PC & SM); auto.
  exists sv'. 
  assert (E0 : processed sv (t_pre t1) stv = Ok ((fverifier sv', sv'), stv)).
  { unfold processed. destruct (is_none (t_pre t1)) eqn:EN; [|exact PC]. destruct (t_pre t1); try discriminate EN.
    assert (N := PreRel_none s1 PR). destruct (Pat_noext_Sim f g s1 sv N Pt') as [S0 N0].
    destruct sv; simpl in PC; inversion Pt'; subst; inversion N0; subst; simpl in *; unfold ret in *; congruence. }
  apply (verify_run sv (mkNizk (t_chal t1) (t_resp t1) (t_pre t1) (VBytes hh)) msg stv (fverifier sv') sv' stv hb (t_com t1) i); auto.
  - now rewrite <- (Sim_prehash f g s1 sv' SM).
  - unfold stmt_digest in Hh. rewrite Hb in Hh. simpl in Hh. injection Hh as <-. reflexivity.
  - cbn [n_resp]. apply (pre_validation_ok _ f g R s1 sv'); auto. now apply VOK_valid.
  - cbn [n_chal n_resp]. now rewrite <- (Sim_recompute f g s1 sv' _ _ SM).
Qed.
End I.

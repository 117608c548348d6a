(** The binary format determines values up to points with the same binary form. *)
From Coq Require Import String.
From Verif Require Import Base World Val Expr Utils Stmt Prove Verify Spec Shapes Ident Alike Lib DictProofs Keeps Tree Wire.
Open Scope Z_scope.
Open Scope list_scope.

Section F.
Context {W : World}.

Lemma app_len_inv {A} (a b u t : list A) : List.length a = List.length b -> a ++ u = b ++ t -> a = b /\ u = t.
Proof. revert b. induction a as [|x a IH]; intros [|y b] L E; simpl in *; try discriminate; auto. injection E as -> E. destruct (IH b); auto. subst. auto. Qed.

Lemma cons_inj {A} (a b : A) l m : a :: l = b :: m -> a = b /\ l = m.
Proof. intros E. split; congruence. Qed.

Lemma hdr_prefix t n h t' n' h' u w : hdr t n = Ok h -> hdr t' n' = Ok h' -> 0 <= n -> 0 <= n' -> tagged t -> tagged t' ->
  h ++ u = h' ++ w -> t = t' /\ n = n' /\ u = w.
Proof.
  intros H H' N N' T T' E. destruct (hdr_read _ _ _ H N T) as (c & l & -> & _ & _ & _ & R). destruct (hdr_read _ _ _ H' N' T') as (c' & l' & -> & _ & _ & _ & R').
  rewrite <- !app_comm_cons in E. apply cons_inj in E as [-> E]. specialize (R u). specialize (R' w). rewrite E, R' in R. injection R as -> -> ->. auto.
Qed.

Lemma len_inv {A B} (a : list A) (b : list B) : len a = len b -> List.length a = List.length b.
Proof. unfold len. lia. Qed.

Definition framedp (v : val) : Prop := forall w b c u t, pack v = Ok b -> pack w = Ok c -> b ++ u = c ++ t -> wire_alike v w /\ u = t.

Lemma seq_prefix l : Forall framedp l -> forall m bs cs u t, rmap pack l = Ok bs -> rmap pack m = Ok cs ->
  List.length l = List.length m -> List.concat bs ++ u = List.concat cs ++ t -> Forall2 wire_alike l m /\ u = t.
Proof.
  induction 1 as [|v l Hv _ IH]; intros [|w m] bs cs u t E1 E2 L E; simpl in *; try discriminate.
  - injection E1 as <-. injection E2 as <-. auto.
  - minvs. simpl in E. rewrite <- !app_assoc in E.
    match goal with A : pack v = Ok _, B : pack w = Ok _ |- _ => destruct (Hv _ _ _ _ _ A B E) as [Q E'] end.
    match goal with A : rmap pack l = Ok _, B : rmap pack m = Ok _ |- _ => destruct (IH _ _ _ _ _ A B ltac:(lia) E') as [Q' ->] end.
    auto.
Qed.

Definition pack_entry (kx : bytes * val) : res bytes :=
  let (k, x) := kx in let? hk := hdr 219 (len k) in let? b := pack x in Ok (hk ++ k ++ b).
Lemma dict_prefix d : Forall (fun kx => framedp (snd kx)) d -> forall d' bs cs u t, rmap pack_entry d = Ok bs -> rmap pack_entry d' = Ok cs ->
  List.length d = List.length d' -> List.concat bs ++ u = List.concat cs ++ t ->
  Forall2 (fun a b : bytes * val => fst a = fst b /\ wire_alike (snd a) (snd b)) d d' /\ u = t.
Proof.
  induction 1 as [|[k v] l Hv _ IH]; intros [|[k' w] m] bs cs u t E1 E2 L E; simpl in *; try discriminate.
  - injection E1 as <-. injection E2 as <-. auto.
  - minvs. simpl in E. rewrite <- !app_assoc in E.
    match goal with A : hdr _ (len k) = Ok _, B : hdr _ (len k') = Ok _ |- _ =>
      destruct (hdr_prefix _ _ _ _ _ _ _ _ A B (len_pos _) (len_pos _) ltac:(auto 6) ltac:(auto 6) E) as (_ & Lk & E') end.
    apply app_len_inv in E' as [-> E']; [|now apply len_inv].
    match goal with A : pack v = Ok _, B : pack w = Ok _ |- _ => destruct (Hv _ _ _ _ _ A B E') as [Q E2'] end.
    match goal with A : rmap _ l = Ok _, B : rmap _ m = Ok _ |- _ => destruct (IH _ _ _ _ _ A B ltac:(lia) E2') as [Q' ->] end.
    auto.
Qed.

Lemma bn_data_inj z z' : bn_data z = bn_data z' -> z = z'.
Proof. intros E. pose proof (bn_data_ok z) as A. rewrite E, bn_data_ok in A. congruence. Qed.

Definition tag (v : val) : Z :=
  match v with VNone => 192 | VInt _ | VPt _ => 201 | VStr _ => 219 | VBytes _ => 198 | VList _ | VTuple _ => 221 | VDict _ => 223 end.
Definition head (b : bytes) : option Z :=
  match b with [] => None | c :: l => if int_of c =? 192 then Some 192 else match rdhdr (int_of c) l with Some ((t, _), _) => Some t | None => None end end.
Lemma hdr_head t n h r : hdr t n = Ok h -> 0 <= n -> tagged t -> head (h ++ r) = Some t.
Proof.
  intros H N T. destruct (hdr_read _ _ _ H N T) as (c & l & -> & _ & X & _ & R). cbn [app head]. destruct (int_of c =? 192) eqn:E; [apply Z.eqb_eq in E; lia|]. now rewrite R.
Qed.
Lemma pack_tag v b u : pack v = Ok b -> head (b ++ u) = Some (tag v).
Proof.
  destruct v; cbn [pack tag]; cbv zeta; intros H; [injection H as <-; reflexivity|..]; apply rbind_ok in H as (h & Hh & H);
    minvs; try (injection H as <-); rewrite <- app_assoc; eapply hdr_head; try eassumption; try apply len_pos; auto 6.
Qed.

(** Two encodings with the same beginning. *)
Lemma pack_frame v : framedp v.
Proof.
  induction v as [|z|p|s|s|l IH|l IH|d IH] using val_ind'; intros w b c u t H H' E;
    (assert (T := pack_tag _ _ t H'); rewrite <- E, (pack_tag _ _ u H) in T; destruct w; try discriminate T; clear T);
    cbn [pack] in H, H'; cbv zeta in H, H'.
  - injection H as <-. injection H' as <-. injection E as ->. split; [constructor|auto].
  - minvs. rewrite <- !app_assoc in E.
    match goal with A : hdr _ (len (bn_data z)) = Ok _, B : hdr _ _ = Ok _ |- _ => destruct (hdr_prefix _ _ _ _ _ _ _ _ A B (len_pos _) (len_pos _) ltac:(auto 6) ltac:(auto 6) E) as (_ & L & E') end.
    rewrite <- !app_comm_cons in E'. apply cons_inj in E' as [_ E']. apply app_len_inv in E' as [X ->]; [|now apply len_inv].
    apply bn_data_inj in X as ->. split; [constructor|auto].
  - minvs. rewrite <- !app_assoc in E.
    match goal with A : hdr _ (len (bn_data z)) = Ok _, B : hdr _ (len (export_pt _)) = Ok _ |- _ => destruct (hdr_prefix _ _ _ _ _ _ _ _ A B (len_pos _) (len_pos _) ltac:(auto 6) ltac:(auto 6) E) as (_ & L & E') end.
    rewrite <- !app_comm_cons in E'. apply cons_inj in E' as [E' _]. discriminate E'.
  - minvs. rewrite <- !app_assoc in E.
    match goal with A : hdr _ (len (bn_data _)) = Ok _, B : hdr _ (len (export_pt _)) = Ok _ |- _ => destruct (hdr_prefix _ _ _ _ _ _ _ _ B A (len_pos _) (len_pos _) ltac:(auto 6) ltac:(auto 6) E) as (_ & L & E') end.
    rewrite <- !app_comm_cons in E'. apply cons_inj in E' as [E' _]. discriminate E'.
  - minvs. rewrite <- !app_assoc in E.
    match goal with A : hdr _ (len (export_pt p)) = Ok _, B : hdr _ _ = Ok _ |- _ => destruct (hdr_prefix _ _ _ _ _ _ _ _ A B (len_pos _) (len_pos _) ltac:(auto 6) ltac:(auto 6) E) as (_ & L & E') end.
    rewrite <- !app_comm_cons in E'. apply cons_inj in E' as [_ E']. apply app_len_inv in E' as [X ->]; [|now apply len_inv].
    split; [now constructor|auto].
  - minvs. rewrite <- !app_assoc in E.
    match goal with A : hdr _ (len s) = Ok _, B : hdr _ _ = Ok _ |- _ => destruct (hdr_prefix _ _ _ _ _ _ _ _ A B (len_pos _) (len_pos _) ltac:(auto 6) ltac:(auto 6) E) as (_ & L & E') end.
    apply app_len_inv in E' as [-> ->]; [|now apply len_inv]. split; [constructor|auto].
  - minvs. rewrite <- !app_assoc in E.
    match goal with A : hdr _ (len s) = Ok _, B : hdr _ _ = Ok _ |- _ => destruct (hdr_prefix _ _ _ _ _ _ _ _ A B (len_pos _) (len_pos _) ltac:(auto 6) ltac:(auto 6) E) as (_ & L & E') end.
    apply app_len_inv in E' as [-> ->]; [|now apply len_inv]. split; [constructor|auto].
  - minvs. rewrite <- !app_assoc in E.
    match goal with A : hdr _ (len l) = Ok _, B : hdr _ _ = Ok _ |- _ => destruct (hdr_prefix _ _ _ _ _ _ _ _ A B (len_pos _) (len_pos _) ltac:(auto 6) ltac:(auto 6) E) as (_ & L & E') end.
    match goal with A : rmap pack l = Ok _, B : rmap pack _ = Ok _ |- _ => destruct (seq_prefix l IH _ _ _ _ _ A B (len_inv _ _ L) E') as [Q ->] end.
    split; [eapply WaSeq; eauto|auto].
  - minvs. rewrite <- !app_assoc in E.
    match goal with A : hdr _ (len l) = Ok _, B : hdr _ _ = Ok _ |- _ => destruct (hdr_prefix _ _ _ _ _ _ _ _ A B (len_pos _) (len_pos _) ltac:(auto 6) ltac:(auto 6) E) as (_ & L & E') end.
    match goal with A : rmap pack l = Ok _, B : rmap pack _ = Ok _ |- _ => destruct (seq_prefix l IH _ _ _ _ _ A B (len_inv _ _ L) E') as [Q ->] end.
    split; [eapply WaSeq; eauto|auto].
  - minvs. rewrite <- !app_assoc in E.
    match goal with A : hdr _ (len l) = Ok _, B : hdr _ _ = Ok _ |- _ => destruct (hdr_prefix _ _ _ _ _ _ _ _ A B (len_pos _) (len_pos _) ltac:(auto 6) ltac:(auto 6) E) as (_ & L & E') end.
    match goal with A : rmap pack l = Ok _, B : rmap pack _ = Ok _ |- _ => destruct (seq_prefix l IH _ _ _ _ _ A B (len_inv _ _ L) E') as [Q ->] end.
    split; [eapply WaSeq; eauto|auto].
  - minvs. rewrite <- !app_assoc in E.
    match goal with A : hdr _ (len l) = Ok _, B : hdr _ _ = Ok _ |- _ => destruct (hdr_prefix _ _ _ _ _ _ _ _ A B (len_pos _) (len_pos _) ltac:(auto 6) ltac:(auto 6) E) as (_ & L & E') end.
    match goal with A : rmap pack l = Ok _, B : rmap pack _ = Ok _ |- _ => destruct (seq_prefix l IH _ _ _ _ _ A B (len_inv _ _ L) E') as [Q ->] end.
    split; [eapply WaSeq; eauto|auto].
  - fold pack_entry in H, H'. minvs. rewrite <- !app_assoc in E.
    match goal with A : hdr _ (len d) = Ok _, B : hdr _ _ = Ok _ |- _ => destruct (hdr_prefix _ _ _ _ _ _ _ _ A B (len_pos _) (len_pos _) ltac:(auto 6) ltac:(auto 6) E) as (_ & L & E') end.
    match goal with A : rmap _ d = Ok _, B : rmap _ _ = Ok _ |- _ => destruct (dict_prefix d IH _ _ _ _ _ A B (len_inv _ _ L) E') as [Q ->] end.
    split; [now constructor|auto].
Qed.
End F.

(** Completeness. *)
From Coq Require Import String.
From Verif Require Import Base World Val Expr Utils Stmt Prove Verify Spec Shapes Claims Lib Lin DictProofs Keeps Tree Sigma
  Validate Commit ArithProofs Build Process Ktruth Provers Honest.
Open Scope Z_scope.
Open Scope list_scope.

Section C.
Context {W : World}.

Lemma kints_sub x subs b : In x subs -> incl (kints x) (kints (SAnd subs b)).
Proof.
  intros Hx y Hy. unfold kints in *. apply in_concat in Hy as (kl & Hk & Hy). apply in_map_iff in Hk as (k & <- & Hk).
  apply in_concat. exists (kint k). split; auto. apply in_map. simpl. eapply kinds_sub; eauto.
Qed.
Lemma kints_nodup_sub x subs b : In x subs -> NoDup (map sid (kints (SAnd subs b))) -> NoDup (map sid (kints x)).
Proof.
  intros Hx H. apply in_split in Hx as (l1 & l2 & ->). unfold kints in *. simpl in H.
  rewrite map_app, concat_app in H. simpl in H. rewrite !map_app, !concat_app, !map_app in H.
  apply NoDup_app_inv in H as (_ & H & _). now apply NoDup_app_inv in H as (H & _ & _).
Qed.
Lemma kints_one k b p c : kints (SExt k b p c) = kint k.
Proof. unfold kints. simpl. apply app_nil_r. Qed.

Lemma Sok_Swf U L s : Sok U s -> incl (kints s) L -> NoDup (map sid (kints s)) ->
  (forall x y, In x (kints s) -> In y U -> sid x <> sid y) -> Swf U L s.
Proof.
  induction s as [d|subs b IH|subs b ch IH|k b q|k b q con IH] using stmt_ind'; intros H I N D; inversion H; subst.
  - constructor; auto.
  - constructor. rewrite Forall_forall in *. intros x Hx. apply IH; auto.
    + eapply incl_tran; [apply (kints_sub x subs b)|]; auto.
    + eapply kints_nodup_sub; eauto.
    + intros y z Hy. apply D. eapply kints_sub; eauto.
  - constructor; auto. rewrite Forall_forall in *. intros x Hx. apply IH; auto.
    + eapply incl_tran; [apply (kints_sub x subs b)|]; auto.
    + eapply (kints_nodup_sub x subs b); eauto.
    + intros y z Hy. apply D. eapply (kints_sub x subs b); eauto.
  - rewrite kints_one in *. constructor; auto. split; auto.
  - rewrite kints_one in *. constructor; auto. split; auto.
Qed.

(** Claims depend on the values of the user's secrets only. *)
Lemma lincomb_ext g w w' (ss : list secret) ps : (forall x, In x ss -> w (sname x) = w' (sname x)) ->
  lincomb g (map (fun s => w (sname s)) ss) ps = lincomb g (map (fun s => w' (sname s)) ss) ps.
Proof. intros H. f_equal. apply map_ext_in. auto. Qed.
Lemma dl_true_ext w w' d : (forall x, In x (dl_secs d) -> w (sname x) = w' (sname x)) -> dl_true w d -> dl_true w' d.
Proof. intros H [A B]. split; auto. unfold dl_holds in *. rewrite B at 1. now apply lincomb_ext. Qed.
Lemma KTrue_ext w w' k : (forall x, In x (kuser k) -> w (sname x) = w' (sname x)) -> KTrue w k -> KTrue w' k.
Proof.
  intros H K. destruct K; simpl in H.
  - constructor; auto. rewrite <- H; auto.
  - constructor; auto. rewrite <- !H; auto.
  - constructor; auto; [rewrite <- H; auto|].
    replace (map (fun m => w' (sname m)) ms) with (map (fun m => w (sname m)) ms) by (apply map_ext_in; auto).
    rewrite <- !H; auto.
  - constructor. rewrite Forall_forall in *. intros rw Hr. destruct (H0 rw Hr) as [A B]. split; auto.
    rewrite B at 1. f_equal. apply map_ext_in. intros t Ht. apply H. apply in_concat.
    exists (map fst (snd rw)). split; [|now apply in_map]. apply in_map_iff. exists rw. auto.
Qed.
Lemma Tru_ext U sd w w' s : (forall x, In x U -> w (sname x) = w' (sname x)) -> Sok U s -> Tru sd w s -> Tru sd w' s.
Proof.
  intros E. induction s as [d|subs b IH|subs b ch IH|k b q|k b q con IH] using stmt_ind'; intros H T;
    inversion H; inversion T; subst; constructor; rewrite ?Forall_forall in *; auto.
  - eapply dl_true_ext; [|eassumption]. auto.
  - intros x Hx Sx. match goal with X : forall x, In x subs -> _ -> _ \/ _ |- _ => destruct (X x Hx Sx); auto end.
  - eapply KTrue_ext; [|eassumption]. auto.
  - eapply KTrue_ext; [|eassumption]. auto.
Qed.
Lemma Vals_ext U w w' s : (forall x, In x U -> w (sname x) = w' (sname x)) -> Vals U w s -> Vals U w' s.
Proof.
  intros E. induction s as [d|subs b IH|subs b ch IH|k b q|k b q con IH] using stmt_ind'; intros H;
    inversion H; subst; constructor; rewrite ?Forall_forall in *; auto.
  eapply entries_ok_ext; eauto.
Qed.

(** valuation extended to the internal secrets by their final values *)
Fixpoint flook (e : nat -> option Z) (l : list secret) (n : bytes) (d : Z) : Z :=
  match l with
  | [] => d
  | x :: l => if bytes_eqb (sname x) n then match e (sid x) with Some v => v | None => d end else flook e l n d
  end.
Definition wext (w : bytes -> Z) (U ks : list secret) (e : nat -> option Z) : bytes -> Z :=
  fun n => if existsb (fun x => bytes_eqb (sname x) n) U then w n else flook e ks n (w n).
Lemma wext_user w U ks e x : In x U -> w (sname x) = wext w U ks e (sname x).
Proof.
  intros H. unfold wext. replace (existsb _ U) with true; auto. symmetry. apply existsb_exists.
  exists x. split; auto. now apply bytes_eqb_eq.
Qed.
Lemma wext_int w U ks e : wfL (U ++ ks) -> (forall x y, In x ks -> In y U -> sid x <> sid y) ->
  agree (wext w U ks e) e ks.
Proof.
  intros HL DJ x v Hx E. unfold wext. destruct (existsb _ U) eqn:X.
  - apply existsb_exists in X as (y & Hy & N). apply bytes_eqb_eq in N. apply HL in N.
    + destruct (DJ x y); auto.
    + apply in_app_iff; auto.
    + apply in_app_iff; auto.
  - clear X. assert (G : forall l, incl l ks -> In x l -> flook e l (sname x) (w (sname x)) = v).
    { induction l as [|y l IH]; intros I Hl; [destruct Hl|]. simpl.
      destruct (bytes_eqb (sname y) (sname x)) eqn:B.
      - apply bytes_eqb_eq in B. apply HL in B; [|apply in_app_iff; right; apply I; now left|apply in_app_iff; auto].
        rewrite B, E. auto.
      - destruct Hl as [->|Hl].
        + assert (bytes_eqb (sname x) (sname x) = true) by now apply bytes_eqb_eq. congruence.
        + apply IH; auto. intros z Hz. apply I. now right. }
    symmetry. apply G; auto. apply incl_refl.
Qed.

(** What an honest prover has when it commits. *)
Lemma honest_ready U w s sd st p s1 st1 pre p2 s2 st2 :
  honest U w s sd (env st) -> get_prover s sd st = Ok ((Some p, s1), st1) ->
  precommit s1 p st1 = Ok ((pre, p2, s2), st2) ->
  exists w' L, wfL L /\ (forall x, In x U -> w (sname x) = w' (sname x)) /\
    pstrip s2 = pstrip s /\ Post L s2 pre /\ CReady w' s2 p2.
Proof.
  intros [H1 H2 H3 H4 H5 H6 H7 H8] GP PC.
  set (w' := wext w U (kints s) (env st2)). set (L := U ++ kints s).
  assert (E : forall x, In x U -> w (sname x) = w' (sname x)) by (intros; now apply wext_user).
  assert (ED : entries_ok U w' sd) by (eapply entries_ok_ext; eauto).
  assert (AU : agree w' (env st) U) by (intros x v Hx Ev; rewrite <- E by auto; auto).
  destruct (get_prover_built U L U w' s sd st (Some p) s1 st1) as (P1 & P2 & P3); auto.
  { apply Sok_Swf; auto. apply incl_appr, incl_refl. }
  { eapply Vals_ext; eauto. }
  { eapply Tru_ext; eauto. }
  { apply incl_refl. }
  { apply incl_appl, incl_refl. }
  assert (K : kints s1 = kints s) by (unfold kints; now rewrite (kinds_same s1 s)).
  exists w', L. split; auto. split; auto.
  destruct (precommit_ok U L U w' s1 p st1 pre p2 s2 st2) as (Q1 & Q2 & Q3); auto.
  - apply incl_refl.
  - apply incl_appl, incl_refl.
  - eapply estep_agree; eauto; [|apply incl_refl]. eapply wfL_incl; [|exact H2]. apply incl_appl, incl_refl.
  - now rewrite K.
  - now rewrite K.
  - rewrite K. now apply wext_int.
  - split; [congruence|]. auto.
Qed.

Lemma honest_done w' L s pre p rd st com p' st' : wfL L -> Post L s pre -> CReady w' s p -> rd = None ->
  internal_commit s p rd st = Ok ((com, p'), st') -> exists K ord, Done w' K ord s p' com.
Proof.
  intros HL (P1 & P2 & P3 & P4 & P5 & P6 & P7 & P8) C -> H.
  assert (R : Ready w' s p) by (apply C; left; eauto).
  edestruct (commit_ok w' s p None st com p' st') as [_ B]; eauto.
  apply wfL_coh. eapply wfL_incl; eauto.
Qed.

Lemma prove_complete U w s sd msg st z s' st' :
  honest U w s sd (env st) -> prove s sd msg st = Ok ((z, s'), st') -> nonneutral s' ->
  forall f g sv stv, Pat f g s sv -> Forall (vkOK (env stv)) (kinds sv) ->
  exists sv', verify sv z msg stv = Ok ((true, sv'), stv).
Proof.
  intros HH HP HN f g sv stv Pt VK. unfold prove in HP.
  apply bind_ok in HP as ([[p|] s1] & st1 & GP & HP); [|discriminate].
  apply bind_ok in HP as ([[z' p'] s'']  & st2 & GN & HP). apply ret_ok in HP as [HP ->]. injection HP as -> ->.
  unfold get_nizk_proof in GN.
  apply bind_ok in GN as ([[pre p2] s2] & st3 & PC & GN).
  apply bind_ok in GN as ([com p3] & st4 & IC & GN).
  apply bind_ok in GN as (h & st5 & Hh & GN). apply lift_ok in Hh as [Hh ->].
  apply bind_ok in GN as (c & st5 & Hc & GN). apply lift_ok in Hc as [Hc ->].
  apply bind_ok in GN as (r & st5 & CR & GN). apply ret_ok in GN as [GN ->]. injection GN as <- <- <-.
  destruct (honest_ready _ _ _ _ _ _ _ _ _ _ _ _ HH GP PC) as (w' & L & HL & _ & PS & PO & RD).
  destruct (honest_done w' L s2 pre p2 None st3 com p3 st4 HL PO RD eq_refl IC) as (K & ord & D).
  destruct (respond_ok _ _ _ _ _ _ D c st4) as (r' & CR' & RC & CO).
  rewrite CR in CR'. injection CR' as <- _.
  destruct PO as (P1 & P2 & P3 & P4 & P5 & P6 & P7 & P8).
  eapply accept_nizk; eauto.
  - eapply Pat_same; [symmetry; exact PS|]. exact Pt.
  - now apply VOK_valid.
Qed.

(** Interactive: for every challenge the response exists and is accepted. *)
Lemma interactive_complete U w s sd st p s1 st1 pre p2 s2 st2 h com p3 st3 :
  honest U w s sd (env st) -> get_prover s sd st = Ok ((Some p, s1), st1) ->
  precommit s1 p st1 = Ok ((pre, p2, s2), st2) -> commit s2 p2 st2 = Ok ((h, com, p3), st3) ->
  nonneutral s2 ->
  forall f g sv stv, Pat f g s sv -> Forall (vkOK (env stv)) (kinds sv) ->
  exists v sv', process_pre sv (get_verifier sv) pre stv = Ok ((v, sv'), stv) /\
    (exists hb, check_statement sv' h = Ok hb) /\
    forall c e st4, exists r, compute_response s2 p3 c st4 = Ok (r, st4) /\ verify_resp e sv' v com c r = Ok true.
Proof.
  intros HH GP PC CM HN f g sv stv Pt VK. unfold commit in CM.
  apply bind_ok in CM as (hh & st2' & Hh & CM). apply lift_ok in Hh as [Hh ->].
  apply bind_ok in CM as ([com' p3'] & st4 & IC & CM). apply ret_ok in CM as [CM ->]. injection CM as <- <- <-.
  destruct (honest_ready _ _ _ _ _ _ _ _ _ _ _ _ HH GP PC) as (w' & L & HL & _ & PS & PO & RD).
  destruct (honest_done w' L s2 pre p2 None st2 com' p3' st4 HL PO RD eq_refl IC) as (K & ord & D).
  destruct PO as (P1 & P2 & P3 & P4 & P5 & P6 & P7 & P8).
  destruct (process_ok f g s2 sv pre stv) as (sv' & PR & SM); auto.
  { eapply Pat_same; [symmetry; exact PS|]. exact Pt. }
  exists (fverifier sv'), sv'. split; auto. split.
  - unfold stmt_digest in Hh. unfold check_statement. rewrite <- (Sim_prehash f g s2 sv' SM).
    destruct (prehash_input s2) as [b|]; [|discriminate]. simpl in Hh. injection Hh as <-. simpl.
    rewrite (proj2 (bytes_eqb_eq _ _) eq_refl). eauto.
  - intros c e st5. destruct (respond_ok _ _ _ _ _ _ D c st5) as (r & CR & RC & CO).
    exists r. split; auto. eapply accept_resp; eauto. now apply VOK_valid.
Qed.

(** C13 *)
Lemma set_simulated_pstrip b s : pstrip (set_simulated b s) = pstrip s.
Proof. destruct s; reflexivity. Qed.
Lemma simulate_complete U s c st t h s' st' : Sok U s -> wfL (U ++ kints s) -> NoDup (map sid (kints s)) ->
  (forall x y, In x (kints s) -> In y U -> sid x <> sid y) ->
  simulate s c st = Ok ((t, h, s'), st') -> nonneutral s' ->
  forall f g sv stv, Pat f g s sv -> Forall (vkOK (env stv)) (kinds sv) ->
  verify_simulation sv t h stv = Ok (true, stv).
Proof.
  intros HS HL HN HD H NN f g sv stv Pt VK. unfold simulate in H. cbv zeta in H.
  apply bind_ok in H as (s1 & st1 & E1 & H). apply bind_ok in H as (t1 & st2 & E2 & H).
  apply bind_ok in H as (hh & st3 & Hh & H). apply lift_ok in Hh as [Hh ->]. apply ret_ok in H as [H ->].
  injection H as <- <- <-.
  assert (SW : Swf U (U ++ kints s) (set_simulated true s)).
  { eapply Swf_same; [symmetry; apply set_simulated_pstrip|]. apply Sok_Swf; auto. apply incl_appr, incl_refl. }
  destruct (prepare_ok _ _ _ _ _ _ SW ltac:(apply incl_appl, incl_refl) E1) as [PP PS].
  rewrite set_simulated_pstrip in PS.
  destruct PP as (P1 & P2 & P3 & P4 & P5 & P6 & P7).
  destruct (simulate_ok s1 None c st1 t1 st2) as (A & _ & _ & (R & CO) & PR); auto.
  { apply wfL_coh. eapply wfL_incl; eauto. }
  { discriminate. }
  destruct (process_ok f g s1 sv (t_pre t1) stv) as (sv' & PC & SM); auto.
  { eapply Pat_same; [symmetry; exact PS|]. exact Pt. }
  unfold verify_simulation. unfold bind at 1. rewrite PC.
  unfold stmt_digest in Hh. unfold check_statement. rewrite <- (Sim_prehash f g s1 sv' SM).
  destruct (prehash_input s1) as [b|]; [|discriminate]. simpl in Hh. injection Hh as <-. cbn [rbind].
  rewrite val_eqb_refl, bind_lift_ok. unfold bind at 1, get_env.
  rewrite (accept_resp f g s1 sv' (env stv) _ _ _ R); auto. now apply VOK_valid.
Qed.
End C.

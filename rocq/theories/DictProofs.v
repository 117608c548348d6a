(** Secrets as dictionary keys. *)
From Coq Require Import String.
From Verif Require Import Base World Val Expr Utils Stmt Spec Shapes Lib.
Open Scope Z_scope.
Open Scope list_scope.

Lemma wfL_coh e L : wfL L -> coh e L.
Proof. intros H s t Hs Ht N. apply H in N; auto. Qed.
Lemma wfL_incl L L' : incl L' L -> wfL L -> wfL L'.
Proof. intros I H s t Hs Ht. apply H; auto. Qed.
Lemma coh_incl e L L' : incl L' L -> coh e L -> coh e L'.
Proof. intros I H s t Hs Ht. apply H; auto. Qed.

Lemma oz_eqb_refl a : oz_eqb a a = true.
Proof. destruct a; simpl; auto. apply Z.eqb_refl. Qed.
Lemma oz_eqb_eq a b : oz_eqb a b = true <-> a = b.
Proof.
  destruct a, b; simpl; try rewrite Z.eqb_eq; split; try congruence; auto.
Qed.
Lemma sec_eqb_iff e s t :
  sec_eqb e s t = true <-> sname s = sname t /\ e (sid s) = e (sid t).
Proof. unfold sec_eqb. now rewrite andb_true_iff, bytes_eqb_eq, oz_eqb_eq. Qed.
Lemma sec_eqb_refl e s : sec_eqb e s s = true.
Proof. now apply sec_eqb_iff. Qed.
Lemma sec_eqb_sym e s t : sec_eqb e s t = sec_eqb e t s.
Proof.
  destruct (sec_eqb e t s) eqn:E.
  - apply sec_eqb_iff. apply sec_eqb_iff in E. intuition congruence.
  - destruct (sec_eqb e s t) eqn:F; auto. apply sec_eqb_iff in F.
    assert (sec_eqb e t s = true) by (apply sec_eqb_iff; intuition congruence). congruence.
Qed.
Lemma sec_eqb_trans e s t u : sec_eqb e s t = true -> sec_eqb e t u = true -> sec_eqb e s u = true.
Proof. rewrite !sec_eqb_iff. intuition congruence. Qed.
Lemma sec_eqb_cong e s t u : sec_eqb e s t = true -> sec_eqb e u s = sec_eqb e u t.
Proof.
  intros H. destruct (sec_eqb e u t) eqn:E.
  - eapply sec_eqb_trans; eauto. now rewrite sec_eqb_sym.
  - destruct (sec_eqb e u s) eqn:F; auto.
    assert (sec_eqb e u t = true) by (eapply sec_eqb_trans; eauto). congruence.
Qed.
Lemma coh_eqb e l s t : coh e l -> In s l -> In t l ->
  (sec_eqb e s t = true <-> sname s = sname t).
Proof. intros C Hs Ht. rewrite sec_eqb_iff. split; [tauto|]. intros N. split; auto. Qed.

Section D.
Context {A : Type}.
Implicit Types (d : dict A) (e : nat -> option Z).

Lemma dget_in e d s v : dget e d s = Some v -> exists k, In (k, v) d /\ sec_eqb e k s = true.
Proof.
  induction d as [|[k w] d IH]; simpl; [discriminate|].
  destruct (sec_eqb e k s) eqn:E.
  - intros H; injection H as <-. eauto.
  - intros H. destruct (IH H) as (k' & Hk & Ek). eauto.
Qed.
Lemma dget_cong e d s t : sec_eqb e s t = true -> dget e d s = dget e d t.
Proof.
  intros H. induction d as [|[k w] d IH]; simpl; auto.
  rewrite (sec_eqb_cong e s t k H). now rewrite IH.
Qed.
Lemma dmem_in e d s v : In (s, v) d -> dmem e d s = true.
Proof.
  unfold dmem. induction d as [|[k w] d IH]; simpl; [tauto|].
  intros [H|H].
  - injection H as -> ->. now rewrite sec_eqb_refl.
  - destruct (sec_eqb e k s); auto.
Qed.
Lemma dget_dset_same e d s t v : sec_eqb e s t = true -> dget e (dset e d s v) t = Some v.
Proof.
  intros H. induction d as [|[k w] d IH]; simpl.
  - now rewrite H.
  - destruct (sec_eqb e k s) eqn:E; simpl.
    + now rewrite (sec_eqb_trans e k s t).
    + rewrite <- (sec_eqb_cong e s t k H), E. auto.
Qed.
Lemma dget_dset_other e d s t v : sec_eqb e s t = false -> dget e (dset e d s v) t = dget e d t.
Proof.
  intros H. induction d as [|[k w] d IH]; simpl.
  - now rewrite H.
  - destruct (sec_eqb e k s) eqn:E; simpl.
    + rewrite sec_eqb_sym in E. rewrite (sec_eqb_sym e k t), <- (sec_eqb_cong e s k t E).
      now rewrite (sec_eqb_sym e t s), H.
    + now rewrite IH.
Qed.
Lemma dset_in e d s v k w : In (k, w) (dset e d s v) ->
  In (k, w) d \/ (w = v /\ sec_eqb e k s = true /\ (k = s \/ exists w', In (k, w') d)).
Proof.
  induction d as [|[k' w'] d IH]; simpl.
  - intros [H|[]]. injection H as -> ->. right. rewrite sec_eqb_refl. auto.
  - destruct (sec_eqb e k' s) eqn:E; simpl.
    + intros [H|H]; auto. injection H as -> ->. right. split; auto. split; auto. right; eauto.
    + intros [H|H]; auto. destruct (IH H) as [K|(K1 & K2 & [K3|(w2 & K3)])]; auto.
      right. split; auto. split; auto. right; eauto.
Qed.
Lemma dset_keys e d s v k w : In (k, w) (dset e d s v) -> k = s \/ exists w', In (k, w') d.
Proof. intros H. apply dset_in in H as [H|(_ & _ & H)]; eauto. Qed.
Lemma dmem_dset e d s v t : dmem e (dset e d s v) t = sec_eqb e s t || dmem e d t.
Proof.
  unfold dmem. destruct (sec_eqb e s t) eqn:E; simpl.
  - now rewrite dget_dset_same.
  - now rewrite dget_dset_other.
Qed.

Lemma entries_ok_nil L (f : bytes -> A) : entries_ok L f (@nil (secret * A)).
Proof. intros k v []. Qed.
Lemma entries_ok_set L f e d s v :
  entries_ok L f d -> In s L -> v = f (sname s) -> entries_ok L f (dset e d s v).
Proof.
  intros H Hs -> k w K. apply dset_in in K as [K|(-> & E & K)]; [auto|].
  apply sec_eqb_iff in E as [E _]. split; [|congruence].
  destruct K as [->|(w' & K)]; auto. now apply H in K.
Qed.
Lemma entries_ok_update L f e d d' :
  entries_ok L f d -> entries_ok L f d' -> entries_ok L f (dupdate e d d').
Proof.
  unfold dupdate. revert d. induction d' as [|[k v] d' IH]; intros d H H'; simpl; auto.
  apply IH.
  - destruct (H' k v); simpl; auto. apply entries_ok_set; auto.
  - intros k' v' K. apply H'. now right.
Qed.
Lemma entries_ok_get L f e d s v :
  entries_ok L f d -> dget e d s = Some v -> v = f (sname s).
Proof.
  intros H K. apply dget_in in K as (k & K & E). apply H in K as [_ ->].
  apply sec_eqb_iff in E. f_equal. tauto.
Qed.
Lemma entries_ok_incl L L' f d : incl L L' -> entries_ok L f d -> entries_ok L' f d.
Proof. intros I H k v K. destruct (H k v K). split; auto. Qed.
Lemma entries_ok_ext L f f' d : (forall s, In s L -> f (sname s) = f' (sname s)) ->
  entries_ok L f d -> entries_ok L f' d.
Proof. intros X H k v K. destruct (H k v K). split; auto. rewrite <- X; auto. Qed.

(** When names identify objects, membership does not depend on the environment. *)
Lemma dmem_env L e e' d s :
  wfL L -> (forall k v, In (k, v) d -> In k L) -> In s L -> dmem e d s = dmem e' d s.
Proof.
  intros Hw Hd Hs. unfold dmem. induction d as [|[k v] d IH]; simpl; auto.
  assert (Hk : In k L) by (eapply Hd; left; eauto).
  assert (E : sec_eqb e k s = sec_eqb e' k s).
  { assert (C := coh_eqb e L k s (wfL_coh e L Hw) Hk Hs).
    assert (C' := coh_eqb e' L k s (wfL_coh e' L Hw) Hk Hs).
    destruct (sec_eqb e k s), (sec_eqb e' k s); auto; intuition congruence. }
  rewrite E. destruct (sec_eqb e' k s); auto. apply IH. intros; eapply Hd; right; eauto.
Qed.

(** A dictionary looked up at coherent secrets is a function of the name. *)
Lemma dict_fun e d ss (dflt : A) : coh e ss ->
  exists f, forall s, In s ss -> forall v, dget e d s = Some v -> v = f (sname s).
Proof.
  intros C.
  exists (fun n => match find (fun s => bytes_eqb (sname s) n) ss with
                   | Some s => match dget e d s with Some v => v | None => dflt end
                   | None => dflt end).
  intros s Hs v K. destruct (find _ ss) as [t|] eqn:F.
  - apply find_some in F as [Ht E]. apply bytes_eqb_eq in E.
    rewrite (dget_cong e d t s) by (apply sec_eqb_iff; split; auto). now rewrite K.
  - exfalso. apply (find_none _ _ F) in Hs.
    assert (bytes_eqb (sname s) (sname s) = true) by now apply bytes_eqb_eq. congruence.
Qed.

(** building a dictionary by repeated assignment *)
Lemma dmem_fold e l : forall d s,
  dmem e (fold_left (fun o sr => dset e o (fst sr) (snd sr)) l d) s = true <->
  dmem e d s = true \/ exists k v, In (k, v) l /\ sec_eqb e k s = true.
Proof.
  induction l as [|[k v] l IH]; intros d s; simpl.
  - split; auto. intros [H|(k & v & [] & _)]; auto.
  - rewrite IH, dmem_dset, orb_true_iff. split.
    + intros [[H|H]|(k' & v' & H & E)]; eauto 6.
    + intros [H|(k' & v' & [H|H] & E)]; eauto 6. injection H as -> ->. auto.
Qed.
End D.

Lemma sec_set_spec e l : forall s, (exists t, In t (sec_set e l) /\ sec_eqb e t s = true) <->
  (exists t, In t l /\ sec_eqb e t s = true).
Proof.
  unfold sec_set.
  assert (K : forall acc s,
    (exists t, In t (fold_left (fun acc s => if sec_mem e s acc then acc else acc ++ [s]) l acc)
               /\ sec_eqb e t s = true) <->
    (exists t, (In t acc \/ In t l) /\ sec_eqb e t s = true)).
  { induction l as [|x l IH]; intros acc s; simpl.
    - split; intros (t & H & E); exists t; intuition.
    - rewrite IH. destruct (sec_mem e x acc) eqn:Em.
      + split; intros (t & H & E); [exists t; intuition|].
        destruct H as [H|[<-|H]]; try (exists t; intuition; fail).
        assert (exists u, In u acc /\ sec_eqb e u x = true) as (u & Hu & Eu).
        { clear -Em. induction acc as [|u acc IHa]; simpl in Em; [discriminate|].
          apply orb_true_iff in Em as [Em|Em]; [exists u; simpl; auto|].
          destruct (IHa Em) as (v & Hv & Ev). exists v; simpl; auto. }
        exists u. split; [now left|]. eapply sec_eqb_trans; eauto.
      + split; intros (t & H & E); exists t; (split; [|exact E]); rewrite in_app_iff in *; simpl in *; tauto. }
  intros s. rewrite K. split; intros (t & H & E); exists t; simpl in *; intuition.
Qed.
Lemma sec_set_incl e l : incl (sec_set e l) l.
Proof.
  unfold sec_set.
  assert (K : forall acc, incl (fold_left (fun acc s => if sec_mem e s acc then acc else acc ++ [s]) l acc) (acc ++ l)).
  { induction l as [|x l IH]; intros acc; simpl; [rewrite app_nil_r; apply incl_refl|].
    destruct (sec_mem e x acc).
    - eapply incl_tran; [apply IH|]. intros y. rewrite !in_app_iff. simpl. tauto.
    - eapply incl_tran; [apply IH|]. intros y. rewrite !in_app_iff. simpl. tauto. }
  apply (K []).
Qed.

(** Simulation does not look at the values of secrets. *)
From Coq Require Import String.
From Verif Require Import Base World Val Expr Utils Stmt Prove Verify Spec Shapes Claims Lib DictProofs Keeps Tree Sigma
  Build Process Ktruth Provers Honest Complete.
Open Scope Z_scope.
Open Scope list_scope.

(** same random source *)
Definition tp (a b : st) : Prop := tape a = tape b /\ pos a = pos b.
(** same behaviour up to [R], whatever the values of the secrets *)
Definition same {A} (R : A -> A -> Prop) (m m' : M A) : Prop :=
  forall s s', tp s s' -> match m s, m' s' with
    | Ok (a, t), Ok (b, t') => R a b /\ tp t t'
    | Err e, Err e' => e = e'
    | _, _ => False
    end.
Lemma same_bind {A B} (R : A -> A -> Prop) (Q : B -> B -> Prop) m m' f f' :
  same R m m' -> (forall a b, R a b -> same Q (f a) (f' b)) -> same Q (bind m f) (bind m' f').
Proof.
  intros H K s s' T. unfold bind. specialize (H s s' T).
  destruct (m s) as [[a t]|], (m' s') as [[b t']|]; try contradiction; auto. destruct H as [H T']. apply K; auto.
Qed.
Lemma same_ret {A} (R : A -> A -> Prop) a b : R a b -> same R (ret a) (ret b).
Proof. intros H s s' T. simpl. auto. Qed.
Lemma same_raise {A} (R : A -> A -> Prop) e : same R (raise e) (raise e).
Proof. intros s s' T. reflexivity. Qed.
Lemma same_lift {A} (r : res A) : same eq (lift r) (lift r).
Proof. intros s s' T. unfold lift. destruct r; auto. Qed.
Lemma same_lift_r {A} (R : A -> A -> Prop) (r : res A) : (forall a, r = Ok a -> R a a) -> same R (lift r) (lift r).
Proof. intros H s s' T. unfold lift. destruct r; auto. Qed.
Lemma same_draw n : same eq (draw n) (draw n).
Proof. intros s s' [T P]. unfold draw. rewrite T, P. split; [reflexivity|]. split; simpl; congruence. Qed.
Lemma same_env {A} (R : A -> A -> Prop) f f' : (forall e e', same R (f e) (f' e')) -> same R (bind get_env f) (bind get_env f').
Proof. intros H s s' T. unfold bind, get_env. now apply H. Qed.
Lemma same_mapM {A B} (R : B -> B -> Prop) (f f' : A -> M B) l :
  (forall x, In x l -> same R (f x) (f' x)) -> same (Forall2 R) (mapM f l) (mapM f' l).
Proof.
  induction l as [|x l IH]; intros H; simpl.
  - now apply same_ret.
  - eapply same_bind; [apply H; now left|]. intros a b E. eapply same_bind; [apply IH; intros; apply H; now right|].
    intros. apply same_ret. constructor; auto.
Qed.
Lemma same_mapM2 {A B} (R : B -> B -> Prop) (f f' : A -> M B) l : forall l',
  Forall2 (fun x x' => same R (f x) (f' x')) l l' -> same (Forall2 R) (mapM f l) (mapM f' l').
Proof.
  intros l' H. induction H; simpl.
  - now apply same_ret.
  - eapply same_bind; [eassumption|]. intros a b E. eapply same_bind; [eassumption|].
    intros. apply same_ret. constructor; auto.
Qed.
Lemma F2_eq {A} (l m : list A) : Forall2 eq l m -> l = m.
Proof. induction 1; congruence. Qed.
Lemma same_weak {A} (R Q : A -> A -> Prop) m m' : (forall a b, R a b -> Q a b) -> same R m m' -> same Q m m'.
Proof.
  intros H K s s' T. specialize (K s s' T). destruct (m s) as [[a t]|], (m' s') as [[b t']|]; auto. destruct K; auto.
Qed.

Section I.
Context {W : World}.
Variable L : list secret.
Hypothesis HL : wfL L.

Lemma eqb_indep e e' a b : In a L -> In b L -> sec_eqb e a b = sec_eqb e' a b.
Proof.
  intros Ha Hb. unfold sec_eqb. destruct (bytes_eqb (sname a) (sname b)) eqn:E; auto. simpl.
  apply bytes_eqb_eq in E. apply HL in E; auto. rewrite E. now rewrite !oz_eqb_refl.
Qed.
Definition keysL {A} (d : dict A) : Prop := forall k v, In (k, v) d -> In k L.
Lemma dget_indep {A} e e' (d : dict A) x : keysL d -> In x L -> dget e d x = dget e' d x.
Proof.
  intros K Hx. induction d as [|[k v] d IH]; simpl; auto.
  rewrite (eqb_indep e e' k x); auto; [|apply (K k v); now left]. rewrite IH; auto. intros k' v' H. apply (K k' v'). now right.
Qed.
Lemma dset_indep {A} e e' (d : dict A) x v : keysL d -> In x L -> dset e d x v = dset e' d x v.
Proof.
  intros K Hx. induction d as [|[k u] d IH]; simpl; auto.
  rewrite (eqb_indep e e' k x); auto; [|apply (K k u); now left]. rewrite IH; auto. intros k' v' H. apply (K k' v'). now right.
Qed.
Lemma dset_keysL {A} e (d : dict A) x v : keysL d -> In x L -> keysL (dset e d x v).
Proof. intros K Hx k u H. apply dset_keys in H as [->|(w & H)]; eauto. Qed.
Lemma fold_indep {A} e e' (l : list (secret * A)) : forall d, keysL d -> keysL l ->
  fold_left (fun o sb => dset e o (fst sb) (snd sb)) l d = fold_left (fun o sb => dset e' o (fst sb) (snd sb)) l d /\
  keysL (fold_left (fun o sb => dset e o (fst sb) (snd sb)) l d).
Proof.
  induction l as [|[k v] l IH]; intros d K KL; simpl; auto.
  assert (In k L) by (apply (KL k v); now left).
  rewrite (dset_indep e e' d k v) by auto. apply IH; [now apply dset_keysL|intros a b H0; apply (KL a b); now right].
Qed.
Lemma dupdate_indep {A} e e' (d d' : dict A) : keysL d -> keysL d' -> dupdate e d d' = dupdate e' d d' /\ keysL (dupdate e d d').
Proof. intros. unfold dupdate. now apply fold_indep. Qed.
Lemma sec_mem_indep e e' x l : incl l L -> In x L -> sec_mem e x l = sec_mem e' x l.
Proof.
  intros I Hx. induction l as [|y l IH]; simpl; auto. rewrite (eqb_indep e e' y x); auto; [|apply I; now left].
  rewrite IH; auto. intros z Hz. apply I. now right.
Qed.
Lemma sec_set_indep e e' l : incl l L -> sec_set e l = sec_set e' l /\ incl (sec_set e l) L.
Proof.
  unfold sec_set. intros I. assert (G : forall acc, incl acc L ->
    fold_left (fun acc s => if sec_mem e s acc then acc else acc ++ [s]) l acc =
    fold_left (fun acc s => if sec_mem e' s acc then acc else acc ++ [s]) l acc /\
    incl (fold_left (fun acc s => if sec_mem e s acc then acc else acc ++ [s]) l acc) L).
  { induction l as [|x l IH]; intros acc Ha; simpl; auto. assert (In x L) by (apply I; now left).
    rewrite (sec_mem_indep e e' x acc) by auto.
    apply IH; [intros z Hz; apply I; now right|]. destruct (sec_mem e' x acc); auto.
    apply incl_app; auto. intros z [<-|[]]; auto. }
  apply G. intros x [].
Qed.

Definition dR (d d' : dict Z) : Prop := d = d' /\ keysL d.
Lemma keysL_combine {A} (l : list secret) (m : list A) : incl l L -> keysL (combine l m).
Proof. intros I k v H. apply I. eapply in_combine_l; eauto. Qed.

Lemma rand_dl_same d d' : dl_bases d = dl_bases d' -> dl_secs d = dl_secs d' -> incl (dl_secs d) L ->
  same dR (randomizers_dl d) (randomizers_dl d').
Proof.
  intros EB ES I. unfold randomizers_dl. rewrite <- EB, <- ES. destruct (dl_bases d) as [|b0 bs]; [apply same_raise|].
  apply same_env. intros e e'. cbv zeta. destruct (sec_set_indep e e' (dl_secs d) I) as [E K]. rewrite <- E.
  eapply same_bind; [apply same_mapM; intros; apply same_draw|]. intros a b H. apply F2_eq in H. subst b.
  apply same_ret. destruct (fold_indep e e' (combine (sec_set e (dl_secs d)) a) []) as [E1 K1].
  - intros k v [].
  - now apply keysL_combine.
  - split; auto.
Qed.
Lemma rand_and_same s s' : get_bases s = get_bases s' -> get_secret_vars s = get_secret_vars s' -> incl (svars s) L ->
  same dR (randomizers_and s) (randomizers_and s').
Proof.
  intros EB ES I. unfold randomizers_and. rewrite <- EB, <- ES.
  eapply same_bind with (R := fun a b => a = b /\ incl a L).
  { apply same_lift_r. intros a E. split; auto. now rewrite (svars_eq _ _ E). }
  intros ss ss' [<- IS]. eapply same_bind; [apply same_lift|]. intros bs bs' <-.
  apply same_env. intros e e'. cbv zeta.
  destruct (fold_indep e e' (combine ss bs) []) as [E1 K1]; [intros k v []|now apply keysL_combine|].
  rewrite <- E1. eapply same_bind; [apply same_mapM; intros; apply same_draw|]. intros a b H. apply F2_eq in H. subst b.
  apply same_ret. split; auto. apply keysL_combine. intros x Hx. apply in_map_iff in Hx as ([k v] & <- & Hk). eapply K1; eauto.
Qed.
Lemma existsb_ext_in {A} (f g : A -> bool) l : (forall x, In x l -> f x = g x) -> existsb f l = existsb g l.
Proof. induction l; simpl; intros H; auto. rewrite H, IHl; auto. Qed.
Definition orR (o : option (dict Z)) : Prop := forall d, o = Some d -> keysL d.
Lemma update_same g g' ss o : same dR g g' -> incl ss L -> orR o ->
  same dR (update_randomizers g (Ok ss) o) (update_randomizers g' (Ok ss) o).
Proof.
  intros HG I HO. destruct o as [d|]; [|exact HG]. unfold update_randomizers.
  assert (K := HO d eq_refl).
  eapply same_bind; [apply same_lift_r with (R := fun a b => a = b /\ a = ss)|].
  { intros a E. injection E as ->. auto. }
  intros a b [<- ->]. apply same_env. intros e e'.
  rewrite (existsb_ext_in (fun x => negb (dmem e d x)) (fun x => negb (dmem e' d x)) ss).
  2:{ intros x Hx. unfold dmem. now rewrite (dget_indep e e' d x) by auto. }
  destruct (existsb _ ss).
  - eapply same_bind; [exact HG|]. intros t t' [<- KT]. apply same_env. intros e1 e2.
    apply same_ret. destruct (dupdate_indep e1 e2 t d KT K). split; auto.
  - apply same_ret. split; auto.
Qed.
Lemma rmap_indep {A} e e' (d : dict A) ss : keysL d -> incl ss L -> rmap (dget_err e d) ss = rmap (dget_err e' d) ss.
Proof. intros K I. apply rmap_ext. intros x Hx. unfold dget_err. now rewrite (dget_indep e e' d x) by auto. Qed.

Lemma or_draw_same c : same eq (or_draw c) (or_draw c).
Proof. destruct c; [now apply same_ret|]. apply same_draw. Qed.

Lemma recompute_dl_eq d d' c r : dl_lhs d = dl_lhs d' -> dl_bases d = dl_bases d' -> recompute_dl d c r = recompute_dl d' c r.
Proof. intros E1 E2. unfold recompute_dl. now rewrite E1, E2. Qed.

Lemma sim_dl_same d d' rd c : dl_lhs d = dl_lhs d' -> dl_bases d = dl_bases d' -> dl_secs d = dl_secs d' ->
  incl (dl_secs d) L -> orR rd -> same eq (simulate_dl d rd c) (simulate_dl d' rd c).
Proof.
  intros E1 E2 E3 I HO. unfold simulate_dl. rewrite <- E3.
  eapply same_bind; [apply update_same; auto; now apply rand_dl_same|]. intros r r' [<- K].
  eapply same_bind; [apply or_draw_same|]. intros c0 c0' <-. apply same_env. intros e e'.
  rewrite (rmap_indep e e' r (dl_secs d)) by auto. eapply same_bind; [apply same_lift|]. intros rs rs' <-. cbv zeta.
  rewrite (recompute_dl_eq d d') by auto. eapply same_bind; [apply same_lift|]. intros y y' <-. now apply same_ret.
Qed.

Lemma strip_svars a b : strip a = strip b -> get_secret_vars a = get_secret_vars b /\ get_bases a = get_bases b.
Proof.
  assert (G : forall s, get_secret_vars s = get_secret_vars (strip s) /\ get_bases s = get_bases (strip s)).
  { assert (GL : forall subs, Forall (fun s => get_secret_vars s = get_secret_vars (strip s) /\ get_bases s = get_bases (strip s)) subs ->
      rmap get_secret_vars subs = rmap get_secret_vars (map strip subs) /\ rmap get_bases subs = rmap get_bases (map strip subs)).
    { intros subs H. induction H as [|x l [E1 E2] H [I1 I2]]; simpl; auto. rewrite E1, E2, I1, I2. auto. }
    induction s as [d|subs f IH|subs f ch IH|k f q|k f q con IH] using stmt_ind'; simpl; auto;
      destruct (GL subs IH) as [-> ->]; auto. }
  intros E. destruct (G a) as [-> ->], (G b) as [-> ->]. now rewrite E.
Qed.

Lemma strip_map_F2 l : forall l', map strip l = map strip l' -> Forall2 (fun a b => strip a = strip b) l l'.
Proof. induction l; intros [|y l'] H; simpl in H; try discriminate; constructor; try congruence. apply IHl. congruence. Qed.

Lemma sim_proof_same s : forall s' rd c, strip s = strip s' -> built s -> incl (svars s) L -> orR rd ->
  same eq (simulate_proof s rd c) (simulate_proof s' rd c).
Proof.
  induction s as [d|subs f IH|subs f ch IH|k f q|k f q con IH] using stmt_ind'; intros s' rd c E HB I HO.
  - destruct s' as [d'| | |? ? ? []]; try discriminate E. simpl in E. injection E as E1 E2 E3. now apply sim_dl_same.
  - destruct s' as [|subs' f'| |? ? ? []]; try discriminate E.
    destruct (strip_svars _ _ E) as [ES EB]. simpl in E. injection E as E. apply strip_map_F2 in E.
    cbn [simulate_proof]. rewrite <- ES. rewrite (built_svars _ HB).
    eapply same_bind; [apply update_same; auto; apply rand_and_same; auto|]. intros r r' [<- K].
    eapply same_bind; [apply or_draw_same|]. intros c0 c0' <-.
    eapply same_bind with (R := Forall2 eq).
    + apply same_mapM2. inversion HB; subst. simpl in I. clear HB ES EB.
      induction E as [|x y l m Exy E IHE]; constructor.
      * inversion IH; inversion H0; subst. apply H2; auto.
        -- intros z Hz. apply I. simpl. apply in_or_app. now left.
        -- intros d Ed. injection Ed as <-. auto.
      * inversion IH; inversion H0; subst. apply IHE; auto. intros z Hz. apply I. simpl. apply in_or_app. now right.
    + intros a b H. apply F2_eq in H. subst b. now apply same_ret.
  - destruct s' as [| |subs' f' ch'|? ? ? []]; try discriminate E. simpl in E. injection E as E. apply strip_map_F2 in E.
    rewrite !simulate_or. eapply same_bind; [apply or_draw_same|]. intros c0 c0' <-.
    eapply same_bind with (R := eq).
    + inversion HB; subst. simpl in I. clear HB c. generalize (@nil Z) as ch0.
      induction E as [|x y l m Exy E IHE]; intros ch0.
      * apply same_raise.
      * inversion IH; inversion H0; subst.
        assert (Ix : incl (svars x) L) by (intros z Hz; apply I; simpl; apply in_or_app; now left).
        assert (Il : incl (List.concat (map svars l)) L) by (intros z Hz; apply I; simpl; apply in_or_app; now right).
        assert (N : orR None) by (intros d Ed; discriminate).
        destruct E as [|x2 y2 l m].
        -- cbn [sim_or_loop]. cbv zeta. eapply same_bind; [apply H2; auto|]. intros a b <-. now apply same_ret.
        -- specialize (IHE H3 Il H7).
           change (same eq (let! t := simulate_proof x None None in
              let! ts := sim_or_loop (fun s => simulate_proof s None) c0 (x2 :: l) (ch0 ++ [t_chal t]) in ret (t :: ts))
             (let! t := simulate_proof y None None in
              let! ts := sim_or_loop (fun s => simulate_proof s None) c0 (y2 :: m) (ch0 ++ [t_chal t]) in ret (t :: ts))).
           eapply same_bind; [apply H2; auto|]. intros a b <-. eapply same_bind; [apply IHE|]. intros u v <-. now apply same_ret.
    + intros a b <-. now apply same_ret.
  - inversion HB.
  - destruct s' as [| | |k' f' q' [con'|]]; try discriminate E. simpl in E. injection E as -> -> E.
    inversion HB; subst. cbn [simulate_proof]. eapply same_bind; [apply IH; auto|]. intros a b <-. now apply same_ret.
Qed.

Definition idn (n : bytes) := n.
Lemma ren_refl x : ren idn idn x x.
Proof. split; reflexivity. Qed.
Lemma F2_ren_refl l : Forall2 (ren idn idn) l l.
Proof. induction l; constructor; auto using ren_refl. Qed.
Lemma KSim_refl k : KSim idn idn k k.
Proof.
  destruct k; constructor; auto using ren_refl, F2_ren_refl.
  induction rows; constructor; auto. split; auto. induction (snd a); constructor; auto using ren_refl.
Qed.
Lemma ren_in a b : ren idn idn a b -> In a L -> In b L -> a = b.
Proof.
  intros [E _] Ha Hb. unfold idn in E. assert (sid a = sid b) by (apply HL; auto).
  destruct a, b; simpl in *; congruence.
Qed.
Lemma ren_list l m : Forall2 (ren idn idn) l m -> incl l L -> incl m L -> l = m.
Proof.
  induction 1; intros I J; auto. f_equal.
  - apply ren_in; auto; [apply I|apply J]; now left.
  - apply IHForall2; intros z Hz; [apply I|apply J]; now right.
Qed.
Lemma Sim_id_strip s : forall s', noext s -> Sim idn idn s s' -> incl (svars s) L -> incl (svars s') L -> strip s = strip s'.
Proof.
  induction s as [d|subs f IH|subs f ch IH|k f q|k f q con IH] using stmt_ind'; intros s' N S I J; inversion S; subst; simpl.
  - f_equal. f_equal; auto. now apply ren_list.
  - f_equal. inversion N; subst. clear S N. simpl in I, J. induction H2; simpl; auto. inversion IH; inversion H0; subst.
    simpl in I, J. f_equal.
    + match goal with H : forall s', noext x -> _ |- _ => apply H end; auto; intros z Hz; [apply I|apply J]; apply in_or_app; now left.
    + apply IHForall2; auto; intros z Hz; [apply I|apply J]; apply in_or_app; now right.
  - f_equal. inversion N; subst. clear S N. simpl in I, J. induction H3; simpl; auto. inversion IH; inversion H0; subst.
    simpl in I, J. f_equal.
    + match goal with H : forall s', noext x -> _ |- _ => apply H end; auto; intros z Hz; [apply I|apply J]; apply in_or_app; now left.
    + apply IHForall2; auto; intros z Hz; [apply I|apply J]; apply in_or_app; now right.
  - inversion N.
Qed.

Lemma ksim_pre_same k : same eq (ksim_precommit k) (ksim_precommit k).
Proof.
  destruct k as [H0 g H1 h x al be bnd|com g h n isp x r rs|pk sg bs sv r1 r2 d1 d2|cls rows]; cbn [ksim_precommit]; cbv zeta.
  - eapply same_bind; [apply same_draw|]. intros a b <-. now apply same_ret.
  - eapply same_bind; [apply same_mapM; intros; apply same_draw|]. intros a b H. apply F2_eq in H. subst b.
    destruct (map _ a); [apply same_raise|]. eapply same_bind; [apply same_lift|]. intros c c' <-. now apply same_ret.
  - destruct bs; [apply same_raise|]. eapply same_bind; [apply same_draw|]. intros a b <-.
    eapply same_bind; [apply same_draw|]. intros a' b' <-. now apply same_ret.
  - apply same_raise.
Qed.

Lemma mapM_prep l : (forall x, In x l -> forall x' st s1 st1 st', pstrip x = pstrip x' ->
    (forall k, In k (kinds x) -> incl (kuser k ++ kint k) L) -> Forall (vkOK (env st')) (kinds x) -> tp st st' ->
    prepare_sim x st = Ok (s1, st1) -> exists s1' st1', prepare_sim x' st' = Ok (s1', st1') /\ strip s1 = strip s1' /\
      tp st1 st1' /\ env st1' = env st') ->
  forall l' st ls st1 st', map pstrip l = map pstrip l' ->
    (forall k, In k (List.concat (map kinds l)) -> incl (kuser k ++ kint k) L) ->
    Forall (vkOK (env st')) (List.concat (map kinds l)) -> tp st st' ->
    mapM prepare_sim l st = Ok (ls, st1) ->
    exists ls' st1', mapM prepare_sim l' st' = Ok (ls', st1') /\ map strip ls = map strip ls' /\ tp st1 st1' /\ env st1' = env st'.
Proof.
  induction l as [|x l IH]; intros H l' st ls st1 st' EP HK VK T E; destruct l' as [|x' l']; try discriminate EP.
  - apply ret_ok in E as [<- ->]. exists [], st'. auto.
  - simpl in EP, HK, VK. injection EP as E1 E2. simpl in E.
    apply bind_ok in E as (y & sa & Ey & E). apply bind_ok in E as (ys & sb & Eys & E). apply ret_ok in E as [<- ->].
    apply Forall_app in VK as [V1 V2].
    destruct (H x ltac:(now left) x' st y sa st' E1) as (y' & sa' & Ey' & Sy & Ta & Ea); auto.
    { intros k Hk. apply HK, in_or_app. now left. }
    destruct (IH ltac:(intros; eapply H; eauto; now right) l' sa ys sb sa' E2) as (ys' & sb' & Eys' & Sys & Tb & Eb); auto.
    { intros k Hk. apply HK, in_or_app. now right. }
    { now rewrite Ea. }
    exists (y' :: ys'), sb'. simpl. unfold bind at 1. rewrite Ey'. unfold bind at 1. rewrite Eys'. simpl.
    split; auto. split; [congruence|]. split; auto. congruence.
Qed.

Lemma prepare_same s : forall s' st s1 st1 st', pstrip s = pstrip s' ->
  (forall k, In k (kinds s) -> incl (kuser k ++ kint k) L) -> Forall (vkOK (env st')) (kinds s) -> tp st st' ->
  prepare_sim s st = Ok (s1, st1) ->
  exists s1' st1', prepare_sim s' st' = Ok (s1', st1') /\ strip s1 = strip s1' /\ tp st1 st1' /\ env st1' = env st'.
Proof.
  assert (GE : forall k f q o s' st s1 st1 st', pstrip (SExt k f q o) = pstrip s' ->
    (forall k0, In k0 [k] -> incl (kuser k0 ++ kint k0) L) -> Forall (vkOK (env st')) [k] -> tp st st' ->
    prepare_sim (SExt k f q o) st = Ok (s1, st1) ->
    exists s1' st1', prepare_sim s' st' = Ok (s1', st1') /\ strip s1 = strip s1' /\ tp st1 st1' /\ env st1' = env st').
  { intros k f q o s' st s1 st1 st' EP HK VK T E. destruct s' as [| | |k' f' q' o']; try discriminate EP.
    simpl in EP. injection EP as <-. cbn [prepare_sim] in *.
    apply bind_ok in E as (pre & sa & E1 & E2). unfold full_construct in *. apply bind_ok in E2 as (c & sb & E2 & E3).
    apply ret_ok in E3 as [<- ->]. inversion VK; subst.
    assert (S0 := ksim_pre_same k st st' T). rewrite E1 in S0.
    destruct (ksim_precommit k st') as [[pre' sa']|] eqn:E1'; [|contradiction]. destruct S0 as [<- Ta].
    assert (Ee : env sa' = env st') by (eapply keeps_ksim_precommit; eauto).
    destruct (construct_sim idn idn k k pre sa c sb sa' (KSim_refl k) E2) as (c' & E2' & SM).
    { now rewrite Ee. }
    destruct (construct_leafy _ _ _ _ _ E2) as [Eb LC]. destruct (construct_leafy _ _ _ _ _ E2') as [_ LC'].
    subst sb. assert (IK : incl (kuser k ++ kint k) L) by (apply HK; now left).
    exists (SExt k f' pre (Some c')), sa'. unfold bind at 1. rewrite E1'. unfold bind. rewrite E2'.
    split; auto. split; [|split; auto]. simpl. f_equal. f_equal.
    apply Sim_id_strip; auto; [eapply leafy_noext; eauto| |]; (eapply incl_tran; [eapply leafy_svars; eauto|exact IK]). }
  induction s as [d|subs f IH|subs f ch IH|k f q|k f q con IH] using stmt_ind'; intros s' st s1 st1 st' EP HK VK T E.
  - destruct s' as [d'| | |]; try discriminate EP. apply ret_ok in E as [<- ->]. exists (SDL d'), st'. split; [reflexivity|].
    split; auto.
  - destruct s' as [|subs' f'| |]; try discriminate EP. simpl in EP. injection EP as EP. cbn [prepare_sim] in *.
    apply bind_ok in E as (ls & sa & E & E2). apply ret_ok in E2 as [<- ->].
    rewrite Forall_forall in IH. destruct (mapM_prep subs IH subs' st ls sa st' EP HK VK T E) as (ls' & sa' & E' & S & T' & Ee).
    exists (SAnd ls' f'), sa'. unfold bind. rewrite E'. split; auto. split; auto. simpl. now rewrite S.
  - destruct s' as [| |subs' f' ch'|]; try discriminate EP. simpl in EP. injection EP as EP. cbn [prepare_sim] in *.
    apply bind_ok in E as (ls & sa & E & E2). apply ret_ok in E2 as [<- ->].
    rewrite Forall_forall in IH. destruct (mapM_prep subs IH subs' st ls sa st' EP HK VK T E) as (ls' & sa' & E' & S & T' & Ee).
    exists (SOr ls' f' ch'), sa'. unfold bind. rewrite E'. split; auto. split; auto. simpl. now rewrite S.
  - eapply GE; eauto.
  - eapply GE; eauto.
Qed.

Lemma strip_id a b : strip a = strip b -> get_proof_id a None = get_proof_id b None.
Proof.
  intros E. assert (G : forall s, get_proof_id s None = get_proof_id (strip s) None /\
    forall m, get_proof_id s (Some m) = get_proof_id (strip s) (Some m)).
  { assert (GL : forall subs m, Forall (fun s => get_proof_id s None = get_proof_id (strip s) None /\
        forall m, get_proof_id s (Some m) = get_proof_id (strip s) (Some m)) subs ->
        rmap (fun s => get_proof_id s (Some m)) subs = rmap (fun s => get_proof_id s (Some m)) (map strip subs)).
    { intros subs m H. induction H as [|x l [_ E2] H I]; simpl; auto. rewrite E2, I. auto. }
    assert (SS : forall s, get_secret_vars s = get_secret_vars (strip s) /\ get_bases s = get_bases (strip s)).
    { intros s. apply strip_svars. clear. induction s as [d|subs f IH|subs f ch IH|k f q|k f q con IH] using stmt_ind'; simpl; auto.
      - f_equal. rewrite map_map. apply map_ext_in. now apply Forall_forall.
      - f_equal. rewrite map_map. apply map_ext_in. now apply Forall_forall.
      - now f_equal; f_equal. }
    induction s as [d|subs f IH|subs f ch IH|k f q|k f q con IH] using stmt_ind'.
    - auto.
    - destruct (SS (SAnd subs f)) as [E1 E2]. simpl strip in *.
      split; intros; cbn [get_proof_id]; rewrite <- ?E1, <- ?E2; [destruct (get_secret_vars (SAnd subs f)); auto; cbn [rbind]|]; now rewrite <- GL.
    - destruct (SS (SOr subs f ch)) as [E1 E2]. simpl strip in *.
      split; intros; cbn [get_proof_id]; rewrite <- ?E1, <- ?E2; [destruct (get_secret_vars (SOr subs f ch)); auto; cbn [rbind]|]; now rewrite <- GL.
    - auto.
    - destruct IH as [E1 E2]. split; intros; simpl strip; cbn [get_proof_id]; [now rewrite E1|now rewrite E2]. }
  destruct (G a) as [-> _], (G b) as [-> _]. now rewrite E.
Qed.
End I.

Section J.
Context {W : World}.
Lemma Sok_kuser U s : Sok U s -> forall k, In k (kinds s) -> incl (kuser k) U.
Proof.
  induction s as [d|subs f IH|subs f ch IH|k f q|k f q con IH] using stmt_ind'; intros H k0 Hk; inversion H; subst; simpl in Hk.
  - destruct Hk.
  - apply in_concat in Hk as (l & Hl & Hk). apply in_map_iff in Hl as (x & <- & Hx). rewrite Forall_forall in *. eapply IH; eauto.
  - apply in_concat in Hk as (l & Hl & Hk). apply in_map_iff in Hl as (x & <- & Hx). rewrite Forall_forall in *. eapply IH; eauto.
  - destruct Hk as [<-|[]]. auto.
  - destruct Hk as [<-|[]]. auto.
Qed.
Lemma simulate_indep U s s' c st st' t h s1 st1 : Sok U s -> wfL (U ++ kints s) -> NoDup (map sid (kints s)) ->
  (forall x y, In x (kints s) -> In y U -> sid x <> sid y) ->
  pstrip s = pstrip s' -> tape st = tape st' -> pos st = pos st' -> Forall (vkOK (env st')) (kinds s) ->
  simulate s c st = Ok ((t, h, s1), st1) -> exists s1' st1', simulate s' c st' = Ok ((t, h, s1'), st1').
Proof.
  intros HS HL HN HD EP T1 T2 VK H. unfold simulate in *. cbv zeta in *.
  apply bind_ok in H as (sp & sa & E1 & H). apply bind_ok in H as (t1 & sb & E2 & H).
  apply bind_ok in H as (hh & sc & Hh & H). apply lift_ok in Hh as [Hh ->]. apply ret_ok in H as [H ->]. injection H as <- <- <-.
  assert (SW : Swf U (U ++ kints s) (set_simulated true s)).
  { eapply Swf_same; [symmetry; apply set_simulated_pstrip|]. apply Sok_Swf; auto. apply incl_appr, incl_refl. }
  destruct (prepare_ok _ _ _ _ _ _ SW ltac:(apply incl_appl, incl_refl) E1) as [(_ & PB & _ & _ & _ & _ & PI) _].
  assert (KE : kinds (set_simulated true s) = kinds s) by (apply kinds_same, set_simulated_pstrip).
  assert (KU : forall k, In k (kinds s) -> incl (kuser k ++ kint k) (U ++ kints s)).
  { intros k Hk. apply incl_app.
    - apply incl_appl. eapply Sok_kuser; eauto.
    - apply incl_appr. unfold kints. intros x Hx. apply in_concat. exists (kint k). split; auto. now apply in_map. }
  assert (EP' : pstrip (set_simulated true s) = pstrip (set_simulated true s')) by now rewrite !set_simulated_pstrip.
  destruct (prepare_same _ HL (set_simulated true s) (set_simulated true s') st sp sa st' EP') as (sp' & sa' & E1' & S1 & T' & Ee);
    auto; try (rewrite KE; auto); [split; auto|].
  assert (X := sim_proof_same _ HL sp sp' None c S1 PB PI ltac:(intros d Ed; discriminate) sa sa' T'). rewrite E2 in X.
  destruct (simulate_proof sp' None c sa') as [[t' sb']|] eqn:E2'; [|contradiction]. destruct X as [<- Tb].
  exists sp', sb'. unfold bind at 1. rewrite E1'. unfold bind at 1. rewrite E2'.
  unfold stmt_digest, prehash_input in *. rewrite <- (strip_id _ _ S1), Hh. reflexivity.
Qed.
End J.

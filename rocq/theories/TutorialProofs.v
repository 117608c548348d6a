(** The primitives of the documentation. *)
From Coq Require Import String Znumtheory.
From Verif Require Import Base World Val Expr Utils Stmt Prove Verify Spec Shapes Claims Honest Supply Extract Lib Lin Tree Build Sound Sound2 Prims
  Custom CustomProofs Tutorial TutorialSpec.
Open Scope Z_scope.
Open Scope list_scope.

Section T.
Context {W : World}.

(** ** Classes with the same methods *)
Definition same_class (K K' : cls) : Prop :=
  c_name K = c_name K' /\ (forall a, c_pre K a = c_pre K' a) /\ (forall p a, c_con K p a = c_con K' p a) /\ (forall p, c_val K p = c_val K' p).
Lemma cprove_same K K' sd msg a : same_class K K' -> cprove K sd msg a = cprove K' sd msg a.
Proof.
  intros (N & P & C & _). unfold cprove, copen, cprehash, bind, update_secret_values, get_env. rewrite P.
  destruct (c_pre K' _) as [[pre a1]|]; [|reflexivity]. rewrite C. destruct (c_con K' pre a1) as [[c a2]|]; [|reflexivity].
  rewrite N. reflexivity.
Qed.
Lemma cverify_same K K' z msg a : same_class K K' -> cverify K z msg a = cverify K' z msg a.
Proof.
  intros (N & _ & C & V). unfold cverify, ccheck, cprehash, cpre_validation. destruct (is_none (n_pre z)); [reflexivity|].
  unfold bind at 1. symmetry. unfold bind at 1. rewrite C. destruct (c_con K' _ a) as [[c a2]|]; [|reflexivity].
  rewrite N. unfold bind, lift, get_env. rewrite V. reflexivity.
Qed.

(** ** Inequality *)
Lemma neq_same H0 g H1 h x al be : same_class (tutorial_neq H0 g H1 h x al be) (class_of (KNeq H0 g H1 h x al be false)).
Proof.
  split; [reflexivity|]. split; [reflexivity|]. split; [|reflexivity]. intros p a.
  cbn [c_con tutorial_neq class_of construct]. unfold construct_neq, bind, lift, lift2.
  destruct (as_pt p) as [P|]; [|reflexivity]. unfold bind, ret.
  destruct (mk_dlrep _ _ _ a) as [[d1 a1]|]; [|reflexivity]. destruct (mk_dlrep _ _ _ a1) as [[d2 a2]|]; reflexivity.
Qed.
Theorem tutorial_neq_complete H0 g H1 h x al be v sd msg st :
  NoDup (map sname [x; al; be]) -> NoDup (map sid [x; al; be]) -> has_sub (grp g) = true -> grp H1 = grp g -> grp h = grp g ->
  H0 = pmul v g -> given x v sd (env st) ->
  let q := order (grp g) in let b := tape st (pos st) mod q in
  (exists z st', cprove (tutorial_neq H0 g H1 h x al be) sd msg st = Ok (z, st') /\
     forall x' al' be' stv, NoDup (map sname [x'; al'; be']) ->
     let KV := tutorial_neq H0 g H1 h x' al' be' in
     (b <> 0 -> H1 <> pmul v h -> prime q -> cverify KV z msg stv = Ok (true, stv)) /\
     (b = 0 \/ H1 = pmul v h -> cverify KV z msg stv = Err EValidation)) \/
  oversized (mk_neq H0 g H1 h x al be false false) sd st.
Proof.
  intros N1 N2 HS G1 Gh E0 GV q b.
  destruct (neq_complete H0 g H1 h x al be false v sd msg st N1 N2 HS G1 Gh E0 GV) as [(z & s' & st' & P & V)|O]; [left|right; exact O].
  exists z, st'. split.
  - rewrite (cprove_same _ _ _ _ _ (neq_same _ _ _ _ _ _ _)), (link_prove _ false VNone None). unfold mk_neq in P. now rewrite P.
  - intros x' al' be' stv N KV. destruct (V x' al' be' stv N) as [V1 V2]. unfold KV.
    rewrite (cverify_same _ _ _ _ _ (neq_same _ _ _ _ _ _ _)), (link_verify _ false VNone). unfold mk_neq in *. split.
    + intros B D PR. destruct (V1 B D PR) as [sv' ->]. reflexivity.
    + intros B. now rewrite (V2 B).
Qed.

Theorem tutorial_neq_library H0 g H1 h x al be b z sd msg a : let K := tutorial_neq H0 g H1 h x al be in let s := mk_neq H0 g H1 h x al be false b in
  cprove K sd msg a = match prove s sd msg a with Ok ((z, _), a') => Ok (z, a') | Err e => Err e end /\
  cverify K z msg a = match verify s z msg a with Ok ((r, _), a') => Ok (r, a') | Err e => Err e end.
Proof.
  intros K s. split.
  - unfold K. now rewrite (cprove_same _ _ _ _ _ (neq_same _ _ _ _ _ _ _)), (link_prove _ b VNone None).
  - unfold K. now rewrite (cverify_same _ _ _ _ _ (neq_same _ _ _ _ _ _ _)), (link_verify _ b VNone).
Qed.

Lemma link_verify_simulation k b q t h a : cverify_simulation (class_of k) t h a = verify_simulation (SExt k b q None) t h a.
Proof.
  unfold cverify_simulation, verify_simulation. cbn [get_verifier process_pre class_of c_con]. unfold full_construct, bind, lift, ret.
  destruct (construct k (t_pre t) a) as [[c a1]|]; [|reflexivity]. unfold ccheck, cprehash, check_statement, prehash_input. cbn [get_proof_id c_name].
  destruct (get_proof_id c None) as [i|]; cbn [rbind]; [|reflexivity]. destruct (encode _) as [e|]; cbn [rbind]; [|reflexivity]. destruct (val_eqb _ _); reflexivity.
Qed.
Theorem tutorial_neq_simulated H0 g H1 h x al be b ch t hh a : let K := tutorial_neq H0 g H1 h x al be in let s := mk_neq H0 g H1 h x al be false b in
  csimulate K ch a = match simulate s ch a with Ok ((t, h, _), a') => Ok ((t, h), a') | Err e => Err e end /\
  cverify_simulation K t hh a = verify_simulation s t hh a.
Proof.
  intros K s. destruct (neq_same H0 g H1 h x al be) as (N & _ & C & V). fold K in N, C, V. split.
  - unfold s, mk_neq. rewrite <- (link_simulate (KNeq H0 g H1 h x al be false) b VNone None). unfold csimulate, bind, cprehash. rewrite N.
    replace (c_sim K a) with (c_sim (class_of (KNeq H0 g H1 h x al be false)) a) by reflexivity.
    destruct (c_sim _ a) as [[pre a1]|]; [|reflexivity]. rewrite C. reflexivity.
  - unfold s, mk_neq. rewrite <- (link_verify_simulation (KNeq H0 g H1 h x al be false) b VNone). unfold cverify_simulation, bind, ccheck, cprehash. rewrite N, C.
    destruct (c_con _ (t_pre t) a) as [[c a1]|]; [|reflexivity]. unfold cverify_resp, cpre_validation, lift, get_env. rewrite V. reflexivity.
Qed.
Theorem elgamal_simulated c1 c2 g h m r ch a : csimulate (elgamal c1 c2 g h m r) ch a = Err EStatementSpec.
Proof. reflexivity. Qed.

(** an answer is judged as by the object of the other theorems *)
Lemma link_answer k b pre c e com ch r :
  cverify_resp (class_of k) e pre c com ch r = verify_resp e (SExt k b pre (Some c)) (RExt (Some (get_verifier c))) com ch r.
Proof. reflexivity. Qed.
Lemma answer_same K K' e pre c com ch r : same_class K K' -> cverify_resp K e pre c com ch r = cverify_resp K' e pre c com ch r.
Proof. intros (_ & _ & _ & V). unfold cverify_resp, cpre_validation. now rewrite V. Qed.
Lemma link_process k b q pre a c a1 : c_con (class_of k) pre a = Ok (c, a1) ->
  process_pre (SExt k b q None) (get_verifier (SExt k b q None)) pre a = Ok ((RExt (Some (get_verifier c)), SExt k b pre (Some c)), a1).
Proof. intros H. cbn [process_pre get_verifier class_of c_con] in *. unfold bind. now rewrite H. Qed.

Theorem tutorial_neq_sound H0 g H1 h x al be pre stv c stv' e com ch ch' r r' : let K := tutorial_neq H0 g H1 h x al be in
  c_con K pre stv = Ok (c, stv') ->
  let q := order (grp g) in prime q -> grp h = grp g -> g <> inf (grp g) -> coh e [al; be] -> ~ (q | ch - ch') ->
  cverify_resp K e pre c com ch r = Ok true -> cverify_resp K e pre c com ch' r' = Ok true ->
  exists w y, Extr w c ch ch' r r' /\ (q | w q (sname be) * y + w q (sname al)) /\ ~ (q | w q (sname be)) /\ H0 = pmul y g /\ H1 <> pmul y h.
Proof.
  intros K CC q PR Gh Ng CO ND A A'. assert (SM := neq_same H0 g H1 h x al be). fold K in SM.
  rewrite (answer_same _ _ _ _ _ _ _ _ SM), (link_answer _ false) in A. rewrite (answer_same _ _ _ _ _ _ _ _ SM), (link_answer _ false) in A'.
  assert (CC' := CC). rewrite (proj1 (proj2 (proj2 SM))) in CC'. assert (PP := link_process _ false VNone _ _ _ _ CC').
  destruct (neq_sound H0 g H1 h x al be false false pre stv _ _ _ e com ch ch' r r' PP PR Gh Ng) as (w & y & X & Y1 & Y2 & Y3 & Y4 & _); auto.
  - cbn [class_of c_con construct] in CC'. apply construct_neq_inv in CC' as (_ & P & _ & _ & _ & ->). cbn.
    intros s t Hs Ht. apply CO; simpl in *; tauto.
  - exists w, y. inversion X; subst. auto.
Qed.

(** ** Plaintexts *)
Lemma elgamal_same c1 c2 g h m r :
  same_class (elgamal c1 c2 g h m r) (class_of (KCustom (lit "AdditiveElgamalPlaintextProof") (elgamal_rows c1 c2 g h m r))).
Proof.
  split; [reflexivity|]. split; [reflexivity|]. split; [|reflexivity]. intros p a.
  cbn [c_con elgamal class_of construct]. unfold construct_custom, elgamal_rows. cbn [mapM fst snd]. unfold lift2, lift, bind, ret.
  change (row_expr [(r, g)]) with (emul r g). change (row_expr [(r, h); (m, g)]) with (eadd (emul r h) (emul m g)).
  destruct (mk_dlrep _ _ _ a) as [[d1 a1]|]; [|reflexivity]. destruct (mk_dlrep _ _ _ a1) as [[d2 a2]|]; reflexivity.
Qed.
Theorem elgamal_complete c1 c2 g h m r mv rv sd msg st :
  sname m <> sname r -> sid m <> sid r -> grp h = grp g -> c1 = pmul rv g -> c2 = padd (pmul rv h) (pmul mv g) ->
  given2 m r mv rv sd (env st) ->
  (exists z st', cprove (elgamal c1 c2 g h m r) sd msg st = Ok (z, st') /\
     forall m' r' stv, sname m' <> sname r' -> cverify (elgamal c1 c2 g h m' r') z msg stv = Ok (true, stv)) \/
  oversized (SExt (KCustom (lit "AdditiveElgamalPlaintextProof") (elgamal_rows c1 c2 g h m r)) false VNone None) sd st.
Proof.
  intros N I Gh E1 E2 (G1 & G2 & G3 & G4 & G5). set (k := KCustom _ _).
  set (w := fun n => if bytes_eqb n (sname m) then mv else rv).
  assert (Wm : w (sname m) = mv) by (unfold w; now rewrite (proj2 (bytes_eqb_eq _ _) eq_refl)).
  assert (Wr : w (sname r) = rv).
  { unfold w. destruct (bytes_eqb (sname r) (sname m)) eqn:B; [apply bytes_eqb_eq in B; congruence|reflexivity]. }
  assert (C1 : grp c1 = grp g) by (rewrite E1; apply grp_mul).
  assert (C2 : grp c2 = grp g) by (rewrite E2, grp_add, grp_mul; auto; now rewrite !grp_mul).
  assert (KU : kuser k = [r; r; m]) by reflexivity.
  assert (S : single w (fun _ => order (grp g)) k sd (env st)).
  { constructor; rewrite ?KU; cbn [kint k app map].
    - intros s t Hs Ht. simpl in Hs, Ht. destruct Hs as [<-|[<-|[<-|[]]]], Ht as [<-|[<-|[<-|[]]]]; split; congruence.
    - constructor.
    - intros y z [].
    - constructor. repeat constructor; cbn [fst snd map elgamal_rows lincomb]; try congruence.
      + rewrite Wr, C1, add_inf_r' by apply grp_mul. exact E1.
      + rewrite Wr, Wm, C2, (add_inf_r' (grp g)) by apply grp_mul. exact E2.
    - split; [discriminate|]. repeat constructor; cbn; congruence || discriminate.
    - repeat constructor; cbn; congruence.
    - intros x u Hx. destruct (G1 x u Hx) as [[-> ->]|[-> ->]]; split; auto; simpl; auto.
    - intros x u Hx Hu. simpl in Hx. destruct Hx as [<-|[<-|[<-|[]]]]; rewrite ?Wm, ?Wr; auto.
    - intros x Hx. simpl in Hx. destruct Hx as [<-|[<-|[<-|[]]]]; auto.
    - exact Logic.I. }
  destruct (single_complete _ _ k sd msg st S) as [(z & pre & con & st1 & st2 & st' & P & U & KP & V & _)|OV]; [left|right; exact OV].
  exists z, st'. split.
  - rewrite (cprove_same _ _ _ _ _ (elgamal_same _ _ _ _ _ _)), (link_prove _ false VNone None). fold k. now rewrite P.
  - intros m' r' stv N'. rewrite (cverify_same _ _ _ _ _ (elgamal_same _ _ _ _ _ _)), (link_verify _ false VNone).
    set (f := fun n => if bytes_eqb n (sname m) then sname m' else sname r'). set (gg := fun n => if bytes_eqb n (sname m') then sname m else sname r).
    assert (T : forall a, bytes_eqb a a = true) by (intros a; now apply bytes_eqb_eq).
    assert (D : forall a b, a <> b -> bytes_eqb a b = false) by (intros a b X; destruct (bytes_eqb a b) eqn:B; auto; apply bytes_eqb_eq in B; congruence).
    assert (Rm : ren f gg m m') by (unfold ren, f, gg; now rewrite !T).
    assert (Rr : ren f gg r r') by (unfold ren, f, gg; now rewrite !D by congruence).
    destruct (V ltac:(intros []) f gg (KCustom (lit "AdditiveElgamalPlaintextProof") (elgamal_rows c1 c2 g h m' r')) stv) as [sv' ->]; [|exact Logic.I|reflexivity].
    constructor. repeat constructor; auto; apply Rm || apply Rr.
Qed.
Lemma mk_dlrep_inv l x b a d a' : mk_dlrep l x b a = Ok (d, a') -> a' = a /\ dl_lhs d = l /\ dl_secs d = e_secs x /\ dl_bases d = e_bases x.
Proof.
  unfold mk_dlrep. destruct (e_bases x) as [|b0 bs] eqn:E; [discriminate|]. destruct (forallb _ _); [|discriminate]. intros H.
  apply bind_ok in H as (e & s1 & G & H). apply ret_ok in H as [<- <-]. unfold get_env in G. injection G as _ <-. auto.
Qed.
Theorem elgamal_sound c1 c2 g h m r pre stv c stv' e com ch ch' z z' : let K := elgamal c1 c2 g h m r in
  c_con K pre stv = Ok (c, stv') -> let q := order (grp g) in
  prime (order (grp c1)) -> prime (order (grp c2)) -> ~ (order (grp c1) | ch - ch') -> ~ (order (grp c2) | ch - ch') -> coh e [r; m] ->
  cverify_resp K e pre c com ch z = Ok true -> cverify_resp K e pre c com ch' z' = Ok true ->
  exists w, let rv := w q (sname r) in let mv := w q (sname m) in
    Extr w c ch ch' z z' /\ grp h = grp g /\ c1 = pmul rv g /\ c2 = padd (pmul rv h) (pmul mv g).
Proof.
  intros K CC q P1 P2 D1 D2 CO A A'. assert (CC' := CC).
  cbn [K elgamal c_con] in CC'. unfold lift2 in CC'.
  apply bind_ok in CC' as (x1 & s1 & X & CC'). apply bind_ok in X as (d1 & s2 & M1 & X). apply ret_ok in X as [<- <-].
  apply bind_ok in CC' as (x2 & s3 & X & CC'). apply bind_ok in X as (d2 & s4 & M2 & X). apply ret_ok in X as [<- <-].
  apply mk_dlrep_inv in M1 as (-> & L1 & S1 & B1). apply mk_dlrep_inv in M2 as (-> & L2 & S2 & B2).
  cbn [e_secs e_bases emul eadd app] in *.
  apply lift_ok in CC' as [CC' ->]. cbn in CC'. injection CC' as <-.
  destruct (custom_sound K e pre stv (SAnd [SDL d1; SDL d2] false) stv com ch ch' z z') as (_ & w & X & S); auto.
  - repeat constructor.
  - apply WFAnd. constructor; [apply WFDL; now rewrite S1, B1|]. constructor; [apply WFDL; now rewrite S2, B2|constructor].
  - cbn. rewrite S1, S2. intros s t Hs Ht. apply CO; simpl in *; tauto.
  - apply NoAnd. repeat (apply Forall_cons || apply Forall_nil || apply NoDL).
  - apply OiAnd. constructor; [apply OiDL; now rewrite L1|]. constructor; [apply OiDL; now rewrite L2|constructor].
  - exists w. inversion S as [|? ? F| |]; subst. inversion F as [|? ? T1 F1]; subst. inversion F1 as [|? ? T2 _]; subst.
    inversion T1 as [? I1 E1| | |]; subst. inversion T2 as [? I2 E2| | |]; subst. clear A A' CC. unfold dl_holds in E1, E2.
    rewrite B1 in I1. rewrite B2 in I2. apply in_group_cons in I1 as [J1 _]. apply in_group_cons in I2 as [J2 I2]. apply in_group_cons in I2 as [J3 _].
    rewrite S1, B1, <- J1 in E1. rewrite S2, B2, <- J3 in E2. cbn [map lincomb] in E1, E2. fold q in E1, E2.
    rewrite (add_inf_r' (grp g)) in E1, E2 by apply grp_mul. split; [auto|]. split; [congruence|]. auto.
Qed.
End T.

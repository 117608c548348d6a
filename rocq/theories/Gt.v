(** Inequalities and ranges in a group without subtraction (GT of bplib wrapped by AdditivePoint). *)
From Coq Require Import String.
From Verif Require Import Base World Val Expr Utils Stmt Prove Verify Spec Ident Lib Keeps Sigma Build IdProofs2.
Open Scope Z_scope.
Open Scope list_scope.

Section G.
Context {W : World}.

Lemma psub_none a b : has_sub (grp a) = false -> psub_chk a b = Err ETypeErr.
Proof. unfold psub_chk. now intros ->. Qed.
Lemma psub_none_r a b : has_sub (grp b) = false -> forall c, psub_chk a b <> Ok c.
Proof.
  intros H c E. assert (K := psub_has _ _ _ E). apply psub_chk_ok in E as [E _]. rewrite grp_neg in E. congruence.
Qed.
Lemma kpre_gt H0 g H1 h x al be bnd st : has_sub (grp h) = false -> kprecommit (KNeq H0 g H1 h x al be bnd) st = Err ETypeErr.
Proof.
  intros H. unfold kprecommit, value_of, set_value, draw, get_env, bind, ret, raise, lift. cbn [env].
  destruct (env st (sid x)); auto. cbn [env]. destruct (upd _ _ _ (sid x)); auto. rewrite psub_none; auto. now rewrite grp_mul.
Qed.
Lemma neq_gt H0 g H1 h x al be bnd sim sd msg st : has_sub (grp h) = false ->
  prove (mk_neq H0 g H1 h x al be bnd sim) sd msg st = Err ETypeErr.
Proof.
  intros H. unfold prove, get_nizk_proof, mk_neq, bind, update_secret_values, get_env, ret. cbn [get_prover fst snd].
  unfold bind, update_secret_values, get_env, ret. cbn [precommit]. unfold bind. now rewrite kpre_gt.
Qed.
Lemma range_gt com g h a b x r x1 x2 rs1 rs2 st : has_sub (grp com) = false ->
  mk_range com g h a b x r x1 x2 rs1 rs2 st = Err ETypeErr.
Proof. intros H. unfold mk_range, bind, lift. now rewrite psub_none. Qed.
Lemma bit_gt g h C r b st v : has_sub (grp g) = false -> bit_stmt g h C r b st <> Ok v.
Proof.
  intros H E. unfold bit_stmt in E. destruct v as [v st']. apply bind_ok in E as (d & s1 & _ & E). apply bind_ok in E as (C1 & s2 & E1 & _).
  apply lift_ok in E1 as [E1 _]. now apply psub_none_r in E1.
Qed.
Lemma construct_gt g h n isp x rs pre st v : has_sub (grp g) = false -> construct_range g h n isp x rs pre st <> Ok v.
Proof.
  intros H E. unfold construct_range in E. destruct v as [v st']. apply bind_ok in E as (e & s1 & _ & E). apply bind_ok in E as (bits & s2 & _ & E).
  apply bind_ok in E as (subs & s3 & E1 & E). destruct (combine rs bits) as [|p l].
  - apply ret_ok in E1 as [<- _]. discriminate E.
  - change (imapM ?f 0 (p :: l)) with (let! y := f 0%nat p in let! ys := imapM f 1 l in ret (y :: ys)) in E1.
    apply bind_ok in E1 as (y & s4 & E1 & _). apply bind_ok in E1 as (C & s5 & _ & E1). now apply bit_gt in E1.
Qed.
Lemma range2_prove_gt com g h n isp x r rs b pre con sd msg st v : has_sub (grp g) = false ->
  prove (SExt (KRange com g h n isp x r rs) b pre con) sd msg st <> Ok v.
Proof.
  intros H E. destruct v as [v st']. unfold prove in E. apply bind_ok in E as ([[p|] s0] & a & E1 & E); [|discriminate].
  cbn [get_prover] in E1. do 2 apply bind_ok in E1 as (? & ? & _ & E1). apply ret_ok in E1 as [E1 _]. injection E1 as <- <-.
  apply bind_ok in E as (z & s1 & E1 & _). unfold get_nizk_proof in E1. apply bind_ok in E1 as (q & s2 & E1 & _). cbn [precommit] in E1.
  apply bind_ok in E1 as (? & ? & _ & E1). apply bind_ok in E1 as (c & s3 & E1 & _). now apply construct_gt in E1.
Qed.
Lemma range2_verify_gt com g h n isp x r rs b pre con z msg st v : has_sub (grp g) = false ->
  verify (SExt (KRange com g h n isp x r rs) b pre con) z msg st <> Ok v.
Proof.
  intros H E. destruct v as [[v s1] st']. apply verify_inv in E as (w & h0 & c & i & E1 & _ & _ & E2 & _).
  unfold processed in E1. destruct (is_none _).
  - apply ret_ok in E1 as [E1 _]. injection E1 as <- <-. unfold pre_validation in E2. apply rbind_ok in E2 as (? & _ & E2).
    cbn [get_verifier] in E2. destruct con; discriminate E2.
  - cbn [get_verifier process_pre] in E1. apply bind_ok in E1 as (c0 & s3 & E1 & _). now apply construct_gt in E1.
Qed.
End G.

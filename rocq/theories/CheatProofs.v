(** A false statement is accepted for at most one challenge. *)
From Coq Require Import String Znumtheory.
From Verif Require Import Base World Val Expr Utils Stmt Prove Verify Spec Shapes Claims Extract Honest Lib Tree Sound Sound2 Sound3 Sound4 Cheat.
Open Scope Z_scope.
Open Scope list_scope.

Section C.
Context {W : World}.

Lemma examine_inv s v h com f a a' : examine s v h com f a = Ok (true, a') ->
  verify_resp (env a) s v com (next_challenge a) (f (next_challenge a)) = Ok true.
Proof.
  unfold examine. intros H. apply bind_ok in H as (c & a1 & H1 & H). apply bind_ok in H as (e & a2 & H2 & H).
  assert (E : c = next_challenge a /\ env a1 = env a).
  { unfold send_challenge in H1. apply bind_ok in H1 as (b & a3 & H3 & H1). apply lift_ok in H3 as [_ ->].
    assert (G : get_random_num challenge_length a = Ok (c, a1) -> c = next_challenge a /\ env a1 = env a).
    { unfold get_random_num, draw, next_challenge. intros X. injection X as <- <-. auto. }
    destruct v as [| | |[[]|]]; auto; discriminate H1. }
  destruct E as [-> E]. injection H2 as <- <-. apply lift_ok in H as [H _]. now rewrite E in H.
Qed.
Lemma orders_impl (P Q : Z -> Prop) s : (forall q, P q -> Q q) -> orders_in P s -> orders_in Q s.
Proof.
  intros I. induction s as [d|subs b IH|subs b ch IH|k b q|k b q con IH] using stmt_ind'; intros H; inversion H; subst; constructor; auto.
  - rewrite Forall_forall in *. auto.
  - rewrite Forall_forall in *. auto.
Qed.
Lemma next_range a : 0 <= next_challenge a < 2 ^ 128.
Proof. apply Z.mod_pos_bound. reflexivity. Qed.
Lemma small_div q c c' : 2 ^ 128 <= q -> 0 <= c < 2 ^ 128 -> 0 <= c' < 2 ^ 128 -> (q | c - c') -> c = c'.
Proof. intros Q C C' [k K]. assert (k = 0) by nia. subst k. lia. Qed.

Lemma one_challenge s0 pre st v s st1 : process_pre s0 (get_verifier s0) pre st = Ok ((v, s), st1) -> wfs s0 -> noor s ->
  orders_in (fun q => prime q /\ 2 ^ 128 <= q) s -> (forall w, ~ Sat w s) ->
  forall h h' com f f' a a' b b', env a = env a' -> coh (env a) (svars s) ->
  examine s v h com f a = Ok (true, b) -> examine s v h' com f' a' = Ok (true, b') -> next_challenge a = next_challenge a'.
Proof.
  intros P Wf N O F h h' com f f' a a' b b' E C H H'. apply examine_inv in H. apply examine_inv in H'. rewrite <- E in H'.
  destruct (Z.eq_dec (next_challenge a) (next_challenge a')) as [D|D]; auto. exfalso.
  destruct (soundness s0 pre st v s st1 (env a) com (next_challenge a) (next_challenge a')
    (f (next_challenge a)) (f' (next_challenge a')) P Wf C N) as (w & _ & S); auto.
  - eapply orders_impl; [|exact O]. intros q [Q1 Q2]. split; auto. intros X. apply D.
    apply (small_div q); auto using next_range.
  - eapply F; eauto.
Qed.
Lemma congruent_challenges s0 pre st v s st1 q : process_pre s0 (get_verifier s0) pre st = Ok ((v, s), st1) -> wfs s0 -> noor s ->
  prime q -> orders_in (eq q) s -> (forall w, ~ Sat w s) ->
  forall h h' com f f' a a' b b', env a = env a' -> coh (env a) (svars s) ->
  examine s v h com f a = Ok (true, b) -> examine s v h' com f' a' = Ok (true, b') -> (q | next_challenge a - next_challenge a').
Proof.
  intros P Wf N Q O F h h' com f f' a a' b b' E C H H'. apply examine_inv in H. apply examine_inv in H'. rewrite <- E in H'.
  destruct (Zdivide_dec q (next_challenge a - next_challenge a')) as [D|D]; auto. exfalso.
  destruct (soundness_one s0 pre st v s st1 (env a) com (next_challenge a) (next_challenge a')
    (f (next_challenge a)) (f' (next_challenge a')) q P Wf C N Q D O H H') as (w & _ & S). eapply F; eauto.
Qed.
Lemma one_challenge_or s0 pre st v s st1 : process_pre s0 (get_verifier s0) pre st = Ok ((v, s), st1) -> wfs s0 ->
  orders_in (fun q => prime q /\ 2 ^ 129 <= q) s -> (forall w, ~ Sat w s) ->
  forall h h' com f f' a a' b b', env a = env a' -> coh (env a) (svars s) ->
  (forall c, canonical s (f c)) -> (forall c, canonical s (f' c)) ->
  examine s v h com f a = Ok (true, b) -> examine s v h' com f' a' = Ok (true, b') -> next_challenge a = next_challenge a'.
Proof.
  intros P Wf O F h h' com f f' a a' b b' E C K K' H H'. apply examine_inv in H. apply examine_inv in H'. rewrite <- E in H'.
  destruct (Z.eq_dec (next_challenge a) (next_challenge a')) as [D|D]; auto. exfalso.
  destruct (or_soundness s0 pre st v s st1 (env a) com (next_challenge a) (next_challenge a')
    (f (next_challenge a)) (f' (next_challenge a')) P Wf C) as (w & _ & S); auto.
  - eapply orders_impl; [|exact O]. intros q [Q1 Q2]. split; auto. split; auto. intros X. apply D.
    apply (small_div q); auto using next_range. lia.
  - intros X. apply D. apply (small_div (2 ^ 128)); auto using next_range. lia.
  - eapply F; eauto.
Qed.
Lemma one_challenge_neq H0 g H1 h x al be bnd sim pre st v s st1 :
  let s0 := mk_neq H0 g H1 h x al be bnd sim in let q := order (grp g) in
  process_pre s0 (get_verifier s0) pre st = Ok ((v, s), st1) -> prime q -> 2 ^ 128 <= q -> grp h = grp g -> g <> inf (grp g) ->
  (forall y, H0 = pmul y g -> H1 = pmul y h) ->
  forall k k' com f f' a a' b b', env a = env a' -> coh (env a) (svars s) ->
  examine s v k com f a = Ok (true, b) -> examine s v k' com f' a' = Ok (true, b') -> next_challenge a = next_challenge a'.
Proof.
  intros s0 q P Q QB G GI F k k' com f f' a a' b b' E C H H'. apply examine_inv in H. apply examine_inv in H'. rewrite <- E in H'.
  destruct (Z.eq_dec (next_challenge a) (next_challenge a')) as [D|D]; auto. exfalso.
  destruct (neq_sound H0 g H1 h x al be bnd sim pre st v s st1 (env a) com (next_challenge a) (next_challenge a')
    (f (next_challenge a)) (f' (next_challenge a')) P Q G GI C) as (w & y & _ & _ & _ & Y & N & _); auto.
  intros X. apply D. apply (small_div q); auto using next_range.
Qed.
End C.

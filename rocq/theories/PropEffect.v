(** Property C68: what proving and verifying do to Secret objects. *)
From Coq Require Import String.
From Verif Require Import Base World Val Expr Utils Stmt Prove Verify Spec Shapes Extract Runs EffectProofs ZqWorld Ex ExTree.
Open Scope Z_scope.
Open Scope list_scope.

(** C68: verify() changes no Secret object and takes no random number, whatever the statement and the proof are. *)
Theorem C68_verify_pure : forall (W : World) s z msg st b s' st', verify s z msg st = Ok ((b, s'), st') -> st' = st.
Proof. exact @verify_effects. Qed.
Print Assumptions C68_verify_pure.

(** A successful prove() changes no Secret objects but the given ones and the auxiliary ones of its primitives; and unless
    the statement is a single representation, the given ones have the given values afterwards. *)
Theorem C68_prove_effects : forall (W : World) s sd msg st z s' st',
  (forall x v x' v', In (x, v) sd -> In (x', v') sd -> sname x = sname x' \/ sid x = sid x' -> v = v') ->
  prove s sd msg st = Ok ((z, s'), st') ->
  (forall i, (forall x v, In (x, v) sd -> sid x <> i) -> (forall x, In x (kints s) -> sid x <> i) -> env st' i = env st i) /\
  (forall x v, In (x, v) sd -> (forall y, In y (kints s) -> sid y <> sid x) -> ~ is_dl s -> env st' (sid x) = Some v).
Proof. exact @prove_effects. Qed.
Print Assumptions C68_prove_effects.

(** A single representation leaves also the given ones as they are. *)
Theorem C68_representation_effects : forall (W : World) d sd msg st z s' st',
  prove (SDL d) sd msg st = Ok ((z, s'), st') -> env st' = env st.
Proof. exact @dl_effects. Qed.
Print Assumptions C68_representation_effects.

Definition oeqb (a b : option Z) : bool := match a, b with Some x, Some y => x =? y | None, None => true | _, _ => false end.
(** v had the value 9 before; another Secret object (number 50) has the value 8; z has none. *)
Definition exBefore := with_vals [(4%nat, 9); (50%nat, 8)].
Example C68_ex :
  (forall x v x' v', In (x, v) exsd -> In (x', v') exsd -> sname x = sname x' \/ sid x = sid x' -> v = v') /\
  match prove exS exsd (lit "msg") exBefore with
  | Ok ((z, _), a) =>
      oeqb (env a 4%nat) (Some 5) && oeqb (env a 0%nat) (Some 4) && oeqb (env a 50%nat) (Some 8) && oeqb (env a 2%nat) None &&
      negb (oeqb (env a (sid sr0)) None) &&
      match verify exV z (lit "msg") exBefore with
      | Ok ((b, _), a') => b && Nat.eqb (pos a') 0 && oeqb (env a' 4%nat) (Some 9) | Err _ => false end
  | Err _ => false end = true.
Proof.
  split; [|vm_compute; reflexivity].
  assert (G : forall l, forallb (fun a => forallb (fun b : secret * Z => negb (bytes_eqb (sname (fst a)) (sname (fst b)) ||
      Nat.eqb (sid (fst a)) (sid (fst b))) || (snd a =? snd b)) l) l = true ->
    forall x v x' v', In (x, v) l -> In (x', v') l -> sname x = sname x' \/ sid x = sid x' -> v = v').
  { intros l H x v x' v' I I' E. rewrite forallb_forall in H. specialize (H _ I). rewrite forallb_forall in H. specialize (H _ I').
    cbn [fst snd] in H. apply orb_true_iff in H as [H|H]; [|now apply Z.eqb_eq].
    apply negb_true_iff, orb_false_iff in H as [H1 H2]. destruct E as [E|E].
    - apply bytes_eqb_eq in E. congruence.
    - apply Nat.eqb_eq in E. congruence. }
  apply G. vm_compute. reflexivity.
Qed.
Example C68_ex_rep :
  match prove exDL [(sx, 4); (sy, -6)] (lit "msg") (with_vals [(0%nat, 9)]) with
  | Ok ((z, _), a) => oeqb (env a 0%nat) (Some 9) && oeqb (env a 1%nat) None | Err _ => false end = true.
Proof. vm_compute. reflexivity. Qed.

(** Property C69: one verifier object for several proofs. *)
From Coq Require Import String.
From Verif Require Import Base World Val Expr Utils Stmt Prove Verify Spec Shapes Claims Honest Session SessionProofs ZqWorld Ex ExTree ExSession.
Open Scope Z_scope.
Open Scope list_scope.

(** C69, partial: only for proofs whose precommitment reaches all primitives. Whatever a verifier object has been used for before
    (accepted, rejected and refused proofs), it gives the same verdict or raises the same exception as a new one. *)
Theorem C69_reused_partial : forall (W : World) s s' v' z msg a,
  session s (get_verifier s) s' v' -> reaches s (n_pre z) -> is_none (n_pre z) = false \/ noext s ->
  match verify_again s' v' z msg a with Ok ((b, _, x), a1) => Ok ((b, x), a1) | Err e => Err e end = verify s z msg a.
Proof. exact @reused_verifier. Qed.
Print Assumptions C69_reused_partial.


(** In particular honest proofs are accepted, whatever the verifier object has been used for before. *)
Theorem C69_honest_accepted : forall (W : World) U w s sd msg st z s' st',
  honest U w s sd (env st) -> prove s sd msg st = Ok ((z, s'), st') -> nonneutral s' ->
  forall f g sv stv sv1 v1, Pat f g s sv -> Forall (vkOK (env stv)) (kinds sv) -> session sv (get_verifier sv) sv1 v1 ->
  exists v2 sv2, verify_again sv1 v1 z msg stv = Ok ((true, v2, sv2), stv).
Proof. exact @honest_reused. Qed.
Print Assumptions C69_honest_accepted.

(** C69 is false for proofs without precommitment: a verifier object that has verified one proof can accept another one, with
    the precommitment None, that a new verifier refuses. *)
Theorem C69_none_refuted : exists (W : World) (s : @stmt W) z1 z2 msg a v1 s1 a1 v2 s2 a2,
  verify_again s (get_verifier s) z1 msg a = Ok ((true, v1, s1), a1) /\
  verify_again s1 v1 z2 msg a1 = Ok ((true, v2, s2), a2) /\ verify s z2 msg a1 = Err EValueErr.
Proof. exact (ex_intro _ Zq stale_none). Qed.
Print Assumptions C69_none_refuted.

(** A verifier object that has accepted a proof, rejected one and refused a third one. *)
Definition exUsed (z : nizk) : bool :=
  match verify_again exV (get_verifier exV) z (lit "msg") st0 with
  | Ok ((b1, v1, s1), a1) =>
    match verify_again s1 v1 (mkNizk (n_chal z) (n_resp z) (n_pre z) (n_hash z)) (lit "other") a1 with
    | Ok ((b2, v2, s2), a2) =>
      match verify_again s2 v2 (mkNizk 5 (n_resp z) VNone VNone) (lit "msg") a2, verify_again s2 v2 z (lit "msg") a2 with
      | Err EStatementMismatch, Ok ((b3, _, _), _) => b1 && negb b2 && b3
      | _, _ => false end
    | Err _ => false end
  | Err _ => false end.
Example C69_ex : match prove exS exsd (lit "msg") st0 with Ok ((z, _), _) => exUsed z | Err _ => false end = true.
Proof. vm_compute. reflexivity. Qed.
Example C69_ex_reaches : reaches exV (VList [VNone; VList [VNone; VPt (Pt 9)]; VList [VPt (Pt 1); VPt (Pt 2); VPt (Pt 3)]]).
Proof.
  apply ReAnd; [reflexivity|]. intros [|[|[|i]]] x p Hx Hp; cbn in Hx, Hp; try discriminate.
  - injection Hx as <-. apply ReNone. constructor.
  - injection Hx as <-. injection Hp as <-. apply ReOr; [reflexivity|]. intros [|[|i]] x p Hx Hp; cbn in Hx, Hp; try discriminate.
    + injection Hx as <-. apply ReNone. constructor.
    + injection Hx as <-. apply ReExt.
    + destruct i; discriminate.
  - injection Hx as <-. apply ReExt.
  - destruct i; discriminate.
Qed.
Example C69_ex_honest : honest exU exw exS exsd (env st0) /\ Pat tick untick exS exV /\ Forall (vkOK (env st0)) (kinds exV).
Proof. exact (conj exS_honest (conj exV_pat (exV_vals (env st0)))). Qed.

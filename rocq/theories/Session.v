(** One verifier object used for several proofs: stmt.get_verifier() once, then several calls of verify_nizk() or
    process_precommitment() on that object. *)
From Coq Require Import String.
From Verif Require Import Base World Val Expr Utils Stmt Prove Verify Shapes.
Open Scope Z_scope.
Open Scope list_scope.

Section S.
Context {W : World}.

(** Verifier.verify_nizk with the verifier object afterwards (its [constructed_verifier] parts are replaced by
    process_precommitment): base.py:233-263. *)
Definition verify_again (s : stmt) (v : verifier) (z : nizk) (msg : bytes) : M (bool * verifier * stmt) :=
  let! (v, s) := (if is_none (n_pre z) then ret (v, s) else process_pre s v (n_pre z)) in
  let! h := lift (check_statement s (n_hash z)) in
  let! e := get_env in
  let! _ := lift (pre_validation e s v (n_resp z)) in
  let! com := lift (recompute s (n_chal z) (n_resp z)) in
  let! c := lift (fs_challenge h [n_pre z; com] msg) in
  ret (n_chal z =? c, v, s).

(** Everything but what is stored in the parts with precommitments. *)
Fixpoint bare (s : stmt) : stmt :=
  match s with
  | SDL d => SDL d
  | SAnd subs b => SAnd (map bare subs) b
  | SOr subs b ch => SOr (map bare subs) b ch
  | SExt k b _ _ => SExt k b VNone None
  end.
Fixpoint vbare (v : verifier) : verifier :=
  match v with
  | RDL => RDL
  | RAnd l => RAnd (map vbare l)
  | ROr l => ROr (map vbare l)
  | RExt _ => RExt None
  end.

(** A life of the verifier object [v] of the statement object [s]. A call that raises an exception can leave anything in the
    parts with precommitments. *)
Inductive session : stmt -> verifier -> stmt -> verifier -> Prop :=
| SeStart s v : session s v s v
| SeVerify s v z msg a b v1 s1 a1 s2 v2 : verify_again s v z msg a = Ok ((b, v1, s1), a1) -> session s1 v1 s2 v2 -> session s v s2 v2
| SeProcess s v pre a v1 s1 a1 s2 v2 : process_pre s v pre a = Ok ((v1, s1), a1) -> session s1 v1 s2 v2 -> session s v s2 v2
| SeRaised s v s1 v1 s2 v2 : bare s1 = bare s -> vbare v1 = vbare v -> session s1 v1 s2 v2 -> session s v s2 v2.

(** The precommitment reaches every primitive of the statement: None stands only where there is none. *)
Inductive reaches : stmt -> val -> Prop :=
| ReNone s pre : noext s -> reaches s pre
| ReAnd subs b pre : is_none pre = false -> (forall i x p, nth_error subs i = Some x -> index pre i = Ok p -> reaches x p) -> reaches (SAnd subs b) pre
| ReOr subs b ch pre : is_none pre = false -> (forall i x p, nth_error subs i = Some x -> index pre i = Ok p -> reaches x p) -> reaches (SOr subs b ch) pre
| ReExt k b q con pre : reaches (SExt k b q con) pre.
End S.

(** Primitives defined by users of the library (docs/new_primitives.rst): subclasses of ExtendedProofStmt with methods of
    their own. Here such an object is used on its own, not as a part of a composition. *)
From Coq Require Import String.
From Verif Require Import Base World Val Expr Utils Stmt Prove Verify.
Open Scope Z_scope.
Open Scope list_scope.

Section C.
Context {W : World}.

(** The methods that extended.py:39-80 allows to override, of one object: the attributes of the object are what the functions
    close over. [c_pre] may draw random numbers and set values of Secret objects. *)
Record cls := mkCls {
  c_name : bytes;              (* __class__.__name__ *)
  c_pre : M val;               (* precommit *)
  c_con : val -> M stmt;       (* construct_stmt *)
  c_sim : M val;               (* simulate_precommit *)
  c_val : val -> res unit      (* validate *)
}.
(** The primitives of the library as such objects. *)
Definition class_of (k : kind) : cls :=
  mkCls (class_name k) (kprecommit k) (construct k) (ksim_precommit k) (kvalidate k).

(** The loop extended.py:197-201: precommit() of the inner provers, the results are dropped. Only an AndProver has the
    attribute subs; an AttributeError ends the loop.
    Simplification: an inner precommit() that raises has changed nothing. *)
Fixpoint inner_loop (subs : list stmt) (ps : list prover) (a : st) : res (list prover * list stmt * st) :=
  match subs, ps with
  | x :: subs, p :: ps =>
      match precommit x p a with
      | Ok ((_, p', x'), a) =>
          match inner_loop subs ps a with
          | Ok (ps', subs', a) => Ok (p' :: ps', x' :: subs', a)
          | Err e => Err e
          end
      | Err EAttributeErr => Ok (p :: ps, x :: subs, a)
      | Err e => Err e
      end
  | _, _ => Ok (ps, subs, a)
  end.
Definition inner_precommit (c : stmt) (q : option prover) : M (option prover * stmt) :=
  match c, q with
  | SAnd subs b, Some (PAnd ps) =>
      fun a => match inner_loop subs ps a with
               | Ok (ps', subs', a) => Ok ((Some (PAnd ps'), SAnd subs' b), a)
               | Err e => Err e
               end
  | _, _ => ret (q, c)
  end.

(** get_prover() and precommit(): extended.py:99-115, 194-211. Result: the precommitment, the constructed prover and the
    constructed statement. *)
Definition copen (K : cls) (sd : dict Z) : M (val * option prover * stmt) :=
  update_secret_values sd ;;
  let! e := get_env in
  let sv := dupdate e [] sd in
  let! pre := c_pre K in
  let! c := c_con K pre in
  let! r := get_prover c sv in
  let! r := inner_precommit (snd r) (fst r) in
  ret (pre, fst r, snd r).
(** internal_commit: extended.py:172-183 *)
Definition ccommit (c : stmt) (q : option prover) : M (val * prover) :=
  match q with Some q => internal_commit c q None | None => raise EAttributeErr end.
(** get_proof_id and prehash_statement: extended.py:123-135, composition.py:270-274 *)
Definition cprehash (K : cls) (pre : val) (c : stmt) : res bytes :=
  let? i := get_proof_id c None in encode (VStr (pystr (VList [VStr (c_name K); pre; i]))).
(** prove(): composition.py:191-198, base.py:135-166 *)
Definition cprove (K : cls) (sd : dict Z) (msg : bytes) : M nizk :=
  let! (pre, q, c) := copen K sd in
  let! (com, p) := ccommit c q in
  let! h := lift (cprehash K pre c) in
  let! ch := lift (fs_challenge h [pre; com] msg) in
  let! r := compute_response c p ch in
  ret (mkNizk ch r pre (VBytes (sha256 h))).

(** check_statement: composition.py:207-216 *)
Definition ccheck (K : cls) (pre : val) (c : stmt) (h : val) : res bytes :=
  let? b := cprehash K pre c in
  if val_eqb h (VBytes (sha256 b)) then Ok b else Err EStatementMismatch.
(** pre_verification_validation: base.py:206-210 with extended.py:82-83, 239-245 *)
Definition cpre_validation (K : cls) (e : nat -> option Z) (pre : val) (c : stmt) (r : val) : res unit :=
  let? _ := c_val K pre in
  let? o := consistent e c (get_verifier c) r [] in
  match o with Some _ => Ok tt | None => Err EValidation end.
(** verify() of a response: base.py:212-231 *)
Definition cverify_resp (K : cls) (e : nat -> option Z) (pre : val) (c : stmt) (com : val) (ch : Z) (r : val) : res bool :=
  let? _ := cpre_validation K e pre c r in
  let? x := recompute c ch r in Ok (val_eqb com x).
(** verify() of a proof: composition.py:200-205, base.py:233-263, on an object not used before; without a precommitment there
    is no constructed statement (extended.py:133) *)
Definition cverify (K : cls) (z : nizk) (msg : bytes) : M bool :=
  if is_none (n_pre z) then raise EValueErr else
  let! c := c_con K (n_pre z) in
  let! h := lift (ccheck K (n_pre z) c (n_hash z)) in
  let! e := get_env in
  let! _ := lift (cpre_validation K e (n_pre z) c (n_resp z)) in
  let! com := lift (recompute c (n_chal z) (n_resp z)) in
  let! ch := lift (fs_challenge h [n_pre z; com] msg) in
  ret (n_chal z =? ch).

(** simulate(): composition.py:300-308, extended.py:142-158 *)
Definition csimulate (K : cls) (ch : option Z) : M (sim * val) :=
  let! pre := c_sim K in
  let! c := c_con K pre in
  let! t := simulate_proof c None ch in
  let! b := lift (cprehash K pre c) in
  ret (mkSim (t_com t) (t_chal t) (t_resp t) pre, VBytes (sha256 b)).
(** verify_simulation_consistency: composition.py:310-328 *)
Definition cverify_simulation (K : cls) (t : sim) (h : val) : M bool :=
  let! c := c_con K (t_pre t) in
  let! _ := lift (ccheck K (t_pre t) c h) in
  let! e := get_env in
  lift (cverify_resp K e (t_pre t) c (t_com t) (t_chal t) (t_resp t)).

(** ** Specification *)

(** somewhere in the statement there is a primitive whose statement is not constructed *)
Inductive unbuilt : stmt -> Prop :=
| UbExt k b pre : unbuilt (SExt k b pre None)
| UbIn k b pre c : unbuilt c -> unbuilt (SExt k b pre (Some c))
| UbAnd subs b x : In x subs -> unbuilt x -> unbuilt (SAnd subs b)
| UbOr subs b ch x : In x subs -> unbuilt x -> unbuilt (SOr subs b ch).
End C.

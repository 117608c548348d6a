(** Conjunctions with primitives defined by users of the library: AndProofStmt(...) or & whose parts are objects of such classes
    (Custom.v) and other statements. *)
From Coq Require Import String.
From Verif Require Import Base World Val Expr Utils Stmt Prove Verify Spec Shapes Honest Supply Custom.
Open Scope Z_scope.
Open Scope list_scope.

Section M.
Context {W : World}.

(** A part: an object of a class of a user, not used before, or a statement of the other theorems. *)
Inductive upart := UK (K : cls) | US (s : stmt).

(** An object of a user's class among statements. The functions of Stmt.v, Prove.v and Verify.v look only at the name of the class
    (get_proof_id) and, of a constructed object, at the precommitment and the constructed statement; exceptions are precommit,
    process_precommitment, simulation and full_validate, for which there are functions below. Hence the stand-in [KCustom]. *)
Definition obj_of (K : cls) (pre : val) (c : option stmt) : stmt := SExt (KCustom (c_name K) []) false pre c.
Definition shell (u : upart) : stmt := match u with UK K => obj_of K VNone None | US s => s end.

(** get_prover(): composition.py:738-754, extended.py:99-115, the same for all classes *)
Definition uget (l : list upart) (sd : dict Z) : M (option prover * stmt) := get_prover (SAnd (map shell l) false) sd.

(** precommit(): of an AndProver composition.py:847-865, of an ExtendedProver extended.py:194-211. Result for each part: the
    precommitment, the prover and the statement. *)
Definition upre1 (u : upart) (s : stmt) (p : prover) : M (val * prover * stmt) :=
  match u, p with
  | UK K, PExt sv _ =>
      let! pre := c_pre K in
      let! c := c_con K pre in
      let! r := get_prover c sv in
      let! r := inner_precommit (snd r) (fst r) in
      ret (pre, PExt sv (Some (fst r)), obj_of K pre (Some (snd r)))
  | UK _, _ => raise ETypeErr
  | US _, _ => precommit s p
  end.
Fixpoint upre (l : list upart) (subs : list stmt) (ps : list prover) : M (list (val * prover * stmt)) :=
  match l, subs, ps with
  | u :: l, s :: subs, p :: ps => let! r := upre1 u s p in let! rs := upre l subs ps in ret (r :: rs)
  | _, _, _ => ret []
  end.
Definition pre_list (pres : list val) : val := if forallb is_none pres then VNone else VList pres.
(** get_prover() and precommit() of the conjunction *)
Definition uopen (l : list upart) (sd : dict Z) : M (val * prover * stmt) :=
  let! r := uget l sd in
  match r with
  | (Some (PAnd ps), SAnd subs b) =>
      let! t := upre l subs ps in
      ret (pre_list (map (fun r => fst (fst r)) t), PAnd (map (fun r => snd (fst r)) t), SAnd (map snd t) b)
  | _ => raise EAttributeErr
  end.
(** prove(): composition.py:191-198, base.py:135-166 *)
Definition uprove (l : list upart) (sd : dict Z) (msg : bytes) : M nizk :=
  let! (pre, p, s) := uopen l sd in
  let! (com, p) := internal_commit s p None in
  let! h := lift (prehash_input s) in
  let! ch := lift (fs_challenge h [pre; com] msg) in
  let! r := compute_response s p ch in
  ret (mkNizk ch r pre (VBytes (sha256 h))).

(** process_precommitment: composition.py:940-947, extended.py:219-225 *)
Definition uproc1 (u : upart) (pre : val) : M (verifier * stmt) :=
  match u with
  | UK K => let! c := c_con K pre in ret (RExt (Some (get_verifier c)), obj_of K pre (Some c))
  | US s => process_pre s (get_verifier s) pre
  end.
Fixpoint uproc (i : nat) (l : list upart) (pre : val) : M (list (verifier * stmt)) :=
  match l with
  | [] => ret []
  | u :: l => let! p := lift (index pre i) in
              let! r := uproc1 u p in let! rs := uproc (S i) l pre in ret (r :: rs)
  end.
Definition uprocess (l : list upart) (pre : val) : M (verifier * stmt) :=
  if is_none pre then ret (get_verifier (SAnd (map shell l) false), SAnd (map shell l) false) else
  let! t := uproc 0 l pre in ret (RAnd (map fst t), SAnd (map snd t) false).
(** full_validate: composition.py:393-395, extended.py:82-83 *)
Definition uvalid1 (us : upart * stmt) : res unit :=
  match us with
  | (UK K, SExt _ _ pre _) => c_val K pre
  | (_, s) => full_validate s
  end.
Definition uvalidate (l : list upart) (s : stmt) : res unit :=
  match s with
  | SAnd subs _ => let? _ := rmap uvalid1 (combine l subs) in Ok tt
  | _ => full_validate s
  end.
(** pre_verification_validation: base.py:206-210 *)
Definition upre_validation (e : nat -> option Z) (l : list upart) (s : stmt) (v : verifier) (r : val) : res unit :=
  let? _ := uvalidate l s in
  let? o := consistent e s v r [] in
  match o with Some _ => Ok tt | None => Err EValidation end.
(** verify() of a response: base.py:212-231 *)
Definition uverify_resp (e : nat -> option Z) (l : list upart) (s : stmt) (v : verifier) (com : val) (ch : Z) (r : val) : res bool :=
  let? _ := upre_validation e l s v r in
  let? x := recompute s ch r in Ok (val_eqb com x).
(** verify() of a proof: composition.py:200-205, base.py:233-263 *)
Definition uverify (l : list upart) (z : nizk) (msg : bytes) : M bool :=
  let! (v, s) := uprocess l (n_pre z) in
  let! h := lift (check_statement s (n_hash z)) in
  let! e := get_env in
  let! _ := lift (upre_validation e l s v (n_resp z)) in
  let! com := lift (recompute s (n_chal z) (n_resp z)) in
  let! ch := lift (fs_challenge h [n_pre z; com] msg) in
  ret (n_chal z =? ch).

(** ** Specification *)

(** The run of precommit(), part after part, from the state [a]: the precommitments [pres] that the methods of the classes return, and
    the statements [cs] that are proven, one for each part; every constructed statement satisfies [hon]. *)
Fixpoint sincere (hon : stmt -> dict Z -> (nat -> option Z) -> Prop) (l : list upart) (ps : list prover) (a : st)
    (pres : list val) (cs : list stmt) : Prop :=
  match l, ps, cs with
  | [], [], [] => pres = []
  | US s :: l, _ :: ps, c :: cs => c = s /\ sincere hon l ps a pres cs
  | UK K :: l, PExt sv _ :: ps, c :: cs =>
      exists pre rest a1 a2, pres = pre :: rest /\ c_pre K a = Ok (pre, a1) /\ c_con K pre a1 = Ok (c, a2) /\ hon c sv (env a2) /\
      forall r a3, get_prover c sv a2 = Ok (r, a3) -> sincere hon l ps a3 rest cs
  | _, _, _ => False
  end.
(** The verifier's objects: classes of the same names whose construct_stmt makes statements [cvs] of the precommitments, one after
    the other from the state [a], ending in [a']; validate raises nothing. *)
Fixpoint receives (l lv : list upart) (pres : list val) (cvs : list stmt) (a a' : st) : Prop :=
  match l, lv, cvs with
  | [], [], [] => a' = a
  | US _ :: l, US s :: lv, c :: cvs => c = s /\ receives l lv pres cvs a a'
  | UK K :: l, UK KV :: lv, c :: cvs =>
      exists pre rest a1, pres = pre :: rest /\ c_name KV = c_name K /\ c_val KV pre = Ok tt /\ c_con KV pre a = Ok (c, a1) /\
      receives l lv rest cvs a1 a'
  | _, _, _ => False
  end.
(** A statement without primitives that holds for the values [w] of the secrets [U], which are in [sv], in its objects or in the
    secrets themselves. *)
Definition hon (U : list secret) (w : bytes -> Z) (c : stmt) (sv : dict Z) (e : nat -> option Z) : Prop :=
  noext c /\ honest U w c sv e /\ Shape c /\ Supplied sv w e c.
(** The library's object for a part. *)
Inductive libpart : upart -> stmt -> Prop :=
| LpK k b : libpart (UK (class_of k)) (SExt k b VNone None)
| LpS s : libpart (US s) s.
(** A part without precommitment: an object whose precommit() returns None, or a representation. *)
Definition silent (u : upart) : Prop :=
  match u with UK K => forall a x a', c_pre K a = Ok (x, a') -> x = VNone | US s => exists d, s = SDL d end.
(** In the run of prove() a part is too large for the binary format. *)
Definition uoversized (l : list upart) (sd : dict Z) (a : st) : Prop :=
  exists pre p s a1 com p2 a2 i, uopen l sd a = Ok ((pre, p, s), a1) /\ internal_commit s p None a1 = Ok ((com, p2), a2) /\
    get_proof_id s None = Ok i /\ (Big (VStr (pystr i)) \/ Big pre \/ Big com).
End M.

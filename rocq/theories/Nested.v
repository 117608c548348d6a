(** Primitives defined by users of the library anywhere in nested conjunctions and disjunctions (Mixed.v and MixedOr.v are compositions
    of one level). *)
From Coq Require Import String.
From Verif Require Import Base World Val Expr Utils Stmt Prove Verify Spec Shapes Honest Supply Extract Custom Mixed MixedOr.
Open Scope Z_scope.
Open Scope list_scope.

Section N.
Context {W : World}.

(** A composition: an object of a class of a user with its mark [simulated], a statement of the other theorems, a conjunction or a
    disjunction with its mark. The objects have not been used before. *)
Inductive mtree := TK (K : cls) (b : bool) | TS (s : stmt) | TA (l : list mtree) (b : bool) | TO (l : list mtree) (b : bool).

(** The object as a statement of the main model, with the stand-ins of Mixed.v *)
Fixpoint tshell (t : mtree) : stmt :=
  match t with
  | TK K b => set_simulated b (obj_of K VNone None)
  | TS s => s
  | TA l b => SAnd (map tshell l) b
  | TO l b => SOr (map tshell l) b None
  end.

(** prepare_simulate_proof(): composition.py:294-298, 519-521, 778-780, extended.py:142-144; [s]: the object as it is now *)
Fixpoint tprep (t : mtree) (s : stmt) : M stmt :=
  match t, s with
  | TK K _, SExt _ b _ _ => let! pre := c_sim K in let! c := c_con K pre in ret (set_simulated b (obj_of K pre (Some c)))
  | TS _, _ => prepare_sim s
  | TA l _, SAnd subs b => let! r := zipM tprep l subs in ret (SAnd r b)
  | TO l _, SOr subs b ch => let! r := zipM tprep l subs in ret (SOr r b ch)
  | _, _ => raise ETypeErr
  end.
(** composition.py:577-586 setup_simulations; [i]: index of the first part of [l], [idx]: the chosen one *)
Fixpoint tsetup (idx i : nat) (l : list mtree) (subs : list stmt) : M (list stmt * list sim) :=
  match l, subs with
  | t :: l, s :: subs =>
      if Nat.eqb i idx then let! r := tsetup idx (S i) l subs in ret (s :: fst r, snd r)
      else let! s := tprep t s in
           let! x := simulate_proof s None None in
           let! r := tsetup idx (S i) l subs in ret (s :: fst r, x :: snd r)
  | _, _ => ret ([], [])
  end.
(** get_prover(): composition.py:738-754 (and), 441-483 (or), extended.py:99-115 *)
Definition tcands (l : list mtree) : list nat :=
  map fst (filter (fun p : nat * mtree => negb (simulated (tshell (snd p)))) (combine (seq 0 (List.length l)) l)).
Fixpoint tget (t : mtree) (sd : dict Z) : M (option prover * stmt) :=
  match t with
  | TK _ _ | TS _ => get_prover (tshell t) sd
  | TA l b =>
      update_secret_values sd ;;
      if b then ret (None, tshell t) else
      let! r := mapM (fun t => tget t sd) l in
      if forallb (fun r => is_some (fst r)) r then
        ret (Some (PAnd (flat_map (fun r => match fst r with Some p => [p] | None => [] end) r)), SAnd (map snd r) b)
      else raise EValueErr
  | TO l b =>
      update_secret_values sd ;;
      if b then ret (None, tshell t) else
      if empty_dict (tcands l) then ret (None, tshell t) else
      let! r := or_loop (List.length (tcands l)) (map (fun t => tget t sd) l) (tcands l) (map tshell l) in
      match fst r with
      | None => ret (None, SOr (snd r) b None)
      | Some (i, p) => let! x := tsetup i 0 l (snd r) in ret (Some (POr i p (snd x)), SOr (fst x) b (Some i))
      end
  end.
(** precommit(): composition.py:847-865 (and), 588-603 (or), extended.py:194-211. Loops over the parts: *)
Definition zip3 {A B C D} (f : A -> B -> C -> M D) : list A -> list B -> list C -> M (list D) :=
  fix go l m n := match l, m, n with
    | a :: l, b :: m, c :: n => let! x := f a b c in let! xs := go l m n in ret (x :: xs)
    | _, _, _ => ret []
    end.
Definition at_nth {A} (f : mtree -> stmt -> M (A * stmt)) : nat -> list mtree -> list stmt -> M (A * list stmt) :=
  fix go i l subs {struct l} := match l, subs with
    | t :: l, s :: subs =>
        match i with
        | O => let! r := f t s in ret (fst r, snd r :: subs)
        | S i => let! r := go i l subs in ret (fst r, s :: snd r)
        end
    | _, _ => raise EIndexErr
    end.
Fixpoint tpre (t : mtree) (s : stmt) (p : prover) : M (val * prover * stmt) :=
  match t, s, p with
  | TK K _, SExt _ b _ _, PExt sv _ =>
      let! pre := c_pre K in
      let! c := c_con K pre in
      let! r := get_prover c sv in
      let! r := inner_precommit (snd r) (fst r) in
      ret (pre, PExt sv (Some (fst r)), set_simulated b (obj_of K pre (Some (snd r))))
  | TS _, _, _ => precommit s p
  | TA l _, SAnd subs b, PAnd ps =>
      let! r := zip3 tpre l subs ps in
      ret (pre_list (map (fun r => fst (fst r)) r), PAnd (map (fun r => snd (fst r)) r), SAnd (map snd r) b)
  | TO l _, SOr subs b ch, POr i sp sims =>
      let! r := at_nth (fun t s => tpre t s sp) i l subs in
      ret (pre_any (insert_at i (fst (fst r)) (map t_pre sims)), POr i (snd (fst r)) sims, SOr (snd r) b ch)
  | _, _, _ => raise ETypeErr
  end.
Definition topen (t : mtree) (sd : dict Z) : M (val * prover * stmt) :=
  let! r := tget t sd in
  match r with (Some p, s) => tpre t s p | (None, _) => raise EAttributeErr end.
(** prove(): composition.py:191-198, base.py:135-166 *)
Definition tprove (t : mtree) (sd : dict Z) (msg : bytes) : M nizk :=
  let! (pre, p, s) := topen t sd in
  let! (com, p) := internal_commit s p None in
  let! h := lift (prehash_input s) in
  let! ch := lift (fs_challenge h [pre; com] msg) in
  let! r := compute_response s p ch in
  ret (mkNizk ch r pre (VBytes (sha256 h))).

(** process_precommitment: composition.py:673-684, 940-947, extended.py:219-225. The loop over the parts: *)
Definition tloop (f : mtree -> val -> M (verifier * stmt)) (pre : val) : nat -> list mtree -> M (list (verifier * stmt)) :=
  fix go i l := match l with
    | [] => ret []
    | t :: l => let! p := lift (index pre i) in let! r := f t p in let! rs := go (S i) l in ret (r :: rs)
    end.
Fixpoint tproc (t : mtree) (pre : val) : M (verifier * stmt) :=
  match t with
  | TK K b => let! c := c_con K pre in ret (RExt (Some (get_verifier c)), set_simulated b (obj_of K pre (Some c)))
  | TS s => process_pre s (get_verifier s) pre
  | TA l b => if is_none pre then ret (get_verifier (tshell t), tshell t) else
              let! r := tloop tproc pre 0 l in ret (RAnd (map fst r), SAnd (map snd r) b)
  | TO l b => if is_none pre then ret (get_verifier (tshell t), tshell t) else
              let! r := tloop tproc pre 0 l in ret (ROr (map fst r), SOr (map snd r) b None)
  end.
(** full_validate: composition.py:393-395, extended.py:82-83 *)
Definition vzip (f : mtree -> stmt -> res unit) : list mtree -> list stmt -> res unit :=
  fix go l subs := match l, subs with
    | t :: l, s :: subs => let? _ := f t s in go l subs
    | _, _ => Ok tt
    end.
Fixpoint tvalid (t : mtree) (s : stmt) : res unit :=
  match t, s with
  | TK K _, SExt _ _ pre _ => c_val K pre
  | TA l _, SAnd subs _ | TO l _, SOr subs _ _ => vzip tvalid l subs
  | _, _ => full_validate s
  end.
(** pre_verification_validation: base.py:206-210 *)
Definition tpre_validation (e : nat -> option Z) (t : mtree) (s : stmt) (v : verifier) (r : val) : res unit :=
  let? _ := tvalid t s in
  let? o := consistent e s v r [] in
  match o with Some _ => Ok tt | None => Err EValidation end.
(** verify() of a response: base.py:212-231 *)
Definition tverify_resp (e : nat -> option Z) (t : mtree) (s : stmt) (v : verifier) (com : val) (ch : Z) (r : val) : res bool :=
  let? _ := tpre_validation e t s v r in
  let? x := recompute s ch r in Ok (val_eqb com x).
(** verify() of a proof: composition.py:200-205, base.py:233-263 *)
Definition tverify (t : mtree) (z : nizk) (msg : bytes) : M bool :=
  let! (v, s) := (if is_none (n_pre z) then ret (get_verifier (tshell t), tshell t) else tproc t (n_pre z)) in
  let! h := lift (check_statement s (n_hash z)) in
  let! e := get_env in
  let! _ := lift (tpre_validation e t s v (n_resp z)) in
  let! com := lift (recompute s (n_chal z) (n_resp z)) in
  let! ch := lift (fs_challenge h [n_pre z; com] msg) in
  ret (n_chal z =? ch).
(** The interactive protocol, utils/debug.py:7-39: the prover's object [t], the verifier's [tv] *)
Definition trun (t : mtree) (sd : dict Z) (tv : mtree) : M bool :=
  let! (pre, p, s) := topen t sd in
  let! (v, sv) := tproc tv pre in
  let! (h, com, p) := commit s p in
  let! c := send_challenge sv v h com in
  let! r := compute_response s p c in
  let! e := get_env in
  lift (tverify_resp e tv sv v com c r).

(** ** Specification *)

(** [t] with a constructed statement in the place of every object. *)
Inductive fill : mtree -> stmt -> Prop :=
| FiK K b pre c : made K pre c -> fill (TK K b) c
| FiS s : fill (TS s) s
| FiA l b cs b' : Forall2 fill l cs -> fill (TA l b) (SAnd cs b')
| FiO l b cs b' ch : Forall2 fill l cs -> fill (TO l b) (SOr cs b' ch).
(** The parts can be simulated ([simulable]); the statements among them are well-formed and without primitives. *)
Inductive tsim (U : list secret) (w : bytes -> Z) : mtree -> Prop :=
| TsK K b : simulable U w K -> tsim U w (TK K b)
| TsS s : noext s -> Sok U s -> Shape s -> tsim U w (TS s)
| TsA l b : Forall (tsim U w) l -> tsim U w (TA l b)
| TsO l b : l <> [] -> Forall (tsim U w) l -> tsim U w (TO l b).
(** The parts that the prover may have to prove are not marked as simulated, and the statements among them hold for the values [w],
    which the prover has; parts of disjunctions can be simulated, one of them is not marked. *)
Inductive tok (U : list secret) (w : bytes -> Z) (sd : dict Z) (e : nat -> option Z) : mtree -> Prop :=
| ToK K b : tok U w sd e (TK K b)
| ToS s : hon U w s sd e -> tok U w sd e (TS s)
| ToA l : Forall (tok U w sd e) l -> tok U w sd e (TA l false)
| ToO l : Forall (tsim U w) l -> (exists t, In t l /\ simulated (tshell t) = false) ->
    (forall t, In t l -> simulated (tshell t) = false -> tok U w sd e t) -> tok U w sd e (TO l false).
(** In this run, from the state [a] after get_prover(), whenever precommit() of an object is called: construct_stmt makes of its result a
    statement that holds for the values [w]. *)
Definition each (f : mtree -> stmt -> prover -> st -> Prop) : list mtree -> list stmt -> list prover -> st -> Prop :=
  fix go l subs ps a := match l, subs, ps with
    | t :: l, s :: subs, p :: ps => f t s p a /\ forall r a', tpre t s p a = Ok (r, a') -> go l subs ps a'
    | _, _, _ => True
    end.
Definition nth_part (f : mtree -> stmt -> Prop) : nat -> list mtree -> list stmt -> Prop :=
  fix go i l subs {struct l} := match l, subs with
    | t :: l, s :: subs => match i with O => f t s | S i => go i l subs end
    | _, _ => True
    end.
Fixpoint tsincere (U : list secret) (w : bytes -> Z) (t : mtree) (s : stmt) (p : prover) (a : st) : Prop :=
  match t, s, p with
  | TK K _, _, PExt sv _ => exists pre a1 c a2, c_pre K a = Ok (pre, a1) /\ c_con K pre a1 = Ok (c, a2) /\ hon U w c sv (env a2)
  | TA l _, SAnd subs _, PAnd ps => each (tsincere U w) l subs ps a
  | TO l _, SOr subs _ _, POr i sp _ => nth_part (fun t s => tsincere U w t s sp a) i l subs
  | _, _, _ => True
  end.
(** Precommitments are not lost: none is None; a conjunction (other than a statement) has a part that is not a statement; one of the
    parts of a disjunction is composed and not a statement, or an object whose precommitments are not empty. *)
Inductive heard : mtree -> Prop :=
| HeK K b : (forall pre c, made K pre c -> pre <> VNone) -> heard (TK K b)
| HeS s : heard (TS s)
| HeA l b : Forall heard l -> (exists t, In t l /\ forall s, t <> TS s) -> heard (TA l b)
| HeO l b : Forall heard l -> (exists t, In t l /\ match t with TS _ => False | TK K _ => forall pre c, made K pre c -> truthy pre = true | _ => True end) ->
    heard (TO l b).
(** The verifier's objects, for the precommitment [pre]. *)
Inductive tmeets (f g : bytes -> bytes) : mtree -> val -> mtree -> Prop :=
| TmK K b pre KV b' : c_name KV = c_name K -> c_val KV pre = Ok tt ->
    (forall c, made K pre c -> forall a, exists cv a', c_con KV pre a = Ok (cv, a') /\ Pat f g c cv) -> tmeets f g (TK K b) pre (TK KV b')
| TmS s pre sv : Pat f g s sv -> tmeets f g (TS s) pre (TS sv)
| TmA l b pres lv b' : tmeetsl f g l pres lv -> tmeets f g (TA l b) (VList pres) (TA lv b')
| TmO l b pres lv b' : tmeetsl f g l pres lv -> tmeets f g (TO l b) (VList pres) (TO lv b')
with tmeetsl (f g : bytes -> bytes) : list mtree -> list val -> list mtree -> Prop :=
| TmN : tmeetsl f g [] [] []
| TmC t l pre pres tv lv : tmeets f g t pre tv -> tmeetsl f g l pres lv -> tmeetsl f g (t :: l) (pre :: pres) (tv :: lv).
(** Precommitments of the form of the tree: those of objects are made by their methods. *)
Inductive tpres : mtree -> val -> Prop :=
| TpK K b pre c : made K pre c -> tpres (TK K b) pre
| TpS s pre : tpres (TS s) pre
| TpA l b pres : Forall2 tpres l pres -> tpres (TA l b) (VList pres)
| TpO l b pres : Forall2 tpres l pres -> tpres (TO l b) (VList pres).
(** In the run of prove() a part is too large for the binary format. *)
Definition toversized (t : mtree) (sd : dict Z) (a : st) : Prop :=
  exists pre p s a1 com p2 a2 i, topen t sd a = Ok ((pre, p, s), a1) /\ internal_commit s p None a1 = Ok ((com, p2), a2) /\
    get_proof_id s None = Ok i /\ (Big (VStr (pystr i)) \/ Big pre \/ Big com).
(** The precommitment of the part [i]; composed statements pass None on as nothing. *)
Definition sub_pre (pre : val) (i : nat) (p : val) : Prop := index pre i = Ok p \/ pre = VNone /\ p = VNone.
(** [t] with the precommitment [pre], which has become [s], holds for the values [w], computed from the answers as in [Extr]: of objects,
    the statement that construct_stmt makes of a precommitment that validate accepts. *)
Inductive tholds : (Z -> bytes -> Z) -> mtree -> val -> stmt -> Z -> Z -> val -> val -> Prop :=
| ThK w K b pre s c a a' ch ch' r r' : c_con K pre a = Ok (c, a') -> c_val K pre = Ok tt -> Extr w c ch ch' r r' -> tholds w (TK K b) pre s ch ch' r r'
| ThS w s0 pre s ch ch' r r' : Extr w s ch ch' r r' -> tholds w (TS s0) pre s ch ch' r r'
| ThA w l b pre subs b' ch ch' r r' : List.length subs = List.length l ->
    (forall i t s, nth_error l i = Some t -> nth_error subs i = Some s ->
       exists p ri ri', sub_pre pre i p /\ index r i = Ok ri /\ index r' i = Ok ri' /\ tholds w t p s ch ch' ri ri') ->
    tholds w (TA l b) pre (SAnd subs b') ch ch' r r'
| ThO w w' l b pre subs b' chosen i t s p ch ch' r r' cs cs' ci ci' rs rs' ri ri' :
    List.length subs = List.length l -> nth_error l i = Some t -> nth_error subs i = Some s -> sub_pre pre i p ->
    index r 0 = Ok cs -> index r' 0 = Ok cs' -> index cs i = Ok (VInt ci) -> index cs' i = Ok (VInt ci') ->
    index r 1 = Ok rs -> index r' 1 = Ok rs' -> index rs i = Ok ri -> index rs' i = Ok ri' -> ~ (2 ^ challenge_length | ci - ci') ->
    tholds w' t p s ci ci' ri ri' -> tholds w (TO l b) pre (SOr subs b' chosen) ch ch' r r'.
(** The library's object for a tree. *)
Inductive tlib : mtree -> stmt -> Prop :=
| TlK k b : tlib (TK (class_of k) b) (SExt k b VNone None)
| TlS s : tlib (TS s) s
| TlA l b subs : Forall2 tlib l subs -> tlib (TA l b) (SAnd subs b)
| TlO l b subs : Forall2 tlib l subs -> tlib (TO l b) (SOr subs b None).
End N.

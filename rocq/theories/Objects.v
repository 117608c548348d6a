(** Statement objects with identity: what the shallow copies of the constructors share (composition.py:413-417,
    720-723) and how it is changed by proving and verifying. Everywhere else in the model statements are values;
    ObjProofs.v says when that makes no difference. *)
From Coq Require Import String.
From Verif Require Import Base World Val Expr Utils Stmt Prove Verify.
Open Scope Z_scope.
Open Scope list_scope.

Section O.
Context {W : World}.

(** A statement object: its identity and the attributes that are never assigned to after its construction. [di] is
    the identity of the dictionary secret_values (dlrep.py:99-103); [subs] are the objects in the list subproofs. That
    list and those of bases and secrets are never changed, so their identity does not matter. *)
Inductive obj :=
| ODL (i : nat) (lhs : pt) (bases : list pt) (secs : list secret) (di : nat)
| OAnd (i : nat) (subs : list obj)
| OOr (i : nat) (subs : list obj)
| OExt (i : nat) (k : kind).

(** The attributes that are assigned to, by object: [_simulated], [chosen_idx], [_precommitment] with
    [_constructed_stmt]; and the contents of the dictionaries. Numbers from [nxt] on are not in use.
    Simplification: the object [_constructed_stmt] is a value. It is made by full_construct_stmt (extended.py:137-140),
    which always makes a new one, and it is only changed by the call of its get_prover that follows
    (extended.py:207-211). *)
Record store := mkStore {
  nxt : nat; marks : nat -> bool; picks : nat -> option nat; exts : nat -> val * option stmt; dicts : nat -> dict Z }.
Definition set_mark (h : store) i b := mkStore (nxt h) (upd (marks h) i b) (picks h) (exts h) (dicts h).
Definition set_pick (h : store) i c := mkStore (nxt h) (marks h) (upd (picks h) i c) (exts h) (dicts h).
Definition set_ext (h : store) i e := mkStore (nxt h) (marks h) (picks h) (upd (exts h) i e) (dicts h).
Definition set_dict (h : store) i d := mkStore (nxt h) (marks h) (picks h) (exts h) (upd (dicts h) i d).

Definition oid (o : obj) : nat := match o with ODL i _ _ _ _ => i | OAnd i _ => i | OOr i _ => i | OExt i _ => i end.

(** The statement an object stands for in a state. *)
Fixpoint view (h : store) (o : obj) : stmt :=
  match o with
  | ODL i lhs bs ss di => SDL (mkDL lhs bs ss (dicts h di) (marks h i))
  | OAnd i subs => SAnd (map (view h) subs) (marks h i)
  | OOr i subs => SOr (map (view h) subs) (marks h i) (picks h i)
  | OExt i k => SExt k (marks h i) (fst (exts h i)) (snd (exts h i))
  end.

(** A loop over a list whose body changes the store; [seqM] collects results, [iseqM] counts ([enumerate]). *)
Definition seqM {X A} (f : X -> store -> M (A * store)) : list X -> store -> M (list A * store) :=
  fix go l h := match l with
                | [] => ret ([], h)
                | x :: l => let! a := f x h in let! r := go l (snd a) in ret (fst a :: fst r, snd r)
                end.
Definition iseqM {X A} (f : nat -> X -> store -> M (A * store)) : nat -> list X -> store -> M (list A * store) :=
  fix go i l h := match l with
                  | [] => ret ([], h)
                  | x :: l => let! a := f i x h in let! r := go (S i) l (snd a) in ret (fst a :: fst r, snd r)
                  end.
Definition foldM {X} (f : X -> store -> M store) : list X -> store -> M store :=
  fix go l h := match l with
                | [] => ret h
                | x :: l => let! h := f x h in go l h
                end.

(** ** Construction *)

(** copy.copy: a new object with the same attributes *)
Definition with_id (i : nat) (o : obj) : obj :=
  match o with
  | ODL _ lhs bs ss di => ODL i lhs bs ss di
  | OAnd _ subs => OAnd i subs
  | OOr _ subs => OOr i subs
  | OExt _ k => OExt i k
  end.
Definition o_copy (o : obj) (h : store) : obj * store :=
  let i := nxt h in let j := oid o in
  (with_id i o, mkStore (S i) (upd (marks h) i (marks h j)) (upd (picks h) i (picks h j)) (upd (exts h) i (exts h j)) (dicts h)).
Fixpoint o_copies (l : list obj) (h : store) : list obj * store :=
  match l with
  | [] => ([], h)
  | o :: l => let (o, h) := o_copy o h in let (l, h) := o_copies l h in (o :: l, h)
  end.

(** dlrep.py:84-106; the dictionary gets the number of the object *)
Definition o_dlrep (lhs : pt) (x : expr) (sim : bool) (h : store) : M (obj * store) :=
  let! d := mk_dlrep lhs x sim in
  let i := nxt h in
  ret (ODL i (dl_lhs d) (dl_bases d) (dl_secs d) i,
       mkStore (S i) (upd (marks h) i (dl_sim d)) (upd (picks h) i None) (upd (exts h) i (VNone, None)) (upd (dicts h) i (dl_vals d))).
(** a statement with precommitments; see the constructors in Stmt.v *)
Definition o_ext (k : kind) (sim : bool) (h : store) : obj * store :=
  let i := nxt h in
  (OExt i k, mkStore (S i) (upd (marks h) i sim) (upd (picks h) i None) (upd (exts h) i (VNone, None)) (dicts h)).
(** composition.py:706-723, 410-417: copies of the parts, in a new object *)
Definition o_new (f : nat -> list obj -> obj) (l : list obj) (h : store) : res (obj * store) :=
  if (List.length l <? 2)%nat then Err EValueErr else
  let (l, h) := o_copies l h in
  let i := nxt h in
  Ok (f i l, mkStore (S i) (upd (marks h) i false) (upd (picks h) i None) (upd (exts h) i (VNone, None)) (dicts h)).
Definition o_and := o_new OAnd.
Definition o_or := o_new OOr.
(** composition.py:115-149 *)
Definition o_and_op (a b : obj) : store -> res (obj * store) :=
  match b with
  | OAnd _ bs => match a with OAnd _ xs => o_and (xs ++ bs) | _ => o_and (a :: bs) end
  | _ => match a with OAnd _ xs => o_and (xs ++ [b]) | _ => o_and [a; b] end
  end.
Definition o_or_op (a b : obj) : store -> res (obj * store) :=
  match b with
  | OOr _ bs => match a with OOr _ xs => o_or (xs ++ bs) | _ => o_or (a :: bs) end
  | _ => match a with OOr _ xs => o_or (xs ++ [b]) | _ => o_or [a; b] end
  end.

(** ** Proving *)

(** Prover objects, as in Prove.v, with the statement object they refer to. [QExt]: constructed_prover, with the
    statement it is a prover of. *)
Inductive oprover :=
| QDL (o : obj) (ks : option (list Z))
| QAnd (o : obj) (subs : list oprover)
| QOr (o : obj) (idx : nat) (sub : oprover) (sims : list sim)
| QExt (o : obj) (sv : dict Z) (con : option (stmt * option prover)).
Definition qobj (p : oprover) : obj := match p with QDL o _ => o | QAnd o _ => o | QOr o _ _ _ => o | QExt o _ _ => o end.

(** prepare_simulate_proof, as prepare_sim *)
Fixpoint o_prepare (o : obj) (h : store) : M store :=
  match o with
  | ODL _ _ _ _ _ => ret h
  | OAnd _ subs | OOr _ subs => foldM o_prepare subs h
  | OExt i k => let! p := ksim_precommit k in let! c := construct k p in ret (set_ext h i (p, Some c))
  end.
(** composition.py:577-586. simulate_proof changes no object. *)
Definition o_setup (idx : nat) (subs : list obj) (h : store) : M (store * list sim) :=
  (fix go i l h {struct l} := match l with
     | [] => ret (h, [])
     | x :: l =>
       if Nat.eqb i idx then go (S i) l h
       else let! h := o_prepare x h in
            let! t := simulate_proof (view h x) None None in
            let! r := go (S i) l h in ret (fst r, t :: snd r)
     end) O subs h.
(** the loop of composition.py:466-482 *)
Fixpoint o_loop {A} (fuel : nat) (gps : list (store -> M (option A * store))) (possible : list nat) (h : store)
  : M (option (nat * A) * store) :=
  match fuel with
  | O => ret (None, h)
  | S fuel =>
    let! r := draw (len possible) in
    match nth_error possible (Z.to_nat r) with
    | None => raise EIndexErr
    | Some i =>
      match nth_error gps i with
      | None => raise EIndexErr
      | Some gp =>
        let! ps := gp h in
        match fst ps with
        | Some p => ret (Some (i, p), snd ps)
        | None =>
            let possible := remove Nat.eq_dec i possible in
            if empty_dict possible then ret (None, snd ps) else o_loop fuel gps possible (snd ps)
        end
      end
    end
  end.
(** get_prover: dlrep.py:108-139 (the dictionary object is updated), composition.py:738-754 (and), 441-483 (or),
    extended.py:99-115 (a new dictionary object for each prover) *)
Fixpoint o_get_prover (o : obj) (sd : dict Z) (h : store) : M (option oprover * store) :=
  match o with
  | ODL i lhs bs ss di =>
      let! e := get_env in
      let vals := dupdate e (dicts h di) sd in
      let h := set_mark (set_dict h di vals) i true in
      if empty_dict vals || existsb (fun s => negb (dmem e vals s)) ss then ret (None, h)
      else ret (Some (QDL o None), h)
  | OAnd i subs =>
      update_secret_values sd ;;
      if marks h i then ret (None, h) else
      let! r := seqM (fun x => o_get_prover x sd) subs h in
      if forallb is_some (fst r) then
        ret (Some (QAnd o (flat_map (fun p => match p with Some p => [p] | None => [] end) (fst r))), snd r)
      else raise EValueErr
  | OOr i subs =>
      update_secret_values sd ;;
      if marks h i then ret (None, h) else
      let cands := map fst (filter (fun p : nat * obj => negb (marks h (oid (snd p))))
                                   (combine (seq 0 (List.length subs)) subs)) in
      if empty_dict cands then ret (None, h) else
      let! r := o_loop (List.length cands) (map (fun x => o_get_prover x sd) subs) cands h in
      match fst r with
      | None => ret (None, set_pick (snd r) i None)
      | Some (j, p) =>
          let! t := o_setup j subs (set_pick (snd r) i (Some j)) in
          ret (Some (QOr o j p (snd t)), fst t)
      end
  | OExt i k =>
      update_secret_values sd ;;
      let! e := get_env in
      ret (Some (QExt o (dupdate e [] sd) None), h)
  end.

(** precommit, as in Prove.v; extended.py:160-162, 194-211 *)
Fixpoint o_precommit (p : oprover) (h : store) : M (val * oprover * store) :=
  match p with
  | QDL _ _ => ret (VNone, p, h)
  | QAnd o ps =>
      let! r := seqM o_precommit ps h in
      let pres := map fst (fst r) in
      ret (if forallb is_none pres then VNone else VList pres, QAnd o (map snd (fst r)), snd r)
  | QOr o i sp sims =>
      let! r := o_precommit sp h in
      let pres := insert_at i (fst (fst r)) (map t_pre sims) in
      ret (if existsb truthy pres then VList pres else VNone, QOr o i (snd (fst r)) sims, snd r)
  | QExt o sv _ =>
      match o with
      | OExt i k =>
        let! pre := kprecommit k in
        let! c := construct k pre in
        let! r := get_prover c sv in
        ret (pre, QExt o sv (Some (snd r, fst r)), set_ext h i (pre, Some (snd r)))
      | _ => raise ETypeErr
      end
  end.

(** internal_commit, as in Prove.v. It changes no statement object. *)
Fixpoint o_commit (p : oprover) (h : store) (rd : option (dict Z)) : M (val * oprover) :=
  match p with
  | QDL o _ =>
      match o with
      | ODL i lhs bs ss di =>
        let! r := commit_dl (mkDL lhs bs ss (dicts h di) (marks h i)) rd in
        ret (fst r, QDL o (match snd r with PDL ks => ks | _ => None end))
      | _ => raise ETypeErr
      end
  | QAnd o ps =>
      let s := view h o in
      let! e := get_env in
      let! _ := lift (validate_and e s) in
      let! rd := update_randomizers (randomizers_and s) (get_secret_vars s) rd in
      let! l := mapM (fun p => o_commit p h (Some rd)) ps in
      ret (VList (map fst l), QAnd o (map snd l))
  | QOr o i sp sims =>
      let! e := get_env in
      let! _ := lift (validate_or e (view h o)) in
      let! r := o_commit sp h None in
      ret (VList (insert_at i (fst r) (map t_com sims)), QOr o i (snd r) sims)
  | QExt o sv con =>
      match snd (exts h (oid o)), con with
      | None, _ => raise EStatementSpec
      | Some _, Some (c, Some q) =>
          let! r := internal_commit c q rd in ret (fst r, QExt o sv (Some (c, Some (snd r))))
      | _, _ => raise EAttributeErr
      end
  end.

(** compute_response, as in Prove.v. A DLRepProver reads the dictionary of its statement (dlrep.py:139, 244-247). *)
Fixpoint o_response (p : oprover) (h : store) (c : Z) : M val :=
  match p with
  | QDL o ks =>
      match o with
      | ODL i lhs bs ss di => respond_dl (mkDL lhs bs ss (dicts h di) (marks h i)) ks c
      | _ => raise ETypeErr
      end
  | QAnd o ps => let! l := mapM (fun p => o_response p h c) ps in ret (VList l)
  | QOr o i sp sims =>
      let rc := find_residual (map t_chal sims) c challenge_length in
      let! r := o_response sp h rc in
      ret (VTuple [VList (map VInt (insert_at i rc (map t_chal sims)));
                   VList (insert_at i r (map t_resp sims))])
  | QExt o sv con =>
      match con with
      | Some (s, Some q) => compute_response s q c
      | _ => raise EAttributeErr
      end
  end.

(** base.py:135-166 *)
Definition o_nizk (p : oprover) (msg : bytes) (h : store) : M (nizk * store) :=
  let! (pre, p, h) := o_precommit p h in
  let! (com, p) := o_commit p h None in
  let! i := lift (prehash_input (view h (qobj p))) in
  let! c := lift (fs_challenge i [pre; com] msg) in
  let! r := o_response p h c in
  ret (mkNizk c r pre (VBytes (sha256 i)), h).
(** composition.py:191-198 *)
Definition o_prove (o : obj) (sd : dict Z) (msg : bytes) (h : store) : M (nizk * store) :=
  let! r := o_get_prover o sd h in
  match r with
  | (Some p, h) => o_nizk p msg h
  | (None, _) => raise EAttributeErr
  end.

(** ** Verifying *)

(** Verifier objects, as in Verify.v, with the statement object. [XExt]: constructed_verifier, with its statement. *)
Inductive overifier :=
| XDL (o : obj)
| XAnd (o : obj) (subs : list overifier)
| XOr (o : obj) (subs : list overifier)
| XExt (o : obj) (con : option (stmt * verifier)).
Fixpoint o_verifier (o : obj) : overifier :=
  match o with
  | ODL _ _ _ _ _ => XDL o
  | OAnd _ subs => XAnd o (map o_verifier subs)
  | OOr _ subs => XOr o (map o_verifier subs)
  | OExt _ _ => XExt o None
  end.

(** process_precommitment, as in Verify.v *)
Fixpoint o_process (v : overifier) (pre : val) (h : store) : M (overifier * store) :=
  match v with
  | XDL _ => ret (v, h)
  | XAnd o vs =>
      if is_none pre then ret (v, h) else
      let! r := iseqM (fun i w h => let! p := lift (index pre i) in o_process w p h) O vs h in
      ret (XAnd o (fst r), snd r)
  | XOr o vs =>
      if is_none pre then ret (v, h) else
      let! r := iseqM (fun i w h => let! p := lift (index pre i) in o_process w p h) O vs h in
      ret (XOr o (fst r), snd r)
  | XExt o _ =>
      match o with
      | OExt i k => let! c := construct k pre in
                    ret (XExt o (Some (c, get_verifier c)), set_ext h i (pre, Some c))
      | _ => raise ETypeErr
      end
  end.

(** check_responses_consistency, as in Verify.v *)
Fixpoint o_consistent (e : nat -> option Z) (v : overifier) (r : val) (rd : dict val) : res (option (dict val)) :=
  match v with
  | XDL o => match o with ODL _ _ _ ss _ => consistent_dl e ss r rd | _ => Err ETypeErr end
  | XAnd _ vs =>
      (fix go i l rd {struct l} := match l with
         | [] => Ok (Some rd)
         | w :: l => let? ri := index r i in
                     let? o := o_consistent e w ri rd in
                     match o with Some rd => go (S i) l rd | None => Ok None end
         end) O vs rd
  | XOr _ vs =>
      (fix go i l {struct l} := match l with
         | [] => Ok (Some rd)
         | w :: l => let? rs := index r 1 in
                     let? ri := index rs i in
                     let? o := o_consistent e w ri [] in
                     match o with Some _ => go (S i) l | None => Ok None end
         end) O vs
  | XExt _ (Some (c, w)) => consistent e c w r rd
  | XExt _ None => Err EAttributeErr
  end.

(** composition.py:200-205 and base.py:233-263 *)
Definition o_verify (o : obj) (z : nizk) (msg : bytes) (h : store) : M (bool * store) :=
  let! (v, h) := (if is_none (n_pre z) then ret (o_verifier o, h) else o_process (o_verifier o) (n_pre z) h) in
  let s := view h o in
  let! i := lift (check_statement s (n_hash z)) in
  let! e := get_env in
  let! _ := lift (let? _ := full_validate s in
                  let? a := o_consistent e v (n_resp z) [] in
                  match a with Some _ => Ok tt | None => Err EValidation end) in
  let! com := lift (recompute s (n_chal z) (n_resp z)) in
  let! c := lift (fs_challenge i [n_pre z; com] msg) in
  ret (n_chal z =? c, h).

(** ** Programs that build statements *)

(** Python expressions made of variables, the constructors, [&] and [|]. *)
Inductive sexp :=
| BVar (i : nat)
| BDL (lhs : pt) (x : expr) (sim : bool)
| BExt (k : kind) (sim : bool)
| BAnd (l : list sexp)
| BOr (l : list sexp)
| BConj (a b : sexp)
| BDisj (a b : sexp).
Fixpoint o_build (e : sexp) (vars : list obj) (h : store) : M (obj * store) :=
  match e with
  | BVar i => match nth_error vars i with Some o => ret (o, h) | None => raise ENameErr end
  | BDL lhs x sim => o_dlrep lhs x sim h
  | BExt k sim => ret (o_ext k sim h)
  | BAnd l | BOr l =>
      let! r := seqM (fun x => o_build x vars) l h in
      lift (match e with BAnd _ => o_and (fst r) (snd r) | _ => o_or (fst r) (snd r) end)
  | BConj a b => let! (x, h) := o_build a vars h in let! (y, h) := o_build b vars h in lift (o_and_op x y h)
  | BDisj a b => let! (x, h) := o_build a vars h in let! (y, h) := o_build b vars h in lift (o_or_op x y h)
  end.
End O.

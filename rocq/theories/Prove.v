(** Provers, simulation and [prove()]: /repo/zksk/base.py, composition.py, extended.py,
    primitives/dlrep.py. *)
From Coq Require Import String.
From Verif Require Import Base World Val Expr Utils Stmt.
Open Scope Z_scope.
Open Scope list_scope.

Section P.
Context {W : World}.

(** ** Randomizers *)

(** get_randomizers: dlrep.py:151-170 *)
Definition randomizers_dl (d : dlrep) : M (dict Z) :=
  match dl_bases d with
  | [] => raise EIndexErr
  | b0 :: _ =>
    let! e := get_env in
    let ss := sec_set e (dl_secs d) in
    let! rs := mapM (fun _ => draw (order (grp b0))) ss in
    ret (fold_left (fun o sr => dset e o (fst sr) (snd sr)) (combine ss rs) [])
  end.
(** get_randomizers: composition.py:762-776 (and) *)
Definition randomizers_and (s : stmt) : M (dict Z) :=
  let! ss := lift (get_secret_vars s) in
  let! bs := lift (get_bases s) in
  let! e := get_env in
  let d := fold_left (fun o sb => dset e o (fst sb) (snd sb)) (combine ss bs) [] in
  let! rs := mapM (fun sb : secret * pt => draw (order (grp (snd sb)))) d in
  ret (combine (map fst d) rs).

(** update_randomizers: composition.py:244-268; [g] is get_randomizers of the statement, [ss] its
    secrets *)
Definition update_randomizers (g : M (dict Z)) (ss : res (list secret)) (o : option (dict Z))
  : M (dict Z) :=
  match o with
  | None => g
  | Some d =>
      let! ss := lift ss in
      let! e := get_env in
      if existsb (fun x => negb (dmem e d x)) ss then
        let! t := g in
        let! e := get_env in
        ret (dupdate e t d)
      else ret d
  end.

Definition dget_err {A} (e : nat -> option Z) (d : dict A) (s : secret) : res A :=
  match dget e d s with Some v => Ok v | None => Err EKeyErr end.

(** ** Simulation *)

(** base.py:56-66 SimulationTranscript; [stmt_hash] is added by [simulate]. *)
Record sim := mkSim { t_com : val; t_chal : Z; t_resp : val; t_pre : val }.

(** prepare_simulate_proof: composition.py:294-298, 519-521, 778-780, extended.py:142-144 *)
Fixpoint prepare_sim (s : stmt) : M stmt :=
  match s with
  | SDL d => ret s
  | SAnd subs b => let! l := mapM prepare_sim subs in ret (SAnd l b)
  | SOr subs b c => let! l := mapM prepare_sim subs in ret (SOr l b c)
  | SExt k b _ _ => let! p := ksim_precommit k in full_construct k b p
  end.

Definition or_draw (o : option Z) : M Z :=
  match o with Some c => ret c | None => get_random_num challenge_length end.

(** dlrep.py:179-199 *)
Definition simulate_dl (d : dlrep) (rd : option (dict Z)) (c : option Z) : M sim :=
  let! rd := update_randomizers (randomizers_dl d) (Ok (dl_secs d)) rd in
  let! c := or_draw c in
  let! e := get_env in
  let! rs := lift (rmap (dget_err e rd) (dl_secs d)) in
  let resp := VList (map VInt rs) in
  let! com := lift (recompute_dl d c resp) in
  ret (mkSim com c resp VNone).

(** simulate_proof: composition.py:523-557 (or: the responses dictionary is not used),
    782-817 (and), extended.py:146-158 *)
Fixpoint simulate_proof (s : stmt) (rd : option (dict Z)) (c : option Z) : M sim :=
  match s with
  | SDL d => simulate_dl d rd c
  | SAnd subs _ =>
      let! rd := update_randomizers (randomizers_and s) (get_secret_vars s) rd in
      let! c := or_draw c in
      let! ts := mapM (fun s => simulate_proof s (Some rd) (Some c)) subs in
      ret (mkSim (VList (map t_com ts)) c (VList (map t_resp ts)) (VList (map t_pre ts)))
  | SOr subs _ _ =>
      let! c := or_draw c in
      let! ts := (fix go l chals {struct l} := match l with
                  | [] => raise EIndexErr
                  | [x] => let fc := find_residual chals c challenge_length in
                           let! t := simulate_proof x None (Some fc) in
                           ret [mkSim (t_com t) fc (t_resp t) (t_pre t)]
                  | x :: l => let! t := simulate_proof x None None in
                              let! ts := go l (chals ++ [t_chal t]) in ret (t :: ts)
                  end) subs [] in
      ret (mkSim (VList (map t_com ts)) c
                 (VTuple [VList (map (fun t => VInt (t_chal t)) ts); VList (map t_resp ts)])
                 (VList (map t_pre ts)))
  | SExt _ _ pre (Some con) =>
      let! t := simulate_proof con rd c in
      ret (mkSim (t_com t) (t_chal t) (t_resp t) pre)
  | SExt _ _ _ None => raise EAttributeErr
  end.

(** simulate: composition.py:300-308. Result: transcript, statement hash, statement object. *)
Definition simulate (s : stmt) (c : option Z) : M (sim * val * stmt) :=
  let s := set_simulated true s in
  let! s := prepare_sim s in
  let! t := simulate_proof s None c in
  let! h := lift (stmt_digest s) in
  ret (t, VBytes h, s).

(** ** Provers *)

(** Prover objects. [PDL ks]: DLRepProver; its secret_values is the dictionary object of the
    statement (dlrep.py:123,139), so it is read from the statement; [ks] is set by internal_commit.
    [PAnd subs]: AndProver. [POr idx sub sims]: OrProver (composition.py:569-586).
    [PExt sv con]: ExtendedProver; [con] is the attribute constructed_prover: absent, None or
    a prover. *)
Inductive prover :=
| PDL (ks : option (list Z))
| PAnd (subs : list prover)
| POr (idx : nat) (sub : prover) (sims : list sim)
| PExt (sv : dict Z) (con : option (option prover)).

Definition empty_dict {A} (d : list A) : bool := match d with [] => true | _ => false end.

(** dlrep.py:108-139. [self.set_simulated()] in the condition sets the flag and returns None. *)
Definition get_prover_dl (d : dlrep) (sd : dict Z) : M (option prover * dlrep) :=
  let! e := get_env in
  let vals := dupdate e (dl_vals d) sd in
  let d' := mkDL (dl_lhs d) (dl_bases d) (dl_secs d) vals true in
  if empty_dict vals || existsb (fun s => negb (dmem e vals s)) (dl_secs d)
  then ret (None, d')
  else ret (Some (PDL None), d').

(** The choice loop of composition.py:466-482. [gps]: get_prover of each branch. *)
Fixpoint or_loop {A} (fuel : nat) (gps : list (M (option A * stmt))) (possible : list nat)
    (subs : list stmt) : M (option (nat * A) * list stmt) :=
  match fuel with
  | O => ret (None, subs)
  | S fuel =>
    let! r := draw (len possible) in
    match nth_error possible (Z.to_nat r) with
    | None => raise EIndexErr
    | Some i =>
      match nth_error gps i with
      | None => raise EIndexErr
      | Some gp =>
        let! ps := gp in
        let subs := replace i (snd ps) subs in
        match fst ps with
        | Some p => ret (Some (i, p), subs)
        | None =>
            let possible := remove Nat.eq_dec i possible in
            if empty_dict possible then ret (None, subs) else or_loop fuel gps possible subs
        end
      end
    end
  end.

(** composition.py:577-586 setup_simulations *)
Definition setup_simulations (idx : nat) (subs : list stmt) : M (list stmt * list sim) :=
  (fix go i l {struct l} := match l with
     | [] => ret ([], [])
     | s :: l =>
       if Nat.eqb i idx then let! r := go (S i) l in ret (s :: fst r, snd r)
       else let! s := prepare_sim s in
            let! t := simulate_proof s None None in
            let! r := go (S i) l in ret (s :: fst r, t :: snd r)
     end) O subs.

(** get_prover: composition.py:738-754 (and), 441-483 (or), extended.py:99-115 *)
Fixpoint get_prover (s : stmt) (sd : dict Z) : M (option prover * stmt) :=
  match s with
  | SDL d => let! r := get_prover_dl d sd in ret (fst r, SDL (snd r))
  | SAnd subs b =>
      update_secret_values sd ;;
      if b then ret (None, s) else
      let! l := mapM (fun s => get_prover s sd) subs in
      if forallb (fun r => is_some (fst r)) l then
        ret (Some (PAnd (flat_map (fun r => match fst r with Some p => [p] | None => [] end) l)),
             SAnd (map snd l) b)
      else raise EValueErr
  | SOr subs b ch =>
      update_secret_values sd ;;
      if b then ret (None, s) else
      let cands := map fst (filter (fun p : nat * stmt => negb (simulated (snd p)))
                                   (combine (seq 0 (List.length subs)) subs)) in
      if empty_dict cands then ret (None, s) else
      let! r := or_loop (List.length cands) (map (fun s => get_prover s sd) subs) cands subs in
      match fst r with
      | None => ret (None, SOr (snd r) b None)
      | Some (i, p) =>
          let! t := setup_simulations i (snd r) in
          ret (Some (POr i p (snd t)), SOr (fst t) b (Some i))
      end
  | SExt k b pre con =>
      update_secret_values sd ;;
      let! e := get_env in
      ret (Some (PExt (dupdate e [] sd) None), s)
  end.

Definition insert_at {A} (i : nat) (x : A) (l : list A) : list A := firstn i l ++ x :: skipn i l.

(** precommit: base.py:116-120, composition.py:847-865 (and), 588-603 (or),
    extended.py:194-211. The loop extended.py:197-201 calls precommit on the inner provers; for
    the constructed statements of the library it has no effect and is left out.
    An OrProver finds the precommitment of a simulated branch in its list of simulations
    (composition.py:596-600), which is insertion of the real one at its index. *)
Fixpoint precommit (s : stmt) (p : prover) : M (val * prover * stmt) :=
  match s, p with
  | SDL d, PDL _ => ret (VNone, p, s)
  | SAnd subs b, PAnd ps =>
      let! l := zipM precommit subs ps in
      let pres := map (fun r => fst (fst r)) l in
      ret (if forallb is_none pres then VNone else VList pres,
           PAnd (map (fun r => snd (fst r)) l), SAnd (map snd l) b)
  | SOr subs b ch, POr i sp sims =>
      let! r := (fix go j l {struct l} := match l with
                 | [] => raise EIndexErr
                 | x :: l => match j with
                             | O => let! r := precommit x sp in
                                    ret (fst r, snd r :: l)
                             | S j => let! r := go j l in ret (fst r, x :: snd r)
                             end
                 end) i subs in
      let pres := insert_at i (fst (fst r)) (map t_pre sims) in
      ret (if existsb truthy pres then VList pres else VNone,
           POr i (snd (fst r)) sims, SOr (snd r) b ch)
  | SExt k b _ _, PExt sv _ =>
      let! pre := kprecommit k in
      let! c := construct k pre in
      let! r := get_prover c sv in
      ret (pre, PExt sv (Some (fst r)), SExt k b pre (Some (snd r)))
  | _, _ => raise ETypeErr
  end.

(** dlrep.py:205-228 *)
Definition commit_dl (d : dlrep) (rd : option (dict Z)) : M (val * prover) :=
  let! rd := update_randomizers (randomizers_dl d) (Ok (dl_secs d)) rd in
  let! e := get_env in
  let! ks := lift (rmap (dget_err e rd) (dl_secs d)) in
  match dl_bases d with
  | [] => raise EIndexErr
  | b0 :: _ =>
    let! x := lift (wsum (grp b0) ks (dl_bases d)) in
    ret (VPt x, PDL (Some ks))
  end.

(** internal_commit: composition.py:867-883 (and), 605-626 (or), extended.py:172-183 *)
Fixpoint internal_commit (s : stmt) (p : prover) (rd : option (dict Z)) : M (val * prover) :=
  match s, p with
  | SDL d, PDL _ => commit_dl d rd
  | SAnd subs b, PAnd ps =>
      let! e := get_env in
      let! _ := lift (validate_and e s) in
      let! rd := update_randomizers (randomizers_and s) (get_secret_vars s) rd in
      let! l := zipM (fun s p => internal_commit s p (Some rd)) subs ps in
      ret (VList (map fst l), PAnd (map snd l))
  | SOr subs b ch, POr i sp sims =>
      let! e := get_env in
      let! _ := lift (validate_or e s) in
      let! r := (fix go j l {struct l} := match l with
                 | [] => raise EIndexErr
                 | x :: l => match j with O => internal_commit x sp None | S j => go j l end
                 end) i subs in
      ret (VList (insert_at i (fst r) (map t_com sims)), POr i (snd r) sims)
  | SExt k b pre con, PExt sv cp =>
      match con with
      | None => raise EStatementSpec
      | Some c =>
        match cp with
        | Some (Some q) =>
            let! r := internal_commit c q rd in ret (fst r, PExt sv (Some (Some (snd r))))
        | _ => raise EAttributeErr
        end
      end
  | _, _ => raise ETypeErr
  end.

(** dlrep.py:230-248 *)
Definition respond_dl (d : dlrep) (ks : option (list Z)) (c : Z) : M val :=
  match ks, dl_bases d with
  | Some ks, b0 :: _ =>
      let! e := get_env in
      let! rs := lift (rmap (fun sk => let? v := dget_err e (dl_vals d) (fst sk) in
                                       Ok ((v * c + snd sk) mod order (grp b0)))
                            (combine (dl_secs d) ks)) in
      ret (VList (map VInt rs))
  | None, _ => raise EAttributeErr
  | _, [] => raise EIndexErr
  end.

(** compute_response: composition.py:885-889 (and), 628-659 (or), extended.py:185-192 *)
Fixpoint compute_response (s : stmt) (p : prover) (c : Z) : M val :=
  match s, p with
  | SDL d, PDL ks => respond_dl d ks c
  | SAnd subs b, PAnd ps =>
      let! l := zipM (fun s p => compute_response s p c) subs ps in ret (VList l)
  | SOr subs b ch, POr i sp sims =>
      let rc := find_residual (map t_chal sims) c challenge_length in
      let! r := (fix go j l {struct l} := match l with
                 | [] => raise EIndexErr
                 | x :: l => match j with O => compute_response x sp rc | S j => go j l end
                 end) i subs in
      ret (VTuple [VList (map VInt (insert_at i rc (map t_chal sims)));
                   VList (insert_at i r (map t_resp sims))])
  | SExt k b pre (Some con), PExt sv (Some (Some q)) => compute_response con q c
  | SExt _ _ _ _, PExt _ _ => raise EAttributeErr
  | _, _ => raise ETypeErr
  end.

(** ** Non-interactive proofs *)

(** base.py:22-31 NIZK *)
Record nizk := mkNizk { n_chal : Z; n_resp : val; n_pre : val; n_hash : val }.

(** one argument of build_fiat_shamir_challenge, base.py:83-88 *)
Definition fs_arg (v : val) : res bytes :=
  match v with
  | VBytes b => Ok b
  | VStr _ => Err ETypeErr
  | _ => encode v
  end.
(** base.py:69-91. [h]: what has been fed to the hash object; [msg]: message.encode() *)
Definition fs_input (h : bytes) (args : list val) (msg : bytes) : res bytes :=
  let? l := rmap fs_arg args in Ok (h ++ List.concat l ++ msg).
Definition fs_challenge (h : bytes) (args : list val) (msg : bytes) : res Z :=
  let? b := fs_input h args msg in Ok (be_int (sha256 b)).

(** base.py:135-166 get_nizk_proof *)
Definition get_nizk_proof (s : stmt) (p : prover) (msg : bytes) : M (nizk * prover * stmt) :=
  let! (pre, p, s) := precommit s p in
  let! (com, p) := internal_commit s p None in
  let! h := lift (prehash_input s) in
  let! c := lift (fs_challenge h [pre; com] msg) in
  let! r := compute_response s p c in
  ret (mkNizk c r pre (VBytes (sha256 h)), p, s).

(** composition.py:191-198 prove; a missing prover is None.get_nizk_proof *)
Definition prove (s : stmt) (sd : dict Z) (msg : bytes) : M (nizk * stmt) :=
  let! r := get_prover s sd in
  match r with
  | (Some p, s) => let! (z, _, s) := get_nizk_proof s p msg in ret (z, s)
  | (None, _) => raise EAttributeErr
  end.

(** base.py:122-133 commit *)
Definition commit (s : stmt) (p : prover) : M (val * val * prover) :=
  let! h := lift (stmt_digest s) in
  let! (com, p) := internal_commit s p None in
  ret (VBytes h, com, p).

(** base.py:34-53 serialize / deserialize; precommitment and stmt_hash have defaults (base.py:30-31).
    Simplification: a challenge that is not a number is an error here, in Python it is one later. *)
Definition serialize (z : nizk) : res bytes :=
  let? a := encode (VInt (n_chal z)) in
  let? b := encode (n_resp z) in
  let? c := encode (n_pre z) in
  let? d := encode (n_hash z) in
  pack (VList [VBytes a; VBytes b; VBytes c; VBytes d]).
Definition deserialize (b : bytes) : res nizk :=
  let? v := decode b in
  let? l := as_iter v in
  let? l := rmap (fun x => match x with VBytes b => decode b | _ => Err ETypeErr end) l in
  match l with
  | c :: r :: l =>
    let? c := as_int c in
    match l with
    | [] => Ok (mkNizk c r VNone VNone)
    | [p] => Ok (mkNizk c r p VNone)
    | [p; h] => Ok (mkNizk c r p h)
    | _ => Err ETypeErr
    end
  | _ => Err ETypeErr
  end.
End P.

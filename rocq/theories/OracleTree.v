(** Primitives defined by users of the library in the random oracle model: [tverify] (Nested.v) with questions instead of the two calls of
    sha256 (composition.py:270-274 and base.py:69-91). construct_stmt and validate of the users' classes do not ask questions. *)
From Coq Require Import String Znumtheory.
From Verif Require Import Base World Val Expr Utils Stmt Prove Verify Spec Shapes Claims Extract Custom Mixed MixedOr Nested Oracle.
Open Scope Z_scope.
Open Scope list_scope.

Section O.
Context {W : World}.

(** composition.py:200-205, base.py:233-263 *)
Definition tverify_ro (t : mtree) (z : nizk) (msg : bytes) (a : st) : prog (res (bool * st)) :=
  match (if is_none (n_pre z) then ret (get_verifier (tshell t), tshell t) else tproc t (n_pre z)) a with
  | Err e => Ret (Err e)
  | Ok ((v, s), a) =>
    match prehash_input s with
    | Err e => Ret (Err e)
    | Ok h =>
      Ask h (fun y =>
        if val_eqb (n_hash z) (VBytes y) then
          match tpre_validation (env a) t s v (n_resp z) with
          | Err e => Ret (Err e)
          | Ok _ =>
            match recompute s (n_chal z) (n_resp z) with
            | Err e => Ret (Err e)
            | Ok com =>
              match fs_input h [n_pre z; com] msg with
              | Err e => Ret (Err e)
              | Ok i => Ask i (fun y => Ret (Ok (n_chal z =? be_int y, a)))
              end
            end
          end
        else Ret (Err EStatementMismatch))
    end
  end.
(** composition.py:191-198, base.py:135-166 *)
Definition tprove_ro (t : mtree) (sd : dict Z) (msg : bytes) (a : st) : prog (res (nizk * st)) :=
  match (let! (pre, p, s) := topen t sd in let! (com, p) := internal_commit s p None in ret (pre, com, p, s)) a with
  | Err e => Ret (Err e)
  | Ok ((pre, com, p, s), a) =>
    match prehash_input s with
    | Err e => Ret (Err e)
    | Ok h =>
      Ask h (fun y =>
        match fs_input h [pre; com] msg with
        | Err e => Ret (Err e)
        | Ok i => Ask i (fun y' =>
            Ret (match compute_response s p (be_int y') a with
                 | Err e => Err e
                 | Ok (r, a) => Ok (mkNizk (be_int y') r pre (VBytes y), a)
                 end))
        end)
    end
  end.
Definition taccepts (r : res (bool * st)) : bool := match r with Ok (true, _) => true | _ => false end.
(** A prover of any kind makes a proof and a message, the verifier examines them. *)
Definition tgame (t : mtree) (a : st) (adv : prog (nizk * bytes)) : prog (bool * nizk * bytes) :=
  pbind adv (fun zm => pbind (tverify_ro t (fst zm) (snd zm) a) (fun r => Ret (taccepts r, fst zm, snd zm))).
Definition twon (ok : nizk -> bool) (t : mtree) (a : st) (adv : prog (nizk * bytes)) (y : list bytes) : bool :=
  match sample (tgame t a adv) [] y with Some ((acc, z, _), _) => acc && ok z | None => false end.
(** Two successful runs of the adversary for one message and one precommitment *)
Definition ttwo_runs (ok : nizk -> bool) (t : mtree) (a : st) (adv : prog (nizk * bytes)) (A : list bytes) (n : nat) (z z' : nizk) : Prop :=
  exists y y' msg m m', In y (tapes A n) /\ In y' (tapes A n) /\ sample adv [] y = Some ((z, msg), m) /\ sample adv [] y' = Some ((z', msg), m') /\
    twon ok t a adv y = true /\ twon ok t a adv y' = true /\ n_pre z = n_pre z'.
(** The verifier has come, with a proof that [ok] lets through, to a statement that has a description, and validate has raised nothing. *)
Definition reached (ok : nizk -> bool) (t : mtree) (a : st) (z : nizk) (v : verifier) (s : stmt) (a1 : st) : Prop :=
  ok z = true /\ tproc t (n_pre z) a = Ok ((v, s), a1) /\ (exists h, prehash_input s = Ok h) /\ tvalid t s = Ok tt.
(** What is asked of these statements: well-formed, prime orders from the list, and secrets of one name with one value. *)
Definition tsane (ok : nizk -> bool) (qs : list Z) (t : mtree) (a : st) : Prop :=
  forall z v s a1, reached ok t a z v s a1 -> wfs s /\ coh (env a1) (svars s) /\ orders_in (fun q => prime q /\ In q qs) s.
End O.

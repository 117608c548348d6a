(** Vocabulary of C91: a simulator for conjunctions with primitives defined by users in the random oracle model; see OracleZk.v, which has
    the same for the library's statements. *)
From Coq Require Import String Znumtheory.
From Verif Require Import Base World Val Expr Utils Stmt Prove Verify Spec Shapes Distrib Custom Mixed MixedOr Nested TreeZk Oracle OracleZk OracleTree.
Open Scope Z_scope.
Open Scope list_scope.

Section O.
Context {W : World}.

Definition tproof_part (r : res (nizk * st)) : res nizk := match r with Ok (z, _) => Ok z | Err e => Err e end.
(** Someone who has asked the questions [m] before gets a proof of prove(), and may go on asking: [D]. *)
Definition treal {R} (T : mtree) (sd : dict Z) (msg : bytes) (D : res nizk -> prog R) (m : memo) (t : list bytes) (a : st) : option (R * memo) :=
  sample (pbind (tprove_ro T sd msg a) (fun r => D (tproof_part r))) m t.
(** The simulator knows no secret: prepare_simulate_proof (which calls simulate_precommit and construct_stmt of the users' classes), a question
    for the digest of the statement, the next answer as challenge, simulate_proof(challenge=c); and that answer becomes the answer to
    the question that the verifier will ask. *)
Definition tsimulator (T : mtree) (msg : bytes) (m : memo) (t : list bytes) (a : st) : option (res nizk * memo * list bytes * option bytes) :=
  match tprep T (set_simulated true (tshell T)) a with
  | Err e => Some (Err e, m, t, None)
  | Ok (s, a) =>
    match prehash_input s with
    | Err e => Some (Err e, m, t, None)
    | Ok h =>
      match reply m t h with
      | None => None
      | Some (y, m, t) =>
        match t with
        | [] => None
        | y' :: t' =>
          match simulate_proof s None (Some (be_int y')) a with
          | Err e => Some (Err e, m, t, None)
          | Ok (x, _) =>
            match fs_input h [tsent T (t_pre x); t_com x] msg with
            | Err e => Some (Err e, m, t, None)
            | Ok i => Some (Ok (mkNizk (be_int y') (t_resp x) (tsent T (t_pre x)) (VBytes y)), (i, y') :: m, t', Some i)
            end
          end
        end
      end
    end
  end.
Definition tideal {R} (T : mtree) (msg : bytes) (D : res nizk -> prog R) (m : memo) (t : list bytes) (a : st) : option (R * memo) :=
  match tsimulator T msg m t a with
  | Some (z, m, t, _) => sample (D z) m t
  | None => None
  end.
(** The simulator changed the answer to a question that had been asked. *)
Definition treused (T : mtree) (msg : bytes) (m : memo) (t : list bytes) (a : st) : bool :=
  match tsimulator T msg m t a with Some (_, _, _, Some i) => asked m i | _ => false end.
(** Whatever the classes construct, there is a representation in the group [G] at [path], in which the sum of the bases of [x] has
    the order of the group. *)
Definition tspans (T : mtree) (path : list nat) (x : secret) (G : gid) : Prop :=
  forall c, fill T c -> exists d, Alike.conjunct c path d /\ spans d x /\ grp (dl_lhs d) = G.
End O.

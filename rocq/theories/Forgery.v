(** Vocabulary of C94: proofs made by someone who has seen proofs of others, in the random oracle model. *)
From Coq Require Import String Znumtheory.
From Verif Require Import Base World Val Expr Utils Stmt Prove Verify Spec Claims Shapes Honest Clauses Supply Extract Ident Alike Distrib Custom Mixed MixedOr Nested TreeZk
  Oracle OracleZk Chance OracleTree OracleTreeSim OracleMany ChosenTree.
Open Scope Z_scope.
Open Scope list_scope.

Section O.
Context {W : World}.

(** A program, and what follows it *)
Fixpoint othen {A R} (p : prog A) (k : A -> obs R) : obs R := match p with Ret a => k a | Ask b f => OAsk b (fun y => othen (f y) k) end.
(** An observer (OracleMany.v) who asks for proofs with the messages [ms], and then does [k]. If one of the provers raises an exception, they give up. *)
Fixpoint onote {A R} (v : obs A) (ms : list bytes) (k : A -> list bytes -> obs (option R)) : obs (option R) :=
  match v with
  | ODone x => k x ms
  | OAsk b f => OAsk b (fun y => onote (f y) ms k)
  | OProof msg f => OProof msg (fun z => match z with Ok _ => onote (f z) (msg :: ms) k | Err _ => ODone None end)
  | OSkip v => OSkip (onote v ms k)
  end.
(** They choose a composition and make a proof and a message for it, which verify() examines. *)
Definition forgery (a : st) (v : obs (mtree * nizk * bytes)) : obs (option (bool * (mtree * nizk * bytes) * list bytes)) :=
  onote v [] (fun x ms => othen (tverify_ro (fst (fst x)) (snd (fst x)) (snd x) a) (fun r => ODone (Some (taccepts r, x, ms)))).
(** Accepted, and none of the proofs they have got was made for this message *)
Definition forged (ok : mtree -> nizk -> bool) (o : option (option (option (bool * (mtree * nizk * bytes) * list bytes)) * memo)) : bool :=
  match o with
  | Some (Some (Some (acc, (t, z, msg), ms)), _) => acc && ok t z && negb (existsb (bytes_eqb msg) ms)
  | _ => false
  end.
(** With provers, and with simulators; the random numbers [ts] of the provers, the answers [y] *)
Definition forges (ok : mtree -> nizk -> bool) (a : st) (v : obs (mtree * nizk * bytes)) (Ks : list party) (ts : list (nat -> Z)) (y : list bytes) : bool :=
  forged ok (sample (oreal (forgery a v) (combine Ks ts)) [] y).
(** Two successful runs for one message, with simulators in the place of the provers and the same random numbers *)
Definition two_forgeries (ok : mtree -> nizk -> bool) (a : st) (v : obs (mtree * nizk * bytes)) (Ks : list party) (ts : list (nat -> Z)) (A : list bytes) (n : nat)
  (t t' : mtree) (z z' : nizk) : Prop :=
  exists y y' msg ms ms' m m', In y (tapes A n) /\ In y' (tapes A n) /\
    oideal (forgery a v) (combine Ks ts) [] y = Some (Some (Some (true, (t, z, msg), ms)), m) /\
    oideal (forgery a v) (combine Ks ts) [] y' = Some (Some (Some (true, (t', z', msg), ms')), m') /\
    ok t z = true /\ ok t' z' = true /\ ~ In msg ms /\ ~ In msg ms'.
(** The precommitments in simulated proofs are no raw byte strings (C19). *)
Definition sends_framed (K : party) : Prop := forall msg m tp t z m' tp' i, p_sim K msg m tp t = Some (Ok z, m', tp', i) -> framed (n_pre z).
(** The library's provers, with any values, right or wrong *)
Inductive provers : party -> Prop :=
| PvStmt s sd e e0 : provers (stmt_party s sd e e0)
| PvTree T sd e e0 : provers (tree_party T sd e e0).
(** The same as a program (Oracle.v), of someone who does not make a proof if they got fewer than they wanted or an exception *)
Definition seen_proofs (v : obs (mtree * nizk * bytes)) (l : list (party * (nat -> Z))) (d : mtree * nizk * bytes) : prog (mtree * nizk * bytes) :=
  pbind (oreal v l) (fun o => Ret (match o with Some x => x | None => d end)).
End O.

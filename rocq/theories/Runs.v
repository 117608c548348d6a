(** Vocabulary for properties of provers: runs of one representation proof as functions of the
    random numbers, and corresponding places of two responses of one prover object. *)
From Coq Require Import String.
From Verif Require Import Base World Val Expr Utils Stmt Prove Verify Spec.
Open Scope Z_scope.
Open Scope list_scope.

Section R.
Context {W : World}.

(** commit(), then compute_response(c): commitment and response. *)
Definition honest_run (d : dlrep) (c : Z) : M (val * val) :=
  let! cp := internal_commit (SDL d) (PDL None) None in
  let! r := compute_response (SDL d) (snd cp) c in ret (fst cp, r).
(** simulate_proof(challenge=c): commitment and response. *)
Definition sim_run (d : dlrep) (c : Z) : M (val * val) :=
  let! t := simulate_proof (SDL d) None (Some c) in ret (t_com t, t_resp t).

(** Result of a computation with the values [e] of secrets and the random numbers [t]. *)
Definition outcome {A} (m : M A) (e : nat -> option Z) (t : nat -> Z) : res A :=
  match m (mkSt e t 0) with Ok (a, _) => Ok a | Err x => Err x end.

(** [leaf2 s p c c' r r' d a a' u u']: the prover object [p] of [s] answered the challenges [c], [c']
    with [r], [r']; at one place it proves the representation [d] for real, there the challenges
    are [a], [a'] (published in the responses if the place is in a disjunction) and the responses
    are [u], [u']. *)
Inductive leaf2 : stmt -> prover -> Z -> Z -> val -> val -> dlrep -> Z -> Z -> val -> val -> Prop :=
| L2DL d ks c c' r r' : leaf2 (SDL d) (PDL ks) c c' r r' d c c' r r'
| L2And subs b ps c c' r r' i s p ri ri' d a a' u u' :
    nth_error subs i = Some s -> nth_error ps i = Some p -> index r i = Ok ri -> index r' i = Ok ri' ->
    leaf2 s p c c' ri ri' d a a' u u' -> leaf2 (SAnd subs b) (PAnd ps) c c' r r' d a a' u u'
| L2Or subs b ch i s sp sims c c' r r' cs cs' rs rs' ci ci' ri ri' d a a' u u' :
    nth_error subs i = Some s -> index r 0 = Ok cs -> index r' 0 = Ok cs' -> index r 1 = Ok rs -> index r' 1 = Ok rs' ->
    index cs i = Ok (VInt ci) -> index cs' i = Ok (VInt ci') -> index rs i = Ok ri -> index rs' i = Ok ri' ->
    leaf2 s sp ci ci' ri ri' d a a' u u' -> leaf2 (SOr subs b ch) (POr i sp sims) c c' r r' d a a' u u'
| L2Ext k b pre con sv q c c' r r' d a a' u u' : leaf2 con q c c' r r' d a a' u u' ->
    leaf2 (SExt k b pre (Some con)) (PExt sv (Some (Some q))) c c' r r' d a a' u u'.

(** No disjunction in the tree (outside the primitives). *)
Inductive orfree : stmt -> Prop :=
| OfDL d : orfree (SDL d)
| OfAnd subs b : Forall orfree subs -> orfree (SAnd subs b)
| OfExt k b pre con : orfree (SExt k b pre con).

(** Representations and disjunctions of such alternatives. *)
Inductive alternatives : stmt -> Prop :=
| AlDL d : alternatives (SDL d)
| AlOr subs b ch : Forall alternatives subs -> alternatives (SOr subs b ch).

(** A sequence of successful calls of prove() on one object, with the same values. *)
Inductive history (sd : dict Z) : stmt -> st -> stmt -> st -> Prop :=
| HiStart s a : history sd s a s a
| HiStep s a msg z s1 a1 s2 a2 : prove s sd msg a = Ok ((z, s1), a1) -> history sd s1 a1 s2 a2 -> history sd s a s2 a2.
(** [n] successful calls of prove() on one object, with any values, messages and states in between. *)
Inductive proved : nat -> stmt -> stmt -> Prop :=
| PvNone s : proved 0 s s
| PvMore n s sd msg a z s1 a1 s2 : prove s sd msg a = Ok ((z, s1), a1) -> proved n s1 s2 -> proved (S n) s s2.

Definition is_dl (s : stmt) : Prop := exists d, s = SDL d.
(** number of branches that are not marked as simulated *)
Definition live (subs : list stmt) : nat := List.length (filter (fun s => negb (simulated s)) subs).

(** The response [r] of a disjunction contains the sub-challenge 0 for branch [i]. *)
Definition zero_at (r : val) (i : nat) : Prop := exists cs, index r 0 = Ok cs /\ index cs i = Ok (VInt 0).
(** The response [r] of a conjunction of disjunctions contains the sub-challenge 0. *)
Definition zero_somewhere (r : val) : Prop := exists j k rj, index r j = Ok rj /\ zero_at rj k.

(** A life of one statement object: proofs, verifications of any proofs, interactive provers, simulations, changes of
    its flag; in between anything can happen to the values of Secret objects and to the random numbers. *)
Inductive life : stmt -> stmt -> Prop :=
| LiStart s : life s s
| LiProve s sd msg a z s1 a1 s2 : prove s sd msg a = Ok ((z, s1), a1) -> life s1 s2 -> life s s2
| LiVerify s z msg a b s1 a1 s2 : verify s z msg a = Ok ((b, s1), a1) -> life s1 s2 -> life s s2
| LiProver s sd a o s1 a1 s2 : get_prover s sd a = Ok ((o, s1), a1) -> life s1 s2 -> life s s2
| LiPrecommit s sd a p s1 a1 a2 pre p1 s2 a3 s3 : get_prover s sd a = Ok ((Some p, s1), a1) ->
    precommit s1 p a2 = Ok ((pre, p1, s2), a3) -> life s2 s3 -> life s s3
| LiProcess s pre a v s1 a1 s2 : process_pre s (get_verifier s) pre a = Ok ((v, s1), a1) -> life s1 s2 -> life s s2
| LiSimulate s c a t h s1 a1 s2 : simulate s c a = Ok ((t, h, s1), a1) -> life s1 s2 -> life s s2
| LiFlag s b s2 : life (set_simulated b s) s2 -> life s s2.
End R.

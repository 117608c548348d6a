(** Vocabulary of C95: C94 for statements of the library, also proofs of knowledge of a signature. *)
From Coq Require Import String Znumtheory.
From Verif Require Import Base World Val Expr Utils Stmt Prove Verify Spec Claims Shapes Honest Clauses Supply Extract Ident Alike Distrib Custom Mixed MixedOr Nested TreeZk
  Oracle OracleZk Chance OracleTree OracleTreeSim OracleMany Forgery.
Open Scope Z_scope.
Open Scope list_scope.

Section O.
Context {W : World}.

(** They choose a statement and make a proof and a message for it, which verify() examines. *)
Definition sforgery (a : st) (v : obs (stmt * nizk * bytes)) : obs (option (bool * (stmt * nizk * bytes) * list bytes)) :=
  onote v [] (fun x ms => othen (verify_ro (fst (fst x)) (snd (fst x)) (snd x) a) (fun r => ODone (Some (accepts r, x, ms)))).
(** Accepted, and none of the proofs they have got was made for this message *)
Definition sforged (ok : stmt -> nizk -> bool) (o : option (option (option (bool * (stmt * nizk * bytes) * list bytes)) * memo)) : bool :=
  match o with
  | Some (Some (Some (acc, (s, z, msg), ms)), _) => acc && ok s z && negb (existsb (bytes_eqb msg) ms)
  | _ => false
  end.
(** With provers; the random numbers [ts] of the provers, the answers [y] *)
Definition sforges (ok : stmt -> nizk -> bool) (a : st) (v : obs (stmt * nizk * bytes)) (Ks : list party) (ts : list (nat -> Z)) (y : list bytes) : bool :=
  sforged ok (sample (oreal (sforgery a v) (combine Ks ts)) [] y).
(** Two successful runs for one message, with simulators in the place of the provers and the same random numbers *)
Definition two_sforgeries (ok : stmt -> nizk -> bool) (a : st) (v : obs (stmt * nizk * bytes)) (Ks : list party) (ts : list (nat -> Z)) (A : list bytes) (n : nat)
  (s0 s0' : stmt) (z z' : nizk) : Prop :=
  exists y y' msg ms ms' m m', In y (tapes A n) /\ In y' (tapes A n) /\
    oideal (sforgery a v) (combine Ks ts) [] y = Some (Some (Some (true, (s0, z, msg), ms)), m) /\
    oideal (sforgery a v) (combine Ks ts) [] y' = Some (Some (Some (true, (s0', z', msg), ms')), m') /\
    ok s0 z = true /\ ok s0' z' = true /\ ~ In msg ms /\ ~ In msg ms'.
(** The probability, over all random numbers of the provers and all answers, is above n*K/N + p*n/Q. *)
Definition often (Q : Z) (sz : list (nat * (nat -> Z))) (p : nat) (A : list bytes) (K : Z) (n : nat) (E : list (nat -> Z) -> list bytes -> bool) : Prop :=
  (Q * Z.of_nat n * K + len A * Z.of_nat p * Z.of_nat n) * (len (boxes sz) * len A ^ Z.of_nat n) <
    len A * Q * count (fun x => E (map vec (fst x)) (snd x)) (list_prod (boxes sz) (tapes A n)).
(** For every statement a number of random numbers and their ranges: success depends only on their remainders *)
Definition numbers (sz : list (nat * (nat -> Z))) (p : nat) : Prop := List.length sz = p /\ Forall (fun s => forall j, (j < fst s)%nat -> 1 < snd s j) sz.
Definition only_remainders (sz : list (nat * (nat -> Z))) (E : list (nat -> Z) -> bool) : Prop :=
  forall ps, Forall2 (fun s p => congr (fst s) (snd s) (fst p) (snd p)) sz ps -> E (map fst ps) = E (map snd ps).
Definition fair (sz : list (nat * (nat -> Z))) (Ks : list party) : Prop :=
  numbers sz (List.length Ks) /\ forall ok a v b y, oasks b v -> (b + 2 + 2 * List.length Ks <= List.length y)%nat -> only_remainders sz (fun ts => sforges ok a v Ks ts y).
End O.

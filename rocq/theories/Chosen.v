(** The random oracle model, when the prover also chooses the statement: base.py:69-91 and composition.py:270-274 put the
    statement into the input of the hash function of the challenge. *)
From Coq Require Import String Znumtheory.
From Verif Require Import Base World Val Expr Utils Stmt Prove Verify Spec Shapes Claims Extract Ident Alike Oracle.
Open Scope Z_scope.
Open Scope list_scope.

Section C.
Context {W : World}.

(** A prover of any kind chooses a statement and makes a proof and a message for it; the verifier of this statement examines them. *)
Definition cgame (a : st) (adv : prog (stmt * nizk * bytes)) : prog (bool * (stmt * nizk * bytes)) :=
  pbind adv (fun x => pbind (verify_ro (fst (fst x)) (snd (fst x)) (snd x) a) (fun r => Ret (accepts r, x))).
(** Whether a statement and a proof with the property [ok] are accepted, with these answers *)
Definition cwon (ok : stmt -> nizk -> bool) (a : st) (adv : prog (stmt * nizk * bytes)) (t : list bytes) : bool :=
  match sample (cgame a adv) [] t with Some ((acc, (s, z, _)), _) => acc && ok s z | None => false end.
(** Two successful runs of the prover, for one message *)
Definition two_choices (ok : stmt -> nizk -> bool) (a : st) (adv : prog (stmt * nizk * bytes)) (A : list bytes) (n : nat)
  (s0 s0' : stmt) (z z' : nizk) : Prop :=
  exists t t' msg m m', In t (tapes A n) /\ In t' (tapes A n) /\ sample adv [] t = Some ((s0, z, msg), m) /\
    sample adv [] t' = Some ((s0', z', msg), m') /\ cwon ok a adv t = true /\ cwon ok a adv t' = true /\ ok s0 z = true /\ ok s0' z' = true.
(** The textual form of a point determines the point and can be told apart from what surrounds it. *)
Definition readable : Prop := repr_ok /\ forall p q : pt, repr_pt p = repr_pt q -> p = q.
(** What is asked of the statement and the proof: the precommitment is no raw byte string (C19); in the statement that the verifier
    comes to work with, secrets of one name have one value, *)
Definition tidy (a : st) (s0 : stmt) (z : nizk) : Prop :=
  framed (n_pre z) /\ forall v s a1, process_pre s0 (get_verifier s0) (n_pre z) a = Ok ((v, s), a1) -> coh (env a1) (svars s).
(** and the groups have prime orders from the list. *)
Definition usual (qs : list Z) (a : st) (s0 : stmt) (z : nizk) : Prop :=
  framed (n_pre z) /\ wfs s0 /\ forall v s a1, process_pre s0 (get_verifier s0) (n_pre z) a = Ok ((v, s), a1) ->
    coh (env a1) (svars s) /\ orders_in (fun q => prime q /\ In q qs) s.
End C.

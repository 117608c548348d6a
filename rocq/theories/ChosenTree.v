(** The random oracle model, when the prover also chooses a composition with user-defined primitives: OracleTree.v with the choice of
    Chosen.v. *)
From Coq Require Import String Znumtheory.
From Verif Require Import Base World Val Expr Utils Stmt Prove Verify Spec Shapes Claims Extract Ident Alike Custom Mixed MixedOr Nested Oracle OracleTree.
Open Scope Z_scope.
Open Scope list_scope.

Section C.
Context {W : World}.

(** A prover of any kind chooses a composition and makes a proof and a message for it; the verifier of this composition examines them. *)
Definition tcgame (a : st) (adv : prog (mtree * nizk * bytes)) : prog (bool * (mtree * nizk * bytes)) :=
  pbind adv (fun x => pbind (tverify_ro (fst (fst x)) (snd (fst x)) (snd x) a) (fun r => Ret (taccepts r, x))).
(** Whether a composition and a proof with the property [ok] are accepted, with these answers *)
Definition tcwon (ok : mtree -> nizk -> bool) (a : st) (adv : prog (mtree * nizk * bytes)) (y : list bytes) : bool :=
  match sample (tcgame a adv) [] y with Some ((acc, (t, z, _)), _) => acc && ok t z | None => false end.
(** Two successful runs of the prover, for one message *)
Definition ttwo_choices (ok : mtree -> nizk -> bool) (a : st) (adv : prog (mtree * nizk * bytes)) (A : list bytes) (n : nat)
  (t t' : mtree) (z z' : nizk) : Prop :=
  exists y y' msg m m', In y (tapes A n) /\ In y' (tapes A n) /\ sample adv [] y = Some ((t, z, msg), m) /\
    sample adv [] y' = Some ((t', z', msg), m') /\ tcwon ok a adv y = true /\ tcwon ok a adv y' = true.
(** What is asked of compositions and proofs: [tsane] of OracleTree.v, and the precommitment is no raw byte string (C19). *)
Definition tusual (ok : mtree -> nizk -> bool) (qs : list Z) (a : st) : Prop :=
  forall t, tsane (ok t) qs t a /\ forall z, ok t z = true -> framed (n_pre z).
End C.

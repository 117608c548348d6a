(** Words of C17: states, dictionaries and objects with renamed secrets (see [rename] in Ident.v). *)
From Verif Require Import Base World Val Expr Utils Stmt Prove Verify Ident.
Open Scope Z_scope.
Open Scope list_scope.

(** the object [j i] of the second process has the value of the object [i] of the first *)
Definition same_env (j : nat -> nat) (e e' : nat -> option Z) : Prop := forall i, e' (j i) = e i.
(** ... and both processes draw the same random numbers from now on *)
Definition same_state (j : nat -> nat) (a a' : st) : Prop := same_env j (env a) (env a') /\ tape a' = tape a /\ pos a' = pos a.
Definition rdict (f : bytes -> bytes) (j : nat -> nat) {A} (d : dict A) : dict A := map (fun kv => (rsec f j (fst kv), snd kv)) d.

Section R.
Context {W : World}.
(** get_prover() and the interactive protocol with the verifier of [sv] *)
Definition conversation (sp : stmt) (sd : dict Z) (sv : stmt) : M bool :=
  let! r := get_prover sp sd in
  match r with
  | (Some p, s) => run_interactive s p sv
  | (None, _) => raise EAttributeErr
  end.
End R.

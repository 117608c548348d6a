(** Vocabulary: statements and dictionaries up to the values of the secrets; the non-interactive proof of a prover. *)
From Coq Require Import String.
From Verif Require Import Base World Val Expr Utils Stmt Prove Verify.
Open Scope Z_scope.
Open Scope list_scope.

Section B.
Context {W : World}.

(** The same dictionary with other values. *)
Definition blank_dict (d : dict Z) : dict Z := map (fun kv => (fst kv, 0)) d.
(** The same statement object, with the values recorded in its representations forgotten. *)
Fixpoint blank (s : stmt) : stmt :=
  match s with
  | SDL d => SDL (mkDL (dl_lhs d) (dl_bases d) (dl_secs d) (blank_dict (dl_vals d)) (dl_sim d))
  | SAnd subs b => SAnd (map blank subs) b
  | SOr subs b c => SOr (map blank subs) b c
  | SExt k b pre (Some con) => SExt k b pre (Some (blank con))
  | SExt k b pre None => SExt k b pre None
  end.

(** get_nizk_proof() of the prover object [p] of [s]. *)
Definition nizk_of (s : stmt) (p : prover) (msg : bytes) : M nizk :=
  let! r := get_nizk_proof s p msg in ret (fst (fst r)).
End B.

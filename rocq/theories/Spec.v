(** Specifications that do not depend on the helpers of the model: linear combinations, and what a
    statement claims. *)
From Coq Require Import String.
From Verif Require Import Base World Val Expr Utils Stmt.
Open Scope Z_scope.
Open Scope list_scope.

(** sum of a list of integers; value of a list of bits, least significant first *)
Definition zsum (l : list Z) : Z := fold_right Z.add 0 l.
Definition binval (bits : list Z) : Z := fold_right (fun b acc => b + 2 * acc) 0 bits.

Section Spec.
Context {W : World}.

(** w0*p0 + w1*p1 + ... in group g *)
Fixpoint lincomb (g : gid) (ws : list Z) (ps : list pt) : pt :=
  match ws, ps with
  | w :: ws, p :: ps => padd (pmul w p) (lincomb g ws ps)
  | _, _ => inf g
  end.

(** the expression x0*g0 + x1*g1 + ... as a user writes it *)
Definition expr_of_terms (t : secret * pt) (ts : list (secret * pt)) : expr :=
  fold_left (fun acc t => eadd acc (emul (fst t) (snd t))) ts (emul (fst t) (snd t)).

Definition in_group (g : gid) (ps : list pt) : Prop := Forall (fun p => grp p = g) ps.

(** A valuation of secrets by name satisfies a representation equation. *)
Definition dl_holds (w : bytes -> Z) (d : dlrep) : Prop :=
  dl_lhs d = lincomb (grp (dl_lhs d)) (map (fun s => w (sname s)) (dl_secs d)) (dl_bases d).
End Spec.

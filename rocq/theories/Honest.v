(** The situation of an honest prover, as hypotheses of the completeness theorems. *)
From Coq Require Import String.
From Verif Require Import Base World Val Expr Utils Stmt Prove Verify Spec Shapes Claims DictProofs Build Process Ktruth Provers.
Open Scope Z_scope.
Open Scope list_scope.

(** [x] gets the value [v] from its object or from the dictionary, and no other value. *)
Definition given (x : secret) (v : Z) (sd : dict Z) (e : nat -> option Z) : Prop :=
  (forall k u, In (k, u) sd -> k = x /\ u = v) /\ (forall u, e (sid x) = Some u -> u = v) /\
  (sd <> [] \/ e (sid x) <> None).

Section H.
Context {W : World}.

(** Well-formed statement over the user's secrets [U]: as DLRep.__init__ makes its leaves; no
    custom primitive below a disjunction (see C37). *)
Inductive Sok (U : list secret) : stmt -> Prop :=
| SoDL d : incl (dl_secs d) U -> List.length (dl_secs d) = List.length (dl_bases d) ->
    dl_bases d <> [] -> Sok U (SDL d)
| SoAnd subs b : Forall (Sok U) subs -> Sok U (SAnd subs b)
| SoOr subs b c : Forall (Sok U) subs -> Forall notcustom (List.concat (map kinds subs)) -> Sok U (SOr subs b c)
| SoExt k b pre con : incl (kuser k) U -> Sok U (SExt k b pre con).

(** [w]: the user's values by name. [e]: current values of the Secret objects; [sd]: the dictionary
    given to prove()/get_prover(). Names identify secrets; the internal secrets of the primitives
    are objects of their own. *)
Record honest (U : list secret) (w : bytes -> Z) (s : stmt) (sd : dict Z) (e : nat -> option Z) : Prop := {
  ho_ok : Sok U s;
  ho_names : wfL (U ++ kints s);
  ho_internal : NoDup (map sid (kints s));
  ho_disjoint : forall x y, In x (kints s) -> In y U -> sid x <> sid y;
  ho_true : Tru sd w s;
  ho_vals : Vals U w s;
  ho_dict : entries_ok U w sd;
  ho_env : agree w e U
}.
End H.

(** Words of C79: where the values of secrets come from, the Secret objects or the dictionary. *)
From Verif Require Import Base World Val Expr Utils Stmt Shapes.
Open Scope Z_scope.
Open Scope list_scope.

(** [v] is the value of [x] for a prover: the dictionary decides, then the Secret object. *)
Definition total (sd : dict Z) (e : nat -> option Z) (x : secret) (v : Z) : Prop :=
  (exists k, In (k, v) sd /\ sname k = sname x) \/ ((forall k u, In (k, u) sd -> sname k <> sname x) /\ e (sid x) = Some v).

Section S.
Context {W : World}.

(** The representations of a new statement have recorded the values that the Secret objects have in [e], and its primitives have not
    been used yet. *)
Inductive newly (e : nat -> option Z) : stmt -> Prop :=
| NwDL d : (forall k v, In (k, v) (dl_vals d) -> In k (dl_secs d) /\ e (sid k) = Some v) ->
    (forall x v, In x (dl_secs d) -> e (sid x) = Some v -> exists k, In (k, v) (dl_vals d) /\ sname k = sname x) -> newly e (SDL d)
| NwAnd subs b : Forall (newly e) subs -> newly e (SAnd subs b)
| NwOr subs b c : Forall (newly e) subs -> newly e (SOr subs b c)
| NwExt k b pre : newly e (SExt k b pre None).

(** The statement without the recorded values. *)
Fixpoint unvalued (s : stmt) : stmt :=
  match s with
  | SDL d => SDL (mkDL (dl_lhs d) (dl_bases d) (dl_secs d) [] (dl_sim d))
  | SAnd subs b => SAnd (map unvalued subs) b
  | SOr subs b c => SOr (map unvalued subs) b c
  | SExt k b pre con => SExt k b pre (option_map unvalued con)
  end.

(** The secrets of the programmer in a statement: those of representations and those that primitives were built with. *)
Fixpoint public (s : stmt) : list secret :=
  match s with
  | SDL d => dl_secs d
  | SAnd subs _ | SOr subs _ _ => List.concat (map public subs)
  | SExt k _ _ _ => kuser k
  end.
(** every representation has a secret *)
Inductive inhabited : stmt -> Prop :=
| IhDL d : dl_secs d <> [] -> inhabited (SDL d)
| IhAnd subs b : Forall inhabited subs -> inhabited (SAnd subs b)
| IhOr subs b c : Forall inhabited subs -> inhabited (SOr subs b c)
| IhExt k b pre con : inhabited (SExt k b pre con).

(** Two calls of prove() for one statement, in which each secret has the same value in total but the values come from different places:
    [s1], [sd1], [e1] are the statement object, the dictionary and the values of the Secret objects in the first one, [s2], [sd2], [e2]
    in the second. [U]: the secrets of the programmer, which are identified by their names. *)
Record two_ways (U : list secret) (s1 s2 : stmt) (sd1 sd2 : dict Z) (e1 e2 : nat -> option Z) : Prop := {
  tw_same : unvalued s1 = unvalued s2;
  tw_new1 : newly e1 s1;
  tw_new2 : newly e2 s2;
  tw_inhabited : inhabited s1;
  tw_public : incl (public s1) U;
  tw_names : wfL (U ++ kints s1);
  tw_disjoint : forall x y, In x (kints s1) -> In y U -> sid x <> sid y;
  tw_keys1 : incl (map fst sd1) U;
  tw_keys2 : incl (map fst sd2) U;
  tw_once1 : NoDup (map (fun kv => sname (fst kv)) sd1);
  tw_once2 : NoDup (map (fun kv => sname (fst kv)) sd2);
  tw_total : forall x v, In x U -> (total sd1 e1 x v <-> total sd2 e2 x v);
  tw_others : forall i, (forall x, In x U -> sid x <> i) -> e1 i = e2 i
}.
End S.

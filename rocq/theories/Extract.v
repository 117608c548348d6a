(** Vocabulary of the soundness theorems: where the response for a secret is found, disjunction
    branches, and what extracted values satisfy. Independent of the verifier code. *)
From Coq Require Import String Znumtheory.
From Verif Require Import Base World Val Expr Utils Stmt Prove Verify Spec Shapes Clauses.
Open Scope Z_scope.
Open Scope list_scope.

Section E.
Context {W : World}.

(** [Occ s r x a]: in the statement [s] with response [r], the value [a] is the response for an
    occurrence of the secret [x] outside of or-branches. *)
Inductive Occ : stmt -> val -> secret -> val -> Prop :=
| OcDL d r i x a : nth_error (dl_secs d) i = Some x -> index r i = Ok a -> Occ (SDL d) r x a
| OcAnd subs b r i s ri x a : nth_error subs i = Some s -> index r i = Ok ri -> Occ s ri x a ->
    Occ (SAnd subs b) r x a
| OcExt k b pre c r x a : Occ c r x a -> Occ (SExt k b pre (Some c)) r x a.

(** [branch s r s' r']: [s'] is a branch of a disjunction anywhere inside of [s], [r'] its response. *)
Inductive branch : stmt -> val -> stmt -> val -> Prop :=
| BrHere subs b ch r rs i s ri : nth_error subs i = Some s -> index r 1 = Ok rs -> index rs i = Ok ri ->
    branch (SOr subs b ch) r s ri
| BrOr subs b ch r rs i s ri s' r' : nth_error subs i = Some s -> index r 1 = Ok rs -> index rs i = Ok ri ->
    branch s ri s' r' -> branch (SOr subs b ch) r s' r'
| BrAnd subs b r i s ri s' r' : nth_error subs i = Some s -> index r i = Ok ri -> branch s ri s' r' ->
    branch (SAnd subs b) r s' r'
| BrExt k b pre c r s' r' : branch c r s' r' -> branch (SExt k b pre (Some c)) r s' r'.

(** All occurrences of one secret have the same response. *)
Definition one_response (e : nat -> option Z) (s : stmt) (r : val) : Prop :=
  forall x y a b, Occ s r x a -> Occ s r y b -> same_secret e x y -> a = b.

(** The response has an entry for everything. *)
Inductive Rshape : stmt -> val -> Prop :=
| RsDL d r : (forall i, (i < List.length (dl_secs d))%nat -> exists a, index r i = Ok a) -> Rshape (SDL d) r
| RsAnd subs b r : (forall i s, nth_error subs i = Some s -> exists ri, index r i = Ok ri /\ Rshape s ri) ->
    Rshape (SAnd subs b) r
| RsOr subs b ch r : (forall i s, nth_error subs i = Some s -> exists rs ri,
    index r 1 = Ok rs /\ index rs i = Ok ri /\ Rshape s ri) -> Rshape (SOr subs b ch) r
| RsExt k b pre c r : Rshape c r -> Rshape (SExt k b pre (Some c)) r.

(** Orders of the groups of all representations, those in or-branches included. *)
Inductive orders_in (P : Z -> Prop) : stmt -> Prop :=
| OiDL d : P (order (grp (dl_lhs d))) -> orders_in P (SDL d)
| OiAnd subs b : Forall (orders_in P) subs -> orders_in P (SAnd subs b)
| OiOr subs b c : Forall (orders_in P) subs -> orders_in P (SOr subs b c)
| OiExt k b pre con : orders_in P con -> orders_in P (SExt k b pre (Some con)).

(** No disjunction inside. *)
Inductive noor : stmt -> Prop :=
| NoDL d : noor (SDL d)
| NoAnd subs b : Forall noor subs -> noor (SAnd subs b)
| NoExt k b pre con : noor con -> noor (SExt k b pre (Some con)).

(** [Sat w s]: the integers [w] (per group order and secret name) satisfy all equations of [s]
    outside of disjunctions; of every disjunction, some branch is satisfied by some integers. *)
Inductive Sat (w : Z -> bytes -> Z) : stmt -> Prop :=
| SatDL d : in_group (grp (dl_lhs d)) (dl_bases d) -> dl_holds (w (order (grp (dl_lhs d)))) d -> Sat w (SDL d)
| SatAnd subs b : Forall (Sat w) subs -> Sat w (SAnd subs b)
| SatOr subs b c x w' : In x subs -> Sat w' x -> Sat w (SOr subs b c)
| SatExt k b pre con : Sat w con -> Sat w (SExt k b pre (Some con)).

(** [Extr w s c c' r r']: the integers [w] satisfy [s] as in [Sat], and they are computed from the
    responses [r], [r'] to the challenges [c], [c']: the difference of the responses divided by the
    difference of the challenges, modulo the group order. *)
Inductive Extr (w : Z -> bytes -> Z) : stmt -> Z -> Z -> val -> val -> Prop :=
| ExDL d c c' r r' : in_group (grp (dl_lhs d)) (dl_bases d) -> dl_holds (w (order (grp (dl_lhs d)))) d ->
    (forall i x, nth_error (dl_secs d) i = Some x -> exists z z', index r i = Ok (VInt z) /\ index r' i = Ok (VInt z') /\
       let q := order (grp (dl_lhs d)) in (q | w q (sname x) * (c - c') - (z - z'))) ->
    Extr w (SDL d) c c' r r'
| ExAnd subs b c c' r r' :
    (forall i s, nth_error subs i = Some s -> exists ri ri', index r i = Ok ri /\ index r' i = Ok ri' /\ Extr w s c c' ri ri') ->
    Extr w (SAnd subs b) c c' r r'
| ExOr subs b ch c c' r r' i s w' cs cs' ci ci' rs rs' ri ri' : nth_error subs i = Some s ->
    index r 0 = Ok cs -> index r' 0 = Ok cs' -> index r 1 = Ok rs -> index r' 1 = Ok rs' ->
    index cs i = Ok (VInt ci) -> index cs' i = Ok (VInt ci') -> index rs i = Ok ri -> index rs' i = Ok ri' ->
    ~ (2 ^ challenge_length | ci - ci') -> Extr w' s ci ci' ri ri' -> Extr w (SOr subs b ch) c c' r r'
| ExExt k b pre con c c' r r' : Extr w con c c' r r' -> Extr w (SExt k b pre (Some con)) c c' r r'.

(** Sub-challenges as an honest prover sends them: as many as branches, of absolute value below
    2^128. *)
Inductive canonical : stmt -> val -> Prop :=
| CaDL d r : canonical (SDL d) r
| CaAnd subs b r : (forall i s ri, nth_error subs i = Some s -> index r i = Ok ri -> canonical s ri) ->
    canonical (SAnd subs b) r
| CaOr subs b ch r cs rs : r = VTuple [VList (map VInt cs); rs] \/ r = VList [VList (map VInt cs); rs] ->
    List.length cs = List.length subs -> Forall (fun c => Z.abs c < 2 ^ challenge_length) cs ->
    (forall i s ri, nth_error subs i = Some s -> index rs i = Ok ri -> canonical s ri) ->
    canonical (SOr subs b ch) r
| CaExt k b pre c r : canonical c r -> canonical (SExt k b pre (Some c)) r.

(** A statement with its response or a branch with its response. *)
Definition scope (s : stmt) (r : val) (s' : stmt) (r' : val) : Prop := (s' = s /\ r' = r) \/ branch s r s' r'.

(** A verifier object all of whose inner verifiers exist. *)
Inductive vready : verifier -> Prop :=
| VrDL : vready RDL
| VrAnd l : Forall vready l -> vready (RAnd l)
| VrOr l : Forall vready l -> vready (ROr l)
| VrExt v : vready v -> vready (RExt (Some v)).

(** All bases of a representation are in the group of its left-hand side, there is one base per
    secret, and disjunctions have branches. *)
Inductive groups_ok : stmt -> Prop :=
| GoDL d : in_group (grp (dl_lhs d)) (dl_bases d) -> List.length (dl_secs d) = List.length (dl_bases d) -> groups_ok (SDL d)
| GoAnd subs b : Forall groups_ok subs -> groups_ok (SAnd subs b)
| GoOr subs b c : subs <> [] -> Forall groups_ok subs -> groups_ok (SOr subs b c)
| GoExt k b pre con : groups_ok con -> groups_ok (SExt k b pre (Some con)).

(** Every representation is inside of some disjunction. *)
Inductive guarded : stmt -> Prop :=
| GuAnd subs b : Forall guarded subs -> guarded (SAnd subs b)
| GuOr subs b c : guarded (SOr subs b c)
| GuExt k b pre con : guarded con -> guarded (SExt k b pre (Some con)).

(** For every disjunction there are as many sub-challenges as branches. *)
Inductive counted : stmt -> val -> Prop :=
| CnDL d r : counted (SDL d) r
| CnAnd subs b rs : Forall2 counted subs rs -> counted (SAnd subs b) (VList rs)
| CnOr subs b ch cs rs : List.length cs = List.length subs -> Forall2 counted subs rs ->
    counted (SOr subs b ch) (VTuple [VList (map VInt cs); VList rs])
| CnExt k b pre c r : counted c r -> counted (SExt k b pre (Some c)) r.

(** The commitment made of neutral elements only. *)
Fixpoint neutral_com (s : stmt) : val :=
  match s with
  | SDL d => VPt (inf (grp (dl_lhs d)))
  | SAnd subs _ | SOr subs _ _ => VList (map neutral_com subs)
  | SExt _ _ _ (Some c) => neutral_com c
  | SExt _ _ _ None => VNone
  end.
End E.

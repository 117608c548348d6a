(** Vocabulary in which the theorems about statement trees are stated: the secrets and primitives
    of a statement, dictionaries and environments that agree with a valuation, two parties' views
    of one statement. *)
From Coq Require Import String.
From Verif Require Import Base World Val Expr Utils Stmt.
Open Scope Z_scope.
Open Scope list_scope.

(** Two secrets of the list with the same name are the same object, and vice versa. *)
Definition wfL (L : list secret) : Prop :=
  forall s t, In s L -> In t L -> (sname s = sname t <-> sid s = sid t).

(** All entries of the dictionary have keys in L and values given by the valuation. *)
Definition entries_ok {A} (L : list secret) (f : bytes -> A) (d : dict A) : Prop :=
  forall k v, In (k, v) d -> In k L /\ v = f (sname k).
(** Weaker than [wfL], relative to an environment: same name, same current value. *)
Definition coh (e : nat -> option Z) (l : list secret) : Prop :=
  forall s t, In s l -> In t l -> sname s = sname t -> e (sid s) = e (sid t).
(** The Secret objects of the list that have a value have the one given by the valuation. *)
Definition agree (w : bytes -> Z) (e : nat -> option Z) (l : list secret) : Prop :=
  forall x v, In x l -> e (sid x) = Some v -> v = w (sname x).

Section S.
Context {W : World}.

(** All secrets of a statement (the list get_secret_vars returns). *)
Fixpoint svars (s : stmt) : list secret :=
  match s with
  | SDL d => dl_secs d
  | SAnd subs _ | SOr subs _ _ => List.concat (map svars subs)
  | SExt _ _ _ (Some c) => svars c
  | SExt _ _ _ None => []
  end.

(** No ExtendedProofStmt inside. *)
Inductive noext : stmt -> Prop :=
| NEDL d : noext (SDL d)
| NEAnd subs b : Forall noext subs -> noext (SAnd subs b)
| NEOr subs b c : Forall noext subs -> noext (SOr subs b c).

(** Every inner statement has been constructed. *)
Inductive built : stmt -> Prop :=
| BDL d : built (SDL d)
| BAnd subs b : Forall built subs -> built (SAnd subs b)
| BOr subs b c : Forall built subs -> built (SOr subs b c)
| BExt k b pre con : built con -> built (SExt k b pre (Some con)).

(** as many secrets as bases in every representation *)
Inductive wfs : stmt -> Prop :=
| WFDL d : List.length (dl_secs d) = List.length (dl_bases d) -> wfs (SDL d)
| WFAnd subs b : Forall wfs subs -> wfs (SAnd subs b)
| WFOr subs b c : Forall wfs subs -> wfs (SOr subs b c)
| WFExtN k b pre : wfs (SExt k b pre None)
| WFExt k b pre con : wfs con -> wfs (SExt k b pre (Some con)).

(** The primitives of a statement tree. *)
Fixpoint kinds (s : stmt) : list kind :=
  match s with
  | SDL _ => []
  | SAnd subs _ | SOr subs _ _ => List.concat (map kinds subs)
  | SExt k _ _ _ => [k]
  end.

(** secrets of the user / internal secrets of a primitive *)
Definition kuser (k : kind) : list secret :=
  match k with
  | KNeq _ _ _ _ x _ _ _ => [x]
  | KRange _ _ _ _ _ x r _ => [x; r]
  | KBBS _ _ _ sv _ _ _ _ => sv
  | KCustom _ rows => List.concat (map (fun r => map fst (snd r)) rows)
  end.

Definition kint (k : kind) : list secret :=
  match k with
  | KNeq _ _ _ _ _ a b _ => [a; b]
  | KRange _ _ _ _ _ _ _ rs => rs
  | KBBS _ _ _ _ r1 r2 d1 d2 => [r1; r2; d1; d2]
  | KCustom _ _ => []
  end.

(** The internal secrets of all primitives of a tree. *)
Definition kints (s : stmt) : list secret := List.concat (map kint (kinds s)).

Definition notcustom (k : kind) : Prop := match k with KCustom _ _ => False | _ => True end.

(** The values captured by the DLRep statements of a tree when they were built. *)
Inductive Vals (U : list secret) (w : bytes -> Z) : stmt -> Prop :=
| VaDL d : entries_ok U w (dl_vals d) -> Vals U w (SDL d)
| VaAnd subs b : Forall (Vals U w) subs -> Vals U w (SAnd subs b)
| VaOr subs b c : Forall (Vals U w) subs -> Vals U w (SOr subs b c)
| VaExt k b pre con : Vals U w (SExt k b pre con).

(** A verifier's range statement built with values needs them in range to be constructed. *)
Definition vkOK (e : nat -> option Z) (k : kind) : Prop :=
  match k with
  | KRange _ _ _ n true x _ _ => exists v, e (sid x) = Some v /\ 0 <= v < 2 ^ Z.of_nat n
  | _ => True
  end.

(** A DLNotEqual whose precommitment is the neutral element: its blinder is zero. *)
Definition neq_neutral (k : kind) (pre : val) : Prop :=
  match k with KNeq _ g _ _ _ _ _ _ => pre = VPt (inf (grp g)) | _ => False end.

(** No DLNotEqual of the tree has such a precommitment. *)
Fixpoint nonneutral (s : stmt) : Prop :=
  match s with
  | SDL _ => True
  | SAnd subs _ | SOr subs _ _ => fold_right (fun x P => nonneutral x /\ P) True subs
  | SExt k _ pre _ => ~ neq_neutral k pre
  end.

(** The structure, points, secrets and primitives of a tree, without flags, captured values,
    precommitments and inner statements. *)
Fixpoint pstrip (s : stmt) : stmt :=
  match s with
  | SDL d => SDL (mkDL (dl_lhs d) (dl_bases d) (dl_secs d) [] false)
  | SAnd subs _ => SAnd (map pstrip subs) false
  | SOr subs _ _ => SOr (map pstrip subs) false None
  | SExt k _ _ _ => SExt k false VNone None
  end.

(** ** Statements that agree up to a renaming of secrets *)
Definition ren (f g : bytes -> bytes) (a b : secret) : Prop :=
  sname b = f (sname a) /\ sname a = g (sname b).

Inductive KSim (f g : bytes -> bytes) : kind -> kind -> Prop :=
| KSNeq H0 b H1 h x al be x' al' be' bnd :
    ren f g x x' -> ren f g al al' -> ren f g be be' ->
    KSim f g (KNeq H0 b H1 h x al be bnd) (KNeq H0 b H1 h x' al' be' bnd)
| KSRange com b h n p x r rs p' x' r' rs' :
    Forall2 (ren f g) rs rs' ->
    KSim f g (KRange com b h n p x r rs) (KRange com b h n p' x' r' rs')
| KSBBS pk sig sig' bs sv sv' r1 r2 d1 d2 r1' r2' d1' d2' :
    Forall2 (ren f g) sv sv' -> ren f g r1 r1' -> ren f g r2 r2' -> ren f g d1 d1' -> ren f g d2 d2' ->
    KSim f g (KBBS pk sig bs sv r1 r2 d1 d2) (KBBS pk sig' bs sv' r1' r2' d1' d2')
| KSCustom c rows rows' :
    Forall2 (fun a b => fst a = fst b /\
             Forall2 (fun t u => ren f g (fst t) (fst u) /\ snd t = snd u) (snd a) (snd b)) rows rows' ->
    KSim f g (KCustom c rows) (KCustom c rows').

(** same public content, before precommitments are exchanged *)
Inductive Pat (f g : bytes -> bytes) : stmt -> stmt -> Prop :=
| PaDL d d' : dl_lhs d = dl_lhs d' -> dl_bases d = dl_bases d' ->
    Forall2 (ren f g) (dl_secs d) (dl_secs d') -> Pat f g (SDL d) (SDL d')
| PaAnd l l' b b' : Forall2 (Pat f g) l l' -> Pat f g (SAnd l b) (SAnd l' b')
| PaOr l l' b b' c c' : Forall2 (Pat f g) l l' -> Pat f g (SOr l b c) (SOr l' b' c')
| PaExt k k' b b' p p' c c' : KSim f g k k' -> Pat f g (SExt k b p c) (SExt k' b' p' c').
End S.

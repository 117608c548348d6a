(** Vocabulary of the theorems about identifiers, hashing and serialization. *)
From Coq Require Import String.
From Verif Require Import Base World Val Expr Utils Stmt Prove Verify Spec Shapes.
Open Scope Z_scope.
Open Scope list_scope.

Section I.
Context {W : World}.

(** ** Values on the wire *)

(** The points inside a value. *)
Fixpoint points (v : val) : list pt :=
  match v with
  | VPt p => [p]
  | VList l | VTuple l => List.concat (map points l)
  | VDict d => List.concat (map (fun kx : bytes * val => points (snd kx)) d)
  | _ => []
  end.

(** Decoding the encoding of a point gives the point. *)
Definition faithful (p : pt) : Prop := import_pt (export_pt p) = Some p.

(** No tuple inside (tuples come back from the wire as lists). *)
Inductive notuple : val -> Prop :=
| NtNone : notuple VNone
| NtInt z : notuple (VInt z)
| NtPt p : notuple (VPt p)
| NtStr s : notuple (VStr s)
| NtBytes s : notuple (VBytes s)
| NtList l : Forall notuple l -> notuple (VList l)
| NtDict d : Forall (fun kx : bytes * val => notuple (snd kx)) d -> notuple (VDict d).

(** Tuples occur only as pairs of lists (the response of an or-proof). *)
Inductive pairs_only : val -> Prop :=
| PoNone : pairs_only VNone
| PoInt z : pairs_only (VInt z)
| PoPt p : pairs_only (VPt p)
| PoStr s : pairs_only (VStr s)
| PoBytes s : pairs_only (VBytes s)
| PoList l : Forall pairs_only l -> pairs_only (VList l)
| PoPair l m : Forall pairs_only l -> Forall pairs_only m -> pairs_only (VTuple [VList l; VList m])
| PoDict d : Forall (fun kx : bytes * val => pairs_only (snd kx)) d -> pairs_only (VDict d).

(** [Wired v v']: what is received when [v] is sent: tuples have become lists and points are what
    their encoding decodes to. *)
Inductive Wired : val -> val -> Prop :=
| WiNone : Wired VNone VNone
| WiInt z : Wired (VInt z) (VInt z)
| WiPt p q : import_pt (export_pt p) = Some q -> Wired (VPt p) (VPt q)
| WiStr s : Wired (VStr s) (VStr s)
| WiBytes s : Wired (VBytes s) (VBytes s)
| WiList l l' : Forall2 Wired l l' -> Wired (VList l) (VList l')
| WiTuple l l' : Forall2 Wired l l' -> Wired (VTuple l) (VList l')
| WiDict d d' : Forall2 (fun a b : bytes * val => fst a = fst b /\ Wired (snd a) (snd b)) d d' -> Wired (VDict d) (VDict d').

(** ** Identifiers as text *)

(** Values printed without delimiters. *)
Definition is_atom (v : val) : Prop := match v with VNone | VInt _ | VPt _ => True | _ => False end.

(** What can follow a printed value inside another one. *)
Definition stop (u : bytes) : Prop := match u with [] => True | c :: _ => In c (lit ",])}") end.

(** The textual form of a point can be told apart from what surrounds it: it does not begin with a
    delimiter, has no quotation marks inside, and it is not a different atom followed by a delimiter.
    Distinct points may have the same textual form (pairings.py:119-120, 160-161, 198-199 print
    Python's hash of the point). *)
Record repr_ok : Prop := {
  ro_sep : forall p v u t, is_atom v -> repr_pt p ++ u = pystr v ++ t -> stop u -> stop t -> u = t;
  ro_first : forall p, exists c r, repr_pt p = c :: r /\ ~ In c (lit "[](){}, ");
  ro_quote : forall p, ~ In "'"%char (repr_pt p) /\ ~ In """"%char (repr_pt p) }.

(** Values that are printed in the same way: equal up to atoms with one textual form. *)
Inductive same : val -> val -> Prop :=
| SmAtom v w : is_atom v -> is_atom w -> pystr v = pystr w -> same v w
| SmStr s : same (VStr s) (VStr s)
| SmBytes s : same (VBytes s) (VBytes s)
| SmList l m : Forall2 same l m -> same (VList l) (VList m)
| SmTuple l m : Forall2 same l m -> same (VTuple l) (VTuple m)
| SmDict d e : Forall2 (fun a b : bytes * val => fst a = fst b /\ same (snd a) (snd b)) d e -> same (VDict d) (VDict e).

(** Points with one textual form. *)
Definition alike_pt (p q : pt) : Prop := repr_pt p = repr_pt q.

(** The name of the Python class of a primitive (__class__.__name__). *)
Definition pyclass (k : kind) : bytes :=
  match k with
  | KNeq _ _ _ _ _ _ _ _ => lit "DLNotEqual"
  | KRange _ _ _ _ _ _ _ _ => lit "PowerTwoRangeStmt"
  | KBBS _ _ _ _ _ _ _ _ => lit "BBSPlusSignatureStmt"
  | KCustom c _ => c
  end.

(** Two statements that claim the same: same structure, classes, bases, left-hand sides,
    precommitments (as printed) and the same pattern of secrets: [f] and [g] translate names. *)
Inductive alike (f g : bytes -> bytes) : stmt -> stmt -> Prop :=
| AlDL d d' : alike_pt (dl_lhs d) (dl_lhs d') -> Forall2 alike_pt (dl_bases d) (dl_bases d') ->
    Forall2 (ren f g) (dl_secs d) (dl_secs d') -> alike f g (SDL d) (SDL d')
| AlAnd l l' b b' : Forall2 (alike f g) l l' -> alike f g (SAnd l b) (SAnd l' b')
| AlOr l l' b b' c c' : Forall2 (alike f g) l l' -> alike f g (SOr l b c) (SOr l' b' c')
| AlExt k k' b b' p p' c c' : pyclass k = pyclass k' -> same p p' -> alike f g c c' ->
    alike f g (SExt k b p (Some c)) (SExt k' b' p' (Some c')).

(** The secrets of a statement, those inside of primitives included. *)
Fixpoint secrets (s : stmt) : list secret :=
  match s with
  | SDL d => dl_secs d
  | SAnd subs _ | SOr subs _ _ => List.concat (map secrets subs)
  | SExt k _ _ _ => kuser k ++ kint k
  end.

(** The statement with every Secret object replaced by one with another name ([f]) and identity
    ([j]), everything else kept. *)
Definition rsec (f : bytes -> bytes) (j : nat -> nat) (x : secret) : secret := mkSecret (j (sid x)) (f (sname x)).
Definition rkind (f : bytes -> bytes) (j : nat -> nat) (k : kind) : kind :=
  let r := rsec f j in
  match k with
  | KNeq H0 g H1 h x a b bnd => KNeq H0 g H1 h (r x) (r a) (r b) bnd
  | KRange com g h n p x rd rs => KRange com g h n p (r x) (r rd) (map r rs)
  | KBBS pk sig bs sv r1 r2 d1 d2 => KBBS pk sig bs (map r sv) (r r1) (r r2) (r d1) (r d2)
  | KCustom c rows => KCustom c (map (fun row => (fst row, map (fun t => (r (fst t), snd t)) (snd row))) rows)
  end.
Fixpoint rename (f : bytes -> bytes) (j : nat -> nat) (s : stmt) : stmt :=
  match s with
  | SDL d => SDL (mkDL (dl_lhs d) (dl_bases d) (map (rsec f j) (dl_secs d))
                       (map (fun kv => (rsec f j (fst kv), snd kv)) (dl_vals d)) (dl_sim d))
  | SAnd l b => SAnd (map (rename f j) l) b
  | SOr l b c => SOr (map (rename f j) l) b c
  | SExt k b p c => SExt (rkind f j k) b p (option_map (rename f j) c)
  end.

(** What verify() works with once the precommitment has been processed (base.py:246-247). *)
Definition processed (s : stmt) (pre : val) : M (verifier * stmt) :=
  if is_none pre then ret (get_verifier s, s) else process_pre s (get_verifier s) pre.
(** Values that are encoded (and not copied) into the input of the hash function, base.py:83-88. *)
Definition framed (v : val) : Prop := match v with VBytes _ | VStr _ => False | _ => True end.
Definition inj (f : bytes -> bytes) : Prop := forall a b, f a = f b -> a = b.
(** Differences of two lists of responses. *)
Definition zdiff (zs zs' : list Z) : list Z := map (fun p => fst p - snd p) (combine zs zs').
End I.

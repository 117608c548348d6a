(** Situations in which proving does not fail: well-typed statements, supplied secrets. *)
From Coq Require Import String.
From Verif Require Import Base World Val Expr Utils Stmt Prove Verify Spec Shapes Claims Tree Build Process Clauses.
Open Scope Z_scope.
Open Scope list_scope.

Section S.
Context {W : World}.

(** Representations over one group. *)
Definition dl_shape (d : dlrep) : Prop :=
  List.length (dl_secs d) = List.length (dl_bases d) /\ dl_bases d <> [] /\
  in_group (grp (dl_lhs d)) (dl_bases d).

(** Primitives with bases of the right groups (points of GT have no subtraction, see C50). *)
Definition kshape (k : kind) : Prop :=
  match k with
  | KNeq H0 g H1 h _ _ _ _ => has_sub (grp g) = true /\ grp H0 = grp g /\ grp H1 = grp g /\ grp h = grp g
  | KRange com g h n _ _ _ rs => has_sub (grp g) = true /\ grp com = grp g /\ grp h = grp g /\ (2 <= n)%nat /\ List.length rs = n
  | KBBS pk sg bs sv _ _ _ _ =>
      exists G1 G2 GT n, pairs G1 G2 = Some GT /\ in_group G1 (pk_gens pk) /\ grp (pk_w pk) = G2 /\
        grp (pk_h0 pk) = G2 /\ pk_genpairs pk = map (fun g => pairing g (pk_h0 pk)) (pk_gens pk) /\
        (3 <= n <= List.length (pk_gens pk))%nat /\ bs = firstn n (pk_gens pk) /\ List.length sv = n /\
        (forall a, sg = Some a -> grp (sig_A a) = G1)
  | KCustom _ rows => rows <> [] /\
      Forall (fun rw => snd rw <> [] /\ in_group (grp (fst rw)) (map snd (snd rw))) rows
  end.

(** A statement all of whose parts are well typed. *)
Inductive Shape : stmt -> Prop :=
| ShDL d : dl_shape d -> Shape (SDL d)
| ShAnd subs b : Forall Shape subs -> Shape (SAnd subs b)
| ShOr subs b c : subs <> [] -> Forall Shape subs -> Shape (SOr subs b c)
| ShExt k b pre con : kshape k -> Shape (SExt k b pre con).

(** Secrets a statement refers to, those of its primitives included. *)
Fixpoint dvars (s : stmt) : list secret :=
  match s with
  | SDL d => dl_secs d
  | SAnd subs _ | SOr subs _ _ => List.concat (map dvars subs)
  | SExt k _ _ _ => kuser k ++ kint k
  end.

(** Conditions on a primitive for a prover with the values [w]: the range statement was built with
    values, which are in range; the signature is there. *)
Definition kreal (w : bytes -> Z) (k : kind) : Prop :=
  match k with
  | KRange _ _ _ n isp x _ _ => isp = true /\ 0 <= w (sname x) < 2 ^ Z.of_nat n
  | KBBS _ sg _ _ _ _ _ _ => sg <> None
  | _ => True
  end.
(** For a simulation: a range statement built with values is still constructed from them. *)
Definition ksimulable (w : bytes -> Z) (e : nat -> option Z) (k : kind) : Prop :=
  match k with
  | KRange _ _ _ n true x _ _ => e (sid x) <> None /\ 0 <= w (sname x) < 2 ^ Z.of_nat n
  | KCustom _ _ => False
  | _ => True
  end.

(** A prover can be made with the values [sd]; [e] are the current values of the Secret objects. *)
Inductive Supplied (sd : dict Z) (w : bytes -> Z) (e : nat -> option Z) : stmt -> Prop :=
| SuDL d : (forall x, In x (dl_secs d) -> known (dl_vals d) x \/ known sd x) -> Supplied sd w e (SDL d)
| SuAnd subs : Forall (Supplied sd w e) subs -> Supplied sd w e (SAnd subs false)
| SuOr subs c x : In x subs -> simulated x = false -> Supplied sd w e x ->
    (forall y, In y subs -> simulated y = false -> Refuses sd y \/ Supplied sd w e y) ->
    (forall y, In y subs -> Forall (ksimulable w e) (kinds y)) ->
    Supplied sd w e (SOr subs false c)
| SuExt k b pre con : (forall x, In x (kuser k) -> known sd x \/ e (sid x) <> None) -> kreal w k ->
    Supplied sd w e (SExt k b pre con).

(** Every secret is used with one group order only. *)
Definition kord (ord : bytes -> Z) (k : kind) : Prop :=
  match k with
  | KNeq H0 g H1 h x a b _ => forall y p, In y [x; a; b] -> In p [H0; g; H1; h] -> ord (sname y) = order (grp p)
  | KRange _ _ h _ _ _ _ rs => forall y, In y rs -> ord (sname y) = order (grp h)
  | KBBS _ _ bs sv r1 r2 d1 d2 =>
      forall y b, In y (sv ++ [r1; r2; d1; d2]) -> In b bs -> ord (sname y) = order (grp b)
  | KCustom _ rows => Forall (fun rw => Forall (fun t => ord (sname (fst t)) = order (grp (snd t))) (snd rw)) rows
  end.
Inductive Ords (ord : bytes -> Z) : stmt -> Prop :=
| OrDL d : (forall x b, In (x, b) (combine (dl_secs d) (dl_bases d)) -> ord (sname x) = order (grp b)) ->
    Ords ord (SDL d)
| OrAnd subs b : Forall (Ords ord) subs -> Ords ord (SAnd subs b)
| OrOr subs b c : Forall (Ords ord) subs -> Ords ord (SOr subs b c)
| OrExt k b pre con : kord ord k -> Ords ord (SExt k b pre con).

(** In no conjunction of the tree does a secret of an or-clause occur outside of it. *)
Inductive Apart : stmt -> Prop :=
| ApDL d : Apart (SDL d)
| ApAnd subs b : Forall Apart subs ->
    (forall pre o post x y, clause dvars (SAnd subs b) pre o post -> In x (dvars o) -> In y (pre ++ post) ->
       sname x <> sname y) -> Apart (SAnd subs b)
| ApOr subs b c : Forall Apart subs -> Apart (SOr subs b c)
| ApExt k b pre con : Apart (SExt k b pre con).

(** Values with a part of 2^32 bytes or elements: more than the binary format has room for. *)
Inductive Big : val -> Prop :=
| BgInt z : 2 ^ 32 <= len (bn_data z) -> Big (VInt z)
| BgPt p : 2 ^ 32 <= len (export_pt p) -> Big (VPt p)
| BgStr s : 2 ^ 32 <= len s -> Big (VStr s)
| BgBytes s : 2 ^ 32 <= len s -> Big (VBytes s)
| BgList l : 2 ^ 32 <= len l -> Big (VList l)
| BgIn l v : In v l -> Big v -> Big (VList l)
| BgTuple l : 2 ^ 32 <= len l -> Big (VTuple l)
| BgInT l v : In v l -> Big v -> Big (VTuple l)
| BgDict d : 2 ^ 32 <= len d -> Big (VDict d)
| BgKey d k v : In (k, v) d -> 2 ^ 32 <= len k -> Big (VDict d)
| BgInD d k v : In (k, v) d -> Big v -> Big (VDict d).

(** In the run of prove() in the state [st], the identifier, the precommitment or the commitment
    has such a part. *)
Definition oversized (s : stmt) (sd : dict Z) (a : st) : Prop :=
  exists p s1 st1 pre p2 s2 st2 com p3 st3 i,
    get_prover s sd a = Ok ((Some p, s1), st1) /\ precommit s1 p st1 = Ok ((pre, p2, s2), st2) /\
    internal_commit s2 p2 None st2 = Ok ((com, p3), st3) /\ get_proof_id s2 None = Ok i /\
    (Big (VStr (pystr i)) \/ Big pre \/ Big com).

(** Not an extended statement whose construct_stmt returns a single representation (see C44). *)
Definition root_ok (s : stmt) : Prop :=
  match s with SExt (KCustom _ rows) _ _ _ => List.length rows <> 1%nat | _ => True end.
(** the prover of the primitive [k] lacks something: the value of the secret it has to work with (neither
    set nor in the dictionary), or the signature *)
Definition lacks (k : kind) (sd : dict Z) (e : nat -> option Z) : Prop :=
  match k with
  | KNeq _ _ _ _ x _ _ _ | KRange _ _ _ _ _ x _ _ => e (sid x) = None /\ forall y v, In (y, v) sd -> sid y <> sid x
  | KBBS _ sig _ _ _ _ _ _ => sig = None
  | KCustom _ _ => False
  end.

End S.

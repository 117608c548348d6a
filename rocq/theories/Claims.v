(** What statements claim about a valuation of secrets by name. Independent of provers, verifiers
    and of the inner statements built by the primitives. *)
From Coq Require Import String.
From Verif Require Import Base World Val Expr Utils Stmt Spec.
Open Scope Z_scope.
Open Scope list_scope.

Section Claims.
Context {W : World}.

(** A representation whose bases lie in the group of its left-hand side and which holds. *)
Definition dl_true (w : bytes -> Z) (d : dlrep) : Prop :=
  in_group (grp (dl_lhs d)) (dl_bases d) /\ dl_holds w d.

(** Validity of a BBS+ signature (A, e, s) on messages: e(A, w + e h0) = e(g0 + s g1 + sum m_i g_{i+1}, h0) *)
Definition bbs_valid (pk : bbs_pk) (sg : bbs_sig) (e s : Z) (ms : list Z) : Prop :=
  match pk_gens pk with
  | g0 :: gens =>
      pairing (sig_A sg) (padd (pk_w pk) (pmul e (pk_h0 pk))) =
      pairing (padd g0 (lincomb (grp g0) (s :: ms) gens)) (pk_h0 pk)
  | [] => False
  end.
(** A public key as bbsplus.py:167-181 makes it, for bases of one pairing. *)
Definition bbs_pk_ok (pk : bbs_pk) : Prop :=
  exists G1 G2 GT, pairs G1 G2 = Some GT /\ in_group G1 (pk_gens pk) /\
    grp (pk_w pk) = G2 /\ grp (pk_h0 pk) = G2 /\
    pk_genpairs pk = map (fun g => pairing g (pk_h0 pk)) (pk_gens pk).

Inductive KTrue (w : bytes -> Z) : kind -> Prop :=
| KT_Neq H0 g H1 h x al be bnd :
    grp H1 = grp h -> order (grp h) = order (grp g) -> H0 = pmul (w (sname x)) g ->
    KTrue w (KNeq H0 g H1 h x al be bnd)
| KT_Range com g h n isp x r rs :
    grp h = grp g -> List.length rs = n ->
    com = padd (pmul (w (sname x)) g) (pmul (w (sname r)) h) ->
    KTrue w (KRange com g h n isp x r rs)
| KT_BBS pk sg e s ms r1 r2 d1 d2 :
    bbs_pk_ok pk -> Forall (fun g => grp g = grp (sig_A sg)) (pk_gens pk) ->
    (S (S (List.length ms)) <= List.length (pk_gens pk))%nat ->
    w (sname e) = sig_e sg ->
    bbs_valid pk sg (w (sname e)) (w (sname s)) (map (fun m => w (sname m)) ms) ->
    KTrue w (KBBS pk (Some sg) (firstn (S (S (List.length ms))) (pk_gens pk)) (e :: s :: ms) r1 r2 d1 d2)
| KT_Custom cls rows :
    Forall (fun rw => in_group (grp (fst rw)) (map snd (snd rw)) /\
      fst rw = lincomb (grp (fst rw)) (map (fun t => w (sname (fst t))) (snd rw)) (map snd (snd rw))) rows ->
    KTrue w (KCustom cls rows).

(** [x] has a value in the dictionary (by name). *)
Definition known (d : dict Z) (x : secret) : Prop := exists k v, In (k, v) d /\ sname k = sname x.

(** No prover can be made of the statement with the values [sd] (and those captured when it was
    built): a secret is missing, or it is marked as simulated. *)
Inductive Refuses (sd : dict Z) : stmt -> Prop :=
| RfDL d x : In x (dl_secs d) -> ~ known (dl_vals d) x -> ~ known sd x -> Refuses sd (SDL d)
| RfAnd subs : Refuses sd (SAnd subs true)
| RfOrSim subs c : Refuses sd (SOr subs true c)
| RfOr subs c : (forall x, In x subs -> simulated x = false -> Refuses sd x) -> Refuses sd (SOr subs false c).

(** Everything that can be proved for real holds: in a disjunction, every branch that is not marked
    as simulated and whose secrets are supplied. *)
Inductive Tru (sd : dict Z) (w : bytes -> Z) : stmt -> Prop :=
| TrDL d : dl_true w d -> Tru sd w (SDL d)
| TrAnd subs b : Forall (Tru sd w) subs -> Tru sd w (SAnd subs b)
| TrOr subs b c : (forall x, In x subs -> simulated x = false -> Refuses sd x \/ Tru sd w x) ->
    Tru sd w (SOr subs b c)
| TrExt k b pre con : KTrue w k -> Tru sd w (SExt k b pre con).
End Claims.

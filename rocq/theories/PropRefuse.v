(** Properties C52 (statements that are refused when they are constructed) and C53 (one randomizer for one secret). *)
From Coq Require Import String.
From Verif Require Import Base World Val Expr Utils Stmt Prove Verify Spec Shapes Occur
  ZqWorld Ex ExTree Rands Refuse.
Open Scope Z_scope.
Open Scope list_scope.

(** ** C52: a statement that mixes groups, or a composition of fewer than two parts, is refused *)

(** DLRep raises InvalidExpression if the groups of two bases differ. *)
Theorem C52_mixed_bases : forall (W : World) lhs x sim st b b', In b (e_bases x) -> In b' (e_bases x) -> grp b <> grp b' ->
  mk_dlrep lhs x sim st = Err EInvalidExpression.
Proof. exact @mixed_bases. Qed.
Print Assumptions C52_mixed_bases.

(** AndProofStmt and OrProofStmt raise ValueError for fewer than two parts. *)
Theorem C52_few_parts : forall (W : World) (subs : list stmt), (List.length subs < 2)%nat ->
  mk_and subs = Err EValueErr /\ mk_or subs = Err EValueErr.
Proof. exact @few_parts. Qed.
Print Assumptions C52_few_parts.

(** Nothing else is refused: the group of the left-hand side is not looked at, so that a statement with a left-hand
    side in another group than its bases can be constructed. *)
Theorem C52_left_hand_side_accepted : forall (W : World) lhs x sim st, e_bases x <> [] ->
  (forall b b', In b (e_bases x) -> In b' (e_bases x) -> grp b = grp b') -> exists d, mk_dlrep lhs x sim st = Ok (d, st).
Proof. exact @one_group. Qed.
Print Assumptions C52_left_hand_side_accepted.

(** Such a statement, alone or anywhere in a composition, is harmless: verify() raises for every proof. *)
Theorem C52_never_verified : forall (W : World) s z msg st v, wfs s -> foreign s -> verify s z msg st <> Ok v.
Proof. exact @foreign_verify. Qed.
Print Assumptions C52_never_verified.

Definition P2 (v : Z) : @pt Zq := zmk (1%N, 99%N) v.
Definition okb {A} (r : res A) : bool := match r with Ok _ => true | Err _ => false end.
Definition isb {A} (x : exn) (r : res A) : bool :=
  match r, x with Err EInvalidExpression, EInvalidExpression | Err EValueErr, EValueErr => true | _, _ => false end.
(** One group: accepted; two groups of bases, one part: refused; a foreign left-hand side: accepted, but a part of a
    disjunction that cannot be verified. *)
Definition exForeign : stmt := SOr [exDL; SDL (mkDL (P2 9) [Pt 3] [sx] [] false)] false None.
Example C52_ex :
  isb EInvalidExpression (run (mk_dlrep (Pt 9) (eadd (emul sx (Pt 3)) (emul sy (P2 3))) false) st0) = true /\
  isb EValueErr (mk_and [exDL]) = true /\ isb EValueErr (mk_or [exDL]) = true /\
  okb (run (mk_dlrep (Pt 9) (eadd (emul sx (Pt 3)) (emul sy (Pt 5))) false) st0) = true /\
  okb (run (mk_dlrep (P2 9) (eadd (emul sx (Pt 3)) (emul sy (Pt 5))) false) st0) = true /\
  wfs exForeign /\ foreign exForeign.
Proof.
  repeat (split; [vm_compute; reflexivity|]). split.
  - repeat constructor.
  - eapply FoOr; [right; left; reflexivity|]. eapply (FoDL _ (Pt 3)); [now left|]. vm_compute. discriminate.
Qed.

(** ** C53: commitments of one run use one randomizer for one secret, the given one if there is one *)

(** Wherever a secret re-occurs outside of disjunctions, the prover has committed with the same randomizer. *)
Theorem C53_one_randomizer : forall (W : World) s p o st com p' st' x y k k', wfs s ->
  internal_commit s p o st = Ok ((com, p'), st') ->
  stored s p' x k -> stored s p' y k' -> sname x = sname y -> env st (sid x) = env st (sid y) -> k = k'.
Proof. intros W s p o st com p' st' x y k k' HW H S S' N E. eapply one_randomizer; eauto. now apply DictProofs.sec_eqb_iff. Qed.
Print Assumptions C53_one_randomizer.

(** Randomizers that the caller hands to internal_commit are the ones that are used, also if others are missing. *)
Theorem C53_given_randomizer : forall (W : World) s p g st com p' st' x k v, wfs s ->
  internal_commit s p (Some g) st = Ok ((com, p'), st') ->
  keys_apart (env st) g -> stored s p' x k -> dget (env st) g x = Some v -> k = v.
Proof. exact @given_randomizer. Qed.
Print Assumptions C53_given_randomizer.

(** x occurs three times and gets the given randomizer 33, y (not given) a random one; without any given ones all
    three of x are equal. *)
Definition exShare : stmt := SAnd [exDL; SDL (mkDL (Pt 20) [Pt 5] [sx] [] false)] false.
Definition rands (o : option (dict Z)) : list Z :=
  match run (internal_commit exShare (PAnd [PDL None; PDL None]) o) st0 with
  | Ok (_, PAnd [PDL (Some a); PDL (Some b)]) => a ++ b
  | _ => []
  end.
Example C53_ex : wfs exShare /\ keys_apart (env st0) [(sx, 33)] /\
  (match rands (Some [(sx, 33)]) with [33; _; 33; 33] => true | _ => false end) = true /\
  (match rands None with [a; b; c; d] => (a =? c) && (c =? d) && negb (a =? b) | _ => false end) = true.
Proof. split; [repeat constructor|]. split; [split; [intros ? []|exact I]|]. split; vm_compute; reflexivity. Qed.

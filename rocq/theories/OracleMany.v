(** Vocabulary of C92: many proofs, in the random oracle model. *)
From Coq Require Import String Znumtheory.
From Verif Require Import Base World Val Expr Utils Stmt Prove Verify Spec Claims Shapes Honest Clauses Supply Extract Ident Alike Distrib Custom Mixed MixedOr Nested TreeZk
  Oracle OracleZk Chance OracleTree OracleTreeSim.
Open Scope Z_scope.
Open Scope list_scope.

(** Someone who asks questions and wants proofs, about one statement after the other. Of every statement they may have one proof, with a message of
    their choice; or go on to the next statement without one. They see the proofs, and what they do depends on all they have seen. *)
Inductive obs {W : World} (R : Type) :=
| ODone (r : R)
| OAsk (b : bytes) (k : bytes -> obs R)
| OProof (msg : bytes) (k : res nizk -> obs R)
| OSkip (k : obs R).
Arguments ODone {W R} r.
Arguments OAsk {W R} b k.
Arguments OProof {W R} msg k.
Arguments OSkip {W R} k.

Section O.
Context {W : World}.

(** At most [a] questions *)
Fixpoint oasks {R} (a : nat) (v : obs R) : Prop :=
  match v with
  | ODone _ => True
  | OAsk _ k => match a with O => False | S a => forall y, oasks a (k y) end
  | OProof _ k => forall z, oasks a (k z)
  | OSkip k => oasks a k
  end.
(** A statement, with someone who can prove it and someone who simulates: prove(message) and the simulator of C89 or C91. The prover and the
    simulator have an object of their own for every proof; the random numbers of a proof are the function. *)
Record party := mkParty {
  p_real : bytes -> (nat -> Z) -> prog (res nizk);
  p_sim : bytes -> memo -> list bytes -> (nat -> Z) -> option (res nizk * memo * list bytes * option bytes) }.
Definition stmt_party (s : stmt) (sd : dict Z) (e e0 : nat -> option Z) : party := mkParty
  (fun msg t => pbind (prove_ro s sd msg (mkSt e t 0)) (fun r => Ret (proof_part r)))
  (fun msg m tp t => simulator s msg m tp (mkSt e0 t 0)).
Definition tree_party (T : mtree) (sd : dict Z) (e e0 : nat -> option Z) : party := mkParty
  (fun msg t => pbind (tprove_ro T sd msg (mkSt e t 0)) (fun r => Ret (tproof_part r)))
  (fun msg m tp t => tsimulator T msg m tp (mkSt e0 t 0)).

(** What they see, if provers make the proofs; None: more proofs than statements *)
Fixpoint oreal {R} (v : obs R) (l : list (party * (nat -> Z))) : prog (option R) :=
  match v with
  | ODone r => Ret (Some r)
  | OAsk b k => Ask b (fun y => oreal (k y) l)
  | OProof msg k => match l with [] => Ret None | (K, t) :: l => pbind (p_real K msg t) (fun z => oreal (k z) l) end
  | OSkip k => match l with [] => Ret None | _ :: l => oreal k l end
  end.
(** ... and if simulators do, each of which chooses an answer of the random function. *)
Fixpoint oideal {R} (v : obs R) (l : list (party * (nat -> Z))) (m : memo) (tp : list bytes) : option (option R * memo) :=
  match v with
  | ODone r => Some (Some r, m)
  | OAsk b k => match reply m tp b with None => None | Some (y, m, tp) => oideal (k y) l m tp end
  | OProof msg k => match l with
                    | [] => Some (None, m)
                    | (K, t) :: l => match p_sim K msg m tp t with None => None | Some (z, m, tp, _) => oideal (k z) l m tp end
                    end
  | OSkip k => match l with [] => Some (None, m) | _ :: l => oideal k l m tp end
  end.

(** All random numbers for some proofs, the numbers of each as in [box] *)
Fixpoint boxes (sz : list (nat * (nat -> Z))) : list (list (list Z)) :=
  match sz with [] => [[]] | (n, q) :: sz => flat_map (fun l => map (cons l) (boxes sz)) (box n q) end.
Definition all_chances {A} (sz : list (nat * (nat -> Z))) (E : A -> bool) (f : list (nat -> Z) -> A) : Z := count (fun l => E (f (map vec l))) (boxes sz).

(** Those for whom C89 or C91 holds, with a group order of at least [Q] *)
Inductive proves (Q : Z) : party -> Prop :=
| PrStmt U w s sd ord e e0 x G : honest U w s sd e -> Shape s -> Supplied sd w e s -> Ords ord s -> conj_of (blinded w) s ->
    spanned x G s -> distinguished G -> Q <= order G -> proves Q (stmt_party s sd e e0)
| PrTree U V w0 T sd ord e e0 path x G : wfL U -> incl V U -> conjs (hiding V w0) T -> match T with TS _ => False | _ => True end -> heard T ->
    (forall c0, fill T c0 -> Ords ord c0) -> (forall x, In x V -> In x (map fst sd) \/ e (sid x) <> None) ->
    (forall t, exists w, (forall x, In x V -> w (sname x) = w0 (sname x)) /\ entries_ok U w sd /\ agree w e U /\ tok U w sd e T /\
       forall p s a, tget T sd (mkSt e t 0) = Ok ((Some p, s), a) -> tsincere U w T s p a) ->
    tspans T path x G -> distinguished G -> Q <= order G -> proves Q (tree_party T sd e e0).
End O.

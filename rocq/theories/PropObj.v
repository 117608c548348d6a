(** C60, C61: statement objects. [o_prove], [o_verify] and [o_build] are prove, verify and the constructors on objects with
    identity; [view h o] is the statement that the object o stands for in the state h of the objects. *)
From Coq Require Import String.
From Verif Require Import Base World Val Expr Utils Stmt Prove Verify ZqWorld Ex ExTree Objects Sharing ObjShare ExObj.
Open Scope Z_scope.
Open Scope list_scope.

(** ** C61: a statement may occur several times in a tree *)

(** A statement in which no object occurs twice is proved as its value, with the same result, exception and random choices. *)
Theorem C61_proved_as_value_partial : forall (W : World) o sd msg h s, unshared o ->
  outcome (o_prove o sd msg h s) = outcome (prove (view h o) sd msg s).
Proof. exact @unshared_prove. Qed.
Print Assumptions C61_proved_as_value_partial.

Theorem C61_verified_as_value_partial : forall (W : World) o z msg h s, unshared o ->
  outcome (o_verify o z msg h s) = outcome (verify (view h o) z msg s).
Proof. exact @unshared_verify. Qed.
Print Assumptions C61_verified_as_value_partial.

(** Building a statement gives what it would if the variables were values, and changes no other statement. In the result no
    object occurs twice, unless a composed variable (or two with common parts) is used twice: the objects below a variable
    that is a primitive are none. *)
Theorem C61_built_partial : forall (W : World) e vars h s, Forall (exists_in h) vars ->
  match o_build e vars h s, meant e (map (view h) vars) s with
  | Ok ((o, h'), s1), Ok (x, s2) =>
      s1 = s2 /\ view h' o = x /\ exists_in h' o /\ (forall y, exists_in h y -> view h' y = view h y) /\
      (Forall unshared vars -> NoDup (below vars e) -> unshared o)
  | Err a, Err b => a = b
  | _, _ => False
  end.
Proof. exact @built. Qed.
Print Assumptions C61_built_partial.

(** It is not so for a composed statement that occurs twice. A part that is used in both branches of an or-proof has one
    object for the precommitment, which is the proved one and the simulated one. The honest proof is refused by a verifier
    who has the same statement; the proof that would be made if statements were values is accepted. *)
Theorem C61_repeated_part_refuted : exists (W : World) vars h e s o h1 s1 sd msg z h2 s2,
  Forall (exists_in h) vars /\ Forall unshared vars /\ o_build e vars h s = Ok ((o, h1), s1) /\
  o_prove o sd msg h1 s1 = Ok ((z, h2), s2) /\ verify (view h1 o) z msg s2 = Err EStatementMismatch /\
  exists z' x s3 x' s4, prove (view h1 o) sd msg s1 = Ok ((z', x), s3) /\ verify (view h1 o) z' msg s3 = Ok ((true, x'), s4).
Proof. exact ex_repeated. Qed.
Print Assumptions C61_repeated_part_refuted.

(** member = DLNotEqual(u) | DLRep(z), and an expression in which it is used once *)
Example C61_ex :
  exists m h s, o_build (BDisj bn bz) [] h0 st0 = Ok ((m, h), s) /\ Forall (exists_in h) [m] /\ Forall unshared [m] /\
    NoDup (below [m] (BDisj (BConj (BVar 0) bx) (BConj bu bv))) /\ ~ NoDup (below [m] policy) /\
    exists o h' s', o_build (BDisj (BConj (BVar 0) bx) (BConj bu bv)) [m] h s = Ok ((o, h'), s') /\ unshared o /\
      match o_prove o exsd (lit "m") h' s' with Ok ((z, _), s2) => accepts (view h' o) z s2 | _ => false end = true.
Proof. exact ex_once. Qed.

(** ** C60: statements built from the same parts do not disturb each other *)

(** Statements without common objects and dictionaries: after one is proved or verified the other is proved and verified as
    its value was before. *)
Theorem C60_apart_prove_partial : forall (W : World) o sd msg h s z h' s' x sd2 msg2 s2,
  o_prove o sd msg h s = Ok ((z, h'), s') -> unshared x -> apart o x -> dicts_apart o x ->
  outcome (o_prove x sd2 msg2 h' s2) = outcome (prove (view h x) sd2 msg2 s2).
Proof. exact @then_prove. Qed.
Print Assumptions C60_apart_prove_partial.

Theorem C60_apart_verify_partial : forall (W : World) o sd msg h s z h' s' x z2 msg2 s2,
  o_prove o sd msg h s = Ok ((z, h'), s') -> unshared x -> apart o x -> dicts_apart o x ->
  outcome (o_verify x z2 msg2 h' s2) = outcome (verify (view h x) z2 msg2 s2).
Proof. exact @then_verify. Qed.
Print Assumptions C60_apart_verify_partial.

(** Verifying changes no dictionary. *)
Theorem C60_verified_partial : forall (W : World) o z msg h s b h' s' x sd2 msg2 s2,
  o_verify o z msg h s = Ok ((b, h'), s') -> unshared x -> apart o x ->
  outcome (o_prove x sd2 msg2 h' s2) = outcome (prove (view h x) sd2 msg2 s2).
Proof. exact @verified_then_prove. Qed.
Print Assumptions C60_verified_partial.

(** Composed statements with common primitives (the dictionaries of values are common) that are proved with the same values. *)
Theorem C60_common_primitives_partial : forall (W : World) o sd msg h s z h' s' x msg2 s2,
  o_prove o sd msg h s = Ok ((z, h'), s') ->
  unshared o -> plain o -> (match o with ODL _ _ _ _ _ => False | _ => True end) -> unshared x -> apart o x ->
  (forall i, env s2 i = env s' i) ->
  outcome (o_prove x sd msg2 h' s2) = outcome (prove (view h x) sd msg2 s2).
Proof. exact @then_prove_same. Qed.
Print Assumptions C60_common_primitives_partial.

(** A part of a conjunction takes over the values the conjunction is proved with: it can then be proved without values. *)
Theorem C60_values_refuted : exists (W : World) h p q o h1 sd msg s z h2 s2,
  exists_in h p /\ exists_in h q /\ o_and_op p q h = Ok (o, h1) /\ o_prove p [] msg h1 s = Err EAttributeErr /\
  o_prove o sd msg h1 s = Ok ((z, h2), s2) /\
  exists z' h3 s3 x s4, o_prove p [] msg h2 s2 = Ok ((z', h3), s3) /\ verify (view h1 p) z' msg s3 = Ok ((true, x), s4).
Proof. exact ex_values. Qed.
Print Assumptions C60_values_refuted.

(** Two conjunctions with a common disjunction: after the first is proved the second, which has not been used, cannot be. *)
Theorem C60_marks_refuted : exists (W : World) h m p q o x h1 h2 sd msg s z h3 s3,
  exists_in h m /\ unshared m /\ o_and_op m p h = Ok (o, h1) /\ o_and_op m q h1 = Ok (x, h2) /\
  o_prove o sd msg h2 s = Ok ((z, h3), s3) /\ o_prove x sd msg h3 s3 = Err EValueErr /\
  exists z' h4 s4, o_prove x sd msg h2 s = Ok ((z', h4), s4).
Proof. exact ex_marks. Qed.
Print Assumptions C60_marks_refuted.

(** p & q and p & r: common primitives; a & b and c | d: nothing in common *)
Example C60_ex : exists p h s1 o h1 s2 x h2 s3 y h3 s4,
  o_build bx [] h0 st0 = Ok ((p, h), s1) /\ o_build (BConj (BVar 0) bv) [p] h s1 = Ok ((o, h1), s2) /\ o_build (BDisj (BVar 0) bu) [p] h1 s2 = Ok ((x, h2), s3) /\
  o_build (BConj bz bx) [] h2 s3 = Ok ((y, h3), s4) /\
  unshared o /\ plain o /\ unshared x /\ apart o x /\ ~ dicts_apart o x /\ unshared y /\ apart o y /\ dicts_apart o y /\
  match o_prove o exsd (lit "m") h3 s4 with
  | Ok ((z, h4), s5) => match o_prove x exsd (lit "m") h4 s5 with Ok ((z', _), s6) => accepts (view h3 x) z' s6 | _ => false end
  | _ => false
  end = true.
Proof. exact ex_apart. Qed.

(** C81: composing copies the statements. *)
From Coq Require Import String.
From Verif Require Import Base World Val Expr Utils Stmt Prove Verify ZqWorld Ex ExTree Objects Sharing ExObj Copies CopyProofs CopyEx.
Open Scope Z_scope.
Open Scope list_scope.

(** Assigning attributes of a statement that has been composed changes nothing in the composed statement, provided the
    statement does not also occur below another part. *)
Theorem C81_attributes : forall (W : World) l o h h' p g, composed l o h h' -> Forall (exists_in h) l -> In p l ->
  (forall x, In x l -> ~ In (oid p) (inner x)) -> assigned (oid p) h' g ->
  view g o = view h' o /\
  (unshared o ->
    (forall sd msg s, outcome (o_prove o sd msg g s) = outcome (o_prove o sd msg h' s)) /\
    (forall z msg s, outcome (o_verify o z msg g s) = outcome (o_verify o z msg h' s))).
Proof. exact @copies_keep. Qed.
Print Assumptions C81_attributes.

(** Primitives: marking the original as simulated, or verifying it, does not change the composed proof. *)
Theorem C81_set_simulated : forall (W : World) l o h h' p b,
  composed l o h h' -> Forall (exists_in h) l -> Forall primitive l -> In p l ->
  (forall sd msg s, outcome (o_prove o sd msg (o_set_simulated p b h') s) = outcome (o_prove o sd msg h' s)) /\
  (forall z msg s, outcome (o_verify o z msg (o_set_simulated p b h') s) = outcome (o_verify o z msg h' s)).
Proof. exact @copies_marks. Qed.
Print Assumptions C81_set_simulated.

Theorem C81_original_verified : forall (W : World) l o h h' p z0 msg0 s0 b g s1,
  composed l o h h' -> Forall (exists_in h) l -> Forall primitive l -> In p l ->
  o_verify p z0 msg0 h' s0 = Ok ((b, g), s1) ->
  (forall sd msg s, outcome (o_prove o sd msg g s) = outcome (o_prove o sd msg h' s)) /\
  (forall z msg s, outcome (o_verify o z msg g s) = outcome (o_verify o z msg h' s)).
Proof. exact @copies_verified. Qed.
Print Assumptions C81_original_verified.

(** Verifying the composed statement does not change the originals. *)
Theorem C81_composed_verified : forall (W : World) l o h h' p z0 msg0 s0 b g s1,
  composed l o h h' -> Forall (exists_in h) l -> Forall primitive l -> In p l ->
  o_verify o z0 msg0 h' s0 = Ok ((b, g), s1) -> view g p = view h' p.
Proof. exact @copies_verify. Qed.
Print Assumptions C81_composed_verified.

(** The copies are shallow. The values are common: a disjunction of two representations without values cannot be proved
    without values; after its first part has been proved with values it can. *)
Theorem C81_values_refuted : exists (W : World) h p q o h1 sd msg s e z h2 s2,
  Forall (exists_in h) [p; q] /\ Forall primitive [p; q] /\ o_or_op p q h = Ok (o, h1) /\
  o_prove o [] msg h1 s = Err e /\ o_prove p sd msg h1 s = Ok ((z, h2), s2) /\
  exists z' h3 s3 x s4, o_prove o [] msg h2 s2 = Ok ((z', h3), s3) /\ verify (view h1 o) z' msg s3 = Ok ((true, x), s4).
Proof. exact ex_later. Qed.
Print Assumptions C81_values_refuted.

(** The parts of a part are common: ((q | r) & t) | d can be proved; after q.set_simulated() it cannot. *)
Theorem C81_inner_refuted : exists (W : World) h i j q r t d o h1 sd msg s z h2 s2 x s3 e,
  Forall (exists_in h) [OAnd i [OOr j [q; r]; t]; d] /\ unshared (OAnd i [OOr j [q; r]; t]) /\
  o_or_op (OAnd i [OOr j [q; r]; t]) d h = Ok (o, h1) /\
  o_prove o sd msg h1 s = Ok ((z, h2), s2) /\ verify (view h1 o) z msg s2 = Ok ((true, x), s3) /\
  o_prove o sd msg (o_set_simulated q true h1) s = Err e.
Proof. exact ex_deep. Qed.
Print Assumptions C81_inner_refuted.

(** p | q of which only p can be proved. Marking p afterwards does not matter; marking it before does. *)
Example C81_ex : exists h p q o h1 s,
  Forall (exists_in h) [p; q] /\ Forall primitive [p; q] /\ o_or_op p q h = Ok (o, h1) /\
  match o_prove o exsd (lit "m") (o_set_simulated p true h1) s with Ok ((z, _), s2) => accepts (view h1 o) z s2 | _ => false end = true /\
  exists o' h2 e, o_or_op p q (o_set_simulated p true h) = Ok (o', h2) /\ o_prove o' exsd (lit "m") h2 s = Err e.
Proof. exact ex_marked. Qed.

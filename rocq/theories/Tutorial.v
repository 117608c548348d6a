(** The two primitives that the documentation defines as examples (docs/new_primitives.rst), as classes of Custom.v. *)
From Coq Require Import String.
From Verif Require Import Base World Val Expr Utils Stmt Prove Verify Custom.
Open Scope Z_scope.
Open Scope list_scope.

Section T.
Context {W : World}.

(** examples/primitive_knowledge_elgamal.py:28-53 AdditiveElgamalPlaintextProof(ctxt, pk, msg, randomizer); ctxt = (c1, c2),
    pk = (g, h). Only construct_stmt is overridden. *)
Definition elgamal (c1 c2 g h : pt) (msg randomizer : secret) : cls := mkCls (lit "AdditiveElgamalPlaintextProof")
  (ret (VList []))
  (fun _ =>
     let! part1 := lift2 (mk_dlrep c1 (emul randomizer g) false) in
     let! part2 := lift2 (mk_dlrep c2 (eadd (emul randomizer h) (emul msg g)) false) in
     lift (and_op part1 part2))
  (raise EStatementSpec)
  (fun _ => Ok tt).

(** examples/primitive_dl_notequal.py:14-47 DLNotEqual((lhs0, g0), (lhs1, g1), x), with the two secrets made in line 21 *)
Definition tutorial_neq (lhs0 g0 lhs1 g1 : pt) (x alpha beta : secret) : cls := mkCls (lit "DLNotEqual")
  (* lines 23-32 *)
  (let q := order (grp g0) in
   let! blinder := draw q in
   let! v := value_of x in
   set_value (sid alpha) ((v * blinder) mod q) ;;
   set_value (sid beta) ((- blinder) mod q) ;;
   let! v := value_of x in
   let! d := lift (psub_chk (pmul v g1) lhs1) in
   ret (VPt (pmul blinder d)))
  (* lines 34-38 *)
  (fun pre =>
     let! P := lift (as_pt pre) in
     let! p1 := lift2 (mk_dlrep (inf (grp g0)) (eadd (emul alpha g0) (emul beta lhs0)) false) in
     let! p2 := lift2 (mk_dlrep P (eadd (emul alpha g1) (emul beta lhs1)) false) in
     lift (and_op p1 p2))
  (* lines 44-47 *)
  (let! r := draw (order (grp g0)) in ret (VPt (pmul r (gen (grp g0)))))
  (* lines 40-42 *)
  (fun pre => if val_eqb pre (VPt (inf (grp g0))) then Err EValidation else Ok tt).
End T.

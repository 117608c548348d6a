(** A range statement in the two ways of C79. *)
From Coq Require Import String.
From Verif Require Import Base World Val Expr Utils Stmt Prove Bbs ZqWorld ZqFacts Ex ExTree.
Open Scope Z_scope.
Open Scope list_scope.
Definition ex79_range (a : st) := @mk_range2 Zq (Pt (5*3 + 20*5)) (Pt 3) (Pt 5) 3 sv sr [sr0; sr1; sr2] a.
Lemma ex79_built a : exists s, ex79_range a = Ok (s, a).
Proof. unfold ex79_range, mk_range2, bind, get_env, ret. eexists. reflexivity. Qed.
Lemma range_two_ways : exists (W : World) com g h n x r rs v w msg a,
  env a (sid x) = None /\ env a (sid r) = None /\
  let a1 := mkSt (upd (upd (env a) (sid x) (Some v)) (sid r) (Some w)) (tape a) (pos a) in
  (exists s z, mk_range2 com g h n x r rs a1 = Ok (s, a1) /\ prove s [] msg a1 = Ok z) /\
  (exists s, mk_range2 com g h n x r rs a = Ok (s, a) /\ prove s [(x, v); (r, w)] msg a = Err EAttributeErr).
Proof.
  exists Zq, (Pt (5*3 + 20*5)), (Pt 3), (Pt 5), 3%nat, sv, sr, [sr0; sr1; sr2], 5, 20, (lit "m"), st0. split; [reflexivity|]. split; [reflexivity|].
  intros a1. split.
  - destruct (ex79_built a1) as [s Q]. exists s. assert (E : match ex79_range a1 with Ok (s, a) => match prove s [] (lit "m") a with Ok _ => true | _ => false end | _ => false end = true)
      by (vm_compute; reflexivity).
    rewrite Q in E. destruct (prove s [] (lit "m") a1) as [z|]; [|discriminate E]. exists z. split; [exact Q|reflexivity].
  - destruct (ex79_built st0) as [s Q]. exists s. split; [exact Q|].
    assert (E : match ex79_range st0 with Ok (s, a) => match prove s [(sv, 5); (sr, 20)] (lit "m") a with Err EAttributeErr => true | _ => false end | _ => false end = true)
      by (vm_compute; reflexivity).
    rewrite Q in E. destruct (prove s [(sv, 5); (sr, 20)] (lit "m") st0) as [z|[]]; auto; discriminate E.
Qed.

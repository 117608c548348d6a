(** Vocabulary of C67: messages of the form that provers produce (with whatever numbers and points in it), and the
    answers documented for a verifier. *)
From Coq Require Import String.
From Verif Require Import Base World Val Expr Utils Stmt Prove Verify Spec Shapes Supply Ident.
Open Scope Z_scope.
Open Scope list_scope.

Section A.
Context {W : World}.

(** a Python list or tuple with the elements [l] *)
Definition listing (v : val) (l : list val) : Prop := v = VList l \/ v = VTuple l.
Definition number (v : val) : Prop := exists z, v = VInt z.

(** Responses: for a representation at least as many numbers as secrets; for a conjunction an entry for every part; for
    a disjunction a list of numbers and a list of responses, with an entry for every branch. *)
Inductive formed : stmt -> val -> Prop :=
| FmDL d r l : listing r l -> Forall number l -> (List.length (dl_secs d) <= List.length l)%nat -> formed (SDL d) r
| FmAnd subs b r l more : listing r (l ++ more) -> Forall2 formed subs l -> formed (SAnd subs b) r
| FmOr subs b ch r cs rsv l more more' : listing r (VList cs :: rsv :: more') -> Forall number cs ->
    (List.length subs <= List.length cs)%nat -> listing rsv (l ++ more) -> Forall2 formed subs l -> formed (SOr subs b ch) r
| FmExt k b pre c r : formed c r -> formed (SExt k b pre (Some c)) r.

(** Precommitments: points of the right group. *)
Definition kformed (k : kind) (pre : val) : Prop :=
  match k with
  | KNeq _ g _ _ _ _ _ _ => exists P, pre = VPt P /\ grp P = grp g
  | KRange _ g _ n _ _ _ _ => exists Cs rand, pre = VDict [(lit "Cs", VList (map VPt Cs)); (lit "rand", VInt rand)] /\
      (n <= List.length Cs)%nat /\ in_group (grp g) Cs
  | KBBS _ _ bs _ _ _ _ _ => exists A1 A2, pre = VDict [(lit "A1", VPt A1); (lit "A2", VPt A2)] /\
      forall b, In b bs -> grp A1 = grp b /\ grp A2 = grp b
  | KCustom _ _ => pre = VList []
  end.
Inductive preformed : stmt -> val -> Prop :=
| PfNone s : noext s -> preformed s VNone
| PfAnd subs b pre l more : listing pre (l ++ more) -> Forall2 preformed subs l -> preformed (SAnd subs b) pre
| PfOr subs b ch pre l more : listing pre (l ++ more) -> Forall2 preformed subs l -> preformed (SOr subs b ch) pre
| PfExt k b p con pre : kformed k pre -> preformed (SExt k b p con) pre.

(** A verdict, or one of the exceptions of zksk/exceptions.py that verification raises on purpose. *)
Definition answered {A} (r : res A) : Prop :=
  match r with Ok _ => True | Err e => e = EStatementMismatch \/ e = EValidation \/ e = EInconsistentChallenge end.

(** Something that has to be hashed is too large for the binary format. *)
Definition overflow (s : stmt) (z : nizk) : Prop :=
  (exists i, get_proof_id s None = Ok i /\ Big (VStr (pystr i))) \/ Big (n_pre z) \/
  (exists com, recompute s (n_chal z) (n_resp z) = Ok com /\ Big com).
End A.

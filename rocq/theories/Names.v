(** Model of the naming of Secret objects, /repo/zksk/expr.py:91-115, with objects at addresses. *)
From Coq Require Import String.
From Verif Require Import Base World Val Expr.
Open Scope Z_scope.
Open Scope list_scope.

Section N.
Context {W : World}.

(** object.__hash__ (CPython, _Py_HashPointer, 64 bit): the address rotated right by four bits, as a signed number; -1
    is replaced by -2 *)
Definition object_hash (addr : Z) : Z :=
  let r := addr / 16 + (addr mod 16) * 2 ^ 60 in
  let h := if r <? 2 ^ 63 then r else r - 2 ^ 64 in
  if h =? -1 then -2 else h.
(** struct.pack(">q", h) *)
Definition pack_q (h : Z) : bytes := be_bytes 8 (h mod 2 ^ 64).
(** hexdigest() *)
Definition hex_digit (n : Z) : ascii := if n <? 10 then byte_of (48 + n) else byte_of (87 + n).
Definition hexdigest (d : bytes) : bytes := flat_map (fun c => [hex_digit (int_of c / 16); hex_digit (int_of c mod 16)]) d.
(** _generate_unique_name: expr.py:113-115, NUM_NAME_BYTES = 8 (expr.py:105) *)
Definition unique_name (addr : Z) : bytes := firstn (8 * 4) (hexdigest (sha256 (pack_q (object_hash addr)))).

(** A program that makes Secrets and drops the last reference to them. An object has an identity for good ([sid], the
    number of the object) and an address as long as it lives. *)
Record cell := mkCell { c_addr : Z; c_sec : secret }.
Inductive action := New (addr : Z) (name : option bytes) | Drop (id : nat).
(** the addresses the allocator of the interpreter may return: 64 bit, not the last one, and not in use *)
Definition free_addr (live : list cell) (a : Z) : bool :=
  (0 <=? a) && (a <? 2 ^ 64 - 1) && forallb (fun c => negb (c_addr c =? a)) live.
(** Secret.__init__: expr.py:107-111. [None]: not a behaviour of the allocator. *)
Definition act (s : nat * list cell) (x : action) : option (nat * list cell) :=
  let (n, live) := s in
  match x with
  | New a name => if free_addr live a then
      Some (S n, mkCell a (mkSecret n (match name with Some m => m | None => unique_name a end)) :: live) else None
  | Drop i => Some (n, filter (fun c => negb (Nat.eqb (sid (c_sec c)) i)) live)
  end.
Fixpoint acts (s : nat * list cell) (l : list action) : option (nat * list cell) :=
  match l with [] => Some s | x :: l => match act s x with Some s => acts s l | None => None end end.
End N.

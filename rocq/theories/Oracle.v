(** The random oracle model: programs that ask for hash values instead of computing them.

    [verify_ro] is [verify] (base.py:233-263, composition.py:200-205) with the two calls of sha256
    (composition.py:270-274 and base.py:69-91) replaced by questions; [with_fun sha256] gives the
    verifier of the model back (theorem C88_verifier). *)
From Coq Require Import String Znumtheory.
From Verif Require Import Base World Val Expr Utils Stmt Prove Verify Spec Shapes Claims Extract Ident Alike.
Open Scope Z_scope.
Open Scope list_scope.

(** Programs with questions. Between two questions a program may compute anything. *)
Inductive prog (R : Type) := Ret (r : R) | Ask (b : bytes) (k : bytes -> prog R).
Arguments Ret {R} r.
Arguments Ask {R} b k.
Fixpoint pbind {A B} (p : prog A) (f : A -> prog B) : prog B :=
  match p with Ret a => f a | Ask b k => Ask b (fun y => pbind (k y) f) end.
(** At most [n] questions, whatever the answers are. *)
Fixpoint asks {R} (n : nat) (p : prog R) {struct p} : Prop :=
  match p with Ret _ => True | Ask _ k => match n with O => False | S n => forall y, asks n (k y) end end.
(** All questions are answered by a function. *)
Fixpoint with_fun {R} (f : bytes -> bytes) (p : prog R) : R :=
  match p with Ret r => r | Ask b k => with_fun f (k (f b)) end.

(** Questions and answers so far *)
Definition memo := list (bytes * bytes).
Definition look (m : memo) (b : bytes) : option bytes := option_map snd (find (fun p => bytes_eqb (fst p) b) m).
(** A random function: new questions get the next answer of the list, old questions the old answer. The result is also the
    list of all questions and answers. *)
Fixpoint sample {R} (p : prog R) (m : memo) (t : list bytes) : option (R * memo) :=
  match p with
  | Ret r => Some (r, m)
  | Ask b k => match look m b with
               | Some y => sample (k y) m t
               | None => match t with [] => None | y :: t => sample (k y) ((b, y) :: m) t end
               end
  end.
(** All lists of [n] answers, and how many of them there are with a property. The answers of sha256 are the byte strings of
    length 32; in theorems [A] is any list without repetitions. *)
Fixpoint tapes (A : list bytes) (n : nat) : list (list bytes) :=
  match n with O => [[]] | S n => flat_map (fun y => map (cons y) (tapes A n)) A end.
Definition count {A} (f : A -> bool) (l : list A) : Z := len (filter f l).

(** All byte strings of a length; the digests of sha256 *)
Definition alphabet : list ascii := map ascii_of_nat (seq 0 256).
Fixpoint strings (n : nat) : list bytes :=
  match n with O => [[]] | S n => flat_map (fun c => map (cons c) (strings n)) alphabet end.
Definition digests : list bytes := strings 32.

Section O.
Context {W : World}.

(** base.py:233-263 *)
Definition verify_ro (s : stmt) (z : nizk) (msg : bytes) (a : st) : prog (res (bool * stmt * st)) :=
  match processed s (n_pre z) a with
  | Err e => Ret (Err e)
  | Ok ((v, s), a) =>
    match prehash_input s with
    | Err e => Ret (Err e)
    | Ok h =>
      Ask h (fun y =>
        if val_eqb (n_hash z) (VBytes y) then
          match pre_validation (env a) s v (n_resp z) with
          | Err e => Ret (Err e)
          | Ok _ =>
            match recompute s (n_chal z) (n_resp z) with
            | Err e => Ret (Err e)
            | Ok com =>
              match fs_input h [n_pre z; com] msg with
              | Err e => Ret (Err e)
              | Ok i => Ask i (fun y => Ret (Ok (n_chal z =? be_int y, s, a)))
              end
            end
          end
        else Ret (Err EStatementMismatch))
    end
  end.
Definition accepts (r : res (bool * stmt * st)) : bool := match r with Ok (true, _, _) => true | _ => false end.

(** A prover of any kind makes a proof and a message, the verifier examines them. *)
Definition game (s : stmt) (a : st) (adv : prog (nizk * bytes)) : prog (bool * nizk * bytes) :=
  pbind adv (fun zm => pbind (verify_ro s (fst zm) (snd zm) a) (fun r => Ret (accepts r, fst zm, snd zm))).
(** Whether a proof of the form [ok] is accepted, with these answers *)
Definition won (ok : nizk -> bool) (s : stmt) (a : st) (adv : prog (nizk * bytes)) (t : list bytes) : bool :=
  match sample (game s a adv) [] t with Some ((acc, z, _), _) => acc && ok z | None => false end.

(** Two successful runs of the adversary for one message and one precommitment *)
Definition two_runs (ok : nizk -> bool) (s0 : stmt) (a : st) (adv : prog (nizk * bytes)) (A : list bytes) (n : nat) (z z' : nizk) : Prop :=
  exists t t' msg m m', In t (tapes A n) /\ In t' (tapes A n) /\ sample adv [] t = Some ((z, msg), m) /\ sample adv [] t' = Some ((z', msg), m') /\
    won ok s0 a adv t = true /\ won ok s0 a adv t' = true /\ n_pre z = n_pre z'.

(** Proofs with one precommitment have the same one if they are hashed to the same bytes (C19): no raw byte strings, no
    tuples, and points that are decoded to themselves. *)
Definition plain (ok : nizk -> bool) : Prop :=
  (forall z, ok z = true -> framed (n_pre z)) /\
  (forall z z', ok z = true -> ok z' = true -> wire_alike (n_pre z) (n_pre z') -> n_pre z = n_pre z').

(** No number of the list divides the difference of the challenges. *)
Definition apart (qs : list Z) (y y' : bytes) : bool :=
  forallb (fun q => negb (if Zdivide_dec q (be_int y - be_int y') then true else false)) qs.
(** Every answer is apart from all but [K] answers. *)
Definition spread (A : list bytes) (qs : list Z) (K : Z) : Prop :=
  forall y, In y A -> count (fun y' => negb (apart qs y y')) A <= K.

(** What is asked of the statements that the verifier may come to work with: prime orders from the list, and secrets of one
    name with one value. *)
Definition sane (qs : list Z) (s0 : stmt) (a : st) : Prop :=
  wfs s0 /\ forall pre v s a1, process_pre s0 (get_verifier s0) pre a = Ok ((v, s), a1) ->
    coh (env a1) (svars s) /\ orders_in (fun q => prime q /\ In q qs) s.
End O.

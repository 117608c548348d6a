(** Vocabulary of C89: the prover and a simulator in the random oracle model.

    [prove_ro] is [prove] (composition.py:191-198, base.py:135-166) with the two calls of sha256 (composition.py:270-274,
    base.py:69-91) replaced by questions; [with_fun sha256] gives the prover of the model back (theorem C89_prover). *)
From Coq Require Import String Znumtheory.
From Verif Require Import Base World Val Expr Utils Stmt Prove Verify Spec Shapes Distrib TreeZk Oracle.
Open Scope Z_scope.
Open Scope list_scope.

Section O.
Context {W : World}.

(** composition.py:191-198, base.py:135-150: precommitment and commitment *)
Definition committed (s : stmt) (sd : dict Z) : M (val * val * prover * stmt) :=
  let! r := get_prover s sd in
  match r with
  | (Some p, s) =>
      let! (pre, p, s) := precommit s p in
      let! (com, p) := internal_commit s p None in
      ret (pre, com, p, s)
  | (None, _) => raise EAttributeErr
  end.
Definition prove_ro (s : stmt) (sd : dict Z) (msg : bytes) (a : st) : prog (res (nizk * stmt * st)) :=
  match committed s sd a with
  | Err e => Ret (Err e)
  | Ok ((pre, com, p, s), a) =>
    match prehash_input s with
    | Err e => Ret (Err e)
    | Ok h =>
      Ask h (fun y =>
        match fs_input h [pre; com] msg with
        | Err e => Ret (Err e)
        | Ok i => Ask i (fun y' =>
            Ret (match compute_response s p (be_int y') a with
                 | Err e => Err e
                 | Ok (r, a) => Ok (mkNizk (be_int y') r pre (VBytes y), s, a)
                 end))
        end)
    end
  end.
Definition proof_part (r : res (nizk * stmt * st)) : res nizk := match r with Ok (z, _, _) => Ok z | Err e => Err e end.

(** Someone who has asked the questions [m] before gets a proof of prove(), and may go on asking: [D]. *)
Definition real {R} (s : stmt) (sd : dict Z) (msg : bytes) (D : res nizk -> prog R) (m : memo) (t : list bytes) (a : st) : option (R * memo) :=
  sample (pbind (prove_ro s sd msg a) (fun r => D (proof_part r))) m t.

(** One question: an old answer or the next one of the list *)
Definition reply (m : memo) (t : list bytes) (b : bytes) : option (bytes * memo * list bytes) :=
  match look m b with
  | Some y => Some (y, m, t)
  | None => match t with [] => None | y :: t => Some (y, (b, y) :: m, t) end
  end.
Definition asked (m : memo) (b : bytes) : bool := match look m b with Some _ => true | None => false end.
(** The simulator knows no secret. It asks for the digest of the statement, takes the next answer as challenge, simulates
    (prepare_simulate_proof, simulate_proof(challenge=c)), and lets that answer be the answer to the question that the verifier
    will ask. The last component is this question. *)
Definition simulator (s : stmt) (msg : bytes) (m : memo) (t : list bytes) (a : st) : option (res nizk * memo * list bytes * option bytes) :=
  match prepare_sim s a with
  | Err e => Some (Err e, m, t, None)
  | Ok (s, a) =>
    match prehash_input s with
    | Err e => Some (Err e, m, t, None)
    | Ok h =>
      match reply m t h with
      | None => None
      | Some (y, m, t) =>
        match t with
        | [] => None
        | y' :: t' =>
          match simulate_proof s None (Some (be_int y')) a with
          | Err e => Some (Err e, m, t, None)
          | Ok (x, _) =>
            match fs_input h [sent (t_pre x); t_com x] msg with
            | Err e => Some (Err e, m, t, None)
            | Ok i => Some (Ok (mkNizk (be_int y') (t_resp x) (sent (t_pre x)) (VBytes y)), (i, y') :: m, t', Some i)
            end
          end
        end
      end
    end
  end.
Definition ideal {R} (s : stmt) (msg : bytes) (D : res nizk -> prog R) (m : memo) (t : list bytes) (a : st) : option (R * memo) :=
  match simulator s msg m t a with
  | Some (z, m, t, _) => sample (D z) m t
  | None => None
  end.
(** The simulator changed the answer to a question that had been asked. *)
Definition reused (s : stmt) (msg : bytes) (m : memo) (t : list bytes) (a : st) : bool :=
  match simulator s msg m t a with Some (_, _, _, Some i) => asked m i | _ => false end.

(** [f] and [g] depend on random numbers, uniform below [q 0], [q 1], ..., and a bijection between them takes one to the other
    unless [bad]. Of the [Q] values of one of these numbers at most [k] are bad, whatever the others are. So no event has
    probabilities that differ by more than [k / Q]. *)
Definition put (t : nat -> Z) (j : nat) (v : Z) : nat -> Z := fun i => if Nat.eqb i j then v else t i.
Definition until_at {A} (n : nat) (q : nat -> Z) (k Q : Z) (f g : (nat -> Z) -> A) (bad : (nat -> Z) -> bool) : Prop :=
  exists to of, bijection n q to of /\
    (forall t t', congr n q t t' -> f t = f t') /\ (forall t t', congr n q t t' -> g t = g t') /\
    (forall t t', congr n q t t' -> bad t = bad t') /\
    (forall t, bad (to t) = false -> f t = g (to t)) /\
    exists j, (j < n)%nat /\ q j = Q /\
      forall t vs, NoDup vs -> (forall v, In v vs -> 0 <= v < Q) -> count (fun v => bad (put t j v)) vs <= k.
Definition until {A} (k Q : Z) (f g : (nat -> Z) -> A) (bad : (nat -> Z) -> bool) : Prop := exists n q, until_at n q k Q f g bad.

(** The sum of the bases of a secret in a representation has the order of the group (in groups of prime order: is not neutral). *)
Definition spans (d : dlrep) (x : secret) : Prop :=
  In x (dl_secs d) /\
  let b := lincomb (grp (dl_lhs d)) (map (fun y => if bytes_eqb (sname y) (sname x) then 1 else 0) (dl_secs d)) (dl_bases d) in
  forall k, pmul k b = inf (grp (dl_lhs d)) -> (order (grp (dl_lhs d)) | k).
(** One representation of the conjunction, in the group [G], is of this kind, also one of the first points that primitives talk about:
    alpha*g + beta*H0 (dl_notequal.py:84-86), delta1*g1 + delta2*g2 - e*A1 (bbsplus.py:290-292), or a row of a primitive in rows. *)
Inductive spanned (x : secret) (G : gid) : stmt -> Prop :=
| SpDL d : spans d x -> grp (dl_lhs d) = G -> spanned x G (SDL d)
| SpAnd subs b s : In s subs -> spanned x G s -> spanned x G (SAnd subs b)
| SpNeq H0 g H1 h y be bnd b q c : grp g = G -> sname be <> sname x -> (forall k, pmul k g = inf G -> (order G | k)) ->
    spanned x G (SExt (KNeq H0 g H1 h y x be bnd) b q c)
| SpSig pk sig g0 g1 gs e svs r1 r2 d2 b q c : grp g0 = G -> grp g1 = G -> sname d2 <> sname x -> sname e <> sname x -> (forall k, pmul k g1 = inf G -> (order G | k)) ->
    spanned x G (SExt (KBBS pk sig (g0 :: g1 :: gs) (e :: svs) r1 r2 x d2) b q c)
| SpRow nm rows lhs terms b q c : In (lhs, terms) rows -> spans (mkDL lhs (map snd terms) (map fst terms) [] false) x -> grp lhs = G ->
    spanned x G (SExt (KCustom nm rows) b q c).
End O.

(** Properties C55 (wrong values in any part of a conjunction) and C19 (hash inputs, points of any group). *)
From Coq Require Import String Znumtheory.
From Verif Require Import Base World Val Expr Utils Stmt Prove Verify Spec Shapes Supply Ident Alike
  ZqWorld Ex ExTree ZqFacts Wrong.
Open Scope Z_scope.
Open Scope list_scope.

(** ** C55: a non-interactive proof made from wrong values is not accepted *)

(** [d]: a part of the conjunction [s], at any depth, next to any other statements. [w]: the values of the secrets, by
    name, as given to prove() and as stored in the statement. If they do not satisfy [d], then the proof that prove()
    returns is accepted only if the challenge is zero modulo the group order or the hash function collides on the inputs
    of prover and verifier. The verifier may use any statement that has the same equation at that place, and any message. *)
Theorem C55_wrong_values_rejected : forall (W : World) s path d w sd msg st z s' st' sv d' msg' stv sv' stv',
  (exists n, forall b, List.length (sha256 b) = n) -> distinguished (grp (dl_lhs d)) ->
  conjunct s path d -> dl_shape d -> prime (order (grp (dl_lhs d))) ->
  (forall k v, In (k, v) (dl_vals d ++ sd) -> v = w (sname k)) -> ~ dl_holds w d ->
  prove s sd msg st = Ok ((z, s'), st') ->
  conjunct sv path d' -> dl_lhs d' = dl_lhs d -> dl_bases d' = dl_bases d ->
  verify sv z msg' stv = Ok ((true, sv'), stv') ->
  (order (grp (dl_lhs d)) | n_chal z) \/
  exists p s1 st1 pre p2 s2 st2 com p3 st3 h h' com' i i',
    get_prover s sd st = Ok ((Some p, s1), st1) /\ precommit s1 p st1 = Ok ((pre, p2, s2), st2) /\
    internal_commit s2 p2 None st2 = Ok ((com, p3), st3) /\ prehash_input s2 = Ok h /\ prehash_input sv' = Ok h' /\
    recompute sv' (n_chal z) (n_resp z) = Ok com' /\
    fs_input h [pre; com] msg = Ok i /\ fs_input h' [n_pre z; com'] msg' = Ok i' /\ i <> i' /\ sha256 i = sha256 i'.
Proof. exact @wrong_nizk. Qed.
Print Assumptions C55_wrong_values_rejected.

(** The same for the interactive protocol and every challenge, whatever randomizers are used (C09 for conjunctions). *)
Theorem C09_in_conjunction_rejected : forall (W : World) s path d w sd st p s1 st1 sta pre p2 s2 stb rd stc com p3 std c ste r stf sv d' e v,
  conjunct s path d -> dl_shape d -> prime (order (grp (dl_lhs d))) ->
  (forall k v, In (k, v) (dl_vals d ++ sd) -> v = w (sname k)) -> ~ dl_holds w d ->
  get_prover s sd st = Ok ((Some p, s1), st1) -> precommit s1 p sta = Ok ((pre, p2, s2), stb) ->
  internal_commit s2 p2 rd stc = Ok ((com, p3), std) -> compute_response s2 p3 c ste = Ok (r, stf) ->
  conjunct sv path d' -> dl_lhs d' = dl_lhs d -> dl_bases d' = dl_bases d ->
  ~ (order (grp (dl_lhs d)) | c) -> verify_resp e sv v com c r <> Ok true.
Proof. exact @wrong_interactive. Qed.
Print Assumptions C09_in_conjunction_rejected.

(** A conjunction inside of a conjunction; the last equation 4*10 + 2*7 = 54 is not satisfied by x = 4, y = 3. prove()
    makes a proof all the same, which is not accepted; with y = 2 it would be. *)
Definition exBad : dlrep := mkDL (Pt 54) [Pt 10; Pt 7] [sx; sy] [] false.
Definition exConj : stmt := SAnd [SDL (mkDL (Pt 12) [Pt 3] [sx] [] false);
  SAnd [SDL (mkDL (Pt 20) [Pt 5] [sx] [] false); SDL exBad] false] false.
Definition wrongw (n : bytes) : Z := if bytes_eqb n (sname sx) then 4 else 3.
Definition answer (b : Z) : res bool :=
  match prove exConj [(sx, 4); (sy, b)] (lit "m") st0 with
  | Ok ((z, _), _) => run (let! r := verify exConj z (lit "m") in ret (fst r)) st0
  | Err e => Err e
  end.
Example C55_ex :
  (exists n, forall b, List.length (@sha256 Zq b) = n) /\ (forall g, @distinguished Zq g) /\
  conjunct exConj [1%nat; 1%nat] exBad /\ dl_shape exBad /\ prime (order (grp (dl_lhs exBad))) /\
  (forall k v, In (k, v) (dl_vals exBad ++ [(sx, 4); (sy, 3)]) -> v = wrongw (sname k)) /\ ~ dl_holds wrongw exBad /\
  answer 3 = Ok false /\ answer 2 = Ok true.
Proof.
  split; [exact zq_digest|]. split.
  { intros g p q _ _ E. pose proof (zq_faithful p) as F. unfold faithful in F. rewrite E, (zq_faithful q) in F. congruence. }
  split; [eapply CjAnd; [reflexivity|]; eapply CjAnd; [reflexivity|]; constructor|].
  split; [split; [reflexivity|]; split; [discriminate|]; repeat constructor|].
  split; [exact prime_G101|]. split.
  { intros k v [E|[E|[]]]; injection E as <- <-; reflexivity. }
  split; [vm_compute; discriminate|]. split; vm_compute; reflexivity.
Qed.

(** The interactive protocol with challenge 2: rejected with y = 3, accepted with y = 2. *)
Definition interactive (b : Z) : res bool :=
  run (let! r := get_prover exConj [(sx, 4); (sy, b)] in
       match fst r with
       | Some p => let! (pre, p, s) := precommit (snd r) p in
                   let! (com, p) := internal_commit s p None in
                   let! a := compute_response s p 2 in
                   lift (verify_resp (fun _ => None) exConj (get_verifier exConj) com 2 a)
       | None => raise EAttributeErr end) st0.
Example C09_in_conjunction_ex : interactive 3 = Ok false /\ interactive 2 = Ok true /\ ~ (order (grp (dl_lhs exBad)) | 2).
Proof. split; [vm_compute; reflexivity|]. split; [vm_compute; reflexivity|]. intros [k K]. change (2 = k * 101) in K. lia. Qed.

(** ** C19 again: without the assumption that points survive the encoding, what has been hashed determines precommitment
    and commitment up to points with one binary form. Missing as in C19_framed_partial: byte strings. *)
Theorem C19_bytes_partial : forall (W : World) s s' h h' pre pre' com com' msg msg' i,
  prehash_input s = Ok h -> prehash_input s' = Ok h' -> framed pre -> framed pre' -> framed com -> framed com' ->
  fs_input h [pre; com] msg = Ok i -> fs_input h' [pre'; com'] msg' = Ok i ->
  h = h' /\ wire_alike pre pre' /\ wire_alike com com' /\ msg = msg'.
Proof. exact @input_frame. Qed.
Print Assumptions C19_bytes_partial.

Example C19_bytes_ex : match prehash_input exConj with
  | Ok h => match fs_input h [VNone; VList [VPt (Pt 3); VPt (Pt 104)]] (lit "m"), fs_input h [VNone; VTuple [VPt (Pt 104); VPt (Pt 3)]] (lit "m"),
                  fs_input h [VNone; VList [VPt (Pt 3)]] (lit "m") with
            | Ok a, Ok b, Ok c => bytes_eqb a b && negb (bytes_eqb a c)
            | _, _, _ => false end
  | Err _ => false end = true.
Proof. vm_compute. reflexivity. Qed.

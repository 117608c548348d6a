(** Concrete statement objects for the examples and refutations about copies. *)
From Coq Require Import String.
From Verif Require Import Base World Val Expr Utils Stmt Prove Verify ZqWorld Ex ExTree Objects Sharing ObjProofs ObjShare ExObj Copies.
Open Scope Z_scope.
Open Scope list_scope.

(** ** a part that is marked simulated after composing *)
Definition marked_check (e1 e2 : sexp) (s : st) : bool :=
  match o_build e1 [] h0 s with
  | Ok ((p, h), s) =>
    match o_build e2 [] h s with
    | Ok ((q, h), s) =>
      oldb h p && oldb h q && match p, q with ODL _ _ _ _ _, ODL _ _ _ _ _ => true | _, _ => false end &&
      match o_or_op p q h with
      | Ok (o, h1) =>
        match o_prove o exsd (lit "m") (o_set_simulated p true h1) s with Ok ((z, _), s2) => accepts (view h1 o) z s2 | _ => false end &&
        match o_prove p exsd (lit "m") (o_set_simulated p true h1) s with Ok _ => true | _ => false end &&
        match o_or_op p q (o_set_simulated p true h) with
        | Ok (o', h2) => match o_prove o' exsd (lit "m") h2 s with Err _ => true | _ => false end
        | _ => false
        end
      | _ => false
      end
    | _ => false
    end
  | _ => false
  end.
Lemma marked_exists e1 e2 s0 : marked_check e1 e2 s0 = true -> exists h p q o h1 s,
  Forall (exists_in h) [p; q] /\ Forall primitive [p; q] /\ o_or_op p q h = Ok (o, h1) /\
  match o_prove o exsd (lit "m") (o_set_simulated p true h1) s with Ok ((z, _), s2) => accepts (view h1 o) z s2 | _ => false end = true /\
  exists o' h2 e, o_or_op p q (o_set_simulated p true h) = Ok (o', h2) /\ o_prove o' exsd (lit "m") h2 s = Err e.
Proof.
  unfold marked_check. destruct (o_build e1 [] h0 s0) as [[[p h] s1]|]; [|discriminate].
  destruct (o_build e2 [] h s1) as [[[q h1] s]|]; [|discriminate]. intros H.
  apply andb_prop in H as [H H1]. apply andb_prop in H as [H H2]. apply andb_prop in H as [HA HB].
  destruct (o_or_op p q h1) as [[o h2]|] eqn:E; [|discriminate].
  apply andb_prop in H1 as [H1 H6]. apply andb_prop in H1 as [H1 _].
  destruct (o_or_op p q (o_set_simulated p true h1)) as [[o' h3]|] eqn:E'; [|discriminate].
  destruct (o_prove o' exsd (lit "m") h3 s) as [|e] eqn:E3; [discriminate|].
  exists h1, p, q, o, h2, s. split; [exact (Forall_cons _ (oldb_ok _ _ HA) (Forall_cons _ (oldb_ok _ _ HB) (Forall_nil _)))|].
  split; [destruct p; try discriminate H2; destruct q; try discriminate H2; repeat apply Forall_cons; try apply Forall_nil; exact Logic.I|].
  split; [exact E|]. split; [exact H1|]. exists o', h3, e. split; [exact E'|exact E3].
Qed.
Lemma ex_marked : exists h p q o h1 s,
  Forall (exists_in h) [p; q] /\ Forall primitive [p; q] /\ o_or_op p q h = Ok (o, h1) /\
  match o_prove o exsd (lit "m") (o_set_simulated p true h1) s with Ok ((z, _), s2) => accepts (view h1 o) z s2 | _ => false end = true /\
  exists o' h2 e, o_or_op p q (o_set_simulated p true h) = Ok (o', h2) /\ o_prove o' exsd (lit "m") h2 s = Err e.
Proof. apply (marked_exists bx bz st0). vm_compute. reflexivity. Qed.

(** ** values given to a part after composing *)
Definition later_values (e1 e2 : sexp) (s : st) : bool :=
  match o_build e1 [] h0 s with
  | Ok ((p, h), s) =>
    match o_build e2 [] h s with
    | Ok ((q, h), s) =>
      oldb h p && oldb h q && match p, q with ODL _ _ _ _ _, ODL _ _ _ _ _ => true | _, _ => false end &&
      match o_or_op p q h with
      | Ok (o, h1) =>
        match o_prove o [] (lit "m") h1 s with Err _ => true | _ => false end &&
        match o_prove p exsd (lit "m") h1 s with
        | Ok ((z, h2), s2) => match o_prove o [] (lit "m") h2 s2 with Ok ((z', _), s3) => accepts (view h1 o) z' s3 | _ => false end
        | _ => false
        end
      | _ => false
      end
    | _ => false
    end
  | _ => false
  end.
Lemma later_exists e1 e2 s0 : later_values e1 e2 s0 = true -> exists h p q o h1 sd msg s e z h2 s2,
  Forall (exists_in h) [p; q] /\ Forall primitive [p; q] /\ o_or_op p q h = Ok (o, h1) /\
  o_prove o [] msg h1 s = Err e /\ o_prove p sd msg h1 s = Ok ((z, h2), s2) /\
  exists z' h3 s3 x s4, o_prove o [] msg h2 s2 = Ok ((z', h3), s3) /\ verify (view h1 o) z' msg s3 = Ok ((true, x), s4).
Proof.
  unfold later_values. destruct (o_build e1 [] h0 s0) as [[[p h] s1]|]; [|discriminate].
  destruct (o_build e2 [] h s1) as [[[q h1] s]|]; [|discriminate]. intros H.
  apply andb_prop in H as [H H1]. apply andb_prop in H as [H H2]. apply andb_prop in H as [HA HB].
  destruct (o_or_op p q h1) as [[o h2]|] eqn:E; [|discriminate].
  apply andb_prop in H1 as [H1 H6].
  destruct (o_prove o [] (lit "m") h2 s) as [|e] eqn:E1; [discriminate|].
  destruct (o_prove p exsd (lit "m") h2 s) as [[[z h3] s2]|] eqn:E2; [|discriminate].
  destruct (o_prove o [] (lit "m") h3 s2) as [[[z' h4] s3]|] eqn:E3; [|discriminate].
  apply accepts_ok in H6 as (x & s4 & E4).
  exists h1, p, q, o, h2, exsd, (lit "m"), s, e, z, h3, s2.
  split; [exact (Forall_cons _ (oldb_ok _ _ HA) (Forall_cons _ (oldb_ok _ _ HB) (Forall_nil _)))|].
  split; [destruct p; try discriminate H2; destruct q; try discriminate H2; repeat apply Forall_cons; try apply Forall_nil; exact Logic.I|].
  split; [exact E|]. split; [exact E1|]. split; [exact E2|]. exists z', h4, s3, x, s4. split; [exact E3|exact E4].
Qed.
Lemma ex_later : exists (W : World) h p q o h1 sd msg s e z h2 s2,
  Forall (exists_in h) [p; q] /\ Forall primitive [p; q] /\ o_or_op p q h = Ok (o, h1) /\
  o_prove o [] msg h1 s = Err e /\ o_prove p sd msg h1 s = Ok ((z, h2), s2) /\
  exists z' h3 s3 x s4, o_prove o [] msg h2 s2 = Ok ((z', h3), s3) /\ verify (view h1 o) z' msg s3 = Ok ((true, x), s4).
Proof. exists Zq. apply (later_exists bx bz st0). vm_compute. reflexivity. Qed.

(** ** a part of a part that is marked simulated after composing *)
Definition deep_check (e1 e2 : sexp) (s : st) : bool :=
  match o_build e1 [] h0 s with
  | Ok ((m, h), s) =>
    match o_build e2 [] h s with
    | Ok ((d, h), s) =>
      oldb h m && oldb h d && nodupb (ids m) &&
      match o_or_op m d h with
      | Ok (o, h1) =>
        match m with
        | OAnd _ [OOr _ [q; _]; _] =>
          match o_prove o exsd (lit "m") h1 s with Ok ((z, _), s2) => accepts (view h1 o) z s2 | _ => false end &&
          match o_prove o exsd (lit "m") (o_set_simulated q true h1) s with Err _ => true | _ => false end
        | _ => false
        end
      | _ => false
      end
    | _ => false
    end
  | _ => false
  end.
Lemma deep_exists e1 e2 s0 : deep_check e1 e2 s0 = true -> exists h i j q r t d o h1 sd msg s z h2 s2 x s3 e,
  Forall (exists_in h) [OAnd i [OOr j [q; r]; t]; d] /\ unshared (OAnd i [OOr j [q; r]; t]) /\
  o_or_op (OAnd i [OOr j [q; r]; t]) d h = Ok (o, h1) /\
  o_prove o sd msg h1 s = Ok ((z, h2), s2) /\ verify (view h1 o) z msg s2 = Ok ((true, x), s3) /\
  o_prove o sd msg (o_set_simulated q true h1) s = Err e.
Proof.
  unfold deep_check. destruct (o_build e1 [] h0 s0) as [[[m h] s1]|]; [|discriminate].
  destruct (o_build e2 [] h s1) as [[[d h1] s]|]; [|discriminate]. intros H.
  apply andb_prop in H as [H H1]. apply andb_prop in H as [H H2]. apply andb_prop in H as [HA HB].
  destruct (o_or_op m d h1) as [[o h2]|] eqn:E; [|discriminate].
  destruct m as [| i [|[| |j [|q [|r [|]]]|] [|t [|]]] | | ]; try discriminate H1.
  apply andb_prop in H1 as [H1 H6].
  destruct (o_prove o exsd (lit "m") h2 s) as [[[z h3] s2]|] eqn:E2; [|discriminate].
  apply accepts_ok in H1 as (x & s3 & E4).
  destruct (o_prove o exsd (lit "m") (o_set_simulated q true h2) s) as [|e] eqn:E3; [discriminate|].
  exists h1, i, j, q, r, t, d, o, h2, exsd, (lit "m"), s, z, h3, s2, x, s3, e.
  split; [exact (Forall_cons _ (oldb_ok _ _ HA) (Forall_cons _ (oldb_ok _ _ HB) (Forall_nil _)))|]. split; [now apply nodupb_ok|].
  split; [exact E|]. split; [exact E2|]. split; [exact E4|exact E3].
Qed.
Lemma ex_deep : exists (W : World) h i j q r t d o h1 sd msg s z h2 s2 x s3 e,
  Forall (exists_in h) [OAnd i [OOr j [q; r]; t]; d] /\ unshared (OAnd i [OOr j [q; r]; t]) /\
  o_or_op (OAnd i [OOr j [q; r]; t]) d h = Ok (o, h1) /\
  o_prove o sd msg h1 s = Ok ((z, h2), s2) /\ verify (view h1 o) z msg s2 = Ok ((true, x), s3) /\
  o_prove o sd msg (o_set_simulated q true h1) s = Err e.
Proof. exists Zq. apply (deep_exists (BConj (BDisj bu bz) bx) bz st0). vm_compute. reflexivity. Qed.

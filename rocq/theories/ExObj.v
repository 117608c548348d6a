(** Concrete statement objects for the examples and refutations. *)
From Coq Require Import String.
From Verif Require Import Base World Val Expr Utils Stmt Prove Verify ZqWorld Ex ExTree Objects Sharing ObjProofs ObjShare.
Open Scope Z_scope.
Open Scope list_scope.

Definition h0 : @store Zq := mkStore 0 (fun _ => false) (fun _ => None) (fun _ => (VNone, None)) (fun _ => []).
Definition bz := @BDL Zq (Pt 50) (emul sz (Pt 3)) false.
Definition bu := @BDL Zq (Pt 21) (emul su (Pt 3)) false.
Definition bx := @BDL Zq (Pt 12) (emul sx (Pt 3)) false.
Definition bv := @BDL Zq (Pt 15) (emul sv (Pt 3)) false.
Definition bn := @BExt Zq exNeqK false.
Definition policy := BDisj (BConj (@BVar Zq 0) bx) (BConj (@BVar Zq 0) bv).
Definition accepts (x : @stmt Zq) (z : @nizk Zq) (s : st) : bool :=
  match verify x z (lit "m") s with Ok ((b, _), _) => b | _ => false end.

Lemma accepts_ok x z s : accepts x z s = true -> exists x' s', verify x z (lit "m") s = Ok ((true, x'), s').
Proof.
  unfold accepts. destruct (verify x z (lit "m") s) as [[[b x'] s']|]; [|discriminate]. intros ->. eauto.
Qed.

(** decidable checks *)
Fixpoint nodupb (l : list nat) : bool := match l with [] => true | x :: l => negb (existsb (Nat.eqb x) l) && nodupb l end.
Lemma nodupb_ok l : nodupb l = true -> NoDup l.
Proof.
  induction l as [|x l IH]; simpl; intros H; constructor; apply andb_prop in H as [A B]; auto.
  intros I. apply negb_true_iff in A. rewrite <- not_true_iff_false in A. apply A, existsb_exists. exists x. split; auto. apply Nat.eqb_refl.
Qed.
Lemma nodupb_no l : nodupb l = false -> ~ NoDup l.
Proof.
  induction l as [|x l IH]; simpl; intros H N; [discriminate|]. inversion N as [|y l' NI ND]; subst. apply andb_false_iff in H as [H|H]; [|exact (IH H ND)].
  apply negb_false_iff, existsb_exists in H as (y & I & E). apply Nat.eqb_eq in E as ->. exact (NI I).
Qed.
Definition apartb (a b : list nat) : bool := forallb (fun i => negb (existsb (Nat.eqb i) b)) a.
Lemma apartb_ok a b : apartb a b = true -> forall i, In i a -> ~ In i b.
Proof.
  intros H i I J. unfold apartb in H. rewrite forallb_forall in H. specialize (H i I). apply negb_true_iff in H.
  rewrite <- not_true_iff_false in H. apply H, existsb_exists. exists i. split; auto. apply Nat.eqb_refl.
Qed.
Lemma apartb_no a b : apartb a b = false -> ~ (forall i, In i a -> ~ In i b).
Proof.
  intros H K. rewrite <- not_true_iff_false in H. apply H. unfold apartb. apply forallb_forall. intros i I.
  apply negb_true_iff, not_true_iff_false. intros J. apply existsb_exists in J as (j & J & E). apply Nat.eqb_eq in E as ->. eapply K; eauto.
Qed.
Fixpoint plainb (o : @obj Zq) : bool :=
  match o with ODL _ _ _ _ _ => true | OExt _ _ => false | OAnd _ l | OOr _ l => forallb plainb l end.
Lemma plainb_ok o : plainb o = true -> plain o.
Proof.
  induction o as [i lhs bs ss di|i subs IH|i subs IH|i k] using obj_ind'; simpl; intros H; [exact I| | |discriminate].
  - induction IH as [|o l P _ IHl]; simpl; [exact I|]. simpl in H. apply andb_prop in H as [A B]. split; [exact (P A)|exact (IHl B)].
  - induction IH as [|o l P _ IHl]; simpl; [exact I|]. simpl in H. apply andb_prop in H as [A B]. split; [exact (P A)|exact (IHl B)].
Qed.
Definition oldb (h : @store Zq) (o : obj) : bool := forallb (fun i => (i <? nxt h)%nat) (ids o ++ dids o).
Lemma oldb_ok h o : oldb h o = true -> exists_in h o.
Proof.
  intros H. unfold oldb in H. rewrite forallb_forall in H. apply Forall_forall. intros i I. now apply Nat.ltb_lt, H.
Qed.

(** ** the repeated part *)
Definition repeated (e1 e2 : sexp) (s : st) : bool :=
  match o_build e1 [] h0 s with
  | Ok ((m, h), s) =>
    oldb h m && nodupb (ids m) &&
    match o_build e2 [m] h s with
    | Ok ((o, h), s) =>
      match o_prove o exsd (lit "m") h s with
      | Ok ((z, h'), s') =>
        match verify (view h o) z (lit "m") s' with
        | Err EStatementMismatch => match prove (view h o) exsd (lit "m") s with Ok ((z2, _), s2) => accepts (view h o) z2 s2 | _ => false end
        | _ => false
        end
      | _ => false
      end
    | _ => false
    end
  | _ => false
  end.
Lemma repeated_exists e1 e2 s : repeated e1 e2 s = true -> exists vars h e s o h1 s1 sd msg z h2 s2,
  Forall (exists_in h) vars /\ Forall unshared vars /\ o_build e vars h s = Ok ((o, h1), s1) /\
  o_prove o sd msg h1 s1 = Ok ((z, h2), s2) /\ verify (view h1 o) z msg s2 = Err EStatementMismatch /\
  exists z' x s3 x' s4, prove (view h1 o) sd msg s1 = Ok ((z', x), s3) /\ verify (view h1 o) z' msg s3 = Ok ((true, x'), s4).
Proof.
  unfold repeated. destruct (o_build e1 [] h0 s) as [[[m h] s0]|] eqn:E0; [|discriminate]. intros H.
  apply andb_prop in H as [H H1]. apply andb_prop in H as [H2 H3].
  destruct (o_build e2 [m] h s0) as [[[o h1] s1]|] eqn:E1; [|discriminate].
  destruct (o_prove o exsd (lit "m") h1 s1) as [[[z h'] s2]|] eqn:E2; [|discriminate].
  destruct (verify (view h1 o) z (lit "m") s2) as [|[]] eqn:E3; try discriminate.
  destruct (prove (view h1 o) exsd (lit "m") s1) as [[[z' x'] s3]|] eqn:E4; [|discriminate].
  apply accepts_ok in H1 as (x'' & s4 & E5).
  exists [m], h, e2, s0, o, h1, s1, exsd, (lit "m"), z, h', s2.
  split; [constructor; [now apply oldb_ok|constructor]|]. split; [constructor; [now apply nodupb_ok|constructor]|].
  split; [exact E1|]. split; [exact E2|]. split; [exact E3|]. exists z', x', s3, x'', s4. split; [exact E4|exact E5].
Qed.
Lemma ex_repeated : exists (W : World) vars h e s o h1 s1 sd msg z h2 s2,
  Forall (exists_in h) vars /\ Forall unshared vars /\ o_build e vars h s = Ok ((o, h1), s1) /\
  o_prove o sd msg h1 s1 = Ok ((z, h2), s2) /\ verify (view h1 o) z msg s2 = Err EStatementMismatch /\
  exists z' x s3 x' s4, prove (view h1 o) sd msg s1 = Ok ((z', x), s3) /\ verify (view h1 o) z' msg s3 = Ok ((true, x'), s4).
Proof. exists Zq. apply (repeated_exists (BDisj bn bz) policy st0). vm_compute. reflexivity. Qed.

Definition once (e1 e2 e3 : sexp) (s : st) : bool :=
  match o_build e1 [] h0 s with
  | Ok ((m, h), s) =>
    oldb h m && nodupb (ids m) && nodupb (below [m] e2) && negb (nodupb (below [m] e3)) &&
    match o_build e2 [m] h s with
    | Ok ((o, h'), s') => nodupb (ids o) && match o_prove o exsd (lit "m") h' s' with Ok ((z, _), s2) => accepts (view h' o) z s2 | _ => false end
    | _ => false
    end
  | _ => false
  end.
Lemma once_exists e1 e2 e3 s : once e1 e2 e3 s = true ->
  exists m h s1, o_build e1 [] h0 s = Ok ((m, h), s1) /\ Forall (exists_in h) [m] /\ Forall unshared [m] /\
    NoDup (below [m] e2) /\ ~ NoDup (below [m] e3) /\
    exists o h' s', o_build e2 [m] h s1 = Ok ((o, h'), s') /\ unshared o /\
      match o_prove o exsd (lit "m") h' s' with Ok ((z, _), s2) => accepts (view h' o) z s2 | _ => false end = true.
Proof.
  unfold once. destruct (o_build e1 [] h0 s) as [[[m h] s0]|] eqn:E0; [|discriminate]. intros H.
  apply andb_prop in H as [H H1]. apply andb_prop in H as [H H2]. apply andb_prop in H as [H H3]. apply andb_prop in H as [H5 H4].
  destruct (o_build e2 [m] h s0) as [[[o h1] s1]|] eqn:E1; [|discriminate]. apply andb_prop in H1 as [H1 H6].
  exists m, h, s0. split; [reflexivity|]. split; [constructor; [now apply oldb_ok|constructor]|].
  split; [constructor; [now apply nodupb_ok|constructor]|]. split; [now apply nodupb_ok|]. split; [now apply nodupb_no, negb_true_iff|].
  exists o, h1, s1. split; [exact E1|]. split; [now apply nodupb_ok|exact H6].
Qed.
Lemma ex_once :
  exists m h s, o_build (BDisj bn bz) [] h0 st0 = Ok ((m, h), s) /\ Forall (exists_in h) [m] /\ Forall unshared [m] /\
    NoDup (below [m] (BDisj (BConj (BVar 0) bx) (BConj bu bv))) /\ ~ NoDup (below [m] policy) /\
    exists o h' s', o_build (BDisj (BConj (BVar 0) bx) (BConj bu bv)) [m] h s = Ok ((o, h'), s') /\ unshared o /\
      match o_prove o exsd (lit "m") h' s' with Ok ((z, _), s2) => accepts (view h' o) z s2 | _ => false end = true.
Proof. apply once_exists. vm_compute. reflexivity. Qed.

(** ** values left in a part *)
Definition values (e1 e2 : sexp) (s : st) : bool :=
  match o_build e1 [] h0 s with
  | Ok ((p, h), s) =>
    match o_build e2 [] h s with
    | Ok ((q, h), s) =>
      oldb h p && oldb h q &&
      match o_and_op p q h with
      | Ok (o, h1) =>
        match o_prove p [] (lit "m") h1 s, o_prove o exsd (lit "m") h1 s with
        | Err EAttributeErr, Ok ((z, h2), s2) =>
          match o_prove p [] (lit "m") h2 s2 with Ok ((z', h3), s3) => accepts (view h1 p) z' s3 | _ => false end
        | _, _ => false
        end
      | _ => false
      end
    | _ => false
    end
  | _ => false
  end.
Lemma values_exists e1 e2 s : values e1 e2 s = true -> exists h p q o h1 sd msg s z h2 s2,
  exists_in h p /\ exists_in h q /\ o_and_op p q h = Ok (o, h1) /\ o_prove p [] msg h1 s = Err EAttributeErr /\
  o_prove o sd msg h1 s = Ok ((z, h2), s2) /\
  exists z' h3 s3 x s4, o_prove p [] msg h2 s2 = Ok ((z', h3), s3) /\ verify (view h1 p) z' msg s3 = Ok ((true, x), s4).
Proof.
  unfold values. destruct (o_build e1 [] h0 s) as [[[p h] s0]|] eqn:E0; [|discriminate].
  destruct (o_build e2 [] h s0) as [[[q h1] s1]|] eqn:E1; [|discriminate]. intros H.
  apply andb_prop in H as [H H1]. apply andb_prop in H as [H2 H3].
  destruct (o_and_op p q h1) as [[o h2]|] eqn:E2; [|discriminate].
  destruct (o_prove p [] (lit "m") h2 s1) as [|[]] eqn:E3; try discriminate.
  destruct (o_prove o exsd (lit "m") h2 s1) as [[[z h3] s2]|] eqn:E4; [|discriminate].
  destruct (o_prove p [] (lit "m") h3 s2) as [[[z' h4] s3]|] eqn:E5; [|discriminate].
  apply accepts_ok in H1 as (x & s4 & E6).
  exists h1, p, q, o, h2, exsd, (lit "m"), s1, z, h3, s2. split; [now apply oldb_ok|]. split; [now apply oldb_ok|].
  split; [exact E2|]. split; [exact E3|]. split; [exact E4|]. exists z', h4, s3, x, s4. split; [exact E5|exact E6].
Qed.
Lemma ex_values : exists (W : World) h p q o h1 sd msg s z h2 s2,
  exists_in h p /\ exists_in h q /\ o_and_op p q h = Ok (o, h1) /\ o_prove p [] msg h1 s = Err EAttributeErr /\
  o_prove o sd msg h1 s = Ok ((z, h2), s2) /\
  exists z' h3 s3 x s4, o_prove p [] msg h2 s2 = Ok ((z', h3), s3) /\ verify (view h1 p) z' msg s3 = Ok ((true, x), s4).
Proof. exists Zq. apply (values_exists bx bv st0). vm_compute. reflexivity. Qed.

(** ** marks left in a common part *)
Definition common (e1 e2 e3 : sexp) (s : st) : bool :=
  match o_build e1 [] h0 s with
  | Ok ((m, h), s) =>
    match o_build e2 [] h s with
    | Ok ((p, h), s) =>
      match o_build e3 [] h s with
      | Ok ((q, h), s) =>
        oldb h m && nodupb (ids m) &&
        match o_and_op m p h with
        | Ok (o, h1) =>
          match o_and_op m q h1 with
          | Ok (x, h2) =>
            match o_prove o exsd (lit "m") h2 s with
            | Ok ((z, h3), s3) =>
              match o_prove x exsd (lit "m") h3 s3, o_prove x exsd (lit "m") h2 s with Err EValueErr, Ok _ => true | _, _ => false end
            | _ => false
            end
          | _ => false
          end
        | _ => false
        end
      | _ => false
      end
    | _ => false
    end
  | _ => false
  end.
Lemma common_exists e1 e2 e3 s : common e1 e2 e3 s = true -> exists h m p q o x h1 h2 sd msg s z h3 s3,
  exists_in h m /\ unshared m /\ o_and_op m p h = Ok (o, h1) /\ o_and_op m q h1 = Ok (x, h2) /\
  o_prove o sd msg h2 s = Ok ((z, h3), s3) /\ o_prove x sd msg h3 s3 = Err EValueErr /\
  exists z' h4 s4, o_prove x sd msg h2 s = Ok ((z', h4), s4).
Proof.
  unfold common. destruct (o_build e1 [] h0 s) as [[[m h] s0]|] eqn:E0; [|discriminate].
  destruct (o_build e2 [] h s0) as [[[p h1] s1]|] eqn:E1; [|discriminate].
  destruct (o_build e3 [] h1 s1) as [[[q h2] s2]|] eqn:E2; [|discriminate]. intros H.
  apply andb_prop in H as [H H1]. apply andb_prop in H as [H2 H3].
  destruct (o_and_op m p h2) as [[o h3]|] eqn:E3; [|discriminate].
  destruct (o_and_op m q h3) as [[x h4]|] eqn:E4; [|discriminate].
  destruct (o_prove o exsd (lit "m") h4 s2) as [[[z h5] s3]|] eqn:E5; [|discriminate].
  destruct (o_prove x exsd (lit "m") h5 s3) as [|[]] eqn:E6; try discriminate.
  destruct (o_prove x exsd (lit "m") h4 s2) as [[[z' h6] s4]|] eqn:E7; [|discriminate].
  exists h2, m, p, q, o, x, h3, h4, exsd, (lit "m"), s2, z, h5, s3. split; [now apply oldb_ok|]. split; [now apply nodupb_ok|].
  split; [exact E3|]. split; [exact E4|]. split; [exact E5|]. split; [exact E6|]. exists z', h6, s4. exact E7.
Qed.
Lemma ex_marks : exists (W : World) h m p q o x h1 h2 sd msg s z h3 s3,
  exists_in h m /\ unshared m /\ o_and_op m p h = Ok (o, h1) /\ o_and_op m q h1 = Ok (x, h2) /\
  o_prove o sd msg h2 s = Ok ((z, h3), s3) /\ o_prove x sd msg h3 s3 = Err EValueErr /\
  exists z' h4 s4, o_prove x sd msg h2 s = Ok ((z', h4), s4).
Proof. exists Zq. apply (common_exists (BDisj bu bz) bx bv st0). vm_compute. reflexivity. Qed.

(** ** nothing, or only primitives, in common *)
Definition apart_check (e1 e2 e3 e4 : sexp) (s : st) : bool :=
  match o_build e1 [] h0 s with
  | Ok ((p, h), s) =>
    match o_build e2 [p] h s with
    | Ok ((o, h1), s1) =>
      match o_build e3 [p] h1 s1 with
      | Ok ((x, h2), s2) =>
        match o_build e4 [] h2 s2 with
        | Ok ((y, h3), s3) =>
          nodupb (ids o) && nodupb (ids x) && nodupb (ids y) && apartb (ids o) (ids x) && negb (apartb (dids o) (dids x)) &&
          apartb (ids o) (ids y) && apartb (dids o) (dids y) && plainb o &&
          match o_prove o exsd (lit "m") h3 s3 with
          | Ok ((z, h4), s4) => match o_prove x exsd (lit "m") h4 s4 with Ok ((z', _), s5) => accepts (view h3 x) z' s5 | _ => false end
          | _ => false
          end
        | _ => false
        end
      | _ => false
      end
    | _ => false
    end
  | _ => false
  end.
Lemma apart_exists e1 e2 e3 e4 s : apart_check e1 e2 e3 e4 s = true -> exists p h s1 o h1 s2 x h2 s3 y h3 s4,
  o_build e1 [] h0 s = Ok ((p, h), s1) /\ o_build e2 [p] h s1 = Ok ((o, h1), s2) /\ o_build e3 [p] h1 s2 = Ok ((x, h2), s3) /\
  o_build e4 [] h2 s3 = Ok ((y, h3), s4) /\
  unshared o /\ plain o /\ unshared x /\ apart o x /\ ~ dicts_apart o x /\ unshared y /\ apart o y /\ dicts_apart o y /\
  match o_prove o exsd (lit "m") h3 s4 with
  | Ok ((z, h4), s5) => match o_prove x exsd (lit "m") h4 s5 with Ok ((z', _), s6) => accepts (view h3 x) z' s6 | _ => false end
  | _ => false
  end = true.
Proof.
  unfold apart_check. intros H. destruct (o_build e1 [] h0 s) as [[[p h] s0]|] eqn:E0; [|discriminate].
  destruct (o_build e2 [p] h s0) as [[[o h1] s1]|] eqn:E1; [|discriminate].
  destruct (o_build e3 [p] h1 s1) as [[[x h2] s2]|] eqn:E2; [|discriminate].
  destruct (o_build e4 [] h2 s2) as [[[y h3] s3]|] eqn:E3; [|discriminate].
  apply andb_prop in H as [H H9]. apply andb_prop in H as [H H8]. apply andb_prop in H as [H H7]. apply andb_prop in H as [H H6].
  apply andb_prop in H as [H H5].
  apply andb_prop in H as [H H4]. apply andb_prop in H as [H H3]. apply andb_prop in H as [H1 H2].
  exists p, h, s0, o, h1, s1, x, h2, s2, y, h3, s3. split; [reflexivity|]. split; [exact E1|]. split; [exact E2|]. split; [exact E3|].
  split; [now apply nodupb_ok|]. split; [now apply plainb_ok|].
  split; [now apply nodupb_ok|]. split; [exact (apartb_ok _ _ H4)|]. split; [apply negb_true_iff in H5; exact (apartb_no _ _ H5)|].
  split; [now apply nodupb_ok|]. split; [exact (apartb_ok _ _ H6)|]. split; [exact (apartb_ok _ _ H7)|exact H9].
Qed.
Lemma ex_apart : exists p h s1 o h1 s2 x h2 s3 y h3 s4,
  o_build bx [] h0 st0 = Ok ((p, h), s1) /\ o_build (BConj (BVar 0) bv) [p] h s1 = Ok ((o, h1), s2) /\ o_build (BDisj (BVar 0) bu) [p] h1 s2 = Ok ((x, h2), s3) /\
  o_build (BConj bz bx) [] h2 s3 = Ok ((y, h3), s4) /\
  unshared o /\ plain o /\ unshared x /\ apart o x /\ ~ dicts_apart o x /\ unshared y /\ apart o y /\ dicts_apart o y /\
  match o_prove o exsd (lit "m") h3 s4 with
  | Ok ((z, h4), s5) => match o_prove x exsd (lit "m") h4 s5 with Ok ((z', _), s6) => accepts (view h3 x) z' s6 | _ => false end
  | _ => false
  end = true.
Proof. apply apart_exists. vm_compute. reflexivity. Qed.

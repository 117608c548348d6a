(** Calls of get_prover() together with what they leave of the statement object, also when they raise an exception
    (in [Prove] the state is dropped in this case). *)
From Verif Require Import Base World Val Expr Utils Stmt Prove.
Open Scope Z_scope.
Open Scope list_scope.

Section F.
Context {W : World}.

(** What a call leaves: its result or exception, the statement object, the state of the process. *)
Definition leaves (A : Type) : Type := res A * stmt * st.

(** the list comprehension of composition.py:748; an exception in one part leaves the following ones as they were *)
Definition try_all (f : stmt -> st -> leaves (option prover)) :=
  fix go (l : list stmt) (a : st) {struct l} : res (list (option prover)) * list stmt * st :=
  match l with
  | [] => (Ok [], [], a)
  | x :: l =>
    match f x a with
    | (Err e, x', a) => (Err e, x' :: l, a)
    | (Ok o, x', a) =>
        let '(r, l', a) := go l a in
        (match r with Ok os => Ok (o :: os) | Err e => Err e end, x' :: l', a)
    end
  end.

(** The choice loop composition.py:466-482. The second component is the attribute chosen_idx. *)
Fixpoint try_one (fuel : nat) (fs : list (st -> leaves (option prover))) (possible : list nat) (subs : list stmt) (a : st)
  : res (option (nat * prover)) * option nat * list stmt * st :=
  match fuel with
  | O => (Ok None, None, subs, a)
  | S fuel =>
    match draw (len possible) a with
    | Err e => (Err e, None, subs, a)
    | Ok (r, a) =>
      match nth_error possible (Z.to_nat r) with
      | None => (Err EIndexErr, None, subs, a)
      | Some i =>
        match nth_error fs i with
        | None => (Err EIndexErr, None, subs, a)
        | Some f =>
          match f a with
          | (Err e, x, a) => (Err e, Some i, replace i x subs, a)
          | (Ok (Some p), x, a) => (Ok (Some (i, p)), Some i, replace i x subs, a)
          | (Ok None, x, a) =>
              let possible := remove Nat.eq_dec i possible in
              if empty_dict possible then (Ok None, None, replace i x subs, a)
              else try_one fuel fs possible (replace i x subs) a
          end
        end
      end
    end
  end.

(** get_prover: composition.py:738-754 (and), 441-483 (or), extended.py:99-115, dlrep.py:108-139.
    Simplification: if the simulation of a branch fails (composition.py:577-586), the attributes that were written to
    primitives in the simulated branches, and the random numbers they used, are not tracked. *)
Fixpoint attempt (s : stmt) (sd : dict Z) (a : st) : leaves (option prover) :=
  match s with
  | SDL d =>
      match get_prover_dl d sd a with
      | Ok ((o, d'), a) => (Ok o, SDL d', a)
      | Err e => (Err e, s, a)
      end
  | SAnd subs b =>
      match update_secret_values sd a with
      | Err e => (Err e, s, a)
      | Ok (_, a) =>
        if b then (Ok None, s, a) else
        let '(r, l, a) := try_all (fun x => attempt x sd) subs a in
        (match r with
         | Err e => Err e
         | Ok os => if forallb is_some os
                    then Ok (Some (PAnd (flat_map (fun o => match o with Some p => [p] | None => [] end) os)))
                    else Err EValueErr
         end, SAnd l b, a)
      end
  | SOr subs b ch =>
      match update_secret_values sd a with
      | Err e => (Err e, s, a)
      | Ok (_, a) =>
        if b then (Ok None, s, a) else
        let cands := map fst (filter (fun p : nat * stmt => negb (simulated (snd p)))
                                     (combine (seq 0 (List.length subs)) subs)) in
        if empty_dict cands then (Ok None, s, a) else
        match try_one (List.length cands) (map (fun x => attempt x sd) subs) cands subs a with
        | (Err e, c, l, a) => (Err e, SOr l b c, a)
        | (Ok None, _, l, a) => (Ok None, SOr l b None, a)
        | (Ok (Some (i, p)), c, l, a) =>
            match setup_simulations i l a with
            | Ok ((l', sims), a) => (Ok (Some (POr i p sims)), SOr l' b (Some i), a)
            | Err e => (Err e, SOr l b c, a)
            end
        end
      end
  | SExt k b pre con =>
      match get_prover s sd a with
      | Ok ((o, s'), a) => (Ok o, s', a)
      | Err e => (Err e, s, a)
      end
  end.

(** ** Specification *)

(** The call did not give a prover: None (on which prove() raises AttributeError) or an exception. *)
Definition fails {A} (r : res (option A)) : Prop := match r with Ok (Some _) => False | _ => True end.
(** [s'] is what is left of [s] after any number of failed calls, with any dictionaries and in any states. *)
Inductive failed_calls : stmt -> stmt -> Prop :=
| FcNone s : failed_calls s s
| FcCall s sd a r s1 a1 s2 :
    attempt s sd a = (r, s1, a1) -> fails r -> failed_calls s1 s2 -> failed_calls s s2.
(** Conjunctions of representations. *)
Inductive conjunctive : stmt -> Prop :=
| CjDL d : conjunctive (SDL d)
| CjAnd subs b : Forall conjunctive subs -> conjunctive (SAnd subs b).
(** The dictionary has a value for every secret of the statement. *)
Definition all_given (sd : dict Z) (s : stmt) : Prop :=
  sd <> [] /\ forall ss x, get_secret_vars s = Ok ss -> In x ss -> exists v, In (x, v) sd.
End F.

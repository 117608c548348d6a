(** Verifiers: /repo/zksk/base.py:169-263, composition.py:662-702, 892-947, extended.py:214-245,
    primitives/dlrep.py:29-53. *)
From Coq Require Import String.
From Verif Require Import Base World Val Expr Utils Stmt Prove.
Open Scope Z_scope.
Open Scope list_scope.

Section V.
Context {W : World}.

(** Verifier objects, parallel to the statement. [VExt con]: constructed_verifier, absent until
    process_precommitment. *)
Inductive verifier :=
| RDL
| RAnd (subs : list verifier)
| ROr (subs : list verifier)
| RExt (con : option verifier).

(** get_verifier: composition.py:169-173, 485-486, 756-760 *)
Fixpoint get_verifier (s : stmt) : verifier :=
  match s with
  | SDL _ => RDL
  | SAnd subs _ => RAnd (map get_verifier subs)
  | SOr subs _ _ => ROr (map get_verifier subs)
  | SExt _ _ _ _ => RExt None
  end.

(** process_precommitment: base.py:184-188, composition.py:673-684, 940-947, extended.py:219-225 *)
Fixpoint process_pre (s : stmt) (v : verifier) (pre : val) : M (verifier * stmt) :=
  match s, v with
  | SDL _, RDL => ret (v, s)
  | SAnd subs b, RAnd vs =>
      if is_none pre then ret (v, s) else
      let! l := (fix go i l vs {struct l} := match l, vs with
                 | x :: l, w :: vs => let! p := lift (index pre i) in
                                      let! r := process_pre x w p in
                                      let! rs := go (S i) l vs in ret (r :: rs)
                 | _, _ => ret []
                 end) O subs vs in
      ret (RAnd (map fst l), SAnd (map snd l) b)
  | SOr subs b ch, ROr vs =>
      if is_none pre then ret (v, s) else
      let! l := (fix go i l vs {struct l} := match l, vs with
                 | x :: l, w :: vs => let! p := lift (index pre i) in
                                      let! r := process_pre x w p in
                                      let! rs := go (S i) l vs in ret (r :: rs)
                 | _, _ => ret []
                 end) O subs vs in
      ret (ROr (map fst l), SOr (map snd l) b ch)
  | SExt k b _ _, RExt _ =>
      let! c := construct k pre in
      ret (RExt (Some (get_verifier c)), SExt k b pre (Some c))
  | _, _ => raise ETypeErr
  end.

(** dlrep.py:30-53. [Ok None]: returns False. Otherwise the updated dictionary. *)
Definition consistent_dl (e : nat -> option Z) (ss : list secret) (r : val) (rd : dict val)
  : res (option (dict val)) :=
  (fix go i ss rd := match ss with
   | [] => Ok (Some rd)
   | s :: ss =>
     match dget e rd s with
     | Some x => let? ri := index r i in
                 if val_eqb ri x then go (S i) ss rd else Ok None
     | None => let? ri := index r i in go (S i) ss (dset e rd s ri)
     end
   end) O ss rd.

(** check_responses_consistency: composition.py:686-702 (or), 920-938 (and), extended.py:239-245 *)
Fixpoint consistent (e : nat -> option Z) (s : stmt) (v : verifier) (r : val) (rd : dict val)
  : res (option (dict val)) :=
  match s, v with
  | SDL d, RDL => consistent_dl e (dl_secs d) r rd
  | SAnd subs _, RAnd vs =>
      (fix go i l vs rd {struct l} := match l, vs with
       | x :: l, w :: vs =>
           let? ri := index r i in
           let? o := consistent e x w ri rd in
           match o with Some rd => go (S i) l vs rd | None => Ok None end
       | _, _ => Ok (Some rd)
       end) O subs vs rd
  | SOr subs _ _, ROr vs =>
      (fix go i l vs {struct l} := match l, vs with
       | x :: l, w :: vs =>
           let? rs := index r 1 in
           let? ri := index rs i in
           let? o := consistent e x w ri [] in
           match o with Some _ => go (S i) l vs | None => Ok None end
       | _, _ => Ok (Some rd)
       end) O subs vs
  | SExt _ _ _ (Some c), RExt (Some w) => consistent e c w r rd
  | SExt _ _ _ _, RExt _ => Err EAttributeErr
  | _, _ => Err ETypeErr
  end.

(** base.py:206-210 pre_verification_validation *)
Definition pre_validation (e : nat -> option Z) (s : stmt) (v : verifier) (r : val) : res unit :=
  let? _ := full_validate s in
  let? o := consistent e s v r [] in
  match o with Some _ => Ok tt | None => Err EValidation end.

(** base.py:212-231 verify: commitment and challenge are those stored by send_challenge *)
Definition verify_resp (e : nat -> option Z) (s : stmt) (v : verifier) (com : val) (c : Z) (r : val)
  : res bool :=
  let? _ := pre_validation e s v r in
  let? x := recompute s c r in Ok (val_eqb com x).

(** base.py:233-263 verify_nizk *)
Definition verify_nizk (s : stmt) (v : verifier) (z : nizk) (msg : bytes) : M (bool * stmt) :=
  let! (v, s) := (if is_none (n_pre z) then ret (v, s) else process_pre s v (n_pre z)) in
  let! h := lift (check_statement s (n_hash z)) in
  let! e := get_env in
  let! _ := lift (pre_validation e s v (n_resp z)) in
  let! com := lift (recompute s (n_chal z) (n_resp z)) in
  let! c := lift (fs_challenge h [n_pre z; com] msg) in
  ret (n_chal z =? c, s).

(** composition.py:200-205 verify *)
Definition verify (s : stmt) (z : nizk) (msg : bytes) : M (bool * stmt) :=
  verify_nizk s (get_verifier s) z msg.

(** send_challenge: base.py:190-204; composition.py:897-918; extended.py:227-237 (the inner
    verifier must accept the keyword argument: only AndVerifier does) *)
Definition send_challenge (s : stmt) (v : verifier) (h com : val) : M Z :=
  let! _ := lift (check_statement s h) in
  match v with
  | RExt (Some (RAnd _)) => get_random_num challenge_length
  | RExt (Some _) => raise ETypeErr
  | RExt None => raise EAttributeErr
  | _ => get_random_num challenge_length
  end.

(** composition.py:310-328 verify_simulation_consistency *)
Definition verify_simulation (s : stmt) (t : sim) (h : val) : M bool :=
  let! (v, s) := process_pre s (get_verifier s) (t_pre t) in
  let! _ := lift (check_statement s h) in
  let! e := get_env in
  lift (verify_resp e s v (t_com t) (t_chal t) (t_resp t)).

(** The interactive protocol, /repo/zksk/utils/debug.py SigmaProtocol.verify: the two parties may
    hold different statement objects [sp], [sv] in one process. *)
Definition run_interactive (sp : stmt) (p : prover) (sv : stmt) : M bool :=
  let! (pre, p, sp) := precommit sp p in
  let! (v, sv) := process_pre sv (get_verifier sv) pre in
  let! (h, com, p) := commit sp p in
  let! c := send_challenge sv v h com in
  let! r := compute_response sp p c in
  let! e := get_env in
  lift (verify_resp e sv v com c r).
End V.

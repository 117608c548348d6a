(** Disjunctions with primitives defined by users of the library: OrProofStmt(...) or | whose parts are objects of such classes
    (Custom.v) and other statements. *)
From Coq Require Import String.
From Verif Require Import Base World Val Expr Utils Stmt Prove Verify Spec Shapes Honest Supply Custom Mixed.
Open Scope Z_scope.
Open Scope list_scope.

(** A part (Mixed.v) with its mark [simulated]. *)
Notation mpart := (upart * bool)%type.

Section M.
Context {W : World}.

Definition oshell (u : mpart) : stmt := set_simulated (snd u) (shell (fst u)).

(** prepare_simulate_proof() and simulate_proof(): of a primitive extended.py:142-158 *)
Definition osim1 (u : mpart) (s : stmt) : M (stmt * sim) :=
  match fst u with
  | UK K => let! pre := c_sim K in
            let! c := c_con K pre in
            let! t := simulate_proof c None None in
            ret (set_simulated (snd u) (obj_of K pre (Some c)), mkSim (t_com t) (t_chal t) (t_resp t) pre)
  | US _ => let! s := prepare_sim s in
            let! t := simulate_proof s None None in
            ret (s, t)
  end.
(** composition.py:577-586 setup_simulations; [i]: index of the first part of [l], [idx]: the chosen one *)
Fixpoint osetup (idx i : nat) (l : list mpart) (subs : list stmt) : M (list stmt * list sim) :=
  match l, subs with
  | u :: l, s :: subs =>
      if Nat.eqb i idx then let! r := osetup idx (S i) l subs in ret (s :: fst r, snd r)
      else let! x := osim1 u s in
           let! r := osetup idx (S i) l subs in ret (fst x :: fst r, snd x :: snd r)
  | _, _ => ret ([], [])
  end.
Definition candidates (l : list mpart) : list nat :=
  map fst (filter (fun p : nat * mpart => negb (snd (snd p))) (combine (seq 0 (List.length l)) l)).
(** get_prover(): composition.py:441-483, 569-575; that of a primitive is extended.py:99-115, the same for all classes *)
Definition oget (l : list mpart) (sd : dict Z) : M (option prover * stmt) :=
  update_secret_values sd ;;
  let subs := map oshell l in
  if empty_dict (candidates l) then ret (None, SOr subs false None) else
  let! r := or_loop (List.length (candidates l)) (map (fun s => get_prover s sd) subs) (candidates l) subs in
  match fst r with
  | None => ret (None, SOr (snd r) false None)
  | Some (i, p) => let! t := osetup i 0 l (snd r) in ret (Some (POr i p (snd t)), SOr (fst t) false (Some i))
  end.
(** precommit(): composition.py:588-603 *)
Definition pre_any (pres : list val) : val := if existsb truthy pres then VList pres else VNone.
Definition oopen (l : list mpart) (sd : dict Z) : M (val * prover * stmt) :=
  let! r := oget l sd in
  match r with
  | (Some (POr i p sims), SOr subs b ch) =>
      match nth_error l i, nth_error subs i with
      | Some u, Some s =>
          let! r := upre1 (fst u) s p in
          ret (pre_any (insert_at i (fst (fst r)) (map t_pre sims)), POr i (snd (fst r)) sims, SOr (replace i (snd r) subs) b ch)
      | _, _ => raise EIndexErr
      end
  | _ => raise EAttributeErr
  end.
(** prove(): composition.py:191-198, base.py:135-166 *)
Definition oprove (l : list mpart) (sd : dict Z) (msg : bytes) : M nizk :=
  let! (pre, p, s) := oopen l sd in
  let! (com, p) := internal_commit s p None in
  let! h := lift (prehash_input s) in
  let! ch := lift (fs_challenge h [pre; com] msg) in
  let! r := compute_response s p ch in
  ret (mkNizk ch r pre (VBytes (sha256 h))).

(** process_precommitment: composition.py:673-684; the verifier does not look at the marks *)
Definition oprocess (l : list upart) (pre : val) : M (verifier * stmt) :=
  if is_none pre then ret (get_verifier (SOr (map shell l) false None), SOr (map shell l) false None) else
  let! t := uproc 0 l pre in ret (ROr (map fst t), SOr (map snd t) false None).
(** full_validate: composition.py:393-395, extended.py:82-83 *)
Definition ovalidate (l : list upart) (s : stmt) : res unit :=
  match s with
  | SOr subs _ _ => let? _ := rmap uvalid1 (combine l subs) in Ok tt
  | _ => full_validate s
  end.
(** pre_verification_validation: base.py:206-210 *)
Definition opre_validation (e : nat -> option Z) (l : list upart) (s : stmt) (v : verifier) (r : val) : res unit :=
  let? _ := ovalidate l s in
  let? o := consistent e s v r [] in
  match o with Some _ => Ok tt | None => Err EValidation end.
(** verify() of a response: base.py:212-231 *)
Definition overify_resp (e : nat -> option Z) (l : list upart) (s : stmt) (v : verifier) (com : val) (ch : Z) (r : val) : res bool :=
  let? _ := opre_validation e l s v r in
  let? x := recompute s ch r in Ok (val_eqb com x).
(** verify() of a proof: composition.py:200-205, base.py:233-263 *)
Definition overify (l : list upart) (z : nizk) (msg : bytes) : M bool :=
  let! (v, s) := oprocess l (n_pre z) in
  let! h := lift (check_statement s (n_hash z)) in
  let! e := get_env in
  let! _ := lift (opre_validation e l s v (n_resp z)) in
  let! com := lift (recompute s (n_chal z) (n_resp z)) in
  let! ch := lift (fs_challenge h [n_pre z; com] msg) in
  ret (n_chal z =? ch).

(** ** Specification *)

(** The methods of the class make the precommitment [pre] and construct the statement [c] from it. *)
Definition made (K : cls) (pre : val) (c : stmt) : Prop :=
  exists a a1 a2, (c_pre K a = Ok (pre, a1) \/ c_sim K a = Ok (pre, a1)) /\ c_con K pre a1 = Ok (c, a2).
(** From every state in which the secrets [U] have the values [w] or none, simulate_precommit() gives a precommitment of which
    construct_stmt makes a statement about these secrets. *)
Definition simulable (U : list secret) (w : bytes -> Z) (K : cls) : Prop :=
  forall a, agree w (env a) U -> exists pre a1 c a2, c_sim K a = Ok (pre, a1) /\ c_con K pre a1 = Ok (c, a2) /\
    noext c /\ Sok U c /\ Shape c /\ agree w (env a2) U.
(** If the object of the class [K] is the part chosen for the proof: in the state after get_prover(), precommit() gives a precommitment
    of which construct_stmt makes a statement that holds for some values; they are in the prover's copy of the dictionary, in the
    secrets or in the statement. The values that precommit() draws itself depend on the run. *)
Definition provable (U : list secret) (l : list mpart) (sd : dict Z) (a : st) : Prop :=
  forall i sv ts s a1 K b, oget l sd a = Ok ((Some (POr i (PExt sv None) ts), s), a1) -> nth_error l i = Some (UK K, b) ->
  exists w pre a2 c a3, c_pre K a1 = Ok (pre, a2) /\ c_con K pre a2 = Ok (c, a3) /\ hon U w c sv (env a3).
Definition able (U : list secret) (w : bytes -> Z) (sd : dict Z) (e : nat -> option Z) (ord : bytes -> Z) (u : mpart) : Prop :=
  match u with
  | (UK K, b) => simulable U w K /\ forall pre c, made K pre c -> pre <> VNone /\ Ords ord c /\ Apart c
  | (US s, b) => noext s /\ Sok U s /\ Shape s /\ Ords ord s /\ Apart s /\ (b = false -> hon U w (set_simulated false s) sd e)
  end.
(** The verifier's objects: classes of the same names, whose validate accepts the precommitments in the proof and whose
    construct_stmt makes alike statements of them. *)
Definition meets (f g : bytes -> bytes) (u : mpart * val) (v : upart) : Prop :=
  match fst (fst u), v with
  | UK K, UK KV => c_name KV = c_name K /\ c_val KV (snd u) = Ok tt /\
      forall c, made K (snd u) c -> forall a, exists cv a', c_con KV (snd u) a = Ok (cv, a') /\ Pat f g c cv
  | US s, US s' => Pat f g s s'
  | _, _ => False
  end.
(** Objects whose precommit() and simulate_precommit() return nothing: None, an empty list, 0; or representations. *)
Definition hollow (u : mpart) : Prop :=
  match fst u with
  | UK K => forall a x a', (c_pre K a = Ok (x, a') -> truthy x = false) /\ (c_sim K a = Ok (x, a') -> truthy x = false)
  | US s => exists d, s = SDL d
  end.
(** In the run of prove() a part is too large for the binary format. *)
Definition ooversized (l : list mpart) (sd : dict Z) (a : st) : Prop :=
  exists pre p s a1 com p2 a2 i, oopen l sd a = Ok ((pre, p, s), a1) /\ internal_commit s p None a1 = Ok ((com, p2), a2) /\
    get_proof_id s None = Ok i /\ (Big (VStr (pystr i)) \/ Big pre \/ Big com).
(** The library's object for a part, with its mark. *)
Definition marked (u : mpart) (s : stmt) : Prop := exists s0, libpart (fst u) s0 /\ s = set_simulated (snd u) s0.
End M.

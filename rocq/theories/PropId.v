(** What a proof is bound to: properties C15, C16, C17, C18, C19.

    [prehash_input s]: what is fed to the hash function for the statement (the printed identifier,
    encoded). [fs_input h [pre; com] msg]: the whole input of the hash function that gives the
    challenge. [processed s pre]: the verifier's statement once it has processed the precommitment.
    Hash functions are not assumed to be injective: where the claim depends on that, two different
    inputs with one digest are part of the conclusion. *)
From Coq Require Import String.
From Verif Require Import Base World Val Expr Utils Stmt Prove Verify Spec Shapes Claims Extract Honest Clauses Supply Ident
  IdProofs2 IdProofs3 IdProofs4 IdProofs6 Renamed Equiv ZqWorld ZqFacts Ex ExTree.
Open Scope Z_scope.
Open Scope list_scope.

(** C15: a simulated transcript, handed to an independent verifier, gives the verdict "the chosen
    challenge is the hash", never an exception. *)
Theorem C15_simulated_accepted_iff_hash : forall (W : World) U s c st t h s' st',
  Sok U s -> wfL (U ++ kints s) -> NoDup (map sid (kints s)) ->
  (forall x y, In x (kints s) -> In y U -> sid x <> sid y) ->
  simulate s c st = Ok ((t, h, s'), st') -> nonneutral s' ->
  forall f g sv stv msg hb i, Pat f g s sv -> Forall (vkOK (env stv)) (kinds sv) ->
  prehash_input s' = Ok hb -> fs_input hb [t_pre t; t_com t] msg = Ok i ->
  exists sv', verify sv (mkNizk (t_chal t) (t_resp t) (t_pre t) h) msg stv = Ok ((t_chal t =? be_int (sha256 i), sv'), stv).
Proof. exact @simulated_verify. Qed.
Print Assumptions C15_simulated_accepted_iff_hash.

Example C15_ex_hypotheses :
  Sok exVU exV /\ wfL (exVU ++ kints exV) /\ NoDup (map sid (kints exV)) /\
  (forall x y, In x (kints exV) -> In y exVU -> sid x <> sid y) /\ Pat untick tick exV exS /\
  Forall (vkOK (env (with_vals [(4%nat, 5)]))) (kinds exS).
Proof.
  destruct exV_all as (A & B & C & D & _). split; [exact A|]. split; [exact B|]. split; [exact C|]. split; [exact D|].
  split; [apply Pat_sym; exact exV_pat|]. repeat constructor. simpl. exists 5. split; [reflexivity|lia].
Qed.
(** the verdict on the simulated transcript with challenge [c], for a tree with a disjunction *)
Definition simulated_verdict (s sv : @stmt Zq) (c : Z) (stv : st) : res bool :=
  match simulate s (Some c) st0 with
  | Ok ((t, h, s'), _) => run (let! r := verify sv (mkNizk (t_chal t) (t_resp t) (t_pre t) h) (lit "msg") in ret (fst r)) stv
  | Err e => Err e
  end.
Example C15_ex_false : simulated_verdict exV exS 5 (with_vals [(4%nat, 5)]) = Ok false.
Proof. vm_compute. reflexivity. Qed.

(** C16: the statement hash in a proof is compared with that of the verifier's own statement,
    whatever the challenge and the responses are. *)
Theorem C16_hash_checked : forall (W : World) s z msg st b s1 st1, verify s z msg st = Ok ((b, s1), st1) ->
  exists v h, processed s (n_pre z) st = Ok ((v, s1), st1) /\ prehash_input s1 = Ok h /\ n_hash z = VBytes (sha256 h).
Proof.
  intros W s z msg st b s1 st1 H. destruct (verify_inv _ _ _ _ _ _ _ H) as (v & h & _ & _ & A & B & C & _). exact (ex_intro _ v (ex_intro _ h (conj A (conj B C)))).
Qed.
Print Assumptions C16_hash_checked.

Theorem C16_mismatch : forall (W : World) s z msg st v s1 st1 h,
  processed s (n_pre z) st = Ok ((v, s1), st1) -> prehash_input s1 = Ok h -> n_hash z <> VBytes (sha256 h) ->
  verify s z msg st = Err EStatementMismatch.
Proof. exact @mismatch. Qed.
Print Assumptions C16_mismatch.

(** Statements with the same identifier have the same structure, classes, bases, left-hand sides
    and precommitments as far as these are printed, and the same pattern of secrets ... *)
Theorem C16_same_identifier : forall (W : World) s s' h, repr_ok ->
  prehash_input s = Ok h -> prehash_input s' = Ok h -> exists f g, alike f g s s'.
Proof. exact @same_prehash. Qed.
Print Assumptions C16_same_identifier.

(** ... so they describe the same relation, if the textual form of a point determines the point. *)
Theorem C16_same_relation : forall (W : World) f g s s' w, (forall p q, repr_pt p = repr_pt q -> p = q) ->
  alike f g s s' -> (Sat w s <-> Sat (fun q n => w q (g n)) s').
Proof. exact @alike_Sat_iff. Qed.
Print Assumptions C16_same_relation.

(** Together: a proof made for one statement on which the verifier of another does not raise an
    exception: a collision of the hash function, or statements that are alike. *)
Theorem C16_bound : forall (W : World) sp sd msg st z sp1 st1 sv msg' stv b sv1 stv1, repr_ok ->
  prove sp sd msg st = Ok ((z, sp1), st1) -> verify sv z msg' stv = Ok ((b, sv1), stv1) ->
  exists h h', prehash_input sp1 = Ok h /\ prehash_input sv1 = Ok h' /\ sha256 h = sha256 h' /\
    (h = h' -> exists f g, alike f g sp1 sv1).
Proof. exact @bound_to_statement. Qed.
Print Assumptions C16_bound.

(** The commitment of a range statement is not part of its identifier: the verifiers of statements
    about different commitments agree on the hash. *)
Theorem C16_range_commitment_refuted : forall (W : World) com com' g h n isp x r rs b p0 c0 pre st v s st1,
  process_pre (SExt (KRange com g h n isp x r rs) b p0 c0) (RExt None) pre st = Ok ((v, s), st1) ->
  exists s', process_pre (SExt (KRange com' g h n isp x r rs) b p0 c0) (RExt None) pre st = Ok ((v, s'), st1) /\ prehash_input s' = prehash_input s.
Proof. exact @range_same_id. Qed.
Print Assumptions C16_range_commitment_refuted.

(** It is compared with the precommitment instead: a proof that is not rejected by the verifiers of
    two range statements is about one commitment. *)
Theorem C16_range_commitment : forall (W : World) com com' g h n isp isp' x x' r r' rs rs' sim sim' p0 p0' c0 c0' z msg msg' st b s1 st1 st' b' s1' st1',
  verify (SExt (KRange com g h n isp x r rs) sim p0 c0) z msg st = Ok ((b, s1), st1) ->
  verify (SExt (KRange com' g h n isp' x' r' rs') sim' p0' c0') z msg' st' = Ok ((b', s1'), st1') -> com = com'.
Proof. exact @range_com. Qed.
Print Assumptions C16_range_commitment.

(** a proof and other statements: other names (accepted), another base, another pattern of secrets *)
Definition exRg (c : Z) (isp : bool) := SExt (KRange (Pt c) (Pt 3) (Pt 5) 3 isp sv sr [sr0; sr1; sr2]) false VNone None.
Definition stR : st := with_vals [(4%nat, 5); (5%nat, 20)].
Definition proves (s : @stmt Zq) (sd : dict Z) (st : st) (s' : @stmt Zq) : res bool :=
  match prove s sd (lit "msg") st with
  | Ok ((z, _), _) => match verify s' z (lit "msg") st0 with Ok ((b, _), _) => Ok b | Err e => Err e end
  | Err e => Err e
  end.
Example C16_ex_run :
  proves exDL exsd st0 exDLV = Ok true /\
  proves exDL exsd st0 (SDL (mkDL (Pt (4*3 - 6*5 + 4*7)) [Pt 3; Pt 5; Pt 8] [T 20 "x"; T 21 "y"; T 20 "x"] [] false)) = Err EStatementMismatch /\
  proves exDL exsd st0 (SDL (mkDL (Pt (4*3 - 6*5 + 4*7)) [Pt 3; Pt 5; Pt 7] [T 20 "x"; T 21 "y"; T 22 "z"] [] false)) = Err EStatementMismatch /\
  proves (exRg 115 true) [] stR (exRg 115 false) = Ok true /\ proves (exRg 115 true) [] stR (exRg 116 false) = Err EValidation.
Proof. repeat (split; [vm_compute; reflexivity|]). vm_compute. reflexivity. Qed.
Example C16_ex_world : @repr_ok Zq /\ (forall p q : @pt Zq, repr_pt p = repr_pt q -> p = q).
Proof. exact (conj zq_repr_ok zq_repr_inj). Qed.

(** C17: new names and new Secret objects, consistently: the same identifier, the same verdicts. *)
Theorem C17_identifier : forall (W : World) f j s h, inj f -> prehash_input s = Ok h -> prehash_input (rename f j s) = Ok h.
Proof. exact @renamed_id. Qed.
Print Assumptions C17_identifier.

Theorem C17_verdicts : forall (W : World) f j s z msg st stv b, inj f -> let s' := rename f j s in
  coh (env st) (secrets s) -> coh (env stv) (secrets s') -> Forall (vkOK (env st)) (kinds s) -> Forall (vkOK (env stv)) (kinds s') ->
  ((exists s1 st1, verify s z msg st = Ok ((b, s1), st1)) <-> (exists s1 st1, verify s' z msg stv = Ok ((b, s1), st1))).
Proof. exact @renamed_same. Qed.
Print Assumptions C17_verdicts.

(** In processes that are equal up to the renaming and draw the same random numbers, everything is the same: the proof, the transcript, the
    verdict, the object left, or the exception. *)
Theorem C17_proofs : forall (W : World) f j s sd msg a a', inj f -> (forall x y, j x = j y -> x = y) -> same_state j a a' ->
  match prove s sd msg a with
  | Ok ((z, s1), a1) => exists a1', prove (rename f j s) (rdict f j sd) msg a' = Ok ((z, rename f j s1), a1') /\ same_state j a1 a1'
  | Err x => prove (rename f j s) (rdict f j sd) msg a' = Err x
  end.
Proof. exact @renamed_prove. Qed.
Print Assumptions C17_proofs.
Theorem C17_verify : forall (W : World) f j s z msg a a', inj f -> same_state j a a' ->
  match verify s z msg a with
  | Ok ((b, s1), a1) => exists a1', verify (rename f j s) z msg a' = Ok ((b, rename f j s1), a1') /\ same_state j a1 a1'
  | Err x => verify (rename f j s) z msg a' = Err x
  end.
Proof. exact @renamed_verify_all. Qed.
Print Assumptions C17_verify.
Theorem C17_transcripts : forall (W : World) f j s c a a', inj f -> same_state j a a' ->
  match simulate s c a with
  | Ok ((t, h, s1), a1) => exists a1', simulate (rename f j s) c a' = Ok ((t, h, rename f j s1), a1') /\ same_state j a1 a1'
  | Err x => simulate (rename f j s) c a' = Err x
  end.
Proof. exact @renamed_simulate. Qed.
Print Assumptions C17_transcripts.
Theorem C17_conversations : forall (W : World) f j sp sd sv a a', inj f -> (forall x y, j x = j y -> x = y) -> same_state j a a' ->
  match conversation sp sd sv a with
  | Ok (b, a1) => exists a1', conversation (rename f j sp) (rdict f j sd) (rename f j sv) a' = Ok (b, a1') /\ same_state j a1 a1'
  | Err x => conversation (rename f j sp) (rdict f j sd) (rename f j sv) a' = Err x
  end.
Proof. exact @renamed_conversation. Qed.
Print Assumptions C17_conversations.

Definition swap01 (i : nat) : nat := match i with 0%nat => 1%nat | 1%nat => 0%nat | _ => i end.
Example C17_ex :
  inj tick /\ coh (env st0) (secrets exV) /\ coh (env st0) (secrets (rename tick swap01 exV)) /\
  Forall (vkOK (env st0)) (kinds exV) /\ Forall (vkOK (env st0)) (kinds (rename tick swap01 exV)) /\
  proves exS exsd st0 exV = Ok true /\ proves exS exsd st0 (rename tick swap01 exV) = Ok true.
Proof.
  split. { intros a b H. unfold tick in H. now apply app_inv_tail in H. }
  split; [intros s t _ _ _; reflexivity|]. split; [intros s t _ _ _; reflexivity|].
  split; [repeat constructor|]. split; [repeat constructor|]. split; vm_compute; reflexivity.
Qed.

Definition okz {A} (r : res A) : bool := match r with Ok _ => true | Err _ => false end.
Example C17_ex_proofs :
  inj tick /\ (forall x y, swap01 x = swap01 y -> x = y) /\ same_state swap01 st0 st0 /\
  okz (prove exS exsd (lit "msg") st0) = true /\ okz (prove exS [] (lit "msg") st0) = false /\ okz (simulate exV (Some 5) st0) = true /\
  run (conversation exS exsd exV) st0 = Ok true.
Proof.
  split. { intros a b H. unfold tick in H. now apply app_inv_tail in H. }
  split. { intros [|[|x]] [|[|y]] E; simpl in E; congruence. }
  split. { split; [|split; reflexivity]. intros [|[|i]]; reflexivity. }
  repeat (split; [vm_compute; reflexivity|]). vm_compute. reflexivity.
Qed.

(** C18: one proof accepted for two messages. *)
Theorem C18_message : forall (W : World) sv z m1 m2 st s1 st1 s2 st2, (exists n, forall b, List.length (sha256 b) = n) ->
  verify sv z m1 st = Ok ((true, s1), st1) -> verify sv z m2 st = Ok ((true, s2), st2) -> m1 <> m2 ->
  exists h com i1 i2, prehash_input s1 = Ok h /\ recompute s1 (n_chal z) (n_resp z) = Ok com /\
   fs_input h [n_pre z; com] m1 = Ok i1 /\ fs_input h [n_pre z; com] m2 = Ok i2 /\ i1 <> i2 /\ sha256 i1 = sha256 i2.
Proof. exact @bound_to_message. Qed.
Print Assumptions C18_message.

(** the toy hash function of the concrete world is easy to collide: two messages, one proof *)
Example C18_ex : (exists n, forall b, List.length (@sha256 Zq b) = n) /\
  match prove exS exsd (lit "adp") st0 with
  | Ok ((z, _), _) => map (fun m => run (let! r := verify exV z (lit m) in ret (fst r)) st0) ["adp"; "bbb"; "adq"]%string
  | Err e => []
  end = [Ok true; Ok true; Ok false].
Proof. split; [exact zq_digest|vm_compute; reflexivity]. Qed.

(** C19: the input of the hash function determines identifier, precommitment, commitment and
    message if precommitment and commitment are not byte strings. Missing: a proof may contain a
    byte string as its precommitment. *)
Theorem C19_framed_partial : forall (W : World) s s' h h' pre pre' com com' msg msg' i,
  prehash_input s = Ok h -> prehash_input s' = Ok h' ->
  framed pre -> framed pre' -> framed com -> framed com' ->
  Forall faithful (points pre ++ points pre' ++ points com ++ points com') ->
  fs_input h [pre; com] msg = Ok i -> fs_input h' [pre'; com'] msg' = Ok i ->
  h = h' /\ norm pre = norm pre' /\ norm com = norm com' /\ msg = msg'.
Proof. exact @input_framed. Qed.
Print Assumptions C19_framed_partial.

(** A byte string is hashed without a frame: an absent precommitment is the same as the byte 0xc0 ... *)
Theorem C19_unframed_refuted : forall (W : World) d z msg st b s1 st1,
  verify (SDL d) z msg st = Ok ((b, s1), st1) -> n_pre z = VNone ->
  verify (SDL d) (mkNizk (n_chal z) (n_resp z) (VBytes [byte_of 192]) (n_hash z)) msg st = Ok ((b, s1), st1).
Proof. exact @none_as_bytes. Qed.
Print Assumptions C19_unframed_refuted.

(** ... and a message that contains the encoded commitment can be cut after it. *)
Theorem C19_message_cut_refuted : forall (W : World) d z x com pc msg y st b s1 st1,
  verify (SDL d) z msg st = Ok ((b, s1), st1) -> n_pre z = VNone ->
  recompute (SDL d) (n_chal z) (n_resp z) = Ok com -> encode com = Ok pc -> msg = x ++ pc ++ y ->
  verify (SDL d) (mkNizk (n_chal z) (n_resp z) (VBytes ([byte_of 192] ++ pc ++ x)) (n_hash z)) y st = Ok ((b, s1), st1).
Proof. exact @moved_message. Qed.
Print Assumptions C19_message_cut_refuted.

(** [verify] of the changed proof for the shorter message *)
Definition cut_message (x y : bytes) : res (bool * bool * bytes) :=
  match prove exDL exsd [] st0 with
  | Ok ((z0, _), _) =>
    match recompute exDL (n_chal z0) (n_resp z0) with
    | Ok com => match encode com with
      | Ok pc => match prove exDL exsd (x ++ pc ++ y) st0 with
        | Ok ((z, _), _) =>
            match run (verify exDLV z (x ++ pc ++ y)) st0,
                  run (verify exDLV (mkNizk (n_chal z) (n_resp z) (VBytes ([byte_of 192] ++ pc ++ x)) (n_hash z)) y) st0 with
            | Ok (b, _), Ok (b', _) => Ok (b, b', x ++ pc ++ y)
            | Err e, _ | _, Err e => Err e
            end
        | Err e => Err e end
      | Err e => Err e end
    | Err e => Err e end
  | Err e => Err e
  end.
Example C19_ex_cut : match cut_message (lit "pay 1 ") (lit "pay 2") with Ok (b, b', m) => b && b' && negb (bytes_eqb m (lit "pay 2")) | Err _ => false end = true.
Proof. vm_compute. reflexivity. Qed.
Example C19_ex_faithful : forall p : @pt Zq, faithful p.
Proof. exact zq_faithful. Qed.
(** repr() of text, as in python *)
Example C16_ex_repr :
  pystr (W := Zq) (VStr (lit "it's")) = lit """it's""" /\ pystr (W := Zq) (VStr (lit "a""b'c\d")) = lit "'a""b\'c\\d'" /\
  pystr (W := Zq) (VBytes (map byte_of [9; 65; 200; 0])) = lit "b'\tA\xc8\x00'".
Proof. repeat split; vm_compute; reflexivity. Qed.

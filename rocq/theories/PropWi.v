(** What conversations and proofs depend on: property C62. *)
From Coq Require Import String.
From Verif Require Import Base World Val Expr Utils Stmt Prove Verify Spec Shapes Claims Honest Clauses Supply Extract Runs Views Blank Distrib
  DictProofs ZqWorld Ex ExTree WiProofs.
Open Scope Z_scope.
Open Scope list_scope.

(** C62: compositions of representations. Two provers of one statement who have values for the same secrets, but other values
    ([w], [w']), and whose random numbers have been the same until get_prover() returns: they have chosen the same branches and
    hold the same simulated transcripts. From then on each challenge is answered, what is sent has the same distribution
    for both, and so have their non-interactive proofs. *)
Theorem C62_values_hidden : forall (W : World) U w w' s s' sd sd' ord a a' p s1 a1,
  noext s -> honest U w s sd (env a) -> honest U w' s' sd' (env a') -> Ords ord s -> Apart s ->
  blank s = blank s' -> blank_dict sd = blank_dict sd' -> tape a = tape a' -> pos a = pos a' ->
  get_prover s sd a = Ok ((Some p, s1), a1) ->
  exists s1' a1', get_prover s' sd' a' = Ok ((Some p, s1'), a1') /\
    (forall c, (forall t, exists com r, outcome (honest_view s1 p c) (env a1) t = Ok (com, r)) /\
       same_distribution (outcome (honest_view s1 p c) (env a1)) (outcome (honest_view s1' p c) (env a1'))) /\
    (forall msg, same_distribution (outcome (nizk_of s1 p msg) (env a1)) (outcome (nizk_of s1' p msg) (env a1'))).
Proof. exact @values_hidden. Qed.
Print Assumptions C62_values_hidden.

(** (x*3 + y*5 + x*7) and ((z*3 = 50) or (v*3 + r*5)) with x = 4, y = -6, v = 5, r = 20 and with x = 5, y = -8, v = 10, r = 17 *)
Definition wiw (n : bytes) : Z :=
  if bytes_eqb n (lit "x") then 5 else if bytes_eqb n (lit "y") then -8 else if bytes_eqb n (lit "u") then 7
  else if bytes_eqb n (lit "v") then 10 else if bytes_eqb n (lit "r") then 17 else 0.
Definition wisd : dict Z := [(sx, 5); (sy, -8); (su, 7); (sv, 10); (sr, 17)].
Example C62_ex :
  noext exT /\ honest exU exw exT exsd (env st0) /\ honest exU wiw exT wisd (env st0) /\ Ords exord exT /\ Apart exT /\
  blank_dict exsd = blank_dict wisd /\
  match get_prover exT exsd st0 with Ok ((Some (PAnd [PDL None; POr 1 (PDL None) [_]]), _), _) => true | _ => false end = true.
Proof.
  destruct exT_all as (H1 & H2 & _ & _ & H3 & H4 & _). split; [exact H1|]. split; [exact H2|]. split; [|split; [exact H3|split; [exact H4|split; [reflexivity|vm_compute; reflexivity]]]].
  destruct H2 as [OK NM IN DJ _ VA _ EN]. constructor; auto.
  - apply TrAnd. constructor; [|constructor; [|constructor]].
    + apply TrDL. split; [repeat constructor|pteq].
    + apply TrOr. intros x [<-|[<-|[]]] _; [left|right].
      * apply (RfDL _ _ sz); [now left| |].
        -- intros (k & v & [] & _).
        -- intros (k & v & H & E). simpl in H. repeat (destruct H as [H|H]; [injection H as <- <-; discriminate E|]). destruct H.
      * apply TrDL. split; [repeat constructor|pteq].
  - apply VaAnd. constructor; [|constructor; [|constructor]]; [constructor; intros k v []|].
    apply VaOr. constructor; [|constructor; [|constructor]]; (constructor; intros k v []).
  - intros k v H. simpl in H.
    repeat (destruct H as [H|H]; [injection H as <- <-; split; [in_list|vm_compute; reflexivity]|]). destruct H.
  - intros x v _ H. discriminate H.
Qed.
(** v*3 + r*5 and the challenge 3: with the random numbers 40, 50 the values 5, 20 give what the values 10, 17 give with the random
    numbers 40 + (5 - 10) * 3, 50 + (20 - 17) * 3 *)
Definition wi_run (sd : dict Z) (k0 k1 : Z) : res (Z * Z * Z) :=
  match get_prover exVR sd st0 with
  | Ok ((Some p, s1), a1) =>
      match outcome (honest_view s1 p 3) (env a1) (fun i => match i with O => k0 | _ => k1 end) with
      | Ok (VPt c, VList [VInt r0; VInt r1]) => Ok (zv c, r0, r1)
      | _ => Err ETypeErr
      end
  | _ => Err ETypeErr
  end.
Example C62_ex_shift : wi_run exsd 40 50 = Ok (67, 55, 9) /\ wi_run wisd 25 59 = Ok (67, 55, 9).
Proof. split; vm_compute; reflexivity. Qed.

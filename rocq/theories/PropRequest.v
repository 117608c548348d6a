(** Blind issuing: property C80. *)
From Coq Require Import String Znumtheory.
From Verif Require Import Base World Val Expr Utils Stmt Prove Verify Bbs Spec Runs Distrib Request RequestProofs ZqWorld ZqFacts Ex ExTree PropBbs PropSound PropZk2.
Open Scope Z_scope.
Open Scope list_scope.

(** Two users ask an issuer, whoever made its key, for signatures on as many messages. What they send, commitment and proof together,
    has one distribution, for creators that were used before ([s1], [s1']) or not. *)
Theorem C80_request_hides : forall (W : World) pk g0 g1 gens ms ms' ss ss' s1 s1' e e',
  pk_gens pk = g0 :: g1 :: gens -> in_group (grp g0) (g1 :: gens) -> prime (order (grp g0)) -> generated (grp g0) -> g1 <> inf (grp g0) ->
  List.length ms' = List.length ms -> new_secrets (S (List.length ms)) ss e -> new_secrets (S (List.length ms)) ss' e' ->
  same_distribution (outcome (request pk s1 ms ss) e) (outcome (request pk s1' ms' ss') e').
Proof. exact @request_hides. Qed.
Print Assumptions C80_request_hides.

(** The condition on the key, which the library does not check, is needed: with the neutral element in the second place the commitment
    is a function of the messages. *)
Theorem C80_neutral_generator_shows : forall (W : World) pk g0 gens ms ss s1 e t b,
  pk_gens pk = g0 :: inf (grp g0) :: gens -> in_group (grp g0) gens -> new_secrets (S (List.length ms)) ss e ->
  outcome (request pk s1 ms ss) e t = Ok b -> bl_com b = lincomb (grp g0) ms gens.
Proof. exact @request_shows. Qed.
Print Assumptions C80_neutral_generator_shows.

Definition ex80 := [X 50 "a"; X 51 "b"; X 52 "c"].
Example C80_ex_hypotheses :
  pk_gens exPk = B1 2 :: B1 3 :: skipn 2 (pk_gens exPk) /\ in_group (grp (B1 2)) (B1 3 :: skipn 2 (pk_gens exPk)) /\ prime (order (grp (B1 2))) /\
  generated (grp (B1 2)) /\ B1 3 <> inf (grp (B1 2)) /\ new_secrets 3 ex80 (env st0).
Proof.
  split; [reflexivity|]. split; [repeat constructor|]. split; [exact prime101|]. split; [apply Zq_generated|].
  split; [intros E; apply (f_equal zv) in E; vm_compute in E; discriminate E|].
  split; [reflexivity|]. split; [repeat constructor; simpl; intuition discriminate|]. intros x _. reflexivity.
Qed.
(** The commitments to (8, 9) with blinding 7 and to (1, 2) with blinding 35 are the same. *)
Definition com80 (t : nat -> Z) (ms : list Z) : option Z := match outcome (request exPk None ms ex80) (env st0) t with Ok b => Some (zv (bl_com b)) | Err _ => None end.
Example C80_ex : com80 (fun i => 7 + Z.of_nat i) [8; 9] = Some 23 /\ com80 (fun i => 35 + Z.of_nat i) [1; 2] = Some 23 /\ com80 (fun i => 7 + Z.of_nat i) [1; 2] = Some 40.
Proof. repeat split; vm_compute; reflexivity. Qed.

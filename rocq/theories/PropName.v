(** Names of Secret objects: property C65. *)
From Coq Require Import String.
From Verif Require Import Base World Val Expr Utils Stmt Shapes Names NameFacts ZqWorld.
Open Scope Z_scope.
Open Scope list_scope.

(** C65: whatever Secrets a program has made and dropped, those that live at one time and have generated names, or given
    names that are short and pairwise different, have different names (objects are equal exactly if their names are), or two
    addresses are inputs whose hashes agree in half their bytes. This is the assumption [wfL] of other theorems. *)
Theorem C65_live_names : forall (W : World), (forall x, 16 <= List.length (sha256 x))%nat -> forall l n live,
  Forall (fun m => List.length m < 32)%nat (given l) -> NoDup (given l) -> acts (0%nat, []) l = Some (n, live) ->
  wfL (map c_sec live) \/
  exists c d, In c live /\ In d live /\ c_addr c <> c_addr d /\ near_collision (pack_q (object_hash (c_addr c))) (pack_q (object_hash (c_addr d))).
Proof. exact @names_live. Qed.
Print Assumptions C65_live_names.

(** "Names are unique" is false over time: the name depends on the address only, which is used again *)
Theorem C65_unique_refuted : forall (W : World) a, 0 <= a < 2 ^ 64 - 1 -> exists c d,
  acts (0%nat, []) [New a None] = Some (1%nat, [c]) /\ acts (0%nat, []) [New a None; Drop 0; New a None] = Some (2%nat, [d]) /\
  sid (c_sec c) <> sid (c_sec d) /\ sname (c_sec c) = sname (c_sec d).
Proof. exact @name_reused. Qed.
Print Assumptions C65_unique_refuted.

(** a world with a hash of 32 bytes *)
Definition with_sha (W : World) (f : bytes -> bytes) : World := {|
  gid := gid; gid_eqb := gid_eqb; gid_eqb_spec := gid_eqb_spec; order := order; order_gt1 := order_gt1;
  pt := pt; grp := grp; pt_eqb := pt_eqb; pt_eqb_spec := pt_eqb_spec; inf := inf; gen := gen; padd := padd; pmul := pmul; has_sub := has_sub;
  grp_inf := grp_inf; grp_gen := grp_gen; grp_add := grp_add; grp_mul := grp_mul; add_comm := add_comm; add_assoc := add_assoc;
  add_inf_l := add_inf_l; mul_0 := mul_0; mul_1 := mul_1; mul_add := mul_add; mul_mul := mul_mul; mul_distr := mul_distr;
  mul_order := mul_order; pairs := pairs; pairing := pairing; grp_pairing := grp_pairing; order_pairs := order_pairs;
  pairing_add_l := pairing_add_l; pairing_add_r := pairing_add_r; pairing_mul_l := pairing_mul_l; pairing_mul_r := pairing_mul_r;
  hash_to_point := hash_to_point; grp_hash := grp_hash; repr_pt := repr_pt; export_pt := export_pt; import_pt := import_pt;
  sha256 := f; sha512 := sha512 |}.
Definition Zh : World := with_sha Zq (fun b => be_bytes 32 (be_int b * 2 ^ 128 + 77)).

(** x = Secret(); y = Secret(); del x; z = Secret(name="z"); w = Secret(), which gets the address x had *)
Definition prog : list action := [New 140000000004096 None; New 140000000004160 None; Drop 0; New 140000000004224 (Some (lit "z")); New 140000000004096 None].
Example C65_ex : (forall x, 16 <= List.length (@sha256 Zh x))%nat /\
  Forall (fun m => List.length m < 32)%nat (given prog) /\ NoDup (given prog) /\
  match @acts Zh (0%nat, []) prog, @acts Zh (0%nat, []) (firstn 1 prog) with
  | Some (n, [w; z; y]), Some (_, [x]) =>
      (map (fun c => (sid (c_sec c), List.length (nm c))) [w; z; y], bytes_eqb (nm w) (nm y), bytes_eqb (nm w) (nm x)) =
      ([(3, 32); (2, 1); (1, 32)]%nat, false, true)
  | _, _ => False end.
Proof.
  split; [intros x; unfold sha256; simpl; lia|]. split; [repeat constructor|]. split; [repeat constructor; simpl; tauto|].
  vm_compute. reflexivity.
Qed.

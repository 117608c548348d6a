(** Statement objects: /repo/zksk/composition.py, primitives/dlrep.py, extended.py and the
    statements of primitives/dl_notequal.py, rangeproof.py, bbsplus.py. *)
From Coq Require Import String.
From Verif Require Import Base World Val Expr Utils.
Open Scope Z_scope.
Open Scope list_scope.

Section S.
Context {W : World}.

(** dlrep.py:84-106: attributes of a DLRep object. [dl_vals] is [secret_values].
    Simplification: [lhs] is a point (Python does not check; a value without [.group] makes
    recompute_commitment raise). *)
Record dlrep := mkDL {
  dl_lhs : pt; dl_bases : list pt; dl_secs : list secret; dl_vals : dict Z; dl_sim : bool }.

(** bbsplus.py:167-181 *)
Record bbs_pk := mkPk { pk_w : pt; pk_h0 : pt; pk_gens : list pt; pk_genpairs : list pt }.
(** bbsplus.py:22-30 *)
Record bbs_sig := mkSig { sig_A : pt; sig_e : Z; sig_s : Z }.

(** The subclasses of ExtendedProofStmt with their attributes.
    [KNeq]: dl_notequal.py:47-61. [KRange]: rangeproof.py:57-80. [KBBS]: bbsplus.py:229-255.
    [KCustom]: a primitive as in docs/new_primitives.rst that only overrides construct_stmt and
    returns one DLRep or a conjunction of DLReps: class name and (lhs, terms) of each. *)
Inductive kind :=
| KNeq (H0 g H1 h : pt) (x alpha beta : secret) (bnd : bool)
| KRange (com g h : pt) (nbits : nat) (is_prover : bool) (x rand : secret) (rands : list secret)
| KBBS (pk : bbs_pk) (sig : option bbs_sig) (bases : list pt) (svars : list secret)
       (r1 r2 d1 d2 : secret)
| KCustom (cls : bytes) (rows : list (pt * list (secret * pt))).

(** Statement objects. [SAnd]/[SOr]: composition.py:705-723, 398-417 (subproofs, _simulated, and
    chosen_idx for or). [SExt]: extended.py:34-162: kind, _simulated, _precommitment,
    _constructed_stmt. *)
Inductive stmt :=
| SDL (d : dlrep)
| SAnd (subs : list stmt) (sim : bool)
| SOr (subs : list stmt) (sim : bool) (chosen : option nat)
| SExt (k : kind) (sim : bool) (pre : val) (con : option stmt).

(** dlrep.py:84-106 DLRep.__init__ *)
Definition mk_dlrep (lhs : pt) (x : expr) (sim : bool) : M dlrep :=
  match e_bases x with
  | [] => raise EIndexErr
  | b0 :: _ =>
    if forallb (fun g => gid_eqb (grp g) (grp b0)) (e_bases x) then
      let! e := get_env in
      let vals := fold_left (fun d s => match e (sid s) with
                                        | Some v => dset e d s v | None => d end) (e_secs x) [] in
      ret (mkDL lhs (e_bases x) (e_secs x) vals sim)
    else raise EInvalidExpression
  end.

(** composition.py:706-723 AndProofStmt.__init__ and 410-417 OrProofStmt.__init__ (copies are
    the same values) *)
Definition mk_and (subs : list stmt) : res stmt :=
  if (List.length subs <? 2)%nat then Err EValueErr else Ok (SAnd subs false).
Definition mk_or (subs : list stmt) : res stmt :=
  if (List.length subs <? 2)%nat then Err EValueErr else Ok (SOr subs false None).

(** composition.py:115-131 __and__ *)
Definition and_op (a b : stmt) : res stmt :=
  match b with
  | SAnd bs _ => match a with SAnd xs _ => mk_and (xs ++ bs) | _ => mk_and (a :: bs) end
  | _ => match a with SAnd xs _ => mk_and (xs ++ [b]) | _ => mk_and [a; b] end
  end.
(** composition.py:133-149 __or__ *)
Definition or_op (a b : stmt) : res stmt :=
  match b with
  | SOr bs _ _ => match a with SOr xs _ _ => mk_or (xs ++ bs) | _ => mk_or (a :: bs) end
  | _ => match a with SOr xs _ _ => mk_or (xs ++ [b]) | _ => mk_or [a; b] end
  end.

(** composition.py:276-292 *)
Definition simulated (s : stmt) : bool :=
  match s with SDL d => dl_sim d | SAnd _ b => b | SOr _ b _ => b | SExt _ b _ _ => b end.
Definition set_simulated (b : bool) (s : stmt) : stmt :=
  match s with
  | SDL d => SDL (mkDL (dl_lhs d) (dl_bases d) (dl_secs d) (dl_vals d) b)
  | SAnd subs _ => SAnd subs b
  | SOr subs _ c => SOr subs b c
  | SExt k _ p c => SExt k b p c
  end.

(** composition.py:91-101, 336-340, extended.py:93-94 get_secret_vars *)
Fixpoint get_secret_vars (s : stmt) : res (list secret) :=
  match s with
  | SDL d => Ok (dl_secs d)
  | SAnd subs _ | SOr subs _ _ => let? l := rmap get_secret_vars subs in Ok (List.concat l)
  | SExt _ _ _ (Some c) => get_secret_vars c
  | SExt _ _ _ None => Err EAttributeErr
  end.
(** composition.py:103-113, 342-346, extended.py:96-97 get_bases *)
Fixpoint get_bases (s : stmt) : res (list pt) :=
  match s with
  | SDL d => Ok (dl_bases d)
  | SAnd subs _ | SOr subs _ _ => let? l := rmap get_bases subs in Ok (List.concat l)
  | SExt _ _ _ (Some c) => get_bases c
  | SExt _ _ _ None => Err EAttributeErr
  end.

Definition class_name (k : kind) : bytes :=
  match k with
  | KNeq _ _ _ _ _ _ _ _ => lit "DLNotEqual"
  | KRange _ _ _ _ _ _ _ _ => lit "PowerTwoRangeStmt"
  | KBBS _ _ _ _ _ _ _ _ => lit "BBSPlusSignatureStmt"
  | KCustom c _ => c
  end.

(** get_proof_id: composition.py:71-89 with dlrep.py:141-149; composition.py:384-391 (a tuple);
    extended.py:123-135. The optional argument is the map from names to numbers. *)
Fixpoint get_proof_id (s : stmt) (m : option (list (bytes * Z))) : res val :=
  match s with
  | SDL d =>
      let ids := match m with Some m => m | None => assign_secret_ids (dl_secs d) end in
      let? is := rmap (fun s => id_lookup ids (sname s)) (dl_secs d) in
      Ok (VList [VStr (lit "DLRep"); VList (map VPt (dl_bases d)); VList (map VInt is);
                 VPt (dl_lhs d)])
  | SAnd subs _ =>
      let? ss := get_secret_vars s in
      let? _ := get_bases s in
      let ids := match m with Some m => m | None => assign_secret_ids ss end in
      let? l := rmap (fun s => get_proof_id s (Some ids)) subs in
      Ok (VTuple [VStr (lit "AndProofStmt"); VList l])
  | SOr subs _ _ =>
      let? ss := get_secret_vars s in
      let? _ := get_bases s in
      let ids := match m with Some m => m | None => assign_secret_ids ss end in
      let? l := rmap (fun s => get_proof_id s (Some ids)) subs in
      Ok (VTuple [VStr (lit "OrProofStmt"); VList l])
  | SExt k _ p (Some c) =>
      let? i := get_proof_id c m in Ok (VList [VStr (class_name k); p; i])
  | SExt _ _ _ None => Err EValueErr
  end.

(** composition.py:270-274. The hash object is represented by the bytes fed to it so far. *)
Definition prehash_input (s : stmt) : res bytes :=
  let? i := get_proof_id s None in encode (VStr (pystr i)).
(** prehash_statement().digest() *)
Definition stmt_digest (s : stmt) : res bytes := let? b := prehash_input s in Ok (sha256 b).
(** composition.py:207-216 check_statement *)
Definition check_statement (s : stmt) (h : val) : res bytes :=
  let? b := prehash_input s in
  if val_eqb h (VBytes (sha256 b)) then Ok b else Err EStatementMismatch.

(** group.wsum applied to received values, petlib / pairings.py:242-246 (zip). *)
Definition wsum_v (g : gid) (ws : list val) (ps : list pt) : res pt :=
  fold_left (fun acc wp => let? a := acc in let? w := as_int (fst wp) in
                           padd_chk a (pmul w (snd wp)))
            (combine ws ps) (Ok (inf g)).

(** recompute_commitment: dlrep.py:172-177 *)
Definition recompute_dl (d : dlrep) (c : Z) (r : val) : res val :=
  let? ws := as_iter r in
  let? x := wsum_v (grp (dl_lhs d)) ws (dl_bases d) in
  let? y := padd_chk x (pmul (- c) (dl_lhs d)) in
  Ok (VPt y).

(** the list of sub-challenges of an or-proof: [subchallenges.copy()] needs a list, the elements
    are passed to mod_add (composition.py:37-39) *)
Definition chal_list (v : val) : res (list Z) :=
  match v with
  | VList l => rmap as_int l
  | VDict _ | VStr _ | VBytes _ => Err EAttributeErr
  | _ => Err EAttributeErr
  end.

(** recompute_commitment: composition.py:419-439 (or), 732-736 (and), extended.py:120-121 *)
Fixpoint recompute (s : stmt) (c : Z) (r : val) : res val :=
  match s with
  | SDL d => recompute_dl d c r
  | SAnd subs _ =>
      let? l := rimap (fun i s => let? ri := index r i in recompute s c ri) 0 subs in Ok (VList l)
  | SOr subs _ _ =>
      let? ch := index r 0 in
      let? rs := index r 1 in
      let? cs := chal_list ch in
      if find_residual cs c challenge_length =? 0 then
        let? l := rimap (fun i s => let? ci := index ch i in
                                    let? ci := as_int ci in
                                    let? ri := index rs i in recompute s ci ri) 0 subs in
        Ok (VList l)
      else Err EInconsistentChallenge
  | SExt _ _ _ (Some con) => recompute con c r
  | SExt _ _ _ None => Err EAttributeErr
  end.

(** ** Validation of compositions *)

(** composition.py:348-382 validate_group_orders. [mydict]: secret -> indices of its occurrences;
    the order of the first occurrence is compared with that of all others. *)
Definition validate_group_orders (e : nat -> option Z) (s : stmt) : res unit :=
  let? bases := get_bases s in
  let? secs := get_secret_vars s in
  let my := fold_left (fun (d : dict (list nat)) (iw : nat * secret) =>
              match dget e d (snd iw) with
              | Some l => dset e d (snd iw) (l ++ [fst iw])
              | None => dset e d (snd iw) [fst iw]
              end) (combine (seq 0 (List.length secs)) secs) [] in
  let? _ := rmap (fun wl : secret * list nat =>
              let idx := snd wl in
              let? b0 := match nth_error bases (hd 0%nat idx) with
                         | Some b => Ok b | None => Err EIndexErr end in
              rmap (fun i => match nth_error bases i with
                             | Some b => if order (grp b) =? order (grp b0) then Ok tt
                                         else Err EGroupMismatch
                             | None => Err EIndexErr end) idx) my in
  Ok tt.

(** composition.py:236-242, 494-517, 819-836 validate_secrets_reoccurence *)
Fixpoint validate_reoccurence (e : nat -> option Z) (s : stmt) (forb : option (list secret))
  : res unit :=
  match s with
  | SDL _ | SExt _ _ _ _ => Ok tt
  | SOr _ _ _ =>
      let? sv := get_secret_vars s in
      match forb with
      | None => Ok tt
      | Some f =>
          if existsb (fun x => (sec_count e x sv <? sec_count e x f)%nat) (sec_set e sv)
          then Err EInvalidSecrets else Ok tt
      end
  | SAnd subs _ =>
      let? f := match forb with None => get_secret_vars s | Some f => Ok f end in
      let? _ := rmap (fun p => validate_reoccurence e p (Some f)) subs in Ok tt
  end.

(** composition.py:725-730 (and), 488-492 (or) validate_composition *)
Definition validate_and (e : nat -> option Z) (s : stmt) : res unit :=
  let? _ := validate_group_orders e s in validate_reoccurence e s None.
Definition validate_or (e : nat -> option Z) (s : stmt) : res unit := validate_group_orders e s.

(** ** Primitives *)

Definition lift2 (m : M dlrep) : M stmt := let! d := m in ret (SDL d).

(** precommitment["Cs"][i] *)
Definition get_C (pre : val) (i : nat) : res pt :=
  let? cs := getitem pre (lit "Cs") in let? c := index cs i in as_pt c.

(** one or-clause of rangeproof.py:122-131; [b]: the bit, if we are a prover *)
Definition bit_stmt (g h : pt) (C : pt) (r : secret) (b : option Z) : M stmt :=
  let! p0 := mk_dlrep C (emul r h) false in
  let! C1 := lift (psub_chk C g) in
  let! p1 := mk_dlrep C1 (emul r h) false in
  let p0 := match b with Some b => set_simulated (b =? 1) (SDL p0) | None => SDL p0 end in
  let p1 := match b with Some b => set_simulated (b =? 0) (SDL p1) | None => SDL p1 end in
  lift (or_op p0 p1).

(** dl_notequal.py:75-92 *)
Definition construct_neq (H0 g H1 h : pt) (x alpha beta : secret) (bnd : bool) (pre : val) : M stmt :=
  let! P := lift (as_pt pre) in
  let! p1 := lift2 (mk_dlrep (inf (grp g)) (eadd (emul alpha g) (emul beta H0)) false) in
  let! p2 := lift2 (mk_dlrep P (eadd (emul alpha h) (emul beta H1)) false) in
  if bnd then let! p3 := lift2 (mk_dlrep H0 (emul x g) false) in lift (mk_and [p1; p2; p3])
  else lift (mk_and [p1; p2]).

(** rangeproof.py:110-133 *)
Definition construct_range (g h : pt) (n : nat) (is_prover : bool) (x : secret)
    (rands : list secret) (pre : val) : M stmt :=
  let! e := get_env in
  let! bits := (if is_prover then
                  match e (sid x) with
                  | Some v => let! l := lift (decompose v n) in ret (map Some l)
                  | None => raise ETypeErr
                  end
                else ret (repeat None n)) in
  let! subs := imapM (fun i rb => let! C := lift (get_C pre i) in bit_stmt g h C (fst rb) (snd rb))
                     0 (combine rands bits) in
  lift (mk_and subs).

(** bbsplus.py:280-313. The extra attribute [constructed_stmt.lhs] is not used anywhere. *)
Definition construct_bbs (pk : bbs_pk) (bases : list pt) (svars : list secret)
    (r1 r2 d1 d2 : secret) (pre : val) : M stmt :=
  let! A1 := lift (let? a := getitem pre (lit "A1") in as_pt a) in
  let! A2 := lift (let? a := getitem pre (lit "A2") in as_pt a) in
  match bases, svars with
  | g0 :: g1 :: g2 :: _, e :: svs =>
    let! dl1 := lift2 (mk_dlrep A1 (eadd (emul r1 g1) (emul r2 g2)) false) in
    let! dl2 := lift2 (mk_dlrep (inf (grp g0))
                  (eadd (eadd (emul d1 g1) (emul d2 g2)) (emul e (pmul (-1) A1))) false) in
    let! aw := lift (pairing_chk A2 (pk_w pk)) in
    match pk_genpairs pk with
    | gp0 :: gps =>
      let! plhs := lift (padd_chk aw (pmul (-1) gp0)) in
      let! ah := lift (pairing_chk A2 (pk_h0 pk)) in
      let! g2w := lift (pairing_chk g2 (pk_w pk)) in
      match gps with
      | _ :: gp2 :: _ =>
        let bs := [pmul (-1) ah; g2w; gp2] ++ firstn (List.length bases - 1) gps in
        let! x := lift (wsum_secrets (e :: r1 :: d1 :: svs) bs) in
        let! dl3 := lift2 (mk_dlrep plhs x false) in
        lift (mk_and [dl1; dl2; dl3])
      | _ => raise EIndexErr
      end
    | [] => raise EIndexErr
    end
  | _, _ => raise EIndexErr
  end.

Definition row_expr (terms : list (secret * pt)) : expr := mkExpr (map fst terms) (map snd terms).

(** construct_stmt of a custom primitive: one DLRep, or AndProofStmt of several *)
Definition construct_custom (rows : list (pt * list (secret * pt))) : M stmt :=
  let! ds := mapM (fun rw => lift2 (mk_dlrep (fst rw) (row_expr (snd rw)) false)) rows in
  match ds with
  | [d] => ret d
  | _ => lift (mk_and ds)
  end.

Definition construct (k : kind) (pre : val) : M stmt :=
  match k with
  | KNeq H0 g H1 h x a b bnd => construct_neq H0 g H1 h x a b bnd pre
  | KRange com g h n p x r rs => construct_range g h n p x rs pre
  | KBBS pk sig bs sv r1 r2 d1 d2 => construct_bbs pk bs sv r1 r2 d1 d2 pre
  | KCustom _ rows => construct_custom rows
  end.

(** extended.py:137-140 full_construct_stmt *)
Definition full_construct (k : kind) (sim : bool) (pre : val) : M stmt :=
  let! c := construct k pre in ret (SExt k sim pre (Some c)).

Definition value_of (x : secret) : M Z :=
  let! e := get_env in match e (sid x) with Some v => ret v | None => raise ETypeErr end.

(** sum of 2^i * r_i modulo the order, rangeproof.py:100-105, 142-146 *)
Definition combine_rands (rs : list Z) (q : Z) : Z :=
  fst (fold_left (fun (acc : Z * Z) r => ((fst acc + r * snd acc) mod q, snd acc * 2)) rs (0, 1)).

(** precommit: dl_notequal.py:63-73 ; rangeproof.py:82-108 ; bbsplus.py:257-278 ;
    extended.py:50-61 (default: the empty list) *)
Definition kprecommit (k : kind) : M val :=
  match k with
  | KNeq H0 g H1 h x alpha beta _ =>
      let q := order (grp g) in
      let! b := draw q in
      let! v := value_of x in
      set_value (sid alpha) ((v * b) mod q) ;;
      set_value (sid beta) ((- b) mod q) ;;
      let! v := value_of x in
      let! d := lift (psub_chk (pmul v h) H1) in
      ret (VPt (pmul b d))
  | KRange com g h n isp x r rs =>
      if isp then
        let! v := value_of x in
        let! bits := lift (decompose v n) in
        let q := order (grp g) in
        mapM (fun r => let! v := draw q in set_value (sid r) v) rs ;;
        let! rv := mapM value_of rs in
        let! cs := lift (rmap (fun br => padd_chk (pmul (fst br) g) (pmul (snd br) h))
                              (combine bits rv)) in
        let! r0 := value_of r in
        ret (VDict [(lit "Cs", VList (map VPt cs));
                    (lit "rand", VInt ((combine_rands rv q - r0) mod q))])
      else raise EAttributeErr
  | KBBS pk sig bs sv r1 r2 d1 d2 =>
      match sig with
      | None => raise ENameErr
      | Some sg =>
        match bs with
        | b0 :: b1 :: b2 :: _ =>
          let q := order (grp b0) in
          let! v1 := draw q in
          let! v2 := draw q in
          set_value (sid r1) v1 ;;
          set_value (sid r2) v2 ;;
          set_value (sid d1) ((v1 * sig_e sg) mod q) ;;
          set_value (sid d2) ((v2 * sig_e sg) mod q) ;;
          let! A1 := lift (padd_chk (pmul v1 b1) (pmul v2 b2)) in
          let! A2 := lift (padd_chk (pmul v1 b2) (sig_A sg)) in
          ret (VDict [(lit "A1", VPt A1); (lit "A2", VPt A2)])
        | _ => raise EIndexErr
        end
      end
  | KCustom _ _ => ret (VList [])
  end.

(** simulate_precommit: dl_notequal.py:101-107 ; rangeproof.py:135-149 ; bbsplus.py:315-324 ;
    extended.py:63-74 (default) *)
Definition ksim_precommit (k : kind) : M val :=
  match k with
  | KNeq H0 g H1 h x alpha beta _ =>
      let! r := draw (order (grp g)) in ret (VPt (pmul r (gen (grp g))))
  | KRange com g h n isp x r rs =>
      let q := order (grp g) in
      let! rv := mapM (fun _ => draw q) (seq 0 n) in
      match map (fun r => pmul r h) rv with
      | [] => raise EIndexErr
      | c0 :: cs =>
        let! c0 := lift (padd_chk c0 com) in
        ret (VDict [(lit "Cs", VList (map VPt (c0 :: cs))); (lit "rand", VInt (combine_rands rv q))])
      end
  | KBBS pk sig bs sv r1 r2 d1 d2 =>
      match bs with
      | b0 :: _ =>
        let! a1 := draw (order (grp b0)) in
        let! a2 := draw (order (grp b0)) in
        ret (VDict [(lit "A1", VPt (pmul a1 (gen (grp b0)))); (lit "A2", VPt (pmul a2 (gen (grp b0))))])
      | [] => raise EIndexErr
      end
  | KCustom _ _ => raise EStatementSpec
  end.

(** validate: dl_notequal.py:94-99 ; rangeproof.py:151-165 ; default: nothing *)
Definition kvalidate (k : kind) (pre : val) : res unit :=
  match k with
  | KNeq H0 g H1 h x alpha beta _ =>
      if val_eqb pre (VPt (inf (grp g))) then Err EValidation else Ok tt
  | KRange com g h n isp x r rs =>
      let? rand := getitem pre (lit "rand") in
      let? Cs := getitem pre (lit "Cs") in
      let? cs := as_iter Cs in
      let? cb := fold_left (fun acc c => let? a := acc in
                   let? c := as_pt c in
                   let? s := padd_chk (fst a) (pmul (snd a) c) in Ok (s, snd a * 2))
                   cs (Ok (inf (grp g), 1)) in
      let? rand := as_int rand in
      let? rhs := padd_chk com (pmul rand h) in
      if pt_eqb (fst cb) rhs then Ok tt else Err EValidation
  | _ => Ok tt
  end.

(** full_validate: composition.py:229-234, 393-395, extended.py:82-83 *)
Fixpoint full_validate (s : stmt) : res unit :=
  match s with
  | SDL _ => Ok tt
  | SAnd subs _ | SOr subs _ _ => let? _ := rmap full_validate subs in Ok tt
  | SExt k _ pre _ => kvalidate k pre
  end.

(** ** Constructors of the primitives *)

(** dl_notequal.py:47-61; alpha and beta are the two fresh secrets *)
Definition mk_neq (H0 g H1 h : pt) (x alpha beta : secret) (bnd sim : bool) : stmt :=
  SExt (KNeq H0 g H1 h x alpha beta bnd) sim VNone None.
(** rangeproof.py:57-80; [rs] are the fresh secrets, one per bit *)
Definition mk_range2 (com g h : pt) (n : nat) (x r : secret) (rs : list secret) : M stmt :=
  let! e := get_env in
  let isp := is_some (e (sid x)) && is_some (e (sid r)) in
  ret (SExt (KRange com g h n isp x r rs) false VNone None).
(** bbsplus.py:229-255. [svars] already contains the secrets for e and s (fresh if not binding). *)
Definition mk_bbs (svars : list secret) (pk : bbs_pk) (sig : option bbs_sig)
    (r1 r2 d1 d2 : secret) (sim : bool) : M stmt :=
  match firstn (List.length svars) (pk_gens pk) with
  | [] => raise EIndexErr
  | bases =>
    (match sig with
     | Some sg => match svars with
                  | e :: s :: _ => set_value (sid e) (sig_e sg) ;; set_value (sid s) (sig_s sg)
                  | _ => raise EIndexErr
                  end
     | None => ret tt
     end) ;;
    ret (SExt (KBBS pk sig bases svars r1 r2 d1 d2) sim VNone None)
  end.
(** rangeproof.py:201-241 RangeStmt. [x1 x2] and the two lists are fresh secrets. *)
Definition mk_range (com g h : pt) (a b : Z) (x r x1 x2 : secret) (rs1 rs2 : list secret) : M stmt :=
  let n := num_bits (b - a - 1) in
  let offset := 2 ^ Z.of_nat n - (b - a) in
  let! com1 := lift (psub_chk com (pmul a g)) in
  let! com2 := lift (padd_chk com1 (pmul offset g)) in
  let! e := get_env in
  (match e (sid x) with
   | Some v => set_value (sid x1) (v - a) ;; set_value (sid x2) (v - a + offset)
   | None => ret tt
   end) ;;
  let! c := lift2 (mk_dlrep com (eadd (emul x g) (emul r h)) false) in
  let! p1 := mk_range2 com1 g h n x1 r rs1 in
  let! p2 := mk_range2 com2 g h n x2 r rs2 in
  let! cp := lift (and_op c p1) in
  lift (and_op cp p2).

(** rangeproof.py:267-304 RangeOnlyStmt. [G]: the group EcGroup(), [x = None]: no secret was passed, [None * g] is a
    TypeError. [r x1 x2 rs1 rs2] are the fresh secrets. *)
Definition mk_range_only (G : gid) (a b : Z) (x : option secret) (r x1 x2 : secret) (rs1 rs2 : list secret) : M stmt :=
  let g := hash_to_point G (lit "g") in
  let h := hash_to_point G (lit "h") in
  let! rv := draw (order G) in
  set_value (sid r) rv ;;
  match x with
  | None => raise ETypeErr
  | Some x =>
    let! com := eval (eadd (emul x g) (emul r h)) in
    let n := num_bits (b - a - 1) in
    let offset := 2 ^ Z.of_nat n - (b - a) in
    let! com1 := lift (psub_chk com (pmul a g)) in
    let! com2 := lift (padd_chk com1 (pmul offset g)) in
    let! v := value_of x in
    set_value (sid x1) (v - a) ;;
    let! v := value_of x in
    set_value (sid x2) (v - a + offset) ;;
    let! c := lift2 (mk_dlrep com (eadd (emul x g) (emul r h)) false) in
    let! p1 := mk_range2 com1 g h n x1 r rs1 in
    let! p2 := mk_range2 com2 g h n x2 r rs2 in
    let! cp := lift (and_op c p1) in
    lift (and_op cp p2)
  end.

(** Induction principle for statements. *)
Lemma stmt_ind' (P : stmt -> Prop) :
  (forall d, P (SDL d)) ->
  (forall subs b, Forall P subs -> P (SAnd subs b)) ->
  (forall subs b c, Forall P subs -> P (SOr subs b c)) ->
  (forall k b p, P (SExt k b p None)) ->
  (forall k b p c, P c -> P (SExt k b p (Some c))) ->
  forall s, P s.
Proof.
  intros H1 H2 H3 H4 H5. fix IH 1.
  intros [d | subs b | subs b c | k b p [c|]].
  - apply H1.
  - apply H2. induction subs; constructor; [apply IH | auto].
  - apply H3. induction subs; constructor; [apply IH | auto].
  - apply H5, IH.
  - apply H4.
Qed.
End S.

(** Keys and signatures of /repo/zksk/primitives/bbsplus.py (the proof of knowledge is in Stmt.v). *)
From Coq Require Import String.
From Verif Require Import Base World Val Expr Utils Stmt Prove Verify.
Open Scope Z_scope.
Open Scope list_scope.

(** petlib Bn.mod_inverse (OpenSSL BN_mod_inverse): an exception if there is no inverse. Computed with the
    extended Euclidean algorithm. *)
Fixpoint egcd (n : nat) (a b : Z) : Z * Z :=
  match n with
  | O => (1, 0)
  | S n => if b =? 0 then (1, 0) else let (u, v) := egcd n b (a mod b) in (v, u - a / b * v)
  end.
Definition mod_inverse (a q : Z) : res Z :=
  let i := fst (egcd (2 * Z.to_nat (Z.log2 q) + 3) (a mod q) q) mod q in
  if (i * a) mod q =? 1 then Ok i else Err EException.

Section B.
Context {W : World}.

(** bbsplus.py:183-192; the attribute generators of the secret key is the list of the public key *)
Record bbs_sk := mkSk { sk_h0 : pt; sk_gamma : Z; sk_gens : list pt }.
(** bbsplus.py:45-55 *)
Record blinded := mkBlinded { bl_com : pt; bl_proof : option nizk }.

(** bbsplus.py:145-165 with :176-180 *)
Definition keygen (G1 G2 : gid) (n : nat) : M (bbs_sk * bbs_pk) :=
  let! gens := make_generators (n + 2) G1 256 (Some 42) in
  let h0 := gen G2 in
  let! gamma := draw (order G1) in
  let w := pmul gamma h0 in
  let! gp := lift (rmap (fun g => pairing_chk g h0) gens) in
  ret (mkSk h0 gamma gens, mkPk w h0 gens gp).

(** bbsplus.py:203-221 *)
Definition sign (sk : bbs_sk) (lhs : pt) : M bbs_sig :=
  let q := order (grp (sk_h0 sk)) in
  let! e := draw q in
  let! s2 := draw q in
  match sk_gens sk with
  | g0 :: g1 :: _ =>
    let! p := lift (padd_chk g0 (pmul s2 g1)) in
    let! prod := lift (padd_chk p lhs) in
    let! i := lift (mod_inverse (sk_gamma sk + e) q) in
    ret (mkSig (pmul i prod) e s2)
  | _ => raise EIndexErr
  end.

(** bbsplus.py:33-42 *)
Definition verify_signature (sg : bbs_sig) (pk : bbs_pk) (ms : list Z) : res bool :=
  match firstn (List.length ms + 2) (pk_gens pk) with
  | g0 :: gens =>
    let? x := wsum (grp g0) (sig_s sg :: ms) gens in
    let? product := padd_chk g0 x in
    let? y := padd_chk (pk_w pk) (pmul (sig_e sg) (pk_h0 pk)) in
    let? l := pairing_chk (sig_A sg) y in
    let? r := pairing_chk product (pk_h0 pk) in
    Ok (pt_eqb l r)
  | [] => Err EIndexErr
  end.

(** bbsplus.py:83-113 BBSPlusSignatureCreator.commit. [s1] is the attribute of the creator (None at first); the result
    contains its new value. [ss]: the fresh secrets, one more than messages. *)
Definition commit_messages (pk : bbs_pk) (s1 : option Z) (ms : list Z) (zkp : bool) (ss : list secret)
  : M (blinded * option Z) :=
  match pk_gens pk with
  | g0 :: gens =>
    let! lhs := lift (wsum (grp g0) ms (firstn (List.length ms) (skipn 1 gens))) in
    if zkp then
      let! s1 := draw (order (grp g0)) in
      match gens with
      | g1 :: _ =>
        let! lhs := lift (padd_chk (pmul s1 g1) lhs) in
        let! rhs := lift (wsum_secrets ss (firstn (List.length ms + 1) gens)) in
        let! d := mk_dlrep lhs rhs false in
        let! r := prove (SDL d) (combine ss (s1 :: ms)) (lit "") in
        ret (mkBlinded lhs (Some (fst r)), Some s1)
      | [] => raise EIndexErr
      end
    else ret (mkBlinded lhs None, s1)
  | [] => raise EIndexErr
  end.

(** bbsplus.py:115-131 *)
Definition obtain_signature (s1 : option Z) (sg : bbs_sig) : bbs_sig :=
  mkSig (sig_A sg) (sig_e sg) (match s1 with None => sig_s sg | Some x => sig_s sg + x end).

(** bbsplus.py:57-72. [ss]: the fresh secrets, as many as responses. *)
Definition verify_blinding (b : blinded) (pk : bbs_pk) (ss : list secret) : M bool :=
  match bl_proof b with
  | None => raise EValueErr
  | Some z =>
    let! rs := lift (as_iter (n_resp z)) in
    let! rhs := lift (wsum_secrets (firstn (List.length rs) ss) (firstn (List.length rs) (skipn 1 (pk_gens pk)))) in
    let! d := mk_dlrep (bl_com b) rhs false in
    let! r := verify (SDL d) z (lit "") in
    ret (fst r)
  end.
End B.

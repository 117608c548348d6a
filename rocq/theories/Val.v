(** Python values that cross an interface of the library (responses, commitments, precommitments,
    statement identifiers), their [str()] form and their binary form. *)
From Verif Require Import Base World.
From Coq Require Import DecimalString DecimalZ String.
Open Scope Z_scope.
Open Scope list_scope.

Section V.
Context {W : World}.

(** Universal value. [VInt] is a petlib [Bn] (or a Python int, not distinguished), [VDict] a
    dictionary with text keys in insertion order. *)
Inductive val :=
| VNone
| VInt (z : Z)
| VPt (p : pt)
| VStr (s : bytes)
| VBytes (b : bytes)
| VList (l : list val)
| VTuple (l : list val)
| VDict (d : list (bytes * val)).

Definition lit (s : string) : bytes := list_ascii_of_string s.

Definition dec (z : Z) : bytes := lit (NilZero.string_of_int (Z.to_int z)).

(** repr of text and of byte strings: in single quotes, but in double quotes if there are single and no double quotes inside. The
    quote used and the backslash are escaped, tab, newline and return have their names, other control characters (and, in byte
    strings, all bytes from 127 on) are written in hexadecimal. Simplification: text is in UTF-8 here, and all of its characters
    that are not ASCII are taken to be printable. *)
Definition hexd (n : Z) : ascii := nth (Z.to_nat n) (lit "0123456789abcdef") "0"%char.
Definition esc (q : ascii) (bin : bool) (c : ascii) : bytes :=
  let n := Z.of_N (N_of_ascii c) in
  if Ascii.eqb c q || Ascii.eqb c "\" then ["\"%char; c]
  else if n =? 9 then lit "\t" else if n =? 10 then lit "\n" else if n =? 13 then lit "\r"
  else if (n <? 32) || (n =? 127) || (bin && (127 <? n)) then lit "\x" ++ [hexd (n / 16); hexd (n mod 16)]
  else [c].
Definition qchar (s : bytes) : ascii :=
  if existsb (Ascii.eqb "'") s && negb (existsb (Ascii.eqb """") s) then """"%char else "'"%char.
Definition quote (bin : bool) (s : bytes) : bytes := qchar s :: flat_map (esc (qchar s) bin) s ++ [qchar s].

Definition sep (b : bool) : bytes := if b then lit ", " else [].

(** [str(v)] as used by prehash_statement (/repo/zksk/composition.py:274): lists, tuples, dicts,
    None, numbers, strings; points through [repr]. *)
Fixpoint pystr (v : val) : bytes :=
  match v with
  | VNone => lit "None"
  | VInt z => dec z
  | VPt p => repr_pt p
  | VStr s => quote false s
  | VBytes b => lit "b" ++ quote true b
  | VList l => lit "[" ++ (fix go first l := match l with
                          | [] => lit "]"
                          | x :: l => sep (negb first) ++ pystr x ++ go false l
                          end) true l
  | VTuple l => lit "(" ++ (fix go n l := match l with
                          | [] => if Nat.eqb n 1 then lit ",)" else lit ")"
                          | x :: l => sep (negb (Nat.eqb n 0)) ++ pystr x ++ go (S n) l
                          end) O l
  | VDict d => lit "{" ++ (fix go first d := match d with
                          | [] => lit "}"
                          | (k, x) :: d => sep (negb first) ++ quote false k ++ lit ": " ++ pystr x ++ go false d
                          end) true d
  end.

(** Big-endian numbers. *)
Definition byte_of (z : Z) : ascii := ascii_of_N (Z.to_N (z mod 256)).
Definition int_of (a : ascii) : Z := Z.of_N (N_of_ascii a).
Fixpoint be_bytes (n : nat) (z : Z) : bytes :=
  match n with O => [] | S n => be_bytes n (z / 256) ++ [byte_of z] end.
(** [Bn.from_hex(hexdigest)], /repo/zksk/base.py:91, applied to the digest bytes *)
Definition be_int (b : bytes) : Z := fold_left (fun acc a => 256 * acc + int_of a) b 0.

Definition len {A} (l : list A) : Z := Z.of_nat (List.length l).

(** The header of a msgpack item of [n] bytes, elements or entries: the shortest one. [tag] is the code of the 32-bit header of the
    type (198 binary, 201 extension, 219 text, 221 array, 223 map); before it come the codes of the 16-bit and 8-bit headers (arrays
    and maps have none of 8 bits), and short texts, arrays, maps and extensions of 1, 2, 4, 8, 16 bytes have headers of one byte. *)
Definition shdr (tag n : Z) : option Z :=
  if tag =? 219 then (if n <? 32 then Some (160 + n) else None)
  else if tag =? 221 then (if n <? 16 then Some (144 + n) else None)
  else if tag =? 223 then (if n <? 16 then Some (128 + n) else None)
  else if tag =? 201 then
    if n =? 1 then Some 212 else if n =? 2 then Some 213 else if n =? 4 then Some 214 else if n =? 8 then Some 215
    else if n =? 16 then Some 216 else None
  else None.
Definition hdr (tag : Z) (n : Z) : res bytes :=
  match shdr tag n with
  | Some t => Ok [byte_of t]
  | None =>
      if (n <? 2 ^ 8) && negb ((tag =? 221) || (tag =? 223)) then Ok (byte_of (tag - 2) :: be_bytes 1 n)
      else if n <? 2 ^ 16 then Ok (byte_of (tag - 1) :: be_bytes 2 n)
      else if n <? 2 ^ 32 then Ok (byte_of tag :: be_bytes 4 n) else Err EValueErr
  end.

Definition mag (z : Z) : bytes := be_bytes (Z.to_nat ((Z.log2 z + 8) / 8)) z.
(** petlib Bn encoder: sign character and magnitude *)
Definition bn_data (z : Z) : bytes :=
  (if z <? 0 then lit "-" else lit "+") ++ (if z =? 0 then [] else mag (Z.abs z)).

(** petlib.pack.encode: msgpack with extension types for Bn (code 0) and points (code 2; the
    wrappers of pairings.py:311-313 have codes 111-113, here the group is part of [export_pt]). *)
Fixpoint pack (v : val) : res bytes :=
  match v with
  | VNone => Ok [byte_of 192]
  | VInt z => let b := bn_data z in let? h := hdr 201 (len b) in Ok (h ++ byte_of 0 :: b)
  | VPt p => let b := export_pt p in let? h := hdr 201 (len b) in Ok (h ++ byte_of 2 :: b)
  | VStr s => let? h := hdr 219 (len s) in Ok (h ++ s)
  | VBytes s => let? h := hdr 198 (len s) in Ok (h ++ s)
  | VList l | VTuple l =>
      let? h := hdr 221 (len l) in
      let? bs := rmap pack l in Ok (h ++ List.concat bs)
  | VDict d =>
      let? h := hdr 223 (len d) in
      let? bs := rmap (fun kx : bytes * val => let (k, x) := kx in
                       let? hk := hdr 219 (len k) in
                       let? b := pack x in Ok (hk ++ k ++ b)) d in
      Ok (h ++ List.concat bs)
  end.

Definition take {A} (n : Z) (l : list A) : option (list A * list A) :=
  if n <=? len l then Some (firstn (Z.to_nat n) l, skipn (Z.to_nat n) l) else None.

Definition bn_of_data (b : bytes) : option Z :=
  match b with
  | s :: m => if Ascii.eqb s "+" then Some (be_int m)
              else if Ascii.eqb s "-" then Some (- be_int m) else None
  | [] => None
  end.

Definition obind {A B} (o : option A) (f : A -> option B) : option B :=
  match o with Some a => f a | None => None end.

Notation "'let*' x ':=' r 'in' k" := (obind r (fun x => k))
  (at level 200, x pattern, right associativity).

(** Reading a header whose first byte is [t]: type (as in [hdr]), size, what follows. *)
Definition rdhdr (t : Z) (b : bytes) : option (Z * Z * bytes) :=
  let sized tag k := let* (h, r) := take k b in Some (tag, be_int h, r) in
  if (128 <=? t) && (t <? 144) then Some (223, t - 128, b)
  else if (144 <=? t) && (t <? 160) then Some (221, t - 144, b)
  else if (160 <=? t) && (t <? 192) then Some (219, t - 160, b)
  else if (212 <=? t) && (t <? 217) then Some (201, 2 ^ (t - 212), b)
  else if t =? 196 then sized 198 1 else if t =? 197 then sized 198 2 else if t =? 198 then sized 198 4
  else if t =? 199 then sized 201 1 else if t =? 200 then sized 201 2 else if t =? 201 then sized 201 4
  else if t =? 217 then sized 219 1 else if t =? 218 then sized 219 2 else if t =? 219 then sized 219 4
  else if t =? 220 then sized 221 2 else if t =? 221 then sized 221 4
  else if t =? 222 then sized 223 2 else if t =? 223 then sized 223 4
  else None.
(** Python integers: small ones in one byte, unsigned and signed ones in 1, 2, 4, 8 bytes. The library sends none. *)
Definition rdint (t : Z) (b : bytes) : option (Z * bytes) :=
  if t <? 128 then Some (t, b)
  else if 224 <=? t then Some (t - 256, b)
  else if (204 <=? t) && (t <? 208) then let* (h, r) := take (2 ^ (t - 204)) b in Some (be_int h, r)
  else if (208 <=? t) && (t <? 212) then
    let* (h, r) := take (2 ^ (t - 208)) b in
    Some (if be_int h <? 256 ^ len h / 2 then be_int h else be_int h - 256 ^ len h, r)
  else None.

(** petlib.pack.decode (msgpack.unpackb with the extension hook). Arrays decode to lists. Truth values and floats are not in [val]:
    an error here. *)
Fixpoint unpack (fuel : nat) (b : bytes) : option (val * bytes) :=
  match fuel with
  | O => None
  | S fuel =>
    let items := (fix items n b := match n with
      | O => Some ([], b)
      | S n => let* (v, b) := unpack fuel b in
               let* (vs, b) := items n b in Some (v :: vs, b)
      end) in
    let entries := (fix entries n b := match n with
      | O => Some ([], b)
      | S n => let* (k, b) := unpack fuel b in
               let* (v, b) := unpack fuel b in
               let* (vs, b) := entries n b in
               match k with VStr k => Some ((k, v) :: vs, b) | _ => None end
      end) in
    match b with
    | [] => None
    | t :: b =>
      let t := int_of t in
      if t =? 192 then Some (VNone, b) else
      match rdint t b with Some (z, b) => Some (VInt z, b) | None =>
      let* (t, n, b) := rdhdr t b in
      if t =? 201 then
        match b with
        | c :: b =>
            let* (d, b) := take n b in
            if int_of c =? 0 then let* z := bn_of_data d in Some (VInt z, b)
            else if int_of c =? 2 then let* p := import_pt d in Some (VPt p, b)
            else None
        | [] => None
        end
      else if t =? 219 then let* (d, b) := take n b in Some (VStr d, b)
      else if t =? 198 then let* (d, b) := take n b in Some (VBytes d, b)
      else if t =? 221 then
        if n <=? len b then let* (vs, b) := items (Z.to_nat n) b in Some (VList vs, b) else None
      else if t =? 223 then
        if n <=? len b then let* (vs, b) := entries (Z.to_nat n) b in Some (VDict vs, b) else None
      else None
      end
    end
  end.

Definition encode (v : val) : res bytes := pack v.
Definition decode (b : bytes) : res val :=
  match unpack (S (List.length b)) b with
  | Some (v, []) => Ok v
  | _ => Err EValueErr
  end.

(** What decoding makes of a value: tuples have become lists. *)
Fixpoint norm (v : val) : val :=
  match v with
  | VList l | VTuple l => VList (map norm l)
  | VDict d => VDict (map (fun kx : bytes * val => let (k, x) := kx in (k, norm x)) d)
  | _ => v
  end.

(** Python [==] on values: structural, a list is never equal to a tuple. (Dictionaries compare
    without regard to order in Python; commitments, the only values compared, contain none.) *)
Fixpoint val_eqb (v w : val) : bool :=
  match v, w with
  | VNone, VNone => true
  | VInt a, VInt b => a =? b
  | VPt p, VPt q => pt_eqb p q
  | VStr a, VStr b => bytes_eqb a b
  | VBytes a, VBytes b => bytes_eqb a b
  | VList l, VList m | VTuple l, VTuple m =>
      (fix go l m := match l, m with
                     | [], [] => true
                     | x :: l, y :: m => val_eqb x y && go l m
                     | _, _ => false
                     end) l m
  | VDict d, VDict e =>
      (fix go d e := match d, e with
                     | [], [] => true
                     | (k, x) :: d, (k', y) :: e => bytes_eqb k k' && val_eqb x y && go d e
                     | _, _ => false
                     end) d e
  | _, _ => false
  end.

(** [v[i]] for a non-negative integer i *)
Definition index (v : val) (i : nat) : res val :=
  match v with
  | VList l | VTuple l => match nth_error l i with Some x => Ok x | None => Err EIndexErr end
  | VStr s => match nth_error s i with Some c => Ok (VStr [c]) | None => Err EIndexErr end
  | VBytes s => match nth_error s i with Some c => Ok (VInt (int_of c)) | None => Err EIndexErr end
  | VDict _ => Err EKeyErr
  | _ => Err ETypeErr
  end.

(** [v["key"]] *)
Fixpoint assoc (k : bytes) (d : list (bytes * val)) : option val :=
  match d with
  | [] => None
  | (k', x) :: d => if bytes_eqb k k' then Some x else assoc k d
  end.
Definition getitem (v : val) (k : bytes) : res val :=
  match v with
  | VDict d => match assoc k d with Some x => Ok x | None => Err EKeyErr end
  | _ => Err ETypeErr
  end.

Definition as_int (v : val) : res Z := match v with VInt z => Ok z | _ => Err ETypeErr end.
Definition as_pt (v : val) : res pt := match v with VPt p => Ok p | _ => Err ETypeErr end.
(** iteration over a value *)
Definition as_iter (v : val) : res (list val) :=
  match v with
  | VList l | VTuple l => Ok l
  | VStr s => Ok (map (fun c => VStr [c]) s)
  | VBytes s => Ok (map (fun c => VInt (int_of c)) s)
  | VDict d => Ok (map (fun kx => VStr (fst kx)) d)
  | _ => Err ETypeErr
  end.
Definition is_none (v : val) : bool := match v with VNone => true | _ => false end.
(** truth value *)
Definition truthy (v : val) : bool :=
  match v with
  | VNone => false
  | VInt z => negb (z =? 0)
  | VPt _ => true
  | VStr [] | VBytes [] | VList [] | VTuple [] | VDict [] => false
  | _ => true
  end.

(** Induction principle for the nested type. *)
Lemma val_ind' (P : val -> Prop) :
  P VNone -> (forall z, P (VInt z)) -> (forall p, P (VPt p)) -> (forall s, P (VStr s)) ->
  (forall s, P (VBytes s)) ->
  (forall l, Forall P l -> P (VList l)) -> (forall l, Forall P l -> P (VTuple l)) ->
  (forall d, Forall (fun kx => P (snd kx)) d -> P (VDict d)) ->
  forall v, P v.
Proof.
  intros H0 H1 H2 H3 H4 H5 H6 H7.
  fix IH 1. intros [| z | p | s | s | l | l | d];
    [exact H0 | apply H1 | apply H2 | apply H3 | apply H4 | apply H5 | apply H6 | apply H7].
  - induction l; constructor; auto.
  - induction l; constructor; auto.
  - induction d as [| [k x] d]; constructor; [apply IH | auto].
Qed.

Lemma val_eqb_eq v w : val_eqb v w = true <-> v = w.
Proof.
  revert w. induction v using val_ind'; intros w; destruct w;
    try (split; [discriminate | congruence]); simpl.
  - tauto.
  - rewrite Z.eqb_eq. split; congruence.
  - rewrite pt_eqb_spec. split; congruence.
  - rewrite bytes_eqb_eq. split; congruence.
  - rewrite bytes_eqb_eq. split; congruence.
  - revert l0. induction H as [| x l Hx Hl IH]; intros [| y m]; try (split; [discriminate|congruence]); [tauto|].
    rewrite andb_true_iff, Hx, IH. split; [intros [-> E] | intros E]; [congruence | split; congruence].
  - revert l0. induction H as [| x l Hx Hl IH]; intros [| y m]; try (split; [discriminate|congruence]); [tauto|].
    rewrite andb_true_iff, Hx, IH. split; [intros [-> E] | intros E]; [congruence | split; congruence].
  - revert d0. induction H as [| [k x] l Hx Hl IH]; intros [| [k' y] m];
      try (split; [discriminate|congruence]); [tauto|].
    rewrite !andb_true_iff, bytes_eqb_eq. simpl in Hx. rewrite Hx, IH.
    split; [intros [[-> ->] E] | intros E]; [congruence | repeat split; congruence].
Qed.
Lemma val_eqb_refl v : val_eqb v v = true.
Proof. now apply val_eqb_eq. Qed.
End V.

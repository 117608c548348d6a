(** What a byte string means in msgpack, with the extensions of petlib for numbers and points: all formats that a decoder must understand,
    not only the shortest one that the encoder writes. Used in C96. Written from the format, not from the decoder of [Val.v].
    That numbers of petlib have the sign + or - and others are errors is an assumption on petlib, whose code is not part of the repository.
    Values that [val] does not have (truth values, floats, keys that are no text) are left out. Of entries with one key Python keeps the last;
    here, as in [Val.v], all entries stay in the list. *)
From Verif Require Import Base World Val Prove.
Open Scope Z_scope.
Open Scope list_scope.

(** a byte, and a number in bytes, most significant byte first *)
Definition byte (z : Z) (c : ascii) : Prop := 0 <= z < 256 /\ Z.of_N (N_of_ascii c) = z.
Fixpoint number (h : bytes) : Z := match h with [] => 0 | c :: h => Z.of_N (N_of_ascii c) * 256 ^ Z.of_nat (List.length h) + number h end.

Inductive family := Text | Binary | Extension | Array | Map.
(** first byte, and number of bytes in which the size is given *)
Definition sizes (k : family) : list (Z * nat) :=
  match k with
  | Binary => [(196, 1%nat); (197, 2%nat); (198, 4%nat)] | Extension => [(199, 1%nat); (200, 2%nat); (201, 4%nat)] | Text => [(217, 1%nat); (218, 2%nat); (219, 4%nat)]
  | Array => [(220, 2%nat); (221, 4%nat)] | Map => [(222, 2%nat); (223, 4%nat)]
  end.
Inductive header : family -> Z -> bytes -> Prop :=
| HMap n c : n < 16 -> byte (128 + n) c -> 0 <= n -> header Map n [c]
| HArray n c : n < 16 -> byte (144 + n) c -> 0 <= n -> header Array n [c]
| HText n c : n < 32 -> byte (160 + n) c -> 0 <= n -> header Text n [c]
| HExt i c : 0 <= i <= 4 -> byte (212 + i) c -> header Extension (2 ^ i) [c]
| HSized k t w c h : In (t, w) (sizes k) -> byte t c -> List.length h = w -> header k (number h) (c :: h).

Section M.
Context {W : World}.

Inductive msg : val -> bytes -> Prop :=
| MNone c : byte 192 c -> msg VNone [c]
| MSmall z c : z < 128 -> byte z c -> msg (VInt z) [c]
| MNeg z c : -32 <= z < 0 -> byte (256 + z) c -> msg (VInt z) [c]
| MUnsigned i c h : 0 <= i <= 3 -> byte (204 + i) c -> Z.of_nat (List.length h) = 2 ^ i -> msg (VInt (number h)) (c :: h)
| MSigned i c h z : 0 <= i <= 3 -> byte (208 + i) c -> Z.of_nat (List.length h) = 2 ^ i ->
    (256 ^ 2 ^ i | z - number h) -> - 256 ^ 2 ^ i <= 2 * z < 256 ^ 2 ^ i -> msg (VInt z) (c :: h)
| MBig h c d : header Extension (Z.of_nat (S (List.length d))) h -> byte 0 c -> msg (VInt (number d)) (h ++ c :: "+"%char :: d)
| MBigNeg h c d : header Extension (Z.of_nat (S (List.length d))) h -> byte 0 c -> msg (VInt (- number d)) (h ++ c :: "-"%char :: d)
| MPoint p h c d : header Extension (Z.of_nat (List.length d)) h -> byte 2 c -> import_pt d = Some p -> msg (VPt p) (h ++ c :: d)
| MText s h : header Text (Z.of_nat (List.length s)) h -> msg (VStr s) (h ++ s)
| MBinary s h : header Binary (Z.of_nat (List.length s)) h -> msg (VBytes s) (h ++ s)
| MArray l h b : header Array (Z.of_nat (List.length l)) h -> msgs l b -> msg (VList l) (h ++ b)
| MMap d h b : header Map (Z.of_nat (List.length d)) h -> entries d b -> msg (VDict d) (h ++ b)
with msgs : list val -> bytes -> Prop :=
| MsNil : msgs [] []
| MsCons v b l c : msg v b -> msgs l c -> msgs (v :: l) (b ++ c)
with entries : list (bytes * val) -> bytes -> Prop :=
| EnNil : entries [] []
| EnCons k a v b d c : msg (VStr k) a -> msg v b -> entries d c -> entries ((k, v) :: d) (a ++ b ++ c).

(** A proof (NIZK, base.py:22-54): an array of two to four byte strings, the challenge, the responses, the precommitments and the hash of the statement *)
Inductive sent : nizk -> bytes -> Prop :=
| Sent2 c r bc br b : msg (VInt c) bc -> msg r br -> msg (VList [VBytes bc; VBytes br]) b -> sent (mkNizk c r VNone VNone) b
| Sent3 c r p bc br bp b : msg (VInt c) bc -> msg r br -> msg p bp -> msg (VList [VBytes bc; VBytes br; VBytes bp]) b -> sent (mkNizk c r p VNone) b
| Sent4 c r p h bc br bp bh b : msg (VInt c) bc -> msg r br -> msg p bp -> msg h bh ->
    msg (VList [VBytes bc; VBytes br; VBytes bp; VBytes bh]) b -> sent (mkNizk c r p h) b.
End M.

(** Helpers: /repo/zksk/utils/groups.py, composition.py:24-61, rangeproof.py:26-37. *)
From Verif Require Import Base World Val Expr.

Section U.
Context {W : World}.

(** CHALLENGE_LENGTH, /repo/zksk/consts.py:5 *)
Definition challenge_length : Z := 128.

(** utils/groups.py get_random_num: [Bn(2).pow(bits).random()] *)
Definition get_random_num (bits : Z) : M Z := draw (2 ^ bits).

(** utils/groups.py sum_bn_array. The modulus is positive in all uses. *)
Definition sum_bn_array (arr : list Z) (m : Z) : Z := fold_left (fun r x => (r + x) mod m) arr 0.

(** composition.py:24-39 *)
Definition find_residual (subs : list Z) (c : Z) (bits : Z) : Z :=
  - sum_bn_array (subs ++ [- c]) (2 ^ bits).

(** composition.py:42-61. A map from names to consecutive numbers. *)
Definition assign_secret_ids (ss : list secret) : list (bytes * Z) :=
  snd (fold_left (fun (acc : Z * list (bytes * Z)) s =>
        let (n, m) := acc in
        if existsb (fun p => bytes_eqb (fst p) (sname s)) m then acc
        else (n + 1, m ++ [(sname s, n)])) ss (0, [])).
Fixpoint id_lookup (m : list (bytes * Z)) (n : bytes) : res Z :=
  match m with
  | [] => Err EKeyErr
  | (k, v) :: m => if bytes_eqb k n then Ok v else id_lookup m n
  end.

(** petlib Bn.num_bits *)
Definition num_bits (z : Z) : nat := if z =? 0 then O else S (Z.to_nat (Z.log2 (Z.abs z))).
(** rangeproof.py:26-37 *)
Definition decompose (v : Z) (n : nat) : res (list Z) :=
  if v <? 0 then Err EException else
  let base := map (fun b => if Z.testbit v (Z.of_nat b) then 1 else 0) (seq 0 (num_bits v)) in
  if (n <? num_bits v)%nat then Err EException
  else Ok (base ++ repeat 0 (n - num_bits v)).

(** utils/groups.py get_random_point *)
Definition get_random_point (g : gid) (bits : Z) (seed : option Z) : M pt :=
  let nbytes := Z.to_nat ((bits + 7) / 8) in
  match seed with
  | None => let! r := draw (256 ^ Z.of_nat nbytes) in ret (hash_to_point g (be_bytes nbytes r))
  | Some s => ret (hash_to_point g (firstn nbytes (sha512 (dec s))))
  end.
(** utils/groups.py make_generators *)
Definition make_generators (num : nat) (g : gid) (bits : Z) (seed : option Z) : M (list pt) :=
  mapM (fun i => get_random_point g bits (option_map (fun s => s + Z.of_nat i) seed)) (seq 0 num).

(** group.wsum(weights, points): petlib [EcGroup.wsum] and pairings.py:242-246. The sum starts at
    the neutral element of [g]; [zip] stops at the shorter list. *)
Definition wsum (g : gid) (ws : list Z) (ps : list pt) : res pt :=
  fold_left (fun acc wp => let? a := acc in padd_chk a (pmul (fst wp) (snd wp)))
            (combine ws ps) (Ok (inf g)).
End U.

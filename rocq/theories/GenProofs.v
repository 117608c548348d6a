(** Generators without a seed. *)
From Coq Require Import String.
From Verif Require Import Base World Val Expr Utils Lib Wire.
Open Scope Z_scope.
Open Scope list_scope.

Section G.
Context {W : World}.
Lemma generators_unseeded g bits : let k := Z.to_nat ((bits + 7) / 8) in
  exists inp : Z -> bytes, (forall r, List.length (inp r) = k) /\
    (forall a b, 0 <= a < 256 ^ Z.of_nat k -> 0 <= b < 256 ^ Z.of_nat k -> inp a = inp b -> a = b) /\
    forall num e t p, make_generators num g bits None (mkSt e t p) =
      Ok (map (fun i => hash_to_point g (inp (t (p + i)%nat mod 256 ^ Z.of_nat k))) (seq 0 num), mkSt e t (p + num)).
Proof.
  intros k. exists (be_bytes k). split; [apply be_bytes_length|]. split.
  - intros a b Ha Hb E. rewrite <- (be_int_bytes k a Ha), <- (be_int_bytes k b Hb). now rewrite E.
  - intros num e t. unfold make_generators.
    assert (G : forall num j p, mapM (fun i : nat => get_random_point g bits (option_map (fun s => s + Z.of_nat i) None)) (seq j num) (mkSt e t p) =
      Ok (map (fun i => hash_to_point g (be_bytes k (t (p + i)%nat mod 256 ^ Z.of_nat k))) (seq 0 num), mkSt e t (p + num))).
    { clear num. induction num as [|num IH]; intros j p.
      - cbn. now rewrite Nat.add_0_r.
      - cbn [seq mapM]. unfold bind at 1. cbn [option_map get_random_point]. fold k. unfold bind at 1, draw. cbn [tape pos env].
        unfold ret at 1. unfold bind. rewrite IH. unfold ret. rewrite <- (seq_shift num 0). cbn [map]. rewrite map_map, Nat.add_0_r, Nat.add_succ_r. do 2 f_equal. f_equal.
        apply map_ext. intros i. now rewrite Nat.add_succ_r. }
    intros p. apply G.
Qed.
End G.

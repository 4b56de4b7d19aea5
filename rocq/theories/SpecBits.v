(** * Specification: bytes as bits, most significant bit first *)
From Verif Require Import Base.

Definition msb_bits (b : nat) : list bool :=
  map (Nat.testbit b) [7; 6; 5; 4; 3; 2; 1; 0].

(** the bits of a byte string *)
Definition bits_of (l : list nat) : list bool := flat_map msb_bits l.

(** the number a bit string stands for *)
Fixpoint number_from (acc : N) (l : list bool) : N :=
  match l with
  | [] => acc
  | b :: tl => number_from (2 * acc + (if b then 1 else 0))%N tl
  end.
Definition number (l : list bool) : N := number_from 0 l.

(** the [n]-bit binary form of a number *)
Definition be_bits (n : nat) (v : N) : list bool := map (fun i => N.testbit v (N.of_nat (n - 1 - i))) (seq 0 n).

(** * Model of lib/src/block/selectors.rs *)
From Verif Require Import Base Bitwise Mtf.

(** selectors.rs:9-14: one selector in unary *)
Definition unary (n : nat) : list bool := repeat true n ++ [false].

(** selectors.rs:5-17 [create_selectors] *)
Definition create_selectors (selectors : list nat) : res (list bool * nat) :=
  let! (encoded, _) := mtf selectors in
  Ok (flat_map unary encoded, length selectors).

(** selectors.rs:31-44: the loop.  [current_symbol] is a [u8]: [current_symbol += 1]
    overflows at 255.  Every iteration consumes a bit, which bounds the fuel. *)
Fixpoint read_unary_loop (p : profile) (fuel : nat) (r : bit_reader) (amount : nat)
  (current_symbol : nat) (output : list nat) : res (list nat * bit_reader) :=
  match fuel with
  | O => NoFuel
  | S fuel' =>
      let! (b, r) := read_bit r in
      let! (current_symbol, output) :=
        if b
        then if current_symbol =? 255
             then match p with Checked => Panic | Wrapping => Ok (0, output) end
             else Ok (current_symbol + 1, output)
        else Ok (0, output ++ [current_symbol]) in
      if amount <=? length output then Ok (output, r)
      else read_unary_loop p fuel' r amount current_symbol output
  end.

(** selectors.rs:27-46 [read_unary] *)
Definition read_unary (p : profile) (r : bit_reader) (amount : nat)
  : res (list nat * bit_reader) :=
  read_unary_loop p (S (bits_left r)) r amount 0 [].

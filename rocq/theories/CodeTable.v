(** * Model of lib/src/block/delta.rs and lib/src/block/code_table.rs *)
From Verif Require Import Base Bitwise Zle Huffman.

(** delta.rs:14-18 [DeltaSymbol] *)
Inductive delta_symbol := Decrease | Increase | Stop.

(** delta.rs:29-50: one step of the loop ([last_value], [current_value]) *)
Definition delta_step (last_value current_value : nat) : list delta_symbol :=
  match Nat.compare last_value current_value with
  | Gt => repeat Decrease (last_value - current_value)
  | Lt => repeat Increase (current_value - last_value)
  | Eq => []
  end ++ [Stop].

Fixpoint delta_loop (last_value : nat) (input : list nat) : list delta_symbol :=
  match input with
  | [] => []
  | current_value :: tl => delta_step last_value current_value ++ delta_loop current_value tl
  end.

(** delta.rs:20-58 [encode_delta]: [None] is [DeltaEncoded::Empty] *)
Definition encode_delta (input : list nat) : option (nat * list delta_symbol) :=
  match input with
  | [] => None
  | value :: tl => Some (value, Stop :: delta_loop value tl)
  end.

(** code_table.rs:38-46 *)
Definition delta_bits (d : delta_symbol) : list bool :=
  match d with
  | Decrease => [true; true]
  | Increase => [true; false]
  | Stop => [false]
  end.

(** code_table.rs:23-52 [encode_bit_lengths] *)
Definition encode_bit_lengths (code_lengths : list nat) : list bool :=
  match encode_delta code_lengths with
  | None => []
  | Some (start_value, deltas) =>
      convert_to_code_pad_to_n_bits (N.of_nat start_value) 5 ++ flat_map delta_bits deltas
  end.

(** code_table.rs:14-21 [encode_code_table]; [entry.code.len() as u8] *)
Definition encode_code_table (table : canonical_table) : list bool :=
  encode_bit_lengths (map (fun entry => length (fst entry) mod 256) table).

(** code_table.rs:71-73: [start += 1] and [start -= 1] on a [usize] *)
Definition start_inc (p : profile) (start : N) : res N :=
  if (start + 1 =? two64)%N
  then match p with Checked => Panic | Wrapping => Ok 0%N end
  else Ok (start + 1)%N.
Definition start_dec (p : profile) (start : N) : res N :=
  if (start =? 0)%N
  then match p with Checked => Panic | Wrapping => Ok (two64 - 1)%N end
  else Ok (start - 1)%N.

(** code_table.rs:68-82: the loop; every iteration consumes a bit, which bounds
    the fuel. *)
Fixpoint read_delta_loop (p : profile) (fuel : nat) (r : bit_reader) (amount : nat)
  (start : N) (out : list nat) : res (list nat * bit_reader) :=
  match fuel with
  | O => NoFuel
  | S fuel' =>
      let! (b, r) := read_bit r in
      let! (start, out, r) :=
        if b
        then
          let! (b', r) := read_bit r in
          let! start := if b' then start_dec p start else start_inc p start in
          Ok (start, out, r)
        else Ok (start, out ++ [N.to_nat (start mod 256)], r) in
      if length out =? amount then Ok (out, r)
      else read_delta_loop p fuel' r amount start out
  end.

(** code_table.rs:62-85 [read_delta] *)
Definition read_delta (p : profile) (r : bit_reader) (amount : nat)
  : res (list nat * bit_reader) :=
  let! (bits, r) := read_bits r 5 in
  let! start := convert_to_number p bits in
  read_delta_loop p (S (bits_left r)) r amount start [].

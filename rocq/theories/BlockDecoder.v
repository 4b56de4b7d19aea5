(** * Model of lib/src/block/block_decoder.rs *)
From Verif Require Import Base Bitwise Rle Mtf Crc32 Bwt Zle SymbolStatistics Huffman CodeTable
  SymbolMap Selectors.

(** block_decoder.rs:36-38 *)
Fixpoint read_trees (p : profile) (k : nat) (r : bit_reader) (amount : nat)
  : res (list (list nat) * bit_reader) :=
  match k with
  | O => Ok ([], r)
  | S k' =>
      let! (t, r) := unwrap (read_delta p r amount) in
      let! (ts, r) := read_trees p k' r amount in
      Ok (t :: ts, r)
  end.

(** block_decoder.rs:44-48: one group of at most 50 symbols per selector; an end
    of block marker ends the group, not the loop *)
Fixpoint read_groups (selectors : list nat) (tables : list canonical_table) (r : bit_reader)
  : res (list zsym * bit_reader) :=
  match selectors with
  | [] => Ok ([], r)
  | s :: tl =>
      let! table := get_at tables s in
      let! (syms, r) := unwrap (read_symbols r table 50) in
      let! (rest, r) := read_groups tl tables r in
      Ok (syms ++ rest, r)
  end.

(** [convert_to_number(&reader.read_bits(n).unwrap())], n <= 32 *)
Definition read_number (r : bit_reader) (n : nat) : res (N * bit_reader) :=
  let! (bits, r) := unwrap (read_bits r n) in
  let! v := convert_to_number Checked bits in
  Ok (v, r).

(** block_decoder.rs:22-55: everything up to the checksum: (decoded, stored
    checksum, reader) *)
Definition decode_block_data (p : profile) (r : bit_reader)
  : res (list nat * N * bit_reader) :=
  let! (crc, r) := read_number r 32 in
  let! (_, r) := read_bits r 1 in
  let! (orig_ptr, r) := read_number r 24 in
  let! (symbols, r) := unwrap (read_symbol_table r) in
  let! (num_trees, r) := read_number r 3 in
  let! (num_selectors, r) := read_number r 15 in
  let! (selectors_mtf, r) := unwrap (read_unary p r (N.to_nat num_selectors)) in
  let! selectors := inverse_mtf selectors_mtf (seq 0 (N.to_nat num_trees)) in
  let! (trees, r) := read_trees p (N.to_nat num_trees) r (length symbols + 2) in
  let! code_tables :=
    map_res (fun tree => let! t := from_weights tree in canonicalize p t) trees in
  let! (zle_input, r) := read_groups selectors code_tables r in
  let! mtf_input := decode_zle zle_input in
  let! bwt_input := inverse_mtf mtf_input symbols in
  let! rle_input := inverse_bwt bwt_input (N.to_nat orig_ptr) in
  Ok (inverse_rle rle_input, crc, r).

(** block_decoder.rs:21-61 [decode_block]: the checksum test and the single
    [write] whose returned count is ignored *)
Definition decode_block (p : profile) (r : bit_reader) (w : writer)
  : res bit_reader * writer :=
  match decode_block_data p r with
  | Ok (decoded, crc, r) =>
      if (crc32 decoded =? crc)%N
      then match w_write w decoded with
           | (Ok _, w) => (Ok r, w)
           | (_, w) => (Err, w)
           end
      else (Err, w)
  | Err => (Err, w)
  | Panic => (Panic, w)
  | NoFuel => (NoFuel, w)
  end.

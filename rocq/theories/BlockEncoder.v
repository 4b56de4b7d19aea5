(** * Model of lib/src/block/block_encoder.rs *)
From Verif Require Import Base Bitwise Bwt Mtf Zle SymbolStatistics Huffman CodeTable SymbolMap
  Selectors.

(** block_encoder.rs:135-144 [crc_as_bytes]: most significant byte first *)
Definition crc_as_bytes (crc : N) : list nat :=
  map (fun k => N.to_nat (N.land (N.shiftr crc (8 * k)) 255)) [3; 2; 1; 0]%N.

(** block_encoder.rs:116 (0x314159265359) *)
Definition block_magic : list nat := [49; 65; 89; 38; 83; 89].

(** block_encoder.rs:115-133 [block_header] *)
Definition block_header (crc : N) (orig_pointer : N) : list bool :=
  flat_map convert_to_code_pad_to_byte block_magic
  ++ convert_to_code_pad_to_bytes (crc_as_bytes crc)
  ++ [false]
  ++ convert_to_code_pad_to_byte (N.to_nat (N.shiftr (N.land orig_pointer 16711680) 16 mod 256))
  ++ convert_to_code_pad_to_byte (N.to_nat (N.shiftr (N.land orig_pointer 65280) 8 mod 256))
  ++ convert_to_code_pad_to_byte (N.to_nat (N.land orig_pointer 255 mod 256)).

(** block_encoder.rs:33-49: the zero-run transform with the reporter selected by
    the strategy, followed by [finalize] (zle.rs:105-108). *)
Definition zle_with_strategy (st : strategy) (encoded : list nat) (used : nat)
  : res (list zsym * reported) :=
  match st with
  | BlockWise num_clusters num_iterations =>
      let! (syms, r) := zle_transform blockwise_report encoded
                          (blockwise_create used num_clusters num_iterations) in
      let! rep := blockwise_finalize r in
      Ok (syms, rep)
  | Single =>
      let! (syms, r) := zle_transform single_report encoded (single_create used) in
      Ok (syms, single_finalize r)
  end.

(** block_encoder.rs:91-96: the code of the first matching entry, nothing when
    there is none *)
Definition symbol_code (table : canonical_table) (s : hsym) : list bool :=
  match find_first (fun e => hsym_eqb (snd e) s) table with
  | Some e => fst e
  | None => []
  end.

(** block_encoder.rs:88-89 and 99-100:
    [&code_tables[selected_tables[position / 50] as usize]] *)
Definition table_at (code_tables : list canonical_table) (selected_tables : list nat)
  (position : nat) : res canonical_table :=
  let! t := get_at selected_tables (position / 50) in get_at code_tables t.

(** block_encoder.rs:86-111: the coded symbols and the end-of-block marker *)
Definition encode_data (code_tables : list canonical_table) (selected_tables : list nat)
  (zle_data : list zsym) : res (list bool) :=
  let! codes := map_res (fun x : nat * zsym =>
                           let! table := table_at code_tables selected_tables (fst x) in
                           Ok (symbol_code table (Normal (snd x))))
                        (enumerate zle_data) in
  let! table := table_at code_tables selected_tables (length zle_data) in
  let! e := of_option (find_first (fun e => hsym_eqb (snd e) EoB) table) in
  Ok (concat codes ++ fst e).

(** block_encoder.rs:24-113 [generate_block_data] *)
Definition generate_block_data (p : profile) (checksum : N) (rle_data : list nat) (st : strategy)
  : res (list bool * N) :=
  let! (bwt_data, orig_ptr) := bwt rle_data in
  let! (encoded, used_symbols) := mtf bwt_data in
  let! (zle_data, (reported_frequencies, selected_tables)) :=
    zle_with_strategy st encoded (length used_symbols) in
  let! code_tables :=
    map_res (fun table => let! t := compute_huffman table in canonicalize p t)
            reported_frequencies in
  let! (selector_bits, num_selectors) := create_selectors selected_tables in
  let! symbol_map := write_symbol_table used_symbols in
  let! selectors_field :=
    convert_to_code_pad_to_15_bits (N.of_nat num_selectors mod 65536) in
  let! data := encode_data code_tables selected_tables zle_data in
  Ok (block_header checksum (N.of_nat orig_ptr mod 4294967296)
      ++ symbol_map
      ++ convert_to_code_pad_to_n_bits (N.of_nat (length code_tables)) 3
      ++ selectors_field
      ++ selector_bits
      ++ flat_map encode_code_table code_tables
      ++ data, checksum).

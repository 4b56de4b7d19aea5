(** * The decompressor with its steps counted

    Every definition is the one without [c_] of the model file named in its section, with
    the steps of Cost.v counted; DecodeCostFacts.v proves that the results are the same. *)
From Verif Require Import Base Bitwise Rle Mtf Crc32 Bwt Zle SymbolStatistics Huffman CodeTable SymbolMap Selectors
  BlockEncoder BlockDecoder Stream Cost BwtCost EncodeCost.

(** std's stable [sort_by] on a list of any length: O(n log n) by its documentation,
    charged [4 n (log2 n + 1)] *)
Definition c_merge_sort {A} (leb : A -> A -> bool) (l : list A) : counted (list A) :=
  takes (4 * length l * (Nat.log2 (length l) + 1)) (Ok (sort_by leb l)).

(** ** Bitwise (lib/src/bitwise/bitreader.rs) *)

(** one step per answer of the underlying reader *)
Fixpoint c_read_exact_one (source : list answer) : counted (nat * list answer) :=
  match source with
  | [] => step Err
  | AByte b :: rest => step (Ok (b, rest))
  | AInterrupted :: rest => steps 1 (c_read_exact_one rest)
  | AFail :: _ => step Err
  end.
Definition c_br_fetch (r : bit_reader) : counted bit_reader :=
  let? (b, rest) := c_read_exact_one (br_source r) in
  done (mk_br rest 0 (Some b)).

(** bitreader.rs:49-74: at most two turns, one push *)
Definition c_read_bit (r : bit_reader) : counted (bool * bit_reader) :=
  let emit := fun (b : nat) (r : bit_reader) =>
    (Ok (Nat.testbit b (8 - br_cursor r - 1),
         mk_br (br_source r) (S (br_cursor r)) (br_current r)), 0) in
  steps 3
  (match br_current r with
   | Some b =>
       if 8 <=? br_cursor r
       then let? r' := c_br_fetch r in
            match br_current r' with
            | Some b' => emit b' r'
            | None => (Panic, 0)
            end
       else emit b r
   | None =>
       let? r' := c_br_fetch r in
       match br_current r' with
       | Some b' => emit b' r'
       | None => (Panic, 0)
       end
   end).

(** bitreader.rs:44-76 *)
Fixpoint c_read_bits (r : bit_reader) (num : nat) : counted (list bool * bit_reader) :=
  match num with
  | O => done ([], r)
  | S num' =>
      let? (b, r') := c_read_bit r in
      let? (bs, r'') := c_read_bits r' num' in
      done (b :: bs, r'')
  end.

(** bitreader.rs:15-28 *)
Fixpoint c_read_bytes (r : bit_reader) (num : nat) : counted (list nat * bit_reader) :=
  match num with
  | O => done ([], r)
  | S num' =>
      let? (bits, r') := steps 2 (c_read_bits r 8) in
      let? v := c_convert_to_number Checked bits in
      let? (bs, r'') := c_read_bytes r' num' in
      done (N.to_nat v :: bs, r'')
  end.

Definition c_unwrap {A} (m : counted A) : counted A := (unwrap (fst m), snd m).

Definition c_read_number (r : bit_reader) (n : nat) : counted (N * bit_reader) :=
  let? (bits, r) := c_unwrap (c_read_bits r n) in
  let? v := c_convert_to_number Checked bits in
  done (v, r).

(** ** SymbolMap (lib/src/block/symbol_map.rs): a turn, a read and a push per region; per
    symbol the pair is built, zipped, and put into a vector of its own *)
Definition c_read_symbol_table (r : bit_reader) : counted (list nat * bit_reader) :=
  let? (index, r) := c_read_bits r 16 in
  let? used_regions := takes (3 * length index) (Ok (get_used_regions index)) in
  let? (regions, r) := c_read_bits r (16 * length used_regions) in
  takes (6 * length regions + 2 * length used_regions) (Ok (get_used_symbols_from_regions used_regions regions, r)).

(** ** Selectors (lib/src/block/selectors.rs): a turn, a look at the bit, a push *)
Fixpoint c_read_unary_loop (p : profile) (fuel : nat) (r : bit_reader) (amount : nat)
  (current_symbol : nat) (output : list nat) : counted (list nat * bit_reader) :=
  match fuel with
  | O => (NoFuel, 0)
  | S fuel' =>
      let? (b, r) := c_read_bit r in
      let? (current_symbol, output) :=
        takes 3 (if b
        then if current_symbol =? 255
             then match p with Checked => Panic | Wrapping => Ok (0, output) end
             else Ok (current_symbol + 1, output)
        else Ok (0, output ++ [current_symbol])) in
      if amount <=? length output then done (output, r)
      else c_read_unary_loop p fuel' r amount current_symbol output
  end.
Definition c_read_unary (p : profile) (r : bit_reader) (amount : nat)
  : counted (list nat * bit_reader) :=
  c_read_unary_loop p (S (bits_left r)) r amount 0 [].

(** ** Mtf (lib/src/block/mtf.rs): a turn, a push, a search, a move *)
Fixpoint c_inverse_mtf_loop (input dictionary : list nat) : counted (list nat) :=
  match input with
  | [] => done []
  | i :: tl =>
      let? value := steps 2 (c_get dictionary i) in
      let? pos := c_find_pos value dictionary in
      if 255 <? pos then (Panic, 0) else
      let? dictionary' := c_bring_to_front_of_dict pos dictionary in
      let? out := c_inverse_mtf_loop tl dictionary' in
      done (value :: out)
  end.
Definition c_inverse_mtf (input dictionary : list nat) : counted (list nat) :=
  let? dictionary := c_copy dictionary in
  c_inverse_mtf_loop input dictionary.

(** ** CodeTable (lib/src/block/code_table.rs) *)
Fixpoint c_read_delta_loop (p : profile) (fuel : nat) (r : bit_reader) (amount : nat)
  (start : N) (out : list nat) : counted (list nat * bit_reader) :=
  match fuel with
  | O => (NoFuel, 0)
  | S fuel' =>
      let? (b, r) := steps 2 (c_read_bit r) in
      let? (start, out, r) :=
        if b
        then
          let? (b', r) := c_read_bit r in
          let? start := takes 1 (if b' then start_dec p start else start_inc p start) in
          done (start, out, r)
        else takes 1 (Ok (start, out ++ [N.to_nat (start mod 256)], r)) in
      if length out =? amount then done (out, r)
      else c_read_delta_loop p fuel' r amount start out
  end.
Definition c_read_delta (p : profile) (r : bit_reader) (amount : nat)
  : counted (list nat * bit_reader) :=
  let? (bits, r) := c_read_bits r 5 in
  let? start := c_convert_to_number p bits in
  c_read_delta_loop p (S (bits_left r)) r amount start [].

(** ** Huffman (lib/src/block/huffman/huffman_internal.rs, reader.rs) *)

(** huffman_internal.rs:145-165: numbers made, appended, zipped, collected *)
Definition c_from_weights (code_lengths : list nat) : counted code_table :=
  takes (8 * length code_lengths) (from_weights code_lengths).

(** reader.rs:49-59: a turn and a read per entry; the codes are compared bit by bit if they
    have the same length *)
Fixpoint c_read_from_table (table : canonical_table) (symbols : list bool) : counted (option hsym) :=
  match table with
  | [] => done None
  | e :: tl =>
      steps (2 + if length symbols =? length (fst e) then length symbols else 0)
      (if bits_eqb symbols (fst e) then done (Some (snd e)) else c_read_from_table tl symbols)
  end.

(** reader.rs:28-44: a turn, an append, a push *)
Fixpoint c_read_symbols_loop (fuel : nat) (r : bit_reader) (table : canonical_table)
  (max_number : nat) (all_symbols : list zsym) (current_symbol : list bool) (symbols_read : nat)
  : counted (list zsym * bit_reader) :=
  match fuel with
  | O => (NoFuel, 0)
  | S fuel' =>
      let? (read, r') := steps 3 (c_read_bits r 1) in
      let current_symbol := current_symbol ++ read in
      let? found := c_read_from_table table current_symbol in
      match found with
      | Some EoB => done (all_symbols, r')
      | Some (Normal s) =>
          let all_symbols := all_symbols ++ [s] in
          if S symbols_read =? max_number then done (all_symbols, r')
          else c_read_symbols_loop fuel' r' table max_number all_symbols [] (S symbols_read)
      | None =>
          if symbols_read =? max_number then done (all_symbols, r')
          else c_read_symbols_loop fuel' r' table max_number all_symbols current_symbol symbols_read
      end
  end.
Definition c_read_symbols (r : bit_reader) (table : canonical_table) (max_number : nat)
  : counted (list zsym * bit_reader) :=
  c_read_symbols_loop (S (bits_left r)) r table max_number [] [] 0.

(** ** Zle (lib/src/block/zle.rs): the run symbols are copied, reversed, appended and read;
    the zeros are created and appended *)
Definition c_flush_zeros (zeros : list zsym) (output : list nat) : counted (list nat) :=
  match zeros with
  | [] => done output
  | _ =>
      let? k := takes (6 * length zeros + 3) (decode_zero_amount zeros) in
      takes (2 * N.to_nat k) (Ok (output ++ repeat 0 (N.to_nat k)))
  end.
Fixpoint c_decode_zle_loop (input : list zsym) (output : list nat) (zeros : list zsym)
  : counted (list nat) :=
  match input with
  | [] => c_flush_zeros zeros output
  | Number element :: tl =>
      let? output := steps 3 (c_flush_zeros zeros output) in
      c_decode_zle_loop tl (output ++ [element]) []
  | run :: tl => steps 3 (c_decode_zle_loop tl output (zeros ++ [run]))
  end.
Definition c_decode_zle (input : list zsym) : counted (list nat) := c_decode_zle_loop input [] [].

(** ** Bwt (lib/src/block/bwt/bwt_inverse.rs): a turn, a read and a push per byte *)
Fixpoint c_inverse_bwt_loop (k : nat) (pairs : list (nat * nat)) (start : nat) : counted (list nat) :=
  match k with
  | O => done []
  | S k' =>
      let? (next, value) := steps 2 (c_get pairs start) in
      let? out := c_inverse_bwt_loop k' pairs next in
      done (value :: out)
  end.
Definition c_inverse_bwt (data : list nat) (orig_ptr : nat) : counted (list nat) :=
  let? pairs := takes (2 * length data) (Ok (enumerate data)) in
  let? pairs := c_merge_sort (fun x y => snd x <=? snd y) pairs in
  let? found := c_find_first (fun x => fst x =? orig_ptr) pairs in
  let? (start, _) := step (of_option found) in
  c_inverse_bwt_loop (length data) pairs start.

(** ** Rle (lib/src/block/rle.rs): a turn and a read per byte, a push, or a run that is
    created and appended *)
Definition c_irle_step (s : irle_state) (el : nat) : counted irle_state :=
  takes (3 + 2 * (length (ir_out (irle_step s el)) - length (ir_out s))) (Ok (irle_step s el)).
Definition c_inverse_rle (input : list nat) : counted (list nat) :=
  let? s := cfold c_irle_step input (mk_irle [] 0 None) in
  done (ir_out s).

(** ** Crc32 (lib/src/block/crc32.rs): the table, then a turn and two reads per byte *)
Definition c_crc32 (input : list nat) : counted N := takes (256 + 3 * length input) (Ok (crc32 input)).

(** ** BlockDecoder (lib/src/block/block_decoder.rs) *)
Fixpoint c_read_trees (p : profile) (k : nat) (r : bit_reader) (amount : nat)
  : counted (list (list nat) * bit_reader) :=
  match k with
  | O => done ([], r)
  | S k' =>
      let? (t, r) := steps 2 (c_unwrap (c_read_delta p r amount)) in
      let? (ts, r) := c_read_trees p k' r amount in
      done (t :: ts, r)
  end.

Fixpoint c_read_groups (selectors : list nat) (tables : list canonical_table) (r : bit_reader)
  : counted (list zsym * bit_reader) :=
  match selectors with
  | [] => done ([], r)
  | s :: tl =>
      let? table := steps 1 (c_get tables s) in
      let? (syms, r) := c_unwrap (c_read_symbols r table 50) in
      let? _ := takes (length syms) (Ok tt) in
      let? (rest, r) := c_read_groups tl tables r in
      done (syms ++ rest, r)
  end.

Definition c_decode_block_data (p : profile) (r : bit_reader)
  : counted (list nat * N * bit_reader) :=
  let? (crc, r) := c_read_number r 32 in
  let? (_, r) := c_read_bits r 1 in
  let? (orig_ptr, r) := c_read_number r 24 in
  let? (symbols, r) := c_unwrap (c_read_symbol_table r) in
  let? (num_trees, r) := c_read_number r 3 in
  let? (num_selectors, r) := c_read_number r 15 in
  let? (selectors_mtf, r) := c_unwrap (c_read_unary p r (N.to_nat num_selectors)) in
  let? dictionary := c_copy (seq 0 (N.to_nat num_trees)) in
  let? selectors := c_inverse_mtf selectors_mtf dictionary in
  let? (trees, r) := c_read_trees p (N.to_nat num_trees) r (length symbols + 2) in
  let? code_tables :=
    cmap (fun tree => let? t := c_from_weights tree in c_canonicalize p t) trees in
  let? (zle_input, r) := c_read_groups selectors code_tables r in
  let? mtf_input := c_decode_zle zle_input in
  let? bwt_input := c_inverse_mtf mtf_input symbols in
  let? rle_input := c_inverse_bwt bwt_input (N.to_nat orig_ptr) in
  let? decoded := c_inverse_rle rle_input in
  done (decoded, crc, r).

(** counted computations that also change the sink *)
Definition counted_io (A : Type) : Type := (res A * writer * nat)%type.

(** the sink copies the block it is offered *)
Definition c_decode_block (p : profile) (r : bit_reader) (w : writer) : counted_io bit_reader :=
  match c_decode_block_data p r with
  | (Ok (decoded, crc, r), t) =>
      let (_, t2) := c_crc32 decoded in
      if (crc32 decoded =? crc)%N
      then match w_write w decoded with
           | (Ok _, w) => (Ok r, w, t + t2 + length decoded + 1)
           | (_, w) => (Err, w, t + t2 + length decoded + 1)
           end
      else (Err, w, t + t2)
  | (Err, t) => (Err, w, t)
  | (Panic, t) => (Panic, w, t)
  | (NoFuel, t) => (NoFuel, w, t)
  end.

(** ** Stream (lib/src/stream/mod.rs) *)
Definition c_read_file_header (r : bit_reader) : counted bit_reader :=
  let? (bs, r) := c_read_bytes r 4 in
  takes 4 (if nats_eqb (firstn 3 bs) [66; 90; 104] then Ok r else Err).

Definition c_what_next (r : bit_reader) : counted (block_type * bit_reader) :=
  let? (bs, r) := c_read_bytes r 6 in
  takes 12 (if nats_eqb bs block_magic then Ok (BlockHeader, r)
            else if nats_eqb bs footer_magic then Ok (StreamFooter, r)
            else Err).

Fixpoint c_decode_loop (fuel : nat) (p : profile) (r : bit_reader) (w : writer) : counted_io bit_reader :=
  match fuel with
  | O => (NoFuel, w, 0)
  | S fuel' =>
      match c_what_next r with
      | (Ok (StreamFooter, r), t) => (Ok r, w, t + 1)
      | (Ok (BlockHeader, r), t) =>
          match c_decode_block p r w with
          | (Ok r, w, t2) => let '(res, w, t3) := c_decode_loop fuel' p r w in (res, w, t + t2 + t3 + 1)
          | (Err, w, t2) => (Err, w, t + t2 + 1)
          | (Panic, w, t2) => (Panic, w, t + t2 + 1)
          | (NoFuel, w, t2) => (NoFuel, w, t + t2 + 1)
          end
      | (Err, t) => (Err, w, t + 1)
      | (Panic, t) => (Panic, w, t + 1)
      | (NoFuel, t) => (NoFuel, w, t + 1)
      end
  end.

Definition c_decode_source (p : profile) (source : list answer) (w : writer) : counted_io (list answer) :=
  match c_read_file_header (br_from_source source) with
  | (Ok r, t) =>
      match c_decode_loop (S (bits_left r)) p r w with
      | (Ok r, w, t2) => (Ok (br_source r), w, t + t2)
      | (Err, w, t2) => (Err, w, t + t2)
      | (Panic, w, t2) => (Panic, w, t + t2)
      | (NoFuel, w, t2) => (NoFuel, w, t + t2)
      end
  | (Err, t) => (Err, w, t)
  | (Panic, t) => (Panic, w, t)
  | (NoFuel, t) => (NoFuel, w, t)
  end.

(** ** Not in the code: the size of a block in between

    The number of values the symbols of a block stand for once its zero runs are written
    out (a run whose length does not fit counts nothing), 0 if the symbols cannot be read. *)
Definition run_values (zeros : list zsym) : nat :=
  match zeros with
  | [] => 0
  | _ => match decode_zero_amount zeros with Ok k => N.to_nat k | _ => 0 end
  end.
Fixpoint zle_values (input zeros : list zsym) : nat :=
  match input with
  | [] => run_values zeros
  | Number _ :: tl => run_values zeros + 1 + zle_values tl []
  | run :: tl => zle_values tl (zeros ++ [run])
  end.
Definition block_values (p : profile) (r : bit_reader) : nat :=
  match
    (let! (_, r) := read_number r 32 in
     let! (_, r) := read_bits r 1 in
     let! (_, r) := read_number r 24 in
     let! (symbols, r) := unwrap (read_symbol_table r) in
     let! (num_trees, r) := read_number r 3 in
     let! (num_selectors, r) := read_number r 15 in
     let! (selectors_mtf, r) := unwrap (read_unary p r (N.to_nat num_selectors)) in
     let! selectors := inverse_mtf selectors_mtf (seq 0 (N.to_nat num_trees)) in
     let! (trees, r) := read_trees p (N.to_nat num_trees) r (length symbols + 2) in
     let! code_tables := map_res (fun tree => let! t := from_weights tree in canonicalize p t) trees in
     read_groups selectors code_tables r)
  with
  | Ok (zle_input, _) => zle_values zle_input []
  | _ => 0
  end.

(** * The unit tests of the repository, run on the model

    These are checks of the model, not proofs of properties: for every [#[test]] in
    [lib/src] the functions of the model give what the test expects of the functions of the
    program.  One example per test, under the test's name with the module as prefix. *)
From Coq Require Import String Ascii.
From Verif Require Import Base Bitwise Rle Mtf Crc32 Bwt Zle SymbolStatistics PackageMerge Huffman CodeTable SymbolMap
  Selectors Stream.
Open Scope nat_scope.
Open Scope list_scope.

(** a byte string literal *)
Fixpoint b (s : string) : list nat :=
  match s with EmptyString => [] | String c tl => nat_of_ascii c :: b tl end.
Notation I := true. Notation O := false.
Definition peter : list nat :=
  b "If Peter Piper picked a peck of pickled peppers, where's the peck of pickled peppers Peter Piper picked?????".
Definition peter_sorted : list nat :=
  b "fsrrdkkeaddrrffs,esd?????     eeiiiieeeehrppkllkppttpphppPPIootwppppPPcccccckk      iipp    eeeeeeeeer'ree  ".
Definition value {A} (r : res (A * bit_reader)) : res A := match r with Ok (a, _) => Ok a | Err => Err | Panic => Panic | NoFuel => NoFuel end.

(** ** block/mtf.rs:81-102 *)
Example mtf_brings_to_front_of_dictionary : bring_to_front_of_dict 3 [1; 2; 3; 4] = Ok [4; 1; 2; 3].
Proof. reflexivity. Qed.
Example mtf_mtf_easy_sample : exists used, mtf (b "nnbaaaa") = Ok ([2; 0; 2; 2; 0; 0; 0], used).
Proof. eexists. vm_compute. reflexivity. Qed.
Example mtf_inverse_mtf_easy_sample : inverse_mtf [2; 0; 2; 2; 0; 0; 0] (b "abn") = Ok (b "nnbaaaa").
Proof. reflexivity. Qed.

(** ** block/code_table.rs:97-111 *)
Example code_table_reads_table : exists bw bw', write_bits (bw_from_writer (mk_writer [] [])) (encode_bit_lengths [1; 2; 3; 4]) = (Ok tt, bw) /\
  bw_finalize bw = (Ok tt, bw') /\ forall p, value (read_delta p (br_from_reader (w_out (bw_sink bw'))) 4) = Ok [1; 2; 3; 4].
Proof. do 2 eexists. split; [vm_compute; reflexivity|]. split; [vm_compute; reflexivity|]. intros []; vm_compute; reflexivity. Qed.

(** ** block/symbol_map.rs:89-269 *)
Definition zeros (n : nat) : list bool := repeat O n.
Example symbol_map_one_symbol : write_symbol_table [0] = Ok ((I :: zeros 15) ++ (I :: zeros 15)).
Proof. reflexivity. Qed.
Example symbol_map_two_symbols_in_same_range : write_symbol_table [0; 1] = Ok ((I :: zeros 15) ++ (I :: I :: zeros 14)).
Proof. reflexivity. Qed.
Example symbol_map_two_symbols_in_different_ranges :
  write_symbol_table [0; 16] = Ok ((I :: I :: zeros 14) ++ (I :: zeros 15) ++ (I :: zeros 15)).
Proof. reflexivity. Qed.
Example symbol_map_two_symbols_in_non_neighboured_ranges :
  write_symbol_table [0; 32] = Ok ((I :: O :: I :: zeros 13) ++ (I :: zeros 15) ++ (I :: zeros 15)).
Proof. reflexivity. Qed.
Example symbol_map_decodes : get_used_regions [O; I; O; I; O; O; O; O; O; O; O; O; O; O; O; I] = [1; 3; 15].
Proof. reflexivity. Qed.
(** the pattern of the test has 17 bits *)
Example symbol_map_computes_used_symbol : get_used_symbols_from_regions [1] (O :: I :: zeros 15) = [17].
Proof. reflexivity. Qed.
Example symbol_map_computes_more_used_symbols :
  get_used_symbols_from_regions [1; 2] ((O :: I :: zeros 14) ++ (O :: I :: zeros 14)) = [17; 33].
Proof. reflexivity. Qed.
Example symbol_map_computes_even_more_used_symbols :
  get_used_symbols_from_regions [0; 1; 2] ((zeros 15 ++ [I]) ++ (O :: I :: zeros 14) ++ (O :: I :: zeros 14)) = [15; 17; 33].
Proof. reflexivity. Qed.

(** ** block/selectors.rs:56-88; the reader is padded to whole bytes *)
Example selectors_decodes_one_unary : forall p, value (read_unary p (br_from_reader [byte_of_bits [I; I; O; I; I; O; I; O]]) 1) = Ok [2].
Proof. intros []; reflexivity. Qed.
Example selectors_decodes_zero_unary : forall p, value (read_unary p (br_from_reader [byte_of_bits [I; O; O; I; I; O; I; O]]) 4) = Ok [1; 0; 2; 1].
Proof. intros []; reflexivity. Qed.

(** ** block/huffman/package_merge.rs:135-181; in eighths instead of [f64] *)
Example package_merge_creates_packages_of_value_1 : exists sets,
  package_merge [mk_coin 1 3; mk_coin 1 3; mk_coin 3 3; mk_coin 4 3; mk_coin 2 2; mk_coin 5 2; mk_coin 1 0; mk_coin 3 0] = Ok sets /\
  sets <> [] /\ Forall (fun set => list_sum (map (fun y => 2 ^ (3 - coin_exp y)) set) = 8) sets.
Proof. eexists. split; [vm_compute; reflexivity|]. split; [discriminate|]. repeat constructor. Qed.

(** ** block/huffman/huffman_internal.rs:178-220; the characters are symbols here *)
Definition chr (s : string) : hsym := match b s with c :: _ => Normal (Number c) | [] => EoB end.
Example huffman_canonicalizes_and_sorts_alphabetically : forall p,
  canonicalize p [(2, chr "a"); (1, chr "b"); (3, chr "c"); (3, chr "d")] =
  Ok [([I; O], chr "a"); ([O], chr "b"); ([I; I; O], chr "c"); ([I; I; I], chr "d")].
Proof. intros []; reflexivity. Qed.

(** ** block/huffman/reader.rs:73-134 *)
Example huffman_reads_symbols : exists bw bw',
  write_bits (bw_from_writer (mk_writer [] [])) [O; I; O; I; I; I; O; I; I; O; I; I; I; I] = (Ok tt, bw) /\ bw_finalize bw = (Ok tt, bw') /\
  value (read_symbols (br_from_reader (w_out (bw_sink bw')))
    [([O], Normal RunA); ([I; O], Normal RunB); ([I; I; I; O], Normal (Number 0)); ([I; I; O], Normal (Number 1)); ([I; I; I; I], EoB)] 5)
  = Ok [RunA; RunB; Number 0; Number 1].
Proof. do 2 eexists. split; [vm_compute; reflexivity|]. split; vm_compute; reflexivity. Qed.

(** ** block/bwt/bwt_internal.rs:49-80 *)
Example bwt_banana : exists ptr, bwt (b "banana") = Ok (b "nnbaaa", ptr).
Proof. eexists. vm_compute. reflexivity. Qed.
Example bwt_bananaa : exists ptr, bwt (b "bananaa") = Ok (b "nanbaaa", ptr).
Proof. eexists. vm_compute. reflexivity. Qed.
Example bwt_banana2 : bwt (b "banana") = Ok (b "nnbaaa", 3).
Proof. vm_compute. reflexivity. Qed.
Example bwt_longer_text : bwt peter = Ok (peter_sorted, 24).
Proof. vm_compute. reflexivity. Qed.
Example bwt_banana3 : bwt (b "bananaaar") = Ok (b "nanbaraaa", 5).
Proof. vm_compute. reflexivity. Qed.
(** ** block/bwt/bwt_inverse.rs:18-32 *)
Example bwt_inverse_test : inverse_bwt (b "nnbaaa") 3 = Ok (b "banana").
Proof. vm_compute. reflexivity. Qed.
Example bwt_inverse_longer_test : inverse_bwt peter_sorted 24 = Ok peter.
Proof. vm_compute. reflexivity. Qed.
(** ** block/bwt/duval.rs:41-51 *)
Example duval_rotates : exists i, rotate_duval (b "abacabab") = Ok (b "ababacab", i).
Proof. eexists. vm_compute. reflexivity. Qed.
Example duval_finds_final_lyndon_word : exists rotated, rotate_duval (b "bananaa") = Ok (rotated, 6).
Proof. eexists. vm_compute. reflexivity. Qed.

(** ** block/crc32.rs:55-60 *)
Example crc32_computes : crc32 peter = 1515570206%N.
Proof. vm_compute. reflexivity. Qed.

(** ** block/zle.rs:158-287 *)
Definition zero_amounts : list (nat * list zsym) :=
  [(1, [RunA]); (2, [RunB]); (3, [RunA; RunA]); (4, [RunB; RunA]); (5, [RunA; RunB]); (6, [RunB; RunB]);
   (7, [RunA; RunA; RunA]); (8, [RunB; RunA; RunA]); (9, [RunA; RunB; RunA]); (10, [RunB; RunB; RunA]);
   (11, [RunA; RunA; RunB]); (12, [RunB; RunA; RunB]); (13, [RunA; RunB; RunB]); (14, [RunB; RunB; RunB]);
   (63, [RunA; RunA; RunA; RunA; RunA; RunA])].
Example zle_decodes_zero_amount : Forall (fun x => decode_zero_amount (snd x) = Ok (N.of_nat (fst x))) zero_amounts.
Proof. repeat constructor. Qed.
Example zle_encodes_zero_amount : Forall (fun x => encode_zero_amount (fst x) = snd x) zero_amounts.
Proof. repeat constructor. Qed.
Definition encodes_to (input : list nat) (size : nat) (expected : list zsym) : Prop :=
  exists m, zle_transform single_report input (single_create size) = Ok (expected, m).
Example zle_encodes_zeros : encodes_to [0; 0; 0] 1 [RunA; RunA].
Proof. eexists. vm_compute. reflexivity. Qed.
Example zle_encodes_zeros_and_numbers : encodes_to [1; 0; 0; 0] 2 [Number 1; RunA; RunA].
Proof. eexists. vm_compute. reflexivity. Qed.
Example zle_decodes_zeros_and_numbers : decode_zle [Number 1; RunA; RunA] = Ok [1; 0; 0; 0].
Proof. reflexivity. Qed.
Example zle_encodes_zeros_and_trailing_numbers : encodes_to [1; 0; 0; 0; 2] 3 [Number 1; RunA; RunA; Number 2].
Proof. eexists. vm_compute. reflexivity. Qed.
Example zle_decodes_zeros_and_trailing_numbers : decode_zle [Number 1; RunA; RunA; Number 2] = Ok [1; 0; 0; 0; 2].
Proof. reflexivity. Qed.
Example zle_encodes_numbers_and_trailing_zeroes : encodes_to [1; 0; 0; 0; 2; 0; 0] 3 [Number 1; RunA; RunA; Number 2; RunB].
Proof. eexists. vm_compute. reflexivity. Qed.

(** ** block/delta.rs:62-85 *)
Example delta_encodes : encode_delta [1; 2; 2; 1; 3; 1] =
  Some (1, [Stop; Increase; Stop; Stop; Decrease; Stop; Increase; Increase; Stop; Decrease; Decrease; Stop]).
Proof. reflexivity. Qed.

(** ** block/rle.rs:99-311 *)
Definition rle_gives (input data : list nat) (counter last size : nat) (total : list nat) : Prop :=
  let r := rle input 0 None in
  rle_data r = data /\ rle_counter r = counter /\ rle_last r = Some last /\
  rle_total_size (length (rle_data r)) (rle_counter r) (rle_last r) = size /\ rle_augment (rle_data r) (rle_counter r) (rle_last r) = total.
Example rle_keeps_three_byte_sequences : rle_gives [1; 1; 1] [] 3 1 3 [1; 1; 1].
Proof. repeat split. Qed.
Example rle_adds_overflow_to_sequence : rle_gives [1; 1; 1; 1] [] 4 1 5 [1; 1; 1; 1; 0].
Proof. repeat split. Qed.
Example rle_larger_numbers : rle_gives [1; 1; 1; 1; 1] [] 5 1 5 [1; 1; 1; 1; 1].
Proof. repeat split. Qed.
Example rle_mixed_sequences : rle_gives [1; 1; 1; 1; 2; 2; 2] [1; 1; 1; 1; 0] 3 2 8 [1; 1; 1; 1; 0; 2; 2; 2].
Proof. repeat split. Qed.
Example rle_mixed_sequences_with_length : rle_gives [1; 1; 1; 1; 1; 2; 2; 2; 2; 2] [1; 1; 1; 1; 1] 5 2 10 [1; 1; 1; 1; 1; 2; 2; 2; 2; 1].
Proof. repeat split. Qed.
Example rle_mixed_sequences_with_and_without_length : rle_gives [1; 1; 1; 2; 2; 2; 2; 2] [1; 1; 1] 5 2 8 [1; 1; 1; 2; 2; 2; 2; 1].
Proof. repeat split. Qed.
Example rle_mixed_sequences_with_and_without_length_2 : rle_gives [1; 1; 1; 1; 2; 2; 2] [1; 1; 1; 1; 0] 3 2 8 [1; 1; 1; 1; 0; 2; 2; 2].
Proof. repeat split. Qed.
Example rle_even_longer_sequences : rle_gives [1; 1; 1; 1; 1; 1; 2; 2; 2; 2; 2; 2; 3; 3; 3] [1; 1; 1; 1; 2; 2; 2; 2; 2; 2] 3 3 13
  [1; 1; 1; 1; 2; 2; 2; 2; 2; 2; 3; 3; 3].
Proof. repeat split. Qed.
Example rle_max_block_length : rle_gives (repeat 3 255) [] 255 3 5 [3; 3; 3; 3; 251].
Proof. repeat split. Qed.
Example rle_more_than_max_block_length : rle_gives (repeat 3 256) [3; 3; 3; 3; 251] 1 3 6 [3; 3; 3; 3; 251; 3].
Proof. repeat split. Qed.
Example rle_twice_max_block_length : rle_gives (repeat 3 510) [3; 3; 3; 3; 251] 255 3 10 [3; 3; 3; 3; 251; 3; 3; 3; 3; 251].
Proof. repeat split. Qed.
Example rle_inverse_rle_works : inverse_rle [1; 1; 1; 1; 2; 2; 2; 2; 2; 2; 3; 3; 3] = [1; 1; 1; 1; 1; 1; 2; 2; 2; 2; 2; 2; 3; 3; 3].
Proof. reflexivity. Qed.
Example rle_inverse_mixed_sequences_with_and_without_length_2 : inverse_rle [1; 1; 1; 1; 0; 2; 2; 2] = [1; 1; 1; 1; 2; 2; 2].
Proof. reflexivity. Qed.

(** ** bitwise/bitwriter.rs:165-306; [convert_to_code] is a helper of the tests
    (bitwriter.rs:148-163): the digits without leading zeros *)
Definition convert_to_code (v : N) : list bool := rev (low_bits v).
Example bitwriter_converts_correctly : forall p, convert_to_number p (convert_to_code 1) = Ok 1%N.
Proof. intros []; reflexivity. Qed.
Example bitwriter_converts_correctly_2 : forall p, convert_to_number p (convert_to_code 3) = Ok 3%N.
Proof. intros []; reflexivity. Qed.
Example bitwriter_converts_correctly_more_than_one_byte :
  (forall p, convert_to_number p (convert_to_code 256) = Ok 256%N) /\ convert_to_code 256 = I :: zeros 8.
Proof. split; [intros []; reflexivity|reflexivity]. Qed.
Example bitwriter_increments_more_than_one_byte : forall p, increment_symbol p (convert_to_code 255) = Ok (I :: zeros 8).
Proof. intros []; reflexivity. Qed.
Example bitwriter_converts_correctly_3 : forall p, exists v, convert_to_number p [I; O] = Ok v /\ convert_to_code v = [I; O].
Proof. intros []; eexists; split; reflexivity. Qed.
Example bitwriter_sanity_check : convert_to_code_pad_to_byte 3 = [O; O; O; O; O; O; I; I].
Proof. reflexivity. Qed.
Example bitwriter_increments_padded : forall p, increment_symbol p [O; O] = Ok [O; I].
Proof. intros []; reflexivity. Qed.
Example bitwriter_sanity_check_2 : forall p, convert_to_number p [I; I; O] = Ok 6%N.
Proof. intros []; reflexivity. Qed.
Definition written (bits : list bool) (buf : list nat) : Prop :=
  exists bw bw', write_bits (bw_from_writer (mk_writer [] [])) bits = (Ok tt, bw) /\ bw_finalize bw = (Ok tt, bw') /\ w_out (bw_sink bw') = buf.
Example bitwriter_writes_bits : written [I] [128].
Proof. do 2 eexists. split; [reflexivity|]. split; reflexivity. Qed.
Example bitwriter_writes_bits_2 : exists bw, write_bits (bw_from_writer (mk_writer [] [])) (repeat I 8) = (Ok tt, bw) /\ w_out (bw_sink bw) = [255].
Proof. eexists. split; reflexivity. Qed.
Example bitwriter_padding : written (repeat I 9) [255; 128].
Proof. do 2 eexists. split; [reflexivity|]. split; reflexivity. Qed.

(** ** bitwise/bitreader.rs:114-226 *)
Example bitreader_reads_0 : value (read_bits (br_from_reader [0; 1; 2; 3]) 8) = Ok (zeros 8).
Proof. reflexivity. Qed.
Example bitreader_reads_8 : value (read_bits (br_from_reader [8; 1; 2; 3]) 8) = Ok [O; O; O; O; I; O; O; O].
Proof. reflexivity. Qed.
Example bitreader_reads_two_times_8 : value (let! (_, r) := read_bits (br_from_reader [8; 8; 2; 3]) 8 in read_bits r 8) = Ok [O; O; O; O; I; O; O; O].
Proof. reflexivity. Qed.
Example bitreader_reads_9_bits : exists r, read_bits (br_from_reader [0; 255; 2; 3]) 9 = Ok (zeros 8 ++ [I], r) /\ value (read_bits r 1) = Ok [I].
Proof. eexists. split; reflexivity. Qed.
Example bitreader_reads_bytes_then_bits : exists r1 r2, value (read_bits (br_from_reader [42; 42; 2; 3]) 8) = Ok [O; O; I; O; I; O; I; O] /\
  (let! (_, r) := read_bits (br_from_reader [42; 42; 2; 3]) 8 in Ok r) = Ok r1 /\
  read_bytes r1 1 = Ok ([42], r2) /\ value (read_bits r2 8) = Ok [O; O; O; O; O; O; I; O].
Proof. do 2 eexists. split; [reflexivity|]. split; [reflexivity|]. split; reflexivity. Qed.

(** ** stream/mod.rs:234-268 *)
Example stream_accepts_correct_header : exists r, read_file_header (br_from_reader (b "BZh9")) = Ok r.
Proof. eexists. vm_compute. reflexivity. Qed.
Example stream_detects_block_header : value (what_next (br_from_reader [49; 65; 89; 38; 83; 89])) = Ok BlockHeader.
Proof. vm_compute. reflexivity. Qed.
Example stream_detects_stream_footer : value (what_next (br_from_reader [23; 114; 69; 56; 80; 144])) = Ok StreamFooter.
Proof. vm_compute. reflexivity. Qed.
Example stream_detects_error : value (what_next (br_from_reader [0; 1; 2; 3; 4; 5])) = Err.
Proof. vm_compute. reflexivity. Qed.

{
 "claims": [
  {
   "property": "C01",
   "status": "partial",
   "theorems": [
    "C01_round_trip_exact_partial",
    "C01_round_trip_one_block_partial",
    "C01_round_trip_partial",
    "C01_round_trip_rotation_refuted",
    "C01_round_trip_run_refuted",
    "C01_round_trip_unique_end_partial",
    "C01_short_runs_exact",
    "C01_short_runs_one_block_exact",
    "C01_unique_end_exact_partial"
   ],
   "note": "The claim is false of the code. Refuted by two inputs ('baaa': suffix order is not rotation order; aaaa 000 x: run detection after a count byte). Proved for every input whose pieces are piece_safe, for inputs up to 720000 bytes in one block, and for a condition visible in the data. For one-block inputs whose block sort is right and without 255 bytes 251 in a row the condition is exact: C01_round_trip_exact_partial says they come back if and only if they are run_exact (likewise C01_unique_end_exact_partial, with a condition on the last byte only). For inputs of any length without four equal bytes in a row C01_short_runs_exact needs no other condition: they come back if and only if all their pieces are reversible (SpecBwt); up to 720000 bytes there is one piece, the input (C01_short_runs_one_block_exact)."
  },
  {
   "property": "C02",
   "status": "partial",
   "theorems": [
    "C02_degenerate_gap_free",
    "C02_degenerate_tables",
    "C02_few_groups",
    "C02_few_groups_gap_refuted",
    "C02_own_tables",
    "C02_round_trip_exact_partial",
    "C02_round_trip_partial",
    "C02_round_trip_refuted",
    "C02_short_exact_partial",
    "C02_short_inputs_exact",
    "C02_short_runs_exact_partial",
    "C02_short_safe",
    "C02_whole_groups_refuted"
   ],
   "note": "False of the code (refuted by 49 distinct bytes with 2 tables: the decoder panics; and for every input whose last block, end of block included, fills whole groups of 50 symbols: C02_whole_groups_refuted). Proved for 1..7 tables when every piece is piece_safe and tables_safe; with one table or no iterations only the group condition is needed. For inputs of one block, exactly: C02_round_trip_exact_partial. With at most as many groups as tables the choice is determined (C02_few_groups): two or more groups with different counts and more tables than groups always leave a gap (C02_few_groups_gap_refuted, e.g. 60 different bytes with 6 tables: the decoder reports an error); as many groups as tables are safe (C02_own_tables); at most 38 bytes are safe for any options, and come back exactly when run_exact (C02_short_exact_partial). Without four equal bytes in a row: restored if and only if all pieces are reversible (C02_short_runs_exact_partial, for tables_safe pieces; C02_short_inputs_exact without that condition for at most 38 bytes)."
  },
  {
   "property": "C03",
   "status": "partial",
   "theorems": [
    "C03_one_block_partial",
    "C03_short_runs_exact",
    "C03_valid_stream_partial",
    "C03_valid_stream_refuted"
   ],
   "note": "False of the code ('baaa'; see also C30 for oversized blocks). Proved against an independent bzip2 decompressor when the block sort of every piece is reversible and pieces fit 900000 bytes. For inputs of any length without four equal bytes in a row the condition is exact (C03_short_runs_exact): read back if and only if all pieces are reversible and have at most 900000 bytes."
  },
  {
   "property": "C04",
   "status": "proved",
   "theorems": [
    "C04_suffix_sort"
   ],
   "note": "SA-IS model, any byte string, including the recursion and termination."
  },
  {
   "property": "C05",
   "status": "partial",
   "theorems": [
    "C05_minimal_rotation_refuted",
    "C05_smallest_suffix_partial"
   ],
   "note": "The documented claim is false (refuted by 'bananaa'). Proved: the start of the smallest suffix is returned, and it is the minimal rotation when that suffix occurs once."
  },
  {
   "property": "C06",
   "status": "partial",
   "theorems": [
    "C06_block_sort_invertible_partial",
    "C06_block_sort_invertible_refuted",
    "C06_exact_partial",
    "C06_minimal_rotation_partial",
    "C06_restored_exact",
    "C06_rotation_safe_reversible_partial",
    "C06_unique_last_byte_partial"
   ],
   "note": "False of the code: 'baaa' is not restored (C06_block_sort_invertible_refuted). Which blocks are restored is settled: C06_restored_exact, exactly the reversible ones (a condition on the letters of the block, SpecBwt). Which are transformed as the format says is settled too: exactly the rotation_safe ones (C06_exact_partial), and these are reversible, but not only these (C06_reversible_case)."
  },
  {
   "property": "C07",
   "status": "proved",
   "theorems": [
    "C07_run_length_lossless"
   ],
   "note": "All byte sequences, all splits."
  },
  {
   "property": "C08",
   "status": "partial",
   "theorems": [
    "C08_expand_any_partial",
    "C08_expand_exact_partial",
    "C08_expand_partial",
    "C08_expand_refuted"
   ],
   "note": "False (aaaa, count 0, then zero bytes). Proved for the coded form of every run_safe sequence, and for any run-length coded data in which no count byte is followed by three more bytes of its own value and a further byte (plain_counts). C08_expand_exact_partial: for coded data without 255 bytes 251 in a row the exact condition, as an equivalence (run_exact: a run of n >= 4 bytes followed by m bytes of value n-4 needs m <= 2, m = n, or m = 3 at the end)."
  },
  {
   "property": "C09",
   "status": "proved",
   "theorems": [
    "C09_move_to_front"
   ],
   "note": ""
  },
  {
   "property": "C10",
   "status": "proved",
   "theorems": [
    "C10_zero_runs"
   ],
   "note": ""
  },
  {
   "property": "C11",
   "status": "proved",
   "theorems": [
    "C11_code_lengths"
   ],
   "note": ""
  },
  {
   "property": "C12",
   "status": "proved",
   "theorems": [
    "C12_coded_symbols"
   ],
   "note": ""
  },
  {
   "property": "C13",
   "status": "proved",
   "theorems": [
    "C13_length_tables"
   ],
   "note": ""
  },
  {
   "property": "C14",
   "status": "proved",
   "theorems": [
    "C14_symbol_map"
   ],
   "note": ""
  },
  {
   "property": "C15",
   "status": "partial",
   "theorems": [
    "C15_selectors_partial",
    "C15_selectors_read",
    "C15_selectors_refuted"
   ],
   "note": "False when the selected tables leave a gap. Proved exactly: the decoder reads every selector as its rank among those that occur (C15_selectors_read), hence the list comes back if and only if the selected tables are 0..m-1."
  },
  {
   "property": "C16",
   "status": "proved",
   "theorems": [
    "C16_checksum"
   ],
   "note": ""
  },
  {
   "property": "C17",
   "status": "proved",
   "theorems": [
    "C17_bursts",
    "C17_four_bytes"
   ],
   "note": ""
  },
  {
   "property": "C18",
   "status": "proved",
   "theorems": [
    "C18_bit_packing"
   ],
   "note": ""
  },
  {
   "property": "C19",
   "status": "proved",
   "theorems": [
    "C19_thread_count_independent"
   ],
   "note": "Every strategy, every sink script, both profiles; the thread interleavings are C20."
  },
  {
   "property": "C20",
   "status": "proved",
   "theorems": [
    "C20_every_interleaving",
    "C20_no_deadlock",
    "C20_schedule_independent",
    "C20_terminates"
   ],
   "note": "All interleavings of the main thread and n workers over two FIFO channels per worker; any reader and sink, also failing ones."
  },
  {
   "property": "C21",
   "status": "partial",
   "theorems": [
    "C21_command_line_refuted",
    "C21_terminates_partial",
    "C21_zero_threads_refuted"
   ],
   "note": "False of the code for num_threads = 0: runs forever on every input (proved). Proved: terminates for every thread count >= 1 and any reader that reaches end of file, also with intermittent errors. On the command line --threads 0 hangs likewise."
  },
  {
   "property": "C22",
   "status": "proved",
   "theorems": [
    "C22_read_size_independent"
   ],
   "note": "Every strategy, every sink script."
  },
  {
   "property": "C23",
   "status": "partial",
   "theorems": [
    "C23_example_refuted",
    "C23_lost_bytes_refuted",
    "C23_no_normal_return_partial",
    "C23_retries_forever_refuted",
    "C23_runs_forever"
   ],
   "note": "False of the code: bytes read before a failing read are dropped and compression goes on; a persistent error is retried forever. Proved: a reader that never signals end of file never leads to a normal return; with at least one table and a sink that takes everything it runs forever then (C23_runs_forever)."
  },
  {
   "property": "C24",
   "status": "partial",
   "theorems": [
    "C24_failure_panics",
    "C24_short_write_refuted",
    "C24_write_errors_partial"
   ],
   "note": "False of the code: a write answering Ok(0) goes unnoticed. Proved: a normal return means no write failed, and unless some write accepted nothing the sink got everything."
  },
  {
   "property": "C25",
   "status": "partial",
   "theorems": [
    "C25_output_complete_partial",
    "C25_output_complete_refuted",
    "C25_what_the_sink_gets"
   ],
   "note": "False of the code: a short write is not noticed. Proved: what any sink receives, and completeness for sinks that never write short (but may fail)."
  },
  {
   "property": "C26",
   "status": "proved",
   "theorems": [
    "C26_one_checksum_only",
    "C26_only_checked_data",
    "C26_only_checked_data_accepting_sink"
   ],
   "note": "Every input, every sink."
  },
  {
   "property": "C27",
   "status": "partial",
   "theorems": [
    "C27_rest_ignored",
    "C27_stream_checksum_refuted"
   ],
   "note": "False of the code: the footer checksum is never looked at. Proved in general: nothing after the footer magic has any influence."
  },
  {
   "property": "C28",
   "status": "partial",
   "theorems": [
    "C28_concatenation_dropped",
    "C28_concatenation_refuted"
   ],
   "note": "False of the code: everything after the first accepted stream is dropped, proved for all inputs."
  },
  {
   "property": "C29",
   "status": "partial",
   "theorems": [
    "C29_terminates_partial",
    "C29_total_refuted"
   ],
   "note": "False of the code: malformed or truncated blocks panic. Proved: it always terminates."
  },
  {
   "property": "C30",
   "status": "partial",
   "theorems": [
    "C30_block_size_partial",
    "C30_block_size_refuted",
    "C30_largest_block_reached"
   ],
   "note": "False of the code: a 720003 byte input becomes a block of 900003 run-length coded bytes, refused by a level 9 decompressor (refuted). Proved: no block exceeds 900005 bytes, for every strategy, and this bound is reached (C30_largest_block_reached)."
  },
  {
   "property": "C31",
   "status": "proved",
   "theorems": [
    "C31_any_reader",
    "C31_never_panics"
   ],
   "note": "C31_any_reader: the same for readers with any answers, failures included."
  },
  {
   "property": "C32",
   "status": "proved",
   "theorems": [
    "C32_empty_input"
   ],
   "note": "Every strategy."
  },
  {
   "property": "C33",
   "status": "proved",
   "theorems": [
    "C33_framing"
   ],
   "note": "Every strategy."
  },
  {
   "property": "C34",
   "status": "proved",
   "theorems": [
    "C34_blocks_partition_input"
   ],
   "note": "Every strategy."
  },
  {
   "property": "C35",
   "status": "proved",
   "theorems": [
    "C35_never_overwrites"
   ],
   "note": "Every command, directory, disk behaviour and outcome. The race with other processes is C46."
  },
  {
   "property": "C36",
   "status": "proved",
   "theorems": [
    "C36_decompress_name",
    "C36_names",
    "C36_no_extension",
    "C36_no_name",
    "C36_outputs_differ",
    "C36_same_directory",
    "C36_trailing"
   ],
   "note": "Every path: whose last component is a name (the directory part, with or without dots in it, is kept), and those without a file name, which are their own output (C36_no_name). Path::file_name and set_extension are modelled for whole Unix paths; two spellings of one file are taken for two files."
  },
  {
   "property": "C37",
   "status": "partial",
   "theorems": [
    "C37_compress",
    "C37_compress_many",
    "C37_compress_status",
    "C37_decompress",
    "C37_decompress_status",
    "C37_in_order",
    "C37_round_trip_many_partial",
    "C37_round_trip_partial",
    "C37_round_trip_refuted"
   ],
   "note": "False of the code for contents that the library does not restore (baaa). Proved for piece_safe contents up to 720000 bytes; many files in one command (C37_compress_many, C37_round_trip_many_partial), single commands and the order of processing are proved without that restriction."
  },
  {
   "property": "C38",
   "status": "partial",
   "theorems": [
    "C38_announced_partial",
    "C38_table_count_partial",
    "C38_table_count_refuted"
   ],
   "note": "False for 1, 7 and more tables. Proved for every count: a block announces k below 8 (2 for Single), and above that the number made by the three highest binary digits of k, which is between 4 and 7 and never k (the field is then longer than three bits)."
  },
  {
   "property": "C39",
   "status": "proved",
   "theorems": [
    "C39_profiles_agree"
   ],
   "note": "Every strategy, every sink script."
  },
  {
   "property": "C40",
   "status": "proved",
   "theorems": [
    "C40_optimal"
   ],
   "note": ""
  },
  {
   "property": "C41",
   "status": "proved",
   "theorems": [
    "C41_one_selector_per_group",
    "C41_selector_count"
   ],
   "note": "Integer proof of the single precision computation for n < 2^24."
  },
  {
   "property": "C42",
   "status": "partial",
   "theorems": [
    "C42_same_output_partial",
    "C42_truncation_partial",
    "C42_truncation_refuted"
   ],
   "note": "False of the code (footer checksum may be missing). Proved: an accepted truncation yields the same output, and of a stream made by this crate at most four bytes can be missing."
  },
  {
   "property": "C43",
   "status": "partial",
   "theorems": [
    "C43_level_refuted",
    "C43_signature_checked_partial"
   ],
   "note": "False of the code: the fourth byte has no influence (proved for all inputs). Proved: a wrong signature is rejected with nothing written."
  },
  {
   "property": "C44",
   "status": "partial",
   "theorems": [
    "C44_enough_space",
    "C44_full_disk",
    "C44_status_zero_refuted"
   ],
   "note": "False of the code: the BufWriter is dropped without a flush, so its last up to 8192 bytes may be lost with exit status 0. Proved: the exact outcome for every amount of free space, and completeness when there is enough."
  },
  {
   "property": "C45",
   "status": "partial",
   "theorems": [
    "C45_error_leaves_nothing",
    "C45_partial_output_refuted"
   ],
   "note": "False of the code for panics (the output file stays, proved in general). Proved: exit status 1 leaves the directory unchanged."
  },
  {
   "property": "C46",
   "status": "partial",
   "theorems": [
    "C46_alone",
    "C46_race_refuted",
    "C46_without_race"
   ],
   "note": "False of the code (exists + create is not atomic). Proved: only the output name can be affected, and only if it appeared in between."
  },
  {
   "property": "C47",
   "status": "partial",
   "theorems": [
    "C47_builds_agree_partial",
    "C47_builds_differ_refuted"
   ],
   "note": "False of the code: a code length that steps below zero and back panics in the debug build and is accepted by the release build. Proved: whenever the debug build does not panic both do the same; otherwise the debug output is a prefix of the release output."
  },
  {
   "property": "C48",
   "status": "partial",
   "theorems": [
    "C48_decodes_partial",
    "C48_decodes_runs_refuted",
    "C48_decodes_selectors_refuted",
    "C48_never_silent_partial"
   ],
   "note": "False of the code (run after count byte; spare selectors). Proved for every valid file whose blocks have no spare selectors and plain counts; and, spare selectors aside, decode_stream never panics on a valid file and writes only blocks with the right checksum."
  },
  {
   "property": "C49",
   "status": "partial",
   "theorems": [
    "C49_below_limit",
    "C49_block_limit_refuted"
   ],
   "note": "False of the code: for every m from 16 to 60 a file of at most 60 bytes with header BZh1 (limit 100000) expands in one block to 2^(m+1) bytes; the reference decoder rejects it for its size only (C49_below_limit)."
  },
  {
   "property": "C50",
   "status": "proved",
   "theorems": [
    "C50_prefix",
    "C50_truncated"
   ],
   "note": "Proved for every input, continuation, sink and build."
  },
  {
   "property": "C51",
   "status": "proved",
   "theorems": [
    "C51_after_failure",
    "C51_any_reader"
   ],
   "note": "C51_any_reader reduces every reader to the plain byte list of what it delivers before its first failure; C51_after_failure states that later answers are not used."
  },
  {
   "property": "C52",
   "status": "partial",
   "theorems": [
    "C52_left_at_checksum",
    "C52_position_refuted"
   ],
   "note": "Refuted for every valid stream (not only by a witness): C52_position_refuted - the last four bytes are left unread, because the stream checksum is never read. C52_left_at_checksum says for every successful run, of any reader, exactly where it stops: in the byte that holds the last bit of the footer's magic number."
  },
  {
   "property": "C53",
   "status": "partial",
   "theorems": [
    "C53_kmeans_partial",
    "C53_one_block_partial",
    "C53_outcome_partial",
    "C53_silent_refuted"
   ],
   "note": "Refuted: C53_silent_refuted gives 265 bytes that come back as 265 other bytes with status Ok (the stream is right; Python's bz2 and the reference decoder restore the input). What holds for every input: C53_outcome_partial (no panic, no endless loop; every piece comes back as itself, or as data with the same CRC-32, or as an error) and its one-block form; C53_kmeans_partial for the k-means strategy under tables_safe (without it decoding panics: C02_round_trip_refuted)."
  },
  {
   "property": "C54",
   "status": "partial",
   "theorems": [
    "C54_end_of_file_refuted",
    "C54_thread_dependent_refuted"
   ],
   "note": "False: read_to_end's end-of-file report only ends one request, the main thread asks again for the rest of the block and for every further worker in the round (C54_end_of_file_refuted); how often it asks depends on the number of threads, so one reader gives different data with 1 and with 2 or more threads (C54_thread_dependent_refuted). For readers that stay at end of file see C20, C22."
  },
  {
   "property": "C55",
   "status": "proved",
   "theorems": [
    "C55_in_flight",
    "C55_nothing_left"
   ],
   "note": "Proved as an invariant of the transition system: C55_in_flight (every reachable state), C55_nothing_left (after a normal return)."
  },
  {
   "property": "C56",
   "status": "proved",
   "theorems": [
    "C56_can_finish",
    "C56_threads_end"
   ],
   "note": "C56_threads_end: a state in which nothing can move is one where the call has returned and all workers have ended. C56_can_finish: every state reaches such a state (with C20_terminates: every interleaving does, if the reader comes to an end and there is at least one thread)."
  },
  {
   "property": "C57",
   "status": "partial",
   "theorems": [
    "C57_best_code_partial",
    "C57_best_code_refuted"
   ],
   "note": "Refuted: symbols of equal frequency are told apart by adding 0,1,2,... to the sorted frequencies, so eight symbols occurring once each cost 27 bits instead of 24 (the end of block is moreover counted as a RunA). Proved: the excess over the best code is at most 8(u+1)(u+2)+32 bits for an alphabet of u byte values, whatever the length of the block."
  },
  {
   "property": "C58",
   "status": "proved",
   "theorems": [
    "C58_expansion"
   ],
   "note": "From the lengths of every field of a block, the bound on the cost of the chosen code and the fact that only the last block may be shorter than 900000 coded bytes. The constant per block comes from tie breaking, which spends up to 33000 units on an alphabet of 258 symbols."
  },
  {
   "property": "C59",
   "status": "proved",
   "theorems": [
    "C59_kmeans_runs"
   ],
   "note": "Normal termination only: with 8 or more tables the 3-bit table count overflows and the stream is not readable (C02, C38). Memory is taken to be unlimited."
  },
  {
   "property": "C60",
   "status": "proved",
   "theorems": [
    "C60_block_sort_linear",
    "C60_rotation_linear",
    "C60_suffix_array_linear"
   ],
   "note": "Counted programs (BwtCost.v) are proved to give the same results as the model and to stay within the bound; steps are reads and writes of vector entries, loop turns and entries created or copied."
  },
  {
   "property": "C61",
   "status": "partial",
   "theorems": [
    "C61_all_busy",
    "C61_no_idle_worker_refuted",
    "C61_parallel"
   ],
   "note": "First half proved: C61_parallel gives an interleaving with min(n, blocks) workers encoding at once, C61_all_busy all n workers for inputs of 230 MB per thread. Second half refuted: rounds are a barrier, so with two or more threads and enough input there is a moment where the main thread is blocked on one worker while another holds nothing and input is left (C61_no_idle_worker_refuted)."
  },
  {
   "property": "C62",
   "status": "partial",
   "theorems": [
    "C62_documented_name_refuted",
    "C62_in_place_refuted"
   ],
   "note": "Refuted: for every file name and every valid stream the output goes to file, and file.out is neither created nor changed (C62_documented_name_refuted); run next to the original, which compress keeps, decompress ends with an error and changes nothing (C62_in_place_refuted)."
  },
  {
   "property": "C63",
   "status": "partial",
   "theorems": [
    "C63_block_sort",
    "C63_kmeans_gap_free_partial",
    "C63_kmeans_partial",
    "C63_lossless",
    "C63_one_table",
    "C63_short"
   ],
   "note": "Proved for the Single strategy for every pair of inputs, and for the block sort alone (combinatorics of Lyndon words: InjectFacts). K-means with one table: every pair of inputs (C63_one_table), also those that do not come back. K-means with more tables: whenever the tables chosen have no gap (C63_kmeans_gap_free_partial); no condition on groups is left. Inputs of at most 38 bytes: no condition (C63_short)."
  },
  {
   "property": "C64",
   "status": "proved",
   "theorems": [
    "C64_kmeans_lloyd",
    "C64_single_counts",
    "C64_weights"
   ],
   "note": "Proved; the f32 operations are related to real arithmetic through Flocq (error bound 1/200000 per group in each mean). Uses the standard library's axioms of real numbers. The end of the block is counted as one more RUNA."
  },
  {
   "property": "C65",
   "status": "proved",
   "theorems": [
    "C65_block_linear",
    "C65_compression_linear"
   ],
   "note": "EncodeCost mirrors every function of the compressor with its steps counted; the theorem includes that the counted program returns what encode_stream returns. Sorting is charged 4n^2 (only lists of at most 600 entries are sorted), allocation and arithmetic are not counted separately."
  },
  {
   "property": "C66",
   "status": "proved",
   "theorems": [
    "C66_outcome",
    "C66_outcome_unique",
    "C66_truncation"
   ],
   "note": "Exact classification (found missing when an automatic mutant that panics on an unknown marker survived). Refines C29: the panics are exactly the blocks that are cut inside or cannot be read."
  },
  {
   "property": "C67",
   "status": "proved",
   "theorems": [
    "C67_any_input",
    "C67_block_time",
    "C67_decompression_time"
   ],
   "note": "DecodeCost mirrors every function of the decompressor with its steps counted; the theorems include that the counted program returns what the model returns. The stable sort of the inverse BWT is charged 4 n (log2 n + 1), the bound documented by std; allocation and arithmetic are not counted separately. The sink accepts everything (a failing sink only stops earlier)."
  },
  {
   "property": "C68",
   "status": "proved",
   "theorems": [
    "C68_lengths_debug",
    "C68_lengths_release",
    "C68_no_selectors",
    "C68_selectors_debug",
    "C68_selectors_release"
   ],
   "note": "When the bits run out a debug build returns Err or panics (if the running value left the range before); the caller unwraps both, so the user sees a panic either way (C66)."
  },
  {
   "property": "C69",
   "status": "proved",
   "theorems": [
    "C69_kept",
    "C69_killed",
    "C69_prefix",
    "C69_progress"
   ],
   "note": "The lower bound and the decompression parts are for the default strategy and pieces this crate's decoder can restore (piece_safe, see C01); the prefix and progress parts are for every strategy. What a buffering sink or the operating system loses of the bytes handed over is covered as 'any prefix'; other losses (holes, reordered pages) are not."
  },
  {
   "property": "C70",
   "status": "proved",
   "theorems": [
    "C70_any_moment",
    "C70_can_finish",
    "C70_ends",
    "C70_goes_on",
    "C70_history",
    "C70_nothing_lost",
    "C70_result",
    "C70_whole_buffers"
   ],
   "note": "nothing_lost for any thread count; any_moment and result for at least one thread. Ideal disk, no other processes; file contents are bytes. A kill within a write leaves something between the directories of two such moments, and the part is then a prefix as well. C70_whole_buffers: what a kill during compression leaves has a length that is a multiple of 8192 (the BufWriter's buffers)."
  },
  {
   "property": "C71",
   "status": "partial",
   "theorems": [
    "C71_rerun_refuted",
    "C71_resume"
   ],
   "note": "Refuted: as soon as the first output has been created, complete or not, running the same command again reports an error and changes nothing. Proved instead (C71_resume): removing the incomplete output, if there is one, and running the command for the arguments that are not complete gives the status and the files of the undisturbed run."
  },
  {
   "property": "C72",
   "status": "partial",
   "theorems": [
    "C72_any_strategies_refuted",
    "C72_ends",
    "C72_goes_on",
    "C72_right_stream"
   ],
   "note": "right_stream, with one strategy for all processes: proved for every interleaving, with termination (ends) and progress (goes_on). Refuted for different strategies: the file may then be the output of none of the processes although all report success. Ideal disk; a write is one step; at least one thread each."
  },
  {
   "property": "C73",
   "status": "proved",
   "theorems": [
    "C73_as_if_alone",
    "C73_can_finish",
    "C73_ends",
    "C73_goes_on",
    "C73_independence_needed"
   ],
   "note": "as_if_alone, goes_on, ends and can_finish for every interleaving; independence_needed shows the hypothesis is necessary. A file is read in one step when it is opened, an output is created in one step (C72 has the two-step creation), the disk is ideal, at least one thread each."
  },
  {
   "property": "C74",
   "status": "proved",
   "theorems": [
    "C74_ends",
    "C74_goes_on",
    "C74_one_program",
    "C74_right_output"
   ],
   "note": "right_output for all interleavings of processes that alone would do the same with the file (always so for one program, one_program; debug and release builds by C47 unless the debug build panics); goes_on and ends as for C72. Ideal disk; the write of a block is one step; the input does not change."
  },
  {
   "property": "C75",
   "status": "proved",
   "theorems": [
    "C75_always_ends",
    "C75_compress_status",
    "C75_decompress_status"
   ],
   "note": "One file: C75_decompress_status and C75_compress_status as exact equivalences; any number of files: C75_always_ends (with C37_in_order the status is that of the first failing file). On the disk of C37 that answers no write with an error."
  },
  {
   "property": "C76",
   "status": "partial",
   "theorems": [
    "C76_compress_ends",
    "C76_compress_hangs_refuted",
    "C76_decompress_nothing",
    "C76_decompress_status",
    "C76_keeps",
    "C76_no_name",
    "C76_plain_files"
   ],
   "note": "False of the code: compress of a directory, or of a file whose reads fail for good before the end of file, never ends, for every thread count and every option but 0 tables (C76_compress_hangs_refuted). Proved: decompress always ends, with the status as an exact equivalence in terms of the bytes that arrive (C76_decompress_status); compress ends if the reads reach an end of file and there is a thread (C76_compress_ends); on plain files this model is the one of the other command line properties (C76_plain_files). A path without a file name is refused (C76_no_name); what was there stays (C76_keeps)."
  },
  {
   "property": "C77",
   "status": "partial",
   "theorems": [
    "C77_no_iterations",
    "C77_own_decoder_refuted",
    "C77_short",
    "C77_valid_stream_partial",
    "C77_valid_stream_refuted"
   ],
   "note": "False in general: with 6 tables, 60 different bytes give a stream the reference decoder rejects (C77_valid_stream_refuted). Proved when for every piece the tables are chosen without a gap, suffix order is rotation order and the block fits (C77_valid_stream_partial), in particular without iterations (C77_no_iterations) or for at most 38 bytes (C77_short). Unlike C02 the end of block may complete a group: there the reference decoder restores the input and the crate's own decoder always fails (C77_own_decoder_refuted). Missing: which inputs beyond C02_few_groups leave a gap, and what the reference decoder answers there."
  }
 ]
}
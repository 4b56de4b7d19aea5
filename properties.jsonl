{"id": "C01", "title": "Round trip, default strategy", "statement": "Compressing any byte sequence with encode_stream (EncodingStrategy::Single, at least one thread) and feeding the result to decode_stream returns Ok and writes exactly the original bytes.", "quantifier": "every finite byte sequence, every thread count >= 1, both build profiles", "why_tests_cant": "Unit tests sample a few strings; the property depends on every byte pattern (periodic blocks, run/count collisions) and on all lengths.", "anchors": ["lib/src/stream/mod.rs:encode_stream", "lib/src/stream/mod.rs:decode_stream", "lib/src/block/block_encoder.rs:generate_block_data", "lib/src/block/block_decoder.rs:decode_block"]}
{"id": "C02", "title": "Round trip, k-means strategy", "statement": "Compressing any byte sequence with EncodingStrategy::BlockWise and any supported table count and iteration count, then decompressing with decode_stream, gives back the original bytes.", "quantifier": "every finite byte sequence, num_clusters, num_iterations, thread count >= 1", "why_tests_cant": "Whether clusters stay empty and whether the symbol count is a multiple of 50 depends on the data; tests hit only a few combinations.", "anchors": ["lib/src/block/symbol_statistics/mod.rs:BlockWisePropabilityMap", "lib/src/block/symbol_statistics/kmeansclustering.rs", "lib/src/block/selectors.rs"]}
{"id": "C03", "title": "Output is a valid bzip2 stream", "statement": "An independent decoder written from the bzip2 format (not sharing code with this crate) decodes everything encode_stream emits to the original bytes.", "quantifier": "every finite byte sequence, thread count >= 1, Single strategy", "why_tests_cant": "Interoperability must hold for every input; a test compares against one reference decoder on a handful of files.", "anchors": ["lib/src/stream/mod.rs:encode_stream", "lib/src/block/block_encoder.rs:generate_block_data"]}
{"id": "C04", "title": "Suffix sorting is correct", "statement": "The block sorter orders all suffixes of the (rotated) block lexicographically, each exactly once, without panicking, for any block.", "quantifier": "every byte string of every length", "why_tests_cant": "SA-IS is a recursive algorithm with many cases; tests cover a few strings.", "anchors": ["lib/src/block/bwt/sais.rs:build_suffix_array"]}
{"id": "C05", "title": "Pre-rotation picks the minimal rotation", "statement": "The rotation applied before suffix sorting is documented as the lexicographically minimal rotation of the block; suffix order then equals rotation order, as the bzip2 format requires.", "quantifier": "every non-empty byte string", "why_tests_cant": "Depends on the Lyndon structure of the string, unbounded length.", "anchors": ["lib/src/block/bwt/duval.rs:duval", "lib/src/block/bwt/duval.rs:rotate_duval"]}
{"id": "C06", "title": "Block sorting is invertible", "statement": "For every non-empty block, the inverse block sort applied to the transformed column and origin pointer written for the block gives back the block.", "quantifier": "every non-empty byte string", "why_tests_cant": "All strings, including periodic ones; a handful of literals say nothing about the rest.", "anchors": ["lib/src/block/bwt/bwt_internal.rs:bwt", "lib/src/block/bwt/bwt_inverse.rs:inverse_bwt"]}
{"id": "C07", "title": "Initial run-length coding is lossless and chunk independent", "statement": "The run-length coded block written into the stream expands (by the format's rule: four equal bytes are followed by a repeat count) to exactly the bytes read for that block, whatever sizes the reads returned.", "quantifier": "every byte sequence and every way of splitting it into reads", "why_tests_cant": "Run state is carried across reads; the number of splits is exponential.", "anchors": ["lib/src/block/rle.rs:rle", "lib/src/block/rle.rs:rle_augment", "lib/src/stream/mod.rs:encode_stream"]}
{"id": "C08", "title": "Decoder expands runs as the format says", "statement": "For every run-length coded block, the decompressor expands it exactly like the bzip2 format: after four equal bytes one count byte follows, and the run detection restarts after the count.", "quantifier": "every byte sequence", "why_tests_cant": "Failure needs a count byte equal to the following data bytes; random tests rarely produce it.", "anchors": ["lib/src/block/rle.rs:inverse_rle"]}
{"id": "C09", "title": "Move-to-front round trip", "statement": "The move-to-front stage of the decoder, started from the sorted list of used symbols, recovers exactly the byte column the encoder transformed, and the encoder never panics on bytes.", "quantifier": "every byte sequence", "why_tests_cant": "Stateful dictionary over sequences of any length.", "anchors": ["lib/src/block/mtf.rs:mtf", "lib/src/block/mtf.rs:inverse_mtf"]}
{"id": "C10", "title": "Zero-run coding round trip", "statement": "The zero-run (RUNA/RUNB) stage is inverted exactly by the decoder for every sequence of move-to-front indices, including runs of any length up to the machine word.", "quantifier": "every sequence of move-to-front indices", "why_tests_cant": "Run lengths and positions are unbounded.", "anchors": ["lib/src/block/zle.rs:zle_transform", "lib/src/block/zle.rs:decode_zle"]}
{"id": "C11", "title": "Code lengths are always legal", "statement": "For any symbol frequencies of a block, the code lengths written are between 1 and 17 (below the format limit of 20), cover every symbol of the alphabet plus end-of-block, and satisfy the Kraft equality.", "quantifier": "every frequency table over 2..257 data symbols", "why_tests_cant": "Frequencies are arbitrary; degenerate distributions need long codes that tests do not reach.", "anchors": ["lib/src/block/huffman/huffman_internal.rs:compute_huffman", "lib/src/block/huffman/package_merge.rs:compute_lis"]}
{"id": "C12", "title": "Coded symbols decode uniquely", "statement": "The codes the encoder uses are prefix free, the decoder rebuilds the identical codes from the transmitted lengths, and reading the coded symbol stream returns exactly the coded symbols.", "quantifier": "every legal length table, every symbol sequence", "why_tests_cant": "Quantifies over all tables and all sequences.", "anchors": ["lib/src/block/huffman/huffman_internal.rs:canonicalize", "lib/src/block/huffman/huffman_internal.rs:from_weights", "lib/src/block/huffman/reader.rs:read_symbols"]}
{"id": "C13", "title": "Code-length tables round trip", "statement": "The delta coded table of code lengths written into a block is read back to the same lengths, consuming exactly the bits written.", "quantifier": "every non-empty list of lengths 0..31 (1..17 occur) and any bits that follow", "why_tests_cant": "All sequences of lengths.", "anchors": ["lib/src/block/delta.rs:encode_delta", "lib/src/block/code_table.rs:encode_code_table", "lib/src/block/code_table.rs:read_delta"]}
{"id": "C14", "title": "Symbol map round trip", "statement": "The used-symbol map written into a block is read back as exactly the sorted set of byte values that occur in the block, consuming exactly the bits written.", "quantifier": "every set of byte values", "why_tests_cant": "2^256 sets.", "anchors": ["lib/src/block/symbol_map.rs:get_symbol_table"]}
{"id": "C15", "title": "Selector list round trip", "statement": "The list of table selectors written into a block is read back by the decompressor as the same list, for any table count and any selection.", "quantifier": "every selector list over the tables of a block", "why_tests_cant": "Depends on which tables are actually used; tests use lists without gaps.", "anchors": ["lib/src/block/selectors.rs:create_selectors", "lib/src/block/selectors.rs:read_unary", "lib/src/block/block_decoder.rs:decode_block"]}
{"id": "C16", "title": "Block checksum is CRC-32/BZIP2", "statement": "The checksum stored with and verified for each block equals the bitwise CRC-32 (polynomial 0x04C11DB7, most significant bit first, initial value and final complement all ones).", "quantifier": "every byte sequence", "why_tests_cant": "All byte sequences; 256 table constants any of which may be wrong.", "anchors": ["lib/src/block/crc32.rs:crc32"]}
{"id": "C17", "title": "Checksum detects burst errors", "statement": "Two data blocks of equal length that differ only within a window of 32 consecutive bits (in particular in up to four adjacent bytes) never have the same checksum, so decode_stream never accepts one for the other.", "quantifier": "every byte sequence, every position, every burst pattern of at most 32 bits", "why_tests_cant": "Exponentially many error patterns.", "anchors": ["lib/src/block/crc32.rs:crc32", "lib/src/block/block_decoder.rs:decode_block"]}
{"id": "C18", "title": "Bit packing round trip", "statement": "Bits written through the bit writer in any number of calls arrive in the sink most significant bit first, followed by at most seven zero padding bits, and the bit reader returns them in order, independent of how the calls are split.", "quantifier": "every bit sequence, every split into write and read calls", "why_tests_cant": "All bit sequences and all splits.", "anchors": ["lib/src/bitwise/bitwriter.rs:BitWriterImpl", "lib/src/bitwise/bitreader.rs:BitReaderImpl"]}
{"id": "C19", "title": "Output does not depend on the thread count", "statement": "encode_stream produces byte-identical output for every number of threads >= 1.", "quantifier": "every input and all pairs of thread counts >= 1", "why_tests_cant": "All inputs, all thread counts.", "anchors": ["lib/src/stream/mod.rs:encode_stream"]}
{"id": "C20", "title": "Output does not depend on scheduling; no deadlock", "statement": "Whatever the interleaving of the main thread and the worker threads, encode_stream with at least one thread terminates, never deadlocks, and gives the same result and the same bytes, block order included.", "quantifier": "every interleaving, every input, every thread count >= 1", "why_tests_cant": "The scheduler picks one of astronomically many interleavings; a test sees one.", "anchors": ["lib/src/stream/mod.rs:WorkerThread", "lib/src/stream/mod.rs:encode_stream"]}
{"id": "C21", "title": "encode_stream terminates for every thread count", "statement": "encode_stream returns for every num_threads argument, on a reader that reaches end of file.", "quantifier": "every thread count including 0, every input", "why_tests_cant": "Non-termination cannot be observed by a finite test.", "anchors": ["lib/src/stream/mod.rs:encode_stream"]}
{"id": "C22", "title": "Output does not depend on read sizes", "statement": "encode_stream produces the same bytes however the reader splits its data into read results (short reads) and however many reads end with ErrorKind::Interrupted in between.", "quantifier": "every input, every split into read results, every finite number of interruptions anywhere", "why_tests_cant": "Exponentially many splits.", "anchors": ["lib/src/stream/mod.rs:encode_stream"]}
{"id": "C23", "title": "Read errors do not lose data silently", "statement": "If the reader reports an I/O error, encode_stream does not finish as if it had compressed the whole input.", "quantifier": "every input and every position of the error", "why_tests_cant": "Needs fault injection at every point.", "anchors": ["lib/src/stream/mod.rs:encode_stream"]}
{"id": "C24", "title": "Write errors while compressing are not lost", "statement": "If a write to the sink fails, or accepts fewer bytes than offered, encode_stream does not return normally with an incomplete stream.", "quantifier": "every input and every failure point of the sink", "why_tests_cant": "Needs fault injection at every write.", "anchors": ["lib/src/bitwise/bitwriter.rs:write_bits", "lib/src/stream/mod.rs:encode_stream"]}
{"id": "C25", "title": "Decompressed output is complete when Ok is returned", "statement": "If decode_stream returns Ok, the sink has received the full contents of every block, also when the sink performs short writes; if it fails, the sink holds a prefix made of complete checked blocks.", "quantifier": "every input stream, every sink behaviour", "why_tests_cant": "Depends on the sink; needs fault injection at every write.", "anchors": ["lib/src/block/block_decoder.rs:decode_block", "lib/src/stream/mod.rs:decode_stream"]}
{"id": "C26", "title": "Only checksum-verified data is written", "statement": "decode_stream never writes bytes of a block whose CRC-32 differs from the checksum stored in the stream for that block.", "quantifier": "every input byte sequence, well formed or not", "why_tests_cant": "All malformed inputs.", "anchors": ["lib/src/block/block_decoder.rs:decode_block"]}
{"id": "C27", "title": "The stream checksum is verified", "statement": "decode_stream returns an error when the combined checksum in the stream footer does not match the blocks.", "quantifier": "every stream", "why_tests_cant": "All corruptions of the footer, of block order and of dropped blocks.", "anchors": ["lib/src/stream/mod.rs:decode_stream"]}
{"id": "C28", "title": "Concatenated streams are decompressed", "statement": "decode_stream on the concatenation of two compressed streams (what bzip2 and pbzip2 produce and accept) yields the concatenation of the contents; at least it does not silently drop the second.", "quantifier": "every pair of streams", "why_tests_cant": "All streams.", "anchors": ["lib/src/stream/mod.rs:decode_stream"]}
{"id": "C29", "title": "Decoding is total", "statement": "On any input bytes decode_stream returns Ok or Err: it neither panics nor runs forever.", "quantifier": "every byte sequence", "why_tests_cant": "All byte sequences.", "anchors": ["lib/src/stream/mod.rs:decode_stream", "lib/src/block/block_decoder.rs:decode_block"]}
{"id": "C30", "title": "Blocks respect the announced block size", "statement": "Every block announced under the level 9 header holds at most 900000 bytes after run-length coding.", "quantifier": "every input and every split into reads", "why_tests_cant": "The excess appears only for particular run structures near the block end.", "anchors": ["lib/src/stream/mod.rs:encode_stream"]}
{"id": "C31", "title": "Compression never panics", "statement": "encode_stream with the Single strategy and at least one thread terminates normally on every input when reader and sink do not fail.", "quantifier": "every input, every thread count >= 1, both build profiles", "why_tests_cant": "All inputs: index arithmetic in SA-IS, package-merge and code assignment must stay in range.", "anchors": ["lib/src/stream/mod.rs:encode_stream", "lib/src/block/block_encoder.rs:generate_block_data"]}
{"id": "C32", "title": "Empty input", "statement": "Compressing the empty input yields the 14 byte empty bzip2 stream for every thread count >= 1 and strategy, and it decompresses to the empty output.", "quantifier": "every thread count >= 1, every strategy", "why_tests_cant": "All thread counts and strategies.", "anchors": ["lib/src/stream/mod.rs:encode_stream"]}
{"id": "C33", "title": "Stream framing", "statement": "The output is the header BZh9, the blocks in input order each starting with the block magic and its checksum, then the footer magic and the combined checksum folded over all blocks in order (rotate left by one, xor), zero padded to a byte.", "quantifier": "every input, thread count >= 1", "why_tests_cant": "Any number of blocks.", "anchors": ["lib/src/stream/mod.rs:stream_footer", "lib/src/stream/mod.rs:flush_work_buffer", "lib/src/block/block_encoder.rs:block_header"]}
{"id": "C34", "title": "Every input byte lands in exactly one block, in order", "statement": "The blocks compressed by encode_stream are consecutive, non-empty pieces of the input whose concatenation is the whole input.", "quantifier": "every input, every split into reads, thread count >= 1", "why_tests_cant": "All inputs and splits; block boundaries depend on run structure.", "anchors": ["lib/src/stream/mod.rs:encode_stream"]}
{"id": "C35", "title": "The command line tool never overwrites a file", "statement": "ribzip2 compress and decompress never change or truncate a file that existed before, whatever the arguments, also when they fail half way.", "quantifier": "every directory content, every argument list, every outcome of compression", "why_tests_cant": "All directory states and failures.", "anchors": ["cli/src/main.rs:create_file", "cli/src/main.rs:try_main"]}
{"id": "C36", "title": "Output names are inverse to each other", "statement": "The output name of compress is the input path followed by .bz2, and decompress applied to that path gives back the original path. Either command writes its output in the directory of its input.", "quantifier": "every path: any directory part, any file name", "why_tests_cant": "All paths: dot files, trailing dots, several dots, no extension, dots in directory names.", "anchors": ["cli/src/main.rs:try_main"]}
{"id": "C37", "title": "Command line round trip", "statement": "After compress F and moving F away, decompress F.bz2 recreates F with the same content and exit status 0; arguments are processed in order and stop at the first failure, leaving the results of the earlier ones in place.", "quantifier": "every directory content, file list and file content", "why_tests_cant": "All directories and contents.", "anchors": ["cli/src/main.rs:try_main"]}
{"id": "C38", "title": "Table counts outside the format are not emitted", "statement": "A block never announces a number of coding tables outside 2..6, the range of the bzip2 format, whatever num_tables the user passes.", "quantifier": "every num_clusters argument", "why_tests_cant": "All arguments.", "anchors": ["lib/src/block/symbol_statistics/kmeansclustering.rs:solve", "lib/src/block/block_encoder.rs:generate_block_data"]}
{"id": "C39", "title": "Debug and release builds produce the same stream", "statement": "Overflow checks make no difference to compression: no arithmetic overflow is reachable in encode_stream with the Single strategy.", "quantifier": "every input", "why_tests_cant": "All inputs; overflow needs extreme values.", "anchors": ["lib/src/bitwise/bitwriter.rs:convert_to_number", "lib/src/block/huffman/huffman_internal.rs:canonicalize"]}
{"id": "C40", "title": "Code lengths are optimal", "statement": "Among all prefix codes with lengths at most 17, the lengths chosen for a table have minimal total cost for the (tie-broken) weights handed to the length-limited coder.", "quantifier": "every weight list of 2..258 symbols, every competing length assignment", "why_tests_cant": "Optimality quantifies over all competing codes.", "anchors": ["lib/src/block/huffman/package_merge.rs:compute_lis"]}
{"id": "C41", "title": "Exactly one selector per group of fifty symbols", "statement": "With the Single strategy the number of selectors in a block equals the number of 50-symbol groups (data symbols plus end-of-block, rounded up), although it is computed in single precision floating point.", "quantifier": "every block up to the maximal size", "why_tests_cant": "Rounding could be wrong at any of about 900000 counts.", "anchors": ["lib/src/block/symbol_statistics/mod.rs:SinglePropabilityMap"]}
{"id": "C42", "title": "Truncated streams are not accepted", "statement": "If decode_stream accepts a stream, it does not accept any truncation of it.", "quantifier": "every accepted stream, every cut position", "why_tests_cant": "All streams and cut positions.", "anchors": ["lib/src/stream/mod.rs:decode_stream", "lib/src/bitwise/bitreader.rs:BitReaderImpl"]}
{"id": "C43", "title": "The level digit of the header is validated", "statement": "decode_stream rejects a stream whose fourth byte is not a digit 1..9.", "quantifier": "every input", "why_tests_cant": "All fourth bytes.", "anchors": ["lib/src/stream/mod.rs:read_file_header"]}
{"id": "C44", "title": "Compressing on a full disk is reported", "statement": "If compress ends with exit status 0, the output file holds the whole stream, however little space was left on the disk.", "quantifier": "every file content, every amount of free space", "why_tests_cant": "All contents and amounts of free space; the outcome depends on the buffer boundary.", "anchors": ["cli/src/main.rs:try_main", "cli/src/main.rs:create_file"]}
{"id": "C45", "title": "A failing command leaves no incomplete output", "statement": "If compress or decompress of a file does not end with exit status 0, no output file is left behind.", "quantifier": "every command, directory and file content", "why_tests_cant": "All contents, failures and directory states.", "anchors": ["cli/src/main.rs:try_main"]}
{"id": "C46", "title": "No file of another process is truncated", "statement": "The check for an existing output file protects it also when another process creates the file at the same time.", "quantifier": "every interleaving with another process, every directory", "why_tests_cant": "The window between the check and the creation is a matter of scheduling.", "anchors": ["cli/src/main.rs:create_file"]}
{"id": "C47", "title": "Debug and release builds decompress alike", "statement": "On every input and sink, decode_stream built with and without overflow checks returns the same result and writes the same bytes.", "quantifier": "every input, valid or not, every sink behaviour", "why_tests_cant": "Ranges over all malformed inputs; overflow happens only on crafted ones.", "anchors": ["lib/src/stream/mod.rs:decode_stream", "lib/src/block/code_table.rs:read_delta", "lib/src/block/selectors.rs:read_unary"]}
{"id": "C48", "title": "Streams of other encoders are decompressed", "statement": "Every valid single bzip2 stream (as judged by an independent decoder written from the format), whatever encoder and level made it, is decompressed by decode_stream to its contents.", "quantifier": "every valid bzip2 file", "why_tests_cant": "All files of all encoders, with any tables, selectors and levels.", "anchors": ["lib/src/stream/mod.rs:decode_stream", "lib/src/block/block_decoder.rs:decode_block", "lib/src/block/rle.rs:inverse_rle"]}
{"id": "C49", "title": "Declared block size bounds decompression", "statement": "decode_stream produces no block larger (before run-length expansion) than the size the file header declares, so the memory it needs is bounded by the header.", "quantifier": "every input file and every requested size", "why_tests_cant": "An unbounded family of crafted files; each test covers one size.", "anchors": ["lib/src/block/block_decoder.rs:decode_block", "lib/src/block/zle.rs:decode_zle", "lib/src/stream/mod.rs:decode_stream"]}
{"id": "C50", "title": "More input never changes what was written", "statement": "What decode_stream has written when an input ends is a prefix of what it writes for any continuation of that input; in particular a truncated file yields a prefix of the output of the whole file.", "quantifier": "every input, every continuation, every sink behaviour, every cut", "why_tests_cant": "All inputs (valid or not) and all cut positions.", "anchors": ["lib/src/stream/mod.rs:decode_stream", "lib/src/block/block_decoder.rs:decode_block", "lib/src/bitwise/bitreader.rs:BitReader"]}
{"id": "C51", "title": "Decompression from readers that are interrupted or fail", "statement": "When decode_stream reads from any std::io::Read, calls of read that report ErrorKind::Interrupted make no difference to the result or to what is written; a call that fails otherwise has exactly the effect of the input ending at that place, and nothing the reader would have answered later is used.", "quantifier": "every sequence of answers of the reader (bytes, interruptions, failures in any order), every sink, debug and release builds", "why_tests_cant": "Interruptions and failures may fall between any two of the single-byte reads, in any state of the bit reader; the number of histories is unbounded.", "anchors": ["lib/src/bitwise/bitreader.rs:BitReaderImpl::read_bits", "lib/src/stream/mod.rs:decode_stream"]}
{"id": "C52", "title": "Position of the reader after decompression", "statement": "After decode_stream returns Ok, the caller's reader has been read exactly to the end of the bzip2 stream, so that a caller who goes on reading finds the bytes that follow the stream.", "quantifier": "every valid stream, every continuation, every reader, debug and release builds", "why_tests_cant": "Statement about all streams and all bit alignments of the footer.", "anchors": ["lib/src/stream/mod.rs:decode_stream", "lib/src/stream/mod.rs:what_next", "lib/src/bitwise/bitreader.rs:BitReaderImpl"]}
{"id": "C53", "title": "Own output never comes back silently changed", "statement": "When decode_stream decompresses a stream that encode_stream made, it never reports success having written data that differ from the input; if it cannot restore a block it returns an error (it does not panic), and what it has written before is a prefix of the input.", "quantifier": "every input (no condition on runs or rotations), every number of threads, debug and release builds", "why_tests_cant": "Ranges over all inputs; the counterexample needs fifteen changes placed where the CRC polynomial has its coefficients, which neither hand-written nor random tests find.", "anchors": ["lib/src/stream/mod.rs:decode_stream", "lib/src/block/block_decoder.rs:decode_block", "lib/src/block/rle.rs:inverse_rle"]}
{"id": "C54", "title": "Compression ends at the first end-of-file report", "statement": "encode_stream treats the first read that returns 0 bytes as the end of the input, so the bytes it compresses do not depend on the number of threads even when the reader later has more to deliver (a growing file, a terminal, a pipe that is reopened).", "quantifier": "every reader, including readers that deliver data after an end-of-file report, every thread count, debug and release builds", "why_tests_cant": "Ranges over every history of reader answers and every thread count; tests read from byte slices, which stay at end of file.", "anchors": ["lib/src/stream/mod.rs:encode_stream"]}
{"id": "C55", "title": "Bounded read-ahead", "statement": "While encode_stream runs with n threads there are never more than n blocks in flight (read, but not yet written), each worker holds at most one, and each block holds at most 900005 run-length coded bytes; after a normal return none is left behind.", "quantifier": "every interleaving of the main thread and the workers, every reachable state, every reader, sink, strategy and thread count", "why_tests_cant": "Ranges over every schedule and every intermediate state; tests see only the output.", "anchors": ["lib/src/stream/mod.rs:encode_stream", "lib/src/stream/mod.rs:WorkerThread"]}
{"id": "C56", "title": "No worker thread is left behind", "statement": "After encode_stream returns or panics every worker thread it started ends by itself: none stays blocked on a channel or keeps running.", "quantifier": "every interleaving, every reader, sink, strategy and thread count", "why_tests_cant": "Ranges over every schedule, including workers that are still encoding when the main thread panics; a leaked blocked thread does not fail a test.", "anchors": ["lib/src/stream/mod.rs:encode_stream", "lib/src/stream/mod.rs:WorkerThread"]}
{"id": "C57", "title": "Code lengths are the best possible for the block", "statement": "The Huffman code lengths the Single strategy chooses make the coded symbols of a block no longer than any other admissible code lengths (at most 17 bits, Kraft sum at most one) would.", "quantifier": "every block (every sequence of move-to-front indices), every alphabet, every competing choice of code lengths", "why_tests_cant": "Optimality is a statement about all competing codes for all symbol statistics.", "anchors": ["lib/src/block/huffman/mod.rs:compute_huffman", "lib/src/block/huffman/package_merge.rs:compute_lis", "lib/src/block/symbol_statistics/mod.rs:SinglePropabilityMap"]}
{"id": "C58", "title": "Bounded expansion", "statement": "Compressing an input of n bytes with the Single strategy yields at most 1.31 n + 36000 bytes, and at most 2.67 n + 2200 bytes; with the k-means strategy and 1 to 7 tables at most 2.7 n + 7600 bytes.", "quantifier": "every input of any length, every thread count, k-means round count, debug and release builds", "why_tests_cant": "A worst-case bound over all inputs; incompressible and adversarial inputs cannot be enumerated.", "anchors": ["lib/src/stream/mod.rs:encode_stream", "lib/src/block/block_encoder.rs:generate_block_data", "lib/src/block/huffman/mod.rs:compute_huffman"]}
{"id": "C59", "title": "The k-means strategy never panics", "statement": "encode_stream with BlockWise and at least one table terminates normally on every input, for every number of tables and of rounds; with zero tables every non-empty input makes it panic, the empty one does not.", "quantifier": "every input, number of tables, number of k-means rounds, thread count >= 1, debug and release builds", "why_tests_cant": "Ranges over all inputs and parameters; index arithmetic of the clustering depends on floating point distances.", "anchors": ["lib/src/block/symbol_statistics/kmeansclustering.rs:solve", "lib/src/block/symbol_statistics/mod.rs:BlockWisePropabilityMap", "lib/src/stream/mod.rs:encode_stream"]}
{"id": "C60", "title": "The block sort takes linear time", "statement": "Sorting a block (the Burrows-Wheeler transform by Duval's rotation and SA-IS) takes a number of elementary steps that is linear in the block length for every block, at most 380 n + 6510 (documented as linear-time).", "quantifier": "every block of bytes", "why_tests_cant": "Worst cases of a recursive algorithm are not found by timing a few inputs.", "anchors": ["lib/src/block/bwt/sais.rs:orchestrate_build_suffix_array", "lib/src/block/bwt/duval.rs:duval", "lib/src/block/bwt/bwt_internal.rs:bwt"]}
{"id": "C61", "title": "Blocks are encoded in parallel", "statement": "encode_stream with n threads can have min(n, number of blocks) blocks being encoded at the same time, so more threads mean more parallelism; and no worker is idle while there is input left to hand out (README: efficient multithreading).", "quantifier": "every input, reader chunking, thread count, encoding strategy, interleaving of the threads", "why_tests_cant": "Whether an interleaving exists, or whether all of them avoid an idle worker, is a statement about all schedules.", "anchors": ["lib/src/stream/mod.rs:encode_stream", "lib/src/stream/mod.rs:send_work", "lib/src/stream/mod.rs:flush_work_buffer"]}
{"id": "C62", "title": "Documented output name of decompress", "statement": "ribzip2 decompress file.bz2 writes its output to file.out (README), so it can be run next to the original file.", "quantifier": "every file name, directory content and stream", "why_tests_cant": "Ranges over all file names and directories; no test of the project runs the command line tool.", "anchors": ["cli/src/main.rs:set_extension", "README.md:file.out"]}
{"id": "C63", "title": "Compression loses no information", "statement": "If two inputs are compressed to the same byte sequence, they are the same input, whatever the number of threads and the build profile of the two runs: even where this crate's decoder fails to restore an input, the stream determines it. Likewise the column and pointer stored by the block sort determine the block.", "quantifier": "all pairs of byte sequences, thread counts and build profiles (and, for the k-means strategy, all numbers of tables and iterations when the tables chosen have no gap; with one table, all inputs)", "why_tests_cant": "it is a statement about all pairs of inputs; the block sort is not the standard one when suffix order differs from rotation order, so injectivity does not follow from the textbook inverse, and the crate's decoder cannot be used to check it", "anchors": ["lib/src/stream/mod.rs:encode_stream", "lib/src/block/bwt/bwt_internal.rs:bwt"]}
{"id": "C64", "title": "Code tables are built from the statistics of the block", "statement": "With one table the weights handed to the code builder are exactly the numbers of occurrences of each symbol in the block. With the k-means strategy the groups of 50 symbols are clustered by Lloyd's algorithm as documented: every group is put into the table whose center is nearest (the first of equal centers), every center is then the mean of its groups, and the weights of a table are 10000 times the mean counts of the groups that use it, all up to single-precision rounding; a table that no group uses has only weights 0.", "quantifier": "all blocks of bytes up to the maximal size, 1 to 256 tables, any number of iterations", "why_tests_cant": "the k-means statistics only influence the size of the output, so no round-trip test sees an error in them, and rounding errors accumulate over up to 18001 groups", "anchors": ["lib/src/block/symbol_statistics/kmeansclustering.rs:solve", "lib/src/block/symbol_statistics/mod.rs:report_symbol", "lib/src/block/zle.rs:zle_transform"]}
{"id": "C65", "title": "Compressing takes linear time", "statement": "encode_stream takes a number of elementary steps (all threads together) that is linear in the input length, for every input, reader behaviour, thread count and strategy with at least one table: per byte at most 2400 (Single), or 2700 + r(20k+27) with k tables and r k-means rounds; per started 720000 bytes of input a constant (at most 62 million, or 1.1 million + 31 million k + r(1076k+1072)); 24 per answer of the reader, 4 per thread (the README claims algorithms with optimal asymptotic performance). There is no input on which compression degrades to quadratic time.", "quantifier": "every input, reader, sink, thread count, strategy with at least one table, block", "why_tests_cant": "Worst cases over all inputs are not found by timing a few inputs.", "anchors": ["lib/src/stream/mod.rs:encode_stream", "lib/src/block/block_encoder.rs:generate_block_data", "lib/src/block/mtf.rs:mtf", "lib/src/block/huffman/package_merge.rs:compute_lis", "lib/src/block/symbol_statistics/kmeansclustering.rs:solve"]}
{"id": "C66", "title": "Every input ends in a definite way: accepted, error or panic", "statement": "For every input and sink, how decode_stream ends is determined by the position where reading stops: a wrong or missing signature, a 48-bit marker that is neither block nor footer (or cut short), a block whose contents do not have the stored checksum, and an input that stops exactly behind a block checksum are reported as Err; an input that stops inside a checksum or a block body, or a block body that cannot be read, is a panic; a footer marker is Ok. The blocks before that position have been offered to the sink. In particular every truncation of an accepted stream has the outcome given by where the cut falls.", "quantifier": "every input, sink, build profile, cut position", "why_tests_cant": "The classification covers every bit sequence.", "anchors": ["lib/src/stream/mod.rs:decode_stream", "lib/src/stream/mod.rs:what_next", "lib/src/stream/mod.rs:read_file_header", "lib/src/block/block_decoder.rs:decode_block"]}
{"id": "C67", "title": "Decompression takes time linear in the input plus n log n in the output", "statement": "Decompressing any accepted input takes at most 38400 elementary steps per byte of compressed input, one per answer of the reader (so also one per interrupted read) and 1080 + 6 log2 n steps for each of the n bytes written, whatever code tables, selectors and symbols the input contains: no crafted table makes the time superlinear in input and output. For an input that fails, the steps are bounded the same way plus 300 and at most 2104 n + 4 n log2 n for the block it failed in, where n is the number of values the symbols of that block stand for. (The output itself is not bounded by the input: C49.)", "quantifier": "all byte sequences (also malformed and hostile ones), all readers, both build profiles", "why_tests_cant": "Timing tests sample inputs; the worst case over all code tables and all inputs needs an argument that every bit read pays for the work it causes.", "anchors": ["lib/src/block/block_decoder.rs:decode_block", "lib/src/block/huffman/reader.rs:read_symbols", "lib/src/block/bwt/bwt_inverse.rs:inverse_bwt", "lib/src/stream/mod.rs:decode_stream"]}
{"id": "C68", "title": "What the decompressor makes of any bits as code lengths and as selectors", "statement": "Whatever bits follow, a release build reads a code table as the running values the format prescribes (five bits for the first, then 10 raises, 11 lowers, 0 gives a length out), keeps of each length what fits in a byte, consumes exactly the bits of the table, and reports an error exactly when the bits run out; a debug build does the same except that it panics exactly when the running value leaves 0 to 2^64-1. No length is rejected, also not one the format forbids. Selectors are the numbers of 1s before each 0, modulo 256 in a release build, while a debug build panics exactly when one is above 255; a selector count of 0 still consumes one bit and takes a 0 for a selector.", "quantifier": "all bit sequences at any position of a reader, all numbers of symbols and selectors, both build profiles", "why_tests_cant": "The values are unbounded running sums over arbitrary bits; only hostile inputs leave the range a test would try, and the two build profiles differ there.", "anchors": ["lib/src/block/code_table.rs:read_delta", "lib/src/block/selectors.rs:read_unary"]}
{"id": "C69", "title": "Compression killed at any moment", "statement": "What encode_stream has written to its sink at any moment, under any interleaving of its threads, is a prefix of what it will have written when it returns, whatever the reader, the sink and the strategy. Before it returns, the sink holds the file header and whole blocks, in input order, of which at most 7 bits are missing; at most one piece of the input per thread has been read and not written. So if the process is killed, decompressing what is left (any prefix of it, default strategy, streams the decoder can read) gives a prefix of the input, never reports success unless it is the whole input, never reports success if the kill came before the footer was written, and gives back all pieces read but the last (threads + 1).", "quantifier": "every input, reader, sink, strategy, thread count, interleaving, and every moment (state) at which the process may be killed, including within a write", "why_tests_cant": "The crash point falls between any two steps of any interleaving; tests see finished runs only.", "anchors": ["lib/src/stream/mod.rs:encode_stream", "lib/src/stream/mod.rs:flush_work_buffer", "lib/src/bitwise/bitwriter.rs:BitWriterImpl", "lib/src/stream/mod.rs:decode_stream"]}
{"id": "C70", "title": "The command line tool killed at any moment", "statement": "If ribzip2 compress or decompress is killed at any moment, every file that was there before is unchanged (also over any history of such commands), the outputs of the arguments before some point are complete, and at most one further file is there: the output of the next argument, holding a prefix of what it would have become. A command that is not killed cannot get stuck or run forever (at least one thread) and ends with the status and the directory of the sequential description.", "quantifier": "every command, directory, thread count, interleaving of the threads, and every moment between two steps of the process", "why_tests_cant": "A kill may come between any two steps of any interleaving; the directories on the way are not visible in finished runs.", "anchors": ["cli/src/main.rs:try_main", "cli/src/main.rs:create_file", "lib/src/stream/mod.rs:encode_stream", "lib/src/stream/mod.rs:decode_stream"]}
{"id": "C71", "title": "A killed command can be run again", "statement": "After ribzip2 compress or decompress was killed, the same command can simply be run again and finishes the work, with the result of an undisturbed run.", "quantifier": "every command, directory, thread count, interleaving of the threads, and every moment at which the process is killed", "why_tests_cant": "Depends on what the killed process left, for every moment of every interleaving.", "anchors": ["cli/src/main.rs:try_main", "cli/src/main.rs:create_file"]}
{"id": "C72", "title": "Several processes compress the same file at the same time", "statement": "If several ribzip2 compress processes run on the same file at the same time, the output file holds, once all have ended, the stream of one undisturbed compression; at least one process succeeds, the others succeed as well or are refused because the output exists.", "quantifier": "every file content, number of processes, thread counts and build profiles, strategies, and interleaving of the steps of all processes and their threads", "why_tests_cant": "The look for the output and its creation are two steps; what is lost when one process empties the file another one is writing depends on the interleaving.", "anchors": ["cli/src/main.rs:create_file", "cli/src/main.rs:try_main", "lib/src/stream/mod.rs:encode_stream"]}
{"id": "C73", "title": "Independent commands at the same time behave as if alone", "statement": "If several ribzip2 commands (compress or decompress, any files, options and thread counts) run at the same time in one directory and no command writes a file that another one reads or writes, then every command ends, with the exit status it has when run alone, and every file it reads or writes has at its end the content it has when the command is run alone; files no command writes are untouched. Without this independence a command may successfully compress a file that another one has only just begun to write.", "quantifier": "every directory, list of commands with build profiles and CPU counts, and interleaving of the steps of all processes", "why_tests_cant": "The interleavings of several processes, each with reads, block writes and file creations, cannot be enumerated; a hidden shared name would show only under some of them.", "anchors": ["cli/src/main.rs:create_file", "cli/src/main.rs:try_main", "cli/src/main.rs:main"]}
{"id": "C74", "title": "Several processes decompress the same file at the same time", "statement": "If several ribzip2 decompress processes run on the same file at the same time, the output file holds, once all have ended, what one undisturbed decompression writes; at least one process is not refused, and every process that is not refused ends with the exit status of the undisturbed decompression.", "quantifier": "every file content (valid or not), number of processes, and interleaving of their steps", "why_tests_cant": "The look for the output and its creation are two steps; when one process empties the file while another is writing, what is lost and what is left as a gap of zeros depends on the interleaving.", "anchors": ["cli/src/main.rs:create_file", "cli/src/main.rs:try_main", "lib/src/stream/mod.rs:decode_stream", "lib/src/block/block_decoder.rs:decode_block"]}
{"id": "C75", "title": "Every command ends, and its exit status says exactly what happened", "statement": "With at least one thread every compress or decompress command, for any number of files, comes to an end. For one file the exit status is 1 exactly if the file is missing or its output already exists. Otherwise decompress ends with 0 exactly if the library accepts the content (and the output is then what the library made of it) and with 101 (panic) exactly if the library does not; compress ends with 101 exactly for the K-means strategy with 0 tables on a file that is not empty, and with 0 in all other cases.", "quantifier": "all directories of byte files, file paths, thread counts from 1, coding options, contents, arithmetic profiles, lists of files", "why_tests_cant": "A test runs a few commands on a few files; that no file at all makes compress fail (other than with 0 tables) or makes decompress hang, and that status 1 has no other cause, ranges over all contents and options.", "anchors": ["cli/src/main.rs:try_main", "cli/src/main.rs:create_file", "cli/src/main.rs:main", "lib/src/stream/mod.rs:encode_stream", "lib/src/stream/mod.rs:decode_stream"]}
{"id": "C76", "title": "A path that cannot be read ends the command with an error", "statement": "A command given a path that is missing, may not be opened, or can be opened but not read (a directory, a file on a failing disk) ends with an error status instead of hanging; a path whose reads reach an end of file is handled like a plain file with the bytes that arrive.", "quantifier": "all file trees of plain files, devices with any sequence of read answers and files that cannot be opened; all paths, thread counts, coding options, arithmetic profiles", "why_tests_cant": "A test feeds a few files or mock readers; which answers of read make the tool hang, fail or succeed ranges over all infinite answer sequences, and hanging cannot be observed by running.", "anchors": ["cli/src/main.rs:open_file", "cli/src/main.rs:create_file", "cli/src/main.rs:try_main", "lib/src/stream/mod.rs:encode_stream", "lib/src/bitwise/bitreader.rs:read_exact"]}
{"id": "C77", "title": "Output of the k-means strategy is a valid bzip2 stream", "statement": "With 2 to 6 tables, an independent decoder written from the bzip2 format decodes everything encode_stream emits with the k-means strategy to the original bytes.", "quantifier": "every finite byte sequence, 2 <= num_clusters <= 6, every number of iterations, thread count >= 1, arithmetic profile", "why_tests_cant": "Whether a stream is readable depends on the content (block sort, tables left without a group, groups completed by the end of block); a test compares with a reference decoder on a handful of files.", "anchors": ["lib/src/block/symbol_statistics/kmeansclustering.rs:solve", "lib/src/block/symbol_statistics/mod.rs:finalize", "lib/src/block/block_encoder.rs:generate_block_data", "lib/src/stream/mod.rs:encode_stream"]}

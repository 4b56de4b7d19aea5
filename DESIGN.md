# Formal model of torfmaster/ribzip2 in Coq 8.16.1

## Layout

`rocq/theories/` (logical name `Verif`):

* **Model** (no proofs, executable): `Base`, `Bitwise`, `Rle`, `Mtf`, `Crc32`, `Sais`, `Bwt`, `Zle`,
  `Float32`, `KMeans`, `SymbolStatistics`, `PackageMerge`, `Huffman`, `CodeTable`, `SymbolMap`,
  `Selectors`, `BlockEncoder`, `BlockDecoder`, `Stream`, `Concurrency`, `Cli`, `CliNodes`, `CliSteps`, `Shared`, `SharedDecode`, `Jobs`; `Cost`, `BwtCost` and `EncodeCost` (the compressor
  with its elementary steps counted, C60 and C65; `DecodeCost`: the decompressor likewise, C67).
  One file per Rust file (or closely related group); every definition cites file and lines.
* **Spec**: `SpecBits` (bytes to bits), `SpecBwt` (order on suffixes, rotations), `SpecRle` (the
  format's run-length code), `SpecCrc` (bitwise CRC-32 and its combination), `SpecBzip2` (a reference
  bzip2 decoder written from the format): these five do not mention the model. `SpecStream` says what
  it means that a reader delivers data, a sink accepts everything, `encode_stream` returns or runs
  forever, and names the conditions on blocks. `SpecKMeans` gives symbol counts and Lloyd's algorithm in
  real arithmetic. `SpecOutcome` lists the ways in which the decompression of a bit sequence can end. `SpecFields` says what
  bits mean as code lengths and selectors.
* **Facts**: `*Facts.v`, `Sais{Base,Induce,Sort}.v` - lemmas and proofs.
* **Properties**: `Properties*.v` - the theorems `Cnn_...`, each with `Print Assumptions` and a
  non-vacuity `Example` or a witness; short derivations from the Facts files stay next to them.
  `PropertiesStages` (C04-C18, C40, C41), `PropertiesStream` (C01-C03, C19, C22, C31-C34, C38, C39),
  `PropertiesDecode` (C25-C29, C42, C43), `PropertiesForeign` (C08, C47, C48), `PropertiesRobust` (C49-C52), `PropertiesOwn` (C53, C63; C01 and C08 exactly), `PropertiesReversible` (C01, C03 exactly), `PropertiesTables` (C02 exactly, C63), `PropertiesFew` (C02 and C63 with few groups), `PropertiesValid` (C77), `PropertiesThreads`
  (C20, C21, C23, C24, C54-C56, C61), `PropertiesCrash` (C69), `PropertiesKill` (C70, C71), `PropertiesShared` (C72), `PropertiesJobs` (C73), `PropertiesSharedDecode` (C74), `PropertiesStatus` (C75), `PropertiesNodes` (C76, more of C23 and C31), `PropertiesSize` (C30, C57-C59), `PropertiesKMeans` (C64), `PropertiesTime` (C60, C65), `PropertiesTimeDecode` (C67), `PropertiesOutcome` (C66), `PropertiesFields` (C68), `PropertiesCli` (C21, C35-C37, C44-C46, C62).
* **Checks of the model**: `RepoTests` runs all 69 unit tests of the repository on the model (one `Example` per test, same inputs, same
  expected values); these tie the model to the program and are not counted as proofs of any property. `SpecTests` reads
  streams made by libbzip2 with the reference decoder `bunzip2` of `SpecBzip2` (and rejects damaged ones): a check of the specification.

Names: `_refuted` means that the English statement is false of the code and the theorem proves its
negation (mostly with a concrete witness, sometimes for all inputs of a class); `_partial` means that
the theorem needs a hypothesis the English statement does not have. Theorems with neither suffix prove
the statement (or a further fact about it) in full.

## Conventions

* `u8` is `nat` (< 256 where produced), lengths and indices are `nat`, other integers are `N`;
  wrap-around and truncating casts that can matter are written out (`mod 2^k`).
* `Bit::One`/`Bit::Zero` are `true`/`false`; vectors are lists; mutation returns the new value.
* `res A = Ok a | Err | Panic | NoFuel`. `Err(())` is `Err`; unwrap of `Err`/`None`, out-of-bounds
  indexing, `unreachable!`, checked overflow are `Panic`. Loops without a structural bound take fuel
  and answer `NoFuel` when it runs out; termination theorems show `NoFuel` does not occur.
* `profile = Checked | Wrapping`: debug (overflow panics) or release (overflow wraps) build.
* `slice::sort_by`/`sort` are modelled by stable insertion sort (`sort_by`); stable sorting has a
  unique result.
* `f32` is IEEE-754 binary32 through the standard library's `SpecFloat` (computable, no axioms).
* A `Write` is a script of answers (accept k bytes / fail); a `Read` is a list of events
  (chunk / end-of-file / failure / `Interrupted`, which `read_to_end` retries), then end-of-file or failure forever. For the decoder (`read_exact`
  of single bytes) a reader is the list of its answers to the calls of `read`: a byte, `Interrupted`, or
  another error; `decode_stream` on a byte list is the reader that delivers these bytes, and C51 reduces
  every other reader to this one.

## What is modelled

Everything in `lib/src` outside `#[cfg(test)]`, and `cli/src/main.rs` except argument parsing,
`num_cpus` and messages. Threads and mpsc channels are an interleaving transition system
(`Concurrency.v`), including the end of the workers when the channels are dropped. Not modelled: memory exhaustion, thread-spawn failure, a reader that is
interrupted forever, symbolic links, special files as outputs (as inputs: `CliNodes.v`), several paths of one file (file names are whole Unix paths; directories are not created or removed), file permissions,
running time (except for the steps of the compressor, C60, C65, and of the decompressor, C67; std's stable sort is charged 4n(log2 n + 1) there). `std` is modelled where the code uses it: `read_to_end`/`take`, `read_exact`, `BufWriter`
(capacity 8192, errors of the flush on drop ignored), `Path::set_extension`, `sort`/`sort_by`, mpsc
channels, `f32` arithmetic.

## Trusted base

Coq's kernel (incl. `vm_compute`) and the faithfulness of the hand-written model, established by reading.

Assumptions: `Print Assumptions` answers "Closed under the global context" for every theorem listed in
MANIFEST.json, with these exceptions: no axioms, not even those of the standard library. The exceptions are
`C64_kmeans_lloyd`, `C64_weights`, `C77_short` and the theorems of `PropertiesFew` (`C02_few_groups`, `C02_few_groups_gap_refuted`,
`C02_own_tables`, `C02_short_safe`, `C02_short_exact_partial`, `C02_short_inputs_exact` (PropertiesReversible), `C63_short`), which reason about rounding errors in real numbers and list the
standard library's axioms for them: `ClassicalDedekindReals.sig_forall_dec`,
`ClassicalDedekindReals.sig_not_dec`, `FunctionalExtensionality.functional_extensionality_dep` and
`Classical_Prop.classic`. (Flocq is used in those proofs; it has no axioms of its own. `coqchk` additionally lists the
`Coq.ssr.ssrunder.Under_rel.*` module fields of the loaded ssreflect library; no theorem uses them.)

The model was cross-checked by running it: its stream for "hello world\\n" (55 bytes) is accepted by
libbz2 (Python's `bz2`), files written by libbz2 are decoded by the model and by the reference decoder
(`C48_case`), and the model was compared on sampled files outside Coq with a Python transcription. By
that transcription about one in six ordinary files (e.g. /repo/README.md) does not survive a round
trip, because of the rotation defect (C05, C06). Two predicates on blocks describe the defect exactly
(SpecBwt.v): `rotation_safe` blocks are the ones transformed as the format says (C06_exact_partial),
`reversible` blocks are the ones the inverse block sort restores (C06_restored_exact); the first implies the
second and not the other way round ([0;1;0;0;0]). All stream theorems assume only `reversible`.

## Per-property plan

| id | modelled as | plan |
|----|-------------|------|
| C01 | `decode_stream (encode_stream x)` | full statement is false (`_refuted`, witnesses `baaa` and `aaaa\0\0\0x`); `_partial` for inputs whose blocks are reversible and run-safe (Spec predicates), composing C04-C16, C18, C34; `_short_runs_exact`: without four equal bytes in a row (any length), restored iff all pieces are reversible |
| C02 | same with `BlockWise` | `_refuted` (selector gap; whole groups: the spare group takes bits behind the block, and no magic number fits there); `_partial`, for one block exact; with at most as many groups as tables the choice of Lloyd's algorithm is determined (FewFacts, from the specification of C64); `_short_runs_exact_partial`, `_short_inputs_exact`: without four equal bytes in a row restored iff reversible |
| C03 | reference decoder in Spec | `_refuted` by rotation; `_partial` for reversible blocks (no run condition); `_short_runs_exact`: iff (any length) |
| C04 | `build_suffix_array` | full proof of SA-IS (induced sorting invariants, naming, recursion) |
| C05 | `duval` | `_refuted` (`bananaa`); positive: start of the smallest suffix |
| C06 | `inverse_bwt (bwt x)` | `_refuted`; `_restored_exact`: restored iff `reversible`; `_exact_partial`: the output is a transform in the format's sense iff `rotation_safe`, which implies `reversible` |
| C07 | `rle`, `rle_augment`, chunking | invariants over the run state; Spec expansion |
| C08 | `inverse_rle` vs Spec | `_refuted`; `_partial` for run-safe data and for any data with plain counts (simulation of the two state machines) |
| C09, C10, C13, C14 | stage functions | round-trip theorems by induction |
| C11, C40 | `compute_lis` | package-merge invariants: nested selections, Kraft sum; optimality by exchange |
| C12 | `canonicalize`, `read_symbols` | canonical code construction = interval code; prefix-freeness |
| C15 | selectors | `_refuted` with gap; `_partial` for gap-free use |
| C16, C17 | `crc32` | table = bitwise step (finite sweep), linearity over GF(2), burst injectivity |
| C18 | bit writer/reader | refinement to lists of bits |
| C19-C22 | `Stream`, `Concurrency` | sequential loop equations; simulation of interleavings; measure |
| C23-C25 | scripts of reader/writer | `_refuted` witnesses; positive parts |
| C26 | `decode_loop` | invariant over written blocks |
| C27, C28, C43 | decoder | `_refuted` by witnesses (and for all streams) |
| C29 | decoder | termination proved; no-panic `_refuted` |
| C30 | fill loop | `_refuted` at the bound, proved weaker bound |
| C31 | encoder | from C04, C11, ... |
| C32-C34 | stream | equations |
| C35-C37 | `Cli` | state machine induction; race with another process stated |
| C38 | k-means tables | `_refuted`, `_partial` |
| C39 | profiles | no overflow reachable |
| C41 | `selector_count` | binary32 division analysed with integers for every count below 2^24 |
| C42 | decoder | cut before footer end never `Ok`; full statement `_refuted` (footer checksum unread) |
| C44 | `BufWriter` over a disk with a number of free bytes | exact outcome for every amount of space; status 0 with missing data `_refuted` |
| C45 | `Cli` | error exits leave the directory as it was; panics always leave the partial file (`_refuted`) |
| C46 | `create_file` in two steps with another process in between | `_refuted`; holds without interference |
| C47 | decoder in both profiles | relation "checked panics or same" through every stage; `_refuted` by a crafted table |
| C48 | decoder vs the reference decoder | stage by stage simulation over the bits left (symbol map, selectors, tables, canonical codes, zero runs, inverse sort); `_refuted` twice, `_partial` under the two conditions |
| C49 | a family of crafted files, one per size | the block is parsed by the reference decoder with the limit as a parameter, then the simulation of C48; `_refuted` for all sizes |
| C50 | decoder, bits left | a successful read depends only on the bits it used (`regular`); induction over the blocks |
| C51 | decode_source on answer lists | decoder looks at the source only through its delivered bits (DecodeFacts regular_*) |
| C52 | decode_source returns the rest of the reader | TakeFacts: a successful run took exactly the answers it used; refuted for all valid streams |
| C53 | encoder and decoder | SilentFacts: every encoded block is read to its end whatever the data (block_read_some), then the checksum decides; CRC collision from P(x^64) = P(x)^64 |
| C54 | reader events | `_refuted`: data after an end-of-file report is taken, depending on the thread count |
| C55 | Concurrency.v | invariant over all interleavings: at most one block per worker, block length bound from ReaderFacts |
| C56 | Concurrency.v with the channels' end (dropped by the main thread on return or unwinding) | progress: a worker that has not ended can move once the channels are closed |
| C57 | Huffman.v, PackageMerge.v, SymbolStatistics.v | package-merge optimality (C40) on the altered weights; the alteration costs at most 16 bits per unit added (CostFacts, ExpandFacts) |
| C58 | EncodeFacts (frame of a stream), ExpandFacts (length of a block) | sum over the blocks; run-length coding grows by at most 5/4, the code costs at most 513/64 bits per weight unit |
| C59 | KMeans.v (IEEE binary32 arithmetic), SymbolStatistics.v, BlockEncoder.v | shape invariants of Lloyd's iteration for any float outcome; every later stage is total on that shape |
| C60 | `Cost`, `BwtCost` | counted programs, erasure and bound: LMS blocks add up to n, the recursion halves |
| C61 | transition system of Concurrency.v | explicit interleavings built from the sequence of pieces; bound on the number of pieces from the 255-fold expansion of RLE |
| C62 | file names of Cli.v | follows from C36/C37 |
| C63 | the compressor as a relation between data and stream; the decoder's front end as a function of the bits | the decoder's parser up to the sorted column is deterministic (LosslessFacts); the column and pointer determine the block because the suffix-sorted column is a union of necklaces in which the word's own Lyndon factor is recognisable (InjectFacts); run-length coding is injective (RleFacts); for k-means a decoder that stops at the end of block reads blocks with a spare selector too (UntilFacts, SpareFacts) |
| C64 | SymbolStatistics.v, KMeans.v with f32 from SpecFloat | FloatReal (each f32 operation is the rounded real operation, by Flocq), KMeansFacts (error analysis of the running mean and of the distances, induction over groups and iterations), HistogramFacts (the rows are the exact counts) |
| C65 | `EncodeCost` | counted programs, erasure and bound stage by stage (EncodeCostFacts), blocks of at least 900000 coded bytes summed over the stream (StreamCostFacts) |
| C66 | `Stream`, `BlockDecoder` | the reading of a block body never returns `Err` except for a missing first bit (OutcomeFacts); induction over the blocks against the relation `ends` (SpecOutcome); cuts from self-delimitation |
| C67 | `DecodeCost` | amortised: every bit pays 4800 steps, a code table is compared with a symbol at most once per code (DecodeCostFacts); contents of a block at least three quarters of its values |
| C68 | `CodeTable`, `Selectors`; the meaning of the bits in `SpecFields`, over unbounded integers | induction over the bits, for both profiles (FieldFacts) |
| C69 | `Concurrency` (states of all interleavings), `Stream`, decoder | the sink only grows along a run; each step of the invariant of C20 also tells which piece moved (`moved`, `story` in CrashFacts); decoding of whole blocks followed by anything |
| C70 | `CliSteps`: the tool as a transition system over directories, with the threads of `Concurrency`, the blocks of `decode_stream` and a `BufWriter` in between | invariant over all steps (finished arguments as by commands of their own, the current output a prefix by C69 and growth of the sink); directories up to order of files; sizes on the way: whole buffers of 8 KiB |
| C71 | `CliSteps`, `Cli` | refuted for every moment after the first output is created; resumption by the invariant of C70 and equality of directories up to order |
| C72 | `Shared`: processes with their own file positions over one output file, a look and a creation that empties as separate steps, writes at a position that fill gaps with zeros | invariant: some process (the last to have emptied the file) has all of the file before its position equal to the stream of C19, no byte beyond the length of that stream; prefixes by C69; well-founded product for termination |
| C73 | `Jobs`: several processes of `CliSteps`, each step on the directory as the others left it | frame lemma: a step reads only the command's names and changes only its outputs; invariant: each process has a private directory in which it is alone and which agrees with the real one on its names; then C70; product of well-founded relations for termination |
| C74 | `SharedDecode`: as C72, the steps of `decode_stream` being header, blocks, footer | the invariant of C72 with the output of `decode_stream` as the target; prefixes by monotonicity of the writer; bits left as measure |
| C75 | `Cli` | case analysis over the two library results: C29 (never out of fuel), C31, C59; induction over the files |
| C76 | `Cli` with nodes (`CliNodes`): plain files, devices given by their read answers, locked files | refinement to `Cli` for plain files; no panic for any reader by induction over the rounds (C31_any_reader), hence an endless run when no end of file comes (C23_runs_forever); C51 and C29 for decompress |
| C77 | `generate_block_data` with `BlockWise`, the reference decoder `bunzip2` | `ReferenceSpare`: the reference decoder on blocks with spare selectors (it stops at the end of block), blocks and stream by induction; counterexamples computed |

Every property is expressible in the model; none is `not_applicable`.

## Seeded bugs

`seeded/LOG.jsonl` records edits of the model of the kind a programming slip would make, the claim each
breaks, the theorems that no longer prove, and what was tightened as a consequence.

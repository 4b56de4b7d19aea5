(** * Several processes decompress the same file at the same time

    cli/src/main.rs:62-68 and 78-83 for one argument, in several processes that share the
    directory; as Shared.v for [compress].  [decode_stream] writes to the [File] itself
    (main.rs:83), one [write] per block (stream/mod.rs:219, block/block_decoder.rs:59); disks are ideal. *)
From Verif Require Import Base Bitwise SymbolStatistics BlockDecoder Stream Cli CliSteps Shared.

Inductive dphase :=
| DLooking                                  (** main.rs:63 [exists] comes next *)
| DAbsent                                   (** main.rs:66 [File::create] comes next *)
| DDecoding (r : bit_reader) (w : writer)   (** in [decode_stream], main.rs:83 *)
| DRefused                                  (** main.rs:64: [DuplicateError], exit status 1 *)
| DFinished (e : exit).
(** how the process was built, how far it is *)
Record dproc := mk_dproc { dp_profile : profile; dp_phase : dphase }.
Definition with_dphase (x : dproc) (f : dphase) : dproc := mk_dproc (dp_profile x) f.

Section Shared.
  Variable content : list nat.

  (** [write] of what [w2] has more than [w], at the place where [w] stopped *)
  Definition write_more (c : list nat) (w w2 : writer) : list nat :=
    write_at c (length (w_out w)) (skipn (length (w_out w)) (w_out w2)).

  (** one step of one process; [f] is the output file, if it is there *)
  Inductive d_step : option (list nat) -> dproc -> option (list nat) -> dproc -> Prop :=
  | d_look x : dp_phase x = DLooking -> d_step None x None (with_dphase x DAbsent)
  | d_refuse x c : dp_phase x = DLooking -> d_step (Some c) x (Some c) (with_dphase x DRefused)
  (** main.rs:66, 83; stream/mod.rs:212-214 *)
  | d_create x f : dp_phase x = DAbsent ->
      d_step f x (Some []) (with_dphase x (match read_file_header (br_from_reader content) with
                                           | Ok r => DDecoding r (mk_writer [] [])
                                           | _ => DFinished ExitPanic
                                           end))
  (** stream/mod.rs:215-222 *)
  | d_block x r r1 r2 w w2 c : dp_phase x = DDecoding r w -> what_next r = Ok (BlockHeader, r1) -> decode_block (dp_profile x) r1 w = (Ok r2, w2) ->
      d_step (Some c) x (Some (write_more c w w2)) (with_dphase x (DDecoding r2 w2))
  | d_block_fails x r r1 w result w2 c : dp_phase x = DDecoding r w -> what_next r = Ok (BlockHeader, r1) -> decode_block (dp_profile x) r1 w = (result, w2) ->
      (forall r2, result <> Ok r2) ->
      d_step (Some c) x (Some (write_more c w w2)) (with_dphase x (DFinished ExitPanic))
  | d_footer x r r1 w c : dp_phase x = DDecoding r w -> what_next r = Ok (StreamFooter, r1) ->
      d_step (Some c) x (Some c) (with_dphase x (DFinished ExitOk))
  | d_next_fails x r w c : dp_phase x = DDecoding r w -> (forall y, what_next r <> Ok y) ->
      d_step (Some c) x (Some c) (with_dphase x (DFinished ExitPanic)).

  (** the output file and the processes after some steps of any of them *)
  Inductive d_together (start : list dproc) : option (list nat) -> list dproc -> Prop :=
  | d_together_start : d_together start None start
  | d_together_step f before x after f' x' : d_together start f (before ++ x :: after) -> d_step f x f' x' ->
      d_together start f' (before ++ x' :: after).
End Shared.

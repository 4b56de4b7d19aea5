(** * Specification: well-behaved readers, sinks, and conditions on blocks

    Words used by the theorems about whole streams.  [coded], [piece_safe] and
    [fits_level9] talk about the data only (through SpecRle and SpecBwt). *)
From Verif Require Import Base SpecRle SpecBwt SpecCrc Bitwise SymbolStatistics Stream.

(** ** a well-behaved reader: the input arrives in non-empty pieces, then end of file;
    calls may be interrupted in between *)
Definition harmless (e : revent) : Prop := match e with RChunk bs => bs <> [] | RFail => False | RInterrupted => True end.
Definition event_data (e : revent) : list nat := match e with RChunk bs => bs | _ => [] end.
Definition delivers (rd : reader) (data : list nat) : Prop :=
  r_tail_fail rd = false /\ Forall harmless (r_events rd) /\ flat_map event_data (r_events rd) = data.

(** ** any reader, as long as what it delivers are bytes *)
Definition event_bytes (e : revent) : Prop := match e with RChunk bs => bytes bs | RFail | RInterrupted => True end.
Definition reader_bytes (rd : reader) : Prop := Forall event_bytes (r_events rd).

(** ** a sink that has received [out] and accepts everything *)
Definition good_sink (out : list nat) : writer := mk_writer [] out.

(** ** what [encode_stream] does: it returns [r] (outcome, final sink), or it runs forever *)
Definition encode_returns (p : profile) (rd : reader) (w : writer) (num_threads : nat) (st : strategy)
  (r : res unit * writer) : Prop :=
  exists enough, forall fuel, enough <= fuel -> encode_stream fuel p rd w num_threads st = r.
Definition encode_runs_forever (p : profile) (rd : reader) (w : writer) (num_threads : nat) (st : strategy) : Prop :=
  forall fuel, fst (encode_stream fuel p rd w num_threads st) = NoFuel.

(** [out] is the stream produced for [data] by [n] threads, however the input arrives *)
Definition compressed (p : profile) (n : nat) (st : strategy) (data out : list nat) : Prop :=
  forall rd, delivers rd data -> encode_returns p rd (good_sink []) n st (Ok tt, good_sink out).

(** [decode_stream] returns [Ok] on [input] and has then written exactly [data] *)
Definition decompressed (p : profile) (input data : list nat) : Prop :=
  decode_stream p input (good_sink []) = (Ok tt, good_sink data).

(** ** blocks *)

(** the run-length coded form of a piece of the input (SpecRle) *)
Definition coded (l : list nat) : list nat := flat_map coded_run (runs l).

(** The two conditions under which this crate's decoder restores a piece: no run is
    followed by an ambiguous run (SpecRle), and the block sort of the coded piece is
    reversible (SpecBwt). *)
Definition piece_safe (q : list nat) : Prop := run_safe q = true /\ reversible (coded q).

(** the coded piece fits the block size announced by the header [BZh9] *)
Definition fits_level9 (q : list nat) : Prop := (N.of_nat (length (coded q)) <= 900000)%N.

(** ** sinks that accept only part of what they are offered, or fail

    What a sink that answers its successive [write] calls as in [script] (and accepts
    everything afterwards) has received when the [blocks] are offered one per call, and
    whether no call failed; a failed call is the last one. *)
Fixpoint offer (script : list wresp) (blocks : list (list nat)) {struct blocks} : list nat * list wresp * bool :=
  match blocks with
  | [] => ([], script, true)
  | b :: tl =>
      match script with
      | [] => (b ++ concat tl, [], true)
      | WAccept k :: script => let '(got, script, ok) := offer script tl in (firstn k b ++ got, script, ok)
      | WFail :: script => ([], script, false)
      end
  end.

(** ** readers

    the outcome of a call without its value *)
Definition status {A} (r : res A) : res unit :=
  match r with Ok _ => Ok tt | Err => Err | Panic => Panic | NoFuel => NoFuel end.

(** ** what may become of the pieces of the input

    [comes_back pieces got status]: the pieces come back one after the other, each as
    itself or as other data with the same CRC-32; this ends after the last piece ([Ok]) or
    with an error before a piece that is not [piece_safe]. *)
Inductive comes_back : list (list nat) -> list nat -> res unit -> Prop :=
| back_all : comes_back [] [] (Ok tt)
| back_same q pieces got status : comes_back pieces got status -> comes_back (q :: pieces) (q ++ got) status
| back_other q other pieces got status : other <> q -> ~ piece_safe q -> bytes other ->
    crc32_bzip2 other = crc32_bzip2 q -> comes_back pieces got status ->
    comes_back (q :: pieces) (other ++ got) status
| back_error q pieces : ~ piece_safe q -> comes_back (q :: pieces) [] Err.

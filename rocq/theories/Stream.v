(** * Model of lib/src/stream/mod.rs (sequential reading; Concurrency.v has the threads) *)
From Verif Require Import Base Bitwise Rle Crc32 SymbolStatistics BlockEncoder BlockDecoder.

(** stream/mod.rs:31 (0x177245385090) *)
Definition footer_magic : list nat := [23; 114; 69; 56; 80; 144].

(** stream/mod.rs:27-42 [stream_footer] *)
Definition stream_footer (crc : N) : list bool :=
  flat_map convert_to_code_pad_to_byte footer_magic
  ++ flat_map convert_to_code_pad_to_byte (crc_as_bytes crc).

(** stream/mod.rs:44-51 [file_header]: "BZh9" *)
Definition file_header : list bool :=
  flat_map convert_to_code_pad_to_byte [66; 90; 104; 57].

(** stream/mod.rs:93: [result.1 ^ ((total << 1) | (total >> 31))] on [u32] *)
Definition update_total_crc (block_crc total : N) : N :=
  N.lxor block_crc (N.lor (N.shiftl total 1 mod 4294967296) (N.shiftr total 31)).

(** ** The reader *)

(** An arbitrary [std::io::Read]: the successive answers of the underlying reader.
    [RChunk bs]: the bytes [bs] arrive (in as many pieces as the caller's buffers
    ask for); [RChunk []] is an [Ok(0)] (end of file); [RInterrupted] is an error of
    kind [Interrupted], which [read_to_end] retries; [RFail] is any other error.
    When the events are used up, the reader answers end-of-file
    forever, or, if [r_tail_fail] is set, fails forever. *)
Inductive revent := RChunk (bs : list nat) | RFail | RInterrupted.
Record reader := mk_reader { r_events : list revent; r_tail_fail : bool }.

(** stream/mod.rs:136-139 [read.by_ref().take(to_take).read_to_end(&mut buf)] on a
    fresh buffer.  A limit of zero does not consult the reader; on an error the
    bytes already read are in the buffer, which the caller drops. *)
Fixpoint take_events (limit : N) (events : list revent) (tail_fail : bool) (acc : list nat)
  : res (list nat) * list revent :=
  if (limit =? 0)%N then (Ok acc, events) else
  match events with
  | [] => (if tail_fail then Err else Ok acc, [])
  | RFail :: tl => (Err, tl)
  | RInterrupted :: tl => take_events limit tl tail_fail acc
  | RChunk [] :: tl => (Ok acc, tl)
  | RChunk bs :: tl =>
      let len := N.of_nat (length bs) in
      if (len <=? limit)%N
      then take_events (limit - len) tl tail_fail (acc ++ bs)
      else (Ok (acc ++ firstn (N.to_nat limit) bs),
            RChunk (skipn (N.to_nat limit) bs) :: tl)
  end.

Definition take_read_to_end (limit : N) (rd : reader) : res (list nat) * reader :=
  let (result, events) := take_events limit (r_events rd) (r_tail_fail rd) [] in
  (result, mk_reader events (r_tail_fail rd)).

(** ** Filling one block *)

(** stream/mod.rs:112 *)
Definition RLE_LIMIT : N := 900000.

(** stream/mod.rs:127-131: the variables of one pass through the worker loop;
    [fl_finalize] is the outer flag [finalize]. *)
Record fill := mk_fill {
  fl_buf : list nat; fl_rle : list nat; fl_total : nat; fl_count : nat; fl_last : option nat;
  fl_finalize : bool }.
Definition fill_init : fill := mk_fill [] [] 0 0 None false.

(** stream/mod.rs:134; a negative difference would overflow (StreamFacts.v: it
    cannot occur), modelled as a panic *)
Definition to_take (rle_len : nat) : res N :=
  if (RLE_LIMIT <? N.of_nat rle_len)%N then Panic
  else Ok ((RLE_LIMIT - N.of_nat rle_len) * 4 / 5)%N.

(** stream/mod.rs:132-160: the fill loop.  Every iteration but the last consumes
    input, which bounds the fuel. *)
Fixpoint fill_loop (fuel : nat) (rd : reader) (f : fill) : res (fill * reader) :=
  if (N.of_nat (fl_total f) <? RLE_LIMIT)%N
  then
    match fuel with
    | O => NoFuel
    | S fuel' =>
        let! limit := to_take (length (fl_rle f)) in
        match take_read_to_end limit rd with
        | (Ok [], rd) =>
            Ok (mk_fill (fl_buf f) (fl_rle f) (fl_total f) (fl_count f) (fl_last f) true, rd)
        | (Ok buf_current, rd) =>
            let result := rle buf_current (fl_count f) (fl_last f) in
            let next_data_len := length (fl_rle f) + length (rle_data result) in
            let total := rle_total_size next_data_len (rle_counter result) (rle_last result) in
            fill_loop fuel' rd
              (mk_fill (fl_buf f ++ buf_current) (fl_rle f ++ rle_data result) total
                       (rle_counter result) (rle_last result) (fl_finalize f))
        | (_, rd) => Ok (f, rd)
        end
    end
  else Ok (f, rd).

(** a bound on the number of useful reads left *)
Definition event_size (e : revent) : nat :=
  match e with RChunk bs => S (length bs) | RFail | RInterrupted => 1 end.
Definition reader_size (rd : reader) : nat := list_sum (map event_size (r_events rd)).

Definition fill_block (rd : reader) : res (fill * reader) :=
  fill_loop (S (reader_size rd)) rd fill_init.

(** stream/mod.rs:166-168: what is sent to the worker *)
Definition work := (N * list nat)%type.
Definition work_of_fill (f : fill) : work :=
  (crc32 (fl_buf f), rle_augment (fl_rle f) (fl_count f) (fl_last f)).

(** stream/mod.rs:126-169: one round over [workers] worker threads: the work sent
    (to the first workers, in order), the flag [finalize], the reader. *)
Fixpoint read_round (workers : nat) (rd : reader) : res (list work * bool * reader) :=
  match workers with
  | O => Ok ([], false, rd)
  | S workers' =>
      let! (f, rd) := fill_block rd in
      match fl_buf f with
      | [] => Ok ([], fl_finalize f, rd)
      | _ =>
          let! (ws, fin, rd) := read_round workers' rd in
          Ok (work_of_fill f :: ws, fl_finalize f || fin, rd)
      end
  end.

(** ** Encoding *)

Record enc_state := mk_enc { en_bw : bit_writer; en_crc : N }.

(** [bit_writer.write_bits(..).unwrap()] *)
Definition write_or_panic (bits : list bool) (e : enc_state) : res unit * enc_state :=
  match write_bits (en_bw e) bits with
  | (Ok _, bw) => (Ok tt, mk_enc bw (en_crc e))
  | (_, bw) => (Panic, mk_enc bw (en_crc e))
  end.

(** stream/mod.rs:171-175 with 89-95 [flush_work_buffer]: the results of the pending
    workers, in worker order.  A panic in a worker closes its channel, so the
    [recv().unwrap()] of the main thread panics. *)
Fixpoint flush_round (p : profile) (st : strategy) (ws : list work) (e : enc_state)
  : res unit * enc_state :=
  match ws with
  | [] => (Ok tt, e)
  | (crc, data) :: tl =>
      match generate_block_data p crc data st with
      | Ok (bits, block_crc) =>
          match write_or_panic bits e with
          | (Ok _, e) =>
              flush_round p st tl (mk_enc (en_bw e) (update_total_crc block_crc (en_crc e)))
          | other => other
          end
      | NoFuel => (NoFuel, e)
      | _ => (Panic, e)
      end
  end.

(** stream/mod.rs:121-176: the main loop; the fuel counts rounds.  [NoFuel] here
    means "still running". *)
Fixpoint encode_rounds (fuel : nat) (p : profile) (num_threads : nat) (st : strategy)
  (rd : reader) (e : enc_state) : res unit * enc_state :=
  match fuel with
  | O => (NoFuel, e)
  | S fuel' =>
      match read_round num_threads rd with
      | Ok (ws, fin, rd) =>
          match flush_round p st ws e with
          | (Ok _, e) =>
              if fin then (Ok tt, e) else encode_rounds fuel' p num_threads st rd e
          | other => other
          end
      | NoFuel => (NoFuel, e)
      | _ => (Panic, e)
      end
  end.

(** stream/mod.rs:105-180 [encode_stream]: the outcome and what the sink received *)
Definition encode_stream (fuel : nat) (p : profile) (rd : reader) (w : writer)
  (num_threads : nat) (st : strategy) : res unit * writer :=
  let e := mk_enc (bw_from_writer w) 0 in
  match write_or_panic file_header e with
  | (Ok _, e) =>
      match encode_rounds fuel p num_threads st rd e with
      | (Ok _, e) =>
          match write_or_panic (stream_footer (en_crc e)) e with
          | (Ok _, e) =>
              let (result, bw) := bw_finalize (en_bw e) in
              (unwrap result, bw_sink bw)
          | (result, e) => (result, bw_sink (en_bw e))
          end
      | (result, e) => (result, bw_sink (en_bw e))
      end
  | (result, e) => (result, bw_sink (en_bw e))
  end.

(** ** Decoding *)

Fixpoint nats_eqb (a b : list nat) : bool :=
  match a, b with
  | [], [] => true
  | x :: ta, y :: tb => (x =? y) && nats_eqb ta tb
  | _, _ => false
  end.

(** stream/mod.rs:182-191 [read_file_header]: [BZh] and any fourth byte *)
Definition read_file_header (r : bit_reader) : res bit_reader :=
  let! (bs, r) := read_bytes r 4 in
  if nats_eqb (firstn 3 bs) [66; 90; 104] then Ok r else Err.

(** stream/mod.rs:193-209 [what_next] *)
Inductive block_type := StreamFooter | BlockHeader.
Definition what_next (r : bit_reader) : res (block_type * bit_reader) :=
  let! (bs, r) := read_bytes r 6 in
  if nats_eqb bs block_magic then Ok (BlockHeader, r)
  else if nats_eqb bs footer_magic then Ok (StreamFooter, r)
  else Err.

(** stream/mod.rs:215-222; every iteration consumes bits, which bounds the fuel *)
Fixpoint decode_loop (fuel : nat) (p : profile) (r : bit_reader) (w : writer)
  : res bit_reader * writer :=
  match fuel with
  | O => (NoFuel, w)
  | S fuel' =>
      match what_next r with
      | Ok (StreamFooter, r) => (Ok r, w)
      | Ok (BlockHeader, r) =>
          match decode_block p r w with
          | (Ok r, w) => decode_loop fuel' p r w
          | (Err, w) => (Err, w)
          | (Panic, w) => (Panic, w)
          | (NoFuel, w) => (NoFuel, w)
          end
      | Err => (Err, w)
      | Panic => (Panic, w)
      | NoFuel => (NoFuel, w)
      end
  end.

(** stream/mod.rs:212-224 [decode_stream]; the [Ok] result is the unit of the code together
    with what is left of the caller's reader (who may pass [&mut reader], as main.rs:83) *)
Definition decode_source (p : profile) (source : list answer) (w : writer) : res (list answer) * writer :=
  match read_file_header (br_from_source source) with
  | Ok r =>
      match decode_loop (S (bits_left r)) p r w with
      | (Ok r, w) => (Ok (br_source r), w)
      | (Err, w) => (Err, w)
      | (Panic, w) => (Panic, w)
      | (NoFuel, w) => (NoFuel, w)
      end
  | Err => (Err, w)
  | Panic => (Panic, w)
  | NoFuel => (NoFuel, w)
  end.

(** [decode_stream] on a reader that delivers [input], seen through its result only *)
Definition decode_stream (p : profile) (input : list nat) (w : writer) : res unit * writer :=
  match decode_source p (map AByte input) w with
  | (Ok _, w) => (Ok tt, w)
  | (Err, w) => (Err, w)
  | (Panic, w) => (Panic, w)
  | (NoFuel, w) => (NoFuel, w)
  end.

(** * Model of lib/src/bitwise/ (bitwriter.rs, bitreader.rs) *)
From Verif Require Import Base.

(** ** bitwriter.rs *)

(** bitwriter.rs:68-78 [convert_to_number]: [ct *= 2] can overflow [usize] for
    inputs longer than 64 bits ([Checked]: panic, [Wrapping]: bits are lost);
    [ct += 1] cannot, the product being even. *)
Definition ctn_step (p : profile) (ct : N) (digit : bool) : res N :=
  let dbl := (ct * 2)%N in
  let add := fun v => if digit then (v + 1)%N else v in
  if (two64 <=? dbl)%N
  then match p with
       | Checked => Panic
       | Wrapping => Ok (add (dbl mod two64)%N)
       end
  else Ok (add dbl).

Definition convert_to_number (p : profile) (input : list bool) : res N :=
  fold_res (ctn_step p) input 0%N.

(** The loop shared by bitwriter.rs:83-90, 110-117, 130-137:
    [while input > 0 { push(input & 1); input >>= 1 }] (least significant first). *)
Fixpoint pos_bits (v : positive) : list bool :=
  match v with
  | xH => [true]
  | xO v' => false :: pos_bits v'
  | xI v' => true :: pos_bits v'
  end.
Definition low_bits (v : N) : list bool :=
  match v with
  | N0 => []
  | Npos q => pos_bits q
  end.

(** bitwriter.rs:80-98 [convert_to_code_pad_to_byte] (the argument is a [u8], so
    [8 - counter] cannot underflow). *)
Definition convert_to_code_pad_to_byte (input : nat) : list bool :=
  let output := low_bits (N.of_nat input) in
  rev (output ++ repeat false (8 - length output)).

(** bitwriter.rs:100-105 [convert_to_code_pad_to_bytes] *)
Definition convert_to_code_pad_to_bytes (input : list nat) : list bool :=
  flat_map convert_to_code_pad_to_byte input.

(** bitwriter.rs:107-125 [convert_to_code_pad_to_15_bits]; the argument is a
    [u16], so [15 - counter] underflows for values >= 2^15: a panic when checked,
    and [take(usize::MAX).collect()] (capacity overflow panic) when wrapping. *)
Definition convert_to_code_pad_to_15_bits (input : N) : res (list bool) :=
  let output := low_bits input in
  if length output <=? 15
  then Ok (rev (output ++ repeat false (15 - length output)))
  else Panic.

(** bitwriter.rs:127-141 [convert_to_code_pad_to_n_bits]: the range [counter..n]
    is empty when more than [n] bits are needed, so the result may be longer. *)
Definition convert_to_code_pad_to_n_bits (input : N) (n : nat) : list bool :=
  let output := low_bits input in
  rev (output ++ repeat false (n - length output)).

(** bitwriter.rs:143-146 [increment_symbol] *)
Definition increment_symbol (p : profile) (input : list bool) : res (list bool) :=
  let! v := convert_to_number p input in
  if (v + 1 =? two64)%N
  then match p with
       | Checked => Panic
       | Wrapping => Ok (convert_to_code_pad_to_n_bits 0 (length input))
       end
  else Ok (convert_to_code_pad_to_n_bits (v + 1) (length input)).

(** An arbitrary [std::io::Write]: the script gives the result of the successive
    [write] calls ([WAccept k]: [Ok(min k buf.len())], [WFail]: [Err]); once the
    script is used up every call accepts everything.  [w_out] is what the sink
    has received. *)
Inductive wresp := WAccept (k : nat) | WFail.
Record writer := mk_writer { w_script : list wresp; w_out : list nat }.

Definition w_write (w : writer) (buf : list nat) : res nat * writer :=
  match w_script w with
  | [] => (Ok (length buf), mk_writer [] (w_out w ++ buf))
  | WAccept k :: script =>
      (Ok (Nat.min k (length buf)), mk_writer script (w_out w ++ firstn k buf))
  | WFail :: script => (Err, mk_writer script (w_out w))
  end.

(** bitwriter.rs:5-11 [BitWriterImpl] *)
Record bit_writer := mk_bw { bw_pending : list bool; bw_sink : writer }.

(** bitwriter.rs:17-22 [from_writer] *)
Definition bw_from_writer (w : writer) : bit_writer := mk_bw [] w.

(** [convert_to_number(chunk) as u8] for a chunk of at most 8 bits
    (bitwriter.rs:48-49, 61-62); no overflow is possible at that size. *)
Definition byte_of_bits (chunk : list bool) : nat :=
  match convert_to_number Wrapping chunk with
  | Ok v => N.to_nat (v mod 256)
  | _ => 0
  end.

(** bitwriter.rs:46-51: [chunks_exact(8)], one [write(&[number])] per chunk; the
    number of bytes reported by [write] is ignored, an [Err] stops the loop. *)
Fixpoint write_chunks (pending : list bool) (w : writer) : res (list bool) * writer :=
  match pending with
  | b0 :: b1 :: b2 :: b3 :: b4 :: b5 :: b6 :: b7 :: rest =>
      match w_write w [byte_of_bits [b0; b1; b2; b3; b4; b5; b6; b7]] with
      | (Ok _, w') => write_chunks rest w'
      | (_, w') => (Err, w')
      end
  | remainder => (Ok remainder, w)
  end.

(** bitwriter.rs:44-53 [write_bits]; on [Err] the early return leaves all bits
    pending. *)
Definition write_bits (bw : bit_writer) (bits : list bool) : res unit * bit_writer :=
  let pending := bw_pending bw ++ bits in
  match write_chunks pending (bw_sink bw) with
  | (Ok remainder, w') => (Ok tt, mk_bw remainder w')
  | (_, w') => (Err, mk_bw pending w')
  end.

(** bitwriter.rs:55-65 [finalize]; the pending bits are not cleared. *)
Definition bw_finalize (bw : bit_writer) : res unit * bit_writer :=
  match bw_pending bw with
  | [] => (Ok tt, bw)
  | _ =>
      let pending := bw_pending bw ++ repeat false (8 - length (bw_pending bw)) in
      match w_write (bw_sink bw) [byte_of_bits pending] with
      | (Ok _, w') => (Ok tt, mk_bw pending w')
      | (_, w') => (Err, mk_bw pending w')
      end
  end.

(** ** bitreader.rs *)

(** The underlying [Read] is used only through [read_exact] on a one byte buffer
    (bitreader.rs:52, 69), that is through [read] with room for one byte.  A reader is the
    list of its answers to these calls: a byte, [ErrorKind::Interrupted], or anything else
    ([Ok(0)] or another error); when the list is used up it answers [Ok(0)]. *)
Inductive answer := AByte (b : nat) | AInterrupted | AFail.

(** std's [read_exact] on one byte: an interrupted call is repeated, end of file and
    errors are errors *)
Fixpoint read_exact_one (source : list answer) : res (nat * list answer) :=
  match source with
  | [] => Err
  | AByte b :: rest => Ok (b, rest)
  | AInterrupted :: rest => read_exact_one rest
  | AFail :: _ => Err
  end.

(** bitreader.rs:7-11 [BitReaderImpl] *)
Record bit_reader := mk_br {
  br_source : list answer;      (* byte_reader: answers not yet asked for *)
  br_cursor : nat;              (* current_byte_cursor *)
  br_current : option nat       (* current_byte *)
}.

(** bitreader.rs:34-40 [from_reader] *)
Definition br_from_source (source : list answer) : bit_reader := mk_br source 0 None.
(** ... on a reader that delivers [bs] and nothing else *)
Definition br_from_reader (bs : list nat) : bit_reader := br_from_source (map AByte bs).

(** bitreader.rs:52-54 and 69-71: fetch the next byte. *)
Definition br_fetch (r : bit_reader) : res bit_reader :=
  let! (b, rest) := read_exact_one (br_source r) in
  Ok (mk_br rest 0 (Some b)).

(** bitreader.rs:49-74, one bit.  The Rust loop spends one iteration on fetching
    when needed ([None], or cursor >= 8) and one on emitting; here both happen in
    one step. *)
Definition read_bit (r : bit_reader) : res (bool * bit_reader) :=
  let emit := fun (b : nat) (r : bit_reader) =>
    Ok (Nat.testbit b (8 - br_cursor r - 1),
        mk_br (br_source r) (S (br_cursor r)) (br_current r)) in
  match br_current r with
  | Some b =>
      if 8 <=? br_cursor r
      then let! r' := br_fetch r in
           match br_current r' with
           | Some b' => emit b' r'
           | None => Panic
           end
      else emit b r
  | None =>
      let! r' := br_fetch r in
      match br_current r' with
      | Some b' => emit b' r'
      | None => Panic
      end
  end.

(** bitreader.rs:44-76 [read_bits] *)
Fixpoint read_bits (r : bit_reader) (num : nat) : res (list bool * bit_reader) :=
  match num with
  | O => Ok ([], r)
  | S num' =>
      let! (b, r') := read_bit r in
      let! (bs, r'') := read_bits r' num' in
      Ok (b :: bs, r'')
  end.

(** bitreader.rs:15-21 [read_bytes] (8 bits always fit a [u8]) *)
Fixpoint read_bytes (r : bit_reader) (number : nat) : res (list nat * bit_reader) :=
  match number with
  | O => Ok ([], r)
  | S number' =>
      let! (bits, r') := read_bits r 8 in
      let! v := convert_to_number Checked bits in
      let! (bs, r'') := read_bytes r' number' in
      Ok (N.to_nat v :: bs, r'')
  end.

(** Not in the code: the bytes the reader still delivers before it ends or fails *)
Fixpoint delivered (source : list answer) : list nat :=
  match source with
  | [] => []
  | AByte b :: rest => b :: delivered rest
  | AInterrupted :: rest => delivered rest
  | AFail :: _ => []
  end.
Definition br_bytes (r : bit_reader) : list nat := delivered (br_source r).

(** Number of bits the reader can still deliver; used as loop fuel only. *)
Definition bits_left (r : bit_reader) : nat :=
  8 * length (br_bytes r)
  + match br_current r with Some _ => 8 - br_cursor r | None => 0 end.

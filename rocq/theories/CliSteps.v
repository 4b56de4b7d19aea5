(** * The command line tool step by step (cli/src/main.rs)

    Cli.v says how a command ends; this file says which directories there are on the way,
    when it may be killed.  A step is one system call of the tool on its directory, one
    action of one of the threads of [encode_stream], or one block of [decode_stream].
    Disks are ideal (enough space, no short writes); other processes do not interfere. *)
From Verif Require Import Base Bitwise SymbolStatistics BlockEncoder BlockDecoder Stream Concurrency Cli.

(** std [BufWriter] with capacity 8192 (main.rs:111), given one byte per [write]
    (bitwriter.rs:32): a full buffer goes to the file before the byte is taken.
    [(file, buffer)] after the bytes so far. *)
Definition BUF_CAPACITY : nat := 8 * 1024.
Definition buf_write (b : list nat * list nat) (x : nat) : list nat * list nat :=
  if length (snd b) <? BUF_CAPACITY then (fst b, snd b ++ [x]) else (fst b ++ snd b, [x]).
Definition buf_after (accepted : list nat) : list nat * list nat := fold_left buf_write accepted ([], []).
(** what is in the file while the [BufWriter] lives, and after it is dropped *)
Definition on_disk (accepted : list nat) : list nat := fst (buf_after accepted).
Definition on_disk_dropped (accepted : list nat) : list nat := fst (buf_after accepted) ++ snd (buf_after accepted).

Inductive activity :=
| Next                                                   (** main.rs:78, 91: head of the loop *)
| Opened (f : fname) (content : list nat)                (** main.rs:79, 92 done *)
| Decoding (out : fname) (r : bit_reader) (w : writer)   (** in [decode_stream]: main.rs:83 *)
| Encoding (out : fname) (c : cstate)                    (** in [encode_stream]: main.rs:122 *)
| Exited (e : exit).
Record process := mk_process { todo : list fname; doing : activity; dir : fs }.

(** main.rs:81, 94-108 *)
Definition out_name (c : command) (f : fname) : fname :=
  match c with Decompress _ => decompress_name f | Compress _ _ _ => compress_name f end.
(** main.rs:121 *)
Definition threads_of (cpus : nat) (c : command) : nat :=
  match c with Compress _ (Some n) _ => n | _ => cpus end.
(** main.rs:112-120 *)
Definition strategy_in (c : command) : strategy :=
  match c with Compress _ _ options => strategy_of_options options | Decompress _ => Single end.

Section Steps.
  Variables (p : profile) (cpus : nat) (c : command).

  Inductive pstep : process -> process -> Prop :=
  (** the loop ends: main.rs:127, 130-136 *)
  | step_done d : pstep (mk_process [] Next d) (mk_process [] (Exited ExitOk) d)
  (** main.rs:79, 92 [open_file] *)
  | step_open_fails f rest d : fs_get d f = None ->
      pstep (mk_process (f :: rest) Next d) (mk_process rest (Exited ExitError) d)
  | step_open f rest d content : fs_get d f = Some content ->
      pstep (mk_process (f :: rest) Next d) (mk_process rest (Opened f content) d)
  (** main.rs:82, 110 [create_file] *)
  | step_create_fails f rest d content : create_file d (out_name c f) = None ->
      pstep (mk_process rest (Opened f content) d) (mk_process rest (Exited ExitError) d)
  (** main.rs:83; stream/mod.rs:212-214: the header of the compressed file *)
  | step_create_decode files f rest d d1 content : c = Decompress files -> create_file d (out_name c f) = Some d1 ->
      pstep (mk_process rest (Opened f content) d)
        (mk_process rest
          (match read_file_header (br_from_reader content) with
           | Ok r => Decoding (out_name c f) r (mk_writer [] [])
           | _ => Exited ExitPanic
           end) d1)
  (** stream/mod.rs:215-222: one more block, or the footer *)
  | step_block out rest r r1 r2 w w2 d : what_next r = Ok (BlockHeader, r1) -> decode_block p r1 w = (Ok r2, w2) ->
      pstep (mk_process rest (Decoding out r w) d) (mk_process rest (Decoding out r2 w2) (fs_set d out (w_out w2)))
  | step_block_fails out rest r r1 w result w2 d : what_next r = Ok (BlockHeader, r1) -> decode_block p r1 w = (result, w2) ->
      (forall r2, result <> Ok r2) ->
      pstep (mk_process rest (Decoding out r w) d) (mk_process rest (Exited ExitPanic) (fs_set d out (w_out w2)))
  | step_footer out rest r r1 w d : what_next r = Ok (StreamFooter, r1) ->
      pstep (mk_process rest (Decoding out r w) d) (mk_process rest Next d)
  | step_next_fails out rest r w d : (forall x, what_next r <> Ok x) ->
      pstep (mk_process rest (Decoding out r w) d) (mk_process rest (Exited ExitPanic) d)
  (** main.rs:110-122: the [BufWriter] is made and [encode_stream] called; it writes its
      header to the buffer *)
  | step_create_encode files threads options f rest d d1 content : c = Compress files threads options ->
      create_file d (out_name c f) = Some d1 ->
      pstep (mk_process rest (Opened f content) d)
        (mk_process rest (Encoding (out_name c f) (cinit (threads_of cpus c) (file_reader content) (mk_writer [] []))) d1)
  (** one action of a thread; what the buffer passes on is in the file *)
  | step_encode out rest s s' d : cstep (block_worker p (strategy_in c)) s s' ->
      pstep (mk_process rest (Encoding out s) d)
        (mk_process rest (Encoding out s') (fs_set d out (on_disk (w_out (bw_sink (en_bw (c_enc s')))))))
  (** main.rs:123: [encode_stream] has returned or panicked; the [BufWriter] is dropped *)
  | step_encoded out rest s r d : c_pc s = MEnd r ->
      pstep (mk_process rest (Encoding out s) d)
        (mk_process rest (match r with Ok _ => Next | _ => Exited (exit_of r) end)
           (fs_set d out (on_disk_dropped (w_out (bw_sink (en_bw (c_enc s))))))).

  (** the processes that [c] may become when it is started in directory [d] *)
  Inductive process_of (d : fs) : process -> Prop :=
  | process_start : process_of d (mk_process (match c with Decompress files => files | Compress files _ _ => files end) Next d)
  | process_step s s' : process_of d s -> pstep s s' -> process_of d s'.
End Steps.

(** * The threads of lib/src/stream/mod.rs:56-180 as an interleaving transition system

    The main thread and [n] worker threads share nothing but two unbounded FIFO
    channels per worker ([std::sync::mpsc::channel]).  One transition is one
    visible action of one thread; reading the input and writing to the sink are
    only done by the main thread and are therefore part of its transitions.
    [thread::Builder::spawn(..).unwrap()] is assumed to succeed. *)
From Verif Require Import Base Bitwise Rle Crc32 SymbolStatistics BlockEncoder Stream.

(** stream/mod.rs:53-54 *)
Definition comp_result := (list bool * N)%type.

(** stream/mod.rs:56-87: a worker thread: its work channel, the work item it is
    computing, its result channel, and whether the thread has ended (by a panic or by
    returning, which closes both channels). *)
Record worker := mk_worker {
  wk_queue : list work; wk_busy : option work; wk_results : list comp_result; wk_dead : bool }.
Definition worker_init : worker := mk_worker [] None [] false.

(** The program counter of the main thread:
    [MFill i]: at the head of the loop of lines 126-169 with worker [i] next;
    [MFlush i]: at the head of the loop of lines 171-175 with worker [i] next;
    [MEnd r]: [encode_stream] has returned or panicked. *)
Inductive main_pc := MFill (i : nat) | MFlush (i : nat) | MEnd (result : res unit).

Record cstate := mk_c {
  c_pc : main_pc; c_rd : reader; c_fin : bool; c_pending : list bool; c_enc : enc_state;
  c_workers : list worker }.

Section Threads.
  (** the block encoder run by every worker (stream/mod.rs:73-77) *)
  Variable gen : work -> res comp_result.
  Variable n : nat.

  (** stream/mod.rs:70-79: one action of worker [i]: receive a work item, or finish
      the computation (send the result, or panic).  [None]: not enabled.  [closed]: the main
      thread's ends of the two channels have been dropped; then [recv] still hands out what
      is queued and after that fails, which ends the loop and the thread, and [send] fails,
      which panics (in this thread only). *)
  Definition worker_action (closed : bool) (k : worker) : option worker :=
    if wk_dead k then None else
    match wk_busy k with
    | None =>
        match wk_queue k with
        | [] => if closed then Some (mk_worker [] None (wk_results k) true) else None
        | w :: q => Some (mk_worker q (Some w) (wk_results k) false)
        end
    | Some w =>
        match gen w with
        | Ok r => if closed then Some (mk_worker (wk_queue k) None (wk_results k) true)
                  else Some (mk_worker (wk_queue k) None (wk_results k ++ [r]) false)
        | NoFuel => None
        | _ => Some (mk_worker (wk_queue k) None (wk_results k) true)
        end
    end.

  Definition worker_step (closed : bool) (i : nat) (s : cstate) : option cstate :=
    match nth_error (c_workers s) i with
    | None => None
    | Some k =>
        match worker_action closed k with
        | None => None
        | Some k' =>
            match update (c_workers s) i k' with
            | None => None
            | Some ks => Some (mk_c (c_pc s) (c_rd s) (c_fin s) (c_pending s) (c_enc s) ks)
            end
        end
    end.

  Definition ended (r : res unit) (s : cstate) : cstate :=
    mk_c (MEnd r) (c_rd s) (c_fin s) (c_pending s) (c_enc s) (c_workers s).

  (** stream/mod.rs:178-179: footer and final padding *)
  Definition finish (e : enc_state) : res unit * enc_state :=
    match write_or_panic (stream_footer (en_crc e)) e with
    | (Ok _, e) =>
        let (result, bw) := bw_finalize (en_bw e) in
        (unwrap result, mk_enc bw (en_crc e))
    | other => other
    end.

  (** stream/mod.rs:122-179: one action of the main thread; [None]: blocked in
      [recv], or returned. *)
  Definition main_step (s : cstate) : option cstate :=
    match c_pc s with
    | MEnd _ => None
    | MFill i =>
        match nth_error (c_workers s) i with
        | None => Some (mk_c (MFlush 0) (c_rd s) (c_fin s) (c_pending s) (c_enc s) (c_workers s))
        | Some k =>
            match fill_block (c_rd s) with
            | Ok (f, rd) =>
                let fin := c_fin s || fl_finalize f in
                match fl_buf f with
                | [] => Some (mk_c (MFlush 0) rd fin (c_pending s) (c_enc s) (c_workers s))
                | _ =>
                    (* send_work: lines 97-100 *)
                    if wk_dead k then Some (ended Panic s) else
                    match update (c_pending s) i true,
                          update (c_workers s) i
                            (mk_worker (wk_queue k ++ [work_of_fill f]) (wk_busy k)
                                       (wk_results k) false) with
                    | Some pend, Some ks =>
                        Some (mk_c (MFill (S i)) rd fin pend (c_enc s) ks)
                    | _, _ => Some (ended Panic s)
                    end
                end
            | NoFuel => Some (ended NoFuel s)
            | _ => Some (ended Panic s)
            end
        end
    | MFlush i =>
        match nth_error (c_workers s) i, nth_error (c_pending s) i with
        | Some k, Some true =>
            (* flush_work_buffer: lines 89-95 *)
            match wk_results k with
            | [] => if wk_dead k then Some (ended Panic s) else None
            | (bits, block_crc) :: rs =>
                match write_or_panic bits (c_enc s) with
                | (Ok _, e) =>
                    match update (c_pending s) i false,
                          update (c_workers s) i
                            (mk_worker (wk_queue k) (wk_busy k) rs (wk_dead k)) with
                    | Some pend, Some ks =>
                        Some (mk_c (MFlush (S i)) (c_rd s) (c_fin s) pend
                                (mk_enc (en_bw e) (update_total_crc block_crc (en_crc e))) ks)
                    | _, _ => Some (ended Panic s)
                    end
                | (r, e) =>
                    Some (mk_c (MEnd r) (c_rd s) (c_fin s) (c_pending s) e (c_workers s))
                end
            end
        | Some _, Some false =>
            Some (mk_c (MFlush (S i)) (c_rd s) (c_fin s) (c_pending s) (c_enc s) (c_workers s))
        | _, _ =>
            if c_fin s
            then let (r, e) := finish (c_enc s) in
                 Some (mk_c (MEnd r) (c_rd s) (c_fin s) (c_pending s) e (c_workers s))
            else Some (mk_c (MFill 0) (c_rd s) (c_fin s) (c_pending s) (c_enc s) (c_workers s))
        end
    end.

  (** one step of the whole system: any thread that can move may move.  The ends of the
      channels are dropped one by one when [encode_stream] has returned or panicked: from
      then on a worker may find them open or closed. *)
  Definition is_over (pc : main_pc) : bool := match pc with MEnd _ => true | _ => false end.
  Definition cstep (s s' : cstate) : Prop :=
    main_step s = Some s' \/
    exists i closed, (closed = true -> is_over (c_pc s) = true) /\ worker_step closed i s = Some s'.

  (** runs of length [k] *)
  Inductive crun : nat -> cstate -> cstate -> Prop :=
  | crun_nil : forall s, crun 0 s s
  | crun_cons : forall k s s' s'', cstep s s' -> crun k s' s'' -> crun (S k) s s''.

  (** stream/mod.rs:111-121: threads spawned, file header written *)
  Definition cinit (rd : reader) (w : writer) : cstate :=
    let (r, e) := write_or_panic file_header (mk_enc (bw_from_writer w) 0) in
    mk_c (match r with Ok _ => MFill 0 | _ => MEnd r end)
         rd false (repeat false n) e (repeat worker_init n).
End Threads.

(** the blocks a worker holds: waiting, being encoded, or encoded and not yet fetched *)
Definition held (k : worker) : nat :=
  length (wk_queue k) + match wk_busy k with Some _ => 1 | None => 0 end + length (wk_results k).

(** the work function of the real workers *)
Definition block_worker (p : profile) (st : strategy) (w : work) : res comp_result :=
  generate_block_data p (fst w) (snd w) st.

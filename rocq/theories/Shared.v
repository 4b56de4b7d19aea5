(** * Several processes compress the same file at the same time

    cli/src/main.rs:62-68 and 91-123 for one argument, in several processes that share the
    directory.  [create_file] is two steps (look, then create or truncate), each process
    has its own position in the output file.  Disks are ideal. *)
From Verif Require Import Base Bitwise SymbolStatistics BlockEncoder Stream Concurrency Cli CliSteps.

(** [write] of [chunk] at position [o] of a file: a gap is filled with zeros, nothing is cut *)
Definition write_at (content : list nat) (o : nat) (chunk : list nat) : list nat :=
  match chunk with
  | [] => content
  | _ => firstn o (content ++ repeat 0 (o - length content)) ++ chunk ++ skipn (o + length chunk) content
  end.

Inductive phase :=
| Looking               (** main.rs:63 [exists] comes next *)
| Absent                (** the file was not there; main.rs:66 [File::create] comes next *)
| Coding (q : cstate)   (** in [encode_stream], main.rs:122 *)
| Refused               (** main.rs:64: [DuplicateError], exit status 1 *)
| Finished (e : exit).
(** how the process was built, what its command line said, how far it is *)
Record proc := mk_proc { pr_profile : profile; pr_threads : nat; pr_strategy : strategy; pr_phase : phase }.
Definition with_phase (x : proc) (f : phase) : proc := mk_proc (pr_profile x) (pr_threads x) (pr_strategy x) f.

(** what process [q] has handed to the file: what its [BufWriter] has passed on *)
Definition handed (q : cstate) : list nat := on_disk (w_out (bw_sink (en_bw (c_enc q)))).
Definition handed_in_the_end (q : cstate) : list nat := on_disk_dropped (w_out (bw_sink (en_bw (c_enc q)))).

Section Shared.
  Variable content : list nat.

  (** one step of one process; [f] is the output file, if it is there *)
  Inductive one_step : option (list nat) -> proc -> option (list nat) -> proc -> Prop :=
  | one_look x : pr_phase x = Looking -> one_step None x None (with_phase x Absent)
  | one_refuse x c : pr_phase x = Looking -> one_step (Some c) x (Some c) (with_phase x Refused)
  | one_create x f : pr_phase x = Absent ->
      one_step f x (Some []) (with_phase x (Coding (cinit (pr_threads x) (file_reader content) (mk_writer [] []))))
  | one_code x q q' c : pr_phase x = Coding q -> cstep (block_worker (pr_profile x) (pr_strategy x)) q q' ->
      one_step (Some c) x (Some (write_at c (length (handed q)) (skipn (length (handed q)) (handed q')))) (with_phase x (Coding q'))
  | one_finish x q r c : pr_phase x = Coding q -> c_pc q = MEnd r ->
      one_step (Some c) x (Some (write_at c (length (handed q)) (skipn (length (handed q)) (handed_in_the_end q))))
        (with_phase x (Finished (exit_of r))).

  (** the output file and the processes after some steps of any of them *)
  Inductive together (start : list proc) : option (list nat) -> list proc -> Prop :=
  | together_start : together start None start
  | together_step f before x after f' x' : together start f (before ++ x :: after) -> one_step f x f' x' ->
      together start f' (before ++ x' :: after).
End Shared.

(** * Several commands at the same time in one directory

    cli/src/main.rs:75-136 in several processes that share a directory: every step of one of
    them is a step of CliSteps.v on the directory as the others have left it.  [create_file]
    (main.rs:62-68) is one step here; Shared.v has it in two, for processes that want the
    same output.  Disks are ideal. *)
From Verif Require Import Base Bitwise SymbolStatistics BlockEncoder Stream Concurrency Cli CliSteps.

(** how the command was built and started, and the command *)
Record job := mk_job { jb_profile : profile; jb_cpus : nat; jb_command : command }.
Record running := mk_running { rn_job : job; rn_todo : list fname; rn_doing : activity }.
Definition start_job (j : job) : running :=
  mk_running j (match jb_command j with Decompress files => files | Compress files _ _ => files end) Next.

Inductive job_step : fs -> running -> fs -> running -> Prop :=
| job_acts j t a d t' a' d' : pstep (jb_profile j) (jb_cpus j) (jb_command j) (mk_process t a d) (mk_process t' a' d') ->
    job_step d (mk_running j t a) d' (mk_running j t' a').

(** the directory and the processes after some steps of any of them *)
Inductive at_once (jobs : list job) (d0 : fs) : fs -> list running -> Prop :=
| at_once_start : at_once jobs d0 d0 (map start_job jobs)
| at_once_step d before x after d' x' : at_once jobs d0 d (before ++ x :: after) -> job_step d x d' x' ->
    at_once jobs d0 d' (before ++ x' :: after).

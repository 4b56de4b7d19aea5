(** * The command line tool on names that are not plain files (cli/src/main.rs)

    Cli.v takes every name that exists for a plain file, which can be opened and is read to
    its end.  Here a name may also stand for something that can be opened but answers reads
    as it likes (a directory, a pipe, a device, a file on a failing disk), or that exists and
    cannot be opened.  Disks have enough space and files take every write; what an output
    file is created as is always a plain file. *)
From Verif Require Import Base Bitwise SymbolStatistics BlockEncoder BlockDecoder Stream Cli.

Inductive node :=
| Plain (content : list nat)
| Device (rd : reader)   (** its answers, from each [open] anew *)
| Locked.                (** [File::open] fails: permission denied *)

(** What Linux makes of [File::open] and [read] on a directory: it can be opened for
    reading, and every [read] fails (EISDIR). *)
Definition a_directory : node := Device (mk_reader [] true).

Definition tree := list (fname * node).
Fixpoint tree_get (d : tree) (f : fname) : option node :=
  match d with
  | [] => None
  | (g, x) :: tl => if nats_eqb g f then Some x else tree_get tl f
  end.
Fixpoint tree_set (d : tree) (f : fname) (x : node) : tree :=
  match d with
  | [] => [(f, x)]
  | (g, y) :: tl => if nats_eqb g f then (f, x) :: tl else (g, y) :: tree_set tl f x
  end.

(** main.rs:70-73 [open_file] *)
Definition open_node (d : tree) (f : fname) : option reader :=
  match tree_get d f with
  | Some (Plain content) => Some (file_reader content)
  | Some (Device rd) => Some rd
  | Some Locked | None => None
  end.

(** main.rs:62-68 [create_file]: [exists] is true of everything that has a name *)
Definition create_node (d : tree) (f : fname) : option tree :=
  match tree_get d f with
  | Some _ => None
  | None => Some (tree_set d f (Plain []))
  end.

(** The same reader seen through [read] with room for one byte, as [BitReaderImpl] uses it
    (bitreader.rs:52, 69; Bitwise.v [answer]).  An end of file is an error for [read_exact];
    what comes when the events are used up is one in any case. *)
Definition one_by_one (e : revent) : list answer :=
  match e with
  | RChunk [] => [AFail]
  | RChunk bs => map AByte bs
  | RFail => [AFail]
  | RInterrupted => [AInterrupted]
  end.
Definition byte_source (rd : reader) : list answer := flat_map one_by_one (r_events rd).

(** main.rs:78-84 *)
Definition decompress_node (p : profile) (d : tree) (f : fname) : exit * tree :=
  match open_node d f with
  | None => (ExitError, d)
  | Some rd =>
      let out := decompress_name f in
      match create_node d out with
      | None => (ExitError, d)
      | Some d =>
          let (r, w) := decode_source p (byte_source rd) (mk_writer [] []) in
          (match r with Ok _ => ExitOk | NoFuel => ExitNever | _ => ExitPanic end, tree_set d out (Plain (w_out w)))
      end
  end.

(** main.rs:91-123 *)
Definition compress_node (fuel : nat) (p : profile) (threads : nat) (st : strategy) (d : tree) (f : fname) : exit * tree :=
  match open_node d f with
  | None => (ExitError, d)
  | Some rd =>
      let out := compress_name f in
      match create_node d out with
      | None => (ExitError, d)
      | Some d =>
          let (r, w) := encode_stream fuel p rd (mk_writer [] []) threads st in
          (exit_of r, tree_set d out (Plain (w_out w)))
      end
  end.

(** main.rs:78, 91: the loop over the arguments *)
Fixpoint for_each_node (one : tree -> fname -> exit * tree) (files : list fname) (d : tree) : exit * tree :=
  match files with
  | [] => (ExitOk, d)
  | f :: tl =>
      match one d f with
      | (ExitOk, d) => for_each_node one tl d
      | other => other
      end
  end.

(** main.rs:75-128 *)
Definition node_main (fuel : nat) (p : profile) (cpus : nat) (c : command) (d : tree) : exit * tree :=
  match c with
  | Decompress input => for_each_node (decompress_node p) input d
  | Compress input threads options =>
      for_each_node (compress_node fuel p (match threads with Some n => n | None => cpus end)
                       (strategy_of_options options)) input d
  end.

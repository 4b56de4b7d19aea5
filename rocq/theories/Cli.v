(** * Model of cli/src/main.rs

    File names are paths: byte strings ([list nat]; 46 is the dot, 47 the slash), as in
    [std::path] on Unix.  A file has one path (no links, no second spelling such as [./a]
    for [a]).  The argument parser (structopt), [num_cpus] and messages on stderr are not
    modelled. *)
From Verif Require Import Base Bitwise SymbolStatistics Stream.

Definition fname := list nat.
Definition DOT : nat := 46.

Definition SLASH : nat := 47.

(** split at the last occurrence of [sep]: [Some (before, after)] *)
Fixpoint split_last (sep : nat) (f : fname) : option (fname * fname) :=
  match f with
  | [] => None
  | c :: tl =>
      match split_last sep tl with
      | Some (b, a) => Some (c :: b, a)
      | None => if c =? sep then Some ([], tl) else None
      end
  end.

(** [Path::file_name] (the last component, by [Components::next_back]): empty components
    and [.] are passed over from the end; [..], the root and a lone [.] are not names.
    Answers what is before the name in the path, and the name.  [fuel]: the length of the
    path, which bounds the number of components. *)
Fixpoint file_name_in (fuel : nat) (f : fname) : option (fname * fname) :=
  match fuel with
  | 0 => None
  | S fuel =>
      match split_last SLASH f with
      | Some (before, name) =>
          if nats_eqb name [] || nats_eqb name [DOT] then file_name_in fuel before
          else if nats_eqb name [DOT; DOT] then None else Some (before ++ [SLASH], name)
      | None =>
          if nats_eqb f [] || nats_eqb f [DOT] || nats_eqb f [DOT; DOT] then None else Some ([], f)
      end
  end.
Definition file_name_of (f : fname) : option (fname * fname) := file_name_in (S (length f)) f.

(** std::path [rsplit_file_at_dot]: [Path::file_stem] and [Path::extension]; a name
    whose only dot is its first character has no extension. *)
Definition file_stem (name : fname) : fname :=
  match split_last DOT name with
  | Some ([], _) | None => name
  | Some (before, _) => before
  end.
Definition extension (f : fname) : option fname :=
  match file_name_of f with
  | Some (_, name) =>
      match split_last DOT name with
      | Some ([], _) | None => None
      | Some (_, after) => Some after
      end
  | None => None
  end.

(** [PathBuf::set_extension]: the path is cut off at the end of the stem *)
Definition set_extension (f ext : fname) : fname :=
  match file_name_of f with
  | Some (before, name) =>
      before ++ match ext with
                | [] => file_stem name
                | _ => file_stem name ++ DOT :: ext
                end
  | None => f
  end.

Definition dot_bz2 : fname := [DOT; 98; 122; 50].     (* ".bz2" *)
Definition bz2 : fname := [98; 122; 50].              (* "bz2" *)

(** main.rs:93-107: the output name of [compress] *)
Definition compress_name (f : fname) : fname :=
  match extension f with
  | Some x => set_extension f (x ++ dot_bz2)
  | None => set_extension f bz2
  end.

(** main.rs:80-81: the output name of [decompress] *)
Definition decompress_name (f : fname) : fname := set_extension f [].

(** ** The file system: an association list from names to contents (regular files
    only; every existing file can be opened, every absent one created). *)
Definition fs := list (fname * list nat).

Fixpoint fs_get (d : fs) (f : fname) : option (list nat) :=
  match d with
  | [] => None
  | (g, c) :: tl => if nats_eqb g f then Some c else fs_get tl f
  end.

(** create or truncate, then fill *)
Fixpoint fs_set (d : fs) (f : fname) (c : list nat) : fs :=
  match d with
  | [] => [(f, c)]
  | (g, c0) :: tl => if nats_eqb g f then (f, c) :: tl else (g, c0) :: fs_set tl f c
  end.

(** How the process ends: normally (exit status 0), with an error message (exit
    status 1, main.rs:132-135), by a panic (exit status 101), or not within the
    fuel. *)
Inductive exit := ExitOk | ExitError | ExitPanic | ExitNever.

(** main.rs:62-68 [create_file]: refuse an existing name, otherwise create it empty *)
Definition create_file (d : fs) (f : fname) : option fs :=
  match fs_get d f with
  | Some _ => None
  | None => Some (fs_set d f [])
  end.

(** The disk as a file being written sees it.  [dk_answers]: the answers of the [write]
    calls on the [File] of [decompress] (as in Bitwise.v; everything is accepted once
    they are used up).  [dk_free]: [compress] writes through a [BufWriter], to a disk with
    that many free bytes ([None]: enough). *)
Record disk := mk_disk { dk_free : option N; dk_answers : list wresp }.
Definition ideal_disk : disk := mk_disk None [].

(** std [BufWriter] (capacity 8192) around a file, one byte per [write] (as
    [BitWriterImpl] does): a byte goes to the buffer; when the buffer is full it is
    flushed first, which fails (and is reported) when the disk is full.  So with [free]
    bytes of disk space the first [8192 * (free / 8192 + 1)] calls succeed and the next
    one fails. *)
Definition BUF_SIZE : N := 8192.
Definition buffered_answers (free : option N) : list wresp :=
  match free with
  | None => []
  | Some free => repeat (WAccept 1) (N.to_nat (BUF_SIZE * (free / BUF_SIZE + 1))) ++ [WFail]
  end.
(** What reaches the file, the flush on [drop] (whose errors are ignored) included: the
    accepted bytes as far as there is space. *)
Definition buffered_file (free : option N) (accepted : list nat) : list nat :=
  match free with
  | None => accepted
  | Some free => firstn (N.to_nat free) accepted
  end.

(** [File] as [Read]: everything, then end of file *)
Definition file_reader (content : list nat) : reader :=
  mk_reader (match content with [] => [] | _ => [RChunk content] end) false.

Definition exit_of (r : res unit) : exit :=
  match r with Ok _ => ExitOk | NoFuel => ExitNever | _ => ExitPanic end.

(** main.rs:78-84: one file of [decompress]; [unwrap] of an [Err] panics *)
Definition decompress_one (p : profile) (dk : disk) (d : fs) (f : fname) : exit * fs :=
  match fs_get d f with
  | None => (ExitError, d)
  | Some content =>
      let out := decompress_name f in
      match create_file d out with
      | None => (ExitError, d)
      | Some d =>
          let (r, w) := decode_stream p content (mk_writer (dk_answers dk) []) in
          (exit_of r, fs_set d out (w_out w))
      end
  end.

(** main.rs:91-123: one file of [compress] *)
Definition compress_one (fuel : nat) (p : profile) (dk : disk) (threads : nat) (st : strategy)
  (d : fs) (f : fname) : exit * fs :=
  match fs_get d f with
  | None => (ExitError, d)
  | Some content =>
      let out := compress_name f in
      match create_file d out with
      | None => (ExitError, d)
      | Some d =>
          let (r, w) := encode_stream fuel p (file_reader content)
                          (mk_writer (buffered_answers (dk_free dk)) []) threads st in
          (exit_of r, fs_set d out (buffered_file (dk_free dk) (w_out w)))
      end
  end.

(** main.rs:78, 91: the loop over the input files; [?] and panics end it. *)
Fixpoint for_each_file (one : fs -> fname -> exit * fs) (files : list fname) (d : fs)
  : exit * fs :=
  match files with
  | [] => (ExitOk, d)
  | f :: tl =>
      match one d f with
      | (ExitOk, d) => for_each_file one tl d
      | other => other
      end
  end.

(** main.rs:26-35, 112-120: the [EncodingOptions] sub-command; none means [Single] *)
Inductive encoding_options := OptSingle | OptKMeans (iterations num_tables : nat).
Definition strategy_of_options (o : option encoding_options) : strategy :=
  match o with
  | Some OptSingle | None => Single
  | Some (OptKMeans iterations num_tables) => BlockWise num_tables iterations
  end.

(** main.rs:10-24, 75-128 [try_main]; [cpus] is the answer of [num_cpus::get()] *)
Inductive command :=
| Decompress (input : list fname)
| Compress (input : list fname) (threads : option nat) (options : option encoding_options).

Definition try_main (fuel : nat) (p : profile) (cpus : nat) (dk : disk) (c : command) (d : fs) : exit * fs :=
  match c with
  | Decompress input => for_each_file (decompress_one p dk) input d
  | Compress input threads options =>
      for_each_file (compress_one fuel p dk (match threads with Some n => n | None => cpus end)
                       (strategy_of_options options)) input d
  end.

(** ** [create_file] in two steps

    main.rs:63 looks whether the file is there, main.rs:66 [File::create] creates it or
    truncates it; in between another process may change the directory ([others]). *)
Definition create_file_shared (others : fs -> fs) (d : fs) (f : fname) : option fs :=
  match fs_get d f with
  | Some _ => None
  | None => Some (fs_set (others d) f [])
  end.

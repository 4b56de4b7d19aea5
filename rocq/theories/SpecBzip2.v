(** * Specification: a bzip2 decompressor written from the format

    Independent of the model (it uses only [SpecBits], [SpecCrc] and [SpecRle]).
    It is a textbook decoder: every step answers [None] as soon as the input breaks
    a rule of the format. *)
From Verif Require Import Base SpecBits SpecCrc SpecRle.

Notation "'get!' x ':=' m 'in' k" := (match m with Some x => k | None => None end)
  (at level 200, x pattern, m at level 100, k at level 200, right associativity).

Definition guard (b : bool) : option unit := if b then Some tt else None.

(** the next [n] bits, and the number they stand for *)
Definition get_bits (n : nat) (bs : list bool) : option (list bool * list bool) :=
  if n <=? length bs then Some (firstn n bs, skipn n bs) else None.
Definition get_number (n : nat) (bs : list bool) : option (N * list bool) :=
  get! (x, bs) := get_bits n bs in Some (number x, bs).

(** ** the set of byte values used in a block: two levels of 16 flags *)
Fixpoint flagged (base : nat) (flags : list bool) : list nat :=
  match flags with
  | [] => []
  | b :: tl => (if b then [base] else []) ++ flagged (S base) tl
  end.
Fixpoint get_ranges (ranges : list nat) (bs : list bool) : option (list nat * list bool) :=
  match ranges with
  | [] => Some ([], bs)
  | r :: tl =>
      get! (x, bs) := get_bits 16 bs in
      get! (rest, bs) := get_ranges tl bs in
      Some (flagged (16 * r) x ++ rest, bs)
  end.
Definition get_used (bs : list bool) : option (list nat * list bool) :=
  get! (x, bs) := get_bits 16 bs in get_ranges (flagged 0 x) bs.

(** ** selectors: unary, move-to-front *)
Fixpoint get_unary (bs : list bool) : option (nat * list bool) :=
  match bs with
  | [] => None
  | false :: tl => Some (0, tl)
  | true :: tl => get! (k, bs) := get_unary tl in Some (S k, bs)
  end.
Fixpoint get_unaries (n : nat) (bs : list bool) : option (list nat * list bool) :=
  match n with
  | O => Some ([], bs)
  | S n' =>
      get! (k, bs) := get_unary bs in
      get! (ks, bs) := get_unaries n' bs in
      Some (k :: ks, bs)
  end.

Fixpoint unmove (ks : list nat) (front : list nat) : option (list nat) :=
  match ks with
  | [] => Some []
  | k :: tl =>
      get! x := nth_error front k in
      get! rest := unmove tl (x :: firstn k front ++ skipn (S k) front) in
      Some (x :: rest)
  end.

(** ** code lengths: a start value, then steps up (10) and down (11) ended by 0;
    every length must stay in 1..20 *)
Fixpoint get_length (cur : nat) (bs : list bool) : option (nat * list bool) :=
  if (1 <=? cur) && (cur <=? 20)
  then match bs with
       | false :: tl => Some (cur, tl)
       | true :: false :: tl => get_length (cur + 1) tl
       | true :: true :: tl => get_length (cur - 1) tl
       | _ => None
       end
  else None.
Fixpoint get_lengths (n : nat) (cur : nat) (bs : list bool) : option (list nat * list bool) :=
  match n with
  | O => Some ([], bs)
  | S n' =>
      get! (l, bs) := get_length cur bs in
      get! (ls, bs) := get_lengths n' l bs in
      Some (l :: ls, bs)
  end.
Definition get_table (n : nat) (bs : list bool) : option (list nat * list bool) :=
  get! (start, bs) := get_number 5 bs in get_lengths n (N.to_nat start) bs.
Fixpoint get_tables (k n : nat) (bs : list bool) : option (list (list nat) * list bool) :=
  match k with
  | O => Some ([], bs)
  | S k' =>
      get! (t, bs) := get_table n bs in
      get! (ts, bs) := get_tables k' n bs in
      Some (t :: ts, bs)
  end.

(** ** canonical prefix codes: shorter codes first, equal lengths in symbol order *)
Definition count_length (ls : list nat) (l : nat) : N := N.of_nat (count_occ Nat.eq_dec ls l).
Fixpoint first_code (ls : list nat) (l : nat) : N :=
  match l with
  | O => 0
  | S l' => (2 * (first_code ls l' + count_length ls l'))%N
  end.
Definition code_of (ls : list nat) (i : nat) : N :=
  let l := nth i ls 0 in (first_code ls l + count_length (firstn i ls) l)%N.

(** the lengths are those of a prefix code (Kraft's inequality, lengths up to 20) *)
Definition prefix_lengths (ls : list nat) : bool :=
  (fold_right (fun l sum => 2 ^ N.of_nat (20 - l) + sum) 0 ls <=? 2 ^ 20)%N.

(** one symbol: extend the bits read until they are the code of some symbol *)
Definition symbol_with (ls : list nat) (len : nat) (v : N) : option nat :=
  find (fun i => (nth i ls 0 =? len) && (code_of ls i =? v)%N) (seq 0 (length ls)).
Fixpoint get_symbol (ls : list nat) (len : nat) (v : N) (bs : list bool) : option (nat * list bool) :=
  match bs with
  | [] => None
  | b :: tl =>
      let len := S len in
      let v := (2 * v + (if b then 1 else 0))%N in
      match symbol_with ls len v with
      | Some i => Some (i, tl)
      | None => get_symbol ls len v tl
      end
  end.

(** up to [n] symbols; the flag tells whether the end-of-block symbol was met *)
Fixpoint get_group (n : nat) (ls : list nat) (eob : nat) (bs : list bool)
  : option (list nat * bool * list bool) :=
  match n with
  | O => Some ([], false, bs)
  | S n' =>
      get! (s, bs) := get_symbol ls 0 0 bs in
      if s =? eob then Some ([], true, bs)
      else get! (ss, ended, bs) := get_group n' ls eob bs in Some (s :: ss, ended, bs)
  end.
(** groups of 50 symbols, each coded with the table its selector names; also how many
    selectors are left when the end-of-block symbol is met *)
Fixpoint get_symbols (selectors : list nat) (tables : list (list nat)) (eob : nat) (bs : list bool)
  : option (list nat * nat * list bool) :=
  match selectors with
  | [] => None
  | s :: tl =>
      get! ls := nth_error tables s in
      get! (ss, ended, bs) := get_group 50 ls eob bs in
      if (ended : bool) then Some (ss, length tl, bs)
      else get! (rest, unused, bs) := get_symbols tl tables eob bs in Some (ss ++ rest, unused, bs)
  end.

(** ** zero runs: symbols 0 and 1 are the digits 1 and 2 of a run length in
    bijective base two, least significant first; symbol s >= 2 is index s - 1 *)
Fixpoint unrun (syms : list nat) (weight run : nat) : list nat :=
  match syms with
  | [] => repeat 0 run
  | s :: tl =>
      if s =? 0 then unrun tl (2 * weight) (run + weight)
      else if s =? 1 then unrun tl (2 * weight) (run + 2 * weight)
      else repeat 0 run ++ (s - 1) :: unrun tl 1 0
  end.

(** ** inverse block sort: rebuild the sorted matrix of rotations column by column *)
Fixpoint row_leb (a b : list nat) : bool :=
  match a, b with
  | [], _ => true
  | _ :: _, [] => false
  | x :: a', y :: b' => if x <? y then true else if y <? x then false else row_leb a' b'
  end.
Fixpoint insert_row (r : list nat) (rows : list (list nat)) : list (list nat) :=
  match rows with
  | [] => [r]
  | x :: tl => if row_leb r x then r :: rows else x :: insert_row r tl
  end.
Definition sort_rows (rows : list (list nat)) : list (list nat) := fold_right insert_row [] rows.
Fixpoint rebuild (k : nat) (col : list nat) : list (list nat) :=
  match k with
  | O => map (fun _ => []) col
  | S k' => sort_rows (map (fun x => fst x :: snd x) (combine col (rebuild k' col)))
  end.
Definition unsort (col : list nat) (ptr : nat) : option (list nat) :=
  nth_error (rebuild (length col) col) ptr.

(** ** one block, after its magic number *)

(** what a block holds: the original data, the checksum, the run-length coded data
    before expansion, and the number of selectors left over *)
Record parsed := mk_parsed { pb_contents : list nat; pb_crc : N; pb_coded : list nat; pb_unused : nat }.

Definition get_block (level : N) (bs : list bool) : option (parsed * list bool) :=
  get! (crc, bs) := get_number 32 bs in
  get! (randomised, bs) := get_number 1 bs in
  get! _ := guard (randomised =? 0)%N in
  get! (ptr, bs) := get_number 24 bs in
  get! (used, bs) := get_used bs in
  get! _ := guard (1 <=? length used) in
  get! (tables, bs) := get_number 3 bs in
  get! _ := guard ((2 <=? tables) && (tables <=? 6))%N in
  get! (selectors, bs) := get_number 15 bs in
  get! _ := guard (1 <=? selectors)%N in
  get! (moved, bs) := get_unaries (N.to_nat selectors) bs in
  get! sel := unmove moved (seq 0 (N.to_nat tables)) in
  get! (ts, bs) := get_tables (N.to_nat tables) (length used + 2) bs in
  get! _ := guard (forallb prefix_lengths ts) in
  get! (syms, unused, bs) := get_symbols sel ts (length used + 1) bs in
  get! col := unmove (unrun syms 1 0) used in
  get! _ := guard (N.of_nat (length col) <=? 100000 * level)%N in
  get! block := unsort col (N.to_nat ptr) in
  let contents := rle1_expand block in
  get! _ := guard (crc32_bzip2 contents =? crc)%N in
  Some (mk_parsed contents crc block unused, bs).

(** ** the stream *)
Definition BLOCK_MAGIC : N := 54156738319193.   (* 0x314159265359, pi *)
Definition FOOTER_MAGIC : N := 25779555029136.  (* 0x177245385090, sqrt(pi) *)

(** blocks up to the footer, which holds the combined checksum; [crcs] are the
    checksums of the blocks so far *)
Fixpoint get_blocks (fuel : nat) (level : N) (crcs : list N) (bs : list bool)
  : option (list parsed * list bool) :=
  match fuel with
  | O => None
  | S fuel' =>
      get! (magic, bs) := get_number 48 bs in
      if (magic =? BLOCK_MAGIC)%N then
        get! (block, bs) := get_block level bs in
        get! (rest, bs) := get_blocks fuel' level (crcs ++ [pb_crc block]) bs in
        Some (block :: rest, bs)
      else if (magic =? FOOTER_MAGIC)%N then
        get! (crc, bs) := get_number 32 bs in
        get! _ := guard (crc =? combined_crc crcs)%N in
        Some ([], bs)
      else None
  end.

(** a whole file holding one stream: [BZh], the level digit, blocks and footer,
    and less than one byte of padding *)
Definition bunzip2_blocks (file : list nat) : option (list parsed) :=
  match file with
  | 66 :: 90 :: 104 :: digit :: tl =>
      get! _ := guard ((49 <=? digit) && (digit <=? 57)) in
      let bs := bits_of tl in
      get! (blocks, rest) := get_blocks (S (length bs)) (N.of_nat (digit - 48)) [] bs in
      get! _ := guard (length rest <? 8) in
      Some blocks
  | _ => None
  end.
Definition contents_of (blocks : list parsed) : list nat := concat (map pb_contents blocks).
Definition bunzip2 (file : list nat) : option (list nat) :=
  get! blocks := bunzip2_blocks file in Some (contents_of blocks).

(** the number of coding tables a block announces; [bs] starts after its magic number *)
Definition announced_tables (bs : list bool) : option N :=
  get! (_, bs) := get_number 32 bs in
  get! (_, bs) := get_number 1 bs in
  get! (_, bs) := get_number 24 bs in
  get! (_, bs) := get_used bs in
  get! (tables, _) := get_number 3 bs in
  Some tables.

(** at bit position [pos] there is a block magic number followed by the checksum of
    [contents] *)
Definition checksum_stored_at (bits : list bool) (pos : nat) (contents : list nat) : Prop :=
  pos + 80 <= length bits /\
  number (firstn 48 (skipn pos bits)) = BLOCK_MAGIC /\
  number (firstn 32 (skipn (pos + 48) bits)) = crc32_bzip2 contents.

(** positions in increasing order, from [from] on, each at least 80 bits (magic number and
    checksum) after the one before *)
Fixpoint spaced (from : nat) (positions : list nat) : Prop :=
  match positions with
  | [] => True
  | x :: tl => from <= x /\ spaced (x + 80) tl
  end.

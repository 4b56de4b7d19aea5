(** * Model of lib/src/block/huffman/huffman_internal.rs and reader.rs *)
From Verif Require Import Base Bitwise Zle SymbolStatistics PackageMerge.

(** huffman_internal.rs:10-14 [HuffmanSymbol] (derived [Ord]: NormalSymbol < EoB) *)
Inductive hsym := Normal (s : zsym) | EoB.
Definition hsym_eqb (a b : hsym) : bool :=
  match a, b with
  | Normal x, Normal y => zsym_eqb x y
  | EoB, EoB => true
  | _, _ => false
  end.
Definition hsym_compare (a b : hsym) : comparison :=
  match a, b with
  | Normal x, Normal y => zsym_compare x y
  | Normal _, EoB => Lt
  | EoB, Normal _ => Gt
  | EoB, EoB => Eq
  end.
Definition hsym_leb (a b : hsym) : bool :=
  match hsym_compare a b with Gt => false | _ => true end.

(** huffman_internal.rs:16-20 [CodeTableEntry] (code length, symbol) and 22-26
    [CanonicalCodeTableEntry] (code bits, symbol) *)
Definition code_table := list (nat * hsym).
Definition canonical_table := list (list bool * hsym).

(** huffman_internal.rs:76-86: break ties, left to right *)
Fixpoint break_ties (last : option N) (freqs : list (hsym * N)) : list (hsym * N) :=
  match freqs with
  | [] => []
  | (s, f) :: tl =>
      let f' := match last with
                | Some lf => if (f <=? lf)%N then (f + (lf - f + 1))%N else f
                | None => f
                end in
      (s, f') :: break_ties (Some f') tl
  end.

(** huffman_internal.rs:57-103 [compute_huffman] *)
Definition compute_huffman (frequencies : list N) : res code_table :=
  let table := map (fun x => (Normal (fst x), snd x)) (iterate_frequencies frequencies)
               ++ [(EoB, 0%N)] in
  let table := sort_by (fun x y => (snd x <=? snd y)%N) table in
  let table := break_ties None table in
  let! code_lengths := compute_lis (map snd table) 17 in
  Ok (combine code_lengths (map fst table)).

(** huffman_internal.rs:38-46: order on (code length, symbol) *)
Definition entry_order (x y : nat * hsym) : bool :=
  match Nat.compare (fst x) (fst y) with
  | Lt => true
  | Gt => false
  | Eq => hsym_leb (snd x) (snd y)
  end.

(** huffman_internal.rs:124-139: the loop of [canonicalize] *)
Fixpoint assign_codes (p : profile) (last : list bool) (entries : code_table)
  : res canonical_table :=
  match entries with
  | [] => Ok []
  | (len, symbol) :: tl =>
      let! unpadded := increment_symbol p last in
      let code := unpadded ++ repeat false (len - length unpadded) in
      let! rest := assign_codes p code tl in
      Ok ((code, symbol) :: rest)
  end.

(** huffman_internal.rs:109-143 [canonicalize] *)
Definition canonicalize (p : profile) (table : code_table) : res canonical_table :=
  match sort_by entry_order table with
  | [] => Panic
  | (len, symbol) :: tl =>
      let first := repeat false len in
      let! rest := assign_codes p first tl in
      Ok (sort_by (fun x y => hsym_leb (snd x) (snd y)) ((first, symbol) :: rest))
  end.

(** huffman_internal.rs:145-165 [from_weights].  [code_lengths.len() - 3]
    underflows below three entries: a panic (checked) or the start of an
    astronomically long [collect] that panics at [u8::try_from(256)] (wrapping).
    Up to 258 entries [u8::try_from(x).unwrap() + 1u8] is exact; with more
    entries it fails. *)
Definition from_weights (code_lengths : list nat) : res code_table :=
  let len := length code_lengths in
  if len <? 3 then Panic else
  if 258 <? len then Panic else
  let symbols := [Normal RunA; Normal RunB]
                 ++ map (fun x => Normal (Number (x + 1))) (seq 0 (len - 3))
                 ++ [EoB] in
  Ok (combine code_lengths symbols).

(** ** reader.rs *)

(** [symbols == entry.code] *)
Fixpoint bits_eqb (a b : list bool) : bool :=
  match a, b with
  | [], [] => true
  | x :: ta, y :: tb => Bool.eqb x y && bits_eqb ta tb
  | _, _ => false
  end.

(** reader.rs:49-59 [read_from_table] *)
Definition read_from_table (table : canonical_table) (symbols : list bool) : option hsym :=
  option_map snd (find_first (fun e => bits_eqb symbols (fst e)) table).

(** reader.rs:28-44: the loop of [read_symbols]; every iteration consumes a bit,
    which bounds the fuel. *)
Fixpoint read_symbols_loop (fuel : nat) (r : bit_reader) (table : canonical_table)
  (max_number : nat) (all_symbols : list zsym) (current_symbol : list bool) (symbols_read : nat)
  : res (list zsym * bit_reader) :=
  match fuel with
  | O => NoFuel
  | S fuel' =>
      let! (read, r') := read_bits r 1 in
      let current_symbol := current_symbol ++ read in
      match read_from_table table current_symbol with
      | Some EoB => Ok (all_symbols, r')
      | Some (Normal s) =>
          let all_symbols := all_symbols ++ [s] in
          if S symbols_read =? max_number then Ok (all_symbols, r')
          else read_symbols_loop fuel' r' table max_number all_symbols [] (S symbols_read)
      | None =>
          if symbols_read =? max_number then Ok (all_symbols, r')
          else read_symbols_loop fuel' r' table max_number all_symbols current_symbol symbols_read
      end
  end.

(** reader.rs:19-46 [read_symbols] *)
Definition read_symbols (r : bit_reader) (table : canonical_table) (max_number : nat)
  : res (list zsym * bit_reader) :=
  read_symbols_loop (S (bits_left r)) r table max_number [] [] 0.

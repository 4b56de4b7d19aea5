(** * Model of lib/src/block/symbol_map.rs *)
From Verif Require Import Base Bitwise.

(** symbol_map.rs:13-25, one symbol: [used_symbols_details[value / 16]] gets bit
    [value % 16] *)
Definition mark_symbol (details : list (option (list bool))) (value : nat)
  : res (list (option (list bool))) :=
  let table_number := value / 16 in
  let entry_in_table := value mod 16 in
  let! d := get_at details table_number in
  let given := match d with Some given => given | None => repeat false 16 end in
  let! given := set_at given entry_in_table true in
  set_at details table_number (Some given).

(** symbol_map.rs:3-43 [get_symbol_table] (writer side; the two [sort_unstable]
    calls sort copies that are never read) *)
Definition write_symbol_table (table : list nat) : res (list bool) :=
  let! details := fold_res mark_symbol table (repeat None 16) in
  let out_region := map (fun d => match d with Some _ => true | None => false end) details in
  let out_detail := flat_map (fun d => match d with Some l => l | None => [] end) details in
  Ok (out_region ++ out_detail).

(** symbol_map.rs:45-53 [get_used_regions] (16 bits, so [try_into] cannot fail) *)
Definition get_used_regions (input : list bool) : list nat :=
  map fst (filter (fun x => snd x) (enumerate input)).

(** symbol_map.rs:55-65 [get_used_symbols_from_regions]; [region * 16 + position]
    is at most 255 because regions are below 16. *)
Definition get_used_symbols_from_regions (regions : list nat) (input : list bool) : list nat :=
  flat_map (fun x : nat * nat * bool =>
              let '(position, region, used) := x in
              if used then [region * 16 + position] else [])
           (combine (flat_map (fun region => map (fun position => (position, region)) (seq 0 16))
                              regions)
                    input).

(** symbol_map.rs:75-80 [get_symbol_table] (reader side) *)
Definition read_symbol_table (r : bit_reader) : res (list nat * bit_reader) :=
  let! (index, r) := read_bits r 16 in
  let used_regions := get_used_regions index in
  let! (regions, r) := read_bits r (16 * length used_regions) in
  Ok (get_used_symbols_from_regions used_regions regions, r).

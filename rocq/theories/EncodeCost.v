(** * The compressor with its steps counted

    Every definition is the one without [c_] of the model file named in its section, with
    the steps of Cost.v counted; EncodeCostFacts.v proves that the results are the same.
    Vectors grow by [push] and [append] in amortised constant time per entry; an operation
    on a hash map counts one step; freeing memory is not counted. *)
From Verif Require Import Base Bitwise Rle Crc32 Bwt Mtf Zle Float32 KMeans SymbolStatistics PackageMerge Huffman
  CodeTable SymbolMap Selectors BlockEncoder Stream Cost BwtCost.

(** [to_vec], [clone], [collect] of plain entries *)
Definition c_copy {A} (l : list A) : counted (list A) := takes (length l) (Ok l).
(** [a.append(&mut b)] *)
Definition c_append {A} (a b : list A) : counted (list A) := takes (length b) (Ok (a ++ b)).
(** [sort], [sort_by], [sort_unstable]: charged [4 n^2], what a plain insertion sort needs;
    std's sorts need fewer steps *)
Definition c_sort {A} (leb : A -> A -> bool) (l : list A) : counted (list A) :=
  takes (4 * (length l * length l)) (Ok (sort_by leb l)).
(** [iter().find(p)]: a turn and a read per entry looked at *)
Fixpoint c_find_first {A} (p : A -> bool) (l : list A) : counted (option A) :=
  match l with
  | [] => done None
  | x :: tl => steps 2 (if p x then done (Some x) else c_find_first p tl)
  end.

(** ** Mtf (lib/src/block/mtf.rs) *)

(** mtf.rs:24-39: the flags are read once, the used symbols copied and sorted *)
Definition c_create_dict (input : list nat) : counted (list nat * list nat) :=
  let? flags := c_new false 256 in
  let? flags := cfold (fun flags i => c_set flags i true) input flags in
  let? used_symbols := takes (2 * length flags) (Ok (used_from_flags flags)) in
  let? dict_vec := c_copy used_symbols in
  let? dict_vec := c_sort Nat.leb dict_vec in
  done (dict_vec, used_symbols).

(** mtf.rs:41-44; [VecDeque::remove] moves at most [position] entries *)
Definition c_bring_to_front_of_dict (position : nat) (dict : list nat) : counted (list nat) :=
  let? el := c_get dict position in
  takes (position + 1) (Ok (el :: firstn position dict ++ skipn (S position) dict)).

(** mtf.rs:46-55 *)
Fixpoint c_find_pos (i : nat) (dict : list nat) : counted nat :=
  match dict with
  | [] => (Panic, 0)
  | d :: tl => steps 2 (if d =? i then done 0 else let? k := c_find_pos i tl in done (S k))
  end.

(** mtf.rs:12-16: a turn, a read and a push *)
Fixpoint c_mtf_loop (input dict : list nat) : counted (list nat) :=
  match input with
  | [] => done []
  | value :: tl =>
      let? pos := steps 3 (c_find_pos value dict) in
      let? dict' := c_bring_to_front_of_dict pos dict in
      let? out := c_mtf_loop tl dict' in
      done (pos :: out)
  end.

(** mtf.rs:3-22 *)
Definition c_mtf (input : list nat) : counted (list nat * list nat) :=
  let? (dict, used_symbols) := c_create_dict input in
  let? encoded := c_mtf_loop input dict in
  done (encoded, used_symbols).

(** ** Zle (lib/src/block/zle.rs) *)

(** zle.rs:63-73: a turn and a push for every binary digit, then a copy *)
Definition c_encode_zero_amount (number_of_zeros : nat) : counted (list zsym) :=
  takes (3 * length (low_bits (N.of_nat number_of_zeros + 1))) (Ok (encode_zero_amount number_of_zeros)).

(** zle.rs:75-109 *)
Section ZleTransform.
  Variable R : Type.
  Variable c_report : R -> zsym -> counted R.

  (** zle.rs:87-91: clone, extend, report *)
  Definition c_emit_all (st : list zsym * R) (syms : list zsym) : counted (list zsym * R) :=
    steps (2 * length syms)
    (let? r := cfold c_report syms (snd st) in
     done (fst st ++ syms, r)).

  Fixpoint c_zle_loop (input : list nat) (zero_count : nat) (st : list zsym * R)
    : counted (nat * (list zsym * R)) :=
    match input with
    | [] => done (zero_count, st)
    | i :: tl =>
        steps 2
        (if i =? 0 then c_zle_loop tl (zero_count + 1) st
         else
          let? st := if 0 <? zero_count
                     then let? syms := c_encode_zero_amount zero_count in c_emit_all st syms
                     else done st in
          let? st := c_emit_all st [Number i] in
          c_zle_loop tl 0 st)
    end.

  Definition c_zle_transform (input : list nat) (reporter : R) : counted (list zsym * R) :=
    let? (zero_count, st) := c_zle_loop input 0 ([], reporter) in
    let? (out, r) := if 0 <? zero_count
                     then let? syms := c_encode_zero_amount zero_count in c_emit_all st syms
                     else done st in
    let? r := c_report r RunA in
    done (out, r).
End ZleTransform.

(** ** SymbolStatistics, KMeans (lib/src/block/symbol_statistics) *)

(** mod.rs:35-48 *)
Definition c_single_report (m : single_map) (s : zsym) : counted single_map :=
  let? f := c_get (sg_freq m) (symbol_index s) in
  let? freq := c_set (sg_freq m) (symbol_index s) (f + 1)%N in
  done (mk_single freq (sg_count m + 1)).

(** mod.rs:50-58: the frequencies are copied twice, the selectors created *)
Definition c_single_finalize (m : single_map) : counted reported :=
  takes (2 * length (sg_freq m) + length (snd (single_finalize m))) (Ok (single_finalize m)).

(** mod.rs:84-104 *)
Definition c_blockwise_report (m : blockwise_map) (s : zsym) : counted blockwise_map :=
  let? f := c_get (bm_current m) (symbol_index s) in
  let? current := c_set (bm_current m) (symbol_index s) (f + 1) in
  let counter := bm_counter m + 1 in
  if 50 <=? counter
  then let? fresh := c_new 0 (bm_size m + 1) in
       let? maps := c_append (bm_maps m) [current] in
       done (mk_blockwise fresh maps (bm_size m) 0 (bm_iterations m) (bm_clusters m))
  else done (mk_blockwise current (bm_maps m) (bm_size m) counter (bm_iterations m) (bm_clusters m)).

(** kmeansclustering.rs:93-99: a turn and two reads per coordinate *)
Definition c_euclidean_distance (v1 : list f32) (v2 : list nat) : counted f32 :=
  takes (3 * length (combine v1 v2)) (Ok (euclidean_distance v1 v2)).

(** kmeansclustering.rs:38-53 *)
Fixpoint c_nearest (centers : list (list f32)) (point : list nat) (number : nat)
  (best : nat * option f32) : counted nat :=
  match centers with
  | [] => done (fst best)
  | center :: tl =>
      let? distance := steps 1 (c_euclidean_distance center point) in
      let best' :=
        match snd best with
        | Some m => if f32_lt distance m then (number, Some distance) else best
        | None => (number, Some distance)
        end in
      c_nearest tl point (S number) best'
  end.

(** kmeansclustering.rs:37-56: the assignment is written *)
Definition c_assign_all (centers : list (list f32)) (data : list (list nat)) : counted (list nat) :=
  cmap (fun point => let? a := c_nearest centers point 0 (0, None) in step (Ok (a mod 256))) data.

(** kmeansclustering.rs:68-74: a turn, two reads and a write per coordinate *)
Definition c_mean_update (size : nat) (center : list f32) (point : list nat) : counted (list f32) :=
  takes (4 * length (combine center point)) (Ok (mean_update size center point)).

(** kmeansclustering.rs:66-76 *)
Definition c_update_step (st : list (list f32) * list nat) (da : list nat * nat)
  : counted (list (list f32) * list nat) :=
  let (centers, sizes) := st in
  let (point, a) := da in
  let? size := c_get sizes a in
  let? center := c_get centers a in
  let? center' := c_mean_update size center point in
  let? centers' := c_set centers a center' in
  let? sizes' := c_set sizes a (size + 1) in
  done (centers', sizes').

(** kmeansclustering.rs:35-77 *)
Definition c_kmeans_iteration (dimension num_clusters : nat) (data : list (list nat))
  (st : list (list f32) * list nat) : counted (list (list f32) * list nat) :=
  let? assignments := c_assign_all (fst st) data in
  let? cleared := takes (length (fst st) * (dimension + 2))
                        (Ok (map (fun _ => repeat f32_zero dimension) (fst st))) in
  let? sizes := c_new 0 num_clusters in
  let? (centers, _) := cfold c_update_step (combine data assignments) (cleared, sizes) in
  done (centers, assignments).

(** kmeansclustering.rs:23-31 *)
Definition c_initial_center (data : list (list nat)) (num_clusters i : nat) : counted (list f32) :=
  let? row := c_get data (i * length data / num_clusters) in
  takes (2 * length row + 1) (Ok (map (fun x => f32_of_N (N.of_nat x)) row)).

(** kmeansclustering.rs:20-90, and the copy of the means in mod.rs:120-128 *)
Definition c_kmeans_solve (dimension : nat) (data : list (list nat)) (num_iterations num_clusters : nat)
  : counted (list (list N) * list nat) :=
  let? centers := cmap (c_initial_center data num_clusters) (seq 0 num_clusters) in
  let? assignments := c_new 0 (length data) in
  let? (centers, assignments) :=
    cfold (fun st _ => c_kmeans_iteration dimension num_clusters data st)
          (repeat tt num_iterations) (centers, assignments) in
  let? means := cmap (fun center => takes (4 * length center + 2)
                  (Ok (map (fun x => f32_to_usize (f32_mul x (f32_of_N 10000))) center))) centers in
  done (means, assignments).

(** mod.rs:106-130 *)
Definition c_blockwise_finalize (m : blockwise_map) : counted reported :=
  let? fresh := c_new 0 (bm_size m + 1) in
  let? maps := c_append (bm_maps m) [bm_current m] in
  c_kmeans_solve (bm_size m + 1) maps (bm_iterations m) (bm_clusters m).

(** block_encoder.rs:33-49 *)
Definition c_zle_with_strategy (st : strategy) (encoded : list nat) (used : nat)
  : counted (list zsym * reported) :=
  match st with
  | BlockWise num_clusters num_iterations =>
      let? current := c_new 0 (used + 1) in
      let? (syms, r) := c_zle_transform c_blockwise_report encoded
                          (mk_blockwise current [] used 0 num_iterations num_clusters) in
      let? rep := c_blockwise_finalize r in
      done (syms, rep)
  | Single =>
      let? freq := c_new 0%N (used + 1) in
      let? (syms, r) := c_zle_transform c_single_report encoded (mk_single freq 0) in
      let? rep := c_single_finalize r in
      done (syms, rep)
  end.

(** ** PackageMerge (lib/src/block/huffman/package_merge.rs) *)

(** the number of boxes of an entry; cloning an entry copies all of them *)
Fixpoint entry_nodes (e : coin_entry) : nat :=
  match e with
  | One _ _ => 1
  | Two _ l r => S (entry_nodes l + entry_nodes r)
  end.
Definition list_nodes (l : list coin_entry) : nat := list_sum (map entry_nodes l).

(** package_merge.rs:111-121: [left.append(&mut right)] moves the coins of the right side *)
Fixpoint c_flatten_entry (e : coin_entry) : counted (list coin) :=
  match e with
  | One _ c => steps 1 (done [c])
  | Two _ l r =>
      let? left_coins := steps 1 (c_flatten_entry l) in
      let? right_coins := c_flatten_entry r in
      c_append left_coins right_coins
  end.

(** package_merge.rs:75-91: both iterators run over the list; a pair is cloned and pushed *)
Fixpoint c_package_pairs (l : list coin_entry) : counted (list coin_entry) :=
  match l with
  | a :: b :: tl =>
      let? package := takes (6 + entry_nodes a + entry_nodes b)
                            (Ok (Two (entry_value a + entry_value b)%N a b)) in
      let? rest := c_package_pairs tl in
      done (package :: rest)
  | _ => takes 2 (Ok [])
  end.

(** package_merge.rs:66-92; the coins of the denomination have been collected (see
    [c_package_merge]) and are sorted (package_merge.rs:58-60), the packages are appended,
    the list is sorted again and cloned ([last = list.to_vec()]) *)
Definition c_merge_level (coins : list coin) (st : list coin_entry * list coin_entry) (e : nat)
  : counted (list coin_entry * list coin_entry) :=
  let? own := c_sort entry_leb
                (map (fun c => One (coin_value c) c) (filter (fun c => coin_exp c =? e) coins)) in
  let? joined := c_append own (fst st) in
  let? lst := c_sort entry_leb joined in
  let? last := takes (list_nodes lst) (Ok lst) in
  let? packages := c_package_pairs lst in
  done (packages, last).

(** package_merge.rs:38-96: the largest denomination is searched (one read and turn per
    coin), the map is filled with empty lists (2 steps each), every coin is put into its
    list (turn, read, lookup, push), the keys are copied, sorted and reversed *)
Definition c_package_merge (coins : list coin) : counted (list (list coin)) :=
  match coins with
  | [] => (Panic, 0)
  | _ =>
      let? max_exp := takes (2 * length coins) (Ok (fold_left Nat.max (map coin_exp coins) 0)) in
      let? _ := takes (2 * (max_exp + 1) + 4 * length coins) (Ok tt) in
      let? keys := c_sort Nat.leb (seq 0 (max_exp + 1)) in
      let? keys := takes (2 * length keys) (Ok (rev (seq 0 (max_exp + 1)))) in
      let? st := cfold (c_merge_level coins) keys ([], []) in
      cmap c_flatten_entry (snd st)
  end.

(** package_merge.rs:7-34: the coins are pushed; the chosen packages are collected; for
    every weight all coins of the solution are inspected *)
Definition c_compute_lis (weights : list N) (limit : nat) : counted (list nat) :=
  let? coins := takes (limit + 3 * (limit * length weights)) (Ok (make_coins weights limit)) in
  let? packages := c_package_merge coins in
  let? solution := takes (2 * length (concat (firstn (length weights - 1) packages)) + length packages)
                         (Ok (concat (firstn (length weights - 1) packages))) in
  cmap (fun w => takes (2 * length solution + 2)
                       (Ok (length (filter (fun c => (coin_value c =? w)%N) solution)))) weights.

(** ** Huffman (lib/src/block/huffman/huffman_internal.rs) *)

(** huffman_internal.rs:57-103: collecting the entries, sorting, breaking ties (turn, two
    reads, two writes), collecting the weights, zipping (turn, two reads, push) *)
Definition c_compute_huffman (frequencies : list N) : counted code_table :=
  let? table := takes (3 * length frequencies + 1)
                  (Ok (map (fun x => (Normal (fst x), snd x)) (iterate_frequencies frequencies)
                       ++ [(EoB, 0%N)])) in
  let? table := c_sort (fun x y => (snd x <=? snd y)%N) table in
  let? table := takes (5 * length table) (Ok (break_ties None table)) in
  let? weights := takes (2 * length table) (Ok (map snd table)) in
  let? code_lengths := c_compute_lis weights 17 in
  takes (4 * length table) (Ok (combine code_lengths (map fst table))).

(** bitwriter.rs:68-78: a turn and a read per digit *)
Definition c_convert_to_number (p : profile) (input : list bool) : counted N :=
  takes (2 * length input) (convert_to_number p input).
(** bitwriter.rs:127-141: turn and push, padding, reversal *)
Definition c_convert_to_code_pad_to_n_bits (input : N) (n : nat) : counted (list bool) :=
  takes (4 * length (convert_to_code_pad_to_n_bits input n)) (Ok (convert_to_code_pad_to_n_bits input n)).
(** bitwriter.rs:143-146 *)
Definition c_increment_symbol (p : profile) (input : list bool) : counted (list bool) :=
  let? v := c_convert_to_number p input in
  if (v + 1 =? two64)%N
  then match p with
       | Checked => (Panic, 0)
       | Wrapping => c_convert_to_code_pad_to_n_bits 0 (length input)
       end
  else c_convert_to_code_pad_to_n_bits (v + 1) (length input).

(** huffman_internal.rs:124-139: the padding is pushed, the code cloned, the entry pushed *)
Fixpoint c_assign_codes (p : profile) (last : list bool) (entries : code_table)
  : counted canonical_table :=
  match entries with
  | [] => done []
  | (len, symbol) :: tl =>
      let? unpadded := steps 2 (c_increment_symbol p last) in
      let? code := takes (2 * (len - length unpadded))
                         (Ok (unpadded ++ repeat false (len - length unpadded))) in
      let? _ := takes (length code + 1) (Ok tt) in
      let? rest := c_assign_codes p code tl in
      done ((code, symbol) :: rest)
  end.

(** huffman_internal.rs:109-143 *)
Definition c_canonicalize (p : profile) (table : code_table) : counted canonical_table :=
  let? sorted := c_sort entry_order table in
  match sorted with
  | [] => (Panic, 0)
  | (len, symbol) :: tl =>
      let? first := takes (2 * len + 2) (Ok (repeat false len)) in
      let? rest := c_assign_codes p first tl in
      c_sort (fun x y => hsym_leb (snd x) (snd y)) ((first, symbol) :: rest)
  end.

(** ** CodeTable (lib/src/block/code_table.rs, delta.rs) *)

(** cloning a table copies all codes *)
Definition table_size (table : canonical_table) : nat := list_sum (map (fun e => length (fst e) + 1) table).

(** code_table.rs:14-52, delta.rs:20-58: the lengths are collected and copied, the changes
    pushed (turn and push each), translated, collected and appended *)
Definition c_encode_code_table (table : canonical_table) : counted (list bool) :=
  takes (6 * length table + 6 * length (encode_code_table table)) (Ok (encode_code_table table)).

(** ** SymbolMap (lib/src/block/symbol_map.rs) *)

(** symbol_map.rs:13-25 *)
Definition c_mark_symbol (details : list (option (list bool))) (value : nat)
  : counted (list (option (list bool))) :=
  let table_number := value / 16 in
  let entry_in_table := value mod 16 in
  let? d := c_get details table_number in
  let? given := match d with Some given => done given | None => c_new false 16 end in
  let? given := c_set given entry_in_table true in
  c_set details table_number (Some given).

(** symbol_map.rs:3-43: two sorted copies, the table, its bits *)
Definition c_write_symbol_table (table : list nat) : counted (list bool) :=
  let? table2 := c_copy table in
  let? table2 := c_sort Nat.leb table2 in
  let? table2 := c_copy table in
  let? table2 := c_sort Nat.leb table2 in
  let? details := c_new None 16 in
  let? details := cfold c_mark_symbol table details in
  let? out_region := takes (3 * length details)
                           (Ok (map (fun d : option (list bool) => match d with Some _ => true | None => false end) details)) in
  let? out_detail := takes (3 * length (flat_map (fun d : option (list bool) => match d with Some l => l | None => [] end) details))
                           (Ok (flat_map (fun d => match d with Some l => l | None => [] end) details)) in
  c_append out_region out_detail.

(** ** Selectors (lib/src/block/selectors.rs) *)

(** selectors.rs:5-17: a turn and a push per bit *)
Definition c_create_selectors (selectors : list nat) : counted (list bool * nat) :=
  let? (encoded, _) := c_mtf selectors in
  takes (length encoded + 2 * length (flat_map unary encoded)) (Ok (flat_map unary encoded, length selectors)).

(** ** BlockEncoder (lib/src/block/block_encoder.rs) *)

(** block_encoder.rs:91-96: search, clone, append *)
Definition c_symbol_code (table : canonical_table) (s : hsym) : counted (list bool) :=
  let? found := c_find_first (fun e => hsym_eqb (snd e) s) table in
  match found with
  | Some e => takes (2 * length (fst e)) (Ok (fst e))
  | None => done []
  end.

(** block_encoder.rs:88-89 and 99-100 *)
Definition c_table_at (code_tables : list canonical_table) (selected_tables : list nat)
  (position : nat) : counted canonical_table :=
  let? t := c_get selected_tables (position / 50) in c_get code_tables t.

(** block_encoder.rs:86-111 *)
Definition c_encode_data (code_tables : list canonical_table) (selected_tables : list nat)
  (zle_data : list zsym) : counted (list bool) :=
  let? codes := cmap (fun x : nat * zsym =>
                        let? table := steps 2 (c_table_at code_tables selected_tables (fst x)) in
                        c_symbol_code table (Normal (snd x)))
                     (enumerate zle_data) in
  let? table := c_table_at code_tables selected_tables (length zle_data) in
  let? found := c_find_first (fun e => hsym_eqb (snd e) EoB) table in
  let? e := step (of_option found) in
  takes (2 * length (fst e)) (Ok (concat codes ++ fst e)).

(** block_encoder.rs:115-144: the digits of the header, padded, reversed, collected and
    appended *)
Definition c_block_header (crc orig_pointer : N) : counted (list bool) :=
  takes (6 * length (block_header crc orig_pointer)) (Ok (block_header crc orig_pointer)).

(** block_encoder.rs:24-113; the trees are cloned once more before they are appended, the
    coded data is appended symbol by symbol in [c_encode_data] *)
Definition c_generate_block_data (p : profile) (checksum : N) (rle_data : list nat) (st : strategy)
  : counted (list bool * N) :=
  let? (bwt_data, orig_ptr) := c_bwt rle_data in
  let? (encoded, used_symbols) := c_mtf bwt_data in
  let? (zle_data, (reported_frequencies, selected_tables)) :=
    c_zle_with_strategy st encoded (length used_symbols) in
  let? code_tables :=
    cmap (fun table => let? t := c_compute_huffman table in c_canonicalize p t)
         reported_frequencies in
  let? (selector_bits, num_selectors) := c_create_selectors selected_tables in
  let? symbol_map := c_write_symbol_table used_symbols in
  let? selectors_field :=
    takes (4 * 15) (convert_to_code_pad_to_15_bits (N.of_nat num_selectors mod 65536)) in
  let? trees := cmap (fun table => let? table := takes (table_size table) (Ok table) in
                                   c_encode_code_table table) code_tables in
  let? header := c_block_header checksum (N.of_nat orig_ptr mod 4294967296) in
  let? tables_field := c_convert_to_code_pad_to_n_bits (N.of_nat (length code_tables)) 3 in
  let? output := takes (length header + length symbol_map + length tables_field + length selectors_field
                        + length selector_bits + 2 * length (concat trees))
                   (Ok (header ++ symbol_map ++ tables_field ++ selectors_field ++ selector_bits ++ concat trees)) in
  let? data := c_encode_data code_tables selected_tables zle_data in
  done (output ++ data, checksum).

(** ** Rle, Crc32 (lib/src/block/rle.rs, crc32.rs) *)

(** rle.rs:11-30: the byte is read, what is emitted is pushed *)
Definition c_rle_step (s : rle_result) (current : nat) : counted rle_result :=
  takes (1 + (length (rle_data (rle_step s current)) - length (rle_data s))) (Ok (rle_step s current)).
(** rle.rs:7-37 *)
Definition c_rle (input : list nat) (init_counter : nat) (init_last : option nat) : counted rle_result :=
  cfold c_rle_step input (mk_rle [] init_counter init_last).
(** rle.rs:53-70: a copy and at most five pushes *)
Definition c_rle_augment (input : list nat) (counter : nat) (last : option nat) : counted (list nat) :=
  takes (length (rle_augment input counter last)) (Ok (rle_augment input counter last)).
(** crc32.rs:44-47: a read of the byte and one of the table *)
Definition c_crc32 (input : list nat) : counted N :=
  let? crc := cfold (fun c d => takes 2 (Ok (crc_step c d))) input 4294967295%N in
  done (N.lxor crc 4294967295).

(** ** Stream (lib/src/stream/mod.rs); the steps of all threads are added up *)

(** stream/mod.rs:136-139: one step for every answer of the reader and for every byte it
    delivers *)
Fixpoint c_take_events (limit : N) (events : list revent) (tail_fail : bool) (acc : list nat)
  : (res (list nat) * list revent) * nat :=
  if (limit =? 0)%N then ((Ok acc, events), 0) else
  match events with
  | [] => ((if tail_fail then Err else Ok acc, []), 1)
  | RFail :: tl => ((Err, tl), 1)
  | RInterrupted :: tl => let (r, k) := c_take_events limit tl tail_fail acc in (r, 1 + k)
  | RChunk [] :: tl => ((Ok acc, tl), 1)
  | RChunk bs :: tl =>
      let len := N.of_nat (length bs) in
      if (len <=? limit)%N
      then let (r, k) := c_take_events (limit - len) tl tail_fail (acc ++ bs) in (r, 1 + length bs + k)
      else ((Ok (acc ++ firstn (N.to_nat limit) bs), RChunk (skipn (N.to_nat limit) bs) :: tl),
            1 + length (firstn (N.to_nat limit) bs))
  end.
Definition c_take_read_to_end (limit : N) (rd : reader) : (res (list nat) * reader) * nat :=
  let '((result, events), k) := c_take_events limit (r_events rd) (r_tail_fail rd) [] in
  ((result, mk_reader events (r_tail_fail rd)), k).

(** stream/mod.rs:132-160: a turn, the read, the run-length coding, the two appends *)
Fixpoint c_fill_loop (fuel : nat) (rd : reader) (f : fill) : counted (fill * reader) :=
  if (N.of_nat (fl_total f) <? RLE_LIMIT)%N
  then
    match fuel with
    | O => (NoFuel, 0)
    | S fuel' =>
        let? limit := step (to_take (length (fl_rle f))) in
        let (got, k) := c_take_read_to_end limit rd in
        steps k
        (match got with
         | (Ok [], rd) =>
             done (mk_fill (fl_buf f) (fl_rle f) (fl_total f) (fl_count f) (fl_last f) true, rd)
         | (Ok buf_current, rd) =>
             let? result := c_rle buf_current (fl_count f) (fl_last f) in
             let next_data_len := length (fl_rle f) + length (rle_data result) in
             let total := rle_total_size next_data_len (rle_counter result) (rle_last result) in
             let? rle_data' := c_append (fl_rle f) (rle_data result) in
             let? buf := c_append (fl_buf f) buf_current in
             c_fill_loop fuel' rd
               (mk_fill buf rle_data' total (rle_counter result) (rle_last result) (fl_finalize f))
         | (_, rd) => done (f, rd)
         end)
    end
  else done (f, rd).
Definition c_fill_block (rd : reader) : counted (fill * reader) :=
  c_fill_loop (S (reader_size rd)) rd fill_init.

(** stream/mod.rs:166-168 *)
Definition c_work_of_fill (f : fill) : counted work :=
  let? rle_total := c_rle_augment (fl_rle f) (fl_count f) (fl_last f) in
  let? computed_crc := c_crc32 (fl_buf f) in
  step (Ok (computed_crc, rle_total)).

(** stream/mod.rs:126-169 *)
Fixpoint c_read_round (workers : nat) (rd : reader) : counted (list work * bool * reader) :=
  match workers with
  | O => done ([], false, rd)
  | S workers' =>
      let? (f, rd) := steps 1 (c_fill_block rd) in
      match fl_buf f with
      | [] => done ([], fl_finalize f, rd)
      | _ =>
          let? w := c_work_of_fill f in
          let? (ws, fin, rd) := c_read_round workers' rd in
          done (w :: ws, fl_finalize f || fin, rd)
      end
  end.

(** bitwriter.rs:46-51: a turn, eight digits (a turn and a read each) and a [write] per
    chunk; the remainder is copied *)
Fixpoint c_write_chunks (pending : list bool) (w : writer) : (res (list bool) * writer) * nat :=
  match pending with
  | b0 :: b1 :: b2 :: b3 :: b4 :: b5 :: b6 :: b7 :: rest =>
      match w_write w [byte_of_bits [b0; b1; b2; b3; b4; b5; b6; b7]] with
      | (Ok _, w') => let (r, k) := c_write_chunks rest w' in (r, 18 + k)
      | (_, w') => ((Err, w'), 18)
      end
  | remainder => ((Ok remainder, w), length remainder)
  end.
(** bitwriter.rs:44-53: the bits are copied and appended *)
Definition c_write_bits (bw : bit_writer) (bits : list bool) : (res unit * bit_writer) * nat :=
  let pending := bw_pending bw ++ bits in
  match c_write_chunks pending (bw_sink bw) with
  | ((Ok remainder, w'), k) => ((Ok tt, mk_bw remainder w'), 2 * length bits + k)
  | ((_, w'), k) => ((Err, mk_bw pending w'), 2 * length bits + k)
  end.
(** bitwriter.rs:55-65 *)
Definition c_bw_finalize (bw : bit_writer) : (res unit * bit_writer) * nat := (bw_finalize bw, 40).
Definition c_write_or_panic (bits : list bool) (e : enc_state) : (res unit * enc_state) * nat :=
  match c_write_bits (en_bw e) bits with
  | ((Ok _, bw), k) => ((Ok tt, mk_enc bw (en_crc e)), k)
  | ((_, bw), k) => ((Panic, mk_enc bw (en_crc e)), k)
  end.

(** stream/mod.rs:171-175 with 89-95 and the workers (53-86): a result is computed, sent
    and received; the turns of the loop over all workers are counted in [c_encode_rounds] *)
Fixpoint c_flush_round (p : profile) (st : strategy) (ws : list work) (e : enc_state)
  : (res unit * enc_state) * nat :=
  match ws with
  | [] => ((Ok tt, e), 0)
  | (crc, data) :: tl =>
      match c_generate_block_data p crc data st with
      | (Ok (bits, block_crc), k) =>
          match c_write_or_panic bits e with
          | ((Ok _, e), k') =>
              let (r, k'') := c_flush_round p st tl (mk_enc (en_bw e) (update_total_crc block_crc (en_crc e))) in
              (r, 2 + k + k' + k'')
          | (other, k') => (other, 2 + k + k')
          end
      | (NoFuel, k) => ((NoFuel, e), 2 + k)
      | (_, k) => ((Panic, e), 2 + k)
      end
  end.

(** stream/mod.rs:121-176; every round inspects every worker *)
Fixpoint c_encode_rounds (fuel : nat) (p : profile) (num_threads : nat) (st : strategy)
  (rd : reader) (e : enc_state) : (res unit * enc_state) * nat :=
  match fuel with
  | O => ((NoFuel, e), 0)
  | S fuel' =>
      match c_read_round num_threads rd with
      | (Ok (ws, fin, rd), k) =>
          match c_flush_round p st ws e with
          | ((Ok _, e), k') =>
              if fin then ((Ok tt, e), 1 + num_threads + k + k')
              else let (r, k'') := c_encode_rounds fuel' p num_threads st rd e in
                   (r, 1 + num_threads + k + k' + k'')
          | (other, k') => (other, 1 + num_threads + k + k')
          end
      | (NoFuel, k) => ((NoFuel, e), k)
      | (_, k) => ((Panic, e), k)
      end
  end.

(** stream/mod.rs:105-180: spawning a thread counts three steps, making the header and the
    footer six for every bit *)
Definition c_encode_stream (fuel : nat) (p : profile) (rd : reader) (w : writer)
  (num_threads : nat) (st : strategy) : (res unit * writer) * nat :=
  let e := mk_enc (bw_from_writer w) 0 in
  let k0 := 3 * num_threads + 6 * length file_header in
  match c_write_or_panic file_header e with
  | ((Ok _, e), k1) =>
      match c_encode_rounds fuel p num_threads st rd e with
      | ((Ok _, e), k2) =>
          let k3 := 6 * length (stream_footer (en_crc e)) in
          match c_write_or_panic (stream_footer (en_crc e)) e with
          | ((Ok _, e), k4) =>
              let '((result, bw), k5) := c_bw_finalize (en_bw e) in
              ((unwrap result, bw_sink bw), k0 + k1 + k2 + k3 + k4 + k5)
          | ((result, e), k4) => ((result, bw_sink (en_bw e)), k0 + k1 + k2 + k3 + k4)
          end
      | ((result, e), k2) => ((result, bw_sink (en_bw e)), k0 + k1 + k2)
      end
  | ((result, e), k1) => ((result, bw_sink (en_bw e)), k0 + k1)
  end.

(** * Model of lib/src/block/symbol_statistics/mod.rs *)
From Verif Require Import Base Zle Float32 KMeans.

(** mod.rs:12-18 [EncodingStrategy] *)
Inductive strategy :=
| BlockWise (num_clusters num_iterations : nat)
| Single.

(** mod.rs:37-47 and 85-95: the counter touched by a symbol *)
Definition symbol_index (s : zsym) : nat :=
  match s with
  | RunA => 0
  | RunB => 1
  | Number i => i + 1
  end.

(** mod.rs:20-31 [SinglePropabilityMap] *)
Record single_map := mk_single { sg_freq : list N; sg_count : N }.
Definition single_create (size : nat) : single_map := mk_single (repeat 0%N (size + 1)) 0.

(** mod.rs:35-48 [report_symbol] *)
Definition single_report (m : single_map) (s : zsym) : res single_map :=
  let! f := get_at (sg_freq m) (symbol_index s) in
  let! freq := set_at (sg_freq m) (symbol_index s) (f + 1)%N in
  Ok (mk_single freq (sg_count m + 1)).

(** mod.rs:138-141 [ReportedSymbols]: (reported_frequencies, selectors) *)
Definition reported := (list (list N) * list nat)%type.

(** mod.rs:56: [(symbol_count as f32 / 50.0).ceil() as usize] *)
Definition selector_count (symbol_count : N) : N :=
  f32_to_usize (f32_ceil (f32_div (f32_of_N symbol_count) (f32_of_N 50))).

(** mod.rs:50-58 [finalize] *)
Definition single_finalize (m : single_map) : reported :=
  ([sg_freq m; sg_freq m], repeat 0 (N.to_nat (selector_count (sg_count m)))).

(** mod.rs:61-81 [BlockWisePropabilityMap] *)
Record blockwise_map := mk_blockwise {
  bm_current : list nat; bm_maps : list (list nat); bm_size : nat; bm_counter : nat;
  bm_iterations : nat; bm_clusters : nat }.
Definition blockwise_create (size num_clusters num_iterations : nat) : blockwise_map :=
  mk_blockwise (repeat 0 (size + 1)) [] size 0 num_iterations num_clusters.

(** mod.rs:84-104 [report_symbol]; a [u8] counter is bumped at most 50 times
    before it is reset, so it never overflows. *)
Definition blockwise_report (m : blockwise_map) (s : zsym) : res blockwise_map :=
  let! f := get_at (bm_current m) (symbol_index s) in
  let! current := set_at (bm_current m) (symbol_index s) (f + 1) in
  let counter := bm_counter m + 1 in
  if 50 <=? counter
  then Ok (mk_blockwise (repeat 0 (bm_size m + 1)) (bm_maps m ++ [current]) (bm_size m) 0
             (bm_iterations m) (bm_clusters m))
  else Ok (mk_blockwise current (bm_maps m) (bm_size m) counter
             (bm_iterations m) (bm_clusters m)).

(** mod.rs:106-130 [finalize]: the current map is pushed unconditionally *)
Definition blockwise_finalize (m : blockwise_map) : res reported :=
  let maps := bm_maps m ++ [bm_current m] in
  kmeans_solve (bm_size m + 1) maps (bm_iterations m) (bm_clusters m).

(** mod.rs:149-158 [IntoFrequencyTable::iterate]; [(x - 1) as u8] *)
Definition symbol_of_index (i : nat) : zsym :=
  match i with
  | 0 => RunA
  | 1 => RunB
  | x => Number ((x - 1) mod 256)
  end.
Definition iterate_frequencies (frequencies : list N) : list (zsym * N) :=
  map (fun x => (symbol_of_index (fst x), snd x)) (enumerate frequencies).

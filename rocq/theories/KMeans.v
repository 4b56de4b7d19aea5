(** * Model of lib/src/block/symbol_statistics/kmeansclustering.rs *)
From Verif Require Import Base Float32.

(** kmeansclustering.rs:93-99 [euclidean_distance]; [powi(2)] is [x * x],
    [sum::<f32>()] is a left fold from zero (the sign of that zero is not
    observable through [<]). *)
Fixpoint sum_squares (acc : f32) (v1 : list f32) (v2 : list nat) : f32 :=
  match v1, v2 with
  | x :: t1, y :: t2 =>
      let d := f32_sub x (f32_of_N (N.of_nat y)) in
      sum_squares (f32_add acc (f32_mul d d)) t1 t2
  | _, _ => acc
  end.
Definition euclidean_distance (v1 : list f32) (v2 : list nat) : f32 :=
  f32_sqrt (sum_squares f32_zero v1 v2).

(** kmeansclustering.rs:38-53: index of the first center at minimal distance *)
Fixpoint nearest (centers : list (list f32)) (point : list nat) (number : nat)
  (best : nat * option f32) : nat :=
  match centers with
  | [] => fst best
  | center :: tl =>
      let distance := euclidean_distance center point in
      let best' :=
        match snd best with
        | Some m => if f32_lt distance m then (number, Some distance) else best
        | None => (number, Some distance)
        end in
      nearest tl point (S number) best'
  end.

(** kmeansclustering.rs:37-56: [min_assignment as u8] *)
Definition assign_all (centers : list (list f32)) (data : list (list nat)) : list nat :=
  map (fun point => nearest centers point 0 (0, None) mod 256) data.

(** kmeansclustering.rs:68-74: running mean of one center *)
Fixpoint mean_update (size : nat) (center : list f32) (point : list nat) : list f32 :=
  match center, point with
  | entry :: t1, x :: t2 =>
      f32_div (f32_add (f32_mul entry (f32_of_N (N.of_nat size))) (f32_of_N (N.of_nat x)))
              (f32_add (f32_of_N (N.of_nat size)) (f32_of_N 1))
      :: mean_update size t1 t2
  | c, _ => c
  end.

(** kmeansclustering.rs:66-76, body of the update loop; indexing can panic *)
Definition update_step (st : list (list f32) * list nat) (da : list nat * nat)
  : res (list (list f32) * list nat) :=
  let (centers, sizes) := st in
  let (point, a) := da in
  let! size := get_at sizes a in
  let! center := get_at centers a in
  let! centers' := set_at centers a (mean_update size center point) in
  let! sizes' := set_at sizes a (size + 1) in
  Ok (centers', sizes').

(** kmeansclustering.rs:35-77: one iteration of Lloyd's algorithm *)
Definition kmeans_iteration (dimension num_clusters : nat) (data : list (list nat))
  (st : list (list f32) * list nat) : res (list (list f32) * list nat) :=
  let assignments := assign_all (fst st) data in
  let cleared := map (fun _ => repeat f32_zero dimension) (fst st) in
  let! (centers, _) := fold_res update_step (combine data assignments)
                         (cleared, repeat 0 num_clusters) in
  Ok (centers, assignments).

(** kmeansclustering.rs:23-31: the initial centers *)
Definition initial_center (data : list (list nat)) (num_clusters i : nat) : res (list f32) :=
  let! row := get_at data (i * length data / num_clusters) in
  Ok (map (fun x => f32_of_N (N.of_nat x)) row).

(** kmeansclustering.rs:20-90 [solve]: (means, assignments) *)
Definition kmeans_solve (dimension : nat) (data : list (list nat)) (num_iterations num_clusters : nat)
  : res (list (list N) * list nat) :=
  let! centers := map_res (initial_center data num_clusters) (seq 0 num_clusters) in
  let! (centers, assignments) :=
    fold_res (fun st _ => kmeans_iteration dimension num_clusters data st)
             (repeat tt num_iterations) (centers, repeat 0 (length data)) in
  Ok (map (map (fun x => f32_to_usize (f32_mul x (f32_of_N 10000)))) centers, assignments).

(** * Model of lib/src/block/bwt/ (duval.rs, bwt_internal.rs, bwt_inverse.rs) *)
From Verif Require Import Base Sais.

(** ** duval.rs *)

(** duval.rs:9-16: the inner comparison loop, from state (j, k) with [i] fixed.
    The fuel bounds [n - j]. *)
Fixpoint duval_compare (fuel : nat) (input : list nat) (i j k : nat) : res (nat * nat) :=
  match fuel with
  | O => NoFuel
  | S fuel' =>
      if j <? length input
      then
        let! a := get_at input k in
        let! b := get_at input j in
        if a <=? b
        then duval_compare fuel' input i (j + 1) (if a <? b then i else k + 1)
        else Ok (j, k)
      else Ok (j, k)
  end.

(** duval.rs:17-21: [while i <= k { final_start = i; i += j - k }] *)
Fixpoint duval_advance (fuel : nat) (i j k final_start : nat) : res (nat * nat) :=
  match fuel with
  | O => NoFuel
  | S fuel' =>
      if i <=? k then duval_advance fuel' (i + (j - k)) j k i else Ok (i, final_start)
  end.

(** duval.rs:6-22: the outer loop *)
Fixpoint duval_loop (fuel : nat) (input : list nat) (i final_start : nat) : res nat :=
  match fuel with
  | O => NoFuel
  | S fuel' =>
      if i <? length input
      then
        let! (j, k) := duval_compare (S (length input)) input i (i + 1) i in
        let! (i', fs) := duval_advance (S (S (length input))) i j k final_start in
        duval_loop fuel' input i' fs
      else Ok final_start
  end.

(** duval.rs:1-24 [duval] *)
Definition duval (input : list nat) : res nat := duval_loop (S (length input)) input 0 0.

(** duval.rs:28-35 [rotate_duval]; [split_at] panics beyond the length. *)
Definition rotate_duval (input : list nat) : res (list nat * nat) :=
  let! offset := duval input in
  if offset <=? length input
  then Ok (skipn offset input ++ firstn offset input, offset)
  else Panic.

(** ** bwt_internal.rs *)

(** bwt_internal.rs:8-15: entries with [index < len], mapped to the preceding byte *)
Definition bwt_column (rotated : list nat) (entries : list nat) : res (list nat) :=
  let len := length rotated in
  map_res (fun x => get_at rotated (if 0 <? x then x - 1 else len - 1))
          (filter (fun x => x <? len) entries).

(** bwt_internal.rs:3-24 [bwt_private].  [(len - shift) % len] panics for an empty
    block. *)
Definition bwt_private (string : list nat) : res (list nat * nat) :=
  let! (rotated, shift) := rotate_duval string in
  let! entries := build_suffix_array rotated in
  let len := length string in
  let! data := bwt_column rotated entries in
  if len =? 0 then Panic else
  let target := (len - shift) mod len in
  let! (orig_ptr, _) :=
    of_option (find_first (fun x => snd x =? target)
                 (enumerate (filter (fun x => x <? len) entries))) in
  Ok (data, orig_ptr).

(** bwt_internal.rs:30-37 [bwt]; [as u32] is exact for blocks below 2^32 bytes
    and is kept as [nat] here. *)
Definition bwt (input : list nat) : res (list nat * nat) := bwt_private input.

(** ** bwt_inverse.rs *)

(** bwt_inverse.rs:7-11 *)
Fixpoint inverse_bwt_loop (k : nat) (pairs : list (nat * nat)) (start : nat) : res (list nat) :=
  match k with
  | O => Ok []
  | S k' =>
      let! (next, value) := get_at pairs start in
      let! out := inverse_bwt_loop k' pairs next in
      Ok (value :: out)
  end.

(** bwt_inverse.rs:1-13 [inverse_bwt] *)
Definition inverse_bwt (data : list nat) (orig_ptr : nat) : res (list nat) :=
  let pairs := sort_by (fun x y => snd x <=? snd y) (enumerate data) in
  let! (start, _) := of_option (find_first (fun x => fst x =? orig_ptr) pairs) in
  inverse_bwt_loop (length data) pairs start.

(** * Model of lib/src/block/mtf.rs *)
From Verif Require Import Base.

(** mtf.rs:24-39 [create_dict]: flag array of 256 booleans, then the indices that
    are set, in increasing order; [sort_unstable] on that increasing list is the
    identity, so dictionary and used symbols coincide. *)
Definition mark_used (flags : list bool) (i : nat) : res (list bool) := set_at flags i true.

Definition used_from_flags (flags : list bool) : list nat :=
  map fst (filter (fun x => snd x) (enumerate flags)).

Definition create_dict (input : list nat) : res (list nat * list nat) :=
  let! flags := fold_res mark_used input (repeat false 256) in
  let used_symbols := used_from_flags flags in
  Ok (sort_by Nat.leb used_symbols, used_symbols).

(** mtf.rs:41-44 [bring_to_front_of_dict] *)
Definition bring_to_front_of_dict (position : nat) (dict : list nat) : res (list nat) :=
  let! el := get_at dict position in
  Ok (el :: firstn position dict ++ skipn (S position) dict).

(** mtf.rs:46-55 [find_pos]; a missing element reaches [unreachable!()]. *)
Fixpoint find_pos (i : nat) (dict : list nat) : res nat :=
  match dict with
  | [] => Panic
  | d :: tl => if d =? i then Ok 0 else let! k := find_pos i tl in Ok (S k)
  end.

(** mtf.rs:12-16, the loop of [mtf] *)
Fixpoint mtf_loop (input dict : list nat) : res (list nat) :=
  match input with
  | [] => Ok []
  | value :: tl =>
      let! pos := find_pos value dict in
      let! dict' := bring_to_front_of_dict pos dict in
      let! out := mtf_loop tl dict' in
      Ok (pos :: out)
  end.

(** mtf.rs:3-22 [mtf]: (encoded, used_symbols) *)
Definition mtf (input : list nat) : res (list nat * list nat) :=
  let! (dict, used_symbols) := create_dict input in
  let! encoded := mtf_loop input dict in
  Ok (encoded, used_symbols).

(** mtf.rs:57-73 [inverse_mtf]; [u8::try_from(pos).unwrap()] panics beyond 255. *)
Fixpoint inverse_mtf (input dictionary : list nat) : res (list nat) :=
  match input with
  | [] => Ok []
  | i :: tl =>
      let! value := get_at dictionary i in
      let! pos := find_pos value dictionary in
      if 255 <? pos then Panic else
      let! dictionary' := bring_to_front_of_dict pos dictionary in
      let! out := inverse_mtf tl dictionary' in
      Ok (value :: out)
  end.

(** * Model of lib/src/block/rle.rs *)
From Verif Require Import Base.

(** rle.rs:1-5 [RleResult] *)
Record rle_result := mk_rle { rle_data : list nat; rle_counter : nat; rle_last : option nat }.

(** rle.rs:15-24, what is emitted when a run ends ([counter] counts the run plus
    the current byte): four copies and [(counter - 5) as u8], or the run itself. *)
Definition rle_emit (last_byte counter : nat) : list nat :=
  if 5 <=? counter
  then repeat last_byte 4 ++ [(counter - 5) mod 256]
  else repeat last_byte (counter - 1).

(** rle.rs:11-30, the loop body *)
Definition rle_step (s : rle_result) (current : nat) : rle_result :=
  let counter := S (rle_counter s) in
  match rle_last s with
  | Some last_byte =>
      if negb (last_byte =? current) || (255 <? counter)
      then mk_rle (rle_data s ++ rle_emit last_byte counter) 1 (Some current)
      else mk_rle (rle_data s) counter (Some current)
  | None => mk_rle (rle_data s) counter (Some current)
  end.

(** rle.rs:7-37 [rle] *)
Definition rle (input : list nat) (init_counter : nat) (init_last : option nat) : rle_result :=
  fold_left rle_step input (mk_rle [] init_counter init_last).

(** rle.rs:39-51 [rle_total_size] *)
Definition rle_total_size (input_len counter : nat) (last : option nat) : nat :=
  match last with
  | Some _ => if 4 <=? counter then input_len + 5 else input_len + counter
  | None => input_len
  end.

(** rle.rs:53-70 [rle_augment] *)
Definition rle_augment (input : list nat) (counter : nat) (last : option nat) : list nat :=
  match last with
  | Some last_byte =>
      if 4 <=? counter
      then input ++ repeat last_byte 4 ++ [(counter - 4) mod 256]
      else input ++ repeat last_byte counter
  | None => input
  end.

(** rle.rs:72-94 [inverse_rle]: the state is (output, equal_count, previous) *)
Record irle_state := mk_irle { ir_out : list nat; ir_equal : nat; ir_prev : option nat }.

Definition irle_step (s : irle_state) (el : nat) : irle_state :=
  match ir_prev s with
  | Some previous =>
      if ir_equal s =? 3
      then mk_irle (ir_out s ++ repeat previous el) 0 (Some el)
      else if previous =? el
           then mk_irle (ir_out s ++ [el]) (S (ir_equal s)) (Some el)
           else mk_irle (ir_out s ++ [el]) 0 (Some el)
  | None => mk_irle (ir_out s ++ [el]) (ir_equal s) (Some el)
  end.

Definition inverse_rle (input : list nat) : list nat :=
  ir_out (fold_left irle_step input (mk_irle [] 0 None)).

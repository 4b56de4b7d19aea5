(** * Specification: the initial run-length code of the bzip2 format

    Independent of the model.  In a run-length coded block, four equal consecutive
    bytes are followed by a byte that says how many more copies follow; after that
    count the search for a run starts afresh. *)
From Coq Require Import List Arith Bool.
Import ListNotations.

(** [rle1_expand last run l]: [last] is the byte just seen and [run] (at most 4) how
    many copies of it have been seen in a row. *)
Fixpoint rle1_expand_from (last run : nat) (l : list nat) : list nat :=
  match l with
  | [] => []
  | x :: tl =>
      if run =? 4 then repeat last x ++ rle1_expand_from 0 0 tl
      else if (1 <=? run) && (x =? last) then x :: rle1_expand_from x (S run) tl
      else x :: rle1_expand_from x 1 tl
  end.
Definition rle1_expand (l : list nat) : list nat := rle1_expand_from 0 0 l.

(** Maximal runs, cut after 255 bytes: the pieces the encoder codes. *)
Fixpoint runs_from (b n : nat) (l : list nat) : list (nat * nat) :=
  match l with
  | [] => [(b, n)]
  | x :: tl => if (x =? b) && (n <? 255) then runs_from b (S n) tl
               else (b, n) :: runs_from x 1 tl
  end.
Definition runs (l : list nat) : list (nat * nat) :=
  match l with
  | [] => []
  | x :: tl => runs_from x 1 tl
  end.

(** How one run appears in the block. *)
Definition coded_run (r : nat * nat) : list nat :=
  let (b, n) := r in if 4 <=? n then repeat b 4 ++ [n - 4] else repeat b n.

(** A sequence is run-safe when no run of n >= 4 bytes is directly followed by a run
    of three or more bytes of value n - 4 (a final run of exactly three is fine). *)
Fixpoint runs_safe (rs : list (nat * nat)) : bool :=
  match rs with
  | (b1, n1) :: (((b2, n2) :: rest) as tl) =>
      negb ((4 <=? n1) && (b2 =? n1 - 4) && (3 <=? n2)
            && negb ((n2 =? 3) && match rest with [] => true | _ => false end))
      && runs_safe tl
  | _ => true
  end.
Definition run_safe (l : list nat) : bool := runs_safe (runs l).

(** The exact condition: a run of n >= 4 bytes may also be followed by a run of the same
    length n of bytes of value n - 4. *)
Fixpoint runs_exact (rs : list (nat * nat)) : bool :=
  match rs with
  | (b1, n1) :: (((b2, n2) :: rest) as tl) =>
      negb ((4 <=? n1) && (b2 =? n1 - 4) && (3 <=? n2) && negb (n2 =? n1)
            && negb ((n2 =? 3) && match rest with [] => true | _ => false end))
      && runs_exact tl
  | _ => true
  end.
Definition run_exact (l : list nat) : bool := runs_exact (runs l).

(** The condition on run-length coded data itself: no count byte is followed by three more
    bytes of its own value and a further byte.  [last] and [run] as in [rle1_expand_from]. *)
Definition three_more (x : nat) (l : list nat) : bool :=
  match l with a :: b :: c :: _ :: _ => (a =? x) && (b =? x) && (c =? x) | _ => false end.
Fixpoint plain_counts_from (last run : nat) (l : list nat) : bool :=
  match l with
  | [] => true
  | x :: tl =>
      if run =? 4 then negb (three_more x tl) && plain_counts_from 0 0 tl
      else if (1 <=? run) && (x =? last) then plain_counts_from x (S run) tl
      else plain_counts_from x 1 tl
  end.
Definition plain_counts (l : list nat) : bool := plain_counts_from 0 0 l.

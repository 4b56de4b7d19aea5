(** * Specification: lexicographic order, suffix arrays, rotations *)
From Coq Require Export Permutation Sorted.
From Verif Require Import Base.

(** strict lexicographic order; a proper prefix is smaller *)
Inductive lexlt : list nat -> list nat -> Prop :=
| lex_nil y b : lexlt [] (y :: b)
| lex_head x y a b : x < y -> lexlt (x :: a) (y :: b)
| lex_tail x a b : lexlt a b -> lexlt (x :: a) (x :: b).

Definition suffix (text : list nat) (i : nat) : list nat := skipn i text.

(** [sa] lists the start of every suffix of [text] (the empty one included),
    each exactly once, in increasing lexicographic order. *)
Definition is_suffix_array (text sa : list nat) : Prop :=
  length sa = length text + 1 /\
  (forall i, i <= length text -> In i sa) /\
  (forall a b i j, a < b -> nth_error sa a = Some i -> nth_error sa b = Some j ->
     lexlt (suffix text i) (suffix text j)).

(** rotation by [i] positions to the left *)
Definition rotation (text : list nat) (i : nat) : list nat := skipn i text ++ firstn i text.

Definition lexle (a b : list nat) : Prop := a = b \/ lexlt a b.

Definition minimal_rotation (text : list nat) (i : nat) : Prop :=
  forall j, j < length text -> lexle (rotation text i) (rotation text j).

(** [i] starts the lexicographically smallest non-empty suffix of [text] *)
Definition smallest_suffix (text : list nat) (i : nat) : Prop :=
  i < length text /\
  forall j, j < length text -> j <> i -> lexlt (suffix text i) (suffix text j).

(** The suffix order of [text] agrees with the order of its rotations (which is what
    the block sort of the bzip2 format is about). *)
Definition suffixes_sort_rotations (text : list nat) : Prop :=
  forall a b, a < length text -> b < length text ->
    lexlt (suffix text a) (suffix text b) -> lexle (rotation text a) (rotation text b).

(** A block is rotation-safe when this holds for the block rotated to the start of
    its smallest suffix. *)
Definition rotation_safe (text : list nat) : Prop :=
  exists i, smallest_suffix text i /\ suffixes_sort_rotations (rotation text i).

(** A block is reversible when this crate's inverse block sort restores it.  Write [w] for the
    block rotated to the start of its smallest suffix: wherever the last letter of [w] occurs
    in [w], followed by a suffix of [w] that is below [w], the word [w] starts with that suffix
    followed by the smallest suffix of the block. *)
Definition reversible (text : list nat) : Prop :=
  exists i, smallest_suffix text i /\ (let w := rotation text i in
    forall j, 0 < j < length w -> nth (j - 1) w 0 = last w 0 -> lexlt (suffix w j) w ->
      exists rest, w = suffix w j ++ suffix text i ++ rest).

(** The Burrows-Wheeler transform, as the bzip2 format has it: all rotations of [text] are
    sorted; [col] lists their last letters; [ptr] is the row of a rotation equal to [text]. *)
Definition burrows_wheeler (text col : list nat) (ptr : nat) : Prop :=
  exists rows, Permutation rows (seq 0 (length text)) /\
    StronglySorted lexle (map (rotation text) rows) /\
    col = map (fun i => last (rotation text i) 0) rows /\
    exists i, nth_error rows ptr = Some i /\ rotation text i = text.

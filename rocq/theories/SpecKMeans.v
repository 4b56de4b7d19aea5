(** * Specification: statistics of the symbols, and Lloyd's algorithm in real arithmetic *)
From Coq Require Import Reals.
From Verif Require Import Base Zle.

(** the number of a symbol in the tables: RUNA 0, RUNB 1, and one more than its index for
    a move-to-front index *)
Definition sym_number (s : zsym) : nat := match s with RunA => 0 | RunB => 1 | Number i => i + 1 end.

(** how often symbol number [s] occurs *)
Definition occurs (symbols : list zsym) (s : nat) : nat := length (filter (fun x => sym_number x =? s) symbols).

(** the [g]-th group of 50 symbols *)
Definition group (symbols : list zsym) (g : nat) : list zsym := firstn 50 (skipn (50 * g) symbols).

(** the counts of each group, for [dim] symbol numbers; the last group has 0 to 49 symbols *)
Definition group_counts (symbols : list zsym) (dim : nat) : list (list nat) :=
  map (fun g => map (occurs (group symbols g)) (seq 0 dim)) (seq 0 (length symbols / 50 + 1)).

(** the rows put into table [t], and the sum of their entries for symbol [s] *)
Definition members (rows : list (list nat)) (chosen : list nat) (t : nat) : list (list nat) :=
  map fst (filter (fun x => snd x =? t) (combine rows chosen)).
Definition total (rows : list (list nat)) (s : nat) : nat := list_sum (map (fun row => nth s row 0) rows).

Open Scope R_scope.
(** the squared distance of a center and a row *)
Fixpoint rsum (f : nat -> R) (n : nat) : R := match n with 0%nat => 0 | S n => rsum f n + f n end.
Definition distance2 (dim : nat) (center : nat -> R) (row : list nat) : R :=
  rsum (fun s => (center s - INR (nth s row 0%nat)) ^ 2) dim.

(** [t] is the number of a nearest center up to rounding, and of equal centers it is the first *)
Definition nearest_center (dim k : nat) (center : nat -> nat -> R) (row : list nat) (t : nat) : Prop :=
  (t < k)%nat /\
  (forall t', (t' < k)%nat -> distance2 dim (center t) row <= (1 + / 10000) * distance2 dim (center t') row + / 10 ^ 20) /\
  (forall t', (t' < t)%nat -> exists s, (s < dim)%nat /\ center t' s <> center t s).

(** [center] is the mean of [rows] up to rounding: an error of 1/200000 per row *)
Definition mean_of (dim : nat) (center : nat -> R) (rows : list (list nat)) : Prop :=
  forall s, (s < dim)%nat ->
    (rows = [] -> center s = 0) /\
    (rows <> [] -> Rabs (center s - INR (total rows s) / INR (length rows)) <= INR (length rows + 1) / 200000).

(** Lloyd's algorithm on [rows] with [k] centers, started at rows spread over the input:
    [chosen] is the last assignment, [weights] the last centers times 10000 as integers. *)
Definition lloyd (dim : nat) (rows : list (list nat)) (k iterations : nat) (chosen : list nat) (weights : list (list N)) : Prop :=
  exists (center : nat -> nat -> nat -> R) (assigned : nat -> list nat),
    (forall t s, (t < k)%nat -> (s < dim)%nat -> center 0%nat t s = INR (nth s (nth (t * length rows / k) rows []) 0%nat)) /\
    assigned 0%nat = repeat 0%nat (length rows) /\
    (forall j, (j < iterations)%nat ->
      length (assigned (S j)) = length rows /\
      (forall g, (g < length rows)%nat -> nearest_center dim k (center j) (nth g rows []) (nth g (assigned (S j)) 0%nat)) /\
      (forall t, (t < k)%nat -> mean_of dim (center (S j) t) (members rows (assigned (S j)) t))) /\
    chosen = assigned iterations /\ length weights = k /\
    (forall t s, (t < k)%nat -> (s < dim)%nat ->
      10000 * center iterations t s - 11 / 10 <= INR (N.to_nat (nth s (nth t weights []) 0%N)) <= 10000 * center iterations t s + / 10).

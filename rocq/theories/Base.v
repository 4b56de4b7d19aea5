(** * Base: the result type, the overflow profile and small list utilities.

    Rust values are modelled as follows (see DESIGN.md, "Conventions"):
    - [u8] values are [nat] (kept < 256 by the functions that produce them);
    - [usize]/[u32] quantities that are *data* are [N]; lengths and indices are [nat];
    - [Bit::One] is [true], [Bit::Zero] is [false]  (lib/src/bitwise/mod.rs:4-8);
    - [Vec]/[VecDeque]/slices are [list]. *)
From Coq Require Export List Arith NArith ZArith Lia Bool.
Export ListNotations.
Global Set Implicit Arguments.

(** Outcome of a piece of Rust code: a normal value, an [Err(())], a panic
    (explicit [unwrap]/[unreachable!], index out of bounds, checked overflow),
    or "the fuel of the model ran out" (used only to make loops total; theorems
    exclude it explicitly). *)
Inductive res (A : Type) : Type :=
| Ok (a : A)
| Err
| Panic
| NoFuel.
Arguments Ok {A} a.
Arguments Err {A}.
Arguments Panic {A}.
Arguments NoFuel {A}.

Definition bind {A B : Type} (m : res A) (k : A -> res B) : res B :=
  match m with
  | Ok a => k a
  | Err => Err
  | Panic => Panic
  | NoFuel => NoFuel
  end.

Notation "'let!' x ':=' m 'in' k" := (bind m (fun x => k))
  (at level 200, x pattern, m at level 100, k at level 200, right associativity).

(** [Result::unwrap]: an [Err] becomes a panic. *)
Definition unwrap {A : Type} (m : res A) : res A :=
  match m with
  | Err => Panic
  | other => other
  end.

(** [Option::unwrap] and slice indexing: [None] is a panic. *)
Definition of_option {A : Type} (o : option A) : res A :=
  match o with
  | Some a => Ok a
  | None => Panic
  end.

(** Whether arithmetic overflow panics ([Checked]: the cargo debug profile) or
    wraps ([Wrapping]: the cargo release profile). *)
Inductive profile := Checked | Wrapping.

Definition two64 : N := 18446744073709551616.
Definition two63 : N := 9223372036854775808.

(** [v[i] = x] on a vector; [None] when the index is out of bounds. *)
Fixpoint update {A : Type} (l : list A) (i : nat) (x : A) : option (list A) :=
  match l, i with
  | [], _ => None
  | _ :: tl, O => Some (x :: tl)
  | h :: tl, S i' =>
      match update tl i' x with
      | Some tl' => Some (h :: tl')
      | None => None
      end
  end.

(** [v[i] = x], as Rust executes it: out of bounds panics. *)
Definition set_at {A : Type} (l : list A) (i : nat) (x : A) : res (list A) :=
  of_option (update l i x).

(** [v[i]], as Rust executes it. *)
Definition get_at {A : Type} (l : list A) (i : nat) : res A :=
  of_option (nth_error l i).

(** A [for x in l { state = body(state, x)?; }] loop whose body may panic. *)
Fixpoint fold_res {A S : Type} (body : S -> A -> res S) (l : list A) (s : S) : res S :=
  match l with
  | [] => Ok s
  | x :: tl => let! s' := body s x in fold_res body tl s'
  end.

(** [iter().map(f).collect()] when [f] may panic. *)
Fixpoint map_res {A B : Type} (f : A -> res B) (l : list A) : res (list B) :=
  match l with
  | [] => Ok []
  | x :: tl => let! y := f x in let! ys := map_res f tl in Ok (y :: ys)
  end.

(** [slice::sort_by]: a stable sort.  The result of a stable sort is uniquely
    determined by the comparison, so insertion sort stands for Rust's merge sort
    (uniqueness is proved in SortFacts.v). *)
Fixpoint insert_by {A : Type} (leb : A -> A -> bool) (x : A) (l : list A) : list A :=
  match l with
  | [] => [x]
  | y :: tl => if leb x y then x :: l else y :: insert_by leb x tl
  end.

Fixpoint sort_by {A : Type} (leb : A -> A -> bool) (l : list A) : list A :=
  match l with
  | [] => []
  | x :: tl => insert_by leb x (sort_by leb tl)
  end.

(** [iter().enumerate()] *)
Fixpoint enumerate_from {A : Type} (i : nat) (l : list A) : list (nat * A) :=
  match l with
  | [] => []
  | x :: tl => (i, x) :: enumerate_from (S i) tl
  end.
Definition enumerate {A : Type} (l : list A) : list (nat * A) := enumerate_from 0 l.

(** [iter().find(p)] *)
Fixpoint find_first {A : Type} (p : A -> bool) (l : list A) : option A :=
  match l with
  | [] => None
  | x :: tl => if p x then Some x else find_first p tl
  end.

(** [is_byte b]: the [nat] stands for a [u8]. *)
Definition is_byte (b : nat) : Prop := b < 256.
Definition bytes (l : list nat) : Prop := Forall is_byte l.

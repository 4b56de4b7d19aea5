(** * Specification: what arbitrary bits mean as code lengths and as selectors *)
From Coq Require Import ZArith.
From Verif Require Import Base SpecBits.

(** [lengths count current bits]: [count] code lengths, from a current value: a 0 gives the
    current value out, 10 raises it, 11 lowers it.  The code lengths, all values the current
    value is changed to, and the bits left; [None] if the bits run out. *)
Fixpoint lengths (count : nat) (current : Z) (bits : list bool) : option (list Z * list Z * list bool) :=
  match count with
  | O => Some ([], [], bits)
  | S count' =>
      match bits with
      | false :: rest =>
          match lengths count' current rest with
          | Some (ls, changes, rest) => Some (current :: ls, changes, rest)
          | None => None
          end
      | true :: down :: rest =>
          let next := if down then (current - 1)%Z else (current + 1)%Z in
          match lengths count next rest with
          | Some (ls, changes, rest) => Some (ls, next :: changes, rest)
          | None => None
          end
      | _ => None
      end
  end.
(** a table: the first value takes five bits *)
Definition table (count : nat) (bits : list bool) : option (list Z * list Z * list bool) :=
  if length bits <? 5 then None else lengths count (Z.of_N (number (firstn 5 bits))) (skipn 5 bits).

(** [unary count ones bits]: [count] numbers, each as that many 1s and a 0, where [ones] 1s
    of the first have been read *)
Fixpoint unary_numbers (count ones : nat) (bits : list bool) : option (list nat * list bool) :=
  match count with
  | O => Some ([], bits)
  | S count' =>
      match bits with
      | true :: rest => unary_numbers count (S ones) rest
      | false :: rest =>
          match unary_numbers count' 0 rest with
          | Some (ns, rest) => Some (ones :: ns, rest)
          | None => None
          end
      | [] => None
      end
  end.
(** what is left in a byte *)
Definition as_byte (z : Z) : nat := Z.to_nat (z mod 256).

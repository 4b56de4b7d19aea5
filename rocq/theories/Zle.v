(** * Model of lib/src/block/zle.rs *)
From Verif Require Import Base Bitwise.

(** zle.rs:5-10 [ZleSymbol] *)
Inductive zsym := RunA | RunB | Number (v : nat).

Definition zsym_eqb (a b : zsym) : bool :=
  match a, b with
  | RunA, RunA | RunB, RunB => true
  | Number x, Number y => x =? y
  | _, _ => false
  end.

(** zle.rs:12-54: [Ord for ZleSymbol] *)
Definition zsym_compare (a b : zsym) : comparison :=
  match a, b with
  | RunA, RunA => Eq | RunA, _ => Lt
  | RunB, RunA => Gt | RunB, RunB => Eq | RunB, Number _ => Lt
  | Number x, Number y => Nat.compare x y
  | Number _, _ => Gt
  end.

(** zle.rs:56-61 [convert_remainder] *)
Definition convert_remainder (b : bool) : zsym := if b then RunB else RunA.

(** zle.rs:63-73 [encode_zero_amount]: the binary digits of [zeros + 1], least
    significant first, without the leading one. *)
Definition encode_zero_amount (number_of_zeros : nat) : list zsym :=
  removelast (map convert_remainder (low_bits (N.of_nat number_of_zeros + 1))).

(** zle.rs:75-109 [zle_transform].  The [SymbolReporter] is a state with a step
    [report]; it is fed every symbol in the order it is pushed. *)
Section ZleTransform.
  Variable R : Type.
  Variable report : R -> zsym -> res R.

  Definition emit_all (st : list zsym * R) (syms : list zsym) : res (list zsym * R) :=
    let! r := fold_res report syms (snd st) in
    Ok (fst st ++ syms, r).

  (** zle.rs:81-96 *)
  Fixpoint zle_loop (input : list nat) (zero_count : nat) (st : list zsym * R)
    : res (nat * (list zsym * R)) :=
    match input with
    | [] => Ok (zero_count, st)
    | i :: tl =>
        if i =? 0 then zle_loop tl (zero_count + 1) st
        else
          let! st := if 0 <? zero_count then emit_all st (encode_zero_amount zero_count) else Ok st in
          let! st := emit_all st [Number i] in
          zle_loop tl 0 st
    end.

  (** the symbols and the reporter after the final [report_symbol(&RunA)]
      (zle.rs:105-106), before [finalize] *)
  Definition zle_transform (input : list nat) (reporter : R) : res (list zsym * R) :=
    let! (zero_count, st) := zle_loop input 0 ([], reporter) in
    let! (out, r) := if 0 <? zero_count then emit_all st (encode_zero_amount zero_count) else Ok st in
    let! r := report r RunA in
    Ok (out, r).
End ZleTransform.

(** zle.rs:138-146: [number <<= 1] silently drops bits beyond 64 (in both
    profiles), so no overflow is ever reported by the loop. *)
Definition dza_step (number : N) (bit : zsym) : N :=
  let doubled := ((number * 2) mod two64)%N in
  match bit with
  | RunB => (doubled + 1)%N
  | _ => doubled
  end.

(** zle.rs:133-148 [decode_zero_amount]; [number - 1] underflows when all bits
    have been shifted out (Checked: panic; Wrapping: [usize::MAX], for which
    [vec![0u8; usize::MAX]] in the only caller panics with a capacity overflow),
    and [vec![0u8; k]] panics for [k > isize::MAX]. *)
Definition decode_zero_amount (input : list zsym) : res N :=
  let number := fold_left dza_step (RunB :: rev input) 0%N in
  if (number =? 0)%N then Panic
  else if (two63 <=? number - 1)%N then Panic
  else Ok (number - 1)%N.

(** zle.rs:117-120 and 126-129: flush the collected run symbols *)
Definition flush_zeros (zeros : list zsym) (output : list nat) : res (list nat) :=
  match zeros with
  | [] => Ok output
  | _ => let! k := decode_zero_amount zeros in Ok (output ++ repeat 0 (N.to_nat k))
  end.

(** zle.rs:111-131 [decode_zle] *)
Fixpoint decode_zle_loop (input : list zsym) (output : list nat) (zeros : list zsym)
  : res (list nat) :=
  match input with
  | [] => flush_zeros zeros output
  | Number element :: tl =>
      let! output := flush_zeros zeros output in
      decode_zle_loop tl (output ++ [element]) []
  | run :: tl => decode_zle_loop tl output (zeros ++ [run])
  end.
Definition decode_zle (input : list zsym) : res (list nat) := decode_zle_loop input [] [].

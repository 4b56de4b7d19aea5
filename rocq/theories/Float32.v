(** * IEEE-754 binary32 arithmetic as used by the code ([f32])

    Built on the standard library's [SpecFloat] (round to nearest, ties to even),
    which is plain computable integer arithmetic; precision 24, emax 128. *)
From Verif Require Import Base.
From Coq Require Export Floats.SpecFloat.

Definition f32 := spec_float.
Definition f32_zero : f32 := S754_zero false.

(** [n as f32] for unsigned integers: rounded to nearest even *)
Definition f32_of_N (n : N) : f32 :=
  match n with
  | N0 => S754_zero false
  | Npos p => binary_normalize 24 128 (Zpos p) 0 false
  end.

Definition f32_add : f32 -> f32 -> f32 := SFadd 24 128.
Definition f32_sub : f32 -> f32 -> f32 := SFsub 24 128.
Definition f32_mul : f32 -> f32 -> f32 := SFmul 24 128.
Definition f32_div : f32 -> f32 -> f32 := SFdiv 24 128.
Definition f32_sqrt : f32 -> f32 := SFsqrt 24 128.
Definition f32_lt : f32 -> f32 -> bool := SFltb.

(** [x.ceil()] *)
Definition f32_ceil (x : f32) : f32 :=
  match x with
  | S754_finite s m e =>
      if (0 <=? e)%Z then x
      else
        let d := (2 ^ (- e))%Z in
        let v := if s then (Zneg m) else (Zpos m) in
        let c := (- ((- v) / d))%Z in
        match c with
        | Z0 => S754_zero s
        | Zpos _ | Zneg _ => binary_normalize 24 128 c 0 s
        end
  | _ => x
  end.

(** [x as usize]: truncation towards zero, saturating, NaN to 0 *)
Definition f32_to_usize (x : f32) : N :=
  match x with
  | S754_finite false m e =>
      let v := if (0 <=? e)%Z then (Zpos m * 2 ^ e)%Z else (Zpos m / 2 ^ (- e))%Z in
      N.min (Z.to_N v) (two64 - 1)
  | S754_infinity false => (two64 - 1)%N
  | _ => 0%N
  end.

(** * What arbitrary bits mean as code lengths and selectors: C68

    Words used in the statements: SpecFields ([table], [unary_numbers], [as_byte]), SpecBits
    ([number]); [rbits r] are the bits a reader still has (BitwiseFacts). *)
From Coq Require Import ZArith.
From Verif Require Import Base Bitwise BitwiseFacts SpecBits SpecFields CodeTable Selectors FieldFacts.
Open Scope nat_scope.

(** A code table of any bits, in a release build: the running values, of each what is left
    in a byte, and exactly the bits of the table are consumed; an error if they run out. *)
Theorem C68_lengths_release : forall r amount, 1 <= amount ->
  match table amount (rbits r) with
  | Some (values, _, rest) => exists r', read_delta Wrapping r amount = Ok (map as_byte values, r') /\ rbits r' = rest
  | None => read_delta Wrapping r amount = Err
  end.
Proof. exact delta_release. Qed.
(** In a debug build the same, unless the running value goes below 0 or above 2^64 - 1 on
    the way: then, and only then, a panic. *)
Theorem C68_lengths_debug : forall r amount, 1 <= amount ->
  let valid z := (0 <= z < 2 ^ 64)%Z in
  match table amount (rbits r) with
  | Some (values, changes, rest) =>
      (Forall valid changes /\ exists r', read_delta Checked r amount = Ok (map as_byte values, r') /\ rbits r' = rest) \/
      (~ Forall valid changes /\ read_delta Checked r amount = Panic)
  | None => read_delta Checked r amount = Err \/ read_delta Checked r amount = Panic
  end.
Proof. exact delta_debug. Qed.
(** Selectors of any bits, in a release build: the numbers of 1s modulo 256. *)
Theorem C68_selectors_release : forall r amount, 1 <= amount ->
  match unary_numbers amount 0 (rbits r) with
  | Some (ns, rest) => exists r', read_unary Wrapping r amount = Ok (map (fun n => n mod 256) ns, r') /\ rbits r' = rest
  | None => read_unary Wrapping r amount = Err
  end.
Proof.
  intros r amount HA. unfold read_unary.
  pose proof (@unary_release_loop (S (bits_left r)) r amount 0 []) as H. rewrite bits_left_rbits in *.
  specialize (H ltac:(lia) ltac:(cbn [length]; lia)). cbn [length] in H. rewrite Nat.sub_0_r, Nat.mod_0_l in H by lia.
  destruct (unary_numbers amount 0 (rbits r)) as [(ns & rest)|]; exact H.
Qed.
(** In a debug build the numbers themselves, and a panic if one does not fit in a byte. *)
Theorem C68_selectors_debug : forall r amount, 1 <= amount ->
  match unary_numbers amount 0 (rbits r) with
  | Some (ns, rest) =>
      (Forall (fun n => n < 256) ns /\ exists r', read_unary Checked r amount = Ok (ns, r') /\ rbits r' = rest) \/
      (~ Forall (fun n => n < 256) ns /\ read_unary Checked r amount = Panic)
  | None => read_unary Checked r amount = Err \/ read_unary Checked r amount = Panic
  end.
Proof.
  intros r amount HA. unfold read_unary.
  pose proof (@unary_debug_loop (S (bits_left r)) r amount 0 []) as H. rewrite bits_left_rbits in *.
  specialize (H ltac:(lia) ltac:(cbn [length]; lia) ltac:(lia)). cbn [length] in H. rewrite Nat.sub_0_r in H.
  destruct (unary_numbers amount 0 (rbits r)) as [(ns & rest)|]; exact H.
Qed.
(** No selectors: still a bit is consumed, and a 0 taken for a selector. *)
Theorem C68_no_selectors : forall p r,
  match rbits r with
  | [] => read_unary p r 0 = Err
  | b :: rest => exists r', read_unary p r 0 = Ok (if b then [] else [0], r') /\ rbits r' = rest
  end.
Proof.
  intros p r. unfold read_unary. rewrite bits_left_rbits. cbn [read_unary_loop]. pose proof (read_bit_spec r) as H.
  destruct (rbits r) as [|b rest]; [rewrite H; reflexivity|]. destruct H as (r' & -> & E). exists r'. split; auto. destruct b; reflexivity.
Qed.
(** The specification reads what the format says: from 3, lengths 3, 4, 4, 2; then, not in
    the format, a value lowered below 0 and one raised above 255. *)
Example C68_case :
  let bits := [false; false; false; true; true; false; true; false; false; false; true; true; true; true; false; true] in
  table 4 bits = Some ([3; 4; 4; 2]%Z, [4; 3; 2]%Z, [true]) /\
  table 1 ([false; false; false; false; false] ++ [true; true; false]) = Some ([-1]%Z, [-1]%Z, []) /\ as_byte (-1) = 255 /\
  (exists changes, table 1 ([false; false; false; true; true] ++ concat (repeat [true; false] 300) ++ [false]) = Some ([303]%Z, changes, [])) /\ as_byte 303 = 47 /\
  table 2 (firstn 7 bits) = None /\
  unary_numbers 3 0 [true; true; false; false; true; false; true] = Some ([2; 0; 1], [true]) /\
  unary_numbers 1 0 (repeat true 257 ++ [false]) = Some ([257], []).
Proof. repeat split; try reflexivity. eexists. vm_compute. reflexivity. Qed.
(** both builds on a reader over such bits *)
Example C68_case_read :
  (exists r', read_delta Wrapping (br_from_reader [6; 0]) 1 = Ok ([255], r')) /\ read_delta Checked (br_from_reader [6; 0]) 1 = Panic /\
  (exists r', read_unary Wrapping (br_from_reader (repeat 255 32 ++ [0])) 1 = Ok ([0], r')) /\
  read_unary Checked (br_from_reader (repeat 255 32 ++ [0])) 1 = Panic.
Proof. repeat split; try (eexists; vm_compute; reflexivity); vm_compute; reflexivity. Qed.

Print Assumptions C68_lengths_release.
Print Assumptions C68_lengths_debug.
Print Assumptions C68_selectors_release.
Print Assumptions C68_selectors_debug.
Print Assumptions C68_no_selectors.

(** * The table driven checksum is the bitwise CRC; bursts are detected *)
From Verif Require Import Base BaseFacts Bitwise BitwiseFacts SpecBits SpecCrc Crc32 Stream.

Lemma bits_of_bytes l : bits_of l = bytes_bits l.
Proof. reflexivity. Qed.
Lemma number_bval l : number l = bval l.
Proof.
  unfold number, bval. generalize 0%N. induction l as [|b l IH]; intros a; cbn [number_from fold_left]; auto.
Qed.

Definition M32 : N := 4294967296.
Definition POLY : N := 79764919.

Lemma mod32_lxor a b : (N.lxor a b mod M32 = N.lxor (a mod M32) (b mod M32))%N.
Proof.
  unfold M32. change 4294967296%N with (2 ^ 32)%N. rewrite <- !N.land_ones.
  apply N.bits_inj. intros i. rewrite !N.land_spec, !N.lxor_spec, !N.land_spec.
  destruct (N.testbit (N.ones 32) i); rewrite ?andb_true_r, ?andb_false_r; auto.
Qed.

Lemma double_lxor a b : (2 * N.lxor a b = N.lxor (2 * a) (2 * b))%N.
Proof.
  rewrite <- !N.double_spec. apply N.bits_inj. intros i. rewrite !N.double_spec, N.lxor_spec.
  destruct i as [|i]; [rewrite !N.testbit_even_0; auto|].
  assert (N.pos i = N.succ (N.pred (N.pos i))) as -> by (rewrite N.succ_pred; auto; discriminate).
  rewrite !N.testbit_even_succ by apply N.le_0_l. apply N.lxor_spec.
Qed.

Lemma crc_bit_linear a b x y : crc_bit (N.lxor a b) (xorb x y) = N.lxor (crc_bit a x) (crc_bit b y).
Proof.
  unfold crc_bit. rewrite N.lxor_spec, double_lxor, mod32_lxor. fold M32.
  destruct (N.testbit a 31), (N.testbit b 31), x, y; cbn [xorb];
    rewrite ?N.lxor_assoc; auto.
  all: try (f_equal; rewrite (N.lxor_comm 79764919), !N.lxor_assoc, N.lxor_nilpotent, N.lxor_0_r; reflexivity).
  all: try (f_equal; rewrite N.lxor_comm; reflexivity).
Qed.

Lemma mod32_lt a : (a mod M32 < M32)%N.
Proof. apply N.mod_lt. discriminate. Qed.
Lemma lt_testbit a : (a < M32)%N <-> forall i, (32 <= i)%N -> N.testbit a i = false.
Proof.
  unfold M32. change 4294967296%N with (2 ^ 32)%N. split.
  - intros H i Hi. destruct (N.eq_dec a 0) as [->|H0]; [apply N.bits_0|].
    apply N.bits_above_log2. apply N.lt_le_trans with 32%N; auto. apply N.log2_lt_pow2; lia.
  - intros H. destruct (N.lt_ge_cases a (2 ^ 32)) as [|G]; auto. exfalso.
    assert (a <> 0)%N by (intros ->; cbn in G; lia).
    assert (32 <= N.log2 a)%N as HL by (apply N.log2_le_pow2; lia).
    specialize (H _ HL). rewrite N.bit_log2 in H by auto. discriminate.
Qed.
Lemma lxor_lt a b : (a < M32)%N -> (b < M32)%N -> (N.lxor a b < M32)%N.
Proof.
  rewrite !lt_testbit. intros Ha Hb i Hi. rewrite N.lxor_spec, Ha, Hb by auto. auto.
Qed.
Lemma crc_bit_lt r b : (crc_bit r b < M32)%N.
Proof.
  unfold crc_bit. fold M32. destruct (xorb _ _); [apply lxor_lt; [|reflexivity]|]; apply mod32_lt.
Qed.
Lemma crc_bits_lt l r : (r < M32)%N -> (crc_bits r l < M32)%N.
Proof.
  revert r; induction l as [|b l IH]; intros r H; cbn; auto. apply IH, crc_bit_lt.
Qed.

(** difference of two runs *)
Definition xbits (a b : list bool) : list bool := map (fun p => xorb (fst p) (snd p)) (combine a b).

Lemma crc_bits_linear a : forall b r s, length a = length b ->
  crc_bits (N.lxor r s) (xbits a b) = N.lxor (crc_bits r a) (crc_bits s b).
Proof.
  induction a as [|x a IH]; intros [|y b] r s HL; try discriminate; auto.
  unfold xbits, crc_bits. cbn [combine map fold_left fst snd]. rewrite crc_bit_linear.
  apply IH. cbn [length] in HL. lia.
Qed.

(** ** zero bits: an injective step *)
Lemma zero_bit_inj r : (r < M32)%N -> crc_bit r false = 0%N -> r = 0%N.
Proof.
  intros Hr. unfold crc_bit. rewrite xorb_false_r. destruct (N.testbit r 31) eqn:E.
  - intros H. apply N.lxor_eq in H. exfalso.
    assert (N.odd (2 * r mod 4294967296) = true) as HO by (rewrite H; reflexivity).
    rewrite <- N.bit0_odd in HO. change 4294967296%N with (2 ^ 32)%N in HO.
    rewrite N.mod_pow2_bits_low in HO by reflexivity. rewrite N.testbit_even_0 in HO. discriminate.
  - intros H. assert (r < 2 ^ 31)%N as HL.
    { destruct (N.lt_ge_cases r (2 ^ 31)) as [|G]; auto. exfalso.
      assert (N.log2 r = 31)%N as HG.
      { apply N.log2_unique; [lia|]. split; auto. }
      rewrite <- HG, N.bit_log2 in E; [discriminate|]. intros ->. cbn in G. lia. }
    change (2 ^ 31)%N with 2147483648%N in HL. rewrite N.mod_small in H by lia. lia.
Qed.

Lemma zero_bits_nonzero k r : (r < M32)%N -> r <> 0%N -> crc_bits r (repeat false k) <> 0%N.
Proof.
  revert r; induction k as [|k IH]; intros r Hr H0; cbn [repeat]; auto.
  unfold crc_bits. cbn [fold_left]. apply IH; [apply crc_bit_lt|]. intros E. apply H0, zero_bit_inj; auto.
Qed.

Lemma zero_bit_small r : (r < 2147483648)%N -> crc_bit r false = (2 * r)%N.
Proof.
  intros H. unfold crc_bit. rewrite xorb_false_r. replace (N.testbit r 31) with false.
  - apply N.mod_small. lia.
  - symmetry. destruct (N.eq_dec r 0) as [->|H0]; [reflexivity|]. apply N.bits_above_log2.
    apply N.log2_lt_pow2; [lia|]. exact H.
Qed.

(** feeding bits is the same as adding them to the top of the register first *)
Lemma top_bit r b : crc_bit (N.lxor r (b2n b * 2147483648)) false = crc_bit r b.
Proof.
  unfold crc_bit. rewrite N.lxor_spec, double_lxor, mod32_lxor.
  assert ((2 * (b2n b * 2147483648)) mod M32 = 0)%N as -> by (destruct b; reflexivity).
  rewrite N.lxor_0_r. fold M32.
  assert (N.testbit (b2n b * 2147483648) 31 = b) as -> by (destruct b; reflexivity).
  rewrite xorb_false_r. reflexivity.
Qed.

Lemma feed_top ws : forall r, length ws <= 32 ->
  crc_bits r ws = crc_bits (N.lxor r (bval ws * 2 ^ N.of_nat (32 - length ws))) (repeat false (length ws)).
Proof.
  induction ws as [|b ws IH]; intros r HL.
  - cbn. rewrite N.lxor_0_r. reflexivity.
  - cbn [length] in HL. cbn [length repeat]. unfold crc_bits. cbn [fold_left]. fold (crc_bits (crc_bit r b) ws).
    rewrite IH by lia. unfold crc_bits. f_equal.
    rewrite bval_cons.
    assert ((b2n b * 2 ^ N.of_nat (length ws) + bval ws) * 2 ^ N.of_nat (32 - S (length ws))
      = N.lxor (b2n b * 2147483648) (bval ws * 2 ^ N.of_nat (32 - S (length ws))))%N as ->.
    { rewrite N.mul_add_distr_r.
      assert (b2n b * 2 ^ N.of_nat (length ws) * 2 ^ N.of_nat (32 - S (length ws)) = b2n b * 2147483648)%N as ->.
      { rewrite <- N.mul_assoc, <- N.pow_add_r. f_equal. 
        replace (N.of_nat (length ws) + N.of_nat (32 - S (length ws)))%N with 31%N by lia. reflexivity. }
      symmetry. rewrite N.add_nocarry_lxor; auto.
      apply N.bits_inj. intros i. rewrite N.land_spec, N.bits_0.
      assert (bval ws * 2 ^ N.of_nat (32 - S (length ws)) < 2 ^ 31)%N as HB.
      { pose proof (bval_lt ws) as H. 
        replace (2 ^ 31)%N with (2 ^ N.of_nat (length ws) * 2 ^ N.of_nat (32 - S (length ws)))%N.
        - apply N.mul_lt_mono_pos_r; auto. apply pow2_pos.
        - rewrite <- N.pow_add_r. f_equal. lia. }
      destruct (N.eq_dec i 31) as [->|Hi].
      - replace (N.testbit (bval ws * _) 31) with false; [apply andb_false_r|]. symmetry.
        destruct (N.eq_dec (bval ws * 2 ^ N.of_nat (32 - S (length ws))) 0) as [->|H0]; [reflexivity|].
        apply N.bits_above_log2. apply N.log2_lt_pow2; [lia|]. exact HB.
      - replace (N.testbit (b2n b * 2147483648) i) with false; auto. symmetry.
        destruct b; [|reflexivity]. cbn [b2n]. rewrite N.mul_1_l. change 2147483648%N with (2 ^ 31)%N.
        apply N.pow2_bits_false. auto. }
    rewrite <- N.lxor_assoc.
    assert (bval ws * 2 ^ N.of_nat (32 - S (length ws)) < 2147483648)%N as HB.
    { pose proof (bval_lt ws) as H. change 2147483648%N with (2 ^ 31)%N.
      replace (2 ^ 31)%N with (2 ^ N.of_nat (length ws) * 2 ^ N.of_nat (32 - S (length ws)))%N.
      - apply N.mul_lt_mono_pos_r; auto. apply pow2_pos.
      - rewrite <- N.pow_add_r. f_equal. lia. }
    pose proof (crc_bit_linear (N.lxor r (b2n b * 2147483648))
                  (bval ws * 2 ^ N.of_nat (32 - S (length ws))) false false) as HX.
    cbn [xorb] in HX. rewrite HX, top_bit, zero_bit_small by auto. f_equal.
    replace (32 - length ws) with (S (32 - S (length ws))) by lia. rewrite pow2_S. ring.
Qed.

(** ** burst errors *)
Lemma xbits_length a b : length a = length b -> length (xbits a b) = length a.
Proof. intros H. unfold xbits. rewrite map_length, combine_length. lia. Qed.
Lemma xbits_zero a b : length a = length b -> bval (xbits a b) = 0%N -> a = b.
Proof.
  revert b; induction a as [|x a IH]; intros [|y b] HL H; try discriminate; auto.
  change (xbits (x :: a) (y :: b)) with (xorb x y :: xbits a b) in H. rewrite bval_cons in H.
  pose proof (pow2_pos (length (xbits a b))).
  assert (b2n (xorb x y) = 0)%N as H1 by nia. assert (bval (xbits a b) = 0)%N as H2 by nia.
  cbn [length] in HL. f_equal; [destruct x, y; auto; discriminate|apply IH; auto; lia].
Qed.
Lemma xbits_same l : xbits l l = repeat false (length l).
Proof.
  induction l as [|x l IH]; auto.
  change (xbits (x :: l) (x :: l)) with (xorb x x :: xbits l l). rewrite xorb_nilpotent, IH. reflexivity.
Qed.
Lemma xbits_app a b c d : length a = length b -> xbits (a ++ c) (b ++ d) = xbits a b ++ xbits c d.
Proof.
  revert b; induction a as [|x a IH]; intros [|y b] HL; try discriminate; auto.
  cbn [length] in HL. cbn [app]. change (xbits (x :: ?u) (y :: ?v)) with (xorb x y :: xbits u v).
  rewrite IH by lia. reflexivity.
Qed.
Lemma crc_bits_app r a b : crc_bits r (a ++ b) = crc_bits (crc_bits r a) b.
Proof. apply fold_left_app. Qed.
Lemma zero_bits_zero k : crc_bits 0 (repeat false k) = 0%N.
Proof. induction k as [|k IH]; auto. Qed.

Theorem burst_bits r pre wa wb post : length wa = length wb -> length wa <= 32 ->
  crc_bits r (pre ++ wa ++ post) = crc_bits r (pre ++ wb ++ post) -> wa = wb.
Proof.
  intros HL H32 E. apply xbits_zero; auto.
  destruct (N.eq_dec (bval (xbits wa wb)) 0) as [|Hne]; auto. exfalso.
  assert (N.lxor (crc_bits r (pre ++ wa ++ post)) (crc_bits r (pre ++ wb ++ post)) = 0)%N as EX
    by (rewrite E; apply N.lxor_nilpotent).
  rewrite <- crc_bits_linear in EX by (rewrite !app_length; lia).
  rewrite N.lxor_nilpotent in EX. rewrite xbits_app in EX by auto. rewrite xbits_app in EX by auto.
  rewrite !xbits_same, crc_bits_app, zero_bits_zero, crc_bits_app in EX.
  revert EX. apply zero_bits_nonzero; [apply crc_bits_lt; reflexivity|].
  pose proof (xbits_length wa wb HL) as XL.
  rewrite feed_top by lia. rewrite N.lxor_0_l. apply zero_bits_nonzero.
  - pose proof (bval_lt (xbits wa wb)) as HB.
    replace M32 with (2 ^ N.of_nat (length (xbits wa wb)) * 2 ^ N.of_nat (32 - length (xbits wa wb)))%N.
    + apply N.mul_lt_mono_pos_r; auto. apply pow2_pos.
    + rewrite <- N.pow_add_r. unfold M32. change 4294967296%N with (2 ^ 32)%N. f_equal. lia.
  - pose proof (pow2_pos (32 - length (xbits wa wb))). nia.
Qed.

(** ** the table *)
Lemma table_entry t : t < 256 -> nth t crc_table 0%N = crc_bits (N.of_nat t * 16777216) (repeat false 8).
Proof.
  intros H.
  assert (forallb (fun t => (nth t crc_table 0 =? crc_bits (N.of_nat t * 16777216) (repeat false 8))%N)
            (seq 0 256) = true) as HF by (vm_compute; reflexivity).
  rewrite forallb_forall in HF. apply N.eqb_eq. apply HF. apply in_seq. lia.
Qed.

Lemma zero8_small r : (r < 16777216)%N -> crc_bits r (repeat false 8) = (256 * r)%N.
Proof.
  intros H. unfold crc_bits. cbn [repeat fold_left].
  rewrite (@zero_bit_small r) by lia.
  rewrite (@zero_bit_small (2 * r)) by lia.
  rewrite (@zero_bit_small (2 * (2 * r))) by lia.
  rewrite (@zero_bit_small (2 * (2 * (2 * r)))) by lia.
  rewrite (@zero_bit_small (2 * (2 * (2 * (2 * r))))) by lia.
  rewrite (@zero_bit_small (2 * (2 * (2 * (2 * (2 * r)))))) by lia.
  rewrite (@zero_bit_small (2 * (2 * (2 * (2 * (2 * (2 * r))))))) by lia.
  rewrite (@zero_bit_small (2 * (2 * (2 * (2 * (2 * (2 * (2 * r)))))))) by lia.
  lia.
Qed.

Lemma lxor_split a : (a < M32)%N ->
  a = N.lxor (N.shiftr a 24 * 16777216) (a mod 16777216).
Proof.
  intros H. rewrite N.shiftr_div_pow2. change (2 ^ 24)%N with 16777216%N.
  rewrite (N.div_mod a 16777216) at 1 by discriminate.
  rewrite N.mul_comm. apply N.add_nocarry_lxor.
  apply N.bits_inj. intros i. rewrite N.land_spec, N.bits_0.
  destruct (N.lt_ge_cases i 24) as [G|G].
  - change 16777216%N with (2 ^ 24)%N at 2. rewrite N.mul_pow2_bits_low by auto. auto.
  - change 16777216%N with (2 ^ 24)%N at 3. rewrite N.mod_pow2_bits_high by auto. apply andb_false_r.
Qed.

Lemma top_byte_lt a : (a < M32)%N -> (N.shiftr a 24 < 256)%N.
Proof.
  intros H. rewrite N.shiftr_div_pow2. apply N.div_lt_upper_bound; [discriminate|]. exact H.
Qed.

Lemma lxor_lt256 a b : (a < 256)%N -> (b < 256)%N -> (N.lxor a b < 256)%N.
Proof.
  intros Ha Hb. destruct (N.eq_dec (N.lxor a b) 0) as [->|H0]; [reflexivity|].
  change 256%N with (2 ^ 8)%N. apply N.log2_lt_pow2; [lia|].
  pose proof (N.log2_lxor a b).
  assert (N.log2 a < 8)%N by (destruct (N.eq_dec a 0) as [->|]; [reflexivity|apply N.log2_lt_pow2; [lia|exact Ha]]).
  assert (N.log2 b < 8)%N by (destruct (N.eq_dec b 0) as [->|]; [reflexivity|apply N.log2_lt_pow2; [lia|exact Hb]]).
  lia.
Qed.

Lemma mul_lxor a b k : (N.lxor a b * 2 ^ k = N.lxor (a * 2 ^ k) (b * 2 ^ k))%N.
Proof. rewrite <- !N.shiftl_mul_pow2. apply N.shiftl_lxor. Qed.

Lemma crc_step_bits r d : (r < M32)%N -> d < 256 -> crc_step r d = crc_bits r (msb_bits d).
Proof.
  intros Hr Hd. change (msb_bits d) with (byte_bits d).
  rewrite feed_top by (rewrite byte_bits_length; lia). rewrite byte_bits_length, byte_bits_val by auto.
  change (32 - 8) with 24. change (2 ^ N.of_nat 24)%N with 16777216%N.
  unfold crc_step.
  assert (N.lxor (N.shiftr r 24) (N.of_nat d) < 256)%N as HI.
  { apply lxor_lt256; [apply top_byte_lt; auto|lia]. }
  rewrite table_entry by lia. rewrite N2Nat.id.
  rewrite (@lxor_split r Hr) at 3. rewrite N.lxor_assoc, (N.lxor_comm (r mod 16777216)), <- N.lxor_assoc.
  rewrite <- (mul_lxor _ _ 24).
  pose proof (@crc_bits_linear (repeat false 8) (repeat false 8) (N.lxor (N.shiftr r 24) (N.of_nat d) * 16777216)
                (r mod 16777216) eq_refl) as HX.
  change (xbits (repeat false 8) (repeat false 8)) with (repeat false 8) in HX.
  change (2 ^ 24)%N with 16777216%N. rewrite HX.
  rewrite (@zero8_small (r mod 16777216)) by (apply N.mod_lt; discriminate).
  rewrite N.lxor_comm. f_equal.
  rewrite N.shiftl_mul_pow2. change (2 ^ 8)%N with 256%N.
  rewrite (N.div_mod r 16777216) at 1 by discriminate.
  rewrite N.mul_add_distr_r.
  replace (16777216 * (r / 16777216) * 256)%N with (r / 16777216 * 4294967296)%N by lia.
  rewrite N.add_comm, N.mod_add by discriminate.
  assert (r mod 16777216 < 16777216)%N by (apply N.mod_lt; discriminate).
  rewrite N.mod_small by lia. lia.
Qed.

Lemma crc_fold_bits l : bytes l -> forall r, (r < M32)%N ->
  fold_left crc_step l r = crc_bits r (bits_of l) /\ (fold_left crc_step l r < M32)%N.
Proof.
  induction 1 as [|d l Hd HF IH]; intros r Hr; cbn [fold_left]; auto.
  rewrite crc_step_bits by auto. change (bits_of (d :: l)) with (msb_bits d ++ bits_of l).
  rewrite crc_bits_app. apply IH. apply crc_bits_lt; auto.
Qed.

Theorem crc32_correct l : bytes l -> crc32 l = crc32_bzip2 l.
Proof.
  intros H. unfold crc32, crc32_bzip2. f_equal. apply crc_fold_bits; auto. reflexivity.
Qed.

Lemma crc32_lt l : bytes l -> (crc32 l < 4294967296)%N.
Proof.
  intros H. unfold crc32. apply lxor_lt; [|reflexivity]. apply crc_fold_bits; auto. reflexivity.
Qed.

Theorem burst_detected a b pre wa wb post : bytes a -> bytes b ->
  bits_of a = pre ++ wa ++ post -> bits_of b = pre ++ wb ++ post ->
  length wa = length wb -> length wa <= 32 -> crc32 a = crc32 b -> a = b.
Proof.
  intros Ha Hb Ea Eb HL H32 E. rewrite !crc32_correct in E by auto. unfold crc32_bzip2 in E.
  assert (forall x y c, N.lxor x c = N.lxor y c -> x = y) as INJ.
  { intros x y c H. apply (f_equal (fun z => N.lxor z c)) in H.
    rewrite !N.lxor_assoc, N.lxor_nilpotent, !N.lxor_0_r in H. auto. }
  apply INJ in E. rewrite Ea, Eb in E. apply burst_bits in E; auto. subst wb.
  apply bytes_bits_inj; auto. change (bytes_bits a) with (bits_of a). change (bytes_bits b) with (bits_of b). congruence.
Qed.

(** ** the combined checksum *)
Lemma update_total_rotate c t : (t < M32)%N -> update_total_crc c t = N.lxor c (rotate_left_1 t).
Proof.
  intros Ht. unfold update_total_crc, rotate_left_1. f_equal.
  rewrite N.shiftl_mul_pow2, N.shiftr_div_pow2, (N.mul_comm t). change (2 ^ 1)%N with 2%N.
  change (2 ^ 31)%N with 2147483648%N.
  assert (t / 2147483648 < 2)%N as Hq by (apply N.div_lt_upper_bound; [discriminate|exact Ht]).
  assert (t / 2147483648 = 0 \/ t / 2147483648 = 1)%N as Hq2.
  { clear Ht. remember (t / 2147483648)%N as q eqn:Eq. clear Eq. lia. }
  rewrite <- N.lxor_lor; [symmetry; apply N.add_nocarry_lxor|].
  all: apply N.bits_inj; intros i; rewrite N.land_spec, N.bits_0; destruct (N.eq_dec i 0) as [->|Hi].
  1,3: change 4294967296%N with (2 ^ 32)%N; rewrite N.mod_pow2_bits_low by reflexivity; rewrite N.testbit_even_0; auto.
  all: replace (N.testbit (t / 2147483648) i) with false; [apply andb_false_r|]; symmetry.
  all: destruct Hq2 as [-> | ->]; [apply N.bits_0|].
  all: apply N.bits_above_log2; cbn; lia.
Qed.
Lemma rotate_lt t : (t < M32)%N -> (rotate_left_1 t < M32)%N.
Proof.
  intros Ht. unfold rotate_left_1. fold M32.
  assert (t / 2147483648 < 2)%N as Hq by (apply N.div_lt_upper_bound; [discriminate|exact Ht]).
  destruct (N.lt_ge_cases (2 * t mod M32 + t / 2147483648) M32) as [|G]; auto. exfalso.
  pose proof (mod32_lt (2 * t)) as H1.
  assert (2 * t mod M32 = M32 - 1)%N as E by lia.
  pose proof (N.div_mod (2 * t) M32 ltac:(discriminate)) as HD. rewrite E in HD. unfold M32 in *. lia.
Qed.
Lemma update_total_lt c t : (c < M32)%N -> (t < M32)%N -> (update_total_crc c t < M32)%N.
Proof. intros. rewrite update_total_rotate by auto. apply lxor_lt; auto using rotate_lt. Qed.

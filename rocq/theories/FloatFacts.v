(** * The single precision selector count is exact for every possible block

    An integer proof about [SpecFloat]'s binary32 division, rounding and ceiling. *)
From Verif Require Import Base BaseFacts Float32 SymbolStatistics.
Local Open Scope Z_scope.

Lemma digits_bounds p : 2 ^ (Zpos (digits2_pos p) - 1) <= Zpos p < 2 ^ Zpos (digits2_pos p).
Proof.
  induction p as [p IH|p IH|]; cbn [digits2_pos]; [| |cbn; lia].
  - rewrite Pos2Z.inj_succ. replace (Z.succ (Zpos (digits2_pos p)) - 1) with (Z.succ (Zpos (digits2_pos p) - 1)) by lia.
    rewrite !Z.pow_succ_r by lia. lia.
  - rewrite Pos2Z.inj_succ. replace (Z.succ (Zpos (digits2_pos p)) - 1) with (Z.succ (Zpos (digits2_pos p) - 1)) by lia.
    rewrite !Z.pow_succ_r by lia. lia.
Qed.

Lemma digits_unique m d : 0 < d -> 2 ^ (d - 1) <= m < 2 ^ d -> Zdigits2 m = d.
Proof.
  intros Hd H. destruct m as [|p|p]; [|cbn [Zdigits2]|].
  - pose proof (Z.pow_pos_nonneg 2 (d - 1)). lia.
  - pose proof (digits_bounds p) as B.
    assert (Zpos (digits2_pos p) - 1 < d) by (apply (Z.pow_lt_mono_r_iff 2); lia).
    assert (d - 1 < Zpos (digits2_pos p)) by (apply (Z.pow_lt_mono_r_iff 2); lia). lia.
  - pose proof (Z.pow_pos_nonneg 2 (d - 1)). lia.
Qed.

Lemma fexp_normal x : -100 <= x -> fexp 24 128 x = x - 24.
Proof. intros H. unfold fexp, emin. lia. Qed.

(** rounding a 24 digit number: nothing is shifted out *)
Lemma aux_24 m e l : 2 ^ 23 <= Zpos m < 2 ^ 24 -> -100 <= e <= 50 ->
  round_nearest_even (Zpos m) l = Zpos m -> loc_of_shr_record (shr_record_of_loc (Zpos m) l) = l ->
  binary_round_aux 24 128 false (Zpos m) e l = S754_finite false m e.
Proof.
  intros Hm He Hr Hl. unfold binary_round_aux, shr_fexp.
  rewrite (@digits_unique (Zpos m) 24) by (cbn in *; lia). rewrite fexp_normal by lia.
  replace (24 + e - 24 - e) with 0 by lia. cbn [shr].
  replace (shr_m (shr_record_of_loc (Zpos m) l)) with (Zpos m) by (destruct l as [|[]]; reflexivity).
  rewrite Hl, Hr. rewrite (@digits_unique (Zpos m) 24) by (cbn in *; lia). rewrite fexp_normal by lia.
  replace (24 + e - 24 - e) with 0 by lia. cbn [shr shr_record_of_loc shr_m].
  replace (e <=? 128 - 24) with true by (symmetry; apply Z.leb_le; lia). reflexivity.
Qed.

Lemma shift_pos_spec d m : Zpos (shift_pos d m) = Zpos m * 2 ^ Zpos d.
Proof. rewrite shift_pos_correct. change (Z.pow_pos 2 d) with (2 ^ Zpos d). lia. Qed.

(** Integers below 2^24 are represented exactly. *)
Lemma normalize_exact n : 0 < n < 2 ^ 24 -> exists m d,
  binary_normalize 24 128 n 0 false = S754_finite false m (d - 24) /\ 1 <= d <= 24 /\
  2 ^ (d - 1) <= n < 2 ^ d /\ Zpos m = n * 2 ^ (24 - d) /\ 2 ^ 23 <= Zpos m < 2 ^ 24.
Proof.
  intros Hn. destruct n as [|p|p]; try lia. cbn [binary_normalize]. unfold binary_round.
  pose proof (digits_bounds p) as B. remember (Zpos (digits2_pos p)) as d eqn:Ed.
  assert (1 <= d) by lia.
  assert (d - 1 < 24) by (apply (Z.pow_lt_mono_r_iff 2); lia).
  rewrite fexp_normal by lia.
  assert (2 ^ 23 <= Zpos p * 2 ^ (24 - d) < 2 ^ 24) as HB.
  { replace 23 with ((d - 1) + (24 - d)) at 1 by lia. replace (2 ^ 24) with (2 ^ (d + (24 - d))) by (f_equal; lia).
    rewrite !Z.pow_add_r by lia. pose proof (Z.pow_pos_nonneg 2 (24 - d)). nia. }
  unfold shl_align. replace (d + 0 - 24 - 0) with (- (24 - d)) by lia.
  destruct (24 - d) as [|k|k] eqn:Ek; [| |lia]; cbn [Z.opp].
  - exists p, d. rewrite aux_24 by (cbn in *; auto; lia). replace d with 24 by lia.
    repeat split; auto; try lia; cbn in *; lia.
  - exists (shift_pos k p), d. rewrite aux_24; [|rewrite shift_pos_spec; exact HB|split; lia|reflexivity|reflexivity].
    rewrite shift_pos_spec. rewrite Ek. replace (d + 0 - 24) with (d - 24) by lia. repeat split; auto; lia.
Qed.

Definition rounded (q r D R : Z) : Prop := (R = q /\ 2 * r <= D) \/ (R = q + 1 /\ 0 < r).

Lemma rne_spec q r D : Z.even D = true -> 0 < D -> 0 <= r < D ->
  rounded q r D (round_nearest_even q (new_location D r)).
Proof.
  intros HE HD Hr. unfold new_location. rewrite HE. unfold new_location_even, rounded.
  pose proof (Zeq_bool_if r 0) as HZ. destruct (Zeq_bool r 0); [cbn [round_nearest_even]; lia|].
  destruct (Z.compare_spec (2 * r) D); cbn [round_nearest_even]; try lia.
  destruct (Z.even q); lia.
Qed.

Lemma loc_id m l : loc_of_shr_record (shr_record_of_loc m l) = l.
Proof. destruct l as [|[]]; reflexivity. Qed.
Lemma rec_m m l : shr_m (shr_record_of_loc m l) = m.
Proof. destruct l as [|[]]; reflexivity. Qed.

(** after rounding, at most one exact right shift *)
Lemma second R e : 2 ^ 23 <= R <= 2 ^ 24 -> -100 <= e <= 50 ->
  exists m e', (let '(mrs'', e'') := shr_fexp 24 128 R e loc_Exact in
      match shr_m mrs'' with
      | Z0 => S754_zero false
      | Zpos m => if Zle_bool e'' (128 - 24) then S754_finite false m e'' else S754_infinity false
      | _ => S754_nan
      end) = S754_finite false m e' /\
    ((e' = e /\ Zpos m = R) \/ (e' = e + 1 /\ 2 * Zpos m = R)).
Proof.
  intros HR He. destruct (Z.eq_dec R (2 ^ 24)) as [->|Hne].
  - exists (2 ^ 23)%positive, (e + 1). split; [|right; split; reflexivity].
    unfold shr_fexp. replace (Zdigits2 (2 ^ 24)) with 25 by reflexivity. rewrite fexp_normal by lia.
    replace (25 + e - 24 - e) with 1 by lia. cbn -[Z.add].
    replace (e + 1 <=? 128 - 24) with true by (symmetry; apply Z.leb_le; lia). reflexivity.
  - unfold shr_fexp. rewrite (@digits_unique R 24) by (cbn in *; lia). rewrite fexp_normal by lia.
    replace (24 + e - 24 - e) with 0 by lia. cbn [shr shr_record_of_loc shr_m].
    destruct R as [|m|m]; [cbn in HR; lia| |cbn in HR; lia].
    exists m, e. replace (e <=? 128 - 24) with true by (symmetry; apply Z.leb_le; lia). auto.
Qed.

(** rounding a 24 or 25 digit quotient *)
Lemma round_quotient q r D e : Z.even D = true -> 0 < D -> 0 <= r < D -> 2 ^ 23 <= q < 2 ^ 25 - 2 -> -90 <= e <= 40 ->
  exists m e' s R, binary_round_aux 24 128 false q e (new_location D r) = S754_finite false m e' /\
    (s = 0 \/ s = 1) /\
    ((e' = e + s /\ Zpos m = R) \/ (e' = e + s + 1 /\ 2 * Zpos m = R)) /\
    rounded (q / 2 ^ s) ((q mod 2 ^ s) * D + r) (2 ^ s * D) R.
Proof.
  intros HE HD Hr Hq He. unfold binary_round_aux.
  destruct (Z_lt_le_dec q (2 ^ 24)) as [Hs|Hs].
  - unfold shr_fexp at 1. rewrite (@digits_unique q 24) by (cbn in *; lia). rewrite fexp_normal by lia.
    replace (24 + e - 24 - e) with 0 by lia. cbn [shr]. rewrite rec_m, loc_id.
    pose proof (@rne_spec q r D HE HD Hr) as HR.
    destruct (@second (round_nearest_even q (new_location D r)) e) as (m & e' & -> & HM); [|lia|].
    { destruct HR as [(-> & _)|(-> & _)]; cbn in *; lia. }
    exists m, e', 0, (round_nearest_even q (new_location D r)). split; auto. split; auto. split.
    + destruct HM as [(-> & <-)|(-> & <-)]; [left|right]; split; auto; lia.
    + change (2 ^ 0) with 1. rewrite Z.div_1_r, Z.mod_1_r. replace (0 * D + r) with r by lia. rewrite Z.mul_1_l. auto.
  - unfold shr_fexp at 1. rewrite (@digits_unique q 25) by (cbn in *; lia). rewrite fexp_normal by lia.
    replace (25 + e - 24 - e) with 1 by lia. cbn [shr iter_pos].
    set (rec := shr_1 (shr_record_of_loc q (new_location D r))).
    assert (shr_m rec = q / 2 /\ rounded (q / 2) ((q mod 2) * D + r) (2 * D)
              (round_nearest_even (shr_m rec) (loc_of_shr_record rec))) as (E1 & HR).
    { subst rec. assert (exists p, q = 2 * p /\ (q / 2 = p) /\ q mod 2 = 0 /\ 0 < p \/
                                 q = 2 * p + 1 /\ (q / 2 = p) /\ q mod 2 = 1 /\ 0 < p) as (p & HP).
      { exists (q / 2). pose proof (Z.div_mod q 2). pose proof (Z.mod_pos_bound q 2).
        assert (0 < q / 2) by (cbn in Hs; lia). lia. }
      assert (new_location D r = loc_Exact /\ r = 0 \/ (exists c, new_location D r = loc_Inexact c /\ 0 < r)) as HL.
      { unfold new_location. rewrite HE. unfold new_location_even.
        pose proof (Zeq_bool_if r 0) as HZ. destruct (Zeq_bool r 0); [left; auto|right; eexists; split; eauto; lia]. }
      assert (r = 0 -> rounded (q / 2) (q mod 2 * D + r) (2 * D) (round_nearest_even (q / 2)
         (loc_of_shr_record {| shr_m := q / 2; shr_r := (q mod 2 =? 1); shr_s := false |}))) as R0.
      { intros ->. unfold rounded. destruct HP as [(_ & -> & -> & _)|(_ & -> & -> & _)];
          cbn [Z.eqb Pos.eqb loc_of_shr_record round_nearest_even]; [lia|].
        destruct (Z.even p); lia. }
      assert (0 < r -> rounded (q / 2) (q mod 2 * D + r) (2 * D) (round_nearest_even (q / 2)
         (loc_of_shr_record {| shr_m := q / 2; shr_r := (q mod 2 =? 1); shr_s := true |}))) as R1.
      { intros H0. unfold rounded. destruct HP as [(_ & -> & -> & _)|(_ & -> & -> & _)];
          cbn [Z.eqb Pos.eqb loc_of_shr_record round_nearest_even]; lia. }
      assert (forall l, shr_1 (shr_record_of_loc q l) =
        {| shr_m := q / 2; shr_r := (q mod 2 =? 1); shr_s := match l with loc_Exact => false | _ => true end |}) as ES.
      { intros l. destruct HP as [(E & -> & -> & HP)|(E & -> & -> & HP)]; destruct p as [|p|p]; try lia; subst q;
          destruct l as [|[]]; reflexivity. }
      rewrite ES. cbn [shr_m]. split; auto.
      destruct HL as [(-> & Hr0)|(c & -> & Hr0)]; auto. }
    destruct (@second (round_nearest_even (shr_m rec) (loc_of_shr_record rec)) (e + 1)) as (m & e' & -> & HM); [|lia|].
    { assert (2 ^ 23 <= q / 2 < 2 ^ 24 - 1).
      { split; [apply Z.div_le_lower_bound; cbn in *; lia|apply Z.div_lt_upper_bound; cbn in *; lia]. }
      destruct HR as [(-> & _)|(-> & _)]; lia. }
    exists m, e', 1, (round_nearest_even (shr_m rec) (loc_of_shr_record rec)). split; [auto|]. split; [auto|]. split.
    + destruct HM as [(-> & <-)|(-> & <-)]; [left|right]; split; auto; lia.
    + change (2 ^ 1) with 2. auto.
Qed.

Lemma f32_50 : f32_of_N 50 = S754_finite false 13107200 (-18).
Proof. reflexivity. Qed.

(** ceiling, then conversion to an integer *)
Lemma ceil_to_usize m e K : e < 0 -> 0 < K < 2 ^ 24 -> (K - 1) * 2 ^ (- e) < Zpos m <= K * 2 ^ (- e) ->
  f32_to_usize (f32_ceil (S754_finite false m e)) = Z.to_N K.
Proof.
  intros He HK HM. unfold f32_ceil. replace (0 <=? e) with false by (symmetry; apply Z.leb_gt; lia).
  assert (0 < 2 ^ (- e)) as HP by (apply Z.pow_pos_nonneg; lia).
  assert (- (- Zpos m / 2 ^ (- e)) = K) as EK.
  { assert (- Zpos m / 2 ^ (- e) = - K); [|lia].
    symmetry. apply Z.div_unique with (r := K * 2 ^ (- e) - Zpos m); lia. }
  change (Z.neg m) with (- Z.pos m). cbv zeta. change (- - Zpos m) with (Zpos m) in *.
  destruct (normalize_exact HK) as (m' & d & EN & Hd & _ & EM & HM').
  replace (- (- Zpos m / 2 ^ (- e))) with K.
  destruct K as [|k|k]; try lia. rewrite EN. unfold f32_to_usize.
  destruct (0 <=? d - 24) eqn:E.
  - apply Z.leb_le in E. replace d with 24 in * by lia. change (2 ^ (24 - 24)) with 1 in *. rewrite EM, !Z.mul_1_r.
    apply N.min_l. unfold two64. change (2^24) with 16777216 in HK. lia.
  - rewrite EM. replace (- (d - 24)) with (24 - d) by lia. rewrite Z.div_mul by (apply Z.pow_nonzero; lia).
    apply N.min_l. unfold two64. change (2^24) with 16777216 in HK. lia.
Qed.

Theorem selector_count_exact n : (n < 16777216)%N -> selector_count n = ((n + 49) / 50)%N.
Proof.
  intros Hn. unfold selector_count. rewrite f32_50. destruct n as [|p]; [reflexivity|]. unfold f32_of_N.
  destruct (@normalize_exact (Zpos p)) as (m & d & -> & Hd & HB & EM & HM); [split; [|change (2^24) with 16777216]; lia|].
  cbn [f32_div SFdiv xorb]. unfold SFdiv_core_binary.
  rewrite (@digits_unique (Zpos m) 24) by (cbn in *; lia).
  change (Zdigits2 13107200) with 24. rewrite fexp_normal by lia.
  replace (Z.min (24 + (d - 24) - (24 + -18) - 24) (d - 24 - -18)) with (d - 30) by lia.
  replace (d - 24 - -18 - (d - 30)) with 24 by lia.
  rewrite Z.shiftl_mul_pow2 by lia.
  assert (0 < 13107200) as HD by lia.
  pose proof (Z_div_mod (Zpos m * 2 ^ 24) 13107200 ltac:(lia)) as HDM.
  destruct (Z.div_eucl (Zpos m * 2 ^ 24) 13107200) as (q, r). destruct HDM as (EQ & Hr).
  change (2 ^ 24) with 16777216 in *. change (2 ^ 23) with 8388608 in *.
  assert (2 ^ 23 <= q < 2 ^ 25 - 2) as Hq by (change (2 ^ 23) with 8388608; change (2 ^ 25) with 33554432; lia).
  destruct (@round_quotient q r 13107200 (d - 30) eq_refl HD Hr Hq) as (m' & e' & s & R & -> & Hs & HF & HR); [lia|].
  remember (2 ^ (24 - d)) as P eqn:EP.
  assert (0 < P) as HP by (subst P; apply Z.pow_pos_nonneg; lia).
  assert (2 ^ (30 - d) = 64 * P) as E30.
  { subst P. replace (30 - d) with (6 + (24 - d)) by lia. rewrite Z.pow_add_r by lia. reflexivity. }
  remember ((Zpos p + 49) / 50) as K eqn:EK.
  assert (50 * (K - 1) + 1 <= Zpos p <= 50 * K) as HK.
  { pose proof (Z.div_mod (Zpos p + 49) 50). pose proof (Z.mod_pos_bound (Zpos p + 49) 50). lia. }
  rewrite (@ceil_to_usize m' e' K); [| |lia|].
  - subst K. rewrite Z2N.inj_div by lia. reflexivity.
  - lia.
  - (* R·2^s lies in ((K-1)·64P, K·64P] *)
    assert ((K - 1) * (64 * P) < R * 2 ^ s <= K * (64 * P)) as HV.
    { assert (13107200 * q + r = 16777216 * (Zpos p * P)) as EQ' by lia. clear EQ HF.
      destruct Hs as [->| ->].
      - change (2 ^ 0) with 1 in *. rewrite Z.div_1_r, Z.mod_1_r in HR. destruct HR as [(-> & H2)|(-> & H2)]; nia.
      - change (2 ^ 1) with 2 in *. pose proof (Z.div_mod q 2). pose proof (Z.mod_pos_bound q 2).
        remember (q / 2) as h. remember (q mod 2) as b. destruct HR as [(-> & H2)|(-> & H2)]; nia. }
    destruct HF as [(-> & EMR)|(-> & EMR)].
    + assert (64 * P = 2 ^ s * 2 ^ (- (d - 30 + s))) as E.
      { rewrite <- E30, <- Z.pow_add_r by lia. f_equal. lia. }
      assert (0 < 2 ^ s) by (apply Z.pow_pos_nonneg; lia). rewrite E in HV. rewrite EMR. nia.
    + assert (64 * P = 2 * 2 ^ s * 2 ^ (- (d - 30 + s + 1))) as E.
      { rewrite <- E30. replace (30 - d) with (1 + (s + - (d - 30 + s + 1))) by lia. rewrite !Z.pow_add_r by lia. lia. }
      assert (0 < 2 ^ s) by (apply Z.pow_pos_nonneg; lia). rewrite E in HV. rewrite <- EMR in HV. nia.
Qed.

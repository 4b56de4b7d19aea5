(** * binary32 operations as roundings of real operations (through Flocq) *)
From Coq Require Import ZArith NArith Reals Lia Lra Psatz.
From Flocq Require Import Core BinarySingleNaN Relative.
From Verif Require Import Base Float32.
Open Scope R_scope.

#[local] Instance Hprec32 : Prec_gt_0 24 := eq_refl _.
#[local] Instance Hmax32 : Prec_lt_emax 24 128 := eq_refl _.

Definition fexp32 : Z -> Z := SpecFloat.fexp 24 128.
(** round to nearest binary32, ties to even *)
Definition rnd (x : R) : R := round radix2 fexp32 ZnearestE x.
(** the float [x] is finite and has the value [r] *)
Definition is32 (x : f32) (r : R) : Prop := exists b : binary_float 24 128, B2SF b = x /\ is_finite b = true /\ B2R b = r.

Lemma rne_equiv s m l : SpecFloat.round_nearest_even m l = choice_mode mode_NE s m l.
Proof. case l; [reflexivity|intro c]. case c; [ | reflexivity..]. now simpl; unfold Round.cond_incr; case Z.even. Qed.

Lemma round_aux_equiv sx mx ex lx :
  SpecFloat.binary_round_aux 24 128 sx mx ex lx = BinarySingleNaN.binary_round_aux 24 128 mode_NE sx mx ex lx.
Proof.
  unfold SpecFloat.binary_round_aux, BinarySingleNaN.binary_round_aux.
  set (mrse' := shr_fexp _ _ _ _ _). case mrse'; intros mrs' e'; simpl. now rewrite (rne_equiv sx).
Qed.
Lemma round_equiv s m e : SpecFloat.binary_round 24 128 s m e = BinarySingleNaN.binary_round 24 128 mode_NE s m e.
Proof.
  unfold SpecFloat.binary_round, BinarySingleNaN.binary_round, shl_align_fexp.
  set (mez := shl_align _ _ _); case mez as [mz ez]. apply round_aux_equiv.
Qed.
Lemma normalize_equiv m e szero :
  SpecFloat.binary_normalize 24 128 m e szero = B2SF (BinarySingleNaN.binary_normalize 24 128 Hprec32 Hmax32 mode_NE m e szero).
Proof.
  case m as [ | p | p]; [now simpl| |]; simpl; rewrite B2SF_SF2B; apply round_equiv.
Qed.
Lemma add_equiv (x y : binary_float 24 128) : f32_add (B2SF x) (B2SF y) = B2SF (Bplus mode_NE x y).
Proof.
  case x as [sx|sx| |sx mx ex Bx]; case y as [sy|sy| |sy my ey By]; [now (trivial || simpl; case Bool.eqb).. | ].
  apply normalize_equiv.
Qed.
Lemma sub_equiv (x y : binary_float 24 128) : f32_sub (B2SF x) (B2SF y) = B2SF (Bminus mode_NE x y).
Proof.
  case x as [sx|sx| |sx mx ex Bx]; case y as [sy|sy| |sy my ey By]; [now (trivial || simpl; case Bool.eqb).. | ].
  simpl. unfold Zminus. rewrite <- cond_Zopp_negb. apply normalize_equiv.
Qed.
Lemma mul_equiv (x y : binary_float 24 128) : f32_mul (B2SF x) (B2SF y) = B2SF (Bmult mode_NE x y).
Proof.
  case x as [sx|sx| |sx mx ex Bx]; case y as [sy|sy| |sy my ey By]; [now trivial.. | ].
  simpl. rewrite B2SF_SF2B. apply round_aux_equiv.
Qed.
Lemma div_equiv (x y : binary_float 24 128) : f32_div (B2SF x) (B2SF y) = B2SF (Bdiv mode_NE x y).
Proof.
  case x as [sx|sx| |sx mx ex Bx]; case y as [sy|sy| |sy my ey By]; [now (trivial || simpl; case Bool.eqb).. | ].
  simpl. rewrite B2SF_SF2B. set (melz := SFdiv_core_binary _ _ _ _ _ _). case melz as [[mz ez] lz]. apply round_aux_equiv.
Qed.
Lemma sqrt_equiv (x : binary_float 24 128) : f32_sqrt (B2SF x) = B2SF (Bsqrt mode_NE x).
Proof.
  case x as [sx|sx| |sx mx ex Bx]; [now (trivial || case sx).. | ]. case sx; [reflexivity | ].
  simpl. rewrite B2SF_SF2B. set (melz := SFsqrt_core_binary _ _ _ _). case melz as [[mz ez] lz]. apply round_aux_equiv.
Qed.

(** ** the rounding *)
#[local] Instance fexp32_valid : Valid_exp fexp32.
Proof. apply fexp_correct. exact Hprec32. Qed.

Lemma fexp32_FLT e : fexp32 e = FLT_exp (-149) 24 e.
Proof. reflexivity. Qed.

Lemma rnd_0 : rnd 0 = 0.
Proof. apply round_0. apply valid_rnd_N. Qed.
Lemma rnd_le a b : a <= b -> rnd a <= rnd b.
Proof. apply round_le; [exact fexp32_valid|apply valid_rnd_N]. Qed.
Lemma rnd_nonneg a : 0 <= a -> 0 <= rnd a.
Proof. intros H. rewrite <- rnd_0. apply rnd_le, H. Qed.
Lemma rnd_error a : exists e d, Rabs e <= / 16777216 /\ Rabs d <= bpow radix2 (-150) /\ rnd a = a * (1 + e) + d.
Proof.
  destruct (error_N_FLT radix2 (-149) 24 ltac:(reflexivity) (fun x => negb (Z.even x)) a) as (e & d & He & Hd & _ & E).
  exists e, d. split; [|split]; [| |exact E].
  2:{ eapply Rle_trans; [exact Hd|]. change (-149)%Z with (1 + -150)%Z. rewrite bpow_plus. change (bpow radix2 1) with 2. lra. }
  eapply Rle_trans; [exact He|]. simpl. lra.
Qed.
Lemma rnd_bound a : Rabs (rnd a) <= Rabs a * 2 + 1.
Proof.
  destruct (rnd_error a) as (e & d & He & Hd & ->).
  eapply Rle_trans; [apply Rabs_triang|]. rewrite Rabs_mult. pose proof (Rabs_pos a).
  assert (Rabs (1 + e) <= 2). { eapply Rle_trans; [apply Rabs_triang|]. rewrite Rabs_R1. lra. }
  assert (bpow radix2 (-150) <= 1) by (change 1 with (bpow radix2 0); apply bpow_le; lia). nra.
Qed.
Lemma small_ok a : Rabs a <= bpow radix2 100 -> Rlt_bool (Rabs (round radix2 fexp32 (round_mode mode_NE) a)) (bpow radix2 128) = true.
Proof.
  intros H. apply Rlt_bool_true. change (round_mode mode_NE) with ZnearestE. fold (rnd a).
  eapply Rle_lt_trans; [apply rnd_bound|]. apply Rle_lt_trans with (bpow radix2 100 * 2 + 1); [lra|].
  change 128%Z with (100 + 28)%Z. rewrite bpow_plus. assert (1 <= bpow radix2 100) by (change 1 with (bpow radix2 0); apply bpow_le; lia).
  change (bpow radix2 28) with 268435456. lra.
Qed.

(** ** the operations *)
Lemma is32_zero : is32 f32_zero 0.
Proof. exists (B754_zero false). auto. Qed.

Lemma is32_add x y a b : is32 x a -> is32 y b -> Rabs (a + b) <= bpow radix2 100 -> is32 (f32_add x y) (rnd (a + b)).
Proof.
  intros (bx & <- & Fx & <-) (bz & <- & Fy & <-) H. rewrite add_equiv. exists (Bplus mode_NE bx bz). split; auto.
  pose proof (Bplus_correct 24 128 _ _ mode_NE bx bz Fx Fy) as C. fold fexp32 in C. rewrite small_ok in C; auto. tauto.
Qed.
Lemma is32_sub x y a b : is32 x a -> is32 y b -> Rabs (a - b) <= bpow radix2 100 -> is32 (f32_sub x y) (rnd (a - b)).
Proof.
  intros (bx & <- & Fx & <-) (bz & <- & Fy & <-) H. rewrite sub_equiv. exists (Bminus mode_NE bx bz). split; auto.
  pose proof (Bminus_correct 24 128 _ _ mode_NE bx bz Fx Fy) as C. fold fexp32 in C. rewrite small_ok in C; auto. tauto.
Qed.
Lemma is32_mul x y a b : is32 x a -> is32 y b -> Rabs (a * b) <= bpow radix2 100 -> is32 (f32_mul x y) (rnd (a * b)).
Proof.
  intros (bx & <- & Fx & <-) (bz & <- & Fy & <-) H. rewrite mul_equiv. exists (Bmult mode_NE bx bz). split; auto.
  pose proof (Bmult_correct 24 128 _ _ mode_NE bx bz) as C. fold fexp32 in C. rewrite small_ok in C; auto.
  rewrite Fx, Fy in C. tauto.
Qed.
Lemma is32_div x y a b : is32 x a -> is32 y b -> b <> 0 -> Rabs (a / b) <= bpow radix2 100 -> is32 (f32_div x y) (rnd (a / b)).
Proof.
  intros (bx & <- & Fx & <-) (bz & <- & Fy & <-) NZ H. rewrite div_equiv. exists (Bdiv mode_NE bx bz). split; auto.
  pose proof (Bdiv_correct 24 128 _ _ mode_NE bx bz NZ) as C. fold fexp32 in C. rewrite small_ok in C; auto.
  rewrite Fx in C. tauto.
Qed.
Lemma is32_sqrt x a : is32 x a -> 0 <= a -> is32 (f32_sqrt x) (rnd (sqrt a)).
Proof.
  intros (bx & <- & Fx & <-) H. rewrite sqrt_equiv. exists (Bsqrt mode_NE bx). split; auto.
  destruct (Bsqrt_correct 24 128 _ _ mode_NE bx) as (E & F & _). fold fexp32 in E. split; [|exact E].
  rewrite F. destruct bx as [s|s| |s m e B]; auto. destruct s; auto. exfalso. cbn [B2R] in H.
  apply (Rle_not_lt _ _ H). apply F2R_lt_0. reflexivity.
Qed.
Lemma is32_lt x y a b : is32 x a -> is32 y b -> (f32_lt x y = true <-> a < b).
Proof.
  intros (bx & <- & Fx & <-) (bz & <- & Fy & <-).
  change (f32_lt (B2SF bx) (B2SF bz)) with (Bltb bx bz). rewrite Bltb_correct by auto. 
  destruct (Rlt_bool_spec (B2R bx) (B2R bz)); split; auto; try discriminate. intros; lra.
Qed.
Lemma is32_unique x a b : is32 x a -> is32 x b -> a = b.
Proof. intros (bx & <- & Fx & <-) (bz & E & Fz & <-). apply B2SF_inj in E. subst. auto. Qed.

Lemma rnd_int z : (Z.abs z < 16777216)%Z -> rnd (IZR z) = IZR z.
Proof.
  intros H. unfold rnd. apply round_generic; [apply valid_rnd_N|].
  replace (IZR z) with (F2R (Float radix2 z 0)) by (unfold F2R; simpl; ring).
  apply generic_format_F2R. intros NZ. unfold cexp. rewrite mag_F2R_Zdigits by auto.
    assert (Zdigits radix2 z <= 24)%Z.
    { apply Zdigits_le_Zpower. change (Zpower radix2 24) with 16777216%Z. lia. }
    change (fexp32 (Zdigits radix2 z + 0)) with (FLT_exp (-149) 24 (Zdigits radix2 z + 0)). unfold FLT_exp. lia.
Qed.
Lemma is32_of_N n : (n < 16777216)%N -> is32 (f32_of_N n) (IZR (Z.of_N n)).
Proof.
  intros H. destruct n as [|p]; [exact is32_zero|].
  unfold f32_of_N. rewrite normalize_equiv. eexists. split; [reflexivity|].
  pose proof (binary_normalize_correct 24 128 _ _ mode_NE (Zpos p) 0 false) as C. cbv zeta in C. fold fexp32 in C.
  replace (F2R (Float radix2 (Zpos p) 0)) with (IZR (Zpos p)) in C by (unfold F2R; cbn [Fnum Fexp bpow]; ring).
  rewrite small_ok in C.
  - change (Z.of_N (Npos p)) with (Zpos p). rewrite <- (rnd_int (Zpos p)) by (cbn in *; lia). tauto.
  - rewrite <- abs_IZR. apply Rle_trans with (IZR 16777216); [apply IZR_le; cbn in *; lia|].
    change (IZR 16777216) with (bpow radix2 24). apply bpow_le. lia.
Qed.

(** ** [as usize] *)
Lemma is32_to_usize x a : is32 x a -> 0 <= a <= IZR (2 ^ 60) -> f32_to_usize x = Z.to_N (Zfloor a).
Proof.
  intros (bx & <- & Fx & <-) (H0 & H1). destruct bx as [s|s| |s m e B]; try discriminate.
  - cbn [B2R B2SF f32_to_usize]. rewrite (Zfloor_IZR 0). reflexivity.
  - destruct s.
    + exfalso. cbn [B2R] in H0. apply (Rle_not_lt _ _ H0). apply F2R_lt_0. reflexivity.
    + cbn [B2R B2SF f32_to_usize] in *. cbn [cond_Zopp] in *. unfold F2R in *. cbn [Fnum Fexp] in *.
      set (v := if (0 <=? e)%Z then (Zpos m * 2 ^ e)%Z else (Zpos m / 2 ^ (- e))%Z).
      assert (Zfloor (IZR (Zpos m) * bpow radix2 e) = v) as E.
      { unfold v. destruct (Z.leb_spec 0 e).
        - rewrite <- IZR_Zpower by auto. rewrite <- mult_IZR, Zfloor_IZR. reflexivity.
        - replace e with (- - e)%Z at 1 by lia. rewrite bpow_opp, <- IZR_Zpower by lia.
          change (Zpower radix2 (- e)) with (2 ^ (- e))%Z. fold (IZR (Zpos m) / IZR (2 ^ (- e))).
          apply Zfloor_div. apply Z.pow_nonzero; lia. }
      rewrite E. assert (0 <= v <= 2 ^ 60)%Z as (V0 & V1).
      { rewrite <- E. split; [apply Zfloor_lub; exact H0|]. rewrite <- (Zfloor_IZR (2 ^ 60)). apply Zfloor_le, H1. }
      apply N.min_l. unfold two64. change (2 ^ 60)%Z with 1152921504606846976%Z in V1. lia.
Qed.

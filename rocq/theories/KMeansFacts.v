(** * The k-means clustering in real arithmetic *)
From Coq Require Import ZArith NArith Reals Lia Lra Psatz.
From Flocq Require Import Core BinarySingleNaN.
From Verif Require Import Base BaseFacts Zle ZleFacts Float32 FloatReal KMeans SymbolStatistics BlockEncoder BlockFacts SpecKMeans.
Open Scope R_scope.

Definition u32 : R := / 16777216.
Definition h32 : R := / 2 ^ 150.
Lemma u32_pos : 0 < u32. Proof. unfold u32. lra. Qed.
Lemma h32_pos : 0 < h32. Proof. unfold h32. apply Rinv_0_lt_compat, pow_lt. lra. Qed.
Lemma h32_small : h32 * 2 ^ 100 * 2 ^ 24 <= u32.
Proof.
  unfold h32, u32. change 16777216 with (IZR (2 ^ 24)). rewrite !pow_IZR. rewrite <- !mult_IZR || idtac.
  replace (IZR (2 ^ Z.of_nat 150)) with (IZR (2 ^ 24) * IZR (2 ^ 126)) by (rewrite <- mult_IZR; apply f_equal; reflexivity).
  assert (0 < IZR (2 ^ 24)) by (apply IZR_lt; reflexivity).
  assert (0 < IZR (2 ^ 126)) by (apply IZR_lt; reflexivity).
  rewrite Rinv_mult.
  assert (/ IZR (2 ^ 126) * IZR (2 ^ Z.of_nat 100) * IZR (2 ^ Z.of_nat 24) <= 1).
  { rewrite Rmult_assoc, <- mult_IZR. apply Rmult_le_reg_l with (IZR (2 ^ 126)); auto. rewrite <- Rmult_assoc, Rinv_r, Rmult_1_l, Rmult_1_r by lra.
    apply IZR_le. vm_compute. discriminate. }
  assert (0 < / IZR (2 ^ 24)) by (apply Rinv_0_lt_compat; auto).
  replace (/ IZR (2 ^ 24) * / IZR (2 ^ 126) * IZR (2 ^ Z.of_nat 100) * IZR (2 ^ Z.of_nat 24)) with
    (/ IZR (2 ^ 24) * (/ IZR (2 ^ 126) * IZR (2 ^ Z.of_nat 100) * IZR (2 ^ Z.of_nat 24))) by ring.
  rewrite <- (Rmult_1_r (/ IZR (2 ^ 24))) at 2. apply Rmult_le_compat_l; lra.
Qed.
Lemma h32_tiny : h32 * 10 ^ 30 <= u32.
Proof.
  pose proof h32_small. pose proof h32_pos. assert (10 ^ 30 <= 2 ^ 100 * 2 ^ 24).
  { rewrite !pow_IZR, <- mult_IZR. apply IZR_le. vm_compute. discriminate. }
  rewrite Rmult_assoc in H. nra.
Qed.

Lemma rnd_err a : 0 <= a -> a - (u32 * a + h32) <= rnd a <= a + (u32 * a + h32).
Proof.
  intros H. destruct (rnd_error a) as (e & d & He & Hd & ->).
  apply Rabs_le_inv in He. fold u32 in He.
  replace (bpow radix2 (-150)) with h32 in Hd.
  2:{ unfold h32. rewrite bpow_opp with (e := 150%Z). f_equal. rewrite <- IZR_Zpower by lia. rewrite pow_IZR. reflexivity. }
  apply Rabs_le_inv in Hd. nra.
Qed.

(** ** the running mean *)
Lemma h32_num : 0 < h32 <= / 10 ^ 30.
Proof.
  split; [apply h32_pos|]. pose proof h32_tiny as H. unfold u32 in H.
  apply Rmult_le_reg_r with (10 ^ 30); [lra|]. replace (/ 10 ^ 30 * 10 ^ 30) with 1 by (field; lra). lra.
Qed.
Lemma rnd_num a : 0 <= a -> a - (a / 16777216 + h32) <= rnd a <= a + (a / 16777216 + h32).
Proof. intros H. pose proof (rnd_err H) as E. unfold u32 in E. lra. Qed.

Lemma mean_step c M S x : 0 <= M <= 200000 -> 0 <= c <= 51 -> 0 <= S <= 50 * M -> 0 <= x <= 50 ->
  Rabs (c * M - S) <= (80 / 16777216) * (M * (M + 1)) ->
  let c' := rnd (rnd (rnd (c * M) + x) / (M + 1)) in
  0 <= c' <= 51 /\ Rabs (c' * (M + 1) - (S + x)) <= (80 / 16777216) * ((M + 1) * (M + 1 + 1)) /\
  0 <= rnd (c * M) <= 2 ^ 30 /\ 0 <= rnd (rnd (c * M) + x) <= 2 ^ 30.
Proof.
  intros HM Hc HS Hx HE c'. pose proof h32_num as H. assert (/ 10 ^ 30 <= / 10 ^ 20) as H20 by (apply Rinv_le_contravar; lra).
  assert (0 <= c * M <= 51 * M) as Hcm.
  { split; [apply Rmult_le_pos; lra|]. apply Rmult_le_compat_r; lra. }
  pose proof (@rnd_num (c * M) ltac:(lra)) as A. set (a := rnd (c * M)) in *.
  assert (0 <= a) as A0 by (apply rnd_nonneg; lra).
  assert (a <= 52 * M + h32) as A1 by lra.
  pose proof (@rnd_num (a + x) ltac:(lra)) as B. set (b := rnd (a + x)) in *.
  assert (0 <= b) as B0 by (apply rnd_nonneg; lra).
  assert (b <= 53 * M + 51 + 3 * h32) as B1 by lra.
  assert (0 < M + 1) as M1 by lra.
  assert (0 <= b / (M + 1)) as D0 by (apply Rmult_le_pos; [auto|left; apply Rinv_0_lt_compat; auto]).
  pose proof (@rnd_num (b / (M + 1)) D0) as C. fold c' in C.
  assert (0 <= c') as C0 by (apply rnd_nonneg; auto).
  assert (b / (M + 1) * (M + 1) = b) as DB by (field; lra).
  assert (h32 * (M + 1) <= / 10 ^ 20) as HM'.
  { apply Rle_trans with (/ 10 ^ 30 * (10 ^ 6)); [apply Rmult_le_compat; lra|]. lra. }
  assert (b - (b / 16777216 + / 10 ^ 20) <= c' * (M + 1) <= b + (b / 16777216 + / 10 ^ 20)) as CB.
  { set (q := b / (M + 1)) in *. destruct C as (C1 & C2).
    apply (Rmult_le_compat_r (M + 1)) in C1; [|lra]. apply (Rmult_le_compat_r (M + 1)) in C2; [|lra].
    replace ((q - (q / 16777216 + h32)) * (M + 1)) with (q * (M + 1) - (q * (M + 1) / 16777216 + h32 * (M + 1))) in C1 by field.
    replace ((q + (q / 16777216 + h32)) * (M + 1)) with (q * (M + 1) + (q * (M + 1) / 16777216 + h32 * (M + 1))) in C2 by field.
    rewrite DB in C1, C2. lra. }
  apply Rabs_le_inv in HE.
  assert (Rabs (c' * (M + 1) - (S + x)) <= (80 / 16777216) * ((M + 1) * (M + 1 + 1))) as R.
  { apply Rabs_le. split; lra. }
  split; [split; auto|].
  { apply Rabs_le_inv in R. apply Rmult_le_reg_r with (M + 1); auto.
    assert (80 / 16777216 * ((M + 1) * (M + 1 + 1)) <= 1 * (M + 1)); [|lra].
    rewrite (Rmult_comm (M + 1)), <- Rmult_assoc. apply Rmult_le_compat_r; lra. }
  split; [exact R|]. split; split; auto; lra.
Qed.

(** the value of a finite float *)
Definition val (x : f32) : R := SF2R radix2 x.
Lemma is32_val x a : is32 x a -> val x = a.
Proof. intros (b & <- & _ & <-). apply SF2R_B2SF. Qed.
Definition fin (x : f32) : Prop := is32 x (val x).
Lemma is32_fin x a : is32 x a -> fin x.
Proof. intros H. unfold fin. rewrite (is32_val H). exact H. Qed.

Lemma of_nat_32 n : (N.of_nat n <= 1000000)%N -> is32 (f32_of_N (N.of_nat n)) (INR n).
Proof. intros H. rewrite INR_IZR_INZ, <- nat_N_Z. apply is32_of_N. lia. Qed.

(** one entry of a center: the running mean of [m] counts with sum [S] *)
Definition entry_ok (x : f32) (m S : nat) : Prop :=
  fin x /\ 0 <= val x <= 51 /\ Rabs (val x * INR m - INR S) <= (80 / 16777216) * (INR m * (INR m + 1)) /\ (m = 0%nat -> val x = 0).

Lemma big a : 0 <= a <= 2 ^ 30 -> Rabs a <= bpow radix2 100.
Proof.
  intros H. rewrite Rabs_pos_eq by lra. apply Rle_trans with (bpow radix2 30); [|apply bpow_le; lia].
  rewrite <- IZR_Zpower by lia. rewrite pow_IZR in H. apply H.
Qed.
Lemma entry_step x m S p : entry_ok x m S -> (N.of_nat m < 200000)%N -> (S <= 50 * m)%nat -> (p <= 50)%nat ->
  entry_ok (f32_div (f32_add (f32_mul x (f32_of_N (N.of_nat m))) (f32_of_N (N.of_nat p))) (f32_add (f32_of_N (N.of_nat m)) (f32_of_N 1)))
    (m + 1) (S + p).
Proof.
  intros (F & HV & HE & _) Hm HS Hp.
  assert (0 <= INR m <= 200000) as HM.
  { split; [apply pos_INR|]. rewrite INR_IZR_INZ. apply IZR_le. lia. }
  assert (0 <= INR S <= 50 * INR m) as HS'.
  { split; [apply pos_INR|]. replace 50 with (INR 50) by (simpl; lra). rewrite <- mult_INR. apply le_INR. lia. }
  assert (0 <= INR p <= 50) as HP.
  { split; [apply pos_INR|]. replace 50 with (INR 50) by (simpl; lra). apply le_INR. lia. }
  destruct (@mean_step (val x) (INR m) (INR S) (INR p) HM HV HS' HP HE) as (C1 & C2 & A & B).
  assert (0 <= val x * INR m <= 2 ^ 30) as A'.
  { split; [apply Rmult_le_pos; lra|]. apply Rle_trans with (51 * 200000); [apply Rmult_le_compat; lra|lra]. }
  pose proof (is32_mul F (@of_nat_32 m ltac:(lia)) (big A')) as I1.
  assert (0 <= rnd (val x * INR m) + INR p <= 2 ^ 30) as B'.
  { split; [lra|]. pose proof (@rnd_num (val x * INR m) (proj1 A')). pose proof h32_num.
    assert (val x * INR m <= 51 * 200000) by (apply Rmult_le_compat; lra).
    assert (/ 10 ^ 30 <= 1) by lra. lra. }
  pose proof (is32_add I1 (@of_nat_32 p ltac:(lia)) (big B')) as I2.
  assert (is32 (f32_add (f32_of_N (N.of_nat m)) (f32_of_N 1)) (INR m + 1)) as I3.
  { replace (INR m + 1) with (rnd (INR m + INR 1)).
    - apply is32_add; [apply of_nat_32; lia|apply (@of_nat_32 1); lia|]. apply big. simpl. lra.
    - replace (INR m + INR 1) with (IZR (Z.of_nat (m + 1))) by (rewrite <- INR_IZR_INZ, plus_INR; reflexivity).
      rewrite rnd_int by lia. rewrite <- INR_IZR_INZ, plus_INR. reflexivity. }
  assert (INR m + 1 <> 0) as NZ by lra.
  assert (0 <= rnd (rnd (val x * INR m) + INR p) / (INR m + 1) <= 2 ^ 30) as D'.
  { split; [apply Rmult_le_pos; [lra|left; apply Rinv_0_lt_compat; lra]|].
    apply Rmult_le_reg_r with (INR m + 1); [lra|]. unfold Rdiv. rewrite Rmult_assoc, Rinv_l, Rmult_1_r by auto.
    apply Rle_trans with (2 ^ 30 * 1); [lra|]. apply Rmult_le_compat_l; lra. }
  pose proof (is32_div I2 I3 NZ (big D')) as I4. unfold entry_ok. rewrite (is32_val I4).
  split; [eapply is32_fin; eauto|]. split; [exact C1|].
  rewrite !plus_INR. change (INR 1) with 1. split; [exact C2|]. intros H. lia.
Qed.

Lemma mean_update_nth size center : forall point s d, (s < length center)%nat -> length point = length center ->
  nth s (mean_update size center point) d =
  f32_div (f32_add (f32_mul (nth s center d) (f32_of_N (N.of_nat size))) (f32_of_N (N.of_nat (nth s point 0%nat))))
    (f32_add (f32_of_N (N.of_nat size)) (f32_of_N 1)).
Proof.
  induction center as [|x center IH]; intros [|p point] s d Hs HL; cbn [length] in *; try lia; try discriminate.
  cbn [mean_update]. destruct s as [|s]; cbn [nth]; [reflexivity|]. apply IH; lia.
Qed.

(** the rows of the pairs with second component [t] *)
Definition mem (t : nat) (pairs : list (list nat * nat)) : list (list nat) := map fst (filter (fun x => snd x =? t)%nat pairs).
Lemma mem_snoc t pairs p a : mem t (pairs ++ [(p, a)]) = mem t pairs ++ (if (a =? t)%nat then [p] else []).
Proof.
  unfold mem. rewrite filter_app, map_app. f_equal. cbn [filter snd]. destruct (a =? t)%nat; reflexivity.
Qed.
Lemma mem_le t pairs : (length (mem t pairs) <= length pairs)%nat.
Proof.
  unfold mem. rewrite map_length. induction pairs as [|x l IH]; cbn [filter length]; [lia|].
  destruct (snd x =? t)%nat; cbn [length]; lia.
Qed.
Lemma total_app a b s : total (a ++ b) s = (total a s + total b s)%nat.
Proof. unfold total. rewrite map_app, list_sum_app. reflexivity. Qed.

Definition row_ok (dim : nat) (row : list nat) : Prop := length row = dim /\ Forall (fun x => (x <= 50)%nat) row.
Lemma row_nth dim row s : row_ok dim row -> (nth s row 0%nat <= 50)%nat.
Proof.
  intros (_ & H). destruct (Nat.lt_ge_cases s (length row)) as [L|L].
  - rewrite Forall_forall in H. apply H, nth_In, L.
  - rewrite nth_overflow by auto. lia.
Qed.
Lemma total_le dim rows s : Forall (row_ok dim) rows -> (total rows s <= 50 * length rows)%nat.
Proof.
  induction 1 as [|r rows Hr HF IH]; cbn [length]; [cbn; lia|].
  change (total (r :: rows) s) with (nth s r 0 + total rows s)%nat. pose proof (row_nth s Hr). lia.
Qed.
Lemma mem_rows dim t pairs : Forall (fun x => row_ok dim (fst x)) pairs -> Forall (row_ok dim) (mem t pairs).
Proof.
  intros H. unfold mem. apply Forall_forall. intros r Hr. apply in_map_iff in Hr as (x & <- & Hx).
  apply filter_In in Hx as (Hx & _). rewrite Forall_forall in H. apply H, Hx.
Qed.

Definition sums_ok (dim k : nat) (pre : list (list nat * nat)) (centers : list (list f32)) (sizes : list nat) : Prop :=
  length centers = k /\ length sizes = k /\ forall t, (t < k)%nat ->
    length (nth t centers []) = dim /\ nth t sizes 0%nat = length (mem t pre) /\
    forall s, (s < dim)%nat -> entry_ok (nth s (nth t centers []) f32_zero) (length (mem t pre)) (total (mem t pre) s).

Lemma nth_of_error {A} (l : list A) i d x : nth_error l i = Some x -> nth i l d = x.
Proof. intros H. apply nth_error_nth with (d := d) in H. exact H. Qed.
Lemma nth_same {A} (l l' : list A) j d : nth_error l' j = nth_error l j -> nth j l' d = nth j l d.
Proof.
  intros H. destruct (nth_error l j) as [x|] eqn:E.
  - rewrite (nth_of_error _ _ d H), (nth_of_error _ _ d E). reflexivity.
  - apply nth_error_None in E. apply nth_error_None in H. rewrite !nth_overflow by auto. reflexivity.
Qed.

Lemma update_sums dim k pairs : Forall (fun x => row_ok dim (fst x) /\ (snd x < k)%nat) pairs -> forall pre centers sizes,
  Forall (fun x => row_ok dim (fst x)) pre -> sums_ok dim k pre centers sizes ->
  (N.of_nat (length pre + length pairs) <= 200000)%N ->
  exists centers' sizes', fold_res update_step pairs (centers, sizes) = Ok (centers', sizes') /\
    sums_ok dim k (pre ++ pairs) centers' sizes'.
Proof.
  induction 1 as [|[p a] pairs (Hp & Ha) HF IH]; intros pre centers sizes HP HS HL; cbn [fold_res].
  - exists centers, sizes. rewrite app_nil_r. auto.
  - cbn [fst snd] in Hp, Ha. pose proof HS as (L1 & L2 & HT). unfold update_step at 1.
    rewrite (@get_at_lt _ sizes a 0%nat) by lia. cbn [bind]. rewrite (@get_at_lt _ centers a []) by lia. cbn [bind].
    match goal with |- context [set_at centers a ?x] =>
      destruct (@set_at_ok _ centers a x) as (c' & Ec & Lc & Sc & Oc); [lia|] end. rewrite Ec. cbn [bind].
    match goal with |- context [set_at sizes a ?x] =>
      destruct (@set_at_ok _ sizes a x) as (s' & Es & Ls & Ss & Os); [lia|] end. rewrite Es. cbn [bind].
    destruct (IH (pre ++ [(p, a)]) c' s') as (cf & sf & E & H).
    + apply Forall_app. split; auto.
    + split; [lia|]. split; [lia|]. intros t Ht. destruct (HT t Ht) as (T1 & T2 & T3). rewrite mem_snoc.
      destruct (Nat.eqb_spec a t) as [->|NE].
      * rewrite (nth_of_error _ _ [] Sc), (nth_of_error _ _ 0%nat Ss), mean_update_length.
        split; auto. rewrite app_length. cbn [length]. split; [lia|].
        intros s Hs. rewrite mean_update_nth by (try lia; destruct Hp; lia). rewrite T2, total_app.
        replace (total [p] s) with (nth s p 0%nat) by (unfold total; cbn; lia).
        apply entry_step; auto.
        -- pose proof (mem_le t pre). cbn [length] in HL. lia.
        -- eapply total_le. apply mem_rows; eauto.
        -- eapply row_nth; eauto.
      * rewrite app_nil_r, (@nth_same _ _ _ t [] (Oc t ltac:(auto))), (@nth_same _ _ _ t 0%nat (Os t ltac:(auto))). auto.
    + rewrite app_length. cbn [length] in *. lia.
    + rewrite <- app_assoc in H. exists cf, sf. auto.
Qed.

Lemma cleared_sums dim k (centers : list (list f32)) : length centers = k ->
  sums_ok dim k [] (map (fun _ => repeat f32_zero dim) centers) (repeat 0%nat k).
Proof.
  intros HL. split; [rewrite map_length; auto|]. split; [apply repeat_length|]. intros t Ht.
  assert (nth t (map (fun _ => repeat f32_zero dim) centers) [] = repeat f32_zero dim) as ->.
  { assert (In (nth t (map (fun _ : list f32 => repeat f32_zero dim) centers) []) (map (fun _ => repeat f32_zero dim) centers)) as HI
      by (apply nth_In; rewrite map_length; lia). apply in_map_iff in HI as (? & <- & _). reflexivity. }
  split; [apply repeat_length|]. split; [rewrite nth_repeat; reflexivity|]. intros s Hs. rewrite nth_repeat.
  unfold entry_ok. cbn [mem filter map length total list_sum fold_right].
  pose proof (is32_val is32_zero) as ->. split; [exact (is32_fin is32_zero)|]. split; [lra|]. split; auto.
  unfold total. cbn [map list_sum fold_right INR]. rewrite Rmult_0_l, Rminus_0_r, Rabs_R0. lra.
Qed.

Lemma sums_mean dim k pairs centers sizes t : sums_ok dim k pairs centers sizes -> (t < k)%nat ->
  mean_of dim (fun s => val (nth s (nth t centers []) f32_zero)) (mem t pairs).
Proof.
  intros (_ & _ & H) Ht s Hs. destruct (H t Ht) as (_ & _ & HE). destruct (HE s Hs) as (_ & _ & HR & HZ).
  split; intros NE; [apply HZ; rewrite NE; reflexivity|].
  assert (1 <= length (mem t pairs))%nat as HL by (destruct (mem t pairs); [congruence|cbn [length]; lia]).
  rewrite plus_INR. change (INR 1) with 1.
  set (c := val _) in *. set (T := INR (total _ s)) in *. set (M := INR (length _)) in *.
  assert (1 <= M) as HM. { unfold M. change 1 with (INR 1). apply le_INR. exact HL. }
  replace (c - T / M) with ((c * M - T) * / M) by (field; lra). rewrite Rabs_mult.
  rewrite (Rabs_pos_eq (/ M)) by (left; apply Rinv_0_lt_compat; lra).
  apply Rmult_le_reg_r with M; [lra|]. rewrite Rmult_assoc, Rinv_l, Rmult_1_r by lra.
  eapply Rle_trans; [exact HR|]. assert (0 <= M * (M + 1)) by (apply Rmult_le_pos; lra). lra.
Qed.

(** ** distances *)
Lemma rnd_abs a : Rabs (rnd a - a) <= Rabs a / 16777216 + h32.
Proof.
  destruct (rnd_error a) as (e & d & He & Hd & ->).
  replace (bpow radix2 (-150)) with h32 in Hd.
  2:{ unfold h32. rewrite bpow_opp with (e := 150%Z). f_equal. rewrite <- IZR_Zpower by lia. rewrite pow_IZR. reflexivity. }
  replace (a * (1 + e) + d - a) with (a * e + d) by ring. eapply Rle_trans; [apply Rabs_triang|]. rewrite Rabs_mult.
  pose proof (Rabs_pos a). assert (Rabs a * Rabs e <= Rabs a * / 16777216) by (apply Rmult_le_compat_l; auto). lra.
Qed.

Lemma square_term d : Rabs d <= 51 -> let t := rnd (rnd d * rnd d) in
  Rabs (rnd d) <= 52 /\ (1 - 4 / 16777216) * (d * d) - 200 * h32 <= t <= (1 + 4 / 16777216) * (d * d) + 200 * h32.
Proof.
  intros Hd t. pose proof h32_num as H. pose proof (rnd_abs d) as E1. set (f := rnd d) in *.
  set (e := f - d) in *. assert (f = d + e) as Ef by (unfold e; ring).
  assert (Rabs e <= 1) as He1 by lra.
  assert (Rabs f <= 52) as Hf. { rewrite Ef. eapply Rle_trans; [apply Rabs_triang|]. lra. }
  split; auto.
  assert (f * f = d * d + (2 * d * e + e * e)) as Eff by (rewrite Ef; ring).
  assert (Rabs (2 * d * e + e * e) <= (5 / 2 / 16777216) * (d * d) + 110 * h32) as R.
  { eapply Rle_trans; [apply Rabs_triang|]. rewrite !Rabs_mult. rewrite (Rabs_pos_eq 2) by lra.
    replace (d * d) with (Rabs d * Rabs d) by (rewrite <- Rabs_mult; apply Rabs_pos_eq; nra).
    pose proof (Rabs_pos d). pose proof (Rabs_pos e). set (D := Rabs d) in *. set (E := Rabs e) in *.
    assert (2 * D * E <= 2 * D * (D / 16777216 + h32)) by (apply Rmult_le_compat_l; lra).
    assert (E * E <= (D / 16777216 + h32) * (D / 16777216 + h32)) by (apply Rmult_le_compat; lra).
    assert (D * h32 <= 51 * h32) by (apply Rmult_le_compat_r; lra).
    assert (h32 * h32 <= h32 * 1) by (apply Rmult_le_compat_l; lra).
    assert (0 <= D * D) by (apply Rmult_le_pos; lra). lra. }
  apply Rabs_le_inv in R. rewrite <- Eff in R || idtac.
  assert (0 <= f * f) as F0 by nra. pose proof (rnd_num F0) as T. fold t in T.
  assert (0 <= d * d) as D0 by nra. rewrite Eff in T. set (w := 2 * d * e + e * e) in *. set (z := d * d) in *. lra.
Qed.

Fixpoint dsum (v1 : list f32) (v2 : list nat) : R :=
  match v1, v2 with
  | x :: t1, y :: t2 => (val x - INR y) * (val x - INR y) + dsum t1 t2
  | _, _ => 0
  end.
Lemma dsum_nonneg v1 : forall v2, 0 <= dsum v1 v2.
Proof. induction v1 as [|x v1 IH]; intros [|y v2]; cbn [dsum]; try lra. specialize (IH v2). pose proof (Rle_0_sqr (val x - INR y)) as H. unfold Rsqr in H. lra. Qed.

Lemma medium a : Rabs a <= 2 ^ 30 -> Rabs a <= bpow radix2 100.
Proof.
  intros H. apply Rle_trans with (bpow radix2 30); [|apply bpow_le; lia].
  rewrite <- IZR_Zpower by lia. rewrite pow_IZR in H. apply H.
Qed.

Definition entries_ok (v : list f32) : Prop := Forall (fun x => fin x /\ 0 <= val x <= 51) v.

(** the computed sum as a function of the values alone *)
Fixpoint rsq (acc : R) (v1 : list R) (v2 : list nat) : R :=
  match v1, v2 with
  | x :: t1, y :: t2 => rsq (rnd (acc + rnd (rnd (x - INR y) * rnd (x - INR y)))) t1 t2
  | _, _ => acc
  end.
Lemma sum_squares_ok v1 : forall v2 acc, entries_ok v1 -> Forall (fun x => (x <= 50)%nat) v2 -> fin acc ->
  0 <= val acc -> val acc + 3000 * INR (length v1) <= 10 ^ 7 ->
  let n := INR (length v1) in let r := sum_squares acc v1 v2 in
  (fin r /\ val r = rsq (val acc) (map val v1) v2) /\ (val acc + (1 - 4 / 16777216) * dsum v1 v2) * (1 - n / 16777216) - n / 10 ^ 26 <= val r <=
           (val acc + (1 + 4 / 16777216) * dsum v1 v2) * (1 + 2 * n / 16777216) + n / 10 ^ 26 /\ 0 <= val r <= 10 ^ 7.
Proof.
  induction v1 as [|x v1 IH]; intros v2 acc HE HF FA A0 AB; cbv zeta.
  - cbn [sum_squares dsum length INR map rsq] in *. split; auto. split; [|lra]. lra.
  - destruct v2 as [|y v2].
    { cbn [sum_squares dsum map rsq] in *. split; auto. pose proof (pos_INR (length (x :: v1))) as Hn.
      set (n := INR (length (x :: v1))) in *. assert (0 <= val acc * n) by (apply Rmult_le_pos; auto). split; [|lra]. lra. }
    apply Forall_cons_iff in HE as ((FX & VX) & HE). apply Forall_cons_iff in HF as (HY & HF).
    pose proof (S_INR (length v1)) as Hn. cbn [length] in *. rewrite Hn in *. pose proof (pos_INR (length v1)) as Hn0.
    set (n := INR (length v1)) in *.
    assert (0 <= INR y <= 50) as VY.
    { split; [apply pos_INR|]. replace 50 with (INR 50) by (simpl; lra). apply le_INR, HY. }
    cbn [sum_squares dsum map rsq]. set (d := val x - INR y) in *.
    assert (Rabs d <= 51) as Hd by (apply Rabs_le; unfold d; lra).
    destruct (@square_term d Hd) as (Hf & Ht). set (t := rnd (rnd d * rnd d)) in *.
    pose proof h32_num as HH.
    assert (is32 (f32_sub x (f32_of_N (N.of_nat y))) (rnd d)) as I1.
    { apply is32_sub; [exact FX|apply of_nat_32; lia|]. apply medium. fold d. lra. }
    assert (is32 (f32_mul (f32_sub x (f32_of_N (N.of_nat y))) (f32_sub x (f32_of_N (N.of_nat y)))) t) as I2.
    { apply is32_mul; auto. apply medium. rewrite Rabs_mult. apply Rle_trans with (52 * 52); [|lra].
      apply Rmult_le_compat; auto; apply Rabs_pos. }
    assert (0 <= d * d <= 51 * 51) as D0.
    { apply Rabs_le_inv in Hd. split; nra. }
    assert (0 <= t) as T0 by (apply rnd_nonneg; nra).
    assert (/ 10 ^ 30 <= 1) as H30 by lra.
    assert (t <= 2602) as T1 by lra.
    assert (is32 (f32_add acc (f32_mul (f32_sub x (f32_of_N (N.of_nat y))) (f32_sub x (f32_of_N (N.of_nat y))))) (rnd (val acc + t))) as I3.
    { apply is32_add; auto. apply big. lra. }
    pose proof (@rnd_num (val acc + t) ltac:(lra)) as E3. set (acc' := f32_add acc _) in *.
    pose proof (is32_val I3) as EV.
    destruct (IH v2 acc' HE HF (is32_fin I3)) as ((G1 & GV) & G2 & G3).
    { rewrite EV. apply rnd_nonneg. lra. }
    { rewrite EV. lra. }
    split; [split; [auto|rewrite GV, EV; reflexivity]|]. split; auto. rewrite EV in G2. clear IH I1 I2 I3.
    pose proof (dsum_nonneg v1 v2) as Q0. set (Q := dsum v1 v2) in *. set (A' := rnd (val acc + t)) in *.
    set (S := val (sum_squares acc' v1 v2)) in *. set (A := val acc) in *. set (z := d * d) in *.
    assert (n <= 4000) as N1 by lra.
    assert (h32 * 1000 <= / 10 ^ 27) as HK by lra.
    clear - A0 D0 T0 E3 Ht Hn0 N1 HK Q0 HH G2 H30 AB.
    (* upper *)
    split.
    + assert (A' >= (A + (1 - 4 / 16777216) * z) * (1 - 1 / 16777216) - / 10 ^ 27) as L by lra.
      destruct G2 as (G2 & _).
      set (X := A + (1 - 4 / 16777216) * z) in *. set (Y := (1 - 4 / 16777216) * Q) in *.
      assert (0 <= X) as X0 by (unfold X; lra). assert (0 <= Y) as Y0 by (unfold Y; lra).
      replace (A + (1 - 4 / 16777216) * (z + Q)) with (X + Y) by (unfold X, Y; ring).
      assert (0 <= n / 16777216 <= 1) as P by lra. set (P0 := n / 16777216) in *.
      assert ((X * (1 - 1 / 16777216) - / 10 ^ 27 + Y) * (1 - P0) <= (A' + Y) * (1 - P0)) as M1 by (apply Rmult_le_compat_r; lra).
      replace ((n + 1) / 16777216) with (P0 + / 16777216) by (unfold P0; field).
      replace ((n + 1) / 10 ^ 26) with (n / 10 ^ 26 + / 10 ^ 26) by field.
      assert (0 <= X * P0) by (apply Rmult_le_pos; lra). assert (0 <= Y * P0) by (apply Rmult_le_pos; lra).
      assert (/ 10 ^ 27 * P0 >= 0) by (apply Rle_ge, Rmult_le_pos; lra). lra.
    + assert (A' <= (A + (1 + 4 / 16777216) * z) * (1 + 1 / 16777216) + / 10 ^ 27) as L by lra.
      destruct G2 as (_ & G2).
      set (X := A + (1 + 4 / 16777216) * z) in *. set (Y := (1 + 4 / 16777216) * Q) in *.
      assert (0 <= X) as X0 by (unfold X; lra). assert (0 <= Y) as Y0 by (unfold Y; lra).
      replace (A + (1 + 4 / 16777216) * (z + Q)) with (X + Y) by (unfold X, Y; ring).
      assert (0 <= 2 * n / 16777216 <= / 1000) as P by lra. set (P0 := 2 * n / 16777216) in *.
      assert ((A' + Y) * (1 + P0) <= (X * (1 + 1 / 16777216) + / 10 ^ 27 + Y) * (1 + P0)) as M1 by (apply Rmult_le_compat_r; lra).
      replace (2 * (n + 1) / 16777216) with (P0 + 2 / 16777216) by (unfold P0; field).
      replace ((n + 1) / 10 ^ 26) with (n / 10 ^ 26 + / 10 ^ 26) by field.
      assert (X * P0 <= X * / 1000) by (apply Rmult_le_compat_l; lra). assert (0 <= Y * P0) by (apply Rmult_le_pos; lra).
      assert (/ 10 ^ 27 * P0 <= / 10 ^ 27 * 1) by (apply Rmult_le_compat_l; lra). lra.
Qed.

Lemma row_bound50 dim row : row_ok dim row -> Forall (fun x => (x <= 50)%nat) row.
Proof. intros (_ & H). exact H. Qed.

Definition center_ok (dim : nat) (v : list f32) : Prop := length v = dim /\ entries_ok v.

Lemma distance_ok dim v row : (dim <= 300)%nat -> center_ok dim v -> row_ok dim row ->
  exists S, fin (euclidean_distance v row) /\ val (euclidean_distance v row) = rnd (sqrt S) /\ 0 <= S <= 10 ^ 7 /\
    S = rsq 0 (map val v) row /\
    dsum v row * (1 - 310 / 16777216) - / 10 ^ 23 <= S <= dsum v row * (1 + 610 / 16777216) + / 10 ^ 23.
Proof.
  intros Hd (HL & HE) HR. pose proof (is32_val is32_zero) as Z0.
  assert (0 <= INR (length v) <= 300) as HN.
  { split; [apply pos_INR|]. replace 300 with (INR 300) by (rewrite INR_IZR_INZ; reflexivity). apply le_INR. lia. }
  destruct (@sum_squares_ok v row f32_zero HE (row_bound50 HR) (is32_fin is32_zero)) as ((F & V) & B & C); try (rewrite Z0; lra).
  cbv zeta in *. rewrite Z0 in *. set (n := INR (length v)) in *. set (r := sum_squares f32_zero v row) in *.
  exists (val r). pose proof (is32_sqrt F (proj1 C)) as I. unfold euclidean_distance. fold r.
  split; [eapply is32_fin; eauto|]. split; [apply is32_val; auto|]. split; auto. split; auto.
  pose proof (dsum_nonneg v row) as D0. set (D := dsum v row) in *.
  assert (0 <= D * n <= D * 300) as DN by (split; [apply Rmult_le_pos; lra|apply Rmult_le_compat_l; lra]).
  lra.
Qed.

Lemma distance_compare dim v v' row : (dim <= 300)%nat -> center_ok dim v -> center_ok dim v' -> row_ok dim row ->
  f32_lt (euclidean_distance v' row) (euclidean_distance v row) = false ->
  dsum v row <= (1 + / 10000) * dsum v' row + / 10 ^ 20.
Proof.
  intros Hd HV HV' HR HLT.
  destruct (distance_ok Hd HV HR) as (S & F & E & B & _ & D). destruct (distance_ok Hd HV' HR) as (S' & F' & E' & B' & _ & D').
  assert (rnd (sqrt S) <= rnd (sqrt S')) as H.
  { rewrite <- E, <- E'. destruct (Rle_lt_dec (val (euclidean_distance v row)) (val (euclidean_distance v' row))) as [L|L]; auto.
    apply (is32_lt F' F) in L. congruence. }
  pose proof (sqrt_pos S) as P. pose proof (sqrt_pos S') as P'. pose proof (rnd_num P) as R. pose proof (rnd_num P') as R'.
  pose proof (sqrt_sqrt S (proj1 B)) as Q. pose proof (sqrt_sqrt S' (proj1 B')) as Q'. pose proof h32_num as HH.
  set (p := sqrt S) in *. set (q := sqrt S') in *.
  assert (p <= q * (1 + 3 / 16777216) + 3 * h32) as PQ by lra.
  assert (q <= 10 ^ 4) as Q4.
  { destruct (Rle_lt_dec q (10 ^ 4)) as [L|L]; auto. exfalso. assert (10 ^ 4 * 10 ^ 4 < q * q) by (apply Rmult_le_0_lt_compat; lra). lra. }
  assert (p * p <= q * q * (1 + 7 / 16777216) + / 10 ^ 22) as PP.
  { apply Rle_trans with ((q * (1 + 3 / 16777216) + 3 * h32) * (q * (1 + 3 / 16777216) + 3 * h32)); [apply Rmult_le_compat; lra|].
    assert (h32 * h32 <= h32 * 1) by (apply Rmult_le_compat_l; lra).
    assert (q * h32 <= 10 ^ 4 * h32) by (apply Rmult_le_compat_r; lra).
    assert (0 <= q * q) by lra.
    replace ((q * (1 + 3 / 16777216) + 3 * h32) * (q * (1 + 3 / 16777216) + 3 * h32)) with
      (q * q * ((1 + 3 / 16777216) * (1 + 3 / 16777216)) + 6 * (1 + 3 / 16777216) * (q * h32) + 9 * (h32 * h32)) by ring.
    assert (q * q * ((1 + 3 / 16777216) * (1 + 3 / 16777216)) <= q * q * (1 + 7 / 16777216)) by (apply Rmult_le_compat_l; lra).
    lra. }
  rewrite Q, Q' in PP. pose proof (dsum_nonneg v row). pose proof (dsum_nonneg v' row). lra.
Qed.
Lemma distance_same dim v v' row : (dim <= 300)%nat -> center_ok dim v -> center_ok dim v' -> row_ok dim row ->
  (forall s, (s < dim)%nat -> val (nth s v f32_zero) = val (nth s v' f32_zero)) ->
  f32_lt (euclidean_distance v' row) (euclidean_distance v row) = false.
Proof.
  intros Hd HV HV' HR HS.
  destruct (distance_ok Hd HV HR) as (S & F & E & _ & B & _). destruct (distance_ok Hd HV' HR) as (S' & F' & E' & _ & B' & _).
  assert (map val v = map val v') as EM.
  { destruct HV as (L & _), HV' as (L' & _). apply nth_ext with (d := val f32_zero) (d' := val f32_zero); rewrite !map_length; [lia|].
    intros s Hs. rewrite !map_nth. apply HS. lia. }
  rewrite EM, <- B' in B. subst S. destruct (f32_lt _ _) eqn:L; auto. apply (is32_lt F' F) in L. lra.
Qed.

(** ** the nearest center *)
Definition dist (cs : list (list f32)) (row : list nat) (t : nat) : f32 := euclidean_distance (nth t cs []) row.

Lemma nearest_first row cs : forall pre b, (b < length pre)%nat ->
  (forall t, (t < length (pre ++ cs))%nat -> fin (dist (pre ++ cs) row t)) ->
  (forall t, (t < length pre)%nat -> val (dist (pre ++ cs) row b) <= val (dist (pre ++ cs) row t)) ->
  (forall t, (t < b)%nat -> val (dist (pre ++ cs) row b) < val (dist (pre ++ cs) row t)) ->
  let r := nearest cs row (length pre) (b, Some (dist (pre ++ cs) row b)) in
  (r < length (pre ++ cs))%nat /\ (forall t, (t < length (pre ++ cs))%nat -> val (dist (pre ++ cs) row r) <= val (dist (pre ++ cs) row t)) /\
  (forall t, (t < r)%nat -> val (dist (pre ++ cs) row r) < val (dist (pre ++ cs) row t)).
Proof.
  induction cs as [|c cs IH]; intros pre b Hb HF H1 H2; cbn [nearest fst snd].
  - rewrite app_nil_r in *. auto.
  - assert (pre ++ c :: cs = (pre ++ [c]) ++ cs) as EA by (rewrite <- app_assoc; reflexivity).
    assert (euclidean_distance c row = dist (pre ++ c :: cs) row (length pre)) as ED.
    { unfold dist. rewrite app_nth2, Nat.sub_diag by lia. reflexivity. }
    assert (length pre < length (pre ++ c :: cs))%nat as HP by (rewrite app_length; cbn [length]; lia).
    rewrite ED. replace (S (length pre)) with (length (pre ++ [c])) by (rewrite app_length; cbn [length]; lia).
    pose proof (HF (length pre) HP) as FC. pose proof (HF b ltac:(lia)) as FB.
    rewrite EA in *. destruct (f32_lt _ _) eqn:EL.
    + apply (is32_lt FC FB) in EL. apply IH; auto.
      * rewrite app_length. cbn [length]. lia.
      * intros t Ht. rewrite app_length in Ht. cbn [length] in Ht. destruct (Nat.eq_dec t (length pre)) as [->|NE]; [lra|].
        specialize (H1 t ltac:(lia)). lra.
      * intros t Ht. specialize (H1 t Ht). lra.
    + assert (val (dist ((pre ++ [c]) ++ cs) row b) <= val (dist ((pre ++ [c]) ++ cs) row (length pre))) as EL'.
      { destruct (Rle_lt_dec (val (dist ((pre ++ [c]) ++ cs) row b)) (val (dist ((pre ++ [c]) ++ cs) row (length pre)))) as [L|L]; auto.
        apply (is32_lt FC FB) in L. congruence. }
      apply IH; auto.
      * rewrite app_length. cbn [length]. lia.
      * intros t Ht. rewrite app_length in Ht. cbn [length] in Ht. destruct (Nat.eq_dec t (length pre)) as [->|NE]; auto. apply H1. lia.
Qed.
Lemma nearest_least row cs : (1 <= length cs)%nat -> (forall t, (t < length cs)%nat -> fin (dist cs row t)) ->
  let r := nearest cs row 0 (0%nat, None) in
  (r < length cs)%nat /\ (forall t, (t < length cs)%nat -> val (dist cs row r) <= val (dist cs row t)) /\
  (forall t, (t < r)%nat -> val (dist cs row r) < val (dist cs row t)).
Proof.
  intros HL HF. destruct cs as [|c cs]; [cbn [length] in HL; lia|]. cbn [nearest snd].
  apply (@nearest_first row cs [c] 0%nat); cbn [length]; auto; [intros t Ht; assert (t = 0%nat) as -> by lia; lra|intros t Ht; lia].
Qed.

Lemma rsum_ext f g n : (forall i, (i < n)%nat -> f i = g i) -> rsum f n = rsum g n.
Proof. induction n as [|n IH]; intros H; cbn [rsum]; auto. rewrite IH, H by auto. reflexivity. Qed.
Lemma rsum_first f n : rsum f (S n) = f 0%nat + rsum (fun i => f (S i)) n.
Proof. induction n as [|n IH]; [cbn [rsum]; ring|]. cbn [rsum] in *. rewrite IH. ring. Qed.
Lemma dsum_distance v : forall row, length row = length v ->
  dsum v row = distance2 (length v) (fun s => val (nth s v f32_zero)) row.
Proof.
  unfold distance2. induction v as [|x v IH]; intros [|y row] H; cbn [length] in *; try discriminate; cbn [dsum]; [reflexivity|].
  rewrite rsum_first, IH by lia. cbn [nth]. ring.
Qed.

Definition centers_ok (dim k : nat) (cs : list (list f32)) : Prop := length cs = k /\ Forall (center_ok dim) cs.
Definition cval (cs : list (list f32)) (t s : nat) : R := val (nth s (nth t cs []) f32_zero).

Lemma all_or_not dim (f g : nat -> R) : (forall s, (s < dim)%nat -> f s = g s) \/ exists s, (s < dim)%nat /\ f s <> g s.
Proof.
  induction dim as [|dim [IH|(s & Hs & H)]]; [left; intros; lia| |right; exists s; split; auto].
  destruct (Req_EM_T (f dim) (g dim)) as [E|E]; [left|right; exists dim; auto].
  intros s Hs. destruct (Nat.eq_dec s dim) as [->|NE]; auto. apply IH. lia.
Qed.

Lemma nearest_ok dim k cs row : (dim <= 300)%nat -> (1 <= k)%nat -> centers_ok dim k cs -> row_ok dim row ->
  nearest_center dim k (cval cs) row (nearest cs row 0 (0%nat, None)).
Proof.
  intros Hd Hk (HL & HC) HR.
  assert (forall t, (t < k)%nat -> center_ok dim (nth t cs [])) as HC'.
  { intros t Ht. rewrite Forall_forall in HC. apply HC, nth_In. lia. }
  assert (forall t, (t < length cs)%nat -> fin (dist cs row t)) as HF.
  { intros t Ht. destruct (@distance_ok dim (nth t cs []) row Hd (HC' t ltac:(lia)) HR) as (S & F & _). exact F. }
  destruct (@nearest_least row cs ltac:(lia) HF) as (R1 & R2 & R3). set (r := nearest cs row 0 (0%nat, None)) in *. rewrite HL in *.
  split; auto. split.
  - intros t Ht. specialize (R2 t Ht). specialize (HC' r R1) as C1. specialize (HC' t Ht) as C2.
    pose proof C1 as (L1 & _). pose proof C2 as (L2 & _). pose proof HR as (LR & _).
    replace (distance2 dim (cval cs r) row) with (dsum (nth r cs []) row) by (rewrite dsum_distance by lia; rewrite L1; reflexivity).
    replace (distance2 dim (cval cs t) row) with (dsum (nth t cs []) row) by (rewrite dsum_distance by lia; rewrite L2; reflexivity).
    eapply distance_compare; eauto. destruct (f32_lt _ _) eqn:E; auto. apply (is32_lt (HF t Ht) (HF r R1)) in E. unfold dist in *. lra.
  - intros t Ht. destruct (@all_or_not dim (cval cs t) (cval cs r)) as [H|H]; auto. exfalso.
    pose proof (@distance_same dim (nth t cs []) (nth r cs []) row Hd (HC' t ltac:(lia)) (HC' r R1) HR H) as E.
    specialize (R3 t Ht). apply (is32_lt (HF r R1) (HF t ltac:(lia))) in R3. unfold dist in R3. congruence.
Qed.

(** ** one iteration *)
Lemma assign_nth cs data g : (g < length data)%nat -> nth g (assign_all cs data) 0%nat = (nearest cs (nth g data []) 0 (0, None) mod 256)%nat.
Proof.
  intros H. unfold assign_all. rewrite nth_indep with (d' := (nearest cs [] 0 (0%nat, None) mod 256)%nat) by (rewrite map_length; auto).
  rewrite map_nth with (f := fun point => (nearest cs point 0 (0%nat, None) mod 256)%nat). reflexivity.
Qed.
Lemma combine_rows dim data sel k : Forall (row_ok dim) data -> Forall (fun a => (a < k)%nat) sel ->
  Forall (fun x => row_ok dim (fst x) /\ (snd x < k)%nat) (combine data sel).
Proof.
  intros H1 H2. apply Forall_forall. intros [p a] H. rewrite Forall_forall in *.
  split; [apply H1; eapply in_combine_l; eauto|apply H2; eapply in_combine_r; eauto].
Qed.

Lemma iteration_step dim k data st : (dim <= 300)%nat -> (1 <= k <= 256)%nat -> Forall (row_ok dim) data ->
  (N.of_nat (length data) <= 200000)%N -> centers_ok dim k (fst st) ->
  exists cs sel, kmeans_iteration dim k data st = Ok (cs, sel) /\ centers_ok dim k cs /\ length sel = length data /\
    (forall g, (g < length data)%nat -> nearest_center dim k (cval (fst st)) (nth g data []) (nth g sel 0%nat)) /\
    (forall t, (t < k)%nat -> mean_of dim (cval cs t) (members data sel t)).
Proof.
  intros Hd Hk HD HN HC. unfold kmeans_iteration. pose proof HC as (HL & HF).
  destruct (@assign_all_ok (fst st) data) as (A1 & A2 & _); [lia|]. rewrite HL in A2. set (sel := assign_all (fst st) data) in *.
  destruct (@update_sums dim k (combine data sel) (@combine_rows dim data sel k HD A2) [] _ _ (Forall_nil _) (@cleared_sums dim k (fst st) HL))
    as (cs & sizes & -> & HS).
  { rewrite combine_length. cbn [length]. lia. }
  cbn [bind]. exists cs, sel. split; auto. rewrite app_nil_l in HS. split; [|split; [auto|split]].
  - destruct HS as (L & _ & HS). split; auto. apply Forall_forall. intros c Hc. apply In_nth with (d := []) in Hc as (t & Ht & <-).
    destruct (HS t ltac:(lia)) as (L1 & _ & HE). split; auto. apply Forall_forall. intros x Hx.
    apply In_nth with (d := f32_zero) in Hx as (s & Hs & <-). destruct (HE s ltac:(lia)) as (F & V & _). auto.
  - intros g Hg. unfold sel. rewrite assign_nth by auto.
    pose proof (@nearest_ok dim k (fst st) (nth g data []) Hd ltac:(lia) HC) as H. rewrite Forall_forall in HD.
    specialize (H (HD _ (nth_In data [] Hg))). rewrite Nat.mod_small; auto. destruct H as (H & _). lia.
  - intros t Ht. exact (sums_mean HS Ht).
Qed.

Lemma fold_states {A} (f : A -> res A) n : forall st st', fold_res (fun s (_ : unit) => f s) (repeat tt n) st = Ok st' ->
  exists g, g 0%nat = st /\ (forall j, (j < n)%nat -> f (g j) = Ok (g (S j))) /\ g n = st'.
Proof.
  induction n as [|n IH]; intros st st' H; cbn [repeat fold_res] in H.
  - injection H as <-. exists (fun _ => st). repeat split; auto. intros; lia.
  - destruct (f st) as [s1| | |] eqn:E; try discriminate. cbn [bind] in H. destruct (IH s1 st' H) as (g & G0 & G1 & G2).
    exists (fun j => match j with 0%nat => st | S j => g j end). split; auto. split; auto.
    intros [|j] Hj; [rewrite G0; auto|apply G1; lia].
Qed.

Lemma weight_ok x : fin x -> 0 <= val x <= 51 ->
  10000 * val x - 11 / 10 <= INR (N.to_nat (f32_to_usize (f32_mul x (f32_of_N 10000)))) <= 10000 * val x + / 10.
Proof.
  intros F V. assert (is32 (f32_of_N 10000) 10000) as I1 by (apply (@is32_of_N 10000); lia).
  assert (0 <= val x * 10000 <= 2 ^ 30) as B by lra.
  pose proof (is32_mul F I1 (big B)) as I2. pose proof (@rnd_num (val x * 10000) (proj1 B)) as R. pose proof h32_num as HH.
  assert (0 <= rnd (val x * 10000)) as R0 by (apply rnd_nonneg; lra).
  rewrite (is32_to_usize I2).
  2:{ split; auto. apply Rle_trans with (10 ^ 6); [lra|]. rewrite pow_IZR. apply IZR_le. vm_compute. discriminate. }
  set (a := rnd (val x * 10000)) in *.
  assert (0 <= Zfloor a)%Z as Z0 by (apply Zfloor_lub; auto).
  rewrite INR_IZR_INZ, Z_N_nat, Z2Nat.id by auto.
  pose proof (Zfloor_lb a). pose proof (Zfloor_ub a). lra.
Qed.

Theorem kmeans_lloyd dim data k iterations : (dim <= 300)%nat -> (1 <= k <= 256)%nat -> data <> [] -> Forall (row_ok dim) data ->
  (N.of_nat (length data) <= 200000)%N ->
  exists means sel, kmeans_solve dim data iterations k = Ok (means, sel) /\ lloyd dim data k iterations sel means.
Proof.
  intros Hd Hk Hne HD HN. unfold kmeans_solve.
  assert (0 < length data)%nat as Hlen by (destruct data; [congruence|cbn [length]; lia]).
  set (init := map (fun i => map (fun x => f32_of_N (N.of_nat x)) (nth (i * length data / k) data [])) (seq 0 k)).
  assert (forall i, (i < k)%nat -> (i * length data / k < length data)%nat) as HI.
  { intros i Hi. apply Nat.div_lt_upper_bound; [lia|]. nia. }
  rewrite (@map_res_ok _ _ (initial_center data k) (seq 0 k) (fun i => map (fun x => f32_of_N (N.of_nat x)) (nth (i * length data / k) data []))).
  2:{ intros i Hi. apply in_seq in Hi. unfold initial_center. rewrite (@get_at_lt _ data _ []) by (apply HI; lia). reflexivity. }
  fold init. cbn [bind].
  assert (forall i, (i < k)%nat -> nth i init [] = map (fun x => f32_of_N (N.of_nat x)) (nth (i * length data / k) data [])) as HIN.
  { intros i Hi. unfold init. rewrite nth_indep with (d' := map (fun x => f32_of_N (N.of_nat x)) (nth (0 * length data / k) data [])) by (rewrite map_length, seq_length; auto).
    rewrite (map_nth (fun i => map (fun x => f32_of_N (N.of_nat x)) (nth (i * length data / k) data []))). rewrite seq_nth by auto. reflexivity. }
  assert (forall row s, row_ok dim row -> (s < dim)%nat -> is32 (nth s (map (fun x => f32_of_N (N.of_nat x)) row) f32_zero) (INR (nth s row 0%nat))) as HRV.
  { intros row s (L & H) Hs. rewrite nth_indep with (d' := f32_of_N (N.of_nat 0)) by (rewrite map_length; lia).
    rewrite (map_nth (fun x => f32_of_N (N.of_nat x))). apply of_nat_32. pose proof (row_nth s (conj L H)). lia. }
  assert (centers_ok dim k init) as HC0.
  { split; [unfold init; rewrite map_length, seq_length; auto|]. apply Forall_forall. intros c Hc.
    apply in_map_iff in Hc as (i & <- & Hi). apply in_seq in Hi.
    assert (row_ok dim (nth (i * length data / k) data [])) as HR.
    { rewrite Forall_forall in HD. apply HD, nth_In, HI. lia. }
    split; [rewrite map_length; apply HR|]. apply Forall_forall. intros x Hx. apply in_map_iff in Hx as (y & <- & Hy).
    destruct HR as (_ & HR). rewrite Forall_forall in HR. specialize (HR y Hy).
    pose proof (@of_nat_32 y ltac:(lia)) as I. split; [eapply is32_fin; eauto|]. rewrite (is32_val I).
    split; [apply pos_INR|]. replace 51 with (INR 51) by (simpl; lra). apply le_INR. lia. }
  assert (forall n st, centers_ok dim k (fst st) ->
    exists st', fold_res (fun s (_ : unit) => kmeans_iteration dim k data s) (repeat tt n) st = Ok st' /\ centers_ok dim k (fst st')) as HFold.
  { induction n as [|n IH]; intros st HC; cbn [repeat fold_res]; [eauto|].
    destruct (@iteration_step dim k data st Hd Hk HD HN HC) as (cs & sel & -> & HC' & _). cbn [bind]. apply IH. auto. }
  destruct (HFold iterations (init, repeat 0%nat (length data)) HC0) as ((cs & sel) & EF & HCF). rewrite EF. cbn [bind].
  eexists; eexists; split; [reflexivity|].
  destruct (fold_states _ _ _ EF) as (g & G0 & G1 & G2).
  assert (forall j, (j <= iterations)%nat -> centers_ok dim k (fst (g j))) as HCJ.
  { induction j as [|j IH]; intros Hj; [rewrite G0; auto|].
    destruct (@iteration_step dim k data (g j) Hd Hk HD HN (IH ltac:(lia))) as (c1 & s1 & E1 & HC' & _).
    rewrite (G1 j ltac:(lia)) in E1. injection E1 as E1. rewrite E1. exact HC'. }
  exists (fun j => cval (fst (g j))), (fun j => snd (g j)). split; [|split; [|split; [|split; [|split]]]].
  - intros t s Ht Hs. rewrite G0. unfold cval. cbn [fst]. rewrite HIN by auto. apply is32_val, HRV; auto.
    rewrite Forall_forall in HD. apply HD, nth_In, HI, Ht.
  - rewrite G0. reflexivity.
  - intros j Hj. destruct (@iteration_step dim k data (g j) Hd Hk HD HN (HCJ j ltac:(lia))) as (c1 & s1 & E1 & _ & L & N1 & M1).
    rewrite (G1 j Hj) in E1. injection E1 as E1. rewrite E1. cbn [fst snd]. auto.
  - rewrite G2. reflexivity.
  - rewrite map_length. apply HCF.
  - intros t s Ht Hs. rewrite G2. cbn [fst] in *. destruct HCF as (LC & HF).
    assert (center_ok dim (nth t cs [])) as (LT & HE) by (rewrite Forall_forall in HF; apply HF, nth_In; lia).
    assert (fin (nth s (nth t cs []) f32_zero) /\ 0 <= val (nth s (nth t cs []) f32_zero) <= 51) as (F & V).
    { unfold entries_ok in HE. rewrite Forall_forall in HE. apply HE, nth_In. lia. }
    replace (nth s (nth t (map (map (fun x => f32_to_usize (f32_mul x (f32_of_N 10000)))) cs) []) 0%N) with
      (f32_to_usize (f32_mul (nth s (nth t cs []) f32_zero) (f32_of_N 10000))); [apply weight_ok; auto|].
    change (@nil N) with (map (fun x => f32_to_usize (f32_mul x (f32_of_N 10000))) []). rewrite map_nth.
    rewrite nth_indep with (l := map _ _) (d' := f32_to_usize (f32_mul f32_zero (f32_of_N 10000))) by (rewrite map_length; lia).
    rewrite (map_nth (fun x => f32_to_usize (f32_mul x (f32_of_N 10000)))). reflexivity.
Qed.

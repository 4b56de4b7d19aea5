(** * What the code tables are built from: C64

    Words used in the statements: SpecKMeans ([occurs], [group_counts], [members], [total],
    [lloyd]: Lloyd's algorithm on real numbers, up to rounding), SpecStream, SpecRle.
    The proofs about rounding use Flocq and the standard library's real numbers. *)
From Coq Require Import ZArith NArith Reals Lia Lra.
From Verif Require Import Base BaseFacts SpecRle SpecStream SpecKMeans Rle RleFacts Bwt Mtf Zle ZleFacts Float32 KMeans SymbolStatistics
  BlockEncoder BlockFacts RoundTripFacts EncodeFacts HistogramFacts KMeansFacts.
Open Scope nat_scope.

(** what the encoder works with for one block of input: the symbols coded, how many of the
    256 byte values occur, the weights of each table and the table chosen for each group *)
Definition statistics (st : strategy) (q : list nat) (symbols : list zsym) (used : nat) (weights : list (list N)) (selectors : list nat) : Prop :=
  exists col ptr indices values, bwt (coded q) = Ok (col, ptr) /\ mtf col = Ok (indices, values) /\ length values = used /\
    zle_with_strategy st indices used = Ok (symbols, (weights, selectors)).

Lemma front q : bytes q -> q <> [] -> exists col ptr enc used, bwt (coded q) = Ok (col, ptr) /\ mtf col = Ok (enc, used) /\
  1 <= length used <= 256 /\ Forall (fun i => i < length used) enc /\ length enc = length (coded q).
Proof.
  intros HB Hne. destruct (front_end_ok (coded_bytes HB) (coded_nonempty Hne)) as
    (ptr & col & enc & used & F1 & _ & F2 & _ & _ & LU & _ & LE & _ & FF & _). exists col, ptr, enc, used. auto.
Qed.

(** ** C64: the weights are the statistics of the block

    The end of the block is counted as one more RUNA in both strategies.

    One table: the exact number of occurrences of each symbol (given twice, since a bzip2
    block has at least two tables). *)
Theorem C64_single_counts : forall q, bytes q -> q <> [] ->
  exists symbols used weights selectors, statistics Single q symbols used weights selectors /\
    let w := map (fun s => N.of_nat (occurs (symbols ++ [RunA]) s)) (seq 0 (used + 1)) in weights = [w; w].
Proof.
  intros q HB Hne. destruct (front HB Hne) as (col & ptr & enc & used & E1 & E2 & LU & FF & _).
  destruct (@single_counts (length used) (zsyms 0 enc ++ [RunA]) ltac:(lia)
    ltac:(apply sym_below_app, zsyms_below; auto) [] (single_create (length used))) as (m & EF & HC).
  { rewrite counts_nil. cbn [single_create sg_freq]. clear. generalize (length used + 1). induction n as [|n IH]; [reflexivity|]. cbn [repeat map]. rewrite <- IH. reflexivity. }
  do 4 eexists. split.
  - exists col, ptr, enc, used. split; [exact E1|]. split; [exact E2|]. split; [reflexivity|].
    cbn [zle_with_strategy]. rewrite zle_transform_eq, EF. reflexivity.
  - cbv zeta. cbn [single_finalize]. rewrite HC. cbn [app]. unfold counts. rewrite map_map. reflexivity.
Qed.

(** K-means: the groups of 50 symbols are clustered by Lloyd's algorithm; each table's
    weights are 10000 times the mean counts of its groups. *)
Theorem C64_kmeans_lloyd : forall k iterations q, 1 <= k <= 256 -> bytes q -> q <> [] -> (N.of_nat (length (coded q)) <= 900005)%N ->
  exists symbols used weights selectors, statistics (BlockWise k iterations) q symbols used weights selectors /\
    lloyd (used + 1) (group_counts (symbols ++ [RunA]) (used + 1)) k iterations selectors weights.
Proof.
  intros k it q Hk HB Hne HL. destruct (front HB Hne) as (col & ptr & enc & used & E1 & E2 & LU & FF & LE).
  destruct (@blockwise_counts (length used) (zsyms 0 enc ++ [RunA]) ltac:(lia)
    ltac:(apply sym_below_app, zsyms_below; auto) [] (blockwise_create (length used) k it)) as (m & EF & HG & MI & MC).
  { exists [], []. unfold blockwise_create. cbn [bm_maps bm_current bm_counter bm_size length concat app map]. rewrite counts_nil. repeat split; auto; lia. }
  cbn [blockwise_create bm_iterations bm_clusters app] in MI, MC, HG. pose proof (groups_counts HG) as HM.
  assert (bm_size m = length used) as MS by (destruct HG as (? & ? & HG); tauto).
  pose proof (zsyms_length 0 enc) as LZ.
  set (symbols := zsyms 0 enc) in *. set (rows := group_counts (symbols ++ [RunA]) (length used + 1)) in *.
  assert (length rows = (length symbols + 1) / 50 + 1) as LR.
  { unfold rows, group_counts. rewrite map_length, seq_length, app_length. reflexivity. }
  pose proof (Nat.div_le_upper_bound (length symbols + 1) 50 (length symbols + 1) ltac:(lia) ltac:(lia)) as LD.
  pose proof (Nat.mul_div_le (length symbols + 1) 50 ltac:(lia)) as LD'.
  destruct (@kmeans_lloyd (length used + 1) rows k it) as (means & sel & EK & HK); auto.
  - lia.
  - intros E. rewrite E in LR. cbn [length] in LR. lia.
  - apply Forall_forall. intros r Hr. apply in_map_iff in Hr as (g & <- & _). split; [rewrite map_length, seq_length; auto|].
    apply Forall_forall. intros x Hx. apply in_map_iff in Hx as (s & <- & _). eapply Nat.le_trans; [apply occurs_le|].
    unfold group. rewrite firstn_length. lia.
  - lia.
  - exists symbols, (length used), means, sel. split; auto. exists col, ptr, enc, used. split; auto. split; auto. split; auto.
    cbn [zle_with_strategy]. rewrite zle_transform_eq. fold symbols. rewrite EF. cbn [bind]. unfold blockwise_finalize.
    rewrite HM, MS, MI, MC, EK. reflexivity.
Qed.

(** The last sentence in whole numbers: a table chosen for m groups that contain symbol s
    in total T times has the weight 10000 T / m up to (m + 23) / 20; a table chosen for no
    group has only weights 0. *)
Theorem C64_weights : forall k iterations q, 1 <= k <= 256 -> 1 <= iterations -> bytes q -> q <> [] -> (N.of_nat (length (coded q)) <= 900005)%N ->
  exists symbols used weights selectors, statistics (BlockWise k iterations) q symbols used weights selectors /\
    forall t s, t < k -> s < used + 1 ->
      let rows := members (group_counts (symbols ++ [RunA]) (used + 1)) selectors t in
      let m := Z.of_nat (length rows) in let w := Z.of_N (nth s (nth t weights []) 0%N) in
      (rows = [] -> w = 0%Z) /\ (20 * Z.abs (m * w - 10000 * Z.of_nat (total rows s)) <= m * (m + 23))%Z.
Proof.
  intros k it q Hk Hit HB Hne HL. destruct (C64_kmeans_lloyd it Hk HB Hne HL) as (symbols & used & weights & sel & HS & HK).
  exists symbols, used, weights, sel. split; auto. intros t s Ht Hs rows m w.
  destruct HK as (center & assigned & _ & _ & HI & HC & _ & HW). destruct it as [|it]; [lia|].
  destruct (HI it ltac:(lia)) as (_ & _ & HM). specialize (HM t Ht s Hs). rewrite <- HC in HM. fold rows in HM.
  specialize (HW t s Ht Hs). destruct HM as (HM0 & HM1).
  assert (INR (N.to_nat (nth s (nth t weights []) 0%N)) = IZR w) as EW.
  { unfold w. rewrite INR_IZR_INZ, N_nat_Z. reflexivity. }
  rewrite EW in HW. assert (0 <= w)%Z as W0 by (unfold w; lia). set (c := center (S it) t s) in *.
  assert (rows = [] -> w = 0%Z) as HZ.
  { intros E. rewrite (HM0 E) in HW. assert (IZR w < 1)%R as H by lra. apply lt_IZR in H. lia. }
  split; auto. destruct (list_eq_dec (list_eq_dec Nat.eq_dec) rows []) as [E|E].
  - unfold m. rewrite (HZ E), E. cbn. lia.
  - specialize (HM1 E).
    assert (0 < m)%Z as Hm. { unfold m. destruct rows; [congruence|cbn [length]; lia]. }
    assert (INR (length rows) = IZR m) as EM by (unfold m; apply INR_IZR_INZ).
    rewrite plus_INR, EM, (INR_IZR_INZ (total rows s)) in HM1. change (INR 1) with 1%R in HM1.
    set (T := Z.of_nat (total rows s)) in *. apply IZR_lt in Hm. set (M := IZR m) in *.
    apply le_IZR. rewrite !mult_IZR, abs_IZR, minus_IZR, !mult_IZR, plus_IZR. fold M. set (W := IZR w) in *.
    assert (Rabs (M * c - IZR T) <= M * (M + 1) / 200000)%R as H1.
    { replace (M * c - IZR T)%R with (M * (c - IZR T / M))%R by (field; lra). rewrite Rabs_mult, (Rabs_pos_eq M) by lra.
      apply Rle_trans with (M * ((M + 1) / 200000))%R; [apply Rmult_le_compat_l; lra|]. lra. }
    assert (Rabs (M * W - 10000 * (M * c)) <= M * (11 / 10))%R as H2.
    { replace (M * W - 10000 * (M * c))%R with (M * (W - 10000 * c))%R by ring. rewrite Rabs_mult, (Rabs_pos_eq M) by lra.
      apply Rmult_le_compat_l; [lra|]. apply Rabs_le. lra. }
    assert (Rabs (M * W - 10000 * IZR T) <= M * (11 / 10) + 10000 * (M * (M + 1) / 200000))%R as H3.
    { replace (M * W - 10000 * IZR T)%R with ((M * W - 10000 * (M * c)) + 10000 * (M * c - IZR T))%R by ring.
      eapply Rle_trans; [apply Rabs_triang|]. rewrite (Rabs_mult 10000), (Rabs_pos_eq 10000) by lra. lra. }
    lra.
Qed.
(** For instance 120 bytes, two tables, three iterations: three groups. *)
Example C64_case : let q := flat_map (fun i => [i; 2 * i + 1; 7]) (seq 0 40) in
  bytes q /\ q <> [] /\ (N.of_nat (length (coded q)) <= 900005)%N /\
  exists symbols used weights selectors, statistics (BlockWise 2 3) q symbols used weights selectors /\
    length selectors = 3 /\ In 0 selectors /\ In 1 selectors.
Proof.
  cbv zeta. set (q := flat_map _ _).
  assert (bytes q) as HB.
  { apply Forall_forall. assert (forallb (fun x => x <? 256) q = true) as H by (vm_compute; reflexivity).
    rewrite forallb_forall in H. intros x Hx. apply Nat.ltb_lt, H; auto. }
  assert (q <> []) as Hne by discriminate.
  split; auto. split; auto. split; [vm_compute; discriminate|].
  destruct (front HB Hne) as (col & ptr & enc & used & E1 & E2 & LU & FF & LE).
  vm_compute in E1. injection E1 as <- <-. vm_compute in E2. injection E2 as <- <-.
  match type of LE with length ?e = _ => match type of LU with 1 <= length ?u <= 256 =>
    destruct (zle_with_strategy (BlockWise 2 3) e (length u)) as [[symbols [weights sel]]| | |] eqn:EZ; try (vm_compute in EZ; discriminate);
    exists symbols, (length u), weights, sel; split; [do 4 eexists; split; [vm_compute; reflexivity|split; [vm_compute; reflexivity|split; [reflexivity|exact EZ]]]|];
    assert (sel = match zle_with_strategy (BlockWise 2 3) e (length u) with Ok (_, (_, s)) => s | _ => [] end) as -> by (rewrite EZ; reflexivity) end end.
  vm_compute. auto 10.
Qed.
Print Assumptions C64_single_counts.
Print Assumptions C64_kmeans_lloyd.
Print Assumptions C64_weights.

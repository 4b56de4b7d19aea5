(** * Time: C60, C65

    Words used in the statements: Cost ([counted]: a result and the number of elementary
    steps: reads and writes of vector entries, turns of loops, entries created or copied),
    BwtCost (the functions of the block sort with their steps counted), EncodeCost (all other
    functions of the compressor with their steps counted), SpecStream ([delivers]). *)
From Verif Require Import Base Bitwise Sais Bwt SymbolStatistics BlockEncoder Stream Cost BwtCost BwtCostFacts EncodeCost EncodeCostFacts
  StreamFacts EncodeFacts StreamCostFacts SpecStream PropertiesSize.

(** ** C60: the block sort takes linear time *)

(** Sorting a block of [n] bytes takes at most 380 n + 6510 steps, whatever the data: the
    counted program does exactly what [bwt] does (same result, also for the suffix array and
    the rotation), and its counter never exceeds the bound. *)
Theorem C60_block_sort_linear : forall block, bytes block -> exists t,
  c_bwt block = (bwt block, t) /\ (N.of_nat t <= 380 * N.of_nat (length block) + 6510)%N.
Proof.
  intros block HB. destruct (w_bwt HB) as (H1 & H2). exists (snd (c_bwt block)). split.
  - rewrite <- H1. destruct (c_bwt block); reflexivity.
  - lia.
Qed.
(** The rotation (Duval) and the suffix array (SA-IS) by themselves. *)
Theorem C60_rotation_linear : forall block, exists t,
  c_rotate_duval block = (rotate_duval block, t) /\ t <= 20 * length block + 1.
Proof.
  intros block. destruct (w_rotate block) as (H1 & H2). exists (snd (c_rotate_duval block)). split; auto.
  rewrite <- H1. destruct (c_rotate_duval block); reflexivity.
Qed.
Theorem C60_suffix_array_linear : forall block, bytes block -> exists t,
  c_build_suffix_array block = (build_suffix_array block, t) /\ (N.of_nat t <= 353 * N.of_nat (length block) + 6502)%N.
Proof.
  intros block HB. destruct (w_build HB) as (H1 & H2). exists (snd (c_build_suffix_array block)). split.
  - rewrite <- H1. destruct (c_build_suffix_array block); reflexivity.
  - lia.
Qed.
(** Steps really are counted: "mississippi" and a run of 40 equal bytes. *)
Example C60_case : N.of_nat (snd (c_bwt [109; 105; 115; 115; 105; 115; 115; 105; 112; 112; 105])) = 7469%N /\
  N.of_nat (snd (c_bwt (repeat 7 40))) = 8946%N /\ snd (c_rotate_duval (repeat 7 40)) = 319.
Proof. vm_compute. auto. Qed.
Print Assumptions C60_block_sort_linear.
Print Assumptions C60_rotation_linear.
Print Assumptions C60_suffix_array_linear.

(** ** C65: compressing takes linear time *)

(** The steps per byte of input and per block; a k-means round looks at every table for
    every group of 50 symbols. *)
Definition steps_per_byte (st : strategy) : N :=
  match st with
  | Single => 2400
  | BlockWise tables rounds => 2700 + N.of_nat rounds * (20 * N.of_nat tables + 27)
  end.
Definition steps_per_block (st : strategy) : N :=
  match st with
  | Single => 62000000
  | BlockWise tables rounds => 1100000 + 31000000 * N.of_nat tables + N.of_nat rounds * (1076 * N.of_nat tables + 1072)
  end.

(** [encode_stream] needs at most that many steps for every byte and for every started
    720000 bytes of input, 24 for every answer of the reader, 4 for every thread and a
    constant 1400 -- all threads together, whatever the bytes, however they arrive, whatever
    the sink does.  The counted program does exactly what [encode_stream] does.
    (Without any table the encoder panics: C59.) *)
Theorem C65_compression_linear : forall data st p n rd w, bytes data -> 1 <= n -> delivers rd data ->
  (forall rounds, st <> BlockWise 0 rounds) ->
  forall fuel, length data < fuel -> exists t,
    c_encode_stream fuel p rd w n st = (encode_stream fuel p rd w n st, t) /\
    (N.of_nat t <= steps_per_byte st * N.of_nat (length data)
                   + steps_per_block st * (N.of_nat (length data) / 720000 + 1)
                   + 24 * N.of_nat (length (r_events rd)) + 4 * N.of_nat n + 1400)%N.
Proof.
  intros data st p n rd w HB Hn HD Hst fuel HF.
  assert (1 <= table_count st) as Hk by (destruct st as [[|k] it|]; cbn [table_count]; try lia; exfalso; eapply Hst; reflexivity).
  destruct (cuts_exists data) as (ps & HP). destruct (cuts_pieces HP) as (EC & HN & HL).
  assert (Forall bytes ps) as HBP by (apply Forall_concat; rewrite EC; auto).
  assert (Forall small_piece ps) as HS.
  { rewrite Forall_forall in *. intros q Hq. split; [|split]; auto. specialize (HL q Hq). unfold RLE_LIMIT in HL. lia. }
  destruct (@stream_cost p st n fuel rd data ps w Hn Hk HD HP HS HF) as (H1 & H2).
  exists (snd (c_encode_stream fuel p rd w n st)). split; [rewrite <- H1; destruct (c_encode_stream fuel p rd w n st); reflexivity|].
  pose proof (pieces_linear st ps) as HC. pose proof (coded_sum ps) as HK. rewrite EC in HK.
  pose proof (delivers_size HD) as HZ.
  assert (N.of_nat (length ps) <= N.of_nat (length data) / 720000 + 1)%N as HQ.
  { assert (900000 * N.of_nat (length ps) <= 900000 + N.of_nat (length (concat (map coded ps))))%N as H.
    { clear - HP. pose proof (cuts_full HP) as HF. clear HP. induction ps as [|q ps IH]; [cbn; lia|]. cbn [map concat length].
      rewrite app_length. destruct ps as [|q2 ps]; [cbn [length]; lia|].
      assert (900000 <= N.of_nat (length (coded q)))%N by (apply (HF [] q (q2 :: ps)); [reflexivity|discriminate]).
      assert (forall pre q' post, q2 :: ps = pre ++ q' :: post -> post <> [] -> (900000 <= N.of_nat (length (coded q')))%N) as HF2.
      { intros pre q' post E. apply (HF (q :: pre)). cbn [app]. rewrite E. reflexivity. }
      specialize (IH HF2). lia. }
    assert (N.of_nat (length ps) - 1 <= N.of_nat (length data) / 720000)%N by (apply N.div_le_lower_bound; lia). lia. }
  remember (N.of_nat (length data) / 720000 + 1)%N as blocks. remember (N.of_nat (length (concat (map coded ps)))) as C.
  remember (N.of_nat (length data)) as L. remember (N.of_nat (length ps)) as P.
  assert (4 * (rate st * C) + 96 * L <= 4 * (steps_per_byte st * L))%N as HR.
  { assert (4 * (rate st * C) <= rate st * (5 * L))%N by (rewrite N.mul_comm, <- N.mul_assoc, (N.mul_comm C); apply N.mul_le_mono_l; auto).
    assert (5 * rate st + 96 <= 4 * steps_per_byte st)%N as HX.
    { destruct st as [k it|]; cbn [rate steps_per_byte]; [|lia].
      assert (N.of_nat it * (20 * N.of_nat k + 27) * 4 = 5 * (N.of_nat it * (16 * N.of_nat k + 21)) + 3 * N.of_nat it)%N by lia. lia. }
    apply (N.mul_le_mono_r _ _ L) in HX. lia. }
  assert (block_overhead st * P + 22 * P <= steps_per_block st * blocks)%N as HB2.
  { rewrite <- N.mul_add_distr_r. apply N.mul_le_mono; auto. destruct st as [k it|]; cbn [block_overhead steps_per_block]; lia. }
  lia.
Qed.
(** One block by itself. *)
Theorem C65_block_linear : forall block st p crc, bytes block -> block <> [] -> (N.of_nat (length block) <= 1000000)%N ->
  (crc < 4294967296)%N -> (forall rounds, st <> BlockWise 0 rounds) -> exists t,
  c_generate_block_data p crc block st = (generate_block_data p crc block st, t) /\
  (N.of_nat t <= steps_per_byte st * N.of_nat (length block) + steps_per_block st)%N.
Proof.
  intros block st p crc HB Hne HL HC Hst.
  assert (1 <= table_count st) as Hk by (destruct st as [[|k] it|]; cbn [table_count]; try lia; exfalso; eapply Hst; reflexivity).
  destruct (@w_block p crc block st HB Hne HL HC Hk) as (H1 & H2).
  exists (snd (c_generate_block_data p crc block st)). split; [rewrite <- H1; destruct (c_generate_block_data p crc block st); reflexivity|].
  pose proof (piece_linear st (length block)) as H. unfold piece_cost in H.
  remember (N.of_nat (length block)) as L.
  assert (rate st * L + block_overhead st <= steps_per_byte st * L + steps_per_block st)%N; [|lia].
  apply N.add_le_mono; [apply N.mul_le_mono_r|]; destruct st as [k it|]; cbn [rate steps_per_byte block_overhead steps_per_block]; lia.
Qed.
(** Steps really are counted: compressing "ribzip2" and 30 equal bytes, one thread. *)
Example C65_case :
  let run data st := c_encode_stream 100 Checked (mk_reader [RChunk data] false) (good_sink []) 1 st in
  fst (fst (run [114; 105; 98; 122; 105; 112; 50] Single)) = Ok tt /\
  N.of_nat (snd (run [114; 105; 98; 122; 105; 112; 50] Single)) = 64403%N /\
  N.of_nat (snd (run (repeat 7 30) Single)) = 27557%N /\
  N.of_nat (snd (run [114; 105; 98; 122; 105; 112; 50] (BlockWise 2 3))) = 64978%N.
Proof. vm_compute. auto. Qed.
Print Assumptions C65_compression_linear.
Print Assumptions C65_block_linear.

(** * C77: the output of the k-means strategy read by an independent decoder

    Words used in the statements: [compressed], [decompressed], [coded], [fits_level9]
    (SpecStream), [bunzip2] (SpecBzip2: the reference decoder), [reversible] (SpecBwt),
    [blocks_are] (PropertiesStream), [tables_gap_free], [whole_groups] (PropertiesTables). *)
From Verif Require Import Base BaseFacts Bitwise BitwiseFacts SpecBits SpecCrc SpecRle SpecBwt SpecStream SpecBzip2
  Rle RleFacts Crc32 Crc32Facts Bwt BwtFacts Mtf MtfFacts Zle ZleFacts SymbolStatistics BlockEncoder BlockDecoder BlockFacts
  Stream StreamFacts RoundTripFacts EncodeFacts ExpandFacts SinkFacts DecodeFacts LosslessFacts SpareFacts UntilFacts ReferenceFacts ReferenceSpare
  PropertiesStream PropertiesOwn PropertiesTables PropertiesFew UnsortFacts RestoreFacts.

(** It does not always read it: 60 different bytes in order, 6 tables. *)
Theorem C77_valid_stream_refuted : exists data out, bytes data /\ reversible (coded data) /\ fits_level9 data /\
  (forall p n, 1 <= n -> compressed p n (BlockWise 6 3) data out) /\ bunzip2 out = None.
Proof.
  exists (seq 10 60). eexists. split; [cbn [seq]; small_bytes|]. split; [apply reversible_ok; [discriminate|vm_compute; reflexivity]|].
  split; [apply small_fits; vm_compute; discriminate|]. split.
  - intros p n Hn. apply compressed_seq with (ps := [seq 10 60]); auto.
    + apply small_cuts; [discriminate|cbn; lia].
    + destruct p; vm_compute; reflexivity.
  - vm_compute. reflexivity.
Qed.

(** the stream of pieces whose tables are chosen without a gap *)
Lemma kmeans_readable k it data ps out p n : 2 <= k <= 6 -> bytes data -> cuts data ps -> Forall (tables_gap_free k it) ps ->
  Forall (fun q => reversible (coded q) /\ fits_level9 q) ps -> 1 <= n -> compressed p n (BlockWise k it) data out -> bunzip2 out = Some data.
Proof.
  intros Hk HB HC HG HS Hn H. destruct (cuts_pieces HC) as (EC & HN & HL).
  assert (Forall bytes ps) as HBP by (apply Forall_concat; rewrite EC; auto).
  destruct (@kmeans_kept k it ps data ltac:(lia) HB HC HG) as (bs & HK).
  assert (1 <= table_count (BlockWise k it)) as Htc by (cbn [table_count]; lia).
  destruct (@stream_runs (BlockWise k it) data HB Htc) as (out' & _ & HR).
  assert (out' = out) as -> by (exact (compressed_unique (le_n 1) Hn HB (HR Wrapping 1 (le_n 1)) H)).
  pose proof (compressed_inv HC (le_n 1) (HR Wrapping 1 (le_n 1))) as ES.
  destruct (@seq_frames Wrapping (BlockWise k it) ps (good_sink out) HBP ES) as (_ & bodies & kk & H2 & Hkk & HO & EB). cbn [good_sink w_out] in EB, HO.
  assert (Forall2 (written Wrapping (BlockWise k it)) ps bs) as W by (clear - HK; induction HK as [|q b ps bs (A & _) HK IH]; constructor; auto).
  unfold frame_bits in EB. rewrite (frames_parts H2 W) in EB.
  rewrite <- EC. apply stream_spare with (bs := bs) (k := kk); auto.
  - clear - HK HBP HN HL HS Hk. induction HK as [|q b ps bs K HK IH]; [constructor|].
    apply Forall_cons_iff in HBP as (B1 & B2), HN as (N1 & N2), HL as (L1 & L2), HS as ((S1 & F1) & S2).
    constructor; auto. intros rest. unfold fits_level9 in F1. assert (length (bp_tables b) = k) as LT.
    { apply (@kept_tables (BlockWise k it) q b); auto. cbn [table_count]. lia. }
    destruct K as (_ & PO). apply block_spare; auto; lia.
  - unfold stream_bits. rewrite EB. rewrite pad_be; [reflexivity|].
    assert (Forall (fun c => c < M32)%N (map crc32 ps)) as HCR.
    { rewrite Forall_map. eapply Forall_impl; [|exact HBP]. intros; apply crc32_lt; auto. }
    unfold combined_crc. rewrite <- total_crc_combined; auto; [|reflexivity]. apply total_crc_lt; auto. reflexivity.
Qed.
(** It does with 2 to 6 tables whenever they are chosen without a gap, block sort and block
    size are right, for every piece; also where the end of block completes a group. *)
Theorem C77_valid_stream_partial : forall k iterations data, 2 <= k <= 6 -> bytes data ->
  exists out pieces, (forall p n, 1 <= n -> compressed p n (BlockWise k iterations) data out) /\
    (forall p, blocks_are p (BlockWise k iterations) pieces out) /\ concat pieces = data /\ Forall (fun q => q <> []) pieces /\
    (Forall (fun q => tables_gap_free k iterations q /\ reversible (coded q) /\ fits_level9 q) pieces -> bunzip2 out = Some data).
Proof.
  intros k it data Hk HB. destruct (cuts_exists data) as (ps & HC). destruct (cuts_pieces HC) as (EC & HN & _).
  assert (1 <= table_count (BlockWise k it)) as Htc by (cbn [table_count]; lia).
  destruct (@stream_runs (BlockWise k it) data HB Htc) as (out & HO & HR).
  exists out, ps. split; auto. split; [intros p; apply compressed_blocks with (n := 1) (data := data); auto|]. split; auto. split; auto.
  intros HF. assert (Forall (tables_gap_free k it) ps /\ Forall (fun q => reversible (coded q) /\ fits_level9 q) ps) as (F1 & F2).
  { split; (eapply Forall_impl; [|exact HF]); intros q; cbv beta; tauto. }
  exact (kmeans_readable Hk HB HC F1 F2 (le_n 1) (HR Wrapping 1 (le_n 1))).
Qed.
(** No iterations: no condition on the tables. *)
Theorem C77_no_iterations : forall k data, 2 <= k <= 6 -> bytes data ->
  exists out pieces, (forall p n, 1 <= n -> compressed p n (BlockWise k 0) data out) /\
    (forall p, blocks_are p (BlockWise k 0) pieces out) /\ concat pieces = data /\ Forall (fun q => q <> []) pieces /\
    (Forall (fun q => reversible (coded q) /\ fits_level9 q) pieces -> bunzip2 out = Some data).
Proof.
  intros k data Hk HB. destruct (cuts_exists data) as (ps & HC). destruct (cuts_pieces HC) as (EC & HN & HL).
  assert (Forall bytes ps) as HBP by (apply Forall_concat; rewrite EC; auto).
  assert (1 <= table_count (BlockWise k 0)) as Htc by (cbn [table_count]; lia).
  destruct (@stream_runs (BlockWise k 0) data HB Htc) as (out & HO & HR).
  exists out, ps. split; auto. split; [intros p; apply compressed_blocks with (n := 1) (data := data); auto|]. split; auto. split; auto.
  intros HF. eapply kmeans_readable with (p := Wrapping) (n := 1); eauto.
  rewrite Forall_forall in *. intros q Hq. apply C02_degenerate_gap_free; auto; lia.
Qed.
(** At most 38 bytes: likewise, with any number of iterations. *)
Theorem C77_short : forall k iterations data, 2 <= k <= 6 -> bytes data -> length data <= 38 -> reversible (coded data) ->
  exists out, (forall p n, 1 <= n -> compressed p n (BlockWise k iterations) data out) /\ bunzip2 out = Some data.
Proof.
  intros k it data Hk HB HL HS. assert (data <> []) as Hne.
  { intros ->. destruct HS as (i & (Hi & _) & _). cbn in Hi. lia. }
  assert (1 <= table_count (BlockWise k it)) as Htc by (cbn [table_count]; lia).
  destruct (@stream_runs (BlockWise k it) data HB Htc) as (out & HO & HR). exists out. split; auto.
  eapply kmeans_readable with (ps := [data]) (p := Wrapping) (n := 1); eauto.
  - apply small_cuts; auto. lia.
  - constructor; [|constructor]. intros s l CH. apply (@C02_short_safe k it data ltac:(lia) HB Hne HL s l CH).
  - constructor; [|constructor]. split; auto. apply small_fits. lia.
Qed.
(** Where the last block holds whole groups the reference decoder restores the input, and
    the crate's own decoder never does. *)
Theorem C77_own_decoder_refuted : forall k iterations data, 2 <= k <= 6 -> bytes data -> (N.of_nat (length data) <= 720000)%N ->
  tables_gap_free k iterations data -> reversible (coded data) -> whole_groups k iterations data ->
  exists out, (forall p n, 1 <= n -> compressed p n (BlockWise k iterations) data out) /\ bunzip2 out = Some data /\
    forall p, fst (decode_stream p out (good_sink [])) <> Ok tt.
Proof.
  intros k it data Hk HB HL HG HS HW. assert (data <> []) as Hne.
  { intros ->. destruct HS as (i & (Hi & _) & _). cbn in Hi. lia. }
  assert (cuts data [data]) as HC by (apply small_cuts; auto).
  assert (1 <= table_count (BlockWise k it)) as Htc by (cbn [table_count]; lia).
  destruct (@stream_runs (BlockWise k it) data HB Htc) as (out & HO & HR). exists out. split; auto. split.
  - eapply kmeans_readable with (ps := [data]) (p := Wrapping) (n := 1); eauto.
    constructor; [|constructor]. split; auto. apply small_fits. auto.
  - intros p. apply (@whole_groups_refused k it data [] data) with (8 := HR p 1 (le_n 1)); auto; lia.
Qed.
(** 60 different bytes, 2 tables: each of the two groups has its own table, which C77 reads.
    49 of them: whole groups. *)
Example C77_case : reversible (coded (seq 10 60)) /\ fits_level9 (seq 10 60) /\ tables_gap_free 2 3 (seq 10 60) /\
  exists out, (forall p n, 1 <= n -> compressed p n (BlockWise 2 3) (seq 10 60) out) /\ bunzip2 out = Some (seq 10 60).
Proof.
  assert (reversible (coded (seq 10 60))) as HS by (apply reversible_ok; [discriminate|vm_compute; reflexivity]).
  assert (fits_level9 (seq 10 60)) as HF by (apply small_fits; vm_compute; discriminate).
  assert (tables_gap_free 2 3 (seq 10 60)) as HG by (intros s l CH; apply (@C02_own_case s l CH)).
  assert (bytes (seq 10 60)) as HB by (cbn [seq]; small_bytes).
  split; auto. split; auto. split; auto.
  assert (1 <= table_count (BlockWise 2 3)) as Htc by (cbn [table_count]; lia).
  destruct (@stream_runs (BlockWise 2 3) (seq 10 60) HB Htc) as (out & HO & HR). exists out. split; auto.
  assert (cuts (seq 10 60) [seq 10 60]) as HC by (apply small_cuts; [discriminate|vm_compute; discriminate]).
  apply (@kmeans_readable 2 3 _ _ out Wrapping 1 ltac:(lia) HB HC); auto.
Qed.
Example C77_own_decoder_case : tables_gap_free 2 0 (seq 10 49) /\ reversible (coded (seq 10 49)) /\ whole_groups 2 0 (seq 10 49).
Proof.
  split; [|split].
  - apply C02_degenerate_gap_free; [lia|auto|cbn [seq]; small_bytes|discriminate|vm_compute; discriminate].
  - apply reversible_ok; [discriminate|vm_compute; reflexivity].
  - eexists; eexists. split; [|].
    + eexists; eexists; eexists; eexists; eexists. split; [vm_compute; reflexivity|]. split; [vm_compute; reflexivity|]. vm_compute. reflexivity.
    + vm_compute. reflexivity.
Qed.
Print Assumptions C77_valid_stream_refuted.
Print Assumptions C77_valid_stream_partial.
Print Assumptions C77_no_iterations.
Print Assumptions C77_short.
Print Assumptions C77_own_decoder_refuted.

(** * Time of decompression: C67

    Words used in the statements: Cost ([counted]), DecodeCost (the decompressor with its
    steps counted, [block_values]: the number of values the symbols of a block stand for),
    SpecStream ([good_sink]). *)
From Verif Require Import Base Bitwise BitwiseFacts SpecBits BlockDecoder Stream SpecStream Cost DecodeCost DecodeCostFacts DecodeFacts StreamFacts Crc32Facts.

(** An input that is decompressed successfully takes at most 38400 steps for every byte of
    it, a step for every answer of its reader, and 1080 + 6 log2 n steps for each of the [n]
    bytes written; the logarithm is that of the sort.  The counted program does exactly what
    [decode_stream] does. *)
Theorem C67_decompression_time : forall p source out left got,
  decode_source p source (good_sink out) = (Ok left, good_sink (out ++ got)) -> exists t,
  c_decode_source p source (good_sink out) = (decode_source p source (good_sink out), t) /\
  (N.of_nat t <= 38400 * N.of_nat (length (delivered source)) + N.of_nat (length source)
                 + N.of_nat (length got) * (1080 + 6 * N.log2 (N.of_nat (length got))))%N.
Proof.
  intros p source out left got E. destruct (source_cost p source out) as (got' & t & EC & ES & HT). exists t. split; auto.
  rewrite E in ES, HT. cbn [fst snd] in ES, HT.
  assert (got' = got) as ->. { assert (out ++ got = out ++ got') as H by (unfold good_sink in ES; congruence). apply app_inv_head in H. auto. }
  pose proof (log2_N (length got)) as HL. rewrite <- HL. lia.
Qed.
(** Any input, also one that fails: then there is one more block, starting at some bit of
    the input, and with [n] the number of values its symbols stand for, at most
    2104 n + 4 n log2 n + 300 steps more. *)
Theorem C67_any_input : forall p source out, exists t got,
  c_decode_source p source (good_sink out) = (decode_source p source (good_sink out), t) /\
  snd (decode_source p source (good_sink out)) = good_sink (out ++ got) /\
  exists k r1, rbits r1 = skipn k (bits_of (delivered source)) /\
  let n := N.of_nat (block_values p r1) in
  (N.of_nat t <= 38400 * N.of_nat (length (delivered source)) + N.of_nat (length source)
                 + N.of_nat (length got) * (1080 + 6 * N.log2 (N.of_nat (length got)))
                 + (300 + n * (2104 + 4 * N.log2 n)))%N.
Proof.
  intros p source out. destruct (source_cost p source out) as (got & t & EC & ES & HT). exists t, got. split; auto. split; auto.
  pose proof (log2_N (length got)) as HL.
  assert (forall r1, later r1 (br_from_source source) -> exists k, rbits r1 = skipn k (bits_of (delivered source))) as HS.
  { intros r1 (pre & E). rewrite rbits_from_source in E. exists (length pre). rewrite bits_of_bytes, E, skipn_app, skipn_all2, Nat.sub_diag; auto. }
  destruct (decode_source p source (good_sink out)) as [[l| | |] w']; cbn [fst] in HT.
  { destruct (HS _ (later_refl _)) as (k & Hk). exists k, (br_from_source source). split; auto. cbv zeta. rewrite <- HL. lia. }
  all: destruct HT as (r1 & H1 & HT); destruct (HS _ H1) as (k & Hk); exists k, r1; split; auto; cbv zeta;
    pose proof (log2_N (block_values p r1)) as HL2; rewrite <- HL, <- HL2; unfold fail_cost, sort_cost in HT; lia.
Qed.
(** Reading and writing out one block of any content. *)
Theorem C67_block_time : forall p r contents crc r', decode_block_data p r = Ok (contents, crc, r') -> exists t,
  c_decode_block_data p r = (Ok (contents, crc, r'), t) /\
  (N.of_nat t + 4800 * N.of_nat (length (rbits r')) + N.of_nat (length (br_source r'))
     <= 4800 * N.of_nat (length (rbits r)) + N.of_nat (length (br_source r))
        + N.of_nat (length contents) * (1080 + 6 * N.log2 (N.of_nat (length contents))))%N.
Proof.
  intros p r c crc r' E. destruct (s_block p r) as (H1 & H2). rewrite E in H1, H2. cbn [fst snd] in H2.
  exists (snd (c_decode_block_data p r)). split; [rewrite <- H1; destruct (c_decode_block_data p r); reflexivity|].
  pose proof (@block_bound _ _ _ (block_ratio _ _ E) (le_n (length c))) as HB. pose proof (log2_N (length c)) as HL. rewrite <- HL.
  unfold phi in H2. lia.
Qed.
(** Steps really are counted: what bzip2 makes of "ribzip2", whole and cut. *)
Definition ribzip2_bz2 : list nat :=
  [66; 90; 104; 57; 49; 65; 89; 38; 83; 89; 208; 168; 142; 101; 0; 0; 2; 137; 128; 16; 0; 16; 32; 80; 16; 32; 0; 33; 128; 12; 2; 75; 157; 220; 93; 201; 20; 225; 66; 67; 66; 162; 57; 148].
Example C67_case :
  let run input := c_decode_source Checked (map AByte input) (good_sink []) in
  fst (run ribzip2_bz2) = (Ok [AByte 66; AByte 162; AByte 57; AByte 148], good_sink [114; 105; 98; 122; 105; 112; 50]) /\
  N.of_nat (snd (run ribzip2_bz2)) = 4574%N /\
  fst (fst (run (firstn 30 ribzip2_bz2))) = Panic /\
  N.of_nat (snd (run (firstn 30 ribzip2_bz2))) = 1511%N /\
  block_values Checked (br_from_source (map AByte (skipn 10 ribzip2_bz2))) = 7.
Proof. vm_compute. repeat split. Qed.
Print Assumptions C67_decompression_time.
Print Assumptions C67_any_input.
Print Assumptions C67_block_time.

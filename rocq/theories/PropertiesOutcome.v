(** * How the decompression of any input ends: C66

    Words used in the statements: SpecOutcome ([ends], [cut], [self_delimiting]), SpecStream
    ([offer], [good_sink]), SpecBzip2 ([get_block], the reference reader of one block). *)
From Verif Require Import Base BaseFacts Bitwise BitwiseFacts SpecBits SpecCrc SpecRle SpecBzip2 SpecStream SpecOutcome
  Rle Crc32 Crc32Facts SymbolStatistics BlockEncoder BlockDecoder Stream ReferenceFacts EncodeFacts DecodeFacts OutcomeFacts
  ForeignFacts PropertiesStream PropertiesDecode.

(** Every input: a wrong signature is an error, and behind it the outcome is the one of
    [ends], for one way of reading block bodies, which agrees with the reference reader on
    the blocks it accepts (that have no spare selectors and no ambiguous run). *)
Theorem C66_outcome : forall p, exists read_block, self_delimiting read_block /\
  (forall level bits b rest, (level <= 9)%N -> get_block level bits = Some (b, rest) ->
     pb_unused b = 0 -> plain_counts (pb_coded b) = true ->
     read_block (skipn 32 bits) = Some (pb_contents b, rest)) /\
  (forall input w, bytes input -> firstn 3 input <> [66; 90; 104] \/ length input < 4 ->
     decode_stream p input w = (Err, w)) /\
  (forall d tl, is_byte d -> exists blocks result, ends read_block (bits_of tl) blocks result /\
     forall script out, decode_stream p ([66; 90; 104; d] ++ tl) (mk_writer script out) =
       let '(got, script', ok) := offer script blocks in
       (if ok then result else Err, mk_writer script' (out ++ got))).
Proof.
  intros p. exists (body_of p). split; [apply body_of_delimited|]. split; [|split].
  - intros level bits b rest HL EG HU HP.
    destruct (@block_follows p level bits b rest) as (HF & HC & HE); auto.
    { apply N.le_lt_trans with (100000 * 9)%N; [nia|reflexivity]. }
    destruct (HF (bits_reader bits)) as (r & ED & ER); [apply bits_reader_bits|].
    destruct (block_starts _ _ ED) as (x & r1 & used & E1 & LX & _ & _ & EB).
    rewrite bits_reader_bits in E1. rewrite E1, skipn_app, skipn_all2, LX by lia. change (32 - 32) with 0. cbn [app skipn].
    pose proof (body_of_ok p r1) as G. rewrite EB in G. rewrite G, ER. rewrite inverse_rle_plain in * by auto. rewrite HE. auto.
  - intros input w HB H. rewrite decode_stream_trace, header_err by auto. destruct w as [s o].
    cbn [offer status w_script w_out]. rewrite app_nil_r. auto.
  - intros d tl Hd. eexists. eexists. split; [apply stream_ends; exact Hd|]. intros script out.
    rewrite decode_stream_trace. cbn [w_script w_out].
    destruct (stream_trace p ([66; 90; 104; d] ++ tl)) as [blocks e]. reflexivity.
Qed.
(** [ends] leaves no choice. *)
Theorem C66_outcome_unique : forall read_block bits blocks1 result1 blocks2 result2, self_delimiting read_block ->
  ends read_block bits blocks1 result1 -> ends read_block bits blocks2 result2 -> blocks1 = blocks2 /\ result1 = result2.
Proof. intros. eapply ends_det; eauto. Qed.
(** An accepted stream cut anywhere: the outcome depends on where the cut is with respect
    to the blocks, which have a size of more than 80 bits each. *)
Theorem C66_truncation : forall p d tl w w', is_byte d -> decode_stream p ([66; 90; 104; d] ++ tl) w = (Ok tt, w') ->
  exists sizes blocks, length sizes = length blocks /\ Forall (fun s => 80 < s) sizes /\
    list_sum sizes + 48 <= 8 * length tl /\
    (forall out, decode_stream p ([66; 90; 104; d] ++ tl) (good_sink out) = (Ok tt, good_sink (out ++ concat blocks))) /\
    forall k, exists got result, cut (8 * k) (combine sizes blocks) got result /\
      forall out, decode_stream p ([66; 90; 104; d] ++ firstn k tl) (good_sink out) = (result, good_sink (out ++ concat got)).
Proof.
  intros p d tl w w' Hd E. pose proof (stream_ends p tl Hd) as HE. rewrite decode_stream_trace in E.
  assert (status (snd (stream_trace p ([66; 90; 104; d] ++ tl))) = Ok tt) as HS.
  { destruct (stream_trace p ([66; 90; 104; d] ++ tl)) as [blocks e]. destruct (offer _ _) as [[got s] ok].
    cbn [snd]. destruct ok; [|discriminate]. congruence. }
  destruct (ends_cut (@body_of_delimited p) HE HS) as (sizes & L1 & L2 & L3 & HK).
  exists sizes, (fst (stream_trace p ([66; 90; 104; d] ++ tl))). split; auto. split; auto. split.
  { rewrite bits_of_bytes, bytes_bits_length in L3. auto. }
  split.
  - intros out. rewrite decode_stream_trace. destruct (stream_trace p ([66; 90; 104; d] ++ tl)) as [blocks e]. cbn [fst snd] in *.
    unfold good_sink. cbn [w_script w_out]. rewrite offer_nil, HS. reflexivity.
  - intros k. destruct (HK (8 * k)) as (got & e' & C & EN). exists got, e'. split; auto. intros out.
    assert (firstn (8 * k) (bits_of tl) = bits_of (firstn k tl)) as EF.
    { rewrite !bits_of_bytes. rewrite <- (firstn_skipn k tl) at 1. rewrite bytes_bits_app.
      destruct (le_lt_dec k (length tl)) as [H|H].
      - rewrite firstn_app, bytes_bits_length, firstn_length, Nat.min_l, Nat.sub_diag by lia. rewrite firstn_O, app_nil_r.
        apply firstn_all2. rewrite bytes_bits_length, firstn_length. lia.
      - rewrite (skipn_all2 tl) by lia. rewrite app_nil_r. apply firstn_all2. rewrite bytes_bits_length, firstn_length. lia. }
    rewrite EF in EN. destruct (ends_det (@body_of_delimited p) EN (stream_ends p (firstn k tl) Hd)) as (-> & ->).
    rewrite decode_stream_trace. destruct (stream_trace p ([66; 90; 104; d] ++ firstn k tl)) as [blocks e]. cbn [fst snd].
    unfold good_sink. cbn [w_script w_out]. rewrite offer_nil. reflexivity.
Qed.
(** The block of [abcde_stream] cut in its marker, in its checksum, behind its checksum, in
    its body; with a wrong marker; with a wrong checksum. *)
Example C66_case :
  map (fun k => fst (decode_stream Checked (firstn (4 + k) abcde_stream) (good_sink []))) [5; 7; 10; 20; length abcde_stream - 8] =
    [Err; Panic; Err; Panic; Ok tt] /\
  fst (decode_stream Checked (firstn 4 abcde_stream ++ [50] ++ skipn 5 abcde_stream) (good_sink [])) = Err /\
  fst (decode_stream Checked (firstn 10 abcde_stream ++ [0; 0; 0; 0] ++ skipn 14 abcde_stream) (good_sink [])) = Err /\
  (exists b rest, get_block 9 (skipn 48 (bits_of (skipn 4 abcde_stream))) = Some (b, rest) /\ pb_unused b = 0 /\
     plain_counts (pb_coded b) = true).
Proof. repeat split; try (vm_compute; reflexivity). do 2 eexists. vm_compute. repeat split. Qed.
Print Assumptions C66_outcome.
Print Assumptions C66_outcome_unique.
Print Assumptions C66_truncation.

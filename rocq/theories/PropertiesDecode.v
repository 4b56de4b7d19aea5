(** * Properties of decompression of arbitrary input: C25 - C29, C42, C43

    Words used in the statements: SpecStream ([offer], [good_sink], [decompressed],
    [compressed]), SpecBzip2 ([checksum_stored_at], [spaced], [bunzip2]), SpecBits and the
    model's [decode_stream]. *)
From Verif Require Import Base BaseFacts Bitwise BitwiseFacts SpecBits SpecCrc SpecRle SpecBwt SpecBzip2 SpecStream
  Crc32 Crc32Facts SymbolStatistics BlockEncoder BlockDecoder BlockFacts Stream StreamFacts RoundTripFacts ReferenceFacts EncodeFacts
  DecodeFacts PropertiesStream.

(** ** C25: completeness of the output *)

(** A sink that accepts two bytes of the first write: [Ok], three bytes missing. *)
Theorem C25_output_complete_refuted : exists data out, bytes data /\
  (forall p n, 1 <= n -> compressed p n Single data out) /\
  forall p, decode_stream p out (mk_writer [WAccept 2] []) = (Ok tt, mk_writer [] [97; 98]) /\ data = [97; 98; 99; 100; 101].
Proof.
  exists [97; 98; 99; 100; 101]. eexists. split; [small_bytes|]. split.
  - intros p n Hn. apply compressed_seq with (ps := [[97; 98; 99; 100; 101]]); auto.
    + apply small_cuts; [discriminate|cbn; lia].
    + destruct p; vm_compute; reflexivity.
  - intros p. split; [destruct p; vm_compute; reflexivity|reflexivity].
Qed.

(** For every input there is a list of blocks and an outcome, both independent of the
    sink: each block is handed to the sink in one call, the count the sink answers is
    ignored, a failing call ends the decompression with [Err]. *)
Theorem C25_what_the_sink_gets : forall p input,
  exists blocks e, forall script out,
    decode_stream p input (mk_writer script out) =
    let '(got, script', ok) := offer script blocks in
    (if ok then e else Err, mk_writer script' (out ++ got)).
Proof.
  intros p input. destruct (stream_trace p input) as [blocks e] eqn:E. exists blocks, (status e). intros script out.
  rewrite decode_stream_trace, E. cbn [w_script w_out]. reflexivity.
Qed.
Lemma offer_ample blocks : forall script, (forall k b, In (WAccept k) script -> In b blocks -> length b <= k) ->
  exists n, let '(got, _, ok) := offer script blocks in
    got = concat (firstn n blocks) /\ (ok = true -> n = length blocks).
Proof.
  induction blocks as [|b tl IH]; intros script H.
  - exists 0. cbn [offer]. auto.
  - destruct script as [|[k|] script]; cbn [offer].
    + exists (length (b :: tl)). rewrite firstn_all. auto.
    + destruct (IH script) as (n & HN).
      { intros k' b' H1 H2. apply (H k' b'); right; auto. }
      exists (S n). destruct (offer script tl) as [[got s] ok]. destruct HN as (-> & HN). cbn [firstn concat length]. split.
      * rewrite firstn_all2; auto. apply H; left; auto.
      * intros E. rewrite HN; auto.
    + exists 0. cbn [firstn concat]. split; auto. discriminate.
Qed.
(** So the property holds for sinks that never write less than they are offered (but may
    fail): the sink holds complete blocks only, and all of them if the answer is [Ok]. *)
Theorem C25_output_complete_partial : forall p input out,
  exists blocks, w_out (snd (decode_stream p input (good_sink out))) = out ++ concat blocks /\
    forall script, (forall k b, In (WAccept k) script -> In b blocks -> length b <= k) ->
    exists n, w_out (snd (decode_stream p input (mk_writer script out))) = out ++ concat (firstn n blocks) /\
      (fst (decode_stream p input (mk_writer script out)) = Ok tt -> n = length blocks).
Proof.
  intros p input out. destruct (C25_what_the_sink_gets p input) as (blocks & e & H). exists blocks. split.
  - unfold good_sink. rewrite H, offer_nil. reflexivity.
  - intros script HS. destruct (offer_ample blocks script HS) as (n & HN). exists n. rewrite H.
    destruct (offer script blocks) as [[got s] ok]. destruct HN as (-> & HN). cbn [fst snd w_out]. split; auto.
    destruct ok; auto. discriminate.
Qed.
Definition abcde_stream : list nat := w_out (snd (seq_encode Wrapping Single [[97; 98; 99; 100; 101]] (good_sink []))).
Example C25_case : fst (decode_stream Checked abcde_stream (mk_writer [WAccept 5; WFail] [])) = Ok tt /\
  w_out (snd (decode_stream Checked abcde_stream (mk_writer [WAccept 5; WFail] []))) = [97; 98; 99; 100; 101] /\
  fst (decode_stream Checked abcde_stream (mk_writer [WFail] [1])) = Err.
Proof. vm_compute. auto. Qed.
Print Assumptions C25_output_complete_refuted.
Print Assumptions C25_what_the_sink_gets.
Print Assumptions C25_output_complete_partial.

(** ** C26: only data whose checksum is stored in the stream is written

    Whatever the input, what the sink receives is the contents of blocks, each offered in
    one call, and for each of them the input holds, at increasing positions, a block magic
    number followed by the CRC-32 of these contents. *)
Theorem C26_only_checked_data : forall p input script out,
  exists blocks positions,
    w_out (snd (decode_stream p input (mk_writer script out))) = out ++ fst (fst (offer script blocks)) /\
    spaced 32 positions /\ Forall2 (checksum_stored_at (bits_of input)) positions blocks /\ Forall bytes blocks.
Proof.
  intros p input script out. destruct (stream_trace_checked p input) as (pos & P1 & P2 & P3).
  exists (fst (stream_trace p input)), pos. split; auto.
  rewrite decode_stream_trace. cbn [w_script w_out]. destruct (stream_trace p input) as [blocks e]. cbn [fst].
  destruct (offer script blocks) as [[got s] ok]. reflexivity.
Qed.
Theorem C26_only_checked_data_accepting_sink : forall p input out,
  exists blocks positions, w_out (snd (decode_stream p input (good_sink out))) = out ++ concat blocks /\
    spaced 32 positions /\ Forall2 (checksum_stored_at (bits_of input)) positions blocks.
Proof.
  intros p input out. destruct (C26_only_checked_data p input [] out) as (blocks & pos & E & H1 & H2 & H3).
  exists blocks, pos. split; auto. unfold good_sink. rewrite E, offer_nil. reflexivity.
Qed.
(** At most one value of the stored checksum lets the first block through: with any other
    the answer is [Err] and the sink is untouched. *)
Lemma stream_first p d c rest input : is_byte d -> (c < 2 ^ 32)%N ->
  bits_of input = bits_of [66; 90; 104; d] ++ be_bits 48 BLOCK_MAGIC ++ be_bits 32 c ++ rest ->
  exists r1 fuel, rbits r1 = rest /\ stream_trace p input =
    match block_rest p r1 with
    | Ok (x, r2) => if (crc32 x =? c)%N then let (bs, e) := trace fuel p r2 in (x :: bs, e) else ([], Err)
    | Err => ([], Err) | Panic => ([], Panic) | NoFuel => ([], NoFuel)
    end.
Proof.
  intros Hd Hc E. rewrite !bits_of_bytes, <- rbits_from_reader in E. unfold stream_trace.
  destruct (@read_file_header_ok _ _ _ Hd E) as (r & -> & ER).
  change (be_bits 48 BLOCK_MAGIC) with (bytes_bits block_magic) in ER.
  cbn [trace]. destruct (what_next_block _ ER) as (r' & -> & ER'). rewrite block_split.
  destruct (@read_number_ok r' 32 _ _ ER') as (r1 & -> & ER1); [unfold be_bits; rewrite map_length, seq_length; auto|lia|].
  exists r1, (bits_left r). split; auto. cbn [bind]. rewrite be_bits_number by exact Hc.
  destruct (block_rest p r1) as [[x r2]| | |]; reflexivity.
Qed.
Theorem C26_one_checksum_only : forall p d c c' rest input input' out,
  is_byte d -> (c < 2 ^ 32)%N -> (c' < 2 ^ 32)%N -> c <> c' ->
  bits_of input = bits_of [66; 90; 104; d] ++ be_bits 48 BLOCK_MAGIC ++ be_bits 32 c ++ rest ->
  bits_of input' = bits_of [66; 90; 104; d] ++ be_bits 48 BLOCK_MAGIC ++ be_bits 32 c' ++ rest ->
  w_out (snd (decode_stream p input (good_sink out))) <> out ->
  decode_stream p input' (good_sink out) = (Err, good_sink out).
Proof.
  intros p d c c' rest input input' out Hd Hc Hc' Hne E E' HW.
  destruct (@stream_first p d c rest input Hd Hc E) as (r1 & f1 & R1 & T1).
  destruct (@stream_first p d c' rest input' Hd Hc' E') as (r2 & f2 & R2 & T2).
  rewrite decode_stream_trace, T1 in HW. rewrite decode_stream_trace, T2. cbn [good_sink w_script w_out] in *.
  destruct (regular_rest p) as (R & _ & _). specialize (R r1 r2 ltac:(congruence)).
  assert (forall e : res bit_reader, ~ w_out (snd (let '(got, script, ok) := offer [] [] in
    (if ok then status e else Err, mk_writer script (out ++ got)))) <> out) as G0.
  { intros e H. apply H. cbn [offer snd w_out]. rewrite app_nil_r. auto. }
  destruct (block_rest p r1) as [[x1 r1']| | |]; try (exfalso; eapply G0; exact HW).
  destruct (crc32 x1 =? c)%N eqn:EC; [|exfalso; eapply G0; exact HW]. apply N.eqb_eq in EC.
  destruct (block_rest p r2) as [[x2 r2']| | |]; cbn [outcome] in R; try discriminate. injection R as <- _.
  replace (crc32 x1 =? c')%N with false by (symmetry; apply N.eqb_neq; congruence).
  cbn [offer status]. rewrite app_nil_r. reflexivity.
Qed.
Example C26_case : exists rest, bits_of abcde_stream =
    bits_of [66; 90; 104; 57] ++ be_bits 48 BLOCK_MAGIC ++ be_bits 32 (crc32_bzip2 [97; 98; 99; 100; 101]) ++ rest /\
  checksum_stored_at (bits_of abcde_stream) 32 [97; 98; 99; 100; 101] /\
  w_out (snd (decode_stream Checked abcde_stream (good_sink []))) <> [].
Proof.
  exists (skipn 112 (bits_of abcde_stream)). split; [vm_compute; reflexivity|]. split.
  - split; [vm_compute; lia|]. split; vm_compute; reflexivity.
  - vm_compute. discriminate.
Qed.
Print Assumptions C26_only_checked_data.
Print Assumptions C26_only_checked_data_accepting_sink.
Print Assumptions C26_one_checksum_only.

(** ** C27: the stream checksum is not verified *)
Theorem C27_stream_checksum_refuted : exists input,
  (forall p, decompressed p input [97; 98; 99; 100; 101]) /\ bunzip2 input = None /\
  exists good, bunzip2 good = Some [97; 98; 99; 100; 101] /\ length good = length input /\
    firstn 38 good = firstn 38 input.
Proof.
  exists (firstn 38 abcde_stream ++ [255] ++ skipn 39 abcde_stream). split; [|split].
  - intros p. destruct p; vm_compute; reflexivity.
  - vm_compute. reflexivity.
  - exists abcde_stream. vm_compute. auto.
Qed.
(** Quite generally: nothing after the footer magic number has any influence. *)
Theorem C27_rest_ignored : forall p input w w', decode_stream p input w = (Ok tt, w') ->
  exists front after, bits_of input = front ++ be_bits 48 FOOTER_MAGIC ++ after /\
    forall input2 after2, bits_of input2 = front ++ be_bits 48 FOOTER_MAGIC ++ after2 ->
      decode_stream p input2 w = (Ok tt, w').
Proof.
  intros p input w w' E. rewrite decode_stream_trace in E. destruct (stream_trace p input) as [blocks e] eqn:ET.
  destruct (offer (w_script w) blocks) as [[got s] ok] eqn:EO. destruct ok; [|discriminate].
  destruct e as [r'| | |]; try discriminate. cbn [status] in E. injection E as <-.
  destruct (@stream_trace_accepts _ _ _ _ ET) as (d & used & Hd & EB & RD).
  exists (bytes_bits [66; 90; 104; d] ++ used), (rbits r').
  change (be_bits 48 FOOTER_MAGIC) with (bytes_bits footer_magic). rewrite bits_of_bytes. split.
  - rewrite EB, <- app_assoc. auto.
  - intros input2 after2 E2. rewrite bits_of_bytes, <- app_assoc in E2.
    destruct (RD d input2 after2 Hd E2) as (r2 & ET2 & _). rewrite decode_stream_trace, ET2, EO. reflexivity.
Qed.
Example C27_case : decode_stream Checked empty_stream (mk_writer [WFail] [3]) = (Ok tt, mk_writer [WFail] [3]).
Proof. vm_compute. reflexivity. Qed.
Print Assumptions C27_stream_checksum_refuted.
Print Assumptions C27_rest_ignored.

(** ** C28: concatenated streams *)
Lemma bits_of_app a b : bits_of (a ++ b) = bits_of a ++ bits_of b.
Proof. apply flat_map_app. Qed.
(** Whatever follows an accepted stream is dropped, a second stream included. *)
Theorem C28_concatenation_dropped : forall p input w w' more, decode_stream p input w = (Ok tt, w') ->
  decode_stream p (input ++ more) w = (Ok tt, w').
Proof.
  intros p input w w' more E. destruct (C27_rest_ignored _ _ _ E) as (front & after & E1 & H).
  apply (H _ (after ++ bits_of more)). rewrite bits_of_app, E1, <- !app_assoc. reflexivity.
Qed.
Theorem C28_concatenation_refuted : exists data1 data2 out1 out2, bytes data1 /\ bytes data2 /\
  (forall p n, 1 <= n -> compressed p n Single data1 out1) /\ (forall p n, 1 <= n -> compressed p n Single data2 out2) /\
  (forall p, decompressed p out1 data1) /\ (forall p, decompressed p out2 data2) /\ data2 <> [] /\
  forall p, decompressed p (out1 ++ out2) data1.
Proof.
  exists [97; 98; 99; 100; 101], [120; 121; 122], abcde_stream, (w_out (snd (seq_encode Wrapping Single [[120; 121; 122]] (good_sink [])))).
  split; [small_bytes|]. split; [small_bytes|].
  assert (forall p, decompressed p abcde_stream [97; 98; 99; 100; 101]) as H.
  { intros p. unfold decompressed. destruct p; vm_compute; reflexivity. }
  split; [|split; [|split; [exact H|split; [|split]]]].
  - intros p n Hn. apply compressed_seq with (ps := [[97; 98; 99; 100; 101]]); [apply small_cuts; [discriminate|cbn; lia]|exact Hn|].
    destruct p; vm_compute; reflexivity.
  - intros p n Hn. apply compressed_seq with (ps := [[120; 121; 122]]); [apply small_cuts; [discriminate|cbn; lia]|exact Hn|].
    destruct p; vm_compute; reflexivity.
  - intros p. unfold decompressed. destruct p; vm_compute; reflexivity.
  - discriminate.
  - intros p. apply C28_concatenation_dropped. apply H.
Qed.
Print Assumptions C28_concatenation_dropped.
Print Assumptions C28_concatenation_refuted.

(** ** C29: totality *)

(** A stream cut in the middle of a block header makes it panic ... *)
Theorem C29_total_refuted : forall p w,
  decode_stream p [66; 90; 104; 57; 49; 65; 89; 38; 83; 89] w = (Panic, w).
Proof. intros p [s o]. destruct p; vm_compute; reflexivity. Qed.
(** ... but it never runs forever, whatever the input and the sink. *)
Theorem C29_terminates_partial : forall p input w, fst (decode_stream p input w) <> NoFuel.
Proof.
  intros p input w. rewrite decode_stream_trace. pose proof (stream_trace_halts p input) as H.
  destruct (stream_trace p input) as [blocks e]. destruct (offer (w_script w) blocks) as [[got s] ok]. cbn [fst snd] in *.
  destruct ok; [|discriminate]. destruct e; try discriminate. congruence.
Qed.
Print Assumptions C29_total_refuted.
Print Assumptions C29_terminates_partial.

(** ** C42: truncation *)

(** The empty stream without its checksum is accepted. *)
Theorem C42_truncation_refuted : exists input k, k < length input /\
  forall p, decompressed p input [] /\ decompressed p (firstn k input) [].
Proof.
  exists empty_stream, 10. split; [vm_compute; lia|]. intros p. unfold decompressed. destruct p; vm_compute; auto.
Qed.
(** An accepted truncation at least yields the same output ... *)
Theorem C42_same_output_partial : forall p input k w w1 w2,
  decode_stream p input w = (Ok tt, w1) -> decode_stream p (firstn k input) w = (Ok tt, w2) -> w1 = w2.
Proof.
  intros p input k w w1 w2 E1 E2. apply C28_concatenation_dropped with (more := skipn k input) in E2.
  rewrite firstn_skipn in E2. congruence.
Qed.
(** ... and of a stream made by this crate (from pieces it can decode) at most the four
    bytes that hold the end of the checksum can be missing. *)
Theorem C42_truncation_partial : forall data, bytes data ->
  exists pieces, concat pieces = data /\ Forall (fun q => q <> []) pieces /\
    (Forall piece_safe pieces ->
     exists out, (forall p n, 1 <= n -> compressed p n Single data out) /\ (forall p, decompressed p out data) /\
       forall p k w, k + 4 < length out -> fst (decode_stream p (firstn k out) w) <> Ok tt).
Proof.
  intros data HB. destruct (cuts_exists data) as (ps & HC). destruct (cuts_pieces HC) as (EC & HN & HL).
  exists ps. split; auto. split; auto. intros HS.
  destruct (@stream_made Single data ps HB HC (single_encodable HB HC)) as (bs & out & kp & H2 & Hk & HO & HR & E).
  exists out. split; auto. split; [eapply made_decompresses; eauto|].
  intros p k w HK HW.
  assert (Forall bytes ps) as HBP by (apply Forall_concat; rewrite EC; auto).
  assert (Forall2 (decodes p) ps bs) as HD.
  { clear - H2 HBP HS HL. induction H2 as [|q b ps bs HQ H2 IH]; [constructor|].
    inversion HBP; inversion HS; inversion HL; subst. constructor; auto. eapply encodes_decodes; eauto. }
  (* the whole stream leaves less than five bytes *)
  assert (exists r', stream_trace p out = (ps, Ok r') /\ length (rbits r') < 40) as (r' & ET & LR).
  { unfold stream_trace. rewrite <- rbits_from_reader in E. unfold stream_bits in E. rewrite <- !app_assoc in E.
    destruct (@read_file_header_ok 57 _ _ ltac:(unfold is_byte; lia) E) as (r & -> & ER).
    destruct (@trace_pieces p ps bs HD (S (bits_left r)) r _ ER) as (r' & ET & ER').
    { rewrite bits_left_rbits, ER, app_length. pose proof (blocks_length _ _ (Forall2_len HD)). lia. }
    exists r'. split; auto. rewrite ER', app_length, repeat_length.
    rewrite pad_n_length; [lia|].
    assert (Forall (fun c => c < M32)%N (map crc32 ps)) as HM.
    2: { change (2 ^ N.of_nat 32)%N with M32. unfold combined_crc. rewrite <- total_crc_combined by (auto; reflexivity).
         apply total_crc_lt; auto. reflexivity. }
    apply Forall_forall. intros c Hc. apply in_map_iff in Hc as (q & <- & Hq). apply crc32_lt.
    rewrite Forall_forall in HBP. auto. }
  rewrite decode_stream_trace in HW. destruct (stream_trace p (firstn k out)) as [blocks e] eqn:ET2.
  destruct (offer (w_script w) blocks) as [[got s] ok]. destruct ok; [|discriminate].
  destruct e as [r2| | |]; try discriminate.
  destruct (@stream_trace_accepts _ _ _ _ ET2) as (d & used & Hd & EB & RD).
  destruct (RD d out (rbits r2 ++ bytes_bits (skipn k out)) Hd) as (r3 & ET3 & ER3).
  { rewrite <- (firstn_skipn k out) at 1. rewrite bytes_bits_app, EB, <- !app_assoc. reflexivity. }
  rewrite ET in ET3. injection ET3 as _ <-. rewrite ER3, app_length, bytes_bits_length, skipn_length in LR. lia.
Qed.
Example C42_case : fst (decode_stream Checked (firstn (length abcde_stream - 5) abcde_stream) (good_sink [])) <> Ok tt /\
  fst (decode_stream Checked (firstn (length abcde_stream - 4) abcde_stream) (good_sink [])) = Ok tt.
Proof. vm_compute. split; [discriminate|reflexivity]. Qed.
Print Assumptions C42_truncation_refuted.
Print Assumptions C42_same_output_partial.
Print Assumptions C42_truncation_partial.

(** ** C43: the level digit *)

(** No value of the fourth byte is rejected: it has no influence at all. *)
Theorem C43_level_refuted : forall p d d' tl w, is_byte d -> is_byte d' ->
  decode_stream p ([66; 90; 104; d] ++ tl) w = decode_stream p ([66; 90; 104; d'] ++ tl) w.
Proof.
  intros p d d' tl w Hd Hd'.
  assert (forall d, is_byte d -> exists r, read_file_header (br_from_reader ([66; 90; 104; d] ++ tl)) = Ok r /\ rbits r = bytes_bits tl) as G.
  { intros x Hx. apply (@read_file_header_ok x (br_from_reader ([66; 90; 104; x] ++ tl)) (bytes_bits tl)); auto. rewrite rbits_from_reader, bytes_bits_app. reflexivity. }
  destruct (G d Hd) as (r & E & ER). destruct (G d' Hd') as (r' & E' & ER').
  rewrite !decode_stream_trace. unfold stream_trace. rewrite E, E'.
  destruct (@trace_outcome p (S (bits_left r)) (S (bits_left r')) r r') as (A & B);
    [congruence|rewrite bits_left_rbits; lia|rewrite bits_left_rbits; lia|].
  destruct (trace (S (bits_left r)) p r) as [bs e]. destruct (trace (S (bits_left r')) p r') as [bs' e'].
  cbn [fst snd] in A, B. subst bs'. rewrite B. reflexivity.
Qed.
(** The first three bytes are checked. *)
Theorem C43_signature_checked_partial : forall p input w, bytes input -> firstn 3 input <> [66; 90; 104] ->
  decode_stream p input w = (Err, w).
Proof.
  intros p input w HB HN. unfold decode_stream, decode_source. change (br_from_source (map AByte input)) with (br_from_reader input).
  destruct (read_file_header (br_from_reader input)) as [r| | |] eqn:E; auto; exfalso.
  - apply read_file_header_inv in E as (d & Hd & E). rewrite rbits_from_reader in E. apply HN.
    assert (length input >= 4) as HL.
    { apply (f_equal (@length bool)) in E. rewrite app_length, !bytes_bits_length in E. cbn [length] in E. lia. }
    rewrite <- (firstn_skipn 4 input), bytes_bits_app in E. apply app_inv_length in E as (E & _).
    2: { rewrite !bytes_bits_length, firstn_length. cbn [length]. lia. }
    apply bytes_bits_inj in E.
    + replace (firstn 3 input) with (firstn 3 (firstn 4 input)) by (rewrite firstn_firstn; reflexivity).
      rewrite E. reflexivity.
    + rewrite <- (firstn_skipn 4 input) in HB. apply Forall_app in HB. tauto.
    + repeat (apply Forall_cons; [first [exact Hd | unfold is_byte; lia]|]). apply Forall_nil.
  - unfold read_file_header in E. destruct (read_bytes (br_from_reader input) 4) as [[bs r']| | |] eqn:EB; try discriminate.
    + cbn [bind] in E. destruct (nats_eqb _ _); discriminate.
    + revert EB. apply read_bytes_no_panic.
  - revert E. apply read_file_header_halts.
Qed.
Example C43_case : bytes [66; 90; 48; 57; 0] /\ firstn 3 [66; 90; 48; 57; 0] <> [66; 90; 104] /\
  decompressed Checked [66; 90; 104; 0; 23; 114; 69; 56; 80; 144; 0; 0; 0; 0] [].
Proof. split; [small_bytes|]. split; [discriminate|]. vm_compute. reflexivity. Qed.
Print Assumptions C43_level_refuted.
Print Assumptions C43_signature_checked_partial.

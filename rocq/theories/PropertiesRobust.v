(** * Decompression of damaged and hostile input: C49, C50

    Words used in the statements: SpecStream ([good_sink]: a sink that accepts
    everything), SpecBzip2 ([bunzip2]: the reference decoder) and the model's [decode_stream]. *)
From Verif Require Import Base BaseFacts SpecBits SpecCrc SpecRle SpecBzip2 SpecStream Bitwise BitwiseFacts Rle
  Crc32 Crc32Facts SymbolStatistics BlockDecoder BlockFacts Stream StreamFacts DecodeFacts ReferenceFacts PropertiesStream ForeignFacts AgreeFacts TakeFacts BombFacts.

(** ** C50: more input never changes what has been written *)

Lemma what_next_more r1 r2 t r1' more : rbits r2 = rbits r1 ++ more -> what_next r1 = Ok (t, r1') ->
  exists r2', what_next r2 = Ok (t, r2') /\ rbits r2' = rbits r1' ++ more.
Proof.
  intros E W. destruct regular_what_next as (_ & _ & W3). destruct (W3 _ _ _ W) as (u & U & R).
  apply (R r2 (rbits r1' ++ more)). rewrite E, U, <- app_assoc. reflexivity.
Qed.
Lemma trace_more p fuel1 : forall fuel2 r1 r2 more, rbits r2 = rbits r1 ++ more -> length (rbits r1) < fuel1 ->
  length (rbits r2) < fuel2 -> exists blocks, fst (trace fuel2 p r2) = fst (trace fuel1 p r1) ++ blocks.
Proof.
  induction fuel1 as [|fuel1 IH]; intros fuel2 r1 r2 more E H1 H2; [lia|]. destruct fuel2 as [|fuel2]; [lia|].
  cbn [trace]. destruct (what_next r1) as [[t r1']| | |] eqn:W; try (eexists; reflexivity).
  destruct (@what_next_more _ _ _ _ _ E W) as (r2' & -> & E'). apply what_next_inv in W.
  apply (f_equal (@length bool)) in W. rewrite app_length, magic_length in W.
  destruct t; [eexists; reflexivity|].
  destruct (decode_block_data p r1') as [[[c n] r1'']| | |] eqn:B; try (eexists; reflexivity).
  destruct (regular_block p) as (_ & _ & B3). destruct (B3 _ _ _ B) as (u & U & R).
  destruct (R r2' (rbits r1'' ++ more)) as (r2'' & -> & E''); [rewrite E', U, <- app_assoc; reflexivity|].
  destruct (crc32 c =? n)%N; [|eexists; reflexivity].
  destruct (IH fuel2 r1'' r2'' more E'') as (bs & EB).
  - apply (f_equal (@length bool)) in U. rewrite app_length in U. lia.
  - rewrite E'' . rewrite E in H2. apply (f_equal (@length bool)) in U. rewrite !app_length in *. lia.
  - destruct (trace fuel2 p r2''), (trace fuel1 p r1''). cbn [fst] in *. exists bs. rewrite EB. reflexivity.
Qed.

(** Whatever the input, what follows it, the sink and what the sink already holds: the
    bytes the sink has received when decompression of the whole input ends begin with the
    bytes it would have received had the input ended early. *)
Theorem C50_prefix : forall p input more script out,
  exists extra, w_out (snd (decode_stream p (input ++ more) (mk_writer script out))) =
    w_out (snd (decode_stream p input (mk_writer script out))) ++ extra.
Proof.
  intros p input more script out. rewrite !decode_stream_trace.
  assert (exists bs, fst (stream_trace p (input ++ more)) = fst (stream_trace p input) ++ bs) as (bs & E).
  { unfold stream_trace. destruct (read_file_header (br_from_reader input)) as [r1| | |] eqn:E; try (eexists; reflexivity).
    apply read_file_header_inv in E as (d & Hd & E). rewrite rbits_from_reader in E.
    destruct (@read_file_header_ok d (br_from_reader (input ++ more)) (rbits r1 ++ bytes_bits more) Hd) as (r2 & -> & E2).
    - rewrite rbits_from_reader, bytes_bits_app, E, <- app_assoc. reflexivity.
    - apply trace_more with (more := bytes_bits more); auto; rewrite bits_left_rbits; lia. }
  destruct (stream_trace p (input ++ more)) as [b1 e1], (stream_trace p input) as [b2 e2]. cbn [fst] in E. subst b1.
  cbn [w_script w_out]. destruct (offer_more b2 bs script) as (extra & X & _).
  destruct (offer script (b2 ++ bs)) as [[g s] ok], (offer script b2) as [[g' s'] ok']. cbn [fst snd w_out] in *.
  exists extra. rewrite X, app_assoc. reflexivity.
Qed.
(** In particular, of a file cut short anywhere. *)
Theorem C50_truncated : forall p input k script out,
  exists extra, w_out (snd (decode_stream p input (mk_writer script out))) =
    w_out (snd (decode_stream p (firstn k input) (mk_writer script out))) ++ extra.
Proof.
  intros p input k script out. destruct (C50_prefix p (firstn k input) (skipn k input) script out) as (x & E).
  rewrite firstn_skipn in E. eauto.
Qed.

(** A stream of two blocks, cut inside the second: the first block is written, then the
    decoder panics; the whole stream gives both. *)
Definition two_blocks : list nat :=
  w_out (snd (seq_encode Wrapping Single [[97; 98; 99; 100; 101]; [120; 121; 122]] (good_sink []))).
Example C50_case : length two_blocks = 69 /\
  decode_stream Wrapping (firstn 52 two_blocks) (good_sink []) = (Panic, good_sink [97; 98; 99; 100; 101]) /\
  decode_stream Wrapping two_blocks (good_sink []) = (Ok tt, good_sink ([97; 98; 99; 100; 101] ++ [120; 121; 122])).
Proof. vm_compute. auto. Qed.

(** ** C51: readers that are interrupted or fail

    A reader is the list of its answers to the calls of [read] (with room for one byte);
    [delivered] are the bytes before its first failure. *)
Lemma header_outcome r1 r2 : rbits r1 = rbits r2 ->
  match read_file_header r1, read_file_header r2 with
  | Ok a, Ok b => rbits a = rbits b
  | Err, Err | Panic, Panic | NoFuel, NoFuel => True
  | _, _ => False
  end.
Proof.
  intros E. unfold read_file_header. destruct (regular_bytes 4) as (H & _ & _). specialize (H r1 r2 E). cbv beta in H.
  destruct (read_bytes r1 4) as [[b1 a1]| | |], (read_bytes r2 4) as [[b2 a2]| | |]; cbn [outcome] in H; try discriminate; cbn [bind]; auto.
  injection H as -> H. destruct (nats_eqb (firstn 3 b2) [66; 90; 104]); cbn [outcome]; auto.
Qed.
Lemma source_trace_outcome p source :
  fst (source_trace p source) = fst (stream_trace p (delivered source)) /\
  status (snd (source_trace p source)) = status (snd (stream_trace p (delivered source))).
Proof.
  unfold source_trace, stream_trace.
  pose proof (@header_outcome (br_from_source source) (br_from_reader (delivered source))) as H.
  rewrite rbits_from_reader, rbits_from_source in H. specialize (H eq_refl).
  destruct (read_file_header (br_from_source source)) as [r1| | |], (read_file_header (br_from_reader (delivered source))) as [r2| | |];
    try contradiction; auto.
  apply trace_outcome; auto; rewrite bits_left_rbits; lia.
Qed.

(** For every reader, sink and build: interrupted calls make no difference, and a failing
    call has the same effect as the end of the file at that place.  (The result of
    [decode_source] also shows what is left of the reader, which is not compared here.) *)
Theorem C51_any_reader : forall p source w,
  (status (fst (decode_source p source w)), snd (decode_source p source w)) = decode_stream p (delivered source) w.
Proof.
  intros p source w. rewrite decode_source_trace, decode_stream_trace.
  destruct (source_trace_outcome p source) as (E1 & E2).
  destruct (source_trace p source) as [b1 e1], (stream_trace p (delivered source)) as [b2 e2]. cbn [fst snd] in *. subst b2.
  destruct (offer (w_script w) b1) as [[got s] ok]. cbn [fst snd].
  destruct ok; [|reflexivity]. rewrite <- E2. destruct e1; reflexivity.
Qed.
(** What a reader answers after its first failure is never asked for. *)
Theorem C51_after_failure : forall p source more w,
  let run := decode_source p (source ++ AFail :: more) w in
  (status (fst run), snd run) = decode_stream p (delivered source) w.
Proof.
  intros p source more w. cbv zeta. rewrite C51_any_reader. f_equal.
  induction source as [|[b| |] source IH]; cbn [app delivered]; congruence.
Qed.
Example C51_case : let source := map AByte (firstn 20 two_blocks) ++ [AInterrupted; AInterrupted] ++ map AByte (skipn 20 two_blocks) in
  delivered source = two_blocks /\ delivered (source ++ [AFail; AByte 1]) = two_blocks /\
  decode_source Checked (map AByte (firstn 52 two_blocks) ++ AFail :: map AByte (skipn 52 two_blocks)) (good_sink [])
    = (Panic, good_sink [97; 98; 99; 100; 101]).
Proof. vm_compute. auto. Qed.

(** ** C52: where the reader is left *)

(** After a success the reader has been read exactly to the end of the byte that holds the
    last bit of the footer's magic number, whatever the reader: the four bytes of the
    checksum are still to be read. *)
Theorem C52_left_at_checksum : forall p source w rest w', decode_source p source w = (Ok rest, w') ->
  exists taken front unread, source = taken ++ rest /\ delivered source = delivered taken ++ delivered rest /\
    bits_of (delivered taken) = front ++ be_bits 48 FOOTER_MAGIC ++ unread /\ length unread < 8.
Proof.
  intros p source w rest w' E. rewrite decode_source_trace in E. destruct (source_trace p source) as [bs e] eqn:ET.
  destruct (offer (w_script w) bs) as [[got s] ok]. destruct ok; [|discriminate]. destruct e as [r| | |]; try discriminate.
  cbn [left_over] in E. injection E as <- _. destruct (source_trace_took _ _ ET) as (taken & front & unread & H1 & H2 & H3 & H4 & _).
  exists taken, front, unread. change (be_bits 48 FOOTER_MAGIC) with (bytes_bits footer_magic). rewrite bits_of_bytes. auto.
Qed.

(** A valid stream followed by anything, read byte by byte: its last four bytes and what
    follows are left, so the caller who goes on reading does not find what follows. *)
Theorem C52_position_refuted : forall p file blocks following,
  bytes file -> bunzip2_blocks file = Some blocks ->
  Forall (fun b => pb_unused b = 0 /\ plain_counts (pb_coded b) = true) blocks ->
  decode_source p (map AByte (file ++ following)) (good_sink []) =
    (Ok (map AByte (skipn (length file - 4) file ++ following)), good_sink (contents_of blocks)).
Proof.
  intros p file blocks following HB EF HP. destruct (@reference_trace p _ _ HB EF HP) as (r & ET & LR).
  destruct (@stream_trace_accepts _ _ _ _ ET) as (d & used & Hd & EB & RD).
  destruct (RD d (file ++ following) (rbits r ++ bytes_bits following) Hd) as (r2 & ET2 & ER2).
  { rewrite bytes_bits_app, EB, <- !app_assoc. reflexivity. }
  rewrite decode_source_trace. change (source_trace p (map AByte (file ++ following))) with (stream_trace p (file ++ following)).
  rewrite ET2. cbn [w_script w_out good_sink]. rewrite offer_nil. cbn [left_over app].
  destruct (@source_trace_took p (map AByte (file ++ following)) _ _ ET2) as (taken & front & unread & H1 & H2 & H3 & H4 & H5).
  assert (br_source r2 = map AByte (skipn (length taken) (file ++ following))) as ES.
  { apply (f_equal (skipn (length taken))) in H1. rewrite skipn_app, skipn_all, Nat.sub_diag in H1. cbn [skipn app] in H1.
    rewrite <- H1. apply skipn_map. }
  assert (length taken = length file - 4 /\ 4 <= length file) as (EL & L4).
  { apply (f_equal (@length _)) in H1, H5. rewrite ES in H1, H5. rewrite delivered_bytes in H5. rewrite ER2 in H5.
    rewrite !app_length, !bytes_bits_length, skipn_length, app_length in H5.
    rewrite map_length, !app_length, map_length, skipn_length, app_length in H1.
    apply (f_equal (@length _)) in EB. rewrite app_length, !bytes_bits_length in EB. cbn [length] in EB. lia. }
  rewrite ES, EL. f_equal. f_equal. rewrite skipn_app. replace (length file - 4 - length file) with 0 by lia. reflexivity.
Qed.
Example C52_case : exists blocks, bunzip2_blocks two_blocks = Some blocks /\
  Forall (fun b => pb_unused b = 0 /\ plain_counts (pb_coded b) = true) blocks /\
  decode_source Wrapping (map AByte (two_blocks ++ [1; 2])) (good_sink []) =
    (Ok (map AByte (skipn 65 two_blocks ++ [1; 2])), good_sink [97; 98; 99; 100; 101; 120; 121; 122]).
Proof. eexists. split; [vm_compute; reflexivity|]. split; [repeat constructor|vm_compute; reflexivity]. Qed.

(** ** C49: the declared block size is not enforced *)

(** A file that starts [BZh1] may hold at most 100000 bytes per block before run-length
    expansion.  Whatever size one asks for there is a file of at most 60 bytes that
    declares this limit and which the decoder expands, in one block, to more than that
    size; the reference decoder rejects it. *)
Theorem C49_block_limit_refuted : forall m, 16 <= m <= 60 ->
  exists tl, bytes tl /\ length ([66; 90; 104; 49] ++ tl) <= 60 /\
    bunzip2 ([66; 90; 104; 49] ++ tl) = None /\
    forall p, decompressed p ([66; 90; 104; 49] ++ tl) (concat (repeat [97; 98] (2 ^ m))).
Proof.
  intros m Hm. destruct (@bomb m ltac:(lia)) as (tl & H1 & H2 & H3 & H4). exists tl. split; auto.
  split; [rewrite app_length; cbn [length]; lia|]. split; [|exact H4]. rewrite H3.
  replace (2 * 2 ^ N.of_nat m <=? 100000)%N with false; auto. symmetry. apply N.leb_gt.
  apply N.lt_le_trans with (2 * 2 ^ 16)%N; [reflexivity|]. apply N.mul_le_mono_l, N.pow_le_mono_r; lia.
Qed.
(** Below the limit files made in the same way are accepted by both, with the same contents:
    the size is the only reason for rejection. *)
Theorem C49_below_limit : forall m, m <= 15 ->
  exists tl, bytes tl /\ length ([66; 90; 104; 49] ++ tl) <= 60 /\
    bunzip2 ([66; 90; 104; 49] ++ tl) = Some (concat (repeat [97; 98] (2 ^ m))) /\
    forall p, decompressed p ([66; 90; 104; 49] ++ tl) (concat (repeat [97; 98] (2 ^ m))).
Proof.
  intros m Hm. destruct (@bomb m ltac:(lia)) as (tl & H1 & H2 & H3 & H4). exists tl. split; auto.
  split; [rewrite app_length; cbn [length]; lia|]. split; [|exact H4]. rewrite H3.
  replace (2 * 2 ^ N.of_nat m <=? 100000)%N with true; auto. symmetry. apply N.leb_le.
  apply N.le_trans with (2 * 2 ^ 15)%N; [|vm_compute; discriminate]. apply N.mul_le_mono_l, N.pow_le_mono_r; lia.
Qed.

Print Assumptions C51_any_reader.
Print Assumptions C51_after_failure.
Print Assumptions C52_left_at_checksum.
Print Assumptions C52_position_refuted.
Print Assumptions C50_prefix.
Print Assumptions C50_truncated.
Print Assumptions C49_block_limit_refuted.
Print Assumptions C49_below_limit.

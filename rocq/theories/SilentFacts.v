(** * Decompressing what the crate compressed, without conditions on the data *)
From Verif Require Import Base BaseFacts SpecBits SpecCrc SpecRle SpecBwt SpecBzip2 SpecStream Bitwise BitwiseFacts Rle RleFacts
  Crc32 Crc32Facts Bwt BwtFacts UnsortFacts RestoreFacts SymbolStatistics BlockEncoder BlockDecoder BlockFacts Stream StreamFacts RoundTripFacts
  EncodeFacts DecodeFacts ForeignFacts.

Lemma inverse_bwt_total col ptr : ptr < length col -> exists out, inverse_bwt col ptr = Ok out.
Proof.
  intros HP. destruct (unsort col ptr) as [l|] eqn:E; [exists l; apply unsort_inverse; auto|].
  exfalso. unfold unsort in E. rewrite (proj1 (rebuild_paths col (length col))) in E.
  apply nth_error_None in E. rewrite map_length, seq_length in E. lia.
Qed.

Lemma col_bytes l col ptr : bwt_spec l col ptr -> bytes l -> bytes col.
Proof.
  intros (i & rows & _ & _ & SP) HB. cbv zeta in SP. destruct SP as (-> & _). apply Forall_map, Forall_forall. intros x _.
  assert (bytes (rotation l i)) as HR.
  { unfold rotation. rewrite <- (firstn_skipn i l) in HB. apply Forall_app in HB as (H1 & H2). apply Forall_app; auto. }
  destruct (nth_in_or_default (prev_index (length l) x) (rotation l i) 0) as [H| ->]; [|unfold is_byte; lia].
  eapply Forall_forall; [exact HR|exact H].
Qed.

(** what the decoder makes of the block of [q] before it looks at the checksum *)
Definition read_as (q other : list nat) (b : block_parts) : Prop :=
  bytes other /\ (piece_safe q -> other = q) /\
  forall p, reads (decode_block_data p) (block_body (crc32 q) b) (other, crc32 q).

Lemma encodes_read p st q b : bytes q -> (N.of_nat (length (coded q)) <= RLE_LIMIT + 5)%N ->
  encodes p st q b -> exists other, read_as q other b.
Proof.
  intros HB HL (E & PO).
  destruct (@block_read_some (fun out => bytes out /\ (piece_safe q -> inverse_rle out = q)) (crc32 q) (coded q) b PO) as (out & (B & S) & R).
  - unfold RLE_LIMIT in HL. lia.
  - apply crc32_lt; auto.
  - intros col SP. assert (bp_ptr b < length col) as HP.
    { rewrite (bwt_length SP). destruct SP as (i & sa & SP); cbv zeta in SP; tauto. }
    destruct (inverse_bwt_total col HP) as (out & EO). exists out. split; auto. split.
    + eapply inverse_bwt_from; [exact EO|]. apply (col_bytes SP). apply coded_bytes; auto.
    + intros (HR & HS). rewrite (bwt_inverse_reversible SP HS) in EO. injection EO as <-.
      apply inverse_rle_safe; auto.
  - exists (inverse_rle out). split; [apply inverse_rle_from; auto|]. split; auto.
Qed.

Lemma decode_loop_back ps bs : Forall2 (fun q b => bytes q /\ exists other, read_as q other b) ps bs ->
  exists got st, comes_back ps got st /\ forall p fuel r out rest,
  rbits r = concat (map (fun x => block_bits (crc32 (fst x)) (snd x)) (combine ps bs)) ++ bytes_bits footer_magic ++ rest ->
  length ps < fuel ->
  exists e, decode_loop fuel p r (mk_writer [] out) = (e, mk_writer [] (out ++ got)) /\ status e = st.
Proof.
  induction 1 as [|q b ps bs (HQ & other & HB & HS & HR) HF IH].
  - exists [], (Ok tt). split; [constructor|]. intros p fuel r out rest HR HL. destruct fuel as [|fuel]; [lia|]. cbn [decode_loop].
    cbn [combine map concat app] in HR. destruct (what_next_footer _ HR) as (r' & -> & HR').
    exists (Ok r'). rewrite app_nil_r. auto.
  - destruct IH as (got & st & HC & IH).
    assert (forall p r rest, rbits r = concat (map (fun x => block_bits (crc32 (fst x)) (snd x)) (combine (q :: ps) (b :: bs))) ++ rest ->
      exists r1 r2, what_next r = Ok (BlockHeader, r1) /\ decode_block_data p r1 = Ok (other, crc32 q, r2) /\
        rbits r2 = concat (map (fun x => block_bits (crc32 (fst x)) (snd x)) (combine ps bs)) ++ rest) as HD.
    { intros p r rest E. cbn [combine map concat fst snd] in E. rewrite block_bits_body, <- !app_assoc in E.
      destruct (what_next_block _ E) as (r1 & E1 & HR1). destruct (HR p r1 _ HR1) as (r2 & E2 & HR2). exists r1, r2. auto. }
    destruct (crc32 other =? crc32 q)%N eqn:EC.
    + exists (other ++ got), st. split.
      * apply N.eqb_eq in EC. destruct (list_eq_dec Nat.eq_dec other q) as [->|NE]; [constructor; auto|].
        apply back_other; auto. rewrite <- !crc32_correct by auto. auto.
      * intros p fuel r out rest E HL. destruct fuel as [|fuel]; [lia|]. cbn [decode_loop].
        destruct (HD p r _ E) as (r1 & r2 & -> & ED & E2). unfold decode_block. rewrite ED, EC. cbn [w_write w_script w_out].
        destruct (IH p fuel r2 (out ++ other) rest E2) as (e & -> & Es); [cbn [length] in HL; lia|].
        exists e. rewrite app_assoc. auto.
    + exists [], Err. split.
      * apply back_error. intros HP. rewrite (HS HP), N.eqb_refl in EC. discriminate.
      * intros p fuel r out rest E HL. destruct fuel as [|fuel]; [lia|]. cbn [decode_loop].
        destruct (HD p r _ E) as (r1 & r2 & -> & ED & E2). unfold decode_block. rewrite ED, EC. exists Err. rewrite app_nil_r. auto.
Qed.

Theorem made_comes_back st data ps bs out k : bytes data -> cuts data ps -> Forall2 (encodes Wrapping st) ps bs ->
  bytes_bits out = stream_bits ps bs ++ repeat false k ->
  exists got s, comes_back ps got s /\ forall p, decode_stream p out (good_sink []) = (s, good_sink got).
Proof.
  intros HB HC H2 E. destruct (cuts_pieces HC) as (EC & HN & HL).
  assert (Forall bytes ps) as HBP by (apply Forall_concat; rewrite EC; auto).
  destruct (@decode_loop_back ps bs) as (got & s & HG & HD).
  { clear - H2 HBP HL. induction H2 as [|q b ps bs HQ H2 IH]; [constructor|].
    inversion HBP; inversion HL; subst. constructor; auto. split; auto. eapply encodes_read; eauto. }
  exists got, s. split; auto. intros p. unfold decode_stream, decode_source, read_file_header. fold (br_from_reader out).
  pose proof (rbits_from_reader out) as HR. rewrite E in HR. unfold stream_bits in HR. rewrite <- !app_assoc in HR.
  destruct (@reads_bytes [66; 90; 104; 57] ltac:(repeat constructor) _ _ HR) as (r1 & E1 & HR1).
  change (length [66; 90; 104; 57]) with 4 in E1. rewrite E1. cbn [bind].
  change (nats_eqb (firstn 3 [66; 90; 104; 57]) [66; 90; 104]) with true. cbn iota.
  destruct (HD p (S (bits_left r1)) r1 [] _ HR1) as (e & EL & Es).
  { rewrite bits_left_rbits, HR1, app_length. pose proof (Forall2_len H2) as L2. pose proof (blocks_length _ _ L2). lia. }
  unfold good_sink. rewrite EL. subst s. destruct e; reflexivity.
Qed.

(** a stream of one block that the decoder reads as [other] *)
Lemma one_block_reads q b out k other : bytes_bits out = stream_bits [q] [b] ++ repeat false k ->
  (forall p, reads (decode_block_data p) (block_body (crc32 q) b) (other, crc32 q)) ->
  forall p, decode_stream p out (good_sink []) = if (crc32 other =? crc32 q)%N then (Ok tt, good_sink other) else (Err, good_sink []).
Proof.
  intros E HD p. unfold decode_stream, decode_source, read_file_header. fold (br_from_reader out).
  pose proof (rbits_from_reader out) as HR. rewrite E in HR. unfold stream_bits in HR. rewrite <- !app_assoc in HR.
  destruct (@reads_bytes [66; 90; 104; 57] ltac:(repeat constructor) _ _ HR) as (r1 & E1 & HR1).
  change (length [66; 90; 104; 57]) with 4 in E1. rewrite E1. cbn [bind].
  change (nats_eqb (firstn 3 [66; 90; 104; 57]) [66; 90; 104]) with true. cbn iota.
  cbn [combine map concat fst snd] in HR1. rewrite app_nil_r, block_bits_body, <- !app_assoc in HR1.
  destruct (what_next_block _ HR1) as (r2 & E2 & HR2). destruct (HD p r2 _ HR2) as (r3 & E3 & HR3).
  destruct (what_next_footer _ HR3) as (r4 & E4 & HR4).
  assert (exists n, bits_left r1 = S n) as (n & EN).
  { rewrite bits_left_rbits, HR1, app_length, bytes_bits_length. cbn [block_magic length]. eexists. reflexivity. }
  rewrite EN. cbn [decode_loop]. rewrite E2. unfold decode_block. rewrite E3.
  destruct (crc32 other =? crc32 q)%N; [|reflexivity]. cbn [w_write good_sink w_script w_out app]. rewrite E4. reflexivity.
Qed.
(** what a block sorted like its rotations is read as *)
Lemma safe_reads p st q b : bytes q -> (N.of_nat (length (coded q)) <= RLE_LIMIT + 5)%N -> encodes p st q b -> reversible (coded q) ->
  forall p, reads (decode_block_data p) (block_body (crc32 q) b) (inverse_rle (coded q), crc32 q).
Proof.
  intros HB HL (E & PO) HS p'. apply block_read with (data := coded q); auto.
  - unfold RLE_LIMIT in HL. lia.
  - apply crc32_lt; auto.
  - intros col SP. apply bwt_inverse_reversible; auto.
Qed.

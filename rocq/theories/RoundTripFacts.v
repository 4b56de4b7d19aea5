(** * The whole stream: what is written and how the decoder reads it back *)
From Verif Require Import Base BaseFacts Bitwise BitwiseFacts SpecBits SpecCrc SpecRle Rle RleFacts Crc32 Crc32Facts
  SpecBwt Bwt BwtFacts UnsortFacts RestoreFacts SymbolStatistics BlockEncoder BlockDecoder BlockFacts Stream StreamFacts.

(** the block written for piece [q] *)
Definition encodes (p : profile) (st : strategy) (q : list nat) (b : block_parts) : Prop :=
  generate_block_data p (crc32 q) (coded q) st = Ok (block_bits (crc32 q) b, crc32 q) /\
  parts_ok (coded q) b.

Definition enc_ok (e : enc_state) : Prop := bw_ok (en_bw e) /\ bytes (w_out (bw_sink (en_bw e))).

Lemma write_or_panic_ok bits e : enc_ok e -> exists e', write_or_panic bits e = (Ok tt, e') /\ enc_ok e' /\
  wbits (en_bw e') = wbits (en_bw e) ++ bits /\ en_crc e' = en_crc e.
Proof.
  intros (H1 & H2). unfold write_or_panic.
  destruct (@write_bits_ok (en_bw e) bits H1 H2) as (bw' & -> & A & B & C).
  eexists; split; [reflexivity|]. split; [split; auto|]. auto.
Qed.

Definition total_crc (crcs : list N) (init : N) : N := fold_left (fun t c => update_total_crc c t) crcs init.

Lemma flush_ok p st ps bs : Forall2 (encodes p st) ps bs -> forall e, enc_ok e ->
  exists e', flush_round p st (map piece_work ps) e = (Ok tt, e') /\ enc_ok e' /\
    wbits (en_bw e') = wbits (en_bw e) ++ concat (map (fun x => block_bits (crc32 (fst x)) (snd x)) (combine ps bs)) /\
    en_crc e' = total_crc (map crc32 ps) (en_crc e).
Proof.
  induction 1 as [|q b ps bs (HE & _) HF IH]; intros e He.
  - exists e. cbn. rewrite app_nil_r. auto.
  - cbn [map flush_round]. unfold piece_work at 1. rewrite HE.
    destruct (write_or_panic_ok (block_bits (crc32 q) b) He) as (e1 & -> & H1 & B1 & C1).
    destruct (IH (mk_enc (en_bw e1) (update_total_crc (crc32 q) (en_crc e1)))) as (e2 & E2 & H2 & B2 & C2).
    { exact H1. }
    exists e2. split; auto. split; auto. cbn [en_bw en_crc] in *. split.
    + rewrite B2, B1. cbn [combine map concat fst snd]. rewrite app_assoc. auto.
    + rewrite C2, C1. reflexivity.
Qed.

Lemma file_header_bits : file_header = bytes_bits [66; 90; 104; 57].
Proof. unfold file_header. apply pad_bytes_bits. repeat constructor. Qed.

Lemma footer_bits crc : (crc < 4294967296)%N ->
  stream_footer crc = bytes_bits footer_magic ++ pad crc 32.
Proof.
  intros H. unfold stream_footer. rewrite pad_bytes_bits by (repeat constructor).
  f_equal. rewrite <- crc_bits by auto. reflexivity.
Qed.

Lemma total_crc_lt crcs : Forall (fun c => c < M32)%N crcs -> forall t, (t < M32)%N -> (total_crc crcs t < M32)%N.
Proof.
  induction 1 as [|c crcs Hc HF IH]; intros t Ht; cbn; auto. apply IH. apply update_total_lt; auto.
Qed.
Lemma total_crc_combined crcs : Forall (fun c => c < M32)%N crcs -> forall t, (t < M32)%N ->
  total_crc crcs t = fold_left (fun total crc => N.lxor crc (rotate_left_1 total)) crcs t.
Proof.
  induction 1 as [|c crcs Hc HF IH]; intros t Ht; cbn [total_crc fold_left]; auto.
  fold (total_crc crcs (update_total_crc c t)). rewrite IH by (apply update_total_lt; auto).
  rewrite update_total_rotate by auto. reflexivity.
Qed.

(** ** the bits of the whole stream *)
Definition stream_bits (ps : list (list nat)) (bs : list block_parts) : list bool :=
  bytes_bits [66; 90; 104; 57]
  ++ concat (map (fun x => block_bits (crc32 (fst x)) (snd x)) (combine ps bs))
  ++ bytes_bits footer_magic ++ pad (combined_crc (map crc32 ps)) 32.

Theorem seq_encode_ok p st ps bs : Forall2 (encodes p st) ps bs -> Forall bytes ps ->
  exists w k, seq_encode p st ps (mk_writer [] []) = (Ok tt, w) /\ k < 8 /\ bytes (w_out w) /\
    bytes_bits (w_out w) = stream_bits ps bs ++ repeat false k.
Proof.
  intros HF HB. unfold seq_encode.
  assert (enc_ok (mk_enc (bw_from_writer (mk_writer [] [])) 0)) as H0.
  { repeat split; cbn [en_bw bw_from_writer bw_pending length bw_sink w_out]; try lia; constructor. }
  destruct (write_or_panic_ok file_header H0) as (e1 & -> & H1 & B1 & C1).
  destruct (flush_ok HF H1) as (e2 & -> & H2 & B2 & C2).
  assert (Forall (fun c => c < M32)%N (map crc32 ps)) as HC.
  { rewrite Forall_map. eapply Forall_impl; [|exact HB]. intros q Hq. apply crc32_lt; auto. }
  cbn [en_crc] in C1. rewrite C1 in C2.
  assert (en_crc e2 = combined_crc (map crc32 ps)) as EC.
  { rewrite C2. unfold combined_crc. apply total_crc_combined; auto. reflexivity. }
  assert (en_crc e2 < M32)%N as HL by (rewrite C2; apply total_crc_lt; auto; reflexivity).
  destruct (write_or_panic_ok (stream_footer (en_crc e2)) H2) as (e3 & -> & (H3 & H3') & B3 & C3).
  destruct (@finalize_ok (en_bw e3) H3 H3') as (bw & k & -> & Hk & BK & HK).
  exists (bw_sink bw), k. split; [reflexivity|]. split; auto. split; auto.
  rewrite BK. f_equal. rewrite B3, B2, B1. rewrite footer_bits by exact HL.
  unfold wbits at 1. cbn [en_bw bw_from_writer bw_sink w_out bw_pending app]. cbn [bytes_bits flat_map app].
  unfold stream_bits. rewrite file_header_bits, EC, <- !app_assoc. reflexivity.
Qed.

(** ** decoding *)
Lemma nats_eqb_refl l : nats_eqb l l = true.
Proof. induction l as [|x l IH]; cbn [nats_eqb]; auto. rewrite Nat.eqb_refl. auto. Qed.

Lemma what_next_block r rest : rbits r = bytes_bits block_magic ++ rest ->
  exists r', what_next r = Ok (BlockHeader, r') /\ rbits r' = rest.
Proof.
  intros H. unfold what_next.
  destruct (@reads_bytes block_magic ltac:(repeat constructor) r rest H) as (r' & E & HR).
  change (length block_magic) with 6 in E. rewrite E. cbn [bind]. rewrite nats_eqb_refl. eauto.
Qed.
Lemma what_next_footer r rest : rbits r = bytes_bits footer_magic ++ rest ->
  exists r', what_next r = Ok (StreamFooter, r') /\ rbits r' = rest.
Proof.
  intros H. unfold what_next.
  destruct (@reads_bytes footer_magic ltac:(repeat constructor) r rest H) as (r' & E & HR).
  change (length footer_magic) with 6 in E. rewrite E. cbn [bind].
  change (nats_eqb footer_magic block_magic) with false. rewrite nats_eqb_refl. eauto.
Qed.

(** what makes a piece survive the round trip through this crate's decoder *)
Definition decodes (p : profile) (q : list nat) (b : block_parts) : Prop :=
  reads (decode_block_data p) (block_body (crc32 q) b) (q, crc32 q).

Lemma decode_block_ok p q b r rest out : decodes p q b -> rbits r = block_body (crc32 q) b ++ rest ->
  exists r', decode_block p r (mk_writer [] out) = (Ok r', mk_writer [] (out ++ q)) /\ rbits r' = rest.
Proof.
  intros HD HR. destruct (HD r rest HR) as (r' & E & HR'). unfold decode_block. rewrite E.
  rewrite N.eqb_refl. cbn [w_write w_script w_out]. eauto.
Qed.

Lemma decode_loop_ok p ps bs : Forall2 (decodes p) ps bs -> forall fuel r out rest,
  rbits r = concat (map (fun x => block_bits (crc32 (fst x)) (snd x)) (combine ps bs)) ++ bytes_bits footer_magic ++ rest ->
  length ps < fuel ->
  exists r', decode_loop fuel p r (mk_writer [] out) = (Ok r', mk_writer [] (out ++ concat ps)) /\ rbits r' = rest.
Proof.
  induction 1 as [|q b ps bs HD HF IH]; intros fuel r out rest HR HL; (destruct fuel as [|fuel]; [lia|]); cbn [decode_loop].
  - cbn [combine map concat app] in HR. destruct (what_next_footer _ HR) as (r' & -> & HR').
    cbn [concat]. rewrite app_nil_r. eauto.
  - cbn [combine map concat fst snd] in HR. rewrite block_bits_body, <- !app_assoc in HR.
    destruct (what_next_block _ HR) as (r1 & -> & HR1).
    destruct (decode_block_ok _ _ out HD HR1) as (r2 & -> & HR2).
    destruct (IH fuel r2 (out ++ q) rest HR2) as (r3 & -> & HR3); [cbn [length] in HL; lia|].
    cbn [concat]. rewrite app_assoc. eauto.
Qed.

Lemma blocks_length ps bs : length ps = length bs ->
  length ps <= length (concat (map (fun x => block_bits (crc32 (fst x)) (snd x)) (combine ps bs))).
Proof.
  revert bs; induction ps as [|q ps IH]; intros [|b bs] H; try discriminate; cbn [combine map concat length]; auto.
  cbn [length] in H. rewrite app_length. specialize (IH bs ltac:(lia)).
  unfold block_bits at 1. rewrite app_length. cbn [fst snd]. rewrite bytes_bits_length. cbn [block_magic length]. lia.
Qed.

Lemma Forall2_len {A B} (R : A -> B -> Prop) l l' : Forall2 R l l' -> length l = length l'.
Proof. induction 1; cbn [length]; auto. Qed.

Theorem decode_stream_ok p ps bs w k : Forall2 (decodes p) ps bs ->
  bytes_bits w = stream_bits ps bs ++ repeat false k ->
  decode_stream p w (mk_writer [] []) = (Ok tt, mk_writer [] (concat ps)).
Proof.
  intros HF HW. unfold decode_stream, decode_source, read_file_header. fold (br_from_reader w).
  pose proof (rbits_from_reader w) as HR. rewrite HW in HR. unfold stream_bits in HR. rewrite <- !app_assoc in HR.
  destruct (@reads_bytes [66; 90; 104; 57] ltac:(repeat constructor) _ _ HR) as (r1 & E & HR1).
  change (length [66; 90; 104; 57]) with 4 in E. rewrite E. cbn [bind].
  change (nats_eqb (firstn 3 [66; 90; 104; 57]) [66; 90; 104]) with true. cbn iota.
  destruct (@decode_loop_ok p ps bs HF (S (bits_left r1)) r1 [] _ HR1) as (r2 & -> & _); auto.
  rewrite bits_left_rbits, HR1, app_length. pose proof (Forall2_len HF) as L2.
  pose proof (blocks_length _ _ L2). lia.
Qed.

(** ** putting the two together *)
Lemma coded_nonempty q : q <> [] -> coded q <> [].
Proof.
  intros Hne E. pose proof (rle_lossless q) as H. rewrite rle_runs in H. unfold coded in E. rewrite E in H.
  cbn in H. congruence.
Qed.

Lemma single_encodes p q : bytes q -> q <> [] -> (N.of_nat (length (coded q)) <= RLE_LIMIT + 5)%N ->
  exists b, encodes p Single q b.
Proof.
  intros HB Hne HL.
  destruct (@single_block p (crc32 q) (coded q)) as (b & E & PO & _).
  - apply coded_bytes; auto.
  - apply coded_nonempty; auto.
  - unfold RLE_LIMIT in HL. lia.
  - apply crc32_lt; auto.
  - exists b. split; auto.
Qed.

Lemma encodes_decodes p p' st q b : bytes q -> (N.of_nat (length (coded q)) <= RLE_LIMIT + 5)%N ->
  encodes p st q b -> piece_safe q -> decodes p' q b.
Proof.
  intros HB HL (E & PO) (HR & HS). unfold decodes.
  rewrite <- (inverse_rle_safe _ HR) at 2. apply block_read with (data := coded q); auto.
  - unfold RLE_LIMIT in HL. lia.
  - apply crc32_lt; auto.
  - intros col SP. apply bwt_inverse_reversible; auto.
Qed.

Lemma Forall2_exists {A B} (R : A -> B -> Prop) l : Forall (fun a => exists b, R a b) l -> exists l', Forall2 R l l'.
Proof.
  induction 1 as [|a l (b & Hb) HF (l' & IH)]; [exists []; constructor|exists (b :: l'); constructor; auto].
Qed.

Lemma Forall_concat {A} (P : A -> Prop) ps : Forall P (concat ps) -> Forall (Forall P) ps.
Proof.
  induction ps as [|q ps IH]; intros H; constructor; cbn [concat] in H; apply Forall_app in H; tauto.
Qed.

Theorem encode_pieces p st data ps : bytes data -> cuts data ps ->
  Forall (fun q => exists b, encodes p st q b) ps -> forall fuel rd n,
  delivers rd data -> 1 <= n -> length data < fuel ->
  exists bs w k, Forall2 (encodes p st) ps bs /\
    encode_stream fuel p rd (mk_writer [] []) n st = (Ok tt, w) /\ k < 8 /\ bytes (w_out w) /\
    bytes_bits (w_out w) = stream_bits ps bs ++ repeat false k.
Proof.
  intros HB HC HE fuel rd n HD Hn HF. destruct (@Forall2_exists _ _ _ _ HE) as (bs & H2).
  destruct (cuts_pieces HC) as (EC & _ & _).
  assert (Forall bytes ps) as HBP by (apply Forall_concat; rewrite EC; auto).
  destruct (seq_encode_ok H2 HBP) as (w & k & E & A & B & C).
  exists bs, w, k. rewrite (@encode_stream_seq fuel p rd _ n st data ps) by auto. auto.
Qed.

Theorem round_trip_pieces p st data ps fuel rd n : bytes data -> cuts data ps ->
  Forall (fun q => exists b, encodes p st q b) ps -> Forall piece_safe ps ->
  delivers rd data -> 1 <= n -> length data < fuel ->
  exists w, encode_stream fuel p rd (mk_writer [] []) n st = (Ok tt, w) /\
    forall p', decode_stream p' (w_out w) (mk_writer [] []) = (Ok tt, mk_writer [] data).
Proof.
  intros HB HC HE HS HD Hn HF.
  destruct (@encode_pieces p st data ps HB HC HE fuel rd n HD Hn HF) as (bs & w & k & H2 & E & Hk & BW & EW).
  exists w. split; auto. intros p'. destruct (cuts_pieces HC) as (EC & _ & HL).
  assert (Forall bytes ps) as HBP by (apply Forall_concat; rewrite EC; auto).
  rewrite <- EC. eapply decode_stream_ok; [|exact EW].
  clear - H2 HBP HL HS. induction H2 as [|q b ps bs HQ H2 IH]; [constructor|].
  inversion HBP; inversion HL; inversion HS; subst. constructor; auto.
  eapply encodes_decodes; eauto.
Qed.

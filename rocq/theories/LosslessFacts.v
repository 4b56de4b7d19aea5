(** * Compressed streams determine the data *)
From Verif Require Import Base BaseFacts SpecBits SpecCrc SpecRle SpecBwt SpecBzip2 SpecStream Bitwise BitwiseFacts Rle RleFacts Mtf
  Crc32 Crc32Facts Bwt BwtFacts Zle ZleFacts SymbolStatistics Huffman CodeTable SymbolMap SymbolMapFacts Selectors SelectorsFacts CodeTableFacts GroupFacts MtfFacts HuffmanFacts BlockEncoder BlockDecoder
  BlockFacts Stream StreamFacts RoundTripFacts EncodeFacts InjectFacts.

(** [decode_block_data] without its last two steps: the sorted column and the pointer *)
Definition front (p : profile) (r : bit_reader) : res (list nat * nat * N * bit_reader) :=
  let! (crc, r) := read_number r 32 in
  let! (_, r) := read_bits r 1 in
  let! (orig_ptr, r) := read_number r 24 in
  let! (symbols, r) := unwrap (read_symbol_table r) in
  let! (num_trees, r) := read_number r 3 in
  let! (num_selectors, r) := read_number r 15 in
  let! (selectors_mtf, r) := unwrap (read_unary p r (N.to_nat num_selectors)) in
  let! selectors := inverse_mtf selectors_mtf (seq 0 (N.to_nat num_trees)) in
  let! (trees, r) := read_trees p (N.to_nat num_trees) r (length symbols + 2) in
  let! code_tables :=
    map_res (fun tree => let! t := from_weights tree in canonicalize p t) trees in
  let! (zle_input, r) := read_groups selectors code_tables r in
  let! mtf_input := decode_zle zle_input in
  let! bwt_input := inverse_mtf mtf_input symbols in
  Ok (bwt_input, N.to_nat orig_ptr, crc, r).

Lemma front_read p crc data b : parts_ok data b -> (N.of_nat (length data) <= 1000000)%N -> (crc < 4294967296)%N ->
  exists col, bwt_spec data col (bp_ptr b) /\ reads (front p) (block_body crc b) (col, bp_ptr b, crc).
Proof.
  intros (col & enc & SP & SU & IU & LU & BU & LE & FE & IE & EZ & HT & GT & LS & FS & LN & FN & IN & _ & RD)
    HL Hcrc. exists col. split; auto. unfold front, block_body.
  pose proof (bwt_length SP) as LC.
  assert (bp_ptr b < length data) as HP by (destruct SP as (i & sa & SP); cbv zeta in SP; tauto).
  pose proof (zsyms_length 0 enc) as LZ.
  pose proof (Nat.mul_div_le (length (bp_syms b)) 50 ltac:(lia)) as LS'. rewrite <- EZ in LZ.
  eapply reads_bind; [apply reads_number; [lia|exact Hcrc]|]. cbv beta.
  eapply reads_bind; [apply (@reads_bits 1 [false]); reflexivity|]. cbv beta.
  eapply reads_bind; [apply reads_number; [lia|]|].
  { change (2 ^ N.of_nat 24)%N with 16777216%N. lia. }
  eapply reads_bind; [apply reads_unwrap, reads_symbol_table; auto|]. cbv beta.
  eapply reads_bind; [apply reads_number; [lia|]|].
  { change (2 ^ N.of_nat 3)%N with 8%N. lia. }
  cbv beta. eapply reads_bind; [apply reads_number; [lia|]|].
  { change (2 ^ N.of_nat 15)%N with 32768%N. lia. }
  cbv beta. rewrite !Nat2N.id.
  eapply reads_bind.
  { apply reads_unwrap. rewrite <- LN. apply reads_unary; auto.
    intros E. rewrite E in LN. cbn [length] in LN. lia. }
  cbv beta. eapply reads_pure; [exact IN|]. cbv beta.
  eapply reads_bind; [apply reads_trees; eauto; lia|]. cbv beta.
  eapply reads_pure; [eapply rebuild_tables; eauto|]. cbv beta.
  eapply reads_last; [exact RD|]. intros r.
  rewrite EZ, zle_round_trip. 2:{ unfold two63; lia. }
  cbn [bind]. rewrite IE. reflexivity.
Qed.

Lemma coded_inj q q' : coded q = coded q' -> q = q'.
Proof.
  intros E. assert (forall l, rle1_expand (coded l) = l) as H.
  { intros l. pose proof (rle_lossless l) as X. rewrite rle_runs in X. exact X. }
  rewrite <- (H q), <- (H q'), E. reflexivity.
Qed.

Definition sized (q : list nat) : Prop := bytes q /\ (N.of_nat (length (coded q)) <= RLE_LIMIT + 5)%N.

Lemma block_det st st' q q' b b' rest rest' r : sized q -> sized q' -> encodes Wrapping st q b -> encodes Wrapping st' q' b' ->
  rbits r = block_body (crc32 q) b ++ rest -> rbits r = block_body (crc32 q') b' ++ rest' ->
  q = q' /\ exists r', rbits r' = rest /\ rbits r' = rest'.
Proof.
  intros (HB & HL) (HB' & HL') (_ & PO) (_ & PO') HR HR'. unfold RLE_LIMIT in *.
  destruct (@front_read Wrapping (crc32 q) (coded q) b PO) as (c & SP & R); [lia|apply crc32_lt; auto|].
  destruct (@front_read Wrapping (crc32 q') (coded q') b' PO') as (c' & SP' & R'); [lia|apply crc32_lt; auto|].
  destruct (R r rest HR) as (r1 & E1 & H1). destruct (R' r rest' HR') as (r2 & E2 & H2).
  rewrite E1 in E2. injection E2 as -> EP _ ->. rewrite EP in SP. split; [|eauto].
  apply coded_inj. eapply bwt_injective; eauto.
Qed.

Lemma blocks_det st st' ps : forall ps' bs bs' rest rest' r, Forall sized ps -> Forall sized ps' ->
  Forall2 (encodes Wrapping st) ps bs -> Forall2 (encodes Wrapping st') ps' bs' ->
  rbits r = concat (map (fun x => block_bits (crc32 (fst x)) (snd x)) (combine ps bs)) ++ bytes_bits footer_magic ++ rest ->
  rbits r = concat (map (fun x => block_bits (crc32 (fst x)) (snd x)) (combine ps' bs')) ++ bytes_bits footer_magic ++ rest' -> ps = ps'.
Proof.
  induction ps as [|q ps IH]; intros ps' bs bs' rest rest' r HZ HZ' H H' E E'.
  - inversion H; subst. destruct H' as [|q' b' ps' bs' Hb H']; auto. exfalso. cbn [combine map concat fst snd app] in E, E'.
    rewrite block_bits_body, <- !app_assoc in E'.
    destruct (what_next_footer _ E) as (r1 & E1 & _). destruct (what_next_block _ E') as (r2 & E2 & _). congruence.
  - inversion H as [|? b ? bs0 Hb H0]; subst. cbn [combine map concat fst snd app] in E.
    rewrite block_bits_body, <- !app_assoc in E. destruct (what_next_block _ E) as (r1 & E1 & HR1).
    destruct H' as [|q' b' ps' bs' Hb' H']; cbn [combine map concat fst snd app] in E'.
    + destruct (what_next_footer _ E') as (r2 & E2 & _). congruence.
    + rewrite block_bits_body, <- !app_assoc in E'. destruct (what_next_block _ E') as (r2 & E2 & HR2).
      rewrite E1 in E2. injection E2 as <-.
      apply Forall_cons_iff in HZ as (Z1 & Z2). apply Forall_cons_iff in HZ' as (Z1' & Z2').
      destruct (@block_det st st' q q' b b' _ _ r1 Z1 Z1' Hb Hb' HR1 HR2) as (<- & r3 & HR3 & HR3'). f_equal. eapply IH; eauto.
Qed.

Lemma stream_det st st' ps ps' bs bs' k k' out : Forall sized ps -> Forall sized ps' ->
  Forall2 (encodes Wrapping st) ps bs -> Forall2 (encodes Wrapping st') ps' bs' ->
  bytes_bits out = stream_bits ps bs ++ repeat false k -> bytes_bits out = stream_bits ps' bs' ++ repeat false k' -> ps = ps'.
Proof.
  intros HZ HZ' H H' E E'. pose proof (rbits_from_reader out) as HR. pose proof HR as HR'. rewrite E in HR. rewrite E' in HR'.
  unfold stream_bits in HR, HR'. rewrite <- !app_assoc in HR, HR'.
  destruct (@reads_bytes [66; 90; 104; 57] ltac:(repeat constructor) _ _ HR) as (r1 & E1 & HR1).
  destruct (@reads_bytes [66; 90; 104; 57] ltac:(repeat constructor) _ _ HR') as (r2 & E2 & HR2).
  rewrite E1 in E2. injection E2 as <-.
  eapply blocks_det; [exact HZ|exact HZ'|exact H|exact H'|exact HR1|exact HR2].
Qed.

(** * The reference decoder on blocks with spare selectors

    It stops at the end of block, so selectors left over do not disturb it. *)
From Coq Require Import Sorted.
From Verif Require Import Base BaseFacts Bitwise BitwiseFacts SpecBits SpecCrc SpecRle SpecStream Rle RleFacts Crc32 Crc32Facts
  SpecBwt Bwt BwtFacts UnsortFacts RestoreFacts Mtf MtfFacts Zle ZleFacts KMeans SymbolStatistics PackageMerge PackageMergeFacts Huffman HuffmanFacts
  CodeTable CodeTableFacts SymbolMap SymbolMapFacts Selectors SelectorsFacts GroupFacts BlockEncoder BlockDecoder BlockFacts Stream StreamFacts
  SpecBzip2 RoundTripFacts ReferenceFacts EncodeFacts SinkFacts DecodeFacts LosslessFacts SpareFacts UntilFacts.

Lemma get_symbols_spare extra sel tables eob : forall bs ss u r, get_symbols sel tables eob bs = Some (ss, u, r) ->
  get_symbols (sel ++ extra) tables eob bs = Some (ss, u + length extra, r).
Proof.
  induction sel as [|s sel IH]; intros bs ss u r E; cbn [get_symbols app] in *; [discriminate|].
  destruct (nth_error tables s) as [ls|]; [|discriminate].
  destruct (get_group 50 ls eob bs) as [[[g ended] bs']|]; [|discriminate]. destruct ended.
  - injection E as <- <- <-. rewrite app_length. reflexivity.
  - destruct (get_symbols sel tables eob bs') as [[[g' u'] bs'']|] eqn:E'; [|discriminate]. rewrite (IH _ _ _ _ E').
    injection E as <- <- <-. reflexivity.
Qed.

(** as [block_spec] in ReferenceFacts.v *)
Theorem block_spare level q b rest : bytes q -> parts_spare (coded q) b -> reversible (coded q) ->
  (N.of_nat (length (coded q)) <= 1000000)%N -> (N.of_nat (length (coded q)) <= 100000 * level)%N ->
  2 <= length (bp_tables b) <= 6 ->
  exists unused, get_block level (block_body (crc32 q) b ++ rest) = Some (mk_parsed q (crc32 q) (coded q) unused, rest).
Proof.
  intros HB (col & enc & sel & extra & SP & SU & IU & LU & BU & LE & FE & IE & EZ & HT & GT & ES & LS & L15 & FS & LN & FN & IN & ED)
    HS HL HL' HT6.
  pose proof (bwt_length SP) as LC.
  assert (bp_ptr b < length (coded q)) as HP by (destruct SP as (i & sa & SP'); cbv zeta in SP'; tauto).
  pose proof (crc32_lt HB) as HC.
  assert (1 <= length (bp_sel b)) as LB by (rewrite ES, app_length; lia).
  assert (Forall (sym_below (length (bp_used b))) (bp_syms b)) as FB by (rewrite EZ; apply zsyms_below; auto).
  exists (length extra).
  unfold get_block, block_body. rewrite <- !app_assoc.
  rewrite gets_number; [|lia|exact HC].
  change ([false] ++ ?x) with (pad 0 1 ++ x). rewrite gets_number; [|lia|reflexivity]. cbn [guard N.eqb].
  rewrite gets_number; [|lia|change (2 ^ N.of_nat 24)%N with 16777216%N; lia].
  rewrite gets_used by auto.
  replace (1 <=? length (bp_used b)) with true by (symmetry; apply Nat.leb_le; lia). cbn [guard].
  rewrite gets_number; [|lia|change (2 ^ N.of_nat 3)%N with 8%N; lia].
  replace ((2 <=? N.of_nat (length (bp_tables b))) && (N.of_nat (length (bp_tables b)) <=? 6))%N with true.
  2:{ symmetry. apply andb_true_iff. split; apply N.leb_le; lia. }
  cbn [guard].
  rewrite gets_number; [|lia|change (2 ^ N.of_nat 15)%N with 32768%N; lia].
  replace (1 <=? N.of_nat (length (bp_sel b)))%N with true by (symmetry; apply N.leb_le; lia). cbn [guard].
  rewrite !Nat2N.id. rewrite <- LN. rewrite gets_unaries.
  rewrite (@unmove_inverse _ _ (bp_sel b)); auto using seq_NoDup.
  rewrite (@gets_tables (length (bp_used b))) by (auto; lia).
  replace (forallb prefix_lengths (map code_lengths (bp_tables b))) with true
    by (symmetry; eapply good_tables_prefix; exact GT). cbn [guard].
  rewrite ES.
  rewrite (@get_symbols_spare extra sel _ _ _ _ _ _ (@data_spec (length (bp_used b)) (bp_tables b) sel (bp_syms b) (bp_data b)
    (proj1 LU) GT LS FS FB ED rest)).
  rewrite EZ, unrun_zsyms. cbn [repeat app].
  rewrite (@unmove_inverse _ _ col); auto using sorted_lt_NoDup.
  rewrite LC. replace (_ <=? _)%N with true by (symmetry; apply N.leb_le; lia). cbn [guard].
  rewrite (unsort_reversible SP HS). cbv zeta.
  assert (rle1_expand (coded q) = q) as ->.
  { pose proof (rle_lossless q) as H. rewrite rle_runs in H. exact H. }
  rewrite <- crc32_correct, N.eqb_refl by auto. reflexivity.
Qed.

Definition readable_spare (level : N) (q : list nat) (b : block_parts) : Prop :=
  forall rest, exists unused, get_block level (block_body (crc32 q) b ++ rest) = Some (mk_parsed q (crc32 q) (coded q) unused, rest).

Lemma get_blocks_spare level ps bs : Forall2 (readable_spare level) ps bs -> forall fuel crcs rest total,
  combined_crc (crcs ++ map crc32 ps) = total -> (total < M32)%N -> length ps < fuel ->
  exists pl, map pb_contents pl = ps /\
  get_blocks fuel level crcs (concat (map (fun x => block_bits (crc32 (fst x)) (snd x)) (combine ps bs))
     ++ bytes_bits footer_magic ++ pad total 32 ++ rest) = Some (pl, rest).
Proof.
  induction 1 as [|q b ps bs HR HF IH]; intros fuel crcs rest total HT HM HL;
    (destruct fuel as [|fuel]; [lia|]); cbn [get_blocks combine map concat app fst snd].
  - exists []. split; auto. rewrite footer_magic_bits, gets_number by (auto; try lia; reflexivity).
    change (FOOTER_MAGIC =? BLOCK_MAGIC)%N with false. rewrite N.eqb_refl.
    rewrite gets_number; [|lia|exact HM]. cbn [map] in HT. rewrite app_nil_r in HT. rewrite HT, N.eqb_refl. reflexivity.
  - rewrite block_bits_body, <- !app_assoc. rewrite magic_bits, gets_number by (auto; try lia; reflexivity).
    rewrite N.eqb_refl.
    edestruct HR as (unused & ->). cbn [pb_crc].
    destruct (IH fuel (crcs ++ [crc32 q]) rest total) as (pl & EM & EG); auto.
    + rewrite <- app_assoc. exact HT.
    + cbn [length] in HL. lia.
    + rewrite EG. exists (mk_parsed q (crc32 q) (coded q) unused :: pl). split; [cbn [map pb_contents]; congruence|reflexivity].
Qed.

Theorem stream_spare ps bs w k : Forall2 (readable_spare 9) ps bs -> Forall bytes ps -> bytes w -> k < 8 ->
  bytes_bits w = stream_bits ps bs ++ repeat false k -> bunzip2 w = Some (concat ps).
Proof.
  intros HF HB HW Hk E. unfold stream_bits in E. rewrite <- app_assoc in E.
  assert (bytes [66; 90; 104; 57]) as H9 by (unfold bytes; repeat (apply Forall_cons; [unfold is_byte; lia|]); apply Forall_nil).
  destruct (bytes_prefix _ H9 HW E) as (tl & -> & Et).
  unfold bunzip2. cbn [app bunzip2_blocks]. change ((49 <=? 57) && (57 <=? 57)) with true. cbn [guard].
  rewrite bits_of_bytes, Et. rewrite <- !app_assoc. cbv zeta.
  change (N.of_nat (57 - 48)) with 9%N.
  edestruct (get_blocks_spare HF) as (pl & EM & EG).
  4:{ erewrite EG. rewrite repeat_length. replace (k <? 8) with true by (symmetry; apply Nat.ltb_lt; auto).
      cbn [guard]. unfold contents_of. rewrite EM. reflexivity. }
  - reflexivity.
  - cbn [app]. assert (Forall (fun c => c < M32)%N (map crc32 ps)) as HC.
    { rewrite Forall_map. eapply Forall_impl; [|exact HB]. intros; apply crc32_lt; auto. }
    unfold combined_crc. rewrite <- total_crc_combined; auto; [|reflexivity]. apply total_crc_lt; auto. reflexivity.
  - rewrite app_length. pose proof (Forall2_len HF) as L2. pose proof (blocks_length _ _ L2). lia.
Qed.

(** as [encodes_tables] in EncodeFacts.v *)
Lemma kept_tables st q b : bytes q -> q <> [] -> (N.of_nat (length (coded q)) <= RLE_LIMIT + 5)%N ->
  table_count st < 8 -> kept st q b -> length (bp_tables b) = table_count st.
Proof.
  intros HB Hne HL Hk (HQ & PO). unfold RLE_LIMIT in HL. pose proof (crc32_lt HB) as HCR.
  assert (N.of_nat (length (coded q)) <= 1000000)%N as HL' by lia.
  destruct (@block_announces Wrapping (crc32 q) (coded q) st _ _ (coded_bytes HB) (coded_nonempty Hne) HL' HCR Hk HQ)
    as (rest & ER & EA).
  rewrite block_bits_body in ER. apply app_inv_head in ER.
  assert (announced_tables (block_body (crc32 q) b ++ []) = Some (N.of_nat (length (bp_tables b)))) as EB.
  { destruct PO as (col & enc & sel & extra & SP & SU & IU & LU & BU & LE & FE & IE & EZ & HT & _).
    assert (bp_ptr b < length (coded q)) as HP by (destruct SP as (i & sa & SP'); cbv zeta in SP'; tauto).
    unfold announced_tables, block_body. rewrite <- !app_assoc.
    rewrite gets_number; [|lia|exact HCR].
    change ([false] ++ ?x) with (pad 0 1 ++ x). rewrite gets_number; [|lia|reflexivity].
    rewrite gets_number; [|lia|change (2 ^ N.of_nat 24)%N with 16777216%N; lia].
    rewrite gets_used by auto. rewrite gets_number; [|lia|change (2 ^ N.of_nat 3)%N with 8%N; lia]. reflexivity. }
  rewrite app_nil_r, ER, EA in EB. injection EB as EB. lia.
Qed.

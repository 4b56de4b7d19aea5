(** * C02 exactly: k-means inputs whose end of block completes a group of symbols

    Words used in the statements: [compressed], [decompressed], [coded], [piece_safe]
    (SpecStream); [chooses] (PropertiesStream): the symbols coded and the table chosen for
    each group of 50; [run_exact], [runs] (SpecRle), [reversible] (SpecBwt). *)
From Verif Require Import Base BaseFacts Bitwise BitwiseFacts SpecBits SpecCrc SpecRle SpecBwt SpecStream
  Rle RleFacts RunExactFacts Crc32 Crc32Facts Bwt BwtFacts Mtf MtfFacts Zle ZleFacts SymbolStatistics BlockEncoder BlockDecoder BlockFacts
  Stream StreamFacts RoundTripFacts EncodeFacts ExpandFacts SinkFacts DecodeFacts SilentFacts LosslessFacts InjectFacts SpareFacts UntilFacts PropertiesStream PropertiesOwn UnsortFacts RestoreFacts.

(** the tables chosen are exactly 0 .. m-1 for some m <= k *)
Definition tables_gap_free (k iterations : nat) (q : list nat) : Prop :=
  forall symbols selectors, chooses (BlockWise k iterations) q symbols selectors -> exists m, m <= k /\ forall t, In t selectors <-> t < m.
(** the symbols and the end of block after them fill whole groups of 50 *)
Definition whole_groups (k iterations : nat) (q : list nat) : Prop :=
  exists symbols selectors, chooses (BlockWise k iterations) q symbols selectors /\ (length symbols + 1) mod 50 = 0.

Lemma chooses_det st q s1 l1 s2 l2 : chooses st q s1 l1 -> chooses st q s2 l2 -> s1 = s2 /\ l1 = l2.
Proof.
  intros (c & p & e & u & f & A & B & C) (c' & p' & e' & u' & f' & A' & B' & C'). rewrite A in A'. injection A' as <- <-.
  rewrite B in B'. injection B' as <- <-. rewrite C in C'. injection C' as -> _ ->. auto.
Qed.
(** one table, or no iterations: no gaps *)
Lemma blockwise_choice k it q : bytes q -> q <> [] -> (N.of_nat (length (coded q)) <= RLE_LIMIT + 5)%N -> 1 <= k <= 7 ->
  exists ptr col enc used freqs sel, front_end (coded q) ptr col enc used /\
    zle_with_strategy (BlockWise k it) enc (length used) = Ok (zsyms 0 enc, (freqs, sel)) /\ chooses (BlockWise k it) q (zsyms 0 enc) sel /\
    Forall (fun s => s < k) sel /\ (it = 0 -> sel = repeat 0 (length sel)) /\ 1 <= length sel.
Proof.
  intros HB Hne HL Hk. destruct (front_end_ok (coded_bytes HB) (coded_nonempty Hne)) as (ptr & col & enc & used & FE).
  pose proof FE as (F1 & _ & F2 & _ & _ & LU & _ & LE & _ & FF & _).
  destruct (@blockwise_stats (length used) enc k it) as (freqs & sel & EZ & _ & _ & G3 & G4 & G5 & _); auto; [lia|lia|].
  exists ptr, col, enc, used, freqs, sel. split; auto. split; auto. split; [exists col, ptr, enc, used, freqs; auto|]. split; auto. split; auto. lia.
Qed.
Theorem C02_degenerate_gap_free : forall k iterations q, 1 <= k <= 7 -> k = 1 \/ iterations = 0 -> bytes q -> q <> [] ->
  (N.of_nat (length (coded q)) <= RLE_LIMIT + 5)%N -> tables_gap_free k iterations q.
Proof.
  intros k it q Hk Hor HB Hne HL syms sel HC.
  destruct (@blockwise_choice k it q HB Hne HL Hk) as (ptr & col & enc & used & freqs & sel' & _ & _ & HC' & G4 & G5 & G6).
  destruct (chooses_det HC HC') as (_ & ->).
  assert (Forall (fun s => s < 1) sel') as G7.
  { destruct Hor as [-> | ->]; auto. rewrite (G5 eq_refl). apply Forall_forall. intros x Hx. apply repeat_spec in Hx. lia. }
  exists 1. split; [lia|]. rewrite Forall_forall in G7. intros t. split; [apply G7|]. intros Ht. assert (t = 0) as -> by lia.
  destruct sel' as [|s sel']; [cbn [length] in G6; lia|]. left. specialize (G7 s (or_introl eq_refl)). lia.
Qed.

Definition written (p : profile) (st : strategy) (q : list nat) (b : block_parts) : Prop :=
  generate_block_data p (crc32 q) (coded q) st = Ok (block_bits (crc32 q) b, crc32 q).
Lemma frames_parts p st ps bodies : Forall2 (made p st) ps bodies -> forall bs, Forall2 (written p st) ps bs ->
  map framed (combine ps bodies) = map (fun x => block_bits (crc32 (fst x)) (snd x)) (combine ps bs).
Proof.
  induction 1 as [|q body ps bodies HM HF IH]; intros bs HW; [reflexivity|]. inversion HW as [|q' b ps' bs' W HW' E1 E2]; subst.
  cbn [combine map fst snd]. rewrite (IH _ HW'). f_equal. unfold made in HM. unfold written in W. congruence.
Qed.

(** Whenever the last block holds whole groups, decompression does not succeed: the decoder
    expects one more group of symbols than the encoder has written, and takes it from the
    bits behind the block. *)
Lemma whole_groups_refused k it data front q : 1 <= k <= 7 -> bytes data -> cuts data (front ++ [q]) ->
  Forall (tables_safe k it) front -> Forall piece_safe front -> tables_gap_free k it q -> whole_groups k it q ->
  forall out p, compressed p 1 (BlockWise k it) data out -> fst (decode_stream p out (good_sink [])) <> Ok tt.
Proof.
  intros Hk HB HC HT HS HG HW out p HR. destruct (cuts_pieces HC) as (EC & HN & HL).
  assert (Forall bytes (front ++ [q])) as HBP by (apply Forall_concat; rewrite EC; auto).
  pose proof (compressed_inv HC (le_n 1) HR) as ES.
  destruct (@seq_frames p (BlockWise k it) (front ++ [q]) (good_sink out) HBP ES) as (_ & bodies & kk & H2 & Hkk & _ & EB).
  cbn [good_sink w_out] in EB. apply Forall_app in HN as (HNf & HNq), HL as (HLf & HLq), HBP as (HBf & HBq).
  apply Forall_cons_iff in HNq as (HNq & _), HLq as (HLq & _), HBq as (HBq & _).
  assert (exists bs, Forall2 (written p (BlockWise k it)) front bs /\ Forall2 (decodes p) front bs) as (bs & W & D).
  { clear - HT HS HNf HLf HBf Hk. induction front as [|f front IH]; [exists []; auto|].
    apply Forall_cons_iff in HT as (T & HT), HS as (S & HS), HNf as (N & HNf), HLf as (L & HLf), HBf as (B & HBf).
    destruct IH as (bs & W & D); auto.
    destruct (@blockwise_block p (crc32 f) (coded f) k it) as (b & E & PO & _).
    - apply coded_bytes; auto.
    - apply coded_nonempty; auto.
    - unfold RLE_LIMIT in L. lia.
    - apply crc32_lt; auto.
    - lia.
    - intros ptr col enc used sel freqs FE EZ. destruct FE as (F1 & _ & F2 & _).
      destruct (T (zsyms 0 enc) sel) as (A & m & M1 & M2); [exists col, ptr, enc, used, freqs; auto|]. split; auto. exists m. auto.
    - exists (b :: bs). split; constructor; auto. apply encodes_decodes with (p := p) (st := BlockWise k it); auto. split; auto. }
  destruct (@blockwise_choice k it q HBq HNq HLq Hk) as (ptr & col & enc & used & freqs & sel & FE & EZ & CH & _).
  destruct HW as (s' & l' & CH' & HM). destruct (chooses_det CH' CH) as (-> & ->). specialize (HG _ _ CH).
  destruct (@spare_block (crc32 q) (coded q) k it ptr col enc used freqs sel FE) as (b & Wb & _ & Rb); auto.
  { unfold RLE_LIMIT in HLq. lia. }
  { apply crc32_lt; auto. }
  { lia. }
  assert (Forall2 (written p (BlockWise k it)) (front ++ [q]) (bs ++ [b])) as W' by (apply Forall2_app; [exact W|repeat constructor; apply Wb]).
  pose proof (frames_parts H2 W') as EF. unfold frame_bits in EB. rewrite EF in EB.
  assert (combine (front ++ [q]) (bs ++ [b]) = combine front bs ++ [(q, b)]) as EX.
  { pose proof (Forall2_len W) as L. clear - L. revert bs L; induction front as [|f front IH]; intros [|x bs] L; try discriminate; [reflexivity|].
    cbn [app combine]. f_equal. apply IH. cbn [length] in L. lia. }
  rewrite EX, map_app, concat_app in EB. cbn [map concat fst snd] in EB. rewrite app_nil_r, <- !app_assoc in EB.
  eapply (@spare_refused p front bs q b out); eauto. rewrite app_length, repeat_length. unfold be_bits. rewrite map_length, seq_length. lia.
Qed.
Theorem C02_whole_groups_refuted : forall k iterations data, 1 <= k <= 7 -> bytes data ->
  exists pieces, concat pieces = data /\ Forall (fun q => q <> []) pieces /\
    (forall p n out, 1 <= n -> compressed p n (BlockWise k iterations) data out -> blocks_are p (BlockWise k iterations) pieces out) /\
    forall front last, pieces = front ++ [last] -> Forall (tables_safe k iterations) front -> Forall piece_safe front ->
      tables_gap_free k iterations last -> whole_groups k iterations last ->
      exists out, (forall p n, 1 <= n -> compressed p n (BlockWise k iterations) data out) /\
        forall p, fst (decode_stream p out (good_sink [])) <> Ok tt.
Proof.
  intros k it data Hk HB. destruct (cuts_exists data) as (ps & HC). destruct (cuts_pieces HC) as (EC & HN & HL).
  exists ps. split; auto. split; auto. split; [intros p n out Hn; apply compressed_blocks; auto|]. intros front q -> HT HS HG HW.
  assert (1 <= table_count (BlockWise k it)) as Htc by (cbn [table_count]; lia).
  destruct (@stream_runs (BlockWise k it) data HB Htc) as (out & HO & HR). exists out. split; auto. intros p.
  apply (whole_groups_refused Hk HB HC HT HS HG HW (HR p 1 (le_n 1))).
Qed.

(** For an input of one block whose block sort is right and whose tables are chosen without
    a gap, not containing 255 bytes 251 in a row: it comes back if and only if it is
    [run_exact] and the end of block does not complete a group. *)
Theorem C02_round_trip_exact_partial : forall k iterations data, 1 <= k <= 7 -> bytes data -> (N.of_nat (length data) <= 720000)%N ->
  tables_gap_free k iterations data -> reversible (coded data) -> ~ In (251, 255) (runs data) ->
  exists out, (forall p n, 1 <= n -> compressed p n (BlockWise k iterations) data out) /\
    forall p, decompressed p out data <-> run_exact data = true /\ ~ whole_groups k iterations data.
Proof.
  intros k it data Hk HB HL HG HS HI. destruct data as [|x data].
  { destruct HS as (i & (Hi & _) & _). cbn in Hi. lia. }
  remember (x :: data) as q eqn:Eq. assert (q <> []) as Hne by (rewrite Eq; discriminate). clear Eq x data.
  assert (cuts q [q]) as HC by (apply small_cuts; auto).
  destruct (cuts_pieces HC) as (_ & _ & HLL). apply Forall_cons_iff in HLL as (HLL & _).
  destruct (@blockwise_choice k it q HB Hne HLL Hk) as (ptr & col & enc & used & freqs & sel & FE & EZ & CH & _).
  destruct (Nat.eq_dec ((length (zsyms 0 enc) + 1) mod 50) 0) as [E0|N0].
  - assert (whole_groups k it q) as HW by (exists (zsyms 0 enc), sel; auto).
    assert (1 <= table_count (BlockWise k it)) as Htc by (cbn [table_count]; lia).
    destruct (@stream_runs (BlockWise k it) q HB Htc) as (out & HO & HR). exists out. split; auto. intros p. split; [|tauto].
    intros HD. exfalso. pose proof (compressed_inv HC (le_n 1) (HR p 1 (le_n 1))) as ES.
    destruct (@seq_frames p (BlockWise k it) [q] (good_sink out) ltac:(repeat constructor; exact HB) ES) as (_ & bodies & kk & H2 & Hkk & _ & EB).
    cbn [good_sink w_out] in EB.
    destruct (@spare_block (crc32 q) (coded q) k it ptr col enc used freqs sel FE) as (b & Wb & _ & Rb); auto.
    { unfold RLE_LIMIT in HLL. lia. }
    { apply crc32_lt; auto. }
    { lia. }
    { exact (HG _ _ CH). }
    assert (Forall2 (written p (BlockWise k it)) [q] [b]) as W' by (repeat constructor; apply Wb).
    pose proof (frames_parts H2 W') as EF. unfold frame_bits in EB. rewrite EF in EB. cbn [combine map concat fst snd] in EB.
    rewrite app_nil_r, <- !app_assoc in EB.
    apply (@spare_refused p [] [] q b out (be_bits 32 (combined_crc (map crc32 [q])) ++ repeat false kk) (Forall2_nil _) (Rb p)) with (w := good_sink []).
    + exact EB.
    + rewrite app_length, repeat_length. unfold be_bits. rewrite map_length, seq_length. lia.
    + unfold decompressed in HD. rewrite HD. reflexivity.
  - assert (~ whole_groups k it q) as HW.
    { intros (s' & l' & CH' & HM). destruct (chooses_det CH' CH) as (-> & ->). auto. }
    assert (Forall (tables_safe k it) [q]) as HT.
    { constructor; [|constructor]. intros s' l' CH'. destruct (chooses_det CH' CH) as (-> & ->). split; [exact N0|exact (HG _ _ CH)]. }
    pose proof (Forall_exists_and _ _ (blockwise_encodable Hk HB HC HT)) as HE.
    destruct (@stream_made (BlockWise k it) q [q] HB HC HE) as (bs & out & kk & H2 & Hkk & HO & HR & E).
    exists out. split; auto. inversion H2 as [|q0 b l l' HEE H2' E1 E2]; subst. inversion H2'; subst.
    pose proof (@one_block_reads _ _ _ _ _ E (@safe_reads _ _ _ _ HB HLL HEE HS)) as HD. intros p. unfold decompressed. rewrite HD.
    rewrite <- (@inverse_rle_exact q) by auto. fold (coded q). split.
    + destruct (_ =? _)%N; [|discriminate]. intros H. injection H as H. auto.
    + intros (-> & _). rewrite N.eqb_refl. reflexivity.
Qed.

(** Both cases occur: with one table, 47 different bytes in order come back, 49 do not. *)
Example C02_exact_case : tables_gap_free 1 3 (seq 10 49) /\ reversible (coded (seq 10 49)) /\ ~ In (251, 255) (runs (seq 10 49)) /\
  run_exact (seq 10 49) = true /\ whole_groups 1 3 (seq 10 49) /\ ~ whole_groups 1 3 (seq 10 47).
Proof.
  split; [|split; [|split; [|split; [|split]]]].
  - apply C02_degenerate_gap_free; [lia|auto|cbn [seq]; small_bytes|discriminate|vm_compute; discriminate].
  - apply reversible_ok; [discriminate|vm_compute; reflexivity].
  - cbv. intuition discriminate.
  - reflexivity.
  - eexists; eexists. split; [|].
    + eexists; eexists; eexists; eexists; eexists. split; [vm_compute; reflexivity|]. split; [vm_compute; reflexivity|]. vm_compute. reflexivity.
    + vm_compute. reflexivity.
  - intros (s & l & (col & ptr & enc & used & freqs & E1 & E2 & E3) & E). vm_compute in E1. injection E1 as <- <-. vm_compute in E2. injection E2 as <- <-.
    vm_compute in E3. injection E3 as <- _ _. vm_compute in E. discriminate.
Qed.

(** ** C63: a k-means stream determines its data, also when the crate's decoder fails on it

    As [C63_kmeans_partial], without the condition that the end of block does not complete
    a group of symbols: what is missing is only the tables chosen with a gap. *)
Lemma kmeans_kept k it ps data : 1 <= k <= 7 -> bytes data -> cuts data ps -> Forall (tables_gap_free k it) ps ->
  exists bs, Forall2 (kept (BlockWise k it)) ps bs.
Proof.
  intros Hk HB HC HG. destruct (cuts_pieces HC) as (EC & HN & HL). assert (Forall bytes ps) as HBP by (apply Forall_concat; rewrite EC; auto).
  clear HC EC HB. induction ps as [|q ps IH]; [exists []; auto|].
  apply Forall_cons_iff in HG as (G & HG), HN as (N & HN), HL as (L & HL), HBP as (B & HBP). destruct IH as (bs & F); auto.
  destruct (@blockwise_choice k it q B N L Hk) as (ptr & col & enc & used & freqs & sel & FE & EZ & CH & _).
  assert (exists b, kept (BlockWise k it) q b) as (b & K); [|exists (b :: bs); auto].
  assert (sized q) as SZ by (split; auto).
  destruct (Nat.eq_dec ((length (zsyms 0 enc) + 1) mod 50) 0) as [E0|N0].
  - destruct (@spare_block (crc32 q) (coded q) k it ptr col enc used freqs sel FE) as (b & Wb & Pb & _); auto.
    { unfold RLE_LIMIT in L. lia. }
    { apply crc32_lt; auto. }
    { lia. }
    { exact (G _ _ CH). }
    exists b. split; auto.
  - destruct (@blockwise_block Wrapping (crc32 q) (coded q) k it) as (b & E & PO & _).
    + apply coded_bytes; auto.
    + apply coded_nonempty; auto.
    + unfold RLE_LIMIT in L. lia.
    + apply crc32_lt; auto.
    + lia.
    + intros ptr' col' enc' used' sel' freqs' FE' EZ'. destruct FE' as (F1 & _ & F2 & _).
      assert (chooses (BlockWise k it) q (zsyms 0 enc') sel') as CH' by (exists col', ptr', enc', used', freqs'; auto).
      destruct (chooses_det CH' CH) as (ES & ->). rewrite ES. split; [exact N0|exact (G _ _ CH)].
    + exists b. apply encodes_kept; auto. split; auto.
Qed.
Lemma single_kept ps data : bytes data -> cuts data ps -> exists bs, Forall2 (kept Single) ps bs.
Proof.
  intros HB HC. pose proof (cuts_sized HB HC) as HZ. pose proof (single_encodable HB HC) as HE. clear HC HB.
  induction HE as [|q ps (b & E) HE IH]; [exists []; auto|]. apply Forall_cons_iff in HZ as (Z & HZ).
  destruct IH as (bs & F); auto. exists (b :: bs). constructor; auto. apply encodes_kept; auto.
Qed.
Lemma kept_stream p n st data ps bs out : bytes data -> 1 <= n -> cuts data ps -> 1 <= table_count st -> Forall2 (kept st) ps bs ->
  compressed p n st data out -> exists t, blocks_stream ps bs t (bytes_bits out).
Proof.
  intros HB Hn HC Htc HK H. destruct (@stream_runs st data HB Htc) as (out' & _ & HR).
  assert (out' = out) as -> by (exact (compressed_unique (le_n 1) Hn HB (HR Wrapping 1 (le_n 1)) H)).
  destruct (cuts_pieces HC) as (EC & _ & _). assert (Forall bytes ps) as HBP by (apply Forall_concat; rewrite EC; auto).
  pose proof (compressed_inv HC (le_n 1) (HR Wrapping 1 (le_n 1))) as ES.
  destruct (@seq_frames Wrapping st ps (good_sink out) HBP ES) as (_ & bodies & kk & H2 & _ & _ & EB). cbn [good_sink w_out] in EB.
  assert (Forall2 (written Wrapping st) ps bs) as W by (clear - HK; induction HK as [|q b ps bs (A & _) HK IH]; constructor; auto).
  unfold frame_bits in EB. rewrite (frames_parts H2 W), <- !app_assoc in EB. eexists. exact EB.
Qed.
Theorem C63_kmeans_gap_free_partial : forall k iterations data, 1 <= k <= 7 -> bytes data ->
  exists pieces, concat pieces = data /\ Forall (fun q => q <> []) pieces /\ (Forall (tables_gap_free k iterations) pieces ->
    forall p n out, 1 <= n -> compressed p n (BlockWise k iterations) data out ->
    (forall p' n' data', bytes data' -> 1 <= n' -> compressed p' n' Single data' out -> data' = data) /\
    (forall k' iterations' data', 1 <= k' <= 7 -> bytes data' ->
      exists pieces', concat pieces' = data' /\ Forall (fun q => q <> []) pieces' /\
       (Forall (tables_gap_free k' iterations') pieces' ->
        forall p' n', 1 <= n' -> compressed p' n' (BlockWise k' iterations') data' out -> data' = data))).
Proof.
  intros k it data Hk HB. destruct (cuts_exists data) as (ps & HC). destruct (cuts_pieces HC) as (EC & HN & _).
  exists ps. split; auto. split; auto. intros HT p n out Hn H. pose proof (cuts_sized HB HC) as HZ.
  destruct (kmeans_kept Hk HB HC HT) as (bs & HK).
  destruct (kept_stream HB Hn HC (proj1 Hk : 1 <= table_count (BlockWise k it)) HK H) as (t & ES). split.
  - intros p' n' data' HB' Hn' H'. destruct (cuts_exists data') as (ps' & HC'). destruct (cuts_pieces HC') as (EC' & _ & _).
    destruct (single_kept HB' HC') as (bs' & HK').
    destruct (kept_stream HB' Hn' HC' (le_S _ _ (le_n 1) : 1 <= table_count Single) HK' H') as (t' & ES').
    rewrite <- EC, <- EC'. f_equal. eapply stream_kept with (5 := ES') (6 := ES); eauto using cuts_sized.
  - intros k' it' data' Hk' HB'. destruct (cuts_exists data') as (ps' & HC'). destruct (cuts_pieces HC') as (EC' & HN' & _).
    exists ps'. split; auto. split; auto. intros HT' p' n' Hn' H'.
    destruct (kmeans_kept Hk' HB' HC' HT') as (bs' & HK').
    destruct (kept_stream HB' Hn' HC' (proj1 Hk' : 1 <= table_count (BlockWise k' it')) HK' H') as (t' & ES').
    rewrite <- EC, <- EC'. f_equal. eapply stream_kept with (5 := ES') (6 := ES); eauto using cuts_sized.
Qed.
(** With one table no condition is left. *)
Theorem C63_one_table : forall iterations iterations' p p' n n' data data' out, bytes data -> bytes data' -> 1 <= n -> 1 <= n' ->
  compressed p n (BlockWise 1 iterations) data out -> compressed p' n' (BlockWise 1 iterations') data' out -> data = data'.
Proof.
  intros it it' p p' n n' data data' out HB HB' Hn Hn' H H'.
  assert (forall i d ps, bytes d -> cuts d ps -> Forall (tables_gap_free 1 i) ps) as G.
  { intros i d ps B C. destruct (cuts_pieces C) as (EC & HN & HL). assert (Forall bytes ps) as HBP by (apply Forall_concat; rewrite EC; auto).
    rewrite Forall_forall in *. intros q Hq. apply C02_degenerate_gap_free; [lia|auto|apply HBP|apply HN|apply HL]; auto. }
  destruct (cuts_exists data) as (ps & HC). destruct (cuts_exists data') as (ps' & HC').
  destruct (kmeans_kept (ltac:(lia) : 1 <= 1 <= 7) HB HC (G it _ _ HB HC)) as (bs & HK).
  destruct (kmeans_kept (ltac:(lia) : 1 <= 1 <= 7) HB' HC' (G it' _ _ HB' HC')) as (bs' & HK').
  destruct (kept_stream HB Hn HC (le_n 1 : 1 <= table_count (BlockWise 1 it)) HK H) as (t & ES).
  destruct (kept_stream HB' Hn' HC' (le_n 1 : 1 <= table_count (BlockWise 1 it')) HK' H') as (t' & ES').
  destruct (cuts_pieces HC) as (EC & _), (cuts_pieces HC') as (EC' & _).
  rewrite <- EC, <- EC'. f_equal. eapply stream_kept with (5 := ES) (6 := ES'); eauto using cuts_sized.
Qed.
(** Not empty: 49 different bytes do not come back, and nothing else has their stream. *)
Example C63_one_table_case : exists out, (forall p n, 1 <= n -> compressed p n (BlockWise 1 3) (seq 10 49) out) /\
  (forall p, ~ decompressed p out (seq 10 49)) /\
  forall p n iterations data, bytes data -> 1 <= n -> compressed p n (BlockWise 1 iterations) data out -> data = seq 10 49.
Proof.
  destruct C02_exact_case as (G & S & I & _ & W & _).
  assert (bytes (seq 10 49)) as HB by (cbn [seq]; small_bytes).
  destruct (@C02_round_trip_exact_partial 1 3 (seq 10 49)) as (out & HO & HD); auto; [lia|rewrite seq_length; lia|].
  exists out. split; auto. split; [intros p D; apply HD in D; tauto|].
  intros p n it data HB' Hn H. eapply C63_one_table with (3 := Hn) (4 := le_n 1) (5 := H) (6 := HO Wrapping 1 (le_n 1)); auto.
Qed.
Print Assumptions C02_whole_groups_refuted.
Print Assumptions C02_round_trip_exact_partial.
Print Assumptions C02_degenerate_gap_free.
Print Assumptions C63_kmeans_gap_free_partial.
Print Assumptions C63_one_table.

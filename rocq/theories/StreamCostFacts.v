(** * The counted stream compressor gives the same results and takes linearly many steps *)
From Verif Require Import Base BaseFacts Bitwise BitwiseFacts SpecRle Rle RleFacts Crc32 Crc32Facts Mtf MtfFacts Zle ZleFacts SymbolStatistics
  Huffman HuffmanFacts BlockEncoder BlockFacts ExpandFacts Stream StreamFacts EncodeFacts Cost BwtCost BwtCostFacts EncodeCost EncodeCostFacts SymbolMap SymbolMapFacts Selectors CodeTable RoundTripFacts.

(** ** reading *)
Definition events_size (l : list revent) : nat := list_sum (map event_size l).
Lemma events_size_cons e l : events_size (e :: l) = event_size e + events_size l.
Proof. reflexivity. Qed.
Lemma take_events_cost events : forall limit tf acc,
  fst (c_take_events limit events tf acc) = take_events limit events tf acc /\
  snd (c_take_events limit events tf acc) + events_size (snd (take_events limit events tf acc)) <= events_size events + 1 /\
  events_size (snd (take_events limit events tf acc)) <= events_size events /\
  forall buf, fst (take_events limit events tf acc) = Ok buf ->
    length buf + events_size (snd (take_events limit events tf acc)) <= length acc + events_size events.
Proof.
  induction events as [|e events IH]; intros limit tf acc; cbn [c_take_events take_events].
  - destruct (limit =? 0)%N; [|destruct tf]; cbn [fst snd]; (split; [reflexivity|split; [cbn; lia|split; [cbn; lia|intros buf [= <-]; lia]]]).
  - destruct (limit =? 0)%N; [cbn [fst snd]; split; [reflexivity|split; [lia|split; [lia|intros buf [= <-]; lia]]]|].
    destruct e as [bs| |]; rewrite ?events_size_cons; cbn [event_size].
    + destruct bs as [|b bs].
      * cbn [fst snd length]. split; [reflexivity|]. split; [lia|]. split; [lia|]. intros buf [= <-]. lia.
      * set (l := b :: bs). clearbody l. clear b bs.
        destruct (N.leb_spec (N.of_nat (length l)) limit) as [HL|HL].
        -- specialize (IH (limit - N.of_nat (length l))%N tf (acc ++ l)).
           destruct (c_take_events _ events tf (acc ++ l)) as (r, k). cbn [fst snd] in *. destruct IH as (-> & H1 & H0 & H2).
           split; [reflexivity|]. split; [lia|]. split; [lia|]. intros buf HB. apply H2 in HB. rewrite app_length in HB. lia.
        -- cbn [fst snd]. split; [reflexivity|]. rewrite events_size_cons. cbn [event_size]. rewrite firstn_length, skipn_length.
           split; [lia|]. split; [lia|]. intros buf [= <-]. rewrite app_length, firstn_length. lia.
    + cbn [fst snd]. split; [reflexivity|]. split; [lia|]. split; [lia|]. discriminate.
    + specialize (IH limit tf acc). destruct (c_take_events limit events tf acc) as (r, k). cbn [fst snd] in *.
      destruct IH as (-> & H1 & H0 & H2). split; [reflexivity|]. split; [lia|]. split; [lia|]. intros buf HB. apply H2 in HB. lia.
Qed.
Lemma take_cost limit rd :
  fst (c_take_read_to_end limit rd) = take_read_to_end limit rd /\
  snd (c_take_read_to_end limit rd) + reader_size (snd (take_read_to_end limit rd)) <= reader_size rd + 1 /\
  reader_size (snd (take_read_to_end limit rd)) <= reader_size rd /\
  forall buf, fst (take_read_to_end limit rd) = Ok buf ->
    length buf + reader_size (snd (take_read_to_end limit rd)) <= reader_size rd.
Proof.
  unfold c_take_read_to_end, take_read_to_end. destruct (take_events_cost (r_events rd) limit (r_tail_fail rd) []) as (H1 & H2 & H0 & H3).
  destruct (c_take_events limit (r_events rd) (r_tail_fail rd) []) as ((r, ev), k). cbn [fst snd] in *. rewrite <- H1 in *. cbn [fst snd] in *.
  unfold reader_size. cbn [r_events]. unfold events_size in *. split; [reflexivity|]. split; auto.
Qed.

(** ** run-length coding and checksum *)
Lemma emit_le s x : length (rle_data (rle_step s x)) <= length (rle_data s) + Nat.max 5 (rle_counter s) /\ length (rle_data s) <= length (rle_data (rle_step s x)).
Proof.
  unfold rle_step. cbv zeta. destruct (rle_last s); [|cbn [rle_data]; lia].
  destruct (_ || _); cbn [rle_data]; [|lia]. rewrite app_length. unfold rle_emit.
  destruct (5 <=? S (rle_counter s)); [rewrite app_length, repeat_length; cbn [length]; lia|rewrite repeat_length; lia].
Qed.
Lemma emit_le5 s x : length (rle_data (rle_step s x)) <= length (rle_data s) + 5 /\ length (rle_data s) <= length (rle_data (rle_step s x)).
Proof.
  unfold rle_step. cbv zeta. destruct (rle_last s); [|cbn [rle_data]; lia].
  destruct (_ || _); cbn [rle_data]; [|lia]. rewrite app_length. unfold rle_emit.
  destruct (5 <=? S (rle_counter s)) eqn:E; [rewrite app_length, repeat_length; cbn [length]; lia|].
  apply Nat.leb_gt in E. rewrite repeat_length. lia.
Qed.
Lemma rle_fold_length l : forall s, length (rle_data (fold_left rle_step l s)) <= length (rle_data s) + 5 * length l.
Proof.
  induction l as [|x l IH]; intros s; cbn [fold_left length]; [lia|]. specialize (IH (rle_step s x)). pose proof (emit_le5 s x). lia.
Qed.
Lemma w_rle l c last : within (c_rle l c last) (Ok (rle l c last)) (7 * length l).
Proof.
  unfold c_rle, rle. rewrite <- fold_res_pure. rewrite Nat.mul_comm. apply within_fold_const with (k := 6). intros s x _.
  apply within_takes. pose proof (emit_le5 s x). lia.
Qed.
Lemma rle_length l c last : length (rle_data (rle l c last)) <= 5 * length l.
Proof. unfold rle. pose proof (rle_fold_length l (mk_rle [] c last)) as H. cbn [rle_data length] in H. lia. Qed.
Lemma w_crc l : within (c_crc32 l) (Ok (crc32 l)) (3 * length l).
Proof.
  unfold c_crc32, crc32. wp (length l * 3); [|apply within_done].
  rewrite <- fold_res_pure. apply within_fold_const with (k := 2). intros. apply within_takes. lia.
Qed.

(** ** filling a block *)
Lemma fill_cost fuel : forall rd f,
  fst (c_fill_loop fuel rd f) = fill_loop fuel rd f /\
  forall f' rd', fill_loop fuel rd f = Ok (f', rd') ->
    snd (c_fill_loop fuel rd f) + 16 * reader_size rd' <= 16 * reader_size rd + 3 /\
    length (fl_buf f') + reader_size rd' <= length (fl_buf f) + reader_size rd /\
    length (fl_buf f) <= length (fl_buf f') /\
    length (fl_rle f') <= length (fl_rle f) + 5 * (length (fl_buf f') - length (fl_buf f)).
Proof.
  induction fuel as [|fuel IH]; intros rd f; cbn [c_fill_loop fill_loop].
  - destruct (_ <? _)%N; cbn [done fst snd]; (split; [reflexivity|]); [discriminate|]. intros f' rd' [= <- <-]. lia.
  - destruct (_ <? _)%N; [|cbn [done fst snd]; split; [reflexivity|]; intros f' rd' [= <- <-]; lia].
    destruct (to_take (length (fl_rle f))) as [limit| | |]; cbn [step cbind bind]; try (cbn [fst snd]; split; [reflexivity|discriminate]).
    destruct (take_cost limit rd) as (T1 & T2 & T0 & T3). destruct (c_take_read_to_end limit rd) as (got, k).
    cbn [fst snd] in T0, T1, T2, T3. subst got. destruct (take_read_to_end limit rd) as (r, rd1). cbn [fst snd] in T0, T2, T3.
    destruct r as [buf| | |].
    + specialize (T3 buf eq_refl). destruct buf as [|b0 buf0].
      * cbn [steps done fst snd]. split; [reflexivity|]. intros f' rd' [= <- <-]. cbn [fl_buf fl_rle]. lia.
      * set (buf := b0 :: buf0) in *. assert (1 <= length buf) as HB by (unfold buf; cbn [length]; lia). clearbody buf. clear b0 buf0.
        destruct (w_rle buf (fl_count f) (fl_last f)) as (R1 & R2).
        destruct (c_rle buf (fl_count f) (fl_last f)) as (res, kr). cbn [fst snd] in R1, R2. subst res. cbn [cbind]. cbv zeta.
        pose proof (rle_length buf (fl_count f) (fl_last f)) as RL. set (result := rle buf (fl_count f) (fl_last f)) in *. clearbody result.
        unfold c_append, takes. cbn [cbind]. set (f2 := mk_fill _ _ _ _ _ _).
        destruct (IH rd1 f2) as (I1 & I2). destruct (c_fill_loop fuel rd1 f2) as (out, kf). cbn [fst snd] in I1, I2 |- *.
        unfold steps. cbn [fst snd]. split; [exact I1|]. intros f' rd' E. destruct (I2 f' rd' E) as (J1 & J2 & J3 & J4).
        unfold f2 in J1, J2, J3, J4. cbn [fl_buf fl_rle] in J1, J2, J3, J4. rewrite !app_length in *. lia.
    + cbn [steps done fst snd]. split; [reflexivity|]. intros f' rd' [= <- <-]. lia.
    + cbn [steps done fst snd]. split; [reflexivity|]. intros f' rd' [= <- <-]. lia.
    + cbn [steps done fst snd]. split; [reflexivity|]. intros f' rd' [= <- <-]. lia.
Qed.
Lemma w_work f : within (c_work_of_fill f) (Ok (work_of_fill f)) (length (fl_rle f) + 5 + 3 * length (fl_buf f) + 1).
Proof.
  unfold c_work_of_fill, work_of_fill. wp (length (fl_rle f) + 5).
  { apply within_takes. unfold rle_augment. destruct (fl_last f); [|lia]. destruct (4 <=? fl_count f) eqn:E.
    - rewrite !app_length, repeat_length. cbn [length]. lia.
    - apply Nat.leb_gt in E. rewrite app_length, repeat_length. lia. }
  wp (3 * length (fl_buf f)); [apply w_crc|]. apply within_step. lia.
Qed.
Lemma round_cost n : forall rd,
  fst (c_read_round n rd) = read_round n rd /\
  forall ws fin rd', read_round n rd = Ok (ws, fin, rd') ->
    snd (c_read_round n rd) + 24 * reader_size rd' <= 24 * reader_size rd + 10 * (length ws + 1).
Proof.
  induction n as [|n IH]; intros rd; cbn [c_read_round read_round].
  - cbn [done fst snd]. split; [reflexivity|]. intros ws fin rd' [= <- <- <-]. lia.
  - unfold fill_block, c_fill_block. destruct (fill_cost (S (reader_size rd)) rd fill_init) as (F1 & F2).
    destruct (c_fill_loop (S (reader_size rd)) rd fill_init) as (r, k). cbn [fst snd] in F1, F2. subst r.
    unfold steps. cbn [fst snd].
    destruct (fill_loop (S (reader_size rd)) rd fill_init) as [(f, rd1)| | |]; cbn [cbind bind]; try (cbn [fst snd]; split; [reflexivity|discriminate]).
    destruct (F2 f rd1 eq_refl) as (J1 & J2 & _ & J4). cbn [fill_init fl_buf fl_rle length] in J2, J4.
    destruct (fl_buf f) as [|b0 buf0] eqn:EB.
    + cbn [done fst snd]. split; [reflexivity|]. intros ws fin rd' [= <- <- <-]. cbn [length] in *. lia.
    + rewrite <- EB in *. clear EB b0 buf0.
      destruct (w_work f) as (W1 & W2). destruct (c_work_of_fill f) as (w, kw). cbn [fst snd] in W1, W2. subst w. cbn [cbind].
      destruct (IH rd1) as (I1 & I2). destruct (c_read_round n rd1) as (r, kr). cbn [fst snd] in I1, I2. subst r.
      destruct (read_round n rd1) as [((ws1, fin1), rd2)| | |]; cbn [cbind bind]; try (cbn [fst snd]; split; [reflexivity|discriminate]).
      cbn [done fst snd]. split; [reflexivity|]. intros ws fin rd' [= <- <- <-]. specialize (I2 _ _ _ eq_refl). cbn [length]. lia.
Qed.

(** ** writing *)
Lemma chunks_cost n : forall pending w, length pending <= n ->
  fst (c_write_chunks pending w) = write_chunks pending w /\
  snd (c_write_chunks pending w) <= 3 * length pending /\
  forall rest, fst (write_chunks pending w) = Ok rest -> length rest <= 7.
Proof.
  induction n as [|n IH]; intros pending w HL.
  - destruct pending; [|cbn [length] in HL; lia]. cbn. split; [reflexivity|]. split; [lia|]. intros rest [= <-]. cbn. lia.
  - destruct pending as [|b0 [|b1 [|b2 [|b3 [|b4 [|b5 [|b6 [|b7 pending]]]]]]]];
      try (cbn [c_write_chunks write_chunks fst snd length]; split; [reflexivity|]; split; [lia|]; intros rest [= <-]; cbn [length]; lia).
    cbn [c_write_chunks write_chunks length] in *. destruct (w_write w _) as ([u| | |], w').
    + destruct (IH pending w' ltac:(lia)) as (H1 & H2 & H3). destruct (c_write_chunks pending w') as (r, k). cbn [fst snd] in *.
      subst r. split; [reflexivity|]. split; [lia|]. auto.
    + cbn [fst snd]. split; [reflexivity|]. split; [lia|]. discriminate.
    + cbn [fst snd]. split; [reflexivity|]. split; [lia|]. discriminate.
    + cbn [fst snd]. split; [reflexivity|]. split; [lia|]. discriminate.
Qed.
Definition few_pending (e : enc_state) : Prop := length (bw_pending (en_bw e)) <= 7.
Lemma write_cost bits e : few_pending e ->
  fst (c_write_or_panic bits e) = write_or_panic bits e /\
  snd (c_write_or_panic bits e) <= 5 * length bits + 21 /\
  (fst (write_or_panic bits e) = Ok tt -> few_pending (snd (write_or_panic bits e))).
Proof.
  intros HP. unfold few_pending in HP. unfold c_write_or_panic, write_or_panic, c_write_bits, write_bits. cbv zeta.
  destruct (@chunks_cost _ (bw_pending (en_bw e) ++ bits) (bw_sink (en_bw e)) (le_n _)) as (H1 & H2 & H3).
  destruct (c_write_chunks _ _) as (r, k). cbn [fst snd] in H1, H2. subst r. rewrite app_length in H2.
  destruct (write_chunks _ _) as ([rest| | |], w'); cbn [fst snd] in *; (split; [reflexivity|]); (split; [lia|]); try discriminate.
  intros _. unfold few_pending. cbn [en_bw bw_pending]. auto.
Qed.
Lemma write_outcome bits e : fst (write_or_panic bits e) = Ok tt \/ fst (write_or_panic bits e) = Panic.
Proof. unfold write_or_panic. destruct (write_bits (en_bw e) bits) as ([u| | |], bw); cbn; auto. Qed.

(** ** the length of a block *)
Lemma block_length p crc data st bits c : bytes data -> data <> [] -> (N.of_nat (length data) <= 1000000)%N -> (crc < 4294967296)%N ->
  1 <= table_count st -> generate_block_data p crc data st = Ok (bits, c) ->
  length bits <= 23 * length data + 931 + table_count st * (33 * 258 + 6).
Proof.
  intros HB Hne HL HC Hk HG.
  destruct (front_end_ok HB Hne) as (ptr & col & enc & used & FE).
  pose proof FE as (E & SP & EM & SU & IU & LU & BU & LE & LC & FF & IE).
  destruct (@stats_bytes st (length used) enc) as (freqs & sel & ST & BY); auto; try lia.
  pose proof ST as (EZ & SF & SL & SB & SG & SS).
  destruct (tables_ok LU SF) as (tables & ET & LT & GT). specialize (ET p).
  destruct (w_selectors BY) as (_ & HS).
  pose proof (zsyms_length 0 enc) as LZ. cbn [Nat.add] in LZ.
  assert (length sel * 50 <= length data + 101) as LSel.
  { assert ((length (zsyms 0 enc) + 1) / 50 * 50 <= length (zsyms 0 enc) + 1) by (rewrite Nat.mul_comm; apply Nat.mul_div_le; lia). lia. }
  assert (Forall (sym_below (length used)) (zsyms 0 enc)) as FB by (apply zsyms_below; auto).
  destruct (@data_any tables sel (zsyms 0 enc) (length used)) as (dbits & ED & LD); auto; [lia|rewrite LT, SL; auto|].
  assert (N.of_nat ptr < 16777216)%N as HPtr.
  { assert (ptr < length data) by (destruct SP as (i & rows & _ & _ & _ & H & _); exact H). lia. }
  unfold generate_block_data in HG. rewrite E in HG. cbn [bind] in HG. rewrite EM in HG. cbn [bind] in HG. rewrite EZ in HG. cbn [bind] in HG.
  unfold tables_of in ET. rewrite ET in HG. cbn [bind] in HG.
  apply bind_ok in HG as ((sbits & nsel) & H1 & HG). cbv beta iota zeta in HG. apply HS in H1.
  apply bind_ok in HG as (smap & H2 & HG). rewrite write_symbol_table_spec in H2 by auto.
  apply bind_ok in HG as (sfield & H3 & HG). rewrite ED in HG. cbn [bind] in HG.
  assert (length smap <= 272) as LM by (injection H2 as <-; apply map_bits_length).
  assert (length sfield <= 15) as LF.
  { unfold convert_to_code_pad_to_15_bits in H3. cbv zeta in H3. remember (low_bits (N.of_nat nsel mod 65536)) as lb.
    destruct (length lb <=? 15) eqn:E15; [|discriminate]. apply Nat.leb_le in E15.
    assert (sfield = rev (lb ++ repeat false (15 - length lb))) as -> by congruence.
    rewrite rev_length, app_length, repeat_length. clear - E15. lia. }
  rewrite (N.mod_small (N.of_nat ptr) 4294967296) in HG by lia.
  pose proof (header_length HC HPtr) as LH. remember (block_header crc (N.of_nat ptr)) as hd.
  pose proof (field_length (length tables)) as LFl. remember (convert_to_code_pad_to_n_bits (N.of_nat (length tables)) 3) as fl.
  pose proof (tables_bits_length GT LU) as LTB.
  assert ((5 + 33 * (length used + 2)) * length tables <= table_count st * (33 * 258 + 5)) as LTB2.
  { rewrite LT, SL, Nat.mul_comm. apply Nat.mul_le_mono_l. lia. }
  remember (flat_map encode_code_table tables) as trees.
  apply (f_equal (fun r => match r with Ok x => length (fst x) | _ => 0 end)) in HG. cbn [fst] in HG. rewrite <- HG. rewrite !app_length. lia.
Qed.

(** ** the pieces *)
Definition piece_cost (st : strategy) (n : nat) : nat :=
  block_cost st n + 5 * (23 * n + 931 + table_count st * (33 * 258 + 6)) + 23.
Definition pieces_cost (st : strategy) (ps : list (list nat)) : nat := list_sum (map (fun q => piece_cost st (length (coded q))) ps).
Definition small_piece (q : list nat) : Prop := bytes q /\ q <> [] /\ (N.of_nat (length (coded q)) <= 1000000)%N.
Lemma flush_cost p st ps : 1 <= table_count st -> Forall small_piece ps -> forall e, few_pending e ->
  fst (c_flush_round p st (map piece_work ps) e) = flush_round p st (map piece_work ps) e /\
  snd (c_flush_round p st (map piece_work ps) e) <= pieces_cost st ps /\
  (fst (flush_round p st (map piece_work ps) e) = Ok tt -> few_pending (snd (flush_round p st (map piece_work ps) e))).
Proof.
  intros Hk. induction 1 as [|q ps Hq HF IH]; intros e He; cbn [map c_flush_round flush_round].
  - cbn [fst snd]. split; [reflexivity|]. split; [lia|]. auto.
  - destruct Hq as (HB & Hne & HL). change (piece_work q) with (crc32 q, coded q). cbv beta iota zeta.
    pose proof (coded_bytes HB) as CB. pose proof (coded_nonempty Hne) as CN. pose proof (crc32_lt HB) as CC.
    destruct (@w_block p (crc32 q) (coded q) st CB CN HL CC Hk) as (W1 & W2).
    pose proof (fun bits c => @block_length p (crc32 q) (coded q) st bits c CB CN HL CC Hk) as BL.
    change (pieces_cost st (q :: ps)) with (piece_cost st (length (coded q)) + pieces_cost st ps). unfold piece_cost.
    destruct (c_generate_block_data p (crc32 q) (coded q) st) as (r, k). cbn [fst snd] in W1, W2. subst r.
    remember (block_cost st (length (coded q))) as BC. remember (table_count st * (33 * 258 + 6)) as TC.
    destruct (generate_block_data p (crc32 q) (coded q) st) as [(bits, bc)| | |].
    + specialize (BL bits bc eq_refl). destruct (write_cost bits He) as (X1 & X2 & X3).
      destruct (c_write_or_panic bits e) as (r, k'). cbn [fst snd] in X1, X2. subst r.
      destruct (write_or_panic bits e) as ([u| | |], e'); cbn [fst snd] in *.
      * destruct u. specialize (X3 eq_refl). set (e2 := mk_enc _ _).
        assert (few_pending e2) as H2 by exact X3. destruct (IH e2 H2) as (I1 & I2 & I3).
        destruct (c_flush_round p st (map piece_work ps) e2) as (r, k''). cbn [fst snd] in *. subst r.
        split; [reflexivity|]. split; [lia|exact I3].
      * split; [reflexivity|]. split; [lia|]. discriminate.
      * split; [reflexivity|]. split; [lia|]. discriminate.
      * split; [reflexivity|]. split; [lia|]. discriminate.
    + cbn [fst snd]. split; [reflexivity|]. split; [lia|]. discriminate.
    + cbn [fst snd]. split; [reflexivity|]. split; [lia|]. discriminate.
    + cbn [fst snd]. split; [reflexivity|]. split; [lia|]. discriminate.
Qed.
Lemma pieces_cost_app st a b : pieces_cost st (a ++ b) = pieces_cost st a + pieces_cost st b.
Proof. unfold pieces_cost. rewrite map_app, list_sum_app. reflexivity. Qed.

Lemma rounds_cost p st n : 1 <= n -> 1 <= table_count st -> forall fuel rd data ps e, delivers rd data -> cuts data ps ->
  Forall small_piece ps -> length ps < fuel -> few_pending e ->
  fst (c_encode_rounds fuel p n st rd e) = encode_rounds fuel p n st rd e /\
  snd (c_encode_rounds fuel p n st rd e) <= pieces_cost st ps + 24 * reader_size rd + 22 * length ps + 11 + n /\
  (fst (encode_rounds fuel p n st rd e) = Ok tt -> few_pending (snd (encode_rounds fuel p n st rd e))).
Proof.
  intros Hn Hk. induction fuel as [|fuel IH]; intros rd data ps e HD HC HF HL He; [lia|]. cbn [c_encode_rounds encode_rounds].
  destruct (round_cost n rd) as (R1 & R2).
  destruct (read_round_cuts n HD HC) as (fin & rd' & ps1 & ps2 & rest & ER & -> & D1 & D2 & D3 & D4).
  destruct (c_read_round n rd) as (r, k). cbn [fst snd] in R1, R2. rewrite ER in *. subst r. specialize (R2 _ _ _ eq_refl).
  rewrite map_length in R2. rewrite pieces_cost_app, app_length in *. apply Forall_app in HF as (HF1 & HF2).
  destruct (@flush_cost p st ps1 Hk HF1 e He) as (F1 & F2 & F3).
  destruct (c_flush_round p st (map piece_work ps1) e) as (r, k'). cbn [fst snd] in F1, F2. subst r.
  destruct (flush_round p st (map piece_work ps1) e) as ([u| | |], e'); cbn [fst snd] in F3 |- *.
  - destruct u. specialize (F3 eq_refl). destruct fin.
    + cbn [fst snd]. split; [reflexivity|]. split; [lia|]. auto.
    + specialize (D4 eq_refl). destruct (IH rd' rest ps2 e' D1 D2 HF2 ltac:(lia) F3) as (I1 & I2 & I3).
      destruct (c_encode_rounds fuel p n st rd' e') as (r, k''). cbn [fst snd] in *. subst r.
      split; [reflexivity|]. split; [lia|]. auto.
  - split; [reflexivity|]. split; [|discriminate]. destruct fin; [lia|specialize (D4 eq_refl); lia].
  - split; [reflexivity|]. split; [|discriminate]. destruct fin; [lia|specialize (D4 eq_refl); lia].
  - split; [reflexivity|]. split; [|discriminate]. destruct fin; [lia|specialize (D4 eq_refl); lia].
Qed.
Lemma footer_length crc : length (stream_footer crc) = 80.
Proof.
  unfold stream_footer. rewrite !pad_bytes_bits by (apply crc_bytes_ok || (repeat constructor)).
  rewrite app_length, !bytes_bits_length. reflexivity.
Qed.
Theorem stream_cost p st n fuel rd data ps w : 1 <= n -> 1 <= table_count st -> delivers rd data -> cuts data ps -> Forall small_piece ps ->
  length data < fuel ->
  fst (c_encode_stream fuel p rd w n st) = encode_stream fuel p rd w n st /\
  snd (c_encode_stream fuel p rd w n st) <= pieces_cost st ps + 24 * reader_size rd + 22 * length ps + 4 * n + 1400.
Proof.
  intros Hn Hk HD HC HF HL. unfold c_encode_stream, encode_stream. cbv zeta.
  assert (length file_header = 32) as LH by reflexivity. rewrite LH.
  destruct (@write_cost file_header (mk_enc (bw_from_writer w) 0)) as (W1 & W2 & W3); [unfold few_pending; cbn; lia|].
  rewrite LH in W2. destruct (c_write_or_panic file_header _) as (r, k1). cbn [fst snd] in W1, W2. subst r.
  destruct (write_or_panic file_header _) as ([u| | |], e); cbn [fst snd] in W3 |- *; try (split; [reflexivity|lia]).
  destruct u. specialize (W3 eq_refl). pose proof (cuts_length HC) as LC.
  destruct (@rounds_cost p st n Hn Hk fuel rd data ps e HD HC HF ltac:(lia) W3) as (R1 & R2 & R3).
  destruct (c_encode_rounds fuel p n st rd e) as (r, k2). cbn [fst snd] in R1, R2. subst r.
  destruct (encode_rounds fuel p n st rd e) as ([u| | |], e2); cbn [fst snd] in R3 |- *; try (split; [reflexivity|lia]).
  destruct u. specialize (R3 eq_refl). rewrite footer_length.
  destruct (@write_cost (stream_footer (en_crc e2)) e2 R3) as (V1 & V2 & V3). rewrite footer_length in V2.
  destruct (c_write_or_panic _ e2) as (r, k4). cbn [fst snd] in V1, V2. subst r.
  destruct (write_or_panic _ e2) as ([u| | |], e3); cbn [fst snd] in V3 |- *; try (split; [reflexivity|lia]).
  unfold c_bw_finalize. destruct (bw_finalize (en_bw e3)) as (result, bw). cbn [fst snd]. split; [reflexivity|]. lia.
Qed.

(** ** linear bounds *)
Definition rate (st : strategy) : N :=
  match st with Single => 1872 | BlockWise k it => 2133 + N.of_nat it * (16 * N.of_nat k + 21) end.
Definition block_overhead (st : strategy) : N :=
  match st with
  | Single => 61900000
  | BlockWise k it => 1080000 + 30400000 * N.of_nat k + N.of_nat it * (1076 * N.of_nat k + 1072)
  end.
Lemma kmeans_linear n it k :
  (N.of_nat (kmeans_cost 257 ((n + 1) / 50 + 1) it k) <=
   N.of_nat it * ((N.of_nat n + 51) * (16 * N.of_nat k + 21) + 260 * N.of_nat k + 1) + 1548 * N.of_nat k + N.of_nat n + 2)%N.
Proof.
  assert (((n + 1) / 50 + 1) * 50 <= n + 51) as HG.
  { assert ((n + 1) / 50 * 50 <= n + 1) by (rewrite Nat.mul_comm; apply Nat.mul_div_le; lia). lia. }
  assert ((n + 1) / 50 + 1 <= n + 2) as HG2.
  { assert ((n + 1) / 50 <= n + 1) by (apply Nat.div_le_upper_bound; lia). lia. }
  remember ((n + 1) / 50 + 1) as g. clear Heqg. unfold kmeans_cost.
  assert (g * (k * (3 * 257 + 1) + 4 * 257 + 7) <= g * 50 * (16 * k + 21)) as H1.
  { rewrite <- Nat.mul_assoc. apply Nat.mul_le_mono_l. lia. }
  assert (g * 50 * (16 * k + 21) <= (n + 51) * (16 * k + 21)) as H2 by (apply Nat.mul_le_mono_r; auto).
  assert (N.of_nat (g * (k * (3 * 257 + 1) + 4 * 257 + 7)) <= (N.of_nat n + 51) * (16 * N.of_nat k + 21))%N as H3 by lia.
  remember (g * (k * (3 * 257 + 1) + 4 * 257 + 7)) as X. remember ((N.of_nat n + 51) * (16 * N.of_nat k + 21))%N as Y.
  assert (N.of_nat it * N.of_nat (X + k * (257 + 3) + 1) <= N.of_nat it * (Y + 260 * N.of_nat k + 1))%N as H4.
  { apply N.mul_le_mono_l. lia. }
  rewrite !Nat2N.inj_add, Nat2N.inj_mul. lia.
Qed.
Lemma piece_linear st n : (N.of_nat (piece_cost st n) <= rate st * N.of_nat n + block_overhead st)%N.
Proof.
  unfold piece_cost, block_cost, per_table_cost, one_table_cost, tree_cost, block_fixed_cost.
  destruct st as [k it|]; cbn [table_count strategy_cost rate block_overhead].
  - pose proof (kmeans_linear n it k) as HK. remember (kmeans_cost 257 ((n + 1) / 50 + 1) it k) as K.
    assert (N.of_nat it * ((N.of_nat n + 51) * (16 * N.of_nat k + 21) + 260 * N.of_nat k + 1) =
            N.of_nat it * (16 * N.of_nat k + 21) * N.of_nat n + N.of_nat it * (1076 * N.of_nat k + 1072))%N as E by lia.
    rewrite E in HK. rewrite N.mul_add_distr_r.
    remember (N.of_nat it * (16 * N.of_nat k + 21) * N.of_nat n)%N as P. remember (N.of_nat it * (1076 * N.of_nat k + 1072))%N as R.
    clear - HK. lia.
  - lia.
Qed.
Lemma pieces_linear st ps : (N.of_nat (pieces_cost st ps) <=
  rate st * N.of_nat (length (concat (map coded ps))) + block_overhead st * N.of_nat (length ps))%N.
Proof.
  induction ps as [|q ps IH]; [cbn; lia|]. cbn [map concat length]. rewrite app_length.
  change (pieces_cost st (q :: ps)) with (piece_cost st (length (coded q)) + pieces_cost st ps).
  pose proof (piece_linear st (length (coded q))) as H. rewrite Nat2N.inj_succ, !Nat2N.inj_add, N.mul_add_distr_l, N.mul_succ_r.
  remember (rate st * N.of_nat (length (coded q)))%N as A. remember (rate st * N.of_nat (length (concat (map coded ps))))%N as B.
  remember (block_overhead st * N.of_nat (length ps))%N as C. lia.
Qed.
Lemma delivers_size rd data : delivers rd data -> reader_size rd <= length data + length (r_events rd).
Proof.
  intros (_ & _ & <-). unfold reader_size. induction (r_events rd) as [|c events IH]; [cbn; lia|]. cbn [map flat_map].
  change (list_sum (?x :: ?l)) with (x + list_sum l). rewrite app_length. destruct c; cbn [event_data event_size length]; lia.
Qed.

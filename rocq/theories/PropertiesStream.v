(** * Properties of whole streams: C01 - C03, C19, C22, C31 - C34, C38, C39

    Words used in the statements: SpecStream ([delivers], [compressed], [decompressed],
    [coded], [piece_safe], [fits_level9]), SpecBzip2 ([bunzip2], [announced_tables]),
    SpecBits, SpecCrc and the model's [encode_stream] and [decode_stream]. *)
From Verif Require Import Base BaseFacts Bitwise BitwiseFacts SpecBits SpecCrc SpecRle SpecBwt SpecBzip2 SpecStream
  Rle RleFacts Crc32 Crc32Facts Bwt DuvalFacts BwtFacts Mtf Zle ZleFacts SymbolStatistics BlockEncoder BlockDecoder BlockFacts
  Stream StreamFacts RoundTripFacts ReferenceFacts EncodeFacts UnsortFacts RestoreFacts.

Ltac small_bytes := repeat constructor; unfold is_byte; lia.

(** ** The frame of a stream, and which pieces of the input its blocks hold *)

(** one block: magic number, checksum of the piece, rest *)
Definition block_frame_bits (piece : list nat) (body : list bool) : list bool :=
  be_bits 48 BLOCK_MAGIC ++ be_bits 32 (crc32_bzip2 piece) ++ body.
Definition stream_frame_bits (pieces : list (list nat)) (bodies : list (list bool)) : list bool :=
  bits_of [66; 90; 104; 57] ++
  concat (map (fun x => block_frame_bits (fst x) (snd x)) (combine pieces bodies)) ++
  be_bits 48 FOOTER_MAGIC ++ be_bits 32 (combined_crc (map crc32_bzip2 pieces)).

(** [body] is what the encoder makes of [piece] alone *)
Definition encoded_alone (p : profile) (st : strategy) (piece : list nat) (body : list bool) : Prop :=
  generate_block_data p (crc32_bzip2 piece) (coded piece) st = Ok (block_frame_bits piece body, crc32_bzip2 piece).

Lemma frames_eq ps bodies : Forall bytes ps -> length bodies = length ps ->
  concat (map framed (combine ps bodies)) = concat (map (fun x => block_frame_bits (fst x) (snd x)) (combine ps bodies)).
Proof.
  intros HB. revert bodies. induction HB as [|q ps HB HF IH]; intros [|b bodies] HL; try discriminate; auto.
  cbn [combine map concat]. rewrite IH by (cbn [length] in HL; lia). f_equal.
  unfold framed, block_frame_bits. cbn [fst snd]. rewrite crc32_correct by auto. reflexivity.
Qed.

(** [out] is a stream with one block for each of the [pieces], in order *)
Definition blocks_are (p : profile) (st : strategy) (pieces : list (list nat)) (out : list nat) : Prop :=
  exists bodies k, Forall2 (encoded_alone p st) pieces bodies /\ k < 8 /\
    bits_of out = stream_frame_bits pieces bodies ++ repeat false k.
Lemma seq_blocks p st ps w : Forall bytes ps -> seq_encode p st ps (good_sink []) = (Ok tt, w) ->
  blocks_are p st ps (w_out w) /\ bytes (w_out w).
Proof.
  intros HBP ES. destruct (@seq_frames p st ps w HBP ES) as (_ & bodies & k & H2 & Hk & HO & E).
  pose proof (Forall2_len H2) as LB. split; auto. exists bodies, k. split; [|split; auto].
  - clear - H2 HBP. induction H2 as [|q b ps bodies HQ H2 IH]; constructor.
    + apply Forall_cons_iff in HBP as (B & _). unfold encoded_alone, block_frame_bits. rewrite <- crc32_correct by auto. exact HQ.
    + apply IH. apply Forall_cons_iff in HBP. tauto.
  - rewrite bits_of_bytes, E. unfold frame_bits, stream_frame_bits. rewrite frames_eq by (auto; lia).
    replace (map crc32 ps) with (map crc32_bzip2 ps); [reflexivity|].
    apply map_ext_in. intros q Hq. rewrite Forall_forall in HBP. symmetry. apply crc32_correct; auto.
Qed.
Lemma compressed_blocks p n st data ps out : bytes data -> cuts data ps -> 1 <= n -> compressed p n st data out ->
  blocks_are p st ps out.
Proof.
  intros HB HC Hn H. destruct (cuts_pieces HC) as (EC & _ & _).
  assert (Forall bytes ps) as HBP by (apply Forall_concat; rewrite EC; auto).
  destruct (delivers_exists data) as (rd & HD). specialize (H rd HD).
  pose proof (returns_det H (@returns_seq p rd (good_sink []) n st data ps HD HC Hn)) as ES. symmetry in ES.
  destruct (@seq_blocks p st ps _ HBP ES) as (A & _). exact A.
Qed.

(** ** C01: round trip, default strategy *)

(** It fails: "baaa" (suffix order is not rotation order) ... *)
Theorem C01_round_trip_rotation_refuted : exists data out, bytes data /\
  (forall p n, 1 <= n -> compressed p n Single data out) /\ forall p, ~ decompressed p out data.
Proof.
  exists [98; 97; 97; 97].
  eexists. split; [small_bytes|]. split.
  - intros p n Hn. apply compressed_seq with (ps := [[98; 97; 97; 97]]); auto.
    + apply small_cuts; [discriminate|cbn; lia].
    + destruct p; vm_compute; reflexivity.
  - intros p. unfold decompressed. destruct p; vm_compute; discriminate.
Qed.
(** ... and "aaaa" followed by three zero bytes and "x" (the count byte 0 is taken as
    part of the next run), although an independent decoder reads that stream. *)
Theorem C01_round_trip_run_refuted : exists data out, bytes data /\
  (forall p n, 1 <= n -> compressed p n Single data out) /\ (forall p, ~ decompressed p out data) /\
  bunzip2 out = Some data.
Proof.
  exists [97; 97; 97; 97; 0; 0; 0; 120].
  eexists. split; [small_bytes|]. split.
  - intros p n Hn. apply compressed_seq with (ps := [[97; 97; 97; 97; 0; 0; 0; 120]]); auto.
    + apply small_cuts; [discriminate|cbn; lia].
    + destruct p; vm_compute; reflexivity.
  - split.
    + intros p. unfold decompressed. destruct p; vm_compute; discriminate.
    + vm_compute. reflexivity.
Qed.

(** What holds: there is one stream (for every thread count, profile and way the input
    arrives); its blocks hold consecutive pieces of the input; and if every one of these
    pieces is [piece_safe], it decompresses to the input. *)
Theorem C01_round_trip_partial : forall data, bytes data ->
  exists out pieces, (forall p n, 1 <= n -> compressed p n Single data out) /\
    (forall p, blocks_are p Single pieces out) /\ concat pieces = data /\ Forall (fun q => q <> []) pieces /\
    (Forall piece_safe pieces -> forall p, decompressed p out data).
Proof.
  intros data HB. destruct (cuts_exists data) as (ps & HC). destruct (cuts_pieces HC) as (EC & HN & HL).
  destruct (@stream_made Single data ps HB HC (single_encodable HB HC)) as (bs & out & k & H2 & Hk & HO & HR & E).
  exists out, ps. split; auto. split; [intros p; apply compressed_blocks with (n := 1) (data := data); auto|].
  split; auto. split; auto. intros HS. eapply made_decompresses; eauto.
Qed.
(** For inputs of at most 720000 bytes there is only one piece, the input itself. *)
Theorem C01_round_trip_one_block_partial : forall data, bytes data -> (N.of_nat (length data) <= 720000)%N ->
  piece_safe data ->
  exists out, (forall p n, 1 <= n -> compressed p n Single data out) /\ forall p, decompressed p out data.
Proof.
  intros data HB HL HS.
  assert (exists ps, cuts data ps /\ Forall piece_safe ps) as (ps & HC & HF).
  { destruct data as [|x data]; [exists []; split; constructor|].
    exists [x :: data]. split; [apply small_cuts; [discriminate|auto]|repeat constructor; apply HS]. }
  destruct (@stream_made Single data ps HB HC (single_encodable HB HC)) as (bs & out & k & H2 & Hk & HO & HR & E).
  exists out. split; auto. eapply made_decompresses; eauto.
Qed.
(** A condition visible in the data: no four equal bytes in a row, and the last byte
    occurs nowhere else (a text that ends in its only newline, say). *)
Lemma short_runs_from b n l : forall rs, runs_from b n l = rs ->
  (forall r, In r rs -> snd r <= 3) -> flat_map coded_run rs = repeat b n ++ l.
Proof.
  revert b n; induction l as [|x l IH]; intros b n rs <- H; cbn [runs_from] in *.
  - specialize (H (b, n) (or_introl eq_refl)). cbn [snd] in H. cbn [flat_map coded_run].
    replace (4 <=? n) with false by (symmetry; apply Nat.leb_gt; lia). reflexivity.
  - destruct ((x =? b) && (n <? 255)) eqn:E.
    + apply andb_true_iff in E as (E & _). apply Nat.eqb_eq in E as ->.
      rewrite (IH b (S n) _ eq_refl) by auto. replace (S n) with (n + 1) by lia.
      rewrite repeat_app, <- app_assoc. reflexivity.
    + cbn [flat_map]. rewrite (IH x 1 _ eq_refl) by (intros; apply H; right; auto).
      pose proof (H (b, n) (or_introl eq_refl)) as H0. cbn [snd] in H0. cbn [coded_run].
      replace (4 <=? n) with false by (symmetry; apply Nat.leb_gt; lia). reflexivity.
Qed.
Lemma short_runs_coded l : (forall r, In r (runs l) -> snd r <= 3) -> coded l = l /\ run_safe l = true.
Proof.
  intros H. split.
  - unfold coded. destruct l as [|x l]; [reflexivity|]. cbn [runs] in *.
    rewrite (@short_runs_from x 1 l _ eq_refl H). reflexivity.
  - unfold run_safe. revert H. generalize (runs l) as rs. induction rs as [|[b1 n1] rs IH]; intros H; [reflexivity|].
    destruct rs as [|[b2 n2] rs]; [reflexivity|]. cbn [runs_safe].
    pose proof (H (b1, n1) (or_introl eq_refl)) as H1. cbn [snd] in H1.
    replace (4 <=? n1) with false by (symmetry; apply Nat.leb_gt; lia). cbn [andb negb].
    apply IH. intros r Hr. apply H. right; auto.
Qed.
Theorem C01_round_trip_unique_end_partial : forall front last, bytes (front ++ [last]) ->
  (N.of_nat (length (front ++ [last])) <= 720000)%N -> ~ In last front ->
  (forall r, In r (runs (front ++ [last])) -> snd r <= 3) ->
  exists out, (forall p n, 1 <= n -> compressed p n Single (front ++ [last]) out) /\
    forall p, decompressed p out (front ++ [last]).
Proof.
  intros front last HB HL HI HR. apply C01_round_trip_one_block_partial; auto.
  destruct (short_runs_coded _ HR) as (EC & ES). split; auto. rewrite EC. apply safe_reversible, unique_last_safe; auto.
Qed.
Definition hello : list nat := [104; 101; 108; 108; 111; 32; 119; 111; 114; 108; 100; 10].
Example C01_case : bytes hello /\ piece_safe hello /\ piece_safe (repeat 97 600 ++ hello) /\
  exists out, compressed Checked 4 Single hello out /\ decompressed Checked out hello /\ length out = 55.
Proof.
  split; [small_bytes|]. split; [|split].
  - split; [reflexivity|]. apply reversible_ok; [discriminate|vm_compute; reflexivity].
  - split; [vm_compute; reflexivity|]. apply reversible_ok; vm_compute; [discriminate|reflexivity].
  - eexists. split; [|split].
    + apply compressed_seq with (ps := [hello]); [apply small_cuts; [discriminate|cbn; lia]|lia|vm_compute; reflexivity].
    + vm_compute. reflexivity.
    + reflexivity.
Qed.
Print Assumptions C01_round_trip_rotation_refuted.
Print Assumptions C01_round_trip_run_refuted.
Print Assumptions C01_round_trip_partial.
Print Assumptions C01_round_trip_one_block_partial.
Print Assumptions C01_round_trip_unique_end_partial.

(** ** C02: round trip with the k-means strategy *)

(** what the encoder works with for one piece: the symbols coded and the table chosen
    for each group *)
Definition chooses (st : strategy) (q : list nat) (symbols : list zsym) (selectors : list nat) : Prop :=
  exists col ptr indices used freqs, bwt (coded q) = Ok (col, ptr) /\ mtf col = Ok (indices, used) /\
    zle_with_strategy st indices (length used) = Ok (symbols, (freqs, selectors)).

(** The conditions under which the selector list survives: the end-of-block symbol does
    not complete a group, and the tables chosen are exactly 0 .. m-1 for some m. *)
Definition tables_safe (k iterations : nat) (q : list nat) : Prop :=
  forall symbols selectors, chooses (BlockWise k iterations) q symbols selectors ->
    (length symbols + 1) mod 50 <> 0 /\ exists m, m <= k /\ forall t, In t selectors <-> t < m.

(** It fails for 49 different bytes (two tables, three iterations): the decoder panics. *)
Theorem C02_round_trip_refuted : exists data out, bytes data /\
  (forall p n, 1 <= n -> compressed p n (BlockWise 2 3) data out) /\
  forall p, fst (decode_stream p out (good_sink [])) = Panic.
Proof.
  exists (seq 10 49). eexists. split; [cbn [seq]; small_bytes|]. split.
  - intros p n Hn. apply compressed_seq with (ps := [seq 10 49]); auto.
    + apply small_cuts; [discriminate|cbn; lia].
    + destruct p; vm_compute; reflexivity.
  - intros p. destruct p; vm_compute; reflexivity.
Qed.
Lemma blockwise_encodable k it data ps : 1 <= k <= 7 -> bytes data -> cuts data ps -> Forall (tables_safe k it) ps ->
  Forall (fun q => exists b, encodes Wrapping (BlockWise k it) q b /\ length (bp_tables b) = k) ps.
Proof.
  intros Hk HB HC HS. destruct (cuts_pieces HC) as (EC & HN & HL).
  assert (Forall bytes ps) as HBP by (apply Forall_concat; rewrite EC; auto).
  rewrite Forall_forall in *. intros q Hq.
  destruct (@blockwise_block Wrapping (crc32 q) (coded q) k it) as (b & E & PO & LT).
  - apply coded_bytes; auto.
  - apply coded_nonempty; auto.
  - specialize (HL q Hq). unfold RLE_LIMIT in HL. lia.
  - apply crc32_lt; auto.
  - lia.
  - intros ptr col enc used sel freqs FE EZ. destruct FE as (F1 & _ & F2 & _).
    destruct (HS q Hq (zsyms 0 enc) sel) as (A & m & B & C).
    + exists col, ptr, enc, used, freqs. auto.
    + split; auto. exists m. auto.
  - exists b. split; auto. split; auto.
Qed.
Lemma Forall_exists_and {A B} (P Q : A -> B -> Prop) l : Forall (fun a => exists b, P a b /\ Q a b) l -> Forall (fun a => exists b, P a b) l.
Proof. intros H. eapply Forall_impl; [|exact H]. intros a (b & X & _). eauto. Qed.

Theorem C02_round_trip_partial : forall k iterations data, 1 <= k <= 7 -> bytes data ->
  exists pieces, concat pieces = data /\ Forall (fun q => q <> []) pieces /\
    (forall p n out, 1 <= n -> compressed p n (BlockWise k iterations) data out -> blocks_are p (BlockWise k iterations) pieces out) /\
    (Forall (tables_safe k iterations) pieces ->
     exists out, (forall p n, 1 <= n -> compressed p n (BlockWise k iterations) data out) /\
       (Forall piece_safe pieces -> forall p, decompressed p out data)).
Proof.
  intros k it data Hk HB. destruct (cuts_exists data) as (ps & HC). destruct (cuts_pieces HC) as (EC & HN & HL).
  exists ps. split; auto. split; auto. split; [intros p n out Hn; apply compressed_blocks; auto|]. intros HT.
  pose proof (Forall_exists_and _ _ (blockwise_encodable Hk HB HC HT)) as HE.
  destruct (@stream_made (BlockWise k it) data ps HB HC HE) as (bs & out & kk & H2 & Hkk & HO & HR & E).
  exists out. split; auto. intros HS. eapply made_decompresses; eauto.
Qed.
(** One table, or no iterations: only the group condition is left. *)
Theorem C02_degenerate_tables : forall k iterations q, 1 <= k <= 7 -> k = 1 \/ iterations = 0 -> bytes q -> q <> [] ->
  (forall symbols selectors, chooses (BlockWise k iterations) q symbols selectors -> (length symbols + 1) mod 50 <> 0) ->
  tables_safe k iterations q.
Proof.
  intros k it q Hk Hor HB Hne H syms sel HC. split; [eapply H; eauto|].
  destruct HC as (col & ptr & enc & used & freqs & E1 & E2 & E3).
  destruct (front_end_ok (coded_bytes HB) (coded_nonempty Hne)) as
    (ptr' & col' & enc' & used' & F1 & _ & F2 & _ & _ & LU & _ & LE & _ & FF & _).
  fold (coded q) in F1.  rewrite E1 in F1. injection F1 as <- <-. rewrite E2 in F2. injection F2 as <- <-.
  destruct (@blockwise_stats (length used) enc k it) as (freqs' & sel' & EZ & G1 & G2 & G3 & G4 & G5 & _); auto; [lia|lia|].
  rewrite E3 in EZ. injection EZ as -> -> ->.
  assert (Forall (fun s => s < 1) sel') as G6.
  { destruct Hor as [-> | ->]; auto. rewrite (G5 eq_refl). apply Forall_forall. intros x Hx. apply repeat_spec in Hx. lia. }
  exists 1. split; [lia|]. rewrite Forall_forall in G6. intros t. split; [apply G6|].
  intros Ht. assert (t = 0) as -> by lia. assert (0 < length sel') as L0 by (rewrite G3; lia).
  destruct sel' as [|s sel']; [cbn [length] in L0; lia|].
  left. specialize (G6 s (or_introl eq_refl)). lia.
Qed.
Example C02_case : piece_safe hello /\ tables_safe 6 3 hello /\
  exists out, compressed Checked 4 (BlockWise 6 3) hello out /\ decompressed Checked out hello.
Proof.
  split; [apply C01_case|]. split.
  - intros syms sel (col & ptr & enc & used & freqs & E1 & E2 & E3).
    vm_compute in E1. injection E1 as <- <-. vm_compute in E2. injection E2 as <- <-.
    vm_compute in E3. injection E3 as <- _ <-. split; [vm_compute; discriminate|]. exists 1. split; [lia|].
    intros t. cbn [In]. lia.
  - eexists. split.
    + apply compressed_seq with (ps := [hello]); [apply small_cuts; [discriminate|cbn; lia]|lia|vm_compute; reflexivity].
    + vm_compute. reflexivity.
Qed.
Print Assumptions C02_round_trip_refuted.
Print Assumptions C02_round_trip_partial.
Print Assumptions C02_degenerate_tables.

(** ** C03: an independent decompressor reads the output *)

(** It does not always: "baaa". *)
Theorem C03_valid_stream_refuted : exists data out, bytes data /\
  (forall p n, 1 <= n -> compressed p n Single data out) /\ bunzip2 out = None.
Proof.
  exists [98; 97; 97; 97].
  eexists. split; [small_bytes|]. split.
  - intros p n Hn. apply compressed_seq with (ps := [[98; 97; 97; 97]]); auto.
    + apply small_cuts; [discriminate|cbn; lia].
    + destruct p; vm_compute; reflexivity.
  - vm_compute. reflexivity.
Qed.
(** It does whenever suffix order is rotation order for every (coded) piece and no piece
    exceeds the announced block size.  Ambiguous runs (C08) are no obstacle here. *)
Theorem C03_valid_stream_partial : forall data, bytes data ->
  exists out pieces, (forall p n, 1 <= n -> compressed p n Single data out) /\
    (forall p, blocks_are p Single pieces out) /\ concat pieces = data /\ Forall (fun q => q <> []) pieces /\
    (Forall (fun q => reversible (coded q) /\ fits_level9 q) pieces -> bunzip2 out = Some data).
Proof.
  intros data HB. destruct (cuts_exists data) as (ps & HC). destruct (cuts_pieces HC) as (EC & HN & HL).
  destruct (@stream_made Single data ps HB HC (single_encodable HB HC)) as (bs & out & k & H2 & Hk & HO & HR & E).
  exists out, ps. split; auto. split; [intros p; apply compressed_blocks with (n := 1) (data := data); auto|].
  split; auto. split; auto. intros HS.
  destruct (single_readable HB HC HS) as (out' & H' & EB).
  destruct (delivers_exists data) as (rd & HD).
  pose proof (returns_det (HR Checked 1 (le_n _) rd HD) (H' Checked 1 (le_n _) rd HD)) as EE.
  injection EE as ->. exact EB.
Qed.
Theorem C03_one_block_partial : forall data, bytes data -> (N.of_nat (length data) <= 720000)%N ->
  data = [] \/ reversible (coded data) ->
  exists out, (forall p n, 1 <= n -> compressed p n Single data out) /\ bunzip2 out = Some data.
Proof.
  intros data HB HL HS.
  assert (exists ps, cuts data ps /\ Forall (fun q => reversible (coded q) /\ fits_level9 q) ps) as (ps & HC & HF).
  { destruct data as [|x data]; [exists []; split; constructor|]. destruct HS as [HS|HS]; [discriminate|].
    exists [x :: data]. split; [apply small_cuts; [discriminate|auto]|]. constructor; [|constructor].
    split; auto. apply small_fits; auto. }
  eapply single_readable; eauto.
Qed.
Example C03_case : bytes hello /\ reversible (coded hello) /\ fits_level9 hello /\
  exists out, compressed Wrapping 2 Single hello out /\ bunzip2 out = Some hello.
Proof.
  split; [small_bytes|]. split; [apply C01_case|]. split; [vm_compute; discriminate|].
  eexists. split.
  - apply compressed_seq with (ps := [hello]); [apply small_cuts; [discriminate|cbn; lia]|lia|vm_compute; reflexivity].
  - vm_compute. reflexivity.
Qed.
Print Assumptions C03_valid_stream_refuted.
Print Assumptions C03_valid_stream_partial.
Print Assumptions C03_one_block_partial.

(** ** C19, C22, C39: thread count, read sizes and build profile do not matter

    For every strategy and every sink, one outcome [r] (result and final sink) is what
    [encode_stream] returns for every thread count, every way the reader splits the data,
    and both profiles. *)
Theorem C19_thread_count_independent : forall st data w, bytes data ->
  exists r, fst r <> NoFuel /\
    forall n, 1 <= n -> forall p rd, delivers rd data -> encode_returns p rd w n st r.
Proof.
  intros st data w HB. destruct (cuts_exists data) as (ps & HC).
  exists (seq_encode Wrapping st ps w). split; [eapply seq_encode_halts; eauto|].
  intros n Hn p rd HD. rewrite <- (seq_encode_profile p Wrapping st w HB HC). eapply returns_seq; eauto.
Qed.
Theorem C22_read_size_independent : forall st data w p n rd rd' r, bytes data -> 1 <= n ->
  delivers rd data -> delivers rd' data -> encode_returns p rd w n st r -> encode_returns p rd' w n st r.
Proof.
  intros st data w p n rd rd' r HB Hn HD HD' HR.
  destruct (C19_thread_count_independent st w HB) as (r' & _ & H).
  rewrite (returns_det HR (H n Hn p rd HD)). auto.
Qed.
Theorem C39_profiles_agree : forall st data w n rd r, bytes data -> 1 <= n -> delivers rd data ->
  (encode_returns Checked rd w n st r <-> encode_returns Wrapping rd w n st r).
Proof.
  intros st data w n rd r HB Hn HD. destruct (C19_thread_count_independent st w HB) as (r' & _ & H).
  split; intros HR; rewrite (returns_det HR (H n Hn _ rd HD)); auto.
Qed.
Example C19_case : delivers (mk_reader [RChunk [104; 101]; RInterrupted; RChunk [108]] false) [104; 101; 108] /\
  delivers (mk_reader [RChunk [104; 101; 108]] false) [104; 101; 108] /\
  encode_stream 2 Checked (mk_reader [RChunk [104; 101]; RInterrupted; RChunk [108]] false) (good_sink []) 3 Single =
  encode_stream 2 Wrapping (mk_reader [RChunk [104; 101; 108]] false) (good_sink []) 1 Single.
Proof.
  split; [|split].
  - split; [reflexivity|]. split; [repeat constructor; discriminate|reflexivity].
  - split; [reflexivity|]. split; [repeat constructor; discriminate|reflexivity].
  - vm_compute. reflexivity.
Qed.
Print Assumptions C19_thread_count_independent.
Print Assumptions C22_read_size_independent.
Print Assumptions C39_profiles_agree.

(** ** C31: compression with the default strategy ends normally *)
Theorem C31_never_panics : forall data, bytes data ->
  exists out, bytes out /\ forall p n, 1 <= n -> compressed p n Single data out.
Proof.
  intros data HB. destruct (cuts_exists data) as (ps & HC).
  destruct (@stream_made Single data ps HB HC (single_encodable HB HC)) as (bs & out & k & H2 & Hk & HO & HR & E).
  exists out. auto.
Qed.
Example C31_case : bytes (repeat 0 300 ++ [255; 255]).
Proof. apply Forall_app. split; [apply Forall_forall; intros x Hx; apply repeat_spec in Hx; subst; unfold is_byte; lia|small_bytes]. Qed.
Print Assumptions C31_never_panics.

(** ** C32: the empty input *)
Definition empty_stream : list nat := [66; 90; 104; 57; 23; 114; 69; 56; 80; 144; 0; 0; 0; 0].
Theorem C32_empty_input : forall p n st, 1 <= n ->
  compressed p n st [] empty_stream /\ decompressed p empty_stream [] /\ bunzip2 empty_stream = Some [].
Proof.
  intros p n st Hn. split; [|split; [destruct p; vm_compute; reflexivity|vm_compute; reflexivity]].
  apply compressed_seq with (ps := []); [constructor|exact Hn|]. destruct p; vm_compute; reflexivity.
Qed.
Example C32_case : delivers (mk_reader [] false) [].
Proof. split; [reflexivity|]. split; [constructor|reflexivity]. Qed.
Print Assumptions C32_empty_input.

(** ** C33, C34: framing; the blocks are consecutive pieces of the input *)

(** [stream_frame_bits] and [encoded_alone] are defined at the top of this file. *)
Theorem C33_framing : forall data p n st rd w, bytes data -> 1 <= n -> delivers rd data ->
  encode_returns p rd (good_sink []) n st (Ok tt, w) ->
  exists pieces bodies k,
    concat pieces = data /\ Forall (fun q => q <> []) pieces /\ length bodies = length pieces /\ k < 8 /\
    bytes (w_out w) /\
    bits_of (w_out w) = stream_frame_bits pieces bodies ++ repeat false k.
Proof.
  intros data p n st rd w HB Hn HD HR. destruct (cuts_exists data) as (ps & HC).
  destruct (cuts_pieces HC) as (EC & HN & HL).
  assert (Forall bytes ps) as HBP by (apply Forall_concat; rewrite EC; auto).
  pose proof (returns_det HR (@returns_seq p rd (good_sink []) n st data ps HD HC Hn)) as ES. symmetry in ES.
  destruct (@seq_frames p st ps w HBP ES) as (_ & bodies & k & H2 & Hk & HO & E).
  pose proof (Forall2_len H2) as LB. exists ps, bodies, k. split; auto. split; auto. split; [lia|]. split; auto. split; auto.
  rewrite bits_of_bytes, E. unfold frame_bits, stream_frame_bits. rewrite frames_eq by (auto; lia).
  replace (map crc32 ps) with (map crc32_bzip2 ps); [reflexivity|].
  apply map_ext_in. intros q Hq. rewrite Forall_forall in HBP. symmetry. apply crc32_correct; auto.
Qed.
(** C34 also says what each block is: the coding of its piece alone; pieces partition the
    input in order. *)
Theorem C34_blocks_partition_input : forall data p n st rd w, bytes data -> 1 <= n -> delivers rd data ->
  encode_returns p rd (good_sink []) n st (Ok tt, w) ->
  exists pieces, concat pieces = data /\ Forall (fun q => q <> []) pieces /\ blocks_are p st pieces (w_out w).
Proof.
  intros data p n st rd w HB Hn HD HR. destruct (cuts_exists data) as (ps & HC).
  destruct (cuts_pieces HC) as (EC & HN & HL).
  assert (Forall bytes ps) as HBP by (apply Forall_concat; rewrite EC; auto).
  pose proof (returns_det HR (@returns_seq p rd (good_sink []) n st data ps HD HC Hn)) as ES. symmetry in ES.
  exists ps. split; auto. split; auto. apply seq_blocks; auto.
Qed.
(** The Single strategy always produces such a stream (C31); here is one with a block. *)
Example C33_case : exists rd w, delivers rd [7] /\ encode_returns Checked rd (good_sink []) 2 Single (Ok tt, w) /\
  length (w_out w) = 37.
Proof.
  exists (mk_reader [RChunk [7]] false). eexists. split.
  { split; [reflexivity|]. split; [repeat constructor; discriminate|reflexivity]. }
  split.
  - assert (compressed Checked 2 Single [7] (w_out (snd (seq_encode Checked Single [[7]] (good_sink []))))) as H.
    { apply compressed_seq with (ps := [[7]]); [apply small_cuts; [discriminate|cbn; lia]|lia|vm_compute; reflexivity]. }
    apply H. split; [reflexivity|]. split; [repeat constructor; discriminate|reflexivity].
  - vm_compute. reflexivity.
Qed.
Print Assumptions C33_framing.
Print Assumptions C34_blocks_partition_input.

(** ** C38: table counts *)

(** [--num-tables 1] and [7] are emitted although the format wants 2..6. *)
Theorem C38_table_count_refuted : exists data, bytes data /\ forall k, k = 1 \/ k = 7 ->
  exists out rest, (forall p n, 1 <= n -> compressed p n (BlockWise k 1) data out) /\
    bits_of out = bits_of [66; 90; 104; 57] ++ be_bits 48 BLOCK_MAGIC ++ rest /\
    announced_tables rest = Some (N.of_nat k) /\ bunzip2 out = None.
Proof.
  exists [120; 121; 122]. split; [small_bytes|].
  intros k Hk. exists (w_out (snd (seq_encode Wrapping (BlockWise k 1) [[120; 121; 122]] (good_sink [])))).
  exists (skipn 80 (bits_of (w_out (snd (seq_encode Wrapping (BlockWise k 1) [[120; 121; 122]] (good_sink [])))))).
  split.
  - intros p n Hn. apply compressed_seq with (ps := [[120; 121; 122]]);
      [apply small_cuts; [discriminate|cbn; lia]|exact Hn|].
    destruct Hk as [-> | ->]; destruct p; vm_compute; reflexivity.
  - split; [|split]; destruct Hk as [-> | ->]; vm_compute; reflexivity.
Qed.
(** Every block announces exactly the number of tables of its strategy: 2 for Single, k for
    BlockWise k if k < 8, and otherwise what the three highest binary digits of k say. *)
Theorem C38_announced_partial : forall data p n st rd w, bytes data -> 1 <= n -> delivers rd data ->
  encode_returns p rd (good_sink []) n st (Ok tt, w) ->
  let tables := match st with Single => 2%N | BlockWise k _ => N.of_nat k end in
  exists pieces bodies k, concat pieces = data /\ length bodies = length pieces /\ k < 8 /\
    bits_of (w_out w) = stream_frame_bits pieces bodies ++ repeat false k /\
    Forall (fun x => announced_tables (be_bits 32 (crc32_bzip2 (fst x)) ++ snd x) =
       Some (if (tables <? 8)%N then tables else tables / 2 ^ (N.log2 tables - 2))%N) (combine pieces bodies).
Proof.
  intros data p n st rd w HB Hn HD HR tables. destruct (cuts_exists data) as (ps & HC).
  destruct (cuts_pieces HC) as (EC & HN & HL).
  assert (Forall bytes ps) as HBP by (apply Forall_concat; rewrite EC; auto).
  pose proof (returns_det HR (@returns_seq p rd (good_sink []) n st data ps HD HC Hn)) as ES. symmetry in ES.
  destruct (@seq_frames p st ps w HBP ES) as (_ & bodies & k & H2 & Hk' & HO & E).
  pose proof (Forall2_len H2) as LB. exists ps, bodies, k. split; auto. split; auto. split; auto. split.
  - rewrite bits_of_bytes, E. unfold frame_bits, stream_frame_bits. rewrite frames_eq by (auto; lia).
    replace (map crc32 ps) with (map crc32_bzip2 ps); [reflexivity|].
    apply map_ext_in. intros q Hq. rewrite Forall_forall in HBP. symmetry. apply crc32_correct; auto.
  - clear - H2 HBP HN HL. induction H2 as [|q b ps bodies HQ H2 IH]; [constructor|].
    apply Forall_cons_iff in HBP as (B1 & B2). apply Forall_cons_iff in HN as (N1 & N2).
    apply Forall_cons_iff in HL as (L1 & L2). cbn [combine]. constructor; auto. cbn [fst snd].
    rewrite <- crc32_correct by auto.
    assert (N.of_nat (length (coded q)) <= 1000000)%N as L3 by (unfold RLE_LIMIT in L1; lia).
    unfold made in HQ. pose proof (crc32_lt B1) as C1.
    destruct (@block_announces_any p (crc32 q) (coded q) st _ _ (coded_bytes B1) (coded_nonempty N1) L3 C1 HQ) as (rest & ER & EA).
    unfold framed in ER. cbn [fst snd] in ER. apply app_inv_head, app_inv_head in ER. subst b.
    rewrite EA. destruct st; reflexivity.
Qed.
Lemma three_digits : forall tables : N,
  let announced := (if (tables <? 8)%N then tables else tables / 2 ^ (N.log2 tables - 2))%N in
  (announced = tables <-> (tables < 8)%N) /\ ((8 <= tables)%N -> (4 <= announced < 8)%N).
Proof.
  intros v announced. unfold announced. destruct (N.ltb_spec v 8) as [H|H]; [split; [tauto|lia]|].
  destruct (N.log2_spec v ltac:(lia)) as (X1 & X2). pose proof (@N.log2_le_mono 8 v H) as X. change (N.log2 8) with 3%N in X.
  assert (4 <= v / 2 ^ (N.log2 v - 2) < 8)%N as HQ.
  { assert (2 ^ (N.log2 v - 2) <> 0)%N as HZ by (apply N.pow_nonzero; lia). split.
    - apply N.div_le_lower_bound; auto. change 4%N with (2 ^ 2)%N. rewrite <- N.pow_add_r. replace (N.log2 v - 2 + 2)%N with (N.log2 v) by lia. exact X1.
    - apply N.div_lt_upper_bound; auto. change 8%N with (2 ^ 3)%N. rewrite <- N.pow_add_r. replace (N.log2 v - 2 + 3)%N with (N.succ (N.log2 v)) by lia. exact X2. }
  split; [split; lia|auto].
Qed.
(** So the number is the right one exactly below 8, and from 8 tables on it lies between 4
    and 7. *)
Theorem C38_table_count_partial : forall data p n st rd w, bytes data -> 1 <= n -> delivers rd data ->
  encode_returns p rd (good_sink []) n st (Ok tt, w) ->
  let tables := match st with Single => 2%N | BlockWise k _ => N.of_nat k end in
  exists pieces bodies k, concat pieces = data /\ length bodies = length pieces /\ k < 8 /\
    bits_of (w_out w) = stream_frame_bits pieces bodies ++ repeat false k /\
    Forall (fun x => exists announced, announced_tables (be_bits 32 (crc32_bzip2 (fst x)) ++ snd x) = Some announced /\
      (announced = tables <-> (tables < 8)%N) /\ ((8 <= tables)%N -> (4 <= announced < 8)%N)) (combine pieces bodies).
Proof.
  intros data p n st rd w HB Hn HD HR tables.
  destruct (C38_announced_partial HB Hn HD HR) as (pieces & bodies & k & H1 & H2 & H3 & H4 & H5).
  exists pieces, bodies, k. repeat (split; auto). eapply Forall_impl; [|exact H5]. intros x E. eexists. split; [exact E|].
  apply (three_digits tables).
Qed.
Example C38_case : exists rd w, delivers rd [7] /\ encode_returns Checked rd (good_sink []) 2 (BlockWise 13 3) (Ok tt, w).
Proof.
  exists (mk_reader [RChunk [7]] false). eexists. split.
  { split; [reflexivity|]. split; [repeat constructor; discriminate|reflexivity]. }
  assert (compressed Checked 2 (BlockWise 13 3) [7] (w_out (snd (seq_encode Checked (BlockWise 13 3) [[7]] (good_sink []))))) as H.
  { apply compressed_seq with (ps := [[7]]); [apply small_cuts; [discriminate|cbn; lia]|lia|vm_compute; reflexivity]. }
  apply H. split; [reflexivity|]. split; [repeat constructor; discriminate|reflexivity].
Qed.
Print Assumptions C38_table_count_refuted.
Print Assumptions C38_announced_partial.
Print Assumptions C38_table_count_partial.

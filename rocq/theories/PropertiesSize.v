(** * Sizes and numbers of tables: C30, C57, C58, C59

    Words used in the statements: SpecStream ([coded], [compressed]), SpecBzip2 ([bunzip2],
    [get_blocks]: its second argument is the level, a block may hold 100000 times the level),
    [blocks_are] (top of PropertiesStream). *)
From Verif Require Import Base BaseFacts SpecBits SpecCrc SpecRle SpecBwt SpecBzip2 SpecStream Bitwise BitwiseFacts Rle RleFacts Crc32 Crc32Facts
  BwtFacts Zle ZleFacts SymbolStatistics PackageMerge Huffman HuffmanFacts BlockEncoder BlockFacts Stream StreamFacts RoundTripFacts ReferenceFacts EncodeFacts
  PackageMergeFacts PackageMergeFacts OversizeFacts CostFacts ExpandFacts PropertiesStages PropertiesStream.

Lemma total_lt ps : Forall bytes ps -> (combined_crc (map crc32 ps) < M32)%N.
Proof.
  intros HB. assert (Forall (fun c => c < M32)%N (map crc32 ps)) as HC.
  { rewrite Forall_map. eapply Forall_impl; [|exact HB]. intros; apply crc32_lt; auto. }
  unfold combined_crc. rewrite <- total_crc_combined; auto; [|reflexivity]. apply total_crc_lt; auto. reflexivity.
Qed.

(** The limit is exceeded: this input of 720003 bytes becomes one block of 900003 bytes,
    which a decompressor refuses for its size alone - it would accept it under a level
    digit of ten. *)
Theorem C30_block_size_refuted : exists data out, bytes data /\ N.of_nat (length data) = 720003%N /\
  (forall p n, 1 <= n -> compressed p n Single data out) /\
  (forall p, blocks_are p Single [data] out) /\
  N.of_nat (length (coded data)) = 900003%N /\
  bunzip2 out = None /\
  exists enough blocks rest, get_blocks enough 10 [] (skipn 32 (bits_of out)) = Some (blocks, rest) /\ contents_of blocks = data.
Proof.
  remember (N.to_nat 179998) as m eqn:Em. assert (N.of_nat m = 179998%N) as Hm by (rewrite Em; apply N2Nat.id). clear Em.
  set (q := oversize m).
  pose proof (@oversize_bytes m Hm) as HB. fold q in HB. pose proof (@oversize_cuts m Hm) as HC. fold q in HC.
  pose proof (@oversize_coded m Hm) as LC. fold q in LC. pose proof (@oversize_length m Hm) as LD. fold q in LD.
  pose proof (@oversize_safe m Hm) as HS. fold q in HS.
  destruct (@stream_made Single q [q] HB HC (single_encodable HB HC)) as (bs & out & k & H2 & Hk & HO & HR & E).
  exists q, out. split; auto. split; auto. split; auto.
  split; [intros p; apply compressed_blocks with (n := 1) (data := q); auto|]. split; auto.
  inversion H2 as [|q' b ps' bs' HQ HN]; subst q' ps' bs. inversion HN; subst bs'. clear HN H2.
  assert (q <> []) as Hne by (intros ->; discriminate).
  assert (2 <= length (bp_tables b) <= 6) as HT.
  { erewrite (@encodes_tables Wrapping Single q b); eauto; cbn [table_count]; unfold RLE_LIMIT; lia. }
  unfold stream_bits in E. rewrite <- app_assoc in E.
  assert (bytes [66; 90; 104; 57]) as H9 by small_bytes.
  destruct (bytes_prefix _ H9 HO E) as (tl & -> & Et).
  rewrite <- !app_assoc in Et. cbn [combine map concat fst snd app] in Et. rewrite ?app_nil_r in Et.
  rewrite block_bits_body, <- !app_assoc in Et.
  split.
  - unfold bunzip2. cbn [app bunzip2_blocks]. change ((49 <=? 57) && (57 <=? 57)) with true. cbn [guard].
    rewrite bits_of_bytes, Et. cbv zeta. change (N.of_nat (57 - 48)) with 9%N. cbn [get_blocks].
    rewrite magic_bits, gets_number by (auto; try lia; reflexivity). rewrite N.eqb_refl.
    match goal with |- context [get_block 9 (block_body _ _ ++ ?r)] =>
      destruct (@block_spec_size 9 Wrapping Single q b r HB HQ ltac:(lia) HT) as (col & _ & ->) end.
    rewrite LC. reflexivity.
  - exists 2, [mk_parsed q (crc32 q) (coded q) 0]. eexists. split; [|unfold contents_of; cbn [map concat pb_contents]; apply app_nil_r].
    assert (skipn 32 (bits_of ([66; 90; 104; 57] ++ tl)) = bytes_bits tl) as -> by (rewrite bits_of_bytes; reflexivity).
    rewrite Et.
    pose proof (@get_blocks_ok 10 [q] [b]) as G. cbn [combine map concat fst snd app] in G. rewrite ?app_nil_r in G.
    assert (Forall2 (block_readable 10) [q] [b]) as HF.
    { constructor; [|constructor]. intros rest. eapply block_spec; eauto; lia. }
    match goal with |- context [bytes_bits footer_magic ++ pad ?t 32 ++ ?r] => specialize (G HF 2 [] r t eq_refl) end.
    rewrite block_bits_body, <- !app_assoc in G. apply G; clear G.
    + apply (@total_lt [q]). constructor; auto.
    + cbn [length]. lia.
Qed.

(** What holds: the excess is at most five bytes, and only the last block may be shorter
    than 900000. *)
Lemma cuts_full data ps : cuts data ps -> forall pre q post, ps = pre ++ q :: post -> post <> [] -> (900000 <= N.of_nat (length (coded q)))%N.
Proof.
  induction 1 as [|data piece rest fin ps Hne E H IH]; intros pre q post EP HP; [destruct pre; discriminate|].
  destruct pre as [|x pre].
  - injection EP as <- <-. unfold cut in E.
    assert (N.of_nat (length (coded [])) <= RLE_LIMIT + 5)%N as H0 by (rewrite coded_nil; unfold RLE_LIMIT; lia).
    destruct (@cut_loop_spec (S (length data)) [] data (Nat.lt_succ_diag_r _) H0 _ _ _ E) as (A & B & C & D).
    destruct fin; [|apply D; auto]. destruct (C eq_refl) as (-> & _). inversion H; subst; congruence.
  - injection EP as <- EP. eapply IH; eauto.
Qed.
Theorem C30_block_size_partial : forall data p n st rd w, bytes data -> 1 <= n -> delivers rd data ->
  encode_returns p rd (good_sink []) n st (Ok tt, w) ->
  exists pieces, concat pieces = data /\ blocks_are p st pieces (w_out w) /\
    Forall (fun q => 1 <= N.of_nat (length (coded q)) <= 900005)%N pieces /\
    forall before q after, pieces = before ++ q :: after -> after <> [] -> (900000 <= N.of_nat (length (coded q)))%N.
Proof.
  intros data p n st rd w HB Hn HD HR. destruct (cuts_exists data) as (ps & HC).
  destruct (cuts_pieces HC) as (EC & HN & HL).
  assert (Forall bytes ps) as HBP by (apply Forall_concat; rewrite EC; auto).
  pose proof (returns_det HR (@returns_seq p rd (good_sink []) n st data ps HD HC Hn)) as ES. symmetry in ES.
  exists ps. split; auto. split; [apply seq_blocks; auto|]. split; [|apply (cuts_full HC)].
  rewrite Forall_forall in *. intros q Hq. specialize (HL q Hq). specialize (HN q Hq).
  pose proof (coded_nonempty HN) as HK. unfold RLE_LIMIT in HL. destruct (coded q); [congruence|]. cbn [length] in *. lia.
Qed.
(** The bound 900005 is the best possible: it is reached. *)
Theorem C30_largest_block_reached : exists data out, bytes data /\ N.of_nat (length data) = 720008%N /\
  (forall p n, 1 <= n -> compressed p n Single data out) /\
  (forall p, blocks_are p Single [data] out) /\ N.of_nat (length (coded data)) = 900005%N.
Proof.
  remember (N.to_nat 179997) as m eqn:Em. assert (N.of_nat m = 179997%N) as Hm by (rewrite Em; apply N2Nat.id). clear Em.
  pose proof (@largest_bytes m Hm) as HB. pose proof (@largest_cuts m Hm) as HC.
  destruct (@stream_made Single (largest m) [largest m] HB HC (single_encodable HB HC)) as (bs & out & k & H2 & Hk & HO & HR & E).
  exists (largest m), out. split; auto. split; [apply largest_length; auto|]. split; auto.
  split; [intros p; apply compressed_blocks with (n := 1) (data := largest m); auto|]. apply largest_coded; auto.
Qed.
(** The hypotheses are met by every input with the Single strategy (C31). *)
Example C30_case : exists rd w, delivers rd [7; 7; 7; 7; 7] /\ encode_returns Checked rd (good_sink []) 2 Single (Ok tt, w).
Proof.
  destruct (delivers_exists [7; 7; 7; 7; 7]) as (rd & HD).
  destruct (@C31_never_panics [7; 7; 7; 7; 7]) as (out & _ & H); [small_bytes|].
  exists rd, (good_sink out). split; auto. apply H; auto.
Qed.
Print Assumptions C30_block_size_refuted.
Print Assumptions C30_block_size_partial.
Print Assumptions C30_largest_block_reached.

(** ** C57: the code lengths chosen for a block *)
(** how often a symbol of the coding alphabet occurs in a block: once for the end of block *)
Definition occurrences (symbols : list zsym) (h : hsym) : N :=
  match h with Normal s => N.of_nat (length (filter (fun s' => hsym_eqb (Normal s') (Normal s)) symbols)) | EoB => 1 end.
(** the bits a block needs for its symbols with codes of the given lengths *)
Definition code_cost (used : nat) (symbols : list zsym) (lengths : list nat) : N :=
  total_cost (map (occurrences symbols) (coding_alphabet used)) lengths.
(** lengths a code for this alphabet may have *)
Definition usable_lengths (used : nat) (lengths : list nat) : Prop :=
  length lengths = used + 2 /\ Forall (fun l => 1 <= l <= 17) lengths /\ kraft17 lengths <= 2 ^ 17.

Lemma three_bits : kraft17 (repeat 3 8) <= 2 ^ 17.
Proof.
  change (kraft17 (repeat 3 8)) with (kraft 17 (repeat 3 8)). rewrite kraft_repeat. change (17 - 3) with 14.
  change (2 ^ 17) with (2 ^ (3 + 14)). rewrite Nat.pow_add_r. change (2 ^ 3) with 8. lia.
Qed.
(** Seven symbols that occur once each and the end of block need 24 bits, the encoder uses 27. *)
Theorem C57_best_code_refuted : exists enc used symbols stats T bits other,
  1 <= used <= 256 /\ Forall (fun i => i < used) enc /\
  zle_with_strategy Single enc used = Ok (symbols, stats) /\
  (forall p, map_res (fun f => let! t := compute_huffman f in canonicalize p t) (fst stats) = Ok [T; T]) /\
  encode_data [T; T] (snd stats) symbols = Ok bits /\
  usable_lengths used other /\ (code_cost used symbols other < N.of_nat (length bits))%N.
Proof.
  exists [0; 1; 2; 3; 4; 5; 0; 0], 6, [RunA; Number 1; Number 2; Number 3; Number 4; Number 5; RunB].
  eexists _, _, _, (repeat 3 8).
  split; [lia|]. split; [repeat constructor; lia|]. split; [vm_compute; reflexivity|].
  split; [intros []; vm_compute; reflexivity|]. split; [vm_compute; reflexivity|].
  split; [|vm_compute; reflexivity].
  split; [reflexivity|]. split; [repeat constructor; lia|]. apply three_bits.
Qed.

(** What holds: the excess is bounded by the square of the size of the alphabet, however long the block is. *)
Theorem C57_best_code_partial : forall enc used,
  1 <= used <= 256 -> Forall (fun i => i < used) enc -> (N.of_nat (length enc) <= 900005)%N ->
  exists symbols stats T bits,
    zle_with_strategy Single enc used = Ok (symbols, stats) /\
    (forall p, map_res (fun f => let! t := compute_huffman f in canonicalize p t) (fst stats) = Ok [T; T]) /\
    encode_data [T; T] (snd stats) symbols = Ok bits /\
    forall other, usable_lengths used other ->
      (N.of_nat (length bits) <= code_cost used symbols other + 8 * (N.of_nat used + 1) * (N.of_nat used + 2) + 32)%N.
Proof.
  intros enc used Hu HF HL. destruct (@single_best used enc Hu HF) as (freqs & sel & T & bits & E & ET & ED & H); [lia|].
  exists (zsyms 0 enc), ([freqs; freqs], sel), T, bits. split; auto. split; auto. split; auto.
  intros other (LO & FO & KO). specialize (H other LO FO KO). unfold code_cost. change (coding_alphabet used) with (alphabet used).
  rewrite alphabet_indices by lia. rewrite map_app. cbn [map occurrences].
  unfold symbol_counts in H.
  replace (map (occurrences (zsyms 0 enc)) (map alphabet_index (seq 0 (used + 1)))) with (map (occ (zsyms 0 enc)) (map alphabet_index (seq 0 (used + 1)))); [exact H|].
  rewrite !map_map. apply map_ext. intros i. destruct i as [|[|i]]; reflexivity.
Qed.
Example C57_case : 1 <= 6 <= 256 /\ Forall (fun i => i < 6) [0; 1; 2; 3; 4; 5; 0; 0] /\ usable_lengths 6 (repeat 3 8).
Proof. split; [lia|]. split; [repeat constructor; lia|]. split; [reflexivity|]. split; [repeat constructor; lia|]. apply three_bits. Qed.
Print Assumptions C57_best_code_refuted.
Print Assumptions C57_best_code_partial.

(** ** C58: the output is not much longer than the input *)
Lemma be_length n v : length (be_bits n v) = n.
Proof. unfold be_bits. rewrite map_length, seq_length. reflexivity. Qed.
Lemma frames_sum p st m A B D ps bodies :
  Forall2 (made p st) ps bodies ->
  (forall q body, In q ps -> made p st q body -> m * N.of_nat (length (framed (q, body))) <= A + B * N.of_nat (length (coded q)))%N ->
  (A <= D * 900000)%N ->
  (forall pre q post, ps = pre ++ q :: post -> post <> [] -> (900000 <= N.of_nat (length (coded q)))%N) ->
  (m * N.of_nat (length (concat (map framed (combine ps bodies)))) <= A + (B + D) * N.of_nat (length (concat (map coded ps))))%N.
Proof.
  intros H HB HA. induction H as [|q body ps bodies Hq H IH]; intros HF; cbn [combine map concat].
  - cbn [length]. lia.
  - pose proof (HB q body (or_introl eq_refl) Hq) as H1.
    rewrite !app_length, !Nat2N.inj_add. destruct ps as [|q2 ps].
    + inversion H; subst. cbn [combine map concat length]. lia.
    + assert (900000 <= N.of_nat (length (coded q)))%N as H2 by (apply (HF [] q (q2 :: ps)); [reflexivity|discriminate]).
      assert (m * N.of_nat (length (concat (map framed (combine (q2 :: ps) bodies)))) <= A + (B + D) * N.of_nat (length (concat (map coded (q2 :: ps)))))%N as H3.
      { apply IH; [intros; apply HB; [right|]; auto|]. intros pre q' post E HP. apply (HF (q :: pre) q' post); [rewrite E; reflexivity|auto]. }
      nia.
Qed.
Lemma coded_sum ps : (4 * N.of_nat (length (concat (map coded ps))) <= 5 * N.of_nat (length (concat ps)))%N.
Proof.
  induction ps as [|q ps IH]; [cbn; lia|]. cbn [map concat]. rewrite !app_length, !Nat2N.inj_add. pose proof (coded_growth q). lia.
Qed.
Lemma expansion p st m A B D data n out : bytes data -> 1 <= n -> compressed p n st data out ->
  (forall q bits c, bytes q -> q <> [] -> (N.of_nat (length (coded q)) <= 1000000)%N ->
     generate_block_data p (crc32 q) (coded q) st = Ok (bits, c) -> (m * N.of_nat (length bits) <= A + B * N.of_nat (length (coded q)))%N) ->
  (A <= D * 900000)%N ->
  (32 * m * N.of_nat (length out) <= 4 * (119 * m + A) + 5 * (B + D) * N.of_nat (length data))%N.
Proof.
  intros HB Hn HC HG HA. destruct (cuts_exists data) as (ps & HP). destruct (cuts_pieces HP) as (EC & HN & HL).
  assert (Forall bytes ps) as HBP by (apply Forall_concat; rewrite EC; auto).
  pose proof (compressed_inv HP Hn HC) as ES.
  destruct (@seq_frames p st ps (good_sink out) HBP ES) as (_ & bodies & k & HM & Hk & HO & EB). cbn [good_sink w_out] in *.
  assert (8 * length out = length (frame_bits ps bodies) + k) as LO.
  { rewrite <- bytes_bits_length, EB, app_length, repeat_length. reflexivity. }
  assert (m * N.of_nat (length (concat (map framed (combine ps bodies)))) <= A + (B + D) * N.of_nat (length (concat (map coded ps))))%N as HS.
  { eapply frames_sum; eauto; [|apply (cuts_full HP)]. intros q body Hq Hm. rewrite Forall_forall in *.
    eapply HG; eauto. specialize (HL q Hq). unfold RLE_LIMIT in HL. lia. }
  pose proof (coded_sum ps) as HK. rewrite EC in HK.
  unfold frame_bits in LO. rewrite !app_length, !bytes_bits_length, be_length in LO. cbn [length footer_magic] in LO.
  remember (N.of_nat (length (concat (map framed (combine ps bodies))))) as F.
  assert (8 * N.of_nat (length out) <= F + 119)%N as LO2 by lia.
  nia.
Qed.

(** Whatever the bytes: with the Single strategy at most 31 percent and 36 kilobytes are
    added, and short inputs (where the second bound is the better one) grow to at most 2.67 times
    their length and 2200 bytes; with up to seven k-means tables the factor is 2.7. *)
Theorem C58_expansion : forall data, bytes data -> forall p n out, 1 <= n ->
  (compressed p n Single data out ->
    100 * N.of_nat (length out) <= 131 * N.of_nat (length data) + 3600000 /\
    100 * N.of_nat (length out) <= 267 * N.of_nat (length data) + 220000)%N /\
  (forall tables rounds, 1 <= tables <= 7 -> compressed p n (BlockWise tables rounds) data out ->
    (100 * N.of_nat (length out) <= 270 * N.of_nat (length data) + 760000)%N).
Proof.
  intros data HB p n out Hn. split; [intros HC; split|intros k it Hk HC].
  - pose proof (@expansion p Single 3200 906243300 25714 1007 data n out HB Hn HC) as H.
    assert (32 * 3200 * N.of_nat (length out) <= 4 * (119 * 3200 + 906243300) + 5 * (25714 + 1007) * N.of_nat (length data))%N; [|lia].
    apply H; [|lia]. intros q bits c Hq Hne HL EG.
    destruct (@single_size p (crc32 q) (coded q) bits c (coded_bytes Hq) (coded_nonempty Hne) HL (crc32_lt Hq) EG); auto.
  - pose proof (@expansion p Single 50 872600 851 1 data n out HB Hn HC) as H.
    assert (32 * 50 * N.of_nat (length out) <= 4 * (119 * 50 + 872600) + 5 * (851 + 1) * N.of_nat (length data))%N; [|lia].
    apply H; [|lia]. intros q bits c Hq Hne HL EG.
    destruct (@single_size p (crc32 q) (coded q) bits c (coded_bytes Hq) (coded_nonempty Hne) HL (crc32_lt Hq) EG); auto.
  - pose proof (@expansion p (BlockWise k it) 50 3002607 857 4 data n out HB Hn HC) as H.
    assert (32 * 50 * N.of_nat (length out) <= 4 * (119 * 50 + 3002607) + 5 * (857 + 4) * N.of_nat (length data))%N; [|lia].
    apply H; [|lia]. intros q bits c Hq Hne HL EG.
    destruct (@block_any p (crc32 q) (coded q) (BlockWise k it) (coded_bytes Hq) (coded_nonempty Hne) HL (crc32_lt Hq)) as
      (bits' & ptr & col & enc & used & freqs & sel & tables & sb & dbits & E & FE & ST & ET & LT & ES & ED & LD & LS & LB).
    { cbn [table_count]. lia. }
    rewrite EG in E. apply ok_pair_inv in E. destruct E as (-> & _). cbn [table_count] in *.
    pose proof FE as (_ & _ & _ & _ & _ & LU & _ & LE & _ & FF & _). pose proof (zsyms_length 0 enc) as LZ. cbn [Nat.add] in LZ.
    destruct ST as (_ & _ & _ & SB & _).
    assert (50 * ((length (zsyms 0 enc) + 1) / 50) <= length (coded q) + 1) as HD.
    { etransitivity; [apply Nat.mul_div_le; lia|]. lia. }
    nia.
Qed.
Example C58_case : exists out, compressed Checked 2 Single [7; 7; 7; 7; 7] out.
Proof. destruct (@C31_never_panics [7; 7; 7; 7; 7]) as (out & _ & H); [small_bytes|]. exists out. intros rd HD. apply H; auto. Qed.
Print Assumptions C58_expansion.

(** ** C59: the k-means strategy works with any number of tables but none *)
Theorem C59_kmeans_runs : forall data tables rounds, bytes data ->
  (1 <= tables \/ data = [] ->
    exists out, bytes out /\ forall p n, 1 <= n -> compressed p n (BlockWise tables rounds) data out) /\
  (tables = 0 -> data <> [] ->
    forall p n rd, 1 <= n -> delivers rd data ->
    exists w, encode_returns p rd (good_sink []) n (BlockWise tables rounds) (Panic, w)).
Proof.
  intros data k it HB. split.
  - intros [Hk| ->]; [apply stream_runs; auto|]. exists empty_stream. split; [small_bytes|]. intros p n Hn. apply C32_empty_input; auto.
  - intros -> Hne p n rd Hn HD. apply stream_no_tables with (data := data); auto.
Qed.
Example C59_case : bytes [1; 2; 3] /\ [1; 2; 3] <> [] /\ 1 <= 300.
Proof. split; [small_bytes|]. split; [discriminate|lia]. Qed.
Print Assumptions C59_kmeans_runs.

(** * How long the encoder's output can get *)
From Verif Require Import Base BaseFacts Bitwise BitwiseFacts SpecBits SpecCrc SpecRle SpecStream Rle RleFacts Crc32 Crc32Facts
  SpecBwt Bwt BwtFacts Mtf MtfFacts Zle ZleFacts KMeans SymbolStatistics PackageMerge PackageMergeFacts Huffman HuffmanFacts
  CodeTable CodeTableFacts SymbolMap SymbolMapFacts Selectors SelectorsFacts GroupFacts CostFacts BlockEncoder BlockFacts Stream StreamFacts
  RoundTripFacts EncodeFacts.
From Coq Require Import Sorting.Sorted Permutation.

(** ** code tables: at most 33 bits per symbol *)
Lemma delta_bits_length v ls : 1 <= v <= 17 -> Forall (fun l => 1 <= l <= 17) ls ->
  length (flat_map delta_bits (delta_loop v ls)) <= 33 * length ls.
Proof.
  intros Hv HF. revert v Hv. induction HF as [|l ls Hl HF IH]; intros v Hv; [cbn; lia|].
  cbn [delta_loop length]. rewrite flat_map_app, app_length. specialize (IH l Hl).
  assert (forall d n, length (flat_map delta_bits (repeat d n ++ [Stop])) <= 2 * n + 1) as G.
  { intros d n. rewrite flat_map_app, app_length. cbn [flat_map delta_bits app length].
    assert (length (flat_map delta_bits (repeat d n)) <= 2 * n); [|lia].
    induction n as [|n IHn]; [cbn; lia|]. cbn [repeat flat_map]. rewrite app_length. destruct d; cbn [delta_bits length] in *; lia. }
  assert (length (flat_map delta_bits (delta_step v l)) <= 33); [|lia].
  unfold delta_step. destruct (Nat.compare v l).
  - cbn. lia.
  - pose proof (G Increase (l - v)). lia.
  - pose proof (G Decrease (v - l)). lia.
Qed.
Lemma table_bits_length ls : Forall (fun l => 1 <= l <= 17) ls -> length (encode_bit_lengths ls) <= 5 + 33 * length ls.
Proof.
  intros HF. destruct ls as [|l ls]; [cbn; lia|]. unfold encode_bit_lengths. cbn [encode_delta].
  apply Forall_cons_iff in HF as (Hl & HF). pose proof (delta_bits_length Hl HF) as H.
  rewrite app_length. cbn [flat_map delta_bits app length].
  rewrite pad_n_length by (change (2 ^ N.of_nat 5)%N with 32%N; lia). lia.
Qed.
Lemma tables_bits_length used tables : good_tables used tables -> 1 <= used <= 256 ->
  length (flat_map encode_code_table tables) <= (5 + 33 * (used + 2)) * length tables.
Proof.
  intros HG Hu. assert (forall T, In T tables -> length (encode_code_table T) <= 5 + 33 * (used + 2)) as H.
  { intros T HT. rewrite (@encode_code_table_bits used T tables HG HT). unfold good_tables in HG. rewrite Forall_forall in HG.
    destruct (HG T HT) as (A & B & _). pose proof (table_bits_length B) as L.
    assert (length (code_lengths T) = used + 2) as LC; [|rewrite LC in L; auto].
    unfold code_lengths. rewrite map_length, <- (map_length snd), A, alphabet_length; lia. }
  clear HG. induction tables as [|T tables IH]; [cbn; lia|]. cbn [flat_map length]. rewrite app_length.
  specialize (IH (fun x Hx => H x (or_intror Hx))). specialize (H T (or_introl eq_refl)). lia.
Qed.

(** ** symbol map, selectors *)
Lemma map_bits_length m : length (map_bits m) <= 272.
Proof.
  unfold map_bits. rewrite app_length, map_length, seq_length.
  assert (forall l, length (flat_map (fun r => if region_used m r then map m (seq (16 * r) 16) else []) l) <= 16 * length l) as H.
  { induction l as [|r l IH]; [cbn; lia|]. cbn [flat_map]. rewrite app_length. change (length (r :: l)) with (S (length l)).
    destruct (region_used m r); [rewrite map_length, seq_length|cbn [length]]; lia. }
  specialize (H (seq 0 16)). rewrite seq_length in H. lia.
Qed.
Lemma sorted_below k l : StronglySorted lt l -> Forall (fun x => x < k) l -> length l <= k.
Proof.
  intros HS HF. rewrite <- (seq_length k 0). apply NoDup_incl_length.
  - clear HF. induction HS as [|x l HS IH HX]; constructor; auto. intros Hin. rewrite Forall_forall in HX. apply HX in Hin. lia.
  - intros x Hx. rewrite Forall_forall in HF. apply in_seq. apply HF in Hx. lia.
Qed.
Lemma selectors_length sel k : Forall (fun s => s < k) sel -> k <= 256 ->
  exists bits, create_selectors sel = Ok (bits, length sel) /\ length bits <= k * length sel.
Proof.
  intros HF Hk. assert (bytes sel) as HB by (eapply Forall_impl; [|exact HF]; unfold is_byte; cbv beta; intros; lia).
  destruct (mtf_spec HB) as (enc & used & E & SU & IU & LU & LE & FE & _).
  unfold create_selectors. rewrite E. cbn [bind]. eexists. split; [reflexivity|]. rewrite <- LE.
  assert (length used <= k) as HU.
  { apply sorted_below; auto. apply Forall_forall. intros x Hx. apply IU in Hx. rewrite Forall_forall in HF. auto. }
  clear - FE HU. induction FE as [|x enc Hx FE IH]; [cbn; lia|]. cbn [flat_map length]. rewrite app_length.
  unfold unary at 1. rewrite app_length, repeat_length. cbn [length]. lia.
Qed.

(** ** the coded symbols *)
(** sum of the code lengths, when the group tables are chosen by [sel] *)
Lemma data_any tables sel syms used : 1 <= used -> good_tables used tables -> Forall (sym_below used) syms ->
  length syms / 50 < length sel -> Forall (fun s => s < length tables) sel ->
  exists bits, encode_data tables sel syms = Ok bits /\ length bits <= 17 * (length syms + 1).
Proof.
  intros Hu HG HS HL HF. unfold encode_data.
  assert (forall i, i / 50 < length sel -> exists T, table_at tables sel i = Ok T /\ In T tables) as HT.
  { intros i Hi. unfold table_at. destruct (nth_error sel (i / 50)) as [s|] eqn:E; [|apply nth_error_None in E; lia].
    rewrite (get_at_some _ _ E). cbn [bind]. apply nth_error_In in E. rewrite Forall_forall in HF. apply HF in E.
    destruct (nth_error tables s) as [T|] eqn:E2; [|apply nth_error_None in E2; lia].
    exists T. split; [apply get_at_some; auto|eapply nth_error_In; eauto]. }
  assert (forall T c s, In T tables -> In (c, s) T -> length c <= 17) as HC.
  { intros T c s Hin Hc. unfold good_tables in HG. rewrite Forall_forall in HG. destruct (HG T Hin) as (_ & B & _).
    rewrite Forall_forall in B. assert (In (length c) (code_lengths T)) as H; [|apply B in H; lia].
    unfold code_lengths. apply in_map_iff. exists (c, s). auto. }
  assert (forall syms i, (i + length syms) / 50 < length sel -> Forall (sym_below used) syms ->
    exists codes, map_res (code_at tables sel) (enumerate_from i syms) = Ok codes /\ length (concat codes) <= 17 * length syms) as HM.
  { clear HS HL syms. induction syms as [|s syms IH]; intros i Hi HS; [exists []; cbn; split; auto|].
    apply Forall_cons_iff in HS as (Hs & HS). cbn [enumerate_from map_res length] in *.
    destruct (HT i) as (T & ET & Hin).
    { eapply Nat.le_lt_trans; [|exact Hi]. apply Nat.div_le_mono; lia. }
    unfold code_at at 1. cbn [fst snd]. rewrite ET. cbn [bind].
    destruct (IH (S i)) as (codes & -> & LC); auto. { replace (S i + length syms) with (i + S (length syms)) by lia. auto. }
    cbn [bind]. eexists. split; [reflexivity|]. cbn [concat]. rewrite app_length.
    assert (In (Normal s) (map snd T)) as HI.
    { assert (covers T [s]) as (CV & _) by (eapply table_covers; eauto). apply Forall_cons_iff in CV. tauto. }
    pose proof (@good_table_of used T tables HG Hin) as (_ & ND & _).
    pose proof (symbol_code_in T (Normal s) ND HI) as HX. apply (HC _ _ _ Hin) in HX. lia. }
  destruct (HM syms 0) as (codes & EC & LC); auto.
  change (enumerate syms) with (enumerate_from 0 syms). unfold code_at in EC. rewrite EC. cbn [bind].
  destruct (HT (length syms) HL) as (T & -> & Hin). cbn [bind].
  pose proof (@good_table_of used T tables HG Hin) as (_ & ND & _).
  assert (covers T []) as (_ & CE) by (eapply table_covers; eauto).
  apply in_map_iff in CE as ([c e] & Ee & Hc). cbn [snd] in Ee. subst e.
  rewrite (@find_symbol T c EoB ND Hc). cbn [of_option bind fst]. eexists. split; [reflexivity|]. rewrite app_length.
  apply (HC _ _ _ Hin) in Hc. lia.
Qed.

(** ** a block, any strategy *)
Definition stats_of (st : strategy) (used : nat) (enc : list nat) (freqs : list (list N)) (sel : list nat) : Prop :=
  zle_with_strategy st enc used = Ok (zsyms 0 enc, (freqs, sel)) /\
  Forall (fun f => length f = used + 1) freqs /\ length freqs = table_count st /\
  length sel <= (length (zsyms 0 enc) + 1) / 50 + 1 /\ length (zsyms 0 enc) / 50 < length sel /\ Forall (fun s => s < table_count st) sel.
Lemma stats_any st used enc : 1 <= used -> Forall (fun i => i < used) enc -> (N.of_nat (length enc) <= 1000000)%N ->
  1 <= table_count st <= 256 -> exists freqs sel, stats_of st used enc freqs sel.
Proof.
  intros Hu HF HL Hk. destruct st as [k it|]; cbn [table_count] in Hk.
  - destruct (@blockwise_stats used enc k it Hu HF ltac:(lia)) as (freqs & sel & E & A & B & C & D & _).
    exists freqs, sel. unfold stats_of. cbn [table_count]. repeat (split; [solve [auto; lia]|]). split; [|auto]. rewrite C.
    assert (length (zsyms 0 enc) / 50 <= (length (zsyms 0 enc) + 1) / 50) by (apply Nat.div_le_mono; lia). lia.
  - destruct (@single_stats used enc Hu HF HL) as (freqs & sel & E & (A & B & C & D) & F & G).
    exists freqs, sel. unfold stats_of. cbn [table_count]. rewrite C.
    assert (length (zsyms 0 enc) / 50 <= (length (zsyms 0 enc) + 1) / 50) by (apply Nat.div_le_mono; lia).
    repeat (split; [solve [auto; lia]|]). rewrite G. apply Forall_forall. intros x Hx. apply repeat_spec in Hx. lia.
Qed.

Theorem block_any p crc data st : bytes data -> data <> [] -> (N.of_nat (length data) <= 1000000)%N ->
  (crc < 4294967296)%N -> 1 <= table_count st < 8 ->
  exists bits ptr col enc used freqs sel tables sb dbits, generate_block_data p crc data st = Ok (bits, crc) /\
    front_end data ptr col enc used /\ stats_of st (length used) enc freqs sel /\
    tables_of p freqs = Ok tables /\ length tables = table_count st /\ create_selectors sel = Ok (sb, length sel) /\
    encode_data tables sel (zsyms 0 enc) = Ok dbits /\
    length dbits <= 17 * (length data + 1) /\ length sb <= table_count st * length sel /\
    (N.of_nat (length bits) <= 395 + N.of_nat (length sb) + 8519 * N.of_nat (table_count st) + N.of_nat (length dbits))%N.
Proof.
  intros HB Hne HL Hc Hk. destruct (front_end_ok HB Hne) as (ptr & col & enc & used & FE).
  pose proof FE as (E & SP & EM & SU & IU & LU & BU & LE & LC & FF & IE).
  destruct (@stats_any st (length used) enc) as (freqs & sel & ST); auto; try lia.
  pose proof ST as (EZ & SF & SL & SB & SG & SS).
  destruct (tables_ok LU SF) as (tables & ET & LT & GT).
  destruct (@selectors_length sel (table_count st) SS ltac:(lia)) as (sb & ES & LS).
  assert (Forall (sym_below (length used)) (zsyms 0 enc)) as FB by (apply zsyms_below; auto).
  destruct (@data_any tables sel (zsyms 0 enc) (length used)) as (dbits & ED & LD); auto; [lia|rewrite LT, SL; auto|].
  pose proof (zsyms_length 0 enc) as LZ.
  destruct SP as (i & sa & SP). assert (ptr < length data) as HP by (cbv zeta in SP; tauto).
  exists (block_header crc (N.of_nat ptr mod 4294967296) ++ map_bits (mem used) ++
    convert_to_code_pad_to_n_bits (N.of_nat (length tables)) 3 ++ convert_to_code_pad_to_n_bits (N.of_nat (length sel)) 15 ++
    sb ++ flat_map encode_code_table tables ++ dbits).
  exists ptr, col, enc, used, freqs, sel, tables, sb, dbits.
  assert (N.of_nat (length sel) < 32768)%N as HS15.
  { assert ((length (zsyms 0 enc) + 1) / 50 <= (length data + 1) / 50) by (apply Nat.div_le_mono; lia).
    assert (N.of_nat ((length data + 1) / 50) <= 20001)%N.
    { rewrite Nat2N.inj_div. change (N.of_nat 50) with 50%N. apply N.lt_succ_r. apply N.div_lt_upper_bound; lia. }
    lia. }
  split.
  { unfold generate_block_data. rewrite E. cbn [bind]. rewrite EM. cbn [bind]. rewrite EZ. cbn [bind].
    unfold tables_of in ET. rewrite ET. cbn [bind]. rewrite ES. cbn [bind]. rewrite write_symbol_table_spec by auto. cbn [bind].
    rewrite N.mod_small by lia. rewrite pad15_ok by lia. cbn [bind]. rewrite ED. reflexivity. }
  repeat (split; [solve [auto; lia]|]).
  rewrite N.mod_small by lia. rewrite block_header_bits by lia.
  rewrite !app_length, bytes_bits_length. rewrite !pad_n_length.
  2: change (2 ^ N.of_nat 15)%N with 32768%N; lia.
  2: change (2 ^ N.of_nat 3)%N with 8%N; lia.
  2: change (2 ^ N.of_nat 24)%N with 16777216%N; lia.
  2: change (2 ^ N.of_nat 32)%N with 4294967296%N; lia.
  pose proof (map_bits_length (mem used)) as LM. pose proof (tables_bits_length GT LU) as LB.
  assert (N.of_nat ((5 + 33 * (length used + 2)) * length tables) <= 8519 * N.of_nat (table_count st))%N as LB2 by nia.
  rewrite !Nat2N.inj_add. cbn [length block_magic]. lia.
Qed.

(** ** the single-table strategy: the cost of the code *)
Lemma update_cost l gl i x l' f : length l <= length gl -> nth_error l i = Some f -> update l i x = Some l' ->
  (cost l' gl + f * N.of_nat (nth i gl 0%nat) = cost l gl + x * N.of_nat (nth i gl 0%nat))%N.
Proof.
  revert gl i l'; induction l as [|y l IH]; intros [|g gl] [|i] l' HL EF EU; cbn [nth_error update length] in *; try discriminate; try lia.
  - injection EF as <-. injection EU as <-. unfold cost, sumN. cbn [combine map fst snd fold_right nth]. lia.
  - destruct (update l i x) as [l2|] eqn:E; [|discriminate]. injection EU as <-.
    specialize (IH gl i l2 ltac:(lia) EF E). unfold cost, sumN in *. cbn [combine map fst snd fold_right nth]. lia.
Qed.
Lemma report_cost gl m s m' : length (sg_freq m) <= length gl -> single_report m s = Ok m' ->
  length (sg_freq m') = length (sg_freq m) /\
  (cost (sg_freq m') gl = cost (sg_freq m) gl + N.of_nat (nth (symbol_index s) gl 0%nat))%N.
Proof.
  intros HL H. unfold single_report in H. apply bind_ok in H as (f & EF & H). apply bind_ok in H as (fr & EU & H). injection H as <-.
  cbn [sg_freq]. unfold get_at in EF. destruct (nth_error (sg_freq m) (symbol_index s)) as [f0|] eqn:E0; [|discriminate]. injection EF as <-.
  pose proof (set_at_inv _ _ _ EU) as (_ & HLen & _). split; auto.
  unfold set_at in EU. destruct (update (sg_freq m) (symbol_index s) (f0 + 1)%N) as [l2|] eqn:E; [|discriminate]. injection EU as <-.
  pose proof (@update_cost _ gl _ _ _ _ HL E0 E) as H. lia.
Qed.
Lemma fold_cost gl syms : forall m m', length (sg_freq m) <= length gl -> fold_res single_report syms m = Ok m' ->
  (cost (sg_freq m') gl = cost (sg_freq m) gl + sumN (map (fun s => N.of_nat (nth (symbol_index s) gl 0%nat)) syms))%N.
Proof.
  induction syms as [|s syms IH]; intros m m' HL H; cbn [fold_res map] in *.
  - injection H as <-. unfold sumN. cbn [fold_right]. lia.
  - apply bind_ok in H as (m1 & E1 & H). destruct (report_cost _ _ _ HL E1) as (L1 & C1).
    rewrite (IH m1 m') by (auto; lia). rewrite C1. unfold sumN. cbn [fold_right]. lia.
Qed.
Lemma cost_zero n gl : cost (repeat 0%N n) gl = 0%N.
Proof.
  unfold cost, sumN. revert gl; induction n as [|n IH]; intros [|g gl]; try reflexivity. cbn [repeat combine map fst snd fold_right].
  rewrite IH. lia.
Qed.
Lemma cost_ones l n : length l <= n -> cost l (repeat 1 n) = sumN l.
Proof.
  unfold cost, sumN. revert n; induction l as [|x l IH]; intros [|n] HL; cbn [length] in HL; try lia; [reflexivity..|].
  cbn [repeat combine map fst snd fold_right]. rewrite IH by lia. lia.
Qed.

(** the code length of a symbol, by index *)
Lemma code_length_at used T s : map snd T = alphabet used -> NoDup (map snd T) -> 1 <= used -> sym_below used s ->
  length (symbol_code T (Normal s)) = nth (symbol_index s) (code_lengths T) 0.
Proof.
  intros ET ND Hu Hs. assert (nth_error (map snd T) (symbol_index s) = Some (Normal s)) as E.
  { rewrite ET, alphabet_indices by auto. pose proof (symbol_index_lt _ Hs Hu) as Hi.
    rewrite nth_error_app1 by (rewrite map_length, seq_length; auto).
    rewrite nth_error_map, (nth_error_nth' _ 0) by (rewrite seq_length; auto). rewrite seq_nth by auto. cbn [option_map Nat.add].
    f_equal. destruct s as [| |v]; cbn [symbol_index]; try reflexivity. cbn [sym_below] in Hs.
    destruct v as [|v]; [lia|]. cbn [Nat.add]. rewrite Nat.add_1_r. cbn [alphabet_index]. cbn [Nat.sub]. rewrite ?Nat.sub_0_r. reflexivity. }
  rewrite nth_error_map in E. destruct (nth_error T (symbol_index s)) as [[c s']|] eqn:E2; [|discriminate]. cbn [option_map snd] in E.
  injection E as ->. unfold symbol_code. rewrite (@find_symbol T c (Normal s) ND) by (eapply nth_error_In; eauto). cbn [fst].
  unfold code_lengths. symmetry. apply nth_error_nth. rewrite nth_error_map, E2. reflexivity.
Qed.

Lemma data_single T rest n syms used bits : good_tables used (T :: rest) -> 1 <= used -> Forall (sym_below used) syms ->
  length syms / 50 < n -> encode_data (T :: rest) (repeat 0 n) syms = Ok bits ->
  (N.of_nat (length bits) <= sumN (map (fun s => N.of_nat (nth (symbol_index s) (code_lengths T) 0%nat)) syms) + 17)%N.
Proof.
  intros HG Hu HS HN H. pose proof (@good_table_of used T _ HG (or_introl eq_refl)) as (_ & ND & _).
  apply Forall_cons_iff in HG as ((ET & BT & _) & _).
  assert (forall i, i / 50 < n -> table_at (T :: rest) (repeat 0 n) i = Ok T) as HT.
  { intros i Hi. unfold table_at. rewrite (@get_at_some _ (repeat 0 n) (i / 50) 0); [reflexivity|].
    rewrite (nth_error_nth' _ 0) by (rewrite repeat_length; auto). f_equal. apply nth_repeat. }
  assert (forall syms i, (i + length syms) / 50 < n -> Forall (sym_below used) syms ->
    exists codes, map_res (code_at (T :: rest) (repeat 0 n)) (enumerate_from i syms) = Ok codes /\
      N.of_nat (length (concat codes)) = sumN (map (fun s => N.of_nat (nth (symbol_index s) (code_lengths T) 0%nat)) syms)) as HM.
  { clear H HS HN syms. induction syms as [|s syms IH]; intros i Hi HS; [exists []; split; reflexivity|].
    apply Forall_cons_iff in HS as (Hs & HS). cbn [enumerate_from map_res length map] in *.
    unfold code_at at 1. cbn [fst snd]. rewrite HT.
    2:{ eapply Nat.le_lt_trans; [|exact Hi]. apply Nat.div_le_mono; lia. }
    cbn [bind]. destruct (IH (S i)) as (codes & -> & LC); auto. { replace (S i + length syms) with (i + S (length syms)) by lia. auto. }
    cbn [bind]. eexists. split; [reflexivity|]. cbn [concat]. rewrite app_length, Nat2N.inj_add, LC.
    rewrite (@code_length_at used T s) by auto. unfold sumN. cbn [fold_right]. reflexivity. }
  unfold encode_data in H. destruct (HM syms 0) as (codes & EC & LC); auto.
  change (enumerate syms) with (enumerate_from 0 syms) in H. unfold code_at in EC. rewrite EC in H. cbn [bind] in H.
  rewrite HT in H by auto. cbn [bind] in H. apply bind_ok in H as (e & EE & H). injection H as <-.
  destruct (find_first (fun e => hsym_eqb (snd e) EoB) T) as [e0|] eqn:EF; [|discriminate]. injection EE as <-.
  apply find_first_some in EF as (EF & _). rewrite app_length, Nat2N.inj_add, LC.
  assert (In (length (fst e0)) (code_lengths T)) as HI by (unfold code_lengths; apply in_map_iff; exists e0; auto).
  rewrite Forall_forall in BT. apply BT in HI. lia.
Qed.

(** what a block of the single-table strategy costs *)
Theorem single_size p crc data bits c : bytes data -> data <> [] -> (N.of_nat (length data) <= 1000000)%N ->
  (crc < 4294967296)%N -> generate_block_data p crc data Single = Ok (bits, c) ->
  (50 * N.of_nat (length bits) <= 872600 + 851 * N.of_nat (length data))%N /\
  (3200 * N.of_nat (length bits) <= 906243300 + 25714 * N.of_nat (length data))%N.
Proof.
  intros HB Hne HL Hc EG.
  destruct (@block_any p crc data Single HB Hne HL Hc) as (bits' & ptr & col & enc & used & freqs & sel & tables & sb & dbits & E & FE & ST & ET & LT & ES & ED & LD & LS & LB).
  { cbn [table_count]. lia. }
  rewrite EG in E. apply ok_pair_inv in E. destruct E as (-> & _). cbn [table_count] in *.
  pose proof FE as (_ & _ & _ & _ & _ & LU & _ & LE & _ & FF & _). pose proof (zsyms_length 0 enc) as LZ. cbn [Nat.add] in LZ.
  destruct ST as (EZ & SF & SL & SB & SG & SS).
  assert (Forall (sym_below (length used)) (zsyms 0 enc)) as FB by (apply zsyms_below; auto).
  (* the statistics *)
  pose proof EZ as EZ'. cbn [zle_with_strategy] in EZ'. rewrite zle_transform_eq in EZ'.
  destruct (@single_fold (length used) (zsyms 0 enc ++ [RunA])) with (m := single_create (length used)) as (m & EM & LM & CM); auto; try lia.
  { apply sym_below_app; auto. }
  { cbn [single_create sg_freq]. apply repeat_length. }
  rewrite EM in EZ'. cbn [bind] in EZ'. apply ok_pair_inv in EZ'. destruct EZ' as (_ & EZ'). unfold single_finalize in EZ'.
  injection EZ' as EF ESel.
  destruct (@single_stats (length used) enc) as (freqs' & sel' & E1 & _ & _ & E2); auto; try lia.
  rewrite EZ in E1. apply ok_pair_inv in E1. destruct E1 as (_ & E1). injection E1 as _ <-.
  (* the tables *)
  assert (2 <= length (sg_freq m) <= 257) as HFL by lia.
  destruct (@cost_bound (sg_freq m) HFL) as (t & T & C1 & C2 & CB).
  assert (tables = [T; T]) as ->.
  { unfold tables_of in ET. rewrite <- EF in ET. cbn [map_res] in ET. rewrite C1 in ET. cbn [bind] in ET. rewrite C2 in ET. cbn [bind] in ET.
    injection ET as <-. reflexivity. }
  destruct (tables_ok LU SF) as (tables' & ET' & _ & GT). rewrite ET' in ET. injection ET as ->.
  pose proof GT as GT0. apply Forall_cons_iff in GT0 as ((EA & BT & _) & _).
  assert (length (code_lengths T) = length used + 2) as LCT.
  { unfold code_lengths. rewrite map_length, <- (map_length snd), EA, alphabet_length; lia. }
  rewrite E2 in ED. pose proof ED as ED'. apply (@data_single T [T] _ _ (length used)) in ED'; auto; [|lia|lia].
  pose proof (@fold_cost (code_lengths T) (zsyms 0 enc ++ [RunA]) (single_create (length used)) m) as FC.
  cbn [single_create sg_freq] in FC. rewrite repeat_length in FC. specialize (FC ltac:(lia) EM). rewrite cost_zero, map_app, sumN_app in FC.
  pose proof (@fold_cost (repeat 1 (length used + 2)) (zsyms 0 enc ++ [RunA]) (single_create (length used)) m) as FS.
  cbn [single_create sg_freq] in FS. rewrite !repeat_length in FS. specialize (FS ltac:(lia) EM). rewrite cost_zero in FS.
  rewrite cost_ones in FS by lia.
  assert (forall syms, sumN (map (fun s => N.of_nat (nth (symbol_index s) (repeat 1%nat (length used + 2)) 0%nat)) syms) <= N.of_nat (length syms))%N as HN1.
  { induction syms as [|s syms IH]; [cbn; lia|]. cbn [map]. unfold sumN in *. cbn [fold_right length].
    assert (nth (symbol_index s) (repeat 1 (length used + 2)) 0 <= 1); [|lia].
    destruct (Nat.lt_ge_cases (symbol_index s) (length used + 2)) as [H|H].
    - rewrite (nth_indep _ 0 1) by (rewrite repeat_length; auto). rewrite nth_repeat. lia.
    - rewrite nth_overflow by (rewrite repeat_length; auto). lia. }
  specialize (HN1 (zsyms 0 enc ++ [RunA])). rewrite app_length in HN1. cbn [length] in HN1.
  assert (cost (sg_freq m ++ [0%N]) (code_lengths T) = cost (sg_freq m) (code_lengths T)) as CA.
  { assert (exists l g, code_lengths T = l ++ [g] /\ length l = length (sg_freq m)) as (l & g & -> & Hl).
    { destruct (@exists_last _ (code_lengths T)) as (l & g & E); [intros E; rewrite E in LCT; cbn in LCT; lia|].
      exists l, g. split; auto. rewrite E, app_length in LCT. cbn [length] in LCT. lia. }
    rewrite cost_app by auto. unfold cost at 2. cbn [combine map fst snd]. unfold sumN. cbn [fold_right].
    rewrite N.mul_0_l, !N.add_0_r. clear - Hl. unfold cost. revert l Hl. induction (sg_freq m) as [|x f IH]; intros [|y l] Hl; try discriminate; [reflexivity|].
    cbn [app combine map]. unfold sumN in *. cbn [fold_right]. rewrite IH by (cbn in Hl; lia). reflexivity. }
  rewrite CA in CB. pose proof (tri_eq (length (sg_freq m) + 1) 0) as HT.
  assert (tri 0 (length (sg_freq m) + 1) <= 33153)%N as HT2 by nia.
  (* selectors *)
  assert (N.of_nat (length sb) <= N.of_nat (length data) / 50 + 1)%N as LSB.
  { rewrite E2 in ES. assert (Forall (fun s => s < 1) (repeat 0 (length (zsyms 0 enc) / 50 + 1))) as H1.
    { apply Forall_forall. intros x Hx. apply repeat_spec in Hx. lia. }
    destruct (@selectors_length _ 1 H1 ltac:(lia)) as (sb' & ES' & LS'). rewrite ES in ES'. apply ok_pair_inv in ES'. destruct ES' as (<- & _).
    rewrite repeat_length in LS'.
    assert (length (zsyms 0 enc) / 50 <= length data / 50) as HD by (apply Nat.div_le_mono; lia).
    change 50%N with (N.of_nat 50). rewrite <- Nat2N.inj_div. lia. }
  pose proof (N.mul_div_le (N.of_nat (length data)) 50 ltac:(discriminate)) as HD.
  split; [lia|].
  assert (64 * N.of_nat (length dbits) <= 513 * (N.of_nat (length data) + 1 + 33153) + 64 * 17)%N as LDD; [|lia].
  lia.
Qed.

(** ** how close the single code is to the best one *)
Definition occ (syms : list zsym) (h : hsym) : N := N.of_nat (length (filter (fun s => hsym_eqb (Normal s) h) syms)).
Lemma hsym_eqb_refl h : hsym_eqb h h = true.
Proof. destruct h as [[| |v]|]; cbn; auto using Nat.eqb_refl. Qed.
Lemma hsym_eqb_true a b : hsym_eqb a b = true -> a = b.
Proof. destruct a as [[| |v]|], b as [[| |u]|]; cbn; try discriminate; auto. intros H. apply Nat.eqb_eq in H. subst. reflexivity. Qed.
Lemma single_term (f : hsym -> N) x L : NoDup L -> In x L -> sumN (map (fun h => if hsym_eqb x h then f h else 0%N) L) = f x.
Proof.
  unfold sumN. induction L as [|y L IH]; intros ND Hin; [easy|]. cbn [map fold_right]. apply NoDup_cons_iff in ND as (Hy & ND).
  destruct (hsym_eqb x y) eqn:E.
  - apply hsym_eqb_true in E. subst y.
    assert (fold_right N.add 0%N (map (fun h => if hsym_eqb x h then f h else 0%N) L) = 0%N) as ->; [|lia].
    clear IH Hin. induction L as [|z L IH]; [reflexivity|]. cbn [map fold_right]. destruct (hsym_eqb x z) eqn:E.
    + apply hsym_eqb_true in E. subst z. exfalso. apply Hy. left; auto.
    + apply NoDup_cons_iff in ND as (_ & ND). rewrite IH; auto. intros H. apply Hy. right; auto.
  - destruct Hin as [->|Hin]; [rewrite hsym_eqb_refl in E; discriminate|]. rewrite IH by auto. lia.
Qed.
Lemma sum_occ (f : hsym -> N) L syms : NoDup L -> Forall (fun s => In (Normal s) L) syms ->
  sumN (map (fun h => (occ syms h * f h)%N) L) = sumN (map (fun s => f (Normal s)) syms).
Proof.
  intros ND. induction 1 as [|s syms Hs HF IH].
  - unfold occ, sumN. cbn [filter length map fold_right]. induction L as [|x L IHL]; [reflexivity|]. cbn [map fold_right].
    apply NoDup_cons_iff in ND as (_ & ND). rewrite IHL by auto. lia.
  - assert (sumN (map (fun s0 => f (Normal s0)) (s :: syms)) = f (Normal s) + sumN (map (fun s0 => f (Normal s0)) syms))%N as -> by reflexivity.
    rewrite <- IH, <- (@single_term f (Normal s) L ND Hs).
    clear. unfold sumN, occ. induction L as [|x L IHL]; [reflexivity|]. cbn [map fold_right]. rewrite IHL. cbn [filter].
    destruct (hsym_eqb (Normal s) x); cbn [length]; lia.
Qed.
Lemma symbol_index_alphabet s : alphabet_index (symbol_index s) = Normal s \/ s = Number 0.
Proof.
  destruct s as [| |v]; cbn [symbol_index]; auto. destruct v as [|v]; auto. left.
  cbn [Nat.add]. rewrite Nat.add_1_r. cbn [alphabet_index Nat.sub]. rewrite ?Nat.sub_0_r. reflexivity.
Qed.
Definition symbol_counts (used : nat) (syms : list zsym) : list N := map (occ syms) (map alphabet_index (seq 0 (used + 1))).
Lemma counts_cost used syms gl : 1 <= used -> Forall (sym_below used) syms -> length gl = used + 1 ->
  cost (symbol_counts used syms) gl = sumN (map (fun s => N.of_nat (nth (symbol_index s) gl 0%nat)) syms).
Proof.
  intros Hu HF HL. set (A := map alphabet_index (seq 0 (used + 1))).
  assert (NoDup A) as ND.
  { pose proof (alphabet_NoDup used) as N0. rewrite alphabet_indices in N0 by auto. apply NoDup_remove in N0.
    destruct N0 as (N0 & _). rewrite app_nil_r in N0. exact N0. }
  destruct (@function_of nat 0 A ND gl) as (g & Eg); [subst A; rewrite map_length, seq_length; auto|].
  unfold symbol_counts. fold A.
  transitivity (cost (map (occ syms) A) (map g A)); [rewrite Eg; reflexivity|].
  rewrite (@cost_map _ (occ syms) g A), (@sum_occ (fun h => N.of_nat (g h)) A syms ND).
  - f_equal. apply map_ext_in. intros s Hs. f_equal. rewrite Forall_forall in HF. apply HF in Hs.
    pose proof (symbol_index_lt _ Hs Hu) as Hi. rewrite <- Eg. subst A. rewrite map_map.
    rewrite (nth_indep _ 0 (g (alphabet_index 0))) by (rewrite map_length, seq_length; auto).
    rewrite (map_nth (fun i => g (alphabet_index i))). rewrite seq_nth by auto. cbn [Nat.add].
    destruct (symbol_index_alphabet s) as [->| ->]; auto. cbn in Hs. lia.
  - eapply Forall_impl; [|exact HF]. cbv beta. intros s Hs. pose proof (symbol_index_lt _ Hs Hu) as Hi. subst A.
    apply in_map_iff. exists (symbol_index s). split; [|apply in_seq; lia].
    destruct (symbol_index_alphabet s) as [->| ->]; auto. cbn in Hs. lia.
Qed.

Theorem single_best used enc : 1 <= used <= 256 -> Forall (fun i => i < used) enc -> (N.of_nat (length enc) <= 1000000)%N ->
  exists freqs sel T bits, zle_with_strategy Single enc used = Ok (zsyms 0 enc, ([freqs; freqs], sel)) /\
    (forall p, tables_of p [freqs; freqs] = Ok [T; T]) /\
    encode_data [T; T] sel (zsyms 0 enc) = Ok bits /\
    forall other, length other = used + 2 -> Forall (fun l => 1 <= l <= 17) other -> kraft 17 other <= 2 ^ 17 ->
      (N.of_nat (length bits) <= cost (symbol_counts used (zsyms 0 enc) ++ [1%N]) other + 8 * (N.of_nat used + 1) * (N.of_nat used + 2) + 32)%N.
Proof.
  intros Hu HF HL. assert (1 <= used) as Hu1 by lia.
  destruct (@single_stats used enc) as (freqs & sel & E & SO & L2 & G); auto.
  assert (Forall (sym_below used) (zsyms 0 enc)) as FB by (apply zsyms_below; auto).
  pose proof E as EZ. cbn [zle_with_strategy] in EZ. rewrite zle_transform_eq in EZ.
  destruct (@single_fold used (zsyms 0 enc ++ [RunA])) with (m := single_create used) as (m & EM & LM & CM); auto.
  { apply sym_below_app; auto. }
  { cbn [single_create sg_freq]. apply repeat_length. }
  rewrite EM in EZ. cbn [bind] in EZ. apply ok_pair_inv in EZ. destruct EZ as (_ & EZ). unfold single_finalize in EZ.
  injection EZ as EF _. subst freqs.
  assert (2 <= length (sg_freq m) <= 257) as HFL by lia.
  assert (Forall (fun f => length f = used + 1) [sg_freq m; sg_freq m]) as SF by (repeat constructor; auto).
  destruct (tables_ok Hu SF) as (tables & ET & LT & GT).
  destruct (tables_agree _ HFL) as (t & T & C1 & C2 & _).
  assert (tables = [T; T]) as ->.
  { specialize (ET Checked). unfold tables_of in ET. cbn [map_res] in ET. rewrite C1 in ET. cbn [bind] in ET. rewrite C2 in ET. cbn [bind] in ET.
    injection ET as <-. reflexivity. }
  destruct (@data_any [T; T] sel (zsyms 0 enc) used) as (bits & ED & _); auto.
  { rewrite G, repeat_length. lia. }
  { rewrite G. apply Forall_forall. intros x Hx. apply repeat_spec in Hx. subst x. cbn. lia. }
  exists (sg_freq m), sel, T, bits. split; auto. split; auto. split; auto.
  intros other LO HO HK.
  assert (Forall (fun l => l <= 17) other) as HO' by (eapply Forall_impl; [|exact HO]; cbv beta; intros; lia).
  destruct (@near_optimal (sg_freq m) other HFL) as (t' & T' & N1 & N2 & NB); auto; [lia|].
  rewrite C1 in N1. injection N1 as <-. specialize (N2 Checked). rewrite C2 in N2. injection N2 as <-.
  pose proof GT as GT0. apply Forall_cons_iff in GT0 as ((EA & BT & _) & _).
  assert (length (code_lengths T) = used + 2) as LCT.
  { unfold code_lengths. rewrite map_length, <- (map_length snd), EA, alphabet_length; lia. }
  rewrite G in ED. apply (@data_single T [T] _ _ used) in ED; auto; [|lia].
  assert (forall l : list nat, length l = used + 2 -> exists l' g, l = l' ++ [g] /\ length l' = used + 1) as HSp.
  { intros l Hl. destruct (@exists_last _ l) as (l' & g & E'); [intros ->; cbn in Hl; lia|]. exists l', g. split; auto.
    rewrite E', app_length in Hl. cbn [length] in Hl. lia. }
  destruct (HSp _ LCT) as (cl & ce & ECL & Lcl). destruct (HSp _ LO) as (ol & oe & -> & Lol).
  rewrite ECL in *. rewrite !cost_app in NB by lia.
  assert (length (symbol_counts used (zsyms 0 enc)) = used + 1) as LSC by (unfold symbol_counts; rewrite !map_length, seq_length; auto).
  rewrite cost_app by lia. rewrite counts_cost by auto.
  assert (forall x g, cost [x] [g] = x * N.of_nat g)%N as HC1 by (intros; unfold cost, sumN; cbn [combine map fst snd fold_right]; lia).
  rewrite !HC1 in NB. rewrite HC1. rewrite !N.mul_0_l, !N.add_0_r in NB. rewrite N.mul_1_l.
  assert (forall gl, length gl = used + 1 -> (cost (sg_freq m) gl = sumN (map (fun s => N.of_nat (nth (symbol_index s) gl 0%nat)) (zsyms 0 enc)) + N.of_nat (nth 0 gl 0%nat))%N) as FC.
  { intros gl Hgl. pose proof (@fold_cost gl (zsyms 0 enc ++ [RunA]) (single_create used) m) as H.
    cbn [single_create sg_freq] in H. rewrite repeat_length in H. rewrite H by (auto; lia). rewrite cost_zero, map_app, sumN_app.
    unfold sumN at 2. cbn [map fold_right symbol_index]. lia. }
  rewrite !FC in NB by auto.
  assert (forall s, In s (zsyms 0 enc) -> nth (symbol_index s) (cl ++ [ce]) 0 = nth (symbol_index s) cl 0) as HN.
  { intros s Hs. rewrite Forall_forall in FB. apply FB in Hs. pose proof (symbol_index_lt _ Hs Hu1) as Hi. apply app_nth1. lia. }
  erewrite map_ext_in in ED; [|intros s Hs; rewrite HN by exact Hs; reflexivity].
  apply Forall_app in HO as (HO1 & HO2). apply Forall_cons_iff in HO2 as (HO2 & _).
  apply Forall_app in BT as (BT1 & BT2).
  assert (nth 0 ol 0 <= 17) as H17 by (destruct ol; cbn [nth]; [lia|]; apply Forall_cons_iff in HO1 as (? & _); lia).
  assert (1 <= nth 0 cl 0) as H1 by (destruct cl; cbn [length] in Lcl; [lia|]; apply Forall_cons_iff in BT1 as (? & _); cbn [nth]; lia).
  rewrite LM in NB. lia.
Qed.

(** ** any number of tables *)
Lemma stats_bytes st used enc : 1 <= used -> Forall (fun i => i < used) enc -> (N.of_nat (length enc) <= 1000000)%N ->
  1 <= table_count st -> exists freqs sel, stats_of st used enc freqs sel /\ bytes sel.
Proof.
  intros Hu HF HL Hk. destruct st as [k it|]; cbn [table_count] in Hk.
  - destruct (@blockwise_stats used enc k it Hu HF Hk) as (freqs & sel & E & A & B & C & D & _ & BY).
    exists freqs, sel. split; auto. unfold stats_of. cbn [table_count]. repeat (split; [solve [auto; lia]|]). split; [|auto]. rewrite C.
    assert (length (zsyms 0 enc) / 50 <= (length (zsyms 0 enc) + 1) / 50) by (apply Nat.div_le_mono; lia). lia.
  - destruct (@single_stats used enc Hu HF HL) as (freqs & sel & E & (A & B & C & D) & F & G).
    exists freqs, sel. split.
    + unfold stats_of. cbn [table_count]. rewrite C.
      assert (length (zsyms 0 enc) / 50 <= (length (zsyms 0 enc) + 1) / 50) by (apply Nat.div_le_mono; lia).
      repeat (split; [solve [auto; lia]|]). rewrite G. apply Forall_forall. intros x Hx. apply repeat_spec in Hx. lia.
    + rewrite G. apply Forall_forall. intros x Hx. apply repeat_spec in Hx. unfold is_byte. lia.
Qed.
Theorem block_runs p crc data st : bytes data -> data <> [] -> (N.of_nat (length data) <= 1000000)%N ->
  1 <= table_count st -> exists bits, generate_block_data p crc data st = Ok (bits, crc).
Proof.
  intros HB Hne HL Hk. destruct (front_end_ok HB Hne) as (ptr & col & enc & used & FE).
  pose proof FE as (E & SP & EM & SU & IU & LU & BU & LE & LC & FF & IE).
  destruct (@stats_bytes st (length used) enc) as (freqs & sel & ST & BY); auto; try lia.
  pose proof ST as (EZ & SF & SL & SB & SG & SS).
  destruct (tables_ok LU SF) as (tables & ET & LT & GT).
  destruct (mtf_spec BY) as (senc & sused & ES & _ & _ & _ & LS & _).
  assert (Forall (sym_below (length used)) (zsyms 0 enc)) as FB by (apply zsyms_below; auto).
  destruct (@data_any tables sel (zsyms 0 enc) (length used)) as (dbits & ED & LD); auto; [lia|rewrite LT, SL; auto|].
  pose proof (zsyms_length 0 enc) as LZ.
  assert (N.of_nat (length sel) < 32768)%N as HS15.
  { assert ((length (zsyms 0 enc) + 1) / 50 <= (length data + 1) / 50) by (apply Nat.div_le_mono; lia).
    assert (N.of_nat ((length data + 1) / 50) <= 20001)%N.
    { rewrite Nat2N.inj_div. change (N.of_nat 50) with 50%N. apply N.lt_succ_r. apply N.div_lt_upper_bound; lia. }
    lia. }
  unfold generate_block_data. rewrite E. cbn [bind]. rewrite EM. cbn [bind]. rewrite EZ. cbn [bind].
  specialize (ET p). unfold tables_of in ET. rewrite ET. cbn [bind]. unfold create_selectors. rewrite ES. cbn [bind].
  rewrite write_symbol_table_spec by auto. cbn [bind]. rewrite ?LS.
  rewrite N.mod_small by lia. rewrite pad15_ok by lia. cbn [bind]. rewrite ED. eexists. reflexivity.
Qed.
Theorem block_no_tables p crc data it : bytes data -> data <> [] -> generate_block_data p crc data (BlockWise 0 it) = Panic.
Proof.
  intros HB Hne. destruct (front_end_ok HB Hne) as (ptr & col & enc & used & FE).
  pose proof FE as (E & SP & EM & SU & IU & LU & BU & LE & LC & FF & IE).
  unfold generate_block_data. rewrite E. cbn [bind]. rewrite EM. cbn [bind].
  cbn [zle_with_strategy]. rewrite zle_transform_eq.
  destruct (@blockwise_fold (length used) (zsyms 0 enc ++ [RunA])) with (m := blockwise_create (length used) 0 it) (n := 0)
    as (m & -> & MO & MI & MC); auto; try lia.
  { apply sym_below_app, zsyms_below; auto; lia. }
  { unfold bmap_ok, blockwise_create. cbn [bm_current bm_maps bm_size bm_counter].
    rewrite repeat_length. repeat split; auto; cbn [length]; lia. }
  cbn [bind]. unfold blockwise_finalize. cbn [blockwise_create bm_iterations bm_clusters] in MI, MC. rewrite MI, MC.
  set (maps := bm_maps m ++ [bm_current m]). assert (maps <> []) as HM by (subst maps; destruct (bm_maps m); discriminate).
  unfold kmeans_solve. cbn [seq map_res bind]. destruct it as [|it].
  - cbn [repeat fold_res bind map map_res]. destruct maps as [|x maps']; [congruence|].
    destruct (@mtf_spec (repeat 0 (length (x :: maps')))) as (senc & sused & ES & _ & _ & _ & LS & _).
    { apply Forall_forall. intros y Hy. apply repeat_spec in Hy. unfold is_byte. lia. }
    unfold create_selectors. rewrite ES. cbn [bind]. rewrite write_symbol_table_spec by auto. cbn [bind].
    assert (forall v, convert_to_code_pad_to_15_bits v <> NoFuel /\ convert_to_code_pad_to_15_bits v <> Err) as H15.
    { intros v. unfold convert_to_code_pad_to_15_bits. destruct (_ <=? _); split; discriminate. }
    match goal with |- context [convert_to_code_pad_to_15_bits ?v] => destruct (H15 v) as (H1 & H2); destruct (convert_to_code_pad_to_15_bits v) as [r| | |] end;
      cbn [bind]; try congruence; try reflexivity.
    unfold encode_data. destruct (zsyms 0 enc) as [|z zs]; [reflexivity|]. reflexivity.
  - cbn [repeat fold_res]. unfold kmeans_iteration at 1. cbn [fst map]. destruct maps as [|x maps']; [congruence|]. reflexivity.
Qed.

Lemma flush_runs p st ps : Forall (fun q => exists bits, generate_block_data p (crc32 q) (coded q) st = Ok (bits, crc32 q)) ps ->
  forall e, enc_ok e -> exists e', flush_round p st (map piece_work ps) e = (Ok tt, e') /\ enc_ok e'.
Proof.
  induction 1 as [|q ps (bits & HE) HF IH]; intros e He; [exists e; auto|].
  cbn [map flush_round]. unfold piece_work at 1. rewrite HE.
  destruct (write_or_panic_ok bits He) as (e1 & -> & H1 & B1 & C1).
  destruct (IH (mk_enc (en_bw e1) (update_total_crc (crc32 q) (en_crc e1)))) as (e2 & E2 & H2); eauto.
Qed.
Theorem seq_runs p st ps : Forall (fun q => exists bits, generate_block_data p (crc32 q) (coded q) st = Ok (bits, crc32 q)) ps ->
  exists w, seq_encode p st ps (mk_writer [] []) = (Ok tt, w).
Proof.
  intros HF. unfold seq_encode.
  assert (enc_ok (mk_enc (bw_from_writer (mk_writer [] [])) 0)) as H0.
  { repeat split; cbn [en_bw bw_from_writer bw_pending length bw_sink w_out]; try lia; constructor. }
  destruct (write_or_panic_ok file_header H0) as (e1 & -> & H1 & B1 & C1).
  destruct (@flush_runs p st ps HF e1 H1) as (e2 & -> & H2).
  destruct (write_or_panic_ok (stream_footer (en_crc e2)) H2) as (e3 & -> & (H3 & H3') & B3 & C3).
  destruct (@finalize_ok (en_bw e3) H3 H3') as (bw & k & -> & _). eauto.
Qed.
Theorem stream_runs st data : bytes data -> 1 <= table_count st ->
  exists out, bytes out /\ forall p n, 1 <= n -> compressed p n st data out.
Proof.
  intros HB Hk. destruct (cuts_exists data) as (ps & HC). destruct (cuts_pieces HC) as (EC & HN & HL).
  assert (Forall bytes ps) as HBP by (apply Forall_concat; rewrite EC; auto).
  destruct (@seq_runs Wrapping st ps) as (w & E).
  { rewrite Forall_forall in *. intros q Hq. specialize (HL q Hq). unfold RLE_LIMIT in HL.
    apply block_runs; auto; [apply coded_bytes; auto|apply coded_nonempty; auto|lia]. }
  destruct (@seq_frames Wrapping st ps w HBP E) as (HP & bodies & k & _ & _ & HO & _).
  exists (w_out w). split; auto. intros p n Hn. eapply compressed_seq; eauto. rewrite (seq_encode_profile p Wrapping st _ HB HC).
  unfold good_sink. rewrite <- good_sink_of by exact HP. exact E.
Qed.
Theorem stream_no_tables it data p n rd : bytes data -> data <> [] -> 1 <= n -> delivers rd data ->
  exists w, encode_returns p rd (good_sink []) n (BlockWise 0 it) (Panic, w).
Proof.
  intros HB Hne Hn HD. destruct (cuts_exists data) as (ps & HC). destruct (cuts_pieces HC) as (EC & HN & HL).
  assert (Forall bytes ps) as HBP by (apply Forall_concat; rewrite EC; auto).
  pose proof (@returns_seq p rd (good_sink []) n (BlockWise 0 it) data ps HD HC Hn) as HR.
  assert (exists w, seq_encode p (BlockWise 0 it) ps (good_sink []) = (Panic, w)) as (w & E); [|rewrite E in HR; eauto].
  destruct ps as [|q ps]; [cbn in EC; congruence|].
  apply Forall_cons_iff in HBP as (B1 & _). apply Forall_cons_iff in HN as (N1 & _).
  unfold seq_encode.
  assert (enc_ok (mk_enc (bw_from_writer (good_sink [])) 0)) as H0.
  { repeat split; cbn [good_sink en_bw bw_from_writer bw_pending length bw_sink w_out]; try lia; constructor. }
  destruct (write_or_panic_ok file_header H0) as (e1 & -> & H1 & _).
  cbn [map flush_round]. unfold piece_work at 1. rewrite block_no_tables; [eauto|apply coded_bytes; auto|apply coded_nonempty; auto].
Qed.

(** * Blocks with one selector more than groups of symbols

    That is what the k-means strategy writes when the end of block completes a group.  The
    decoder reads on behind the block with the table of the spare selector; in a stream of
    one block it then does not find the footer. *)
From Verif Require Import Base BaseFacts Bitwise BitwiseFacts SpecBits SpecCrc SpecRle SpecStream Rle RleFacts Crc32 Crc32Facts
  SpecBwt Bwt BwtFacts Mtf MtfFacts Zle ZleFacts KMeans SymbolStatistics PackageMerge PackageMergeFacts Huffman HuffmanFacts
  CodeTable CodeTableFacts SymbolMap SymbolMapFacts Selectors SelectorsFacts GroupFacts BlockEncoder BlockDecoder BlockFacts Stream StreamFacts
  RoundTripFacts EncodeFacts SinkFacts DecodeFacts.

(** ** the spare selector is not used for coding *)
Lemma table_at_spare tables sel x i : i / 50 < length sel -> table_at tables (sel ++ [x]) i = table_at tables sel i.
Proof.
  intros H. unfold table_at. destruct (nth_error sel (i / 50)) as [s|] eqn:E; [|apply nth_error_None in E; lia].
  rewrite (get_at_some _ _ E). rewrite (get_at_some (sel ++ [x]) (i / 50) (x := s)); [reflexivity|]. rewrite nth_error_app1 by auto. exact E.
Qed.
Lemma encode_data_spare tables sel x syms : length syms / 50 < length sel ->
  encode_data tables (sel ++ [x]) syms = encode_data tables sel syms.
Proof.
  intros H. unfold encode_data. rewrite table_at_spare by auto.
  assert (forall l i, (i + length l) / 50 < length sel ->
    map_res (fun y : nat * zsym => let! table := table_at tables (sel ++ [x]) (fst y) in Ok (symbol_code table (Normal (snd y)))) (enumerate_from i l) =
    map_res (fun y : nat * zsym => let! table := table_at tables sel (fst y) in Ok (symbol_code table (Normal (snd y)))) (enumerate_from i l)) as G.
  { induction l as [|s l IH]; intros i Hi; [reflexivity|]. cbn [enumerate_from map_res fst snd length] in *.
    rewrite table_at_spare by (eapply Nat.le_lt_trans; [apply Nat.div_le_mono with (b := i + S (length l)); lia|exact Hi]).
    rewrite IH by (replace (S i + length l) with (i + S (length l)) by lia; exact Hi). reflexivity. }
  change (enumerate syms) with (enumerate_from 0 syms). rewrite G by exact H. reflexivity.
Qed.
Lemma read_groups_app a b tables : forall r,
  read_groups (a ++ b) tables r = let! (s1, r1) := read_groups a tables r in let! (s2, r2) := read_groups b tables r1 in Ok (s1 ++ s2, r2).
Proof.
  induction a as [|x a IH]; intros r; cbn [app read_groups bind].
  - destruct (read_groups b tables r) as [[s2 r2]| | |]; reflexivity.
  - destruct (get_at tables x) as [T| | |]; cbn [bind]; auto.
    destruct (unwrap (read_symbols r T 50)) as [[s r1]| | |]; cbn [bind]; auto. rewrite IH.
    destruct (read_groups a tables r1) as [[s1 r2]| | |]; cbn [bind]; auto.
    destruct (read_groups b tables r2) as [[s2 r3]| | |]; cbn [bind]; auto. rewrite app_assoc. reflexivity.
Qed.
(** every group takes at least one bit *)
Lemma symbols_shorter r T k a r' : read_symbols r T k = Ok (a, r') -> length (rbits r') < length (rbits r).
Proof.
  unfold read_symbols. generalize (S (bits_left r)), (@nil zsym), (@nil bool), 0. intros fuel. revert r.
  induction fuel as [|fuel IH]; intros r al c n E; cbn [read_symbols_loop] in E; [discriminate|].
  destruct (read_bits r 1) as [[b r1]| | |] eqn:E1; try discriminate. cbn [bind] in E. cbv zeta in E.
  assert (length (rbits r1) < length (rbits r)) as H1.
  { cbn [read_bits] in E1. destruct (read_bit r) as [[b0 r0]| | |] eqn:E0; try discriminate. cbn [bind] in E1. injection E1 as _ <-.
    apply bit_shorter in E0. exact E0. }
  destruct (read_from_table T (c ++ b)) as [[s|]|].
  - match type of E with (if ?c then _ else _) = _ => destruct c end; [injection E as _ <-; exact H1|].
    eapply Nat.lt_trans; [eapply IH; eauto|exact H1].
  - injection E as _ <-. exact H1.
  - match type of E with (if ?c then _ else _) = _ => destruct c end; [injection E as _ <-; exact H1|].
    eapply Nat.lt_trans; [eapply IH; eauto|exact H1].
Qed.
Lemma group_takes_a_bit x tables r a r' : read_groups [x] tables r = Ok (a, r') -> exists u, u <> [] /\ rbits r = u ++ rbits r'.
Proof.
  intros E. destruct (regular_groups [x] tables) as (_ & _ & R). destruct (R _ _ _ E) as (u & U & _). exists u. split; [|exact U].
  intros ->. cbn [app] in U. cbn [read_groups] in E. destruct (get_at tables x) as [T| | |]; try discriminate. cbn [bind] in E.
  destruct (unwrap (read_symbols r T 50)) as [[s r1]| | |] eqn:E1; try discriminate. cbn [bind] in E. injection E as _ <-.
  destruct (read_symbols r T 50) as [[s2 r2]| | |] eqn:E2; try discriminate. cbn [unwrap] in E1. injection E1 as _ <-.
  apply symbols_shorter in E2. rewrite U in E2. lia.
Qed.

(** ** the block written, and what reading it does *)
Definition reads_behind (p : profile) (body : list bool) : Prop :=
  forall r rest c r', rbits r = body ++ rest -> decode_block_data p r = Ok (c, r') -> exists u, u <> [] /\ rest = u ++ rbits r'.

(** [parts_ok] with any number of spare selectors *)
Definition parts_spare (data : list nat) (b : block_parts) : Prop :=
  exists col enc sel extra, bwt_spec data col (bp_ptr b) /\
    StronglySorted lt (bp_used b) /\ (forall x, In x (bp_used b) <-> In x col) /\
    1 <= length (bp_used b) <= 256 /\ bytes (bp_used b) /\ length enc = length col /\
    Forall (fun k => k < length (bp_used b)) enc /\
    inverse_mtf enc (bp_used b) = Ok col /\
    bp_syms b = zsyms 0 enc /\
    1 <= length (bp_tables b) < 8 /\ good_tables (length (bp_used b)) (bp_tables b) /\
    bp_sel b = sel ++ extra /\ length sel = length (bp_syms b) / 50 + 1 /\ (N.of_nat (length (bp_sel b)) < 32768)%N /\
    Forall (fun s => s < length (bp_tables b)) sel /\
    length (bp_unary b) = length (bp_sel b) /\ Forall (fun x => x <= 255) (bp_unary b) /\
    inverse_mtf (bp_unary b) (seq 0 (length (bp_tables b))) = Ok (bp_sel b) /\
    encode_data (bp_tables b) sel (bp_syms b) = Ok (bp_data b).
Theorem spare_block crc data k iterations ptr col enc used freqs sel :
  front_end data ptr col enc used -> (N.of_nat (length data) <= 1000000)%N -> (crc < 4294967296)%N -> 1 <= k < 8 ->
  zle_with_strategy (BlockWise k iterations) enc (length used) = Ok (zsyms 0 enc, (freqs, sel)) ->
  gapless k sel -> (length (zsyms 0 enc) + 1) mod 50 = 0 ->
  exists b, (forall p, generate_block_data p crc data (BlockWise k iterations) = Ok (block_bits crc b, crc)) /\
    parts_spare data b /\ forall p, reads_behind p (block_body crc b).
Proof.
  intros (E & SP & EM & SU & IU & LU & BU & LE & LC & FE & IE) HL Hcrc Hk EZ (m & Hm & Hg) HM.
  destruct (@blockwise_stats (length used) enc k iterations) as (freqs' & sel' & EZ' & F1 & F2 & F3 & F4 & _ & _); auto; [lia|lia|].
  rewrite EZ in EZ'. assert (freqs' = freqs) as -> by congruence. assert (sel' = sel) as -> by congruence. clear EZ'.
  destruct (tables_ok LU F1) as (tables & ET & LT & GT).
  destruct (@selectors_round_trip sel m (length tables)) as (un & ES & LN & FN & IN); [auto|lia|lia|].
  pose proof (zsyms_length 0 enc) as LZ.
  pose proof (Nat.mul_div_le (length (zsyms 0 enc)) 50 ltac:(lia)) as LS.
  assert (length sel = S (length (zsyms 0 enc) / 50 + 1)) as LSel.
  { rewrite F3. remember (length (zsyms 0 enc)) as n. clear - HM.
    pose proof (Nat.div_mod (n + 1) 50 ltac:(lia)). remember ((n + 1) / 50) as q.
    assert (n / 50 = q - 1) as ->; [|assert (q <> 0) by lia; lia]. symmetry. apply Nat.div_unique with (r := 49); lia. }
  destruct (@exists_last _ sel) as (sel0 & x & ->); [intros ->; discriminate|].
  assert (length sel0 = length (zsyms 0 enc) / 50 + 1) as LS0 by (rewrite app_length in LSel; cbn [length] in LSel; lia).
  assert (Forall (fun s => s < length tables) sel0) as FS.
  { apply Forall_app in F4 as (F4 & _). rewrite LT, F2. exact F4. }
  assert (Forall (sym_below (length used)) (zsyms 0 enc)) as FB by (apply zsyms_below; auto).
  destruct (@data_round_trip tables sel0 (zsyms 0 enc)) as (bits & ED & RD); auto.
  { apply Forall_forall. intros T HT. eapply good_table_of; eauto. }
  { apply Forall_forall. intros T HT. apply table_covers with (used := length used) (tables := tables); auto; lia. }
  pose proof ED as ED0. rewrite <- (@encode_data_spare tables sel0 x) in ED by lia.
  assert (ptr < length data) as HP by (destruct SP as (i & sa & SP); cbv zeta in SP; tauto).
  exists (mk_parts ptr used tables (sel0 ++ [x]) un (zsyms 0 enc) bits). split; [|split].
  - intros p. unfold generate_block_data. rewrite E. cbn [bind]. rewrite EM. cbn [bind]. rewrite EZ. cbn [bind].
    specialize (ET p). unfold tables_of in ET. rewrite ET. cbn [bind]. rewrite ES. cbn [bind]. rewrite write_symbol_table_spec by auto. cbn [bind].
    rewrite N.mod_small by lia. rewrite pad15_ok by lia. cbn [bind]. rewrite ED. cbn [bind].
    rewrite N.mod_small by lia. rewrite block_header_bits by lia. f_equal. f_equal.
    unfold block_bits. cbn [bp_ptr bp_used bp_tables bp_sel bp_unary bp_syms bp_data].
    assert (flat_map encode_code_table tables = flat_map (fun T => encode_bit_lengths (code_lengths T)) tables) as ->.
    { rewrite !flat_map_concat_map. f_equal. apply map_ext_in. intros T HT. eapply encode_code_table_bits; eauto. }
    rewrite <- !app_assoc. reflexivity.
  - exists col, enc, sel0, [x]. cbn [bp_ptr bp_used bp_tables bp_sel bp_unary bp_syms bp_data].
    split; [exact SP|]. split; [exact SU|]. split; [exact IU|]. split; [exact LU|]. split; [exact BU|]. split; [lia|]. split; [exact FE|].
    split; [exact IE|]. split; [reflexivity|]. split; [lia|]. split; [exact GT|]. split; [reflexivity|]. split; [exact LS0|].
    split; [lia|]. split; [exact FS|]. split; [exact LN|]. split; [exact FN|]. split; [exact IN|]. exact ED0.
  - intros p r rest c r' HR. unfold decode_block_data. unfold block_body in HR.
    cbn [bp_ptr bp_used bp_tables bp_sel bp_unary bp_syms bp_data] in HR. rewrite <- !app_assoc in HR.
    destruct (@reads_number crc 32 ltac:(lia) Hcrc _ _ HR) as (r1 & -> & HR1). cbn [bind].
    destruct (@reads_bits 1 [false] eq_refl _ _ HR1) as (r2 & -> & HR2). cbn [bind].
    destruct (@reads_number (N.of_nat ptr) 24 ltac:(lia) ltac:(change (2 ^ N.of_nat 24)%N with 16777216%N; lia) _ _ HR2) as (r3 & -> & HR3). cbn [bind].
    destruct (@reads_unwrap _ _ _ _ (@reads_symbol_table used ltac:(auto) ltac:(auto)) _ _ HR3) as (r4 & -> & HR4). cbn [bind].
    destruct (@reads_number (N.of_nat (length tables)) 3 ltac:(lia) ltac:(change (2 ^ N.of_nat 3)%N with 8%N; lia) _ _ HR4) as (r5 & -> & HR5). cbn [bind].
    destruct (@reads_number (N.of_nat (length (sel0 ++ [x]))) 15 ltac:(lia) ltac:(change (2 ^ N.of_nat 15)%N with 32768%N; lia) _ _ HR5) as (r6 & -> & HR6). cbn [bind].
    rewrite !Nat2N.id.
    assert (un <> []) as Hun by (intros ->; cbn [length] in LN; lia).
    destruct (@reads_unwrap _ _ _ _ (@reads_unary p un ltac:(auto) ltac:(auto)) _ _ HR6) as (r7 & E7 & HR7).
    rewrite <- LN. rewrite E7. cbn [bind]. rewrite IN. cbn [bind].
    destruct (@reads_trees p (length used) tables ltac:(lia) GT _ _ HR7) as (r8 & -> & HR8). cbn [bind].
    rewrite (rebuild_tables p GT). cbn [bind]. rewrite read_groups_app.
    destruct (RD _ _ HR8) as (r9 & -> & HR9). cbn [bind].
    destruct (read_groups [x] tables r9) as [[s2 r10]| | |] eqn:EG; try discriminate. cbn [bind].
    destruct (group_takes_a_bit _ _ _ EG) as (u & Hu & U). intros H.
    assert (r' = r10) as ->.
    { clear - H. repeat match type of H with (bind ?m _) = _ => destruct m; try discriminate; cbn [bind] in H end. congruence. }
    exists u. split; auto. congruence.
Qed.

(** ** the magic numbers do not overlap *)
Fixpoint starts_with (m l : list bool) : bool :=
  match m, l with
  | [], _ | _, [] => true
  | a :: m, b :: l => Bool.eqb a b && starts_with m l
  end.
Lemma starts_with_app m t l t' : m ++ t = l ++ t' -> starts_with m l = true.
Proof.
  revert l; induction m as [|a m IH]; intros [|b l] E; cbn [app starts_with] in *; auto.
  injection E as -> E. rewrite eqb_reflx, (IH _ E). reflexivity.
Qed.
Lemma no_overlap m : 1 <= m -> m < 40 -> forall t, starts_with (bytes_bits (match t with BlockHeader => block_magic | StreamFooter => footer_magic end)) (skipn m (bytes_bits footer_magic)) = false.
Proof.
  intros H1 H2.
  assert (forallb (fun m => negb (starts_with (bytes_bits block_magic) (skipn m (bytes_bits footer_magic))) &&
                            negb (starts_with (bytes_bits footer_magic) (skipn m (bytes_bits footer_magic)))) (seq 1 39) = true) as G by (vm_compute; reflexivity).
  rewrite forallb_forall in G. specialize (G m). rewrite in_seq in G. specialize (G ltac:(lia)). apply andb_true_iff in G as (G1 & G2).
  apply negb_true_iff in G1, G2. intros [|]; assumption.
Qed.
Lemma not_behind r r' t u tail : what_next r = Ok (t, r') -> u <> [] -> bytes_bits footer_magic ++ tail = u ++ rbits r -> length tail < 40 -> False.
Proof.
  intros EW Hu E HT. apply what_next_inv in EW. set (mg := bytes_bits _) in EW.
  assert (length mg = 48) as LM by (subst mg; destruct t; reflexivity).
  pose proof (f_equal (@length bool) E) as L. rewrite !app_length in L. change (length (bytes_bits footer_magic)) with 48 in L.
  pose proof (f_equal (@length bool) EW) as L2. rewrite app_length, LM in L2.
  assert (1 <= length u) as U1 by (destruct u; [congruence|cbn [length]; lia]).
  assert (length u < 40) as U2 by lia.
  pose proof (no_overlap U1 U2 t) as N. fold mg in N. rewrite (@starts_with_app mg (rbits r') _ tail) in N; [discriminate|].
  rewrite <- EW. pose proof (f_equal (skipn (length u)) E) as S. rewrite !skipn_app in S. rewrite skipn_all, Nat.sub_diag in S.
  cbn [app skipn] in S. change (length (bytes_bits footer_magic)) with 48 in S. replace (length u - 48) with 0 in S by lia. cbn [skipn] in S. symmetry. exact S.
Qed.

Lemma trace_spare p ps bs q b : Forall2 (decodes p) ps bs -> reads_behind p (block_body (crc32 q) b) -> forall fuel r tail,
  rbits r = concat (map (fun x => block_bits (crc32 (fst x)) (snd x)) (combine ps bs)) ++ block_bits (crc32 q) b ++ bytes_bits footer_magic ++ tail ->
  length tail < 40 -> forall r', snd (trace fuel p r) <> Ok r'.
Proof.
  intros HF HB. induction HF as [|q0 b0 ps bs HD HF IH]; intros fuel r tail HR HL r'.
  - destruct fuel as [|fuel]; [discriminate|]. cbn [trace]. cbn [combine map concat app] in HR. rewrite block_bits_body, <- !app_assoc in HR.
    destruct (what_next_block _ HR) as (r1 & -> & HR1).
    destruct (decode_block_data p r1) as [[[c crc] r2]| | |] eqn:ED; try discriminate.
    destruct (HB _ _ _ _ HR1 ED) as (u & Hu & EU). destruct (crc32 c =? crc)%N; [|discriminate].
    assert (forall e, snd (trace fuel p r2) <> Ok e) as G.
    { intros e. destruct fuel as [|fuel]; [discriminate|]. cbn [trace]. destruct (what_next r2) as [[t r3]| | |] eqn:EW; try discriminate.
      exfalso. eapply not_behind; eauto. }
    specialize (G r'). destruct (trace fuel p r2) as [l e]. exact G.
  - destruct fuel as [|fuel]; [discriminate|]. cbn [trace].
    cbn [combine map concat fst snd] in HR. rewrite block_bits_body, <- !app_assoc in HR.
    destruct (what_next_block _ HR) as (r1 & -> & HR1). destruct (HD r1 _ HR1) as (r2 & -> & HR2). rewrite N.eqb_refl.
    pose proof (IH fuel r2 tail HR2 HL r') as HN. destruct (trace fuel p r2) as [l e]. exact HN.
Qed.
Theorem spare_refused p ps bs q b input tail : Forall2 (decodes p) ps bs -> reads_behind p (block_body (crc32 q) b) ->
  bytes_bits input = bytes_bits [66; 90; 104; 57] ++ concat (map (fun x => block_bits (crc32 (fst x)) (snd x)) (combine ps bs)) ++
    block_bits (crc32 q) b ++ bytes_bits footer_magic ++ tail -> length tail < 40 -> forall w, fst (decode_stream p input w) <> Ok tt.
Proof.
  intros HF HB HW HL w. rewrite decode_stream_trace. unfold stream_trace.
  destruct (@read_file_header_ok 57 (br_from_reader input) (concat (map (fun x => block_bits (crc32 (fst x)) (snd x)) (combine ps bs)) ++
    block_bits (crc32 q) b ++ bytes_bits footer_magic ++ tail)) as (r1 & -> & HR1); [unfold is_byte; lia|rewrite rbits_from_reader; exact HW|].
  pose proof (@trace_spare p ps bs q b HF HB (S (bits_left r1)) r1 tail HR1 HL) as HN.
  destruct (trace _ p r1) as [l e]. cbn [snd] in HN. destruct (offer (w_script w) l) as [[g s] ok]. cbn [fst].
  destruct ok; [|discriminate]. destruct e as [r'| | |]; try discriminate. exfalso. eapply HN. reflexivity.
Qed.

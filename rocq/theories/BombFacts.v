(** * A small file whose only block is as large as one likes *)
From Coq Require Import Sorting.Sorted Sorting.Permutation Wellfounded.
From Verif Require Import Base BaseFacts SpecBits SpecCrc SpecRle SpecBzip2 SpecStream Bitwise BitwiseFacts Rle
  Crc32 Crc32Facts Bwt BwtFacts UnsortFacts Stream DecodeFacts ReferenceFacts EncodeFacts ForeignFacts.

(** ** packing bits *)
Lemma packed bits : exists file pad, bytes file /\ bits_of file = bits ++ repeat false pad /\ pad < 8.
Proof.
  induction bits as [bits IH] using (well_founded_induction (wf_inverse_image _ _ _ (@length bool) lt_wf)).
  destruct bits as [|b0 tl] eqn:E; [exists [], 0; split; [constructor|]; split; [reflexivity|lia]|]. rewrite <- E in IH |- *.
  destruct (le_lt_dec 8 (length bits)) as [H|H].
  - destruct (IH (skipn 8 bits)) as (file & pad & HB & HF & HP); [rewrite skipn_length; lia|].
    exists (byte_of_bits (firstn 8 bits) :: file), pad. split; [constructor; [apply byte_of_bits_lt|auto]|]. split; [|auto].
    change (byte_of_bits (firstn 8 bits) :: file) with ([byte_of_bits (firstn 8 bits)] ++ file).
    unfold bits_of. rewrite flat_map_app. fold (bits_of file). rewrite HF. fold (bits_of [byte_of_bits (firstn 8 bits)]). rewrite bits_of_bytes. unfold bytes_bits. cbn [flat_map]. rewrite app_nil_r.
    rewrite byte_of_bits_bits by (rewrite firstn_length; lia). rewrite app_assoc, firstn_skipn. reflexivity.
  - exists [byte_of_bits (bits ++ repeat false (8 - length bits))], (8 - length bits).
    split; [constructor; [apply byte_of_bits_lt|constructor]|]. split.
    + rewrite bits_of_bytes. unfold bytes_bits. cbn [flat_map]. rewrite app_nil_r.
      apply byte_of_bits_bits. rewrite app_length, repeat_length. lia.
    + subst bits. cbn [length]. lia.
Qed.

(** ** the pieces of a block *)
Lemma get_number_app n x rest : length x = n -> get_number n (x ++ rest) = Some (number x, rest).
Proof.
  intros H. unfold get_number, get_bits. rewrite app_length. replace (n <=? length x + length rest) with true by (symmetry; apply Nat.leb_le; lia).
  rewrite firstn_app, skipn_app, firstn_all2, skipn_all2, H, Nat.sub_diag, firstn_O, app_nil_r by lia. reflexivity.
Qed.
Lemma be_length n v : length (be_bits n v) = n.
Proof. unfold be_bits. rewrite map_length, seq_length. auto. Qed.
Lemma get_number_be n v rest : (v < 2 ^ N.of_nat n)%N -> get_number n (be_bits n v ++ rest) = Some (v, rest).
Proof. intros H. rewrite get_number_app by apply be_length. rewrite be_bits_number by auto. reflexivity. Qed.

Lemma unaries_zero g rest : get_unaries g (repeat false g ++ rest) = Some (repeat 0 g, rest).
Proof. induction g as [|g IH]; [reflexivity|]. cbn [repeat app get_unaries get_unary]. rewrite IH. reflexivity. Qed.
Lemma unmove_zero k x tl : unmove (repeat 0 k) (x :: tl) = Some (repeat x k).
Proof. induction k as [|k IH]; [reflexivity|]. cbn [repeat unmove nth_error firstn skipn app]. rewrite IH. reflexivity. Qed.

(** code lengths 1, 3, 2, 3 for run digit 1, run digit 2, index 1 and end of block *)
Definition bomb_lengths : list nat := [1; 3; 2; 3].
Definition bomb_table : list bool :=
  [false; false; false; false; true] ++ [false] ++ [true; false; true; false; false] ++ [true; true; false] ++ [true; false; false].
Definition bomb_code (s : nat) : list bool :=
  match s with 0 => [false] | 1 => [true; true; false] | 2 => [true; false] | _ => [true; true; true] end.
Lemma tables_read rest : get_tables 2 4 (bomb_table ++ bomb_table ++ rest) = Some ([bomb_lengths; bomb_lengths], rest).
Proof. reflexivity. Qed.
Lemma used_read rest : get_used (be_bits 16 512 ++ be_bits 16 24576 ++ rest) = Some ([97; 98], rest).
Proof. reflexivity. Qed.
Lemma symbol_read s rest : s <= 3 -> get_symbol bomb_lengths 0 0 (bomb_code s ++ rest) = Some (s, rest).
Proof. intros H. destruct s as [|[|[|[|s]]]]; try reflexivity. lia. Qed.

Lemma group_whole syms : forall n rest, Forall (fun s => s <= 2) syms -> length syms < n ->
  get_group n bomb_lengths 3 (flat_map bomb_code syms ++ bomb_code 3 ++ rest) = Some (syms, true, rest).
Proof.
  induction syms as [|s syms IH]; intros n rest HF HL; (destruct n as [|n]; [cbn [length] in HL; lia|]); cbn [get_group flat_map].
  - cbn [app]. rewrite symbol_read by lia. reflexivity.
  - apply Forall_cons_iff in HF as (Hs & HF). cbn [length] in HL. rewrite <- app_assoc, symbol_read by lia.
    replace (s =? 3) with false by (symmetry; apply Nat.eqb_neq; lia). rewrite IH by (auto; lia). reflexivity.
Qed.
Lemma group_part n : forall syms rest, Forall (fun s => s <= 2) syms -> n <= length syms ->
  get_group n bomb_lengths 3 (flat_map bomb_code syms ++ rest) = Some (firstn n syms, false, flat_map bomb_code (skipn n syms) ++ rest).
Proof.
  induction n as [|n IH]; intros syms rest HF HL; [reflexivity|]. destruct syms as [|s syms]; [cbn [length] in HL; lia|].
  apply Forall_cons_iff in HF as (Hs & HF). cbn [length get_group flat_map firstn skipn] in *.
  rewrite <- app_assoc, symbol_read by lia. replace (s =? 3) with false by (symmetry; apply Nat.eqb_neq; lia).
  rewrite IH by (auto; lia). reflexivity.
Qed.
Definition groups_for (syms : list nat) : nat := S (length syms / 50).
Lemma symbols_read g : forall syms rest, Forall (fun s => s <= 2) syms -> groups_for syms = g ->
  get_symbols (repeat 0 g) [bomb_lengths; bomb_lengths] 3 (flat_map bomb_code syms ++ bomb_code 3 ++ rest) = Some (syms, 0, rest).
Proof.
  unfold groups_for. induction g as [|g IH]; intros syms rest HF HG; [discriminate|]. injection HG as HG.
  cbn [repeat get_symbols nth_error]. destruct (le_lt_dec 50 (length syms)) as [H|H].
  - rewrite group_part by auto. destruct g as [|g].
    { apply Nat.div_small_iff in HG; lia. }
    rewrite IH.
    + rewrite firstn_skipn. reflexivity.
    + rewrite <- (firstn_skipn 50 syms), Forall_app in HF. apply HF.
    + rewrite skipn_length. f_equal.
      replace (length syms) with (1 * 50 + (length syms - 50)) in HG by lia. rewrite Nat.div_add_l in HG by lia. lia.
  - rewrite group_whole by auto. rewrite Nat.div_small in HG by auto. subst g. reflexivity.
Qed.

(** ** run digits *)
Lemma unrun_digits m : forall tl w run, unrun (repeat 0 m ++ tl) w run = unrun tl (w * 2 ^ m) (run + w * (2 ^ m - 1)).
Proof.
  induction m as [|m IH]; intros tl w run; cbn [repeat app].
  - change (2 ^ 0) with 1. rewrite Nat.mul_1_r, Nat.mul_0_r, Nat.add_0_r. reflexivity.
  - cbn [unrun Nat.eqb]. rewrite IH. rewrite Nat.pow_succ_r'. pose proof (Nat.pow_nonzero 2 m ltac:(lia)). f_equal; nia.
Qed.
Definition bomb_syms (m : nat) : list nat := 2 :: repeat 0 m ++ 2 :: repeat 0 m.
Lemma bomb_column m : unmove (unrun (bomb_syms m) 1 0) [97; 98] = Some (repeat 98 (2 ^ m) ++ repeat 97 (2 ^ m)).
Proof.
  unfold bomb_syms. cbn [unrun Nat.eqb repeat app Nat.sub]. rewrite unrun_digits.
  cbn [unrun Nat.eqb Nat.sub]. rewrite <- (app_nil_r (repeat 0 m)), unrun_digits. cbn [unrun].
  rewrite Nat.mul_1_l, Nat.add_0_l. pose proof (Nat.pow_nonzero 2 m ltac:(lia)) as HN.
  set (k := 2 ^ m) in *. replace k with (S (k - 1)) at 3 4 by lia. set (j := k - 1) in *.
  assert (forall a x rest tl, unmove (repeat 0 a ++ rest) (x :: tl) = 
    match unmove rest (x :: tl) with Some r => Some (repeat x a ++ r) | None => None end) as G.
  { clear. intros a x rest tl. induction a as [|a IH]; cbn [repeat app]; [destruct (unmove rest (x :: tl)); reflexivity|].
    cbn [unmove nth_error firstn skipn app]. rewrite IH. destruct (unmove rest (x :: tl)); reflexivity. }
  cbn [unmove nth_error firstn skipn app]. rewrite (G _ 98).
  cbn [unmove nth_error firstn skipn app]. rewrite (@unmove_zero j 97). reflexivity.
Qed.

(** ** the inverse sort *)
Lemma enumerate_repeat {A} (x : A) k : forall i, enumerate_from i (repeat x k) = map (fun j => (j, x)) (seq i k).
Proof. induction k as [|k IH]; intros i; [reflexivity|]. cbn [repeat enumerate_from seq map]. rewrite IH. reflexivity. Qed.
Lemma row_sorted (x : nat) k : forall i, StronglySorted pair_lt (map (fun j => (j, x)) (seq i k)).
Proof.
  induction k as [|k IH]; intros i; cbn [seq map]; constructor; auto. rewrite Forall_map. apply Forall_forall.
  intros j Hj. apply in_seq in Hj. right. cbn [fst snd]. split; auto. lia.
Qed.
Lemma ssorted_app {A} (R : A -> A -> Prop) l1 l2 : StronglySorted R l1 -> StronglySorted R l2 ->
  (forall x y, In x l1 -> In y l2 -> R x y) -> StronglySorted R (l1 ++ l2).
Proof.
  induction 1 as [|x l1 H IH HF]; intros H2 HR; cbn [app]; auto. constructor.
  - apply IH; auto. intros; apply HR; auto. right; auto.
  - apply Forall_app. split; auto. apply Forall_forall. intros y Hy. apply HR; auto. left; auto.
Qed.
Lemma bomb_links k : links (repeat 98 k ++ repeat 97 k) = map (fun j => (j, 97)) (seq k k) ++ map (fun j => (j, 98)) (seq 0 k).
Proof.
  apply sorted_perm_unique with (R := pair_lt).
  - intros [a b] [c d] [H1|H1] [H2|H2]; cbn [fst snd] in *; try lia. 
  - apply (sort_stable 0).
  - apply ssorted_app; [apply row_sorted|apply row_sorted|]. intros x y Hx Hy.
    apply in_map_iff in Hx as (i & <- & _). apply in_map_iff in Hy as (j & <- & _). left. cbn [snd]. lia.
  - etransitivity; [apply Permutation_sym, links_perm|]. unfold enumerate. rewrite enumerate_from_app, !enumerate_repeat, repeat_length.
    cbn [Nat.add]. apply Permutation_app_comm.
Qed.
Lemma bomb_path k j : 1 <= k -> path (repeat 98 k ++ repeat 97 k) (2 * j) 0 = concat (repeat [97; 98] j).
Proof.
  intros Hk. induction j as [|j IH]; [reflexivity|]. replace (2 * S j) with (S (S (2 * j))) by lia. cbn [path repeat concat app].
  rewrite bomb_links.
  assert (forall (f : nat -> nat * nat) i a n, i < n -> nth i (map f (seq a n)) (0, 0) = f (a + i)) as G.
  { intros f i a n Hi. erewrite nth_indep by (rewrite map_length, seq_length; lia). rewrite (map_nth f _ 0), seq_nth by lia. reflexivity. }
  rewrite !app_nth1 by (rewrite map_length, seq_length; lia). rewrite G by lia. cbn [fst snd].
  rewrite app_nth2 by (rewrite map_length, seq_length; lia). rewrite map_length, seq_length, G by lia.
  replace (0 + (k + 0 - k)) with 0 by lia.
  cbn [fst snd Nat.add]. rewrite IH. reflexivity.
Qed.
Lemma bomb_unsort k : 1 <= k -> unsort (repeat 98 k ++ repeat 97 k) 0 = Some (concat (repeat [97; 98] k)).
Proof.
  intros Hk. unfold unsort. rewrite (proj1 (rebuild_paths _ _)). rewrite app_length, !repeat_length.
  rewrite nth_error_map. replace (k + k) with (2 * k) by lia. rewrite (nth_error_nth' _ 0) by (rewrite seq_length; lia).
  rewrite seq_nth by lia. cbn [option_map Nat.add]. rewrite bomb_path by lia. reflexivity.
Qed.

(** ** no runs in the contents *)
Lemma ab_expand k : forall last run, last <> 97 -> run < 4 -> rle1_expand_from last run (concat (repeat [97; 98] k)) = concat (repeat [97; 98] k) /\
  plain_counts_from last run (concat (repeat [97; 98] k)) = true.
Proof.
  induction k as [|k IH]; intros last run HL HR; [split; reflexivity|]. cbn [repeat concat app rle1_expand_from plain_counts_from].
  replace (run =? 4) with false by (symmetry; apply Nat.eqb_neq; lia).
  replace (97 =? last) with false by (symmetry; apply Nat.eqb_neq; lia). rewrite andb_false_r.
  cbn [Nat.eqb andb Nat.leb]. destruct (IH 98 1) as (-> & ->); [lia|lia|]. split; reflexivity.
Qed.

Lemma crc32_bzip2_lt l : (crc32_bzip2 l < 2 ^ N.of_nat 32)%N.
Proof.
  change (2 ^ N.of_nat 32)%N with M32. unfold crc32_bzip2. apply lxor_lt; [apply crc_bits_lt|]; reflexivity.
Qed.

(** ** the block *)
Definition bomb_body (c : N) (m : nat) (rest : list bool) : list bool :=
  be_bits 32 c ++ be_bits 1 0 ++ be_bits 24 0 ++ be_bits 16 512 ++ be_bits 16 24576 ++ be_bits 3 2 ++
  be_bits 15 (N.of_nat (groups_for (bomb_syms m))) ++ repeat false (groups_for (bomb_syms m)) ++
  bomb_table ++ bomb_table ++ flat_map bomb_code (bomb_syms m) ++ bomb_code 3 ++ rest.
Definition bomb_contents (m : nat) : list nat := concat (repeat [97; 98] (2 ^ m)).

Lemma bomb_syms_small m : Forall (fun s => s <= 2) (bomb_syms m).
Proof.
  unfold bomb_syms. assert (Forall (fun s => s <= 2) (repeat 0 m)) as H.
  { apply Forall_forall. intros x Hx. apply repeat_spec in Hx as ->. lia. }
  constructor; [lia|]. apply Forall_app. split; auto.
Qed.
Lemma bomb_groups m : m <= 62 -> 1 <= groups_for (bomb_syms m) <= 3.
Proof.
  intros Hm. unfold groups_for, bomb_syms. split; [lia|]. cbn [length]. rewrite app_length. cbn [length]. rewrite !repeat_length.
  assert ((S (m + S m)) / 50 < 3) by (apply Nat.div_lt_upper_bound; lia). lia.
Qed.
Lemma bomb_block level m rest : m <= 62 ->
  get_block level (bomb_body (crc32_bzip2 (bomb_contents m)) m rest) =
  if (2 * 2 ^ N.of_nat m <=? 100000 * level)%N
  then Some (mk_parsed (bomb_contents m) (crc32_bzip2 (bomb_contents m)) (bomb_contents m) 0, rest) else None.
Proof.
  intros Hm. pose proof (bomb_groups Hm) as HG. unfold get_block, bomb_body.
  rewrite get_number_be by apply crc32_bzip2_lt.
  rewrite get_number_be by reflexivity. change (guard (0 =? 0)%N) with (Some tt). cbv beta iota.
  rewrite get_number_be by reflexivity. rewrite used_read. change (guard (1 <=? length [97; 98])) with (Some tt). cbv beta iota.
  rewrite get_number_be by reflexivity. change (guard ((2 <=? 2)%N && (2 <=? 6)%N)) with (Some tt). cbv beta iota.
  rewrite get_number_be by (change (2 ^ N.of_nat 15)%N with 32768%N; lia).
  replace (1 <=? N.of_nat (groups_for (bomb_syms m)))%N with true by (symmetry; apply N.leb_le; lia).
  change (guard true) with (Some tt). cbv beta iota. rewrite Nat2N.id.
  rewrite unaries_zero. change (seq 0 (N.to_nat 2)) with [0; 1]. rewrite unmove_zero.
  change (N.to_nat 2) with 2. change (length [97; 98] + 2) with 4. rewrite tables_read.
  change (guard (forallb prefix_lengths [bomb_lengths; bomb_lengths])) with (Some tt). cbv beta iota.
  change (length [97; 98] + 1) with 3. rewrite symbols_read by (auto using bomb_syms_small).
  rewrite bomb_column. rewrite app_length, !repeat_length.
  replace (N.of_nat (2 ^ m + 2 ^ m)) with (2 * 2 ^ N.of_nat m)%N.
  2: { rewrite Nat2N.inj_add, Nat2N.inj_pow. change (N.of_nat 2) with 2%N. lia. }
  destruct (2 * 2 ^ N.of_nat m <=? 100000 * level)%N; [|reflexivity]. cbn [guard].
  change (N.to_nat 0) with 0. rewrite bomb_unsort by (pose proof (Nat.pow_nonzero 2 m); lia). fold (bomb_contents m).
  assert (rle1_expand (bomb_contents m) = bomb_contents m) as ->.
  { unfold rle1_expand, bomb_contents. apply ab_expand; lia. }
  rewrite N.eqb_refl. reflexivity.
Qed.

(** ** the file *)
Definition bomb_tail (m : nat) : list bool :=
  be_bits 48 BLOCK_MAGIC ++ bomb_body (crc32_bzip2 (bomb_contents m)) m
    (be_bits 48 FOOTER_MAGIC ++ be_bits 32 (combined_crc [crc32_bzip2 (bomb_contents m)])).

Lemma bomb_tail_length m : m <= 60 -> length (bomb_tail m) <= 440.
Proof.
  intros Hm. pose proof (@bomb_groups m ltac:(lia)). unfold bomb_tail, bomb_body. rewrite !app_length, !be_length, repeat_length.
  assert (length (flat_map bomb_code (bomb_syms m)) = 4 + 2 * m) as ->.
  { unfold bomb_syms. cbn [flat_map]. rewrite app_length, flat_map_app, app_length. cbn [flat_map]. rewrite app_length.
    assert (length (flat_map bomb_code (repeat 0 m)) = m) as ->.
    { clear. induction m as [|m IH]; [reflexivity|]. cbn [repeat flat_map]. rewrite app_length, IH. reflexivity. }
    cbn [bomb_code length]. lia. }
  cbn [bomb_table bomb_code length app]. lia.
Qed.

Lemma combined_one_lt c : (c < 2 ^ N.of_nat 32)%N -> (combined_crc [c] < 2 ^ N.of_nat 32)%N.
Proof.
  change (2 ^ N.of_nat 32)%N with M32. intros H. unfold combined_crc. cbn [fold_left]. apply lxor_lt; auto. apply rotate_lt. reflexivity.
Qed.
Lemma bomb_blocks fuel level m pad : m <= 60 -> 2 <= fuel ->
  get_blocks fuel level [] (bomb_tail m ++ repeat false pad) =
  if (2 * 2 ^ N.of_nat m <=? 100000 * level)%N
  then Some ([mk_parsed (bomb_contents m) (crc32_bzip2 (bomb_contents m)) (bomb_contents m) 0], repeat false pad) else None.
Proof.
  intros Hm Hf. destruct fuel as [|[|fuel]]; [lia|lia|]. cbn [get_blocks]. unfold bomb_tail.
  rewrite <- app_assoc, get_number_be by reflexivity. rewrite N.eqb_refl.
  assert (forall c r x, bomb_body c m r ++ x = bomb_body c m (r ++ x)) as ->.
  { intros c r x. unfold bomb_body. rewrite <- !app_assoc. reflexivity. }
  rewrite bomb_block by lia. destruct (2 * 2 ^ N.of_nat m <=? 100000 * level)%N; [|reflexivity].
  rewrite <- app_assoc, get_number_be by reflexivity. change (FOOTER_MAGIC =? BLOCK_MAGIC)%N with false. rewrite N.eqb_refl. cbv iota.
  rewrite get_number_be by (apply combined_one_lt, crc32_bzip2_lt). cbn [pb_crc app]. rewrite N.eqb_refl. reflexivity.
Qed.

Theorem bomb m : m <= 60 -> exists tl,
  bytes tl /\ length tl <= 56 /\
  bunzip2 ([66; 90; 104; 49] ++ tl) = (if (2 * 2 ^ N.of_nat m <=? 100000)%N then Some (bomb_contents m) else None) /\
  forall p, decompressed p ([66; 90; 104; 49] ++ tl) (bomb_contents m).
Proof.
  intros Hm. destruct (packed (bomb_tail m)) as (tl & pad & HB & E & HP). exists tl. split; auto. split; [|split].
  - apply (f_equal (@length bool)) in E. rewrite bits_of_bytes, bytes_bits_length, app_length, repeat_length in E.
    pose proof (bomb_tail_length Hm). lia.
  - unfold bunzip2, bunzip2_blocks. cbn [app]. change (guard ((49 <=? 49) && (49 <=? 57))) with (Some tt). cbv zeta iota beta.
    rewrite E, bomb_blocks; auto.
    2: { unfold bomb_tail. rewrite !app_length, be_length. lia. }
    change (100000 * N.of_nat (49 - 48))%N with 100000%N. destruct (2 * 2 ^ N.of_nat m <=? 100000)%N; [|reflexivity].
    rewrite repeat_length. replace (pad <? 8) with true by (symmetry; apply Nat.ltb_lt; lia). cbn [guard].
    unfold contents_of. cbn [map concat pb_contents]. rewrite app_nil_r. reflexivity.
  - intros p. unfold decompressed. rewrite decode_stream_trace. unfold stream_trace.
    destruct (@read_file_header_ok 49 (br_from_reader ([66; 90; 104; 49] ++ tl)) (bytes_bits tl)) as (r & -> & ER).
    { unfold is_byte; lia. }
    { rewrite rbits_from_reader. reflexivity. }
    rewrite <- bits_of_bytes, E in ER. set (level := (2 ^ 45)%N).
    assert (2 * 2 ^ N.of_nat m <=? 100000 * level = true)%N as HL.
    { apply N.leb_le. transitivity (2 * 2 ^ 60)%N; [|vm_compute; discriminate].
      apply N.mul_le_mono_l, N.pow_le_mono_r; lia. }
    pose proof (@bomb_blocks 2 level m pad Hm (le_n _)) as EB. rewrite HL in EB.
    destruct (@blocks_follow p level ltac:(reflexivity) _ _ _ _ _ EB) as (A & B); [repeat constructor|].
    assert (inverse_rle (bomb_contents m) = bomb_contents m) as EI.
    { destruct (@ab_expand (2 ^ m) 0 0 ltac:(lia) ltac:(lia)) as (H1 & H2). rewrite inverse_rle_plain; [exact H1|exact H2]. }
    destruct (B (S (bits_left r)) r ER) as [(_ & r' & tail & -> & _)|(pre & b & post & EP & _ & NP & _)].
    + rewrite bits_left_rbits, ER, app_length. unfold bomb_tail. rewrite app_length, be_length. lia.
    + cbn [map pb_coded w_script w_out good_sink]. rewrite offer_nil, EI. cbn [concat app status]. rewrite app_nil_r. reflexivity.
    + exfalso. apply NP. destruct pre as [|b' pre]; [|destruct pre; discriminate]. injection EP as <- <-.
      unfold passes. cbn [pb_coded pb_crc]. rewrite EI. reflexivity.
Qed.

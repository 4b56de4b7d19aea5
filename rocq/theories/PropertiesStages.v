(** * Properties of the coding stages: C04 - C18, C40, C41

    Every theorem is followed by a concrete case that meets its hypotheses and by the
    list of its assumptions.  Words used in the statements come from the Spec files
    (SpecBwt, SpecRle, SpecBits, SpecCrc), the model, and the definitions below. *)
From Verif Require Import Base BaseFacts Bitwise BitwiseFacts SpecBits SpecCrc SpecRle SpecBwt Rle RleFacts Mtf MtfFacts
  Zle ZleFacts Crc32 Crc32Facts Sais SaisFacts Bwt DuvalFacts BwtFacts SymbolStatistics FloatFacts
  PackageMerge PackageMergeFacts Huffman HuffmanFacts GroupFacts CodeTable CodeTableFacts
  SymbolMap SymbolMapFacts Selectors SelectorsFacts BlockEncoder BlockDecoder BlockFacts Stream StreamFacts ReferenceFacts BombFacts.
From Verif Require LexFacts ExactBwtFacts RestoreFacts.
From Coq Require Import Sorting.Sorted Permutation.

(** "From a bit reader that still delivers [bits] followed by anything, [f] returns
    [value] and leaves exactly what follows." *)
Definition reads_exactly {A} (f : bit_reader -> res (A * bit_reader)) (bits : list bool) (value : A) : Prop :=
  forall r rest, rbits r = bits ++ rest -> exists r', f r = Ok (value, r') /\ rbits r' = rest.

Definition banana : list nat := [98; 97; 110; 97; 110; 97].

(** ** C04: suffix sorting *)
Theorem C04_suffix_sort : forall text, bytes text ->
  exists sa, build_suffix_array text = Ok sa /\ is_suffix_array text sa.
Proof. exact build_suffix_array_ok. Qed.
Example C04_case : bytes banana /\ build_suffix_array banana = Ok [6; 5; 3; 1; 0; 4; 2].
Proof. split; [repeat constructor; unfold is_byte; lia|vm_compute; reflexivity]. Qed.
Print Assumptions C04_suffix_sort.

(** ** C05: the pre-rotation is documented as the minimal rotation; it is not *)
Theorem C05_minimal_rotation_refuted :
  exists text i, bytes text /\ text <> [] /\ duval text = Ok i /\ ~ minimal_rotation text i.
Proof.
  exists (banana ++ [97]), 6. split; [repeat constructor; unfold is_byte; lia|].
  split; [discriminate|]. split; [vm_compute; reflexivity|].
  intros H. specialize (H 5 ltac:(cbn; lia)). cbv in H.
  destruct H as [H|H]; [discriminate|]. inversion H; subst; [lia|]. inversion H1; subst; lia.
Qed.
(** What it is: the start of the smallest non-empty suffix; and it is the minimal
    rotation whenever that suffix occurs only once in the block. *)
Theorem C05_smallest_suffix_partial : forall text, text <> [] ->
  exists i, duval text = Ok i /\ smallest_suffix text i /\
    ((forall j, j < length text -> j <> i -> firstn (length text - i) (suffix text j) <> suffix text i) ->
     minimal_rotation text i).
Proof.
  intros text Hne. destruct (duval_smallest text) as (i & E & Hi & Hm).
  assert (smallest_suffix text i) as HS by (apply Hm; destruct text; [congruence|cbn [length]; lia]).
  exists i. split; auto. split; auto. intros HU. apply unique_smallest_minimal; auto.
Qed.
Example C05_case : duval banana = Ok 5 /\ smallest_suffix banana 5.
Proof.
  destruct (C05_smallest_suffix_partial (text := banana)) as (i & E & H & _); [discriminate|].
  assert (duval banana = Ok 5) as E5 by (vm_compute; reflexivity).
  split; auto. rewrite E in E5. injection E5 as ->. auto.
Qed.
Print Assumptions C05_minimal_rotation_refuted.
Print Assumptions C05_smallest_suffix_partial.

(** ** C06: the block sort is not invertible for every block *)
Theorem C06_block_sort_invertible_refuted :
  exists block col ptr, bytes block /\ block <> [] /\ bwt block = Ok (col, ptr) /\ inverse_bwt col ptr <> Ok block.
Proof.
  exists [98; 97; 97; 97]. eexists; eexists. split; [repeat constructor; unfold is_byte; lia|].
  split; [discriminate|]. split; [vm_compute; reflexivity|]. vm_compute. discriminate.
Qed.
(** Exactly the [reversible] blocks (SpecBwt.v) are restored. *)
Theorem C06_restored_exact : forall block, bytes block -> block <> [] ->
  exists col ptr, bwt block = Ok (col, ptr) /\ (inverse_bwt col ptr = Ok block <-> reversible block).
Proof.
  intros block HB Hne. destruct (bwt_ok HB Hne) as (col & ptr & E & SP). exists col, ptr. split; auto.
  apply RestoreFacts.inverse_reversible; auto.
Qed.
(** They are when the suffixes of the rotated block sort like its rotations
    ([rotation_safe]), but not only then. *)
Theorem C06_rotation_safe_reversible_partial : forall block, rotation_safe block -> reversible block.
Proof. exact RestoreFacts.safe_reversible. Qed.
Example C06_reversible_case : bytes [0; 1; 0; 0; 0] /\ reversible [0; 1; 0; 0; 0] /\ ~ rotation_safe [0; 1; 0; 0; 0] /\ ~ reversible [98; 97; 97; 97].
Proof.
  assert (bytes [0; 1; 0; 0; 0]) as HB by (repeat constructor; unfold is_byte; lia). split; [exact HB|].
  split; [|split].
  - destruct (C06_restored_exact HB ltac:(discriminate)) as (col & ptr & E & R). apply R. vm_compute in E. injection E as <- <-. vm_compute. reflexivity.
  - intros (i & (Hi & Hm) & HS). assert (i = 4) as ->.
    { destruct (Nat.eq_dec i 4) as [|N]; auto. exfalso. specialize (Hm 4 ltac:(cbn; lia) ltac:(lia)). cbn [length] in Hi.
      assert (i = 0 \/ i = 1 \/ i = 2 \/ i = 3) as D by lia. apply LexFacts.lexltb_lexlt in Hm.
      destruct D as [-> | [-> | [-> | ->]]]; vm_compute in Hm; discriminate. }
    destruct (HS 4 3) as [H|H]; [cbn; lia|cbn; lia|apply LexFacts.lexltb_lexlt; vm_compute; reflexivity| |].
    + vm_compute in H. discriminate.
    + apply LexFacts.lexltb_lexlt in H. vm_compute in H. discriminate.
  - intros H. assert (bytes [98; 97; 97; 97]) as HB' by (repeat constructor; unfold is_byte; lia).
    destruct (C06_restored_exact HB' ltac:(discriminate)) as (col & ptr & E & R). apply R in H. vm_compute in E. injection E as <- <-. vm_compute in H. discriminate.
Qed.
Theorem C06_block_sort_invertible_partial : forall block, bytes block -> block <> [] -> rotation_safe block ->
  exists col ptr, bwt block = Ok (col, ptr) /\ inverse_bwt col ptr = Ok block.
Proof. exact bwt_round_trip. Qed.
(** e.g. when its last byte occurs nowhere else in it *)
Theorem C06_unique_last_byte_partial : forall front last, bytes (front ++ [last]) -> ~ In last front ->
  exists col ptr, bwt (front ++ [last]) = Ok (col, ptr) /\ inverse_bwt col ptr = Ok (front ++ [last]).
Proof. 
  intros front last HB HN. apply bwt_round_trip; auto; [destruct front; discriminate|].
  apply unique_last_safe; auto.
Qed.
(** The reason given in the documentation is a good one: whenever the pre-rotation is the
    minimal rotation, the block is restored. *)
Theorem C06_minimal_rotation_partial : forall block i, bytes block -> block <> [] ->
  duval block = Ok i -> minimal_rotation block i ->
  exists col ptr, bwt block = Ok (col, ptr) /\ inverse_bwt col ptr = Ok block.
Proof.
  intros block i HB Hne E HM. apply bwt_round_trip; auto.
  destruct (C05_smallest_suffix_partial Hne) as (i' & E' & HS & _). rewrite E in E'. injection E' as <-.
  eapply minimal_rotation_safe; eauto.
Qed.
(** Exactly the rotation-safe blocks are transformed as the format says (SpecBwt.v [burrows_wheeler]: the
    rotations of the block in order): for every other block the column or the pointer is not a
    Burrows-Wheeler transform of it. *)
Theorem C06_exact_partial : forall block col ptr, bytes block -> block <> [] -> bwt block = Ok (col, ptr) ->
  (burrows_wheeler block col ptr <-> rotation_safe block).
Proof.
  intros block col ptr HB Hne E. destruct (bwt_ok HB Hne) as (col' & ptr' & E' & SP). rewrite E in E'.
  injection E' as <- <-. apply ExactBwtFacts.transform_iff; auto.
Qed.
Example C06_case : bytes banana /\ banana <> [] /\ rotation_safe banana.
Proof.
  split; [repeat constructor; unfold is_byte; lia|]. split; [discriminate|].
  apply rotation_safe_ok; [discriminate|vm_compute; reflexivity].
Qed.
Print Assumptions C06_block_sort_invertible_refuted.
Print Assumptions C06_block_sort_invertible_partial.
Print Assumptions C06_unique_last_byte_partial.
Print Assumptions C06_minimal_rotation_partial.
Print Assumptions C06_exact_partial.

(** ** C07: the initial run-length code is lossless, however the input is split *)

(** reading the pieces one after the other, as the fill loop does *)
Fixpoint rle_pieces (pieces : list (list nat)) (data : list nat) (count : nat) (last : option nat) : list nat :=
  match pieces with
  | [] => rle_augment data count last
  | piece :: tl =>
      let result := rle piece count last in
      rle_pieces tl (data ++ rle_data result) (rle_counter result) (rle_last result)
  end.
Theorem C07_run_length_lossless : forall pieces,
  rle1_expand (rle_pieces pieces [] 0 None) = concat pieces /\
  rle_pieces pieces [] 0 None = coded (concat pieces).
Proof.
  intros pieces.
  assert (forall pieces done, rle_pieces pieces (rle_data (rle done 0 None)) (rle_counter (rle done 0 None)) (rle_last (rle done 0 None))
    = coded (done ++ concat pieces)) as G.
  { clear. induction pieces as [|q pieces IH]; intros done; cbn [rle_pieces concat].
    - rewrite app_nil_r. symmetry. apply coded_aug.
    - pose proof (rle_app done q 0 None) as HA.
      rewrite app_assoc, <- IH, HA. cbn [rle_data rle_counter rle_last]. reflexivity. }
  specialize (G pieces []). cbn [app] in G. change (rle_data (rle [] 0 None)) with (@nil nat) in G.
  change (rle_counter (rle [] 0 None)) with 0 in G. change (rle_last (rle [] 0 None)) with (@None nat) in G.
  rewrite G. split; auto. rewrite coded_aug. apply rle_lossless.
Qed.
Example C07_case : rle_pieces [[97; 97; 97]; [97; 97; 98]; [98]] [] 0 None = [97; 97; 97; 97; 1; 98; 98].
Proof. vm_compute. reflexivity. Qed.
Print Assumptions C07_run_length_lossless.

(** ** C08: the decoder does not expand every block as the format says *)
Theorem C08_expand_refuted : exists l, bytes l /\ inverse_rle l <> rle1_expand l.
Proof.
  exists [97; 97; 97; 97; 0; 0; 0; 0; 120]. split; [repeat constructor; unfold is_byte; lia|].
  vm_compute. discriminate.
Qed.
(** It does for the coded form of every run-safe sequence (no run of n >= 4 bytes is
    directly followed by three or more bytes of value n - 4). *)
Theorem C08_expand_partial : forall l, run_safe l = true ->
  inverse_rle (coded l) = rle1_expand (coded l) /\ inverse_rle (coded l) = l.
Proof.
  intros l H. assert (inverse_rle (coded l) = l) as E by (apply inverse_rle_safe; auto).
  split; auto. rewrite E. rewrite coded_aug. symmetry. apply rle_lossless.
Qed.
Example C08_case : run_safe (repeat 97 300 ++ [0; 0; 98]) = true.
Proof. vm_compute. reflexivity. Qed.
Print Assumptions C08_expand_refuted.
Print Assumptions C08_expand_partial.

(** ** C09: move-to-front *)
Theorem C09_move_to_front : forall column, bytes column ->
  exists indices used, mtf column = Ok (indices, used) /\
    StronglySorted lt used /\ (forall x, In x used <-> In x column) /\
    length indices = length column /\ Forall (fun k => k < length used) indices /\
    inverse_mtf indices used = Ok column.
Proof.
  intros column H. destruct (mtf_spec H) as (enc & used & A & B & C & _ & D & E & F). exists enc, used. auto 10.
Qed.
Example C09_case : bytes banana /\ mtf banana = Ok ([1; 1; 2; 1; 1; 1], [97; 98; 110]).
Proof. split; [repeat constructor; unfold is_byte; lia|vm_compute; reflexivity]. Qed.
Print Assumptions C09_move_to_front.

(** ** C10: zero runs.  [zle_transform] with a reporter that ignores its input gives
    the symbols; decoding them gives back the indices. *)
Theorem C10_zero_runs : forall indices, (N.of_nat (length indices) < 9223372036854775808)%N ->
  exists symbols, zle_transform (fun u (_ : zsym) => Ok u) indices tt = Ok (symbols, tt) /\
    decode_zle symbols = Ok indices.
Proof.
  intros l H. exists (zsyms 0 l). split.
  - rewrite zle_transform_eq.
    assert (forall s, fold_res (fun u (_ : zsym) => Ok u) s tt = Ok tt) as G by (induction s; cbn [fold_res bind]; auto).
    rewrite G. reflexivity.
  - apply zle_round_trip. exact H.
Qed.
Example C10_case : zle_transform (fun u (_ : zsym) => Ok u) [0; 0; 0; 5; 0] tt = Ok ([RunA; RunA; Number 5; RunA], tt).
Proof. vm_compute. reflexivity. Qed.
Print Assumptions C10_zero_runs.

(** ** C11 and C40: code lengths *)

(** the coding symbols for [used] byte values, in order *)
Definition coding_alphabet (used : nat) : list hsym :=
  [Normal RunA; Normal RunB] ++ map (fun x => Normal (Number (x + 1))) (seq 0 (used - 1)) ++ [EoB].
Definition lengths_of (T : canonical_table) : list nat := map (fun e => length (fst e)) T.
(** sum of 2^(17 - length): 2^17 times the Kraft sum *)
Definition kraft17 (ls : list nat) : nat := list_sum (map (fun l => 2 ^ (17 - l)) ls).

Theorem C11_code_lengths : forall freqs used, 1 <= used <= 256 -> length freqs = used + 1 ->
  exists t T, compute_huffman freqs = Ok t /\ (forall p, canonicalize p t = Ok T) /\
    map snd T = coding_alphabet used /\
    Forall (fun l => 1 <= l <= 17) (lengths_of T) /\ kraft17 (lengths_of T) = 2 ^ 17.
Proof.
  intros freqs used Hu Hf. destruct (@tables_agree freqs) as (t & T & E1 & E2 & A & B & C & _); [lia|].
  exists t, T. rewrite Hf in A. replace (used + 1 - 1) with used in A by lia. auto 10.
Qed.
Example C11_case : exists t, compute_huffman [5; 0; 3; 3; 0]%N = Ok t /\ map fst t = [4; 4; 3; 2; 2; 2].
Proof. eexists. split; vm_compute; reflexivity. Qed.
Print Assumptions C11_code_lengths.

(** total cost of a code *)
Definition total_cost (weights : list N) (lengths : list nat) : N :=
  fold_right N.add 0%N (map (fun x => (fst x * N.of_nat (snd x))%N) (combine weights lengths)).
Theorem C40_optimal : forall weights lengths other,
  StronglySorted N.lt weights -> 2 <= length weights <= 258 -> compute_lis weights 17 = Ok lengths ->
  length other = length weights -> Forall (fun l => l <= 17) other -> kraft17 other <= 2 ^ 17 ->
  (total_cost weights lengths <= total_cost weights other)%N.
Proof. intros w ls ls'. exact (@compute_lis_optimal w ls ls'). Qed.
Example C40_case : compute_lis [1; 2; 3; 9]%N 17 = Ok [3; 3; 2; 1] /\ total_cost [1; 2; 3; 9]%N [3; 3; 2; 1] = 24%N.
Proof. split; vm_compute; reflexivity. Qed.
Print Assumptions C40_optimal.

(** ** C12: the decoder rebuilds the encoder's codes, and reads the coded symbols *)
Definition is_prefix_free (T : canonical_table) : Prop :=
  forall e1 e2 rest, In e1 T -> In e2 T -> fst e2 = fst e1 ++ rest -> e1 = e2.
Definition in_alphabet (used : nat) (s : zsym) : Prop := In (Normal s) (coding_alphabet used).

Theorem C12_coded_symbols : forall used freqs, 1 <= used <= 256 -> Forall (fun f => length f = used + 1) freqs ->
  exists tables,
    (* the encoder's tables *)
    (forall p, map_res (fun f => let! t := compute_huffman f in canonicalize p t) freqs = Ok tables) /\
    length tables = length freqs /\
    Forall is_prefix_free tables /\
    (* the decoder's tables, from the lengths *)
    (forall p, map_res (fun ls => let! t := from_weights ls in canonicalize p t) (map lengths_of tables) = Ok tables) /\
    (* coded symbols are read back *)
    forall selectors symbols, length selectors = length symbols / 50 + 1 ->
      Forall (fun s => s < length tables) selectors -> Forall (in_alphabet used) symbols ->
      exists bits, encode_data tables selectors symbols = Ok bits /\
        reads_exactly (read_groups selectors tables) bits symbols.
Proof.
  intros used freqs Hu HF. destruct (tables_ok Hu HF) as (tables & E & L & G).
  exists tables. split; [exact E|]. split; auto. split; [|split].
  - eapply Forall_impl; [|exact G]. cbv beta. intros T HT. tauto.
  - intros p. clear E L. induction G as [|T tables HT G IH]; [reflexivity|]. cbn [map map_res].
    destruct HT as (_ & _ & _ & _ & t' & F1 & F2). unfold lengths_of at 1. fold (code_lengths T).
    rewrite F1. cbn [bind]. rewrite F2. cbn [bind]. rewrite IH. reflexivity.
  - intros sel syms HL HS HA. apply data_round_trip; auto.
    + apply Forall_forall. intros T HT. eapply good_table_of; eauto.
    + apply Forall_forall. intros T HT. unfold good_tables in G. rewrite Forall_forall in G. destruct (G T HT) as (A & _).
      split; rewrite A; [|apply alphabet_eob]. exact HA.
Qed.
Example C12_case : 1 <= 2 <= 256 /\ length [5; 0; 3]%N = 2 + 1 /\ in_alphabet 2 (Number 1).
Proof. split; [lia|]. split; auto. unfold in_alphabet. cbn. auto. Qed.
Print Assumptions C12_coded_symbols.

(** ** C13: code length tables *)
Theorem C13_length_tables : forall p lengths, lengths <> [] -> Forall (fun l => l < 32) lengths ->
  reads_exactly (fun r => read_delta p r (length lengths)) (encode_bit_lengths lengths) lengths.
Proof. exact reads_delta. Qed.
Example C13_case : encode_bit_lengths [3; 5; 4] = [false; false; false; true; true; false] ++ [true; false; true; false; false] ++ [true; true; false].
Proof. vm_compute. reflexivity. Qed.
Print Assumptions C13_length_tables.

(** ** C14: the map of used byte values *)
Theorem C14_symbol_map : forall used, StronglySorted lt used -> bytes used ->
  exists bits, write_symbol_table used = Ok bits /\ reads_exactly read_symbol_table bits used.
Proof.
  intros used HS HB. exists (map_bits (mem used)). split; [apply write_symbol_table_spec; auto|].
  apply reads_symbol_table; auto.
Qed.
Example C14_case : StronglySorted lt [97; 98; 110] /\ bytes [97; 98; 110].
Proof. split; repeat constructor; unfold is_byte; lia. Qed.
Print Assumptions C14_symbol_map.

(** ** C15: the selector list *)

(** what the decoder makes of the selector bits of the encoder *)
Definition selectors_read_back (selectors : list nat) (tables : nat) : Prop :=
  exists bits moved, create_selectors selectors = Ok (bits, length selectors) /\
    (forall p, reads_exactly (fun r => read_unary p r (length selectors)) bits moved) /\
    inverse_mtf moved (seq 0 tables) = Ok selectors.
Theorem C15_selectors_refuted : exists selectors tables, tables <= 6 /\ selectors <> [] /\
  Forall (fun s => s < tables) selectors /\ ~ selectors_read_back selectors tables.
Proof.
  exists [1; 1], 2. split; [lia|]. split; [discriminate|]. split; [repeat constructor|].
  intros (bits & moved & E & R & I). vm_compute in E. injection E as <-.
  destruct (R Checked (br_from_reader [0]) [false; false; false; false; false; false]) as (r' & E' & _).
  { vm_compute. reflexivity. }
  vm_compute in E'. injection E' as <- _. vm_compute in I. discriminate.
Qed.
(** What the decoder reads in general: every selector is replaced by its rank among the
    selectors that occur. *)
Definition rank_among (selectors : list nat) (s : nat) : nat :=
  length (filter (fun t => t <? s) (nodup Nat.eq_dec selectors)).
Theorem C15_selectors_read : forall selectors tables, selectors <> [] ->
  Forall (fun s => s < tables) selectors -> tables <= 256 ->
  exists bits moved, create_selectors selectors = Ok (bits, length selectors) /\
    (forall p, reads_exactly (fun r => read_unary p r (length selectors)) bits moved) /\
    inverse_mtf moved (seq 0 tables) = Ok (map (rank_among selectors) selectors).
Proof.
  intros sel tables Hne HF Ht.
  destruct (@selectors_ranks sel tables) as (enc & E & L & F & I).
  - eapply Forall_impl; [|exact HF]. unfold is_byte. cbv beta. intros; lia.
  - split; auto. rewrite <- (seq_length tables 0). apply NoDup_incl_length; [apply NoDup_nodup|].
    intros x Hx. apply nodup_In in Hx. rewrite Forall_forall in HF. apply HF in Hx. apply in_seq. lia.
  - exists (flat_map unary enc), enc. split; auto. split; auto.
    intros p. rewrite <- L. apply reads_unary; auto. intros ->. destruct sel; [congruence|discriminate].
Qed.
(** So it works exactly when the selectors that occur are 0, ..., m-1 for some m. *)
Theorem C15_selectors_partial : forall selectors tables, selectors <> [] ->
  Forall (fun s => s < tables) selectors -> tables <= 256 ->
  (selectors_read_back selectors tables <-> exists m, forall x, In x selectors <-> x < m).
Proof.
  intros sel tables Hne HF Ht. destruct (@C15_selectors_read sel tables Hne HF Ht) as (bits & moved & E & R & I).
  assert (bytes sel) as HB by (eapply Forall_impl; [|exact HF]; unfold is_byte; cbv beta; intros; lia).
  rewrite <- (ranks_same HB). split.
  - intros (bits' & moved' & E' & R' & I'). rewrite E in E'. injection E' as <-.
    destruct (packed bits) as (file & k & _ & EF & _). rewrite bits_of_bytes in EF.
    destruct (R Checked (br_from_reader file) (repeat false k)) as (r1 & E1 & _); [rewrite rbits_from_reader; exact EF|].
    destruct (R' Checked (br_from_reader file) (repeat false k)) as (r2 & E2 & _); [rewrite rbits_from_reader; exact EF|].
    rewrite E1 in E2. injection E2 as <- _. rewrite I in I'. injection I' as I'. exact I'.
  - intros H. exists bits, moved. split; auto. split; auto. rewrite I. f_equal. exact H.
Qed.
Example C15_case : (forall x, In x [1; 0; 0; 2; 1] <-> x < 3) /\ map (rank_among [4; 0; 2; 4]) [4; 0; 2; 4] = [2; 0; 1; 2].
Proof. split; [intros x; cbn [In]; lia|reflexivity]. Qed.
Print Assumptions C15_selectors_refuted.
Print Assumptions C15_selectors_read.
Print Assumptions C15_selectors_partial.

(** ** C16, C17: the block checksum *)
Theorem C16_checksum : forall block, bytes block -> crc32 block = crc32_bzip2 block.
Proof. exact crc32_correct. Qed.
Example C16_case : bytes [49; 50; 51; 52; 53; 54; 55; 56; 57] /\ crc32 [49; 50; 51; 52; 53; 54; 55; 56; 57] = 4236843288%N.
Proof. split; [repeat constructor; unfold is_byte; lia|vm_compute; reflexivity]. Qed.
Print Assumptions C16_checksum.

Theorem C17_bursts : forall a b front burst_a burst_b back, bytes a -> bytes b ->
  bits_of a = front ++ burst_a ++ back -> bits_of b = front ++ burst_b ++ back ->
  length burst_a = length burst_b -> length burst_a <= 32 -> a <> b -> crc32 a <> crc32 b.
Proof. intros a b f wa wb k Ha Hb Ea Eb HL H32 Hne E. apply Hne. eapply burst_detected; eauto. Qed.
(** in particular: four adjacent bytes *)
Theorem C17_four_bytes : forall front x y back, bytes (front ++ x ++ back) -> bytes (front ++ y ++ back) ->
  length x = length y -> length x <= 4 -> x <> y -> crc32 (front ++ x ++ back) <> crc32 (front ++ y ++ back).
Proof.
  intros front x y back Ha Hb HL H4 Hne. apply C17_bursts with (bits_of front) (bits_of x) (bits_of y) (bits_of back); auto.
  - rewrite !bits_of_bytes, !bytes_bits_app. reflexivity.
  - rewrite !bits_of_bytes, !bytes_bits_app. reflexivity.
  - rewrite !bits_of_bytes, !bytes_bits_length. lia.
  - rewrite !bits_of_bytes, !bytes_bits_length. lia.
  - intros E. apply app_inv_head in E. apply app_inv_tail in E. auto.
Qed.
Example C17_case : crc32 ([1; 2] ++ [3; 4; 5; 6] ++ [7]) <> crc32 ([1; 2] ++ [3; 9; 9; 6] ++ [7]).
Proof. apply C17_four_bytes; try (repeat constructor; unfold is_byte; lia). discriminate. Qed.
Print Assumptions C17_bursts.
Print Assumptions C17_four_bytes.

(** ** C18: bit packing *)
Fixpoint write_all (pieces : list (list bool)) (bw : bit_writer) : res unit * bit_writer :=
  match pieces with
  | [] => (Ok tt, bw)
  | bits :: tl =>
      match write_bits bw bits with
      | (Ok _, bw) => write_all tl bw
      | other => other
      end
  end.
Fixpoint read_all (sizes : list nat) (r : bit_reader) : res (list (list bool)) :=
  match sizes with
  | [] => Ok []
  | n :: tl => let! (bits, r) := read_bits r n in let! rest := read_all tl r in Ok (bits :: rest)
  end.
Theorem C18_bit_packing : forall pieces,
  exists bw bw' padding, write_all pieces (bw_from_writer (good_sink [])) = (Ok tt, bw) /\
    bw_finalize bw = (Ok tt, bw') /\ padding < 8 /\
    let out := w_out (bw_sink bw') in
    bytes out /\ bits_of out = concat pieces ++ repeat false padding /\
    (forall parts, concat parts = bits_of out -> read_all (map (@length bool) parts) (br_from_reader out) = Ok parts) /\
    (forall n, length (bits_of out) < n -> read_bits (br_from_reader out) n = Err).
Proof.
  intros pieces.
  assert (forall pieces bw, bw_ok bw -> bytes (w_out (bw_sink bw)) -> exists bw', write_all pieces bw = (Ok tt, bw') /\
    bw_ok bw' /\ bytes (w_out (bw_sink bw')) /\ wbits bw' = wbits bw ++ concat pieces) as G.
  { clear. induction pieces as [|q pieces IH]; intros bw H B; cbn [write_all concat].
    - exists bw. rewrite app_nil_r. auto.
    - destruct (@write_bits_ok bw q H B) as (bw1 & -> & H1 & W1 & B1).
      destruct (IH bw1 H1 B1) as (bw2 & E & H2 & B2 & W2). exists bw2. rewrite W2, W1, <- app_assoc. auto. }
  destruct (G pieces (bw_from_writer (good_sink []))) as (bw & E & H & B & W).
  { split; cbn; [reflexivity|lia]. }
  { constructor. }
  destruct (@finalize_ok bw H B) as (bw' & k & E' & Hk & WB & B').
  exists bw, bw', k. split; auto. split; auto. split; auto. cbv zeta. split; auto.
  rewrite bits_of_bytes. split; [rewrite WB, W; reflexivity|]. split.
  - assert (forall parts r rest, rbits r = concat parts ++ rest -> read_all (map (@length bool) parts) r = Ok parts) as R.
    { clear. induction parts as [|q parts IH]; intros r rest E; cbn [map read_all concat] in *; auto.
      rewrite <- app_assoc in E. destruct (@reads_bits (length q) q eq_refl r _ E) as (r' & -> & E').
      cbn [bind]. rewrite (IH r' rest E'). reflexivity. }
    intros parts EP. apply R with (rest := []). rewrite app_nil_r, EP. apply rbits_from_reader.
  - intros n Hn. apply read_bits_short. rewrite rbits_from_reader. auto.
Qed.
Example C18_case : write_all [[true]; [false; true]; []; repeat true 6] (bw_from_writer (good_sink []))
  = (Ok tt, mk_bw [true] (good_sink [191])).
Proof. vm_compute. reflexivity. Qed.
Print Assumptions C18_bit_packing.

(** ** C41: selectors are counted exactly, although in binary32 arithmetic *)
Theorem C41_selector_count : forall symbols, (symbols < 16777216)%N -> selector_count symbols = ((symbols + 49) / 50)%N.
Proof. exact selector_count_exact. Qed.
(** so a Single block has one selector per group: all its selectors are 0, and there
    are as many as groups of fifty symbols, end-of-block included *)
Theorem C41_one_selector_per_group : forall used indices, 1 <= used -> Forall (fun k => k < used) indices ->
  (N.of_nat (length indices) <= 1000000)%N ->
  exists symbols freqs, zle_with_strategy Single indices used
    = Ok (symbols, ([freqs; freqs], repeat 0 ((length symbols + 1 + 49) / 50))).
Proof.
  intros used enc Hu HF HL. destruct (@single_stats used enc Hu HF HL) as (freqs & sel & E & _ & LF & ES).
  cbn [zle_with_strategy] in *. destruct (zle_transform single_report enc (single_create used)) as [[syms m]| | |]; try discriminate.
  cbn [bind] in *. injection E as -> E1 E2. exists (zsyms 0 enc), (sg_freq m). do 2 f_equal.
  unfold single_finalize in *. f_equal. rewrite E2, ES. f_equal.
  replace (length (zsyms 0 enc) + 1 + 49) with (length (zsyms 0 enc) + 1 * 50) by lia. rewrite Nat.div_add by lia. lia.
Qed.
Example C41_case : (selector_count 900001 = 18001)%N.
Proof. rewrite C41_selector_count by reflexivity. reflexivity. Qed.
Print Assumptions C41_selector_count.
Print Assumptions C41_one_selector_per_group.

(** * One block: the bits written for it and how the decoder reads them *)
From Verif Require Import Base BaseFacts Bitwise BitwiseFacts Rle Mtf MtfFacts SpecBwt Bwt BwtFacts
  Zle ZleFacts Float32 KMeans SymbolStatistics FloatFacts PackageMergeFacts Huffman HuffmanFacts
  CodeTable CodeTableFacts SymbolMap SymbolMapFacts Selectors SelectorsFacts GroupFacts
  BlockEncoder BlockDecoder.
From Coq Require Import Sorting.Sorted Sorting.Permutation.

Notation pad v n := (convert_to_code_pad_to_n_bits v n).

(** ** fixed width fields *)
Lemma pad_eq v n l : length l = n -> bval l = v -> pad v n = l.
Proof. intros <- <-. apply pad_n_bval. Qed.

Lemma reads_number v n : n <= 64 -> (v < 2 ^ N.of_nat n)%N ->
  reads (fun r => read_number r n) (pad v n) v.
Proof.
  intros Hn Hv. unfold read_number.
  assert (length (pad v n) = n) as HL by (apply pad_n_length; auto).
  intros r rest E. destruct (reads_unwrap (reads_bits _ HL) r rest E) as (r' & E1 & E2).
  exists r'. rewrite E1. cbn [bind]. rewrite convert_to_number_ok by lia. cbn [bind].
  rewrite pad_n_value. auto.
Qed.

Lemma byte_field a k : (N.to_nat (N.land (N.shiftr a k) 255)) < 256 /\
  N.of_nat (N.to_nat (N.land (N.shiftr a k) 255)) = (a / 2 ^ k mod 256)%N.
Proof.
  assert (N.land (N.shiftr a k) 255 = a / 2 ^ k mod 256)%N as ->.
  { change 255%N with (N.ones 8). rewrite N.land_ones, N.shiftr_div_pow2. reflexivity. }
  rewrite N2Nat.id. split; auto.
  assert (a / 2 ^ k mod 256 < 256)%N by (apply N.mod_lt; discriminate). lia.
Qed.

Lemma crc_bytes_ok crc : bytes (crc_as_bytes crc).
Proof.
  unfold crc_as_bytes. cbn [map].
  do 4 (apply Forall_cons; [apply byte_field|]). apply Forall_nil.
Qed.

Lemma byte_pad b : b < 256 -> length (pad (N.of_nat b) 8) = 8.
Proof. intros H. apply pad_n_length. change (2 ^ N.of_nat 8)%N with 256%N. lia. Qed.

Lemma crc_bits crc : (crc < 4294967296)%N ->
  convert_to_code_pad_to_bytes (crc_as_bytes crc) = pad crc 32.
Proof.
  intros H. symmetry. unfold convert_to_code_pad_to_bytes, crc_as_bytes. cbn [map flat_map].
  pose proof (byte_field crc (8 * 3)) as (A3 & B3). pose proof (byte_field crc (8 * 2)) as (A2 & B2).
  pose proof (byte_field crc (8 * 1)) as (A1 & B1). pose proof (byte_field crc (8 * 0)) as (A0 & B0).
  rewrite !pad_byte_n. apply pad_eq.
  - rewrite !app_length, !byte_pad by assumption. reflexivity.
  - rewrite !bval_app, !pad_n_value, !app_length, !byte_pad by assumption. rewrite B3, B2, B1, B0.
    cbn [length]. change (bval []) with 0%N. change (8 + (8 + (8 + 0))) with 24. change (8 + (8 + 0)) with 16. change (8 + 0) with 8.
    change (2 ^ N.of_nat 24)%N with 16777216%N. change (2 ^ N.of_nat 16)%N with 65536%N.
    change (2 ^ N.of_nat 8)%N with 256%N. change (2 ^ N.of_nat 0)%N with 1%N.
    change (2 ^ (8 * 3))%N with 16777216%N. change (2 ^ (8 * 2))%N with 65536%N.
    change (2 ^ (8 * 1))%N with 256%N. change (2 ^ (8 * 0))%N with 1%N.
    rewrite N.div_1_r.
    replace (crc / 65536)%N with (crc / 256 / 256)%N by (rewrite N.div_div; auto; discriminate).
    replace (crc / 16777216)%N with (crc / 256 / 256 / 256)%N by (rewrite !N.div_div; auto; discriminate).
    assert (crc / 256 / 256 / 256 < 256)%N as HT.
    { repeat (apply N.div_lt_upper_bound; [discriminate|]). lia. }
    rewrite (N.mod_small (crc / 256 / 256 / 256)) by auto.
    pose proof (N.div_mod crc 256 ltac:(discriminate)).
    pose proof (N.div_mod (crc / 256) 256 ltac:(discriminate)).
    pose proof (N.div_mod (crc / 256 / 256) 256 ltac:(discriminate)).
    lia.
Qed.

Lemma ptr_byte p m k : m = N.shiftl 255 k ->
  (N.shiftr (N.land p m) k mod 256 = p / 2 ^ k mod 256)%N.
Proof.
  intros ->. rewrite N.shiftr_land, N.shiftr_shiftl_l by lia. rewrite N.sub_diag, N.shiftl_0_r.
  change 255%N with (N.ones 8). rewrite N.land_ones, N.shiftr_div_pow2.
  change (2 ^ 8)%N with 256%N. apply N.mod_mod. discriminate.
Qed.

Lemma ptr_bits p : (p < 16777216)%N ->
  convert_to_code_pad_to_byte (N.to_nat (N.shiftr (N.land p 16711680) 16 mod 256))
  ++ convert_to_code_pad_to_byte (N.to_nat (N.shiftr (N.land p 65280) 8 mod 256))
  ++ convert_to_code_pad_to_byte (N.to_nat (N.land p 255 mod 256)) = pad p 24.
Proof.
  intros H. symmetry.
  rewrite (@ptr_byte p 16711680 16) by reflexivity. rewrite (@ptr_byte p 65280 8) by reflexivity.
  pose proof (@ptr_byte p 255 0 eq_refl) as H0. rewrite N.shiftr_0_r in H0. rewrite H0.
  change (2 ^ 0)%N with 1%N. rewrite N.div_1_r.
  assert (forall x, N.to_nat (x mod 256) < 256) as HB.
  { intros x. assert (x mod 256 < 256)%N by (apply N.mod_lt; discriminate). lia. }
  rewrite !pad_byte_n. apply pad_eq.
  - rewrite !app_length, !byte_pad by apply HB. reflexivity.
  - rewrite !bval_app, !pad_n_value, !app_length, !byte_pad by apply HB. rewrite !N2Nat.id.
    change (8 + 8) with 16. change (2 ^ N.of_nat 16)%N with 65536%N. change (2 ^ N.of_nat 8)%N with 256%N.
    change (2 ^ 16)%N with 65536%N. change (2 ^ 8)%N with 256%N.
    replace (p / 65536)%N with (p / 256 / 256)%N by (rewrite N.div_div; auto; discriminate).
    assert (p / 256 / 256 < 256)%N as HT.
    { repeat (apply N.div_lt_upper_bound; [discriminate|]). lia. }
    rewrite (N.mod_small (p / 256 / 256)) by auto.
    pose proof (N.div_mod p 256 ltac:(discriminate)).
    pose proof (N.div_mod (p / 256) 256 ltac:(discriminate)).
    lia.
Qed.

Lemma block_header_bits crc ptr : (crc < 4294967296)%N -> (ptr < 16777216)%N ->
  block_header crc ptr = bytes_bits block_magic ++ pad crc 32 ++ [false] ++ pad ptr 24.
Proof.
  intros Hc Hp. unfold block_header. rewrite crc_bits by auto. rewrite ptr_bits by auto.
  rewrite pad_bytes_bits by (repeat constructor). reflexivity.
Qed.

(** ** the statistics of the single-table strategy *)
Lemma symbol_index_lt used s : sym_below used s -> 1 <= used -> symbol_index s < used + 1.
Proof. destruct s; simpl; intros; lia. Qed.

Lemma single_fold used syms : 1 <= used -> Forall (sym_below used) syms -> forall m,
  length (sg_freq m) = used + 1 ->
  exists m', fold_res single_report syms m = Ok m' /\ length (sg_freq m') = used + 1 /\
    sg_count m' = (sg_count m + N.of_nat (length syms))%N.
Proof.
  intros Hu. induction 1 as [|s syms Hs HF IH]; intros m HL; cbn [fold_res].
  - exists m. split; auto. split; auto. cbn [length]. lia.
  - unfold single_report at 1. pose proof (symbol_index_lt _ Hs Hu) as Hi.
    rewrite (@get_at_lt _ _ _ 0%N) by lia. cbn [bind].
    match goal with |- context [set_at ?l ?i ?x] => destruct (@set_at_ok _ l i x) as (l' & -> & HL' & _) end; [lia|].
    cbn [bind]. destruct (IH (mk_single l' (sg_count m + 1))) as (m' & E & A & B); [cbn [sg_freq]; lia|].
    exists m'. split; auto. split; auto. rewrite B. cbn [sg_count length]. lia.
Qed.

(** ** generic block assembly *)
Definition gapless (k : nat) (sel : list nat) : Prop := exists m, m <= k /\ forall x, In x sel <-> x < m.

Definition tables_of (p : profile) (freqs : list (list N)) : res (list canonical_table) :=
  map_res (fun table => let! t := compute_huffman table in canonicalize p t) freqs.

(** the tables built from the frequencies *)
Definition good_tables (used : nat) (tables : list canonical_table) : Prop :=
  Forall (fun T => map snd T = alphabet used /\ Forall (fun l => 1 <= l <= 17) (code_lengths T) /\
    kraft 17 (code_lengths T) = 2 ^ 17 /\ prefix_free T /\
    exists t', from_weights (code_lengths T) = Ok t' /\ forall p, canonicalize p t' = Ok T) tables.

Lemma tables_ok used freqs : 1 <= used <= 256 -> Forall (fun f => length f = used + 1) freqs ->
  exists tables, (forall p, tables_of p freqs = Ok tables) /\ length tables = length freqs /\
    good_tables used tables.
Proof.
  intros Hu. unfold tables_of. induction 1 as [|f freqs Hf HF IH]; cbn [map_res].
  - exists []. repeat split. constructor.
  - destruct (@tables_agree f) as (t & T & E1 & E2 & A & B & C & D & t' & F1 & F2); [lia|].
    destruct IH as (ts & E & L & G). rewrite E1. cbn [bind].
    exists (T :: ts). split; [intros p; rewrite E2; cbn [bind]; rewrite E; reflexivity|]. split; [cbn [length]; lia|].
    constructor; auto. rewrite Hf in A. replace (used + 1 - 1) with used in A by lia.
    repeat split; auto. exists t'. auto.
Qed.

Lemma good_table_of used T tables : good_tables used tables -> In T tables -> good_table T.
Proof.
  intros H Hin. unfold good_tables in H. rewrite Forall_forall in H.
  destruct (H T Hin) as (A & B & C & D & _).
  split; auto. split; [rewrite A; apply alphabet_NoDup|].
  unfold code_lengths in B. rewrite Forall_map in B. eapply Forall_impl; [|exact B]. cbv beta; intros; lia.
Qed.

Lemma table_covers used T tables ss : 1 <= used -> good_tables used tables -> In T tables ->
  Forall (sym_below used) ss -> covers T ss.
Proof.
  intros Hu H Hin HS. unfold good_tables in H. rewrite Forall_forall in H.
  destruct (H T Hin) as (A & _). split; rewrite A; [|apply alphabet_eob].
  eapply Forall_impl; [|exact HS]. intros s Hs. apply alphabet_in; auto.
  all: destruct s; simpl in Hs; auto; lia.
Qed.

Lemma encode_code_table_bits used T tables : good_tables used tables -> In T tables ->
  encode_code_table T = encode_bit_lengths (code_lengths T).
Proof.
  intros H Hin. unfold good_tables in H. rewrite Forall_forall in H.
  destruct (H T Hin) as (_ & B & _). unfold encode_code_table. f_equal.
  unfold code_lengths. apply map_ext_in. intros e He. apply Nat.mod_small.
  unfold code_lengths in B. rewrite Forall_map, Forall_forall in B. specialize (B e He). cbv beta in B. lia.
Qed.

(** What a block consists of. *)
Record block_parts := mk_parts {
  bp_ptr : nat; bp_used : list nat; bp_tables : list canonical_table; bp_sel : list nat;
  bp_unary : list nat; bp_syms : list zsym; bp_data : list bool }.

Definition block_bits (crc : N) (b : block_parts) : list bool :=
  bytes_bits block_magic ++ pad crc 32 ++ [false] ++ pad (N.of_nat (bp_ptr b)) 24 ++
  map_bits (mem (bp_used b)) ++ pad (N.of_nat (length (bp_tables b))) 3 ++
  pad (N.of_nat (length (bp_sel b))) 15 ++ flat_map unary (bp_unary b) ++
  flat_map (fun T => encode_bit_lengths (code_lengths T)) (bp_tables b) ++ bp_data b.

(** everything a decoder needs to know to read the parts back *)
Definition parts_ok (data : list nat) (b : block_parts) : Prop :=
  exists col enc, bwt_spec data col (bp_ptr b) /\
    StronglySorted lt (bp_used b) /\ (forall x, In x (bp_used b) <-> In x col) /\
    1 <= length (bp_used b) <= 256 /\ bytes (bp_used b) /\ length enc = length col /\
    Forall (fun k => k < length (bp_used b)) enc /\
    inverse_mtf enc (bp_used b) = Ok col /\
    bp_syms b = zsyms 0 enc /\
    1 <= length (bp_tables b) < 8 /\ good_tables (length (bp_used b)) (bp_tables b) /\
    length (bp_sel b) = length (bp_syms b) / 50 + 1 /\
    Forall (fun s => s < length (bp_tables b)) (bp_sel b) /\
    length (bp_unary b) = length (bp_sel b) /\ Forall (fun x => x <= 255) (bp_unary b) /\
    inverse_mtf (bp_unary b) (seq 0 (length (bp_tables b))) = Ok (bp_sel b) /\
    encode_data (bp_tables b) (bp_sel b) (bp_syms b) = Ok (bp_data b) /\
    reads (read_groups (bp_sel b) (bp_tables b)) (bp_data b) (bp_syms b).

Lemma bytes_subset (l l' : list nat) : (forall x, In x l' <-> In x l) -> bytes l -> bytes l'.
Proof. intros H HB. unfold bytes in *. rewrite Forall_forall in *. intros x Hx. apply HB, H; auto. Qed.

Lemma used_nonempty (used col : list nat) : (forall x, In x used <-> In x col) -> col <> [] -> 1 <= length used.
Proof.
  intros H Hne. destruct col as [|x col]; [congruence|]. assert (In x used) as Hx by (apply H; left; auto).
  destruct used; [destruct Hx|cbn [length]; lia].
Qed.

Lemma map_res_inv_length {A B} (f : A -> res B) l l' : map_res f l = Ok l' -> length l' = length l.
Proof.
  revert l'; induction l as [|x l IH]; intros l' H; cbn [map_res] in H; [injection H as <-; auto|].
  apply bind_ok in H as (y & _ & H). apply bind_ok in H as (ys & E & H). injection H as <-.
  cbn [length]. f_equal. apply IH; auto.
Qed.

(** the intermediate results up to the zero-run stage *)
Definition front_end (data : list nat) (ptr : nat) (col enc used : list nat) : Prop :=
  bwt data = Ok (col, ptr) /\ bwt_spec data col ptr /\ mtf col = Ok (enc, used) /\
  StronglySorted lt used /\ (forall x, In x used <-> In x col) /\
  1 <= length used <= 256 /\ bytes used /\ length enc = length data /\ length col = length data /\
  Forall (fun k => k < length used) enc /\ inverse_mtf enc used = Ok col.

Lemma front_end_ok data : bytes data -> data <> [] -> exists ptr col enc used, front_end data ptr col enc used.
Proof.
  intros HB Hne. destruct (bwt_ok HB Hne) as (col & ptr & E & SP).
  pose proof (bwt_column_perm SP) as PC. pose proof (bwt_length SP) as LC.
  assert (bytes col) as HBC.
  { unfold bytes in *. rewrite Forall_forall in *. intros x Hx. apply HB.
    eapply Permutation_in; [symmetry; exact PC|auto]. }
  assert (col <> []) as HC. { intros ->. destruct data; [congruence|discriminate]. }
  destruct (mtf_spec HBC) as (enc & used & EM & SU & IU & LU & LE & FE & IE).
  exists ptr, col, enc, used. unfold front_end. repeat (split; [solve [auto]|]).
  split; [split; [eapply used_nonempty; eauto|auto]|].
  split; [eapply bytes_subset; eauto|]. split; [lia|]. auto.
Qed.

(** the outcome of the statistics suits the format *)
Definition stats_ok (used : nat) (syms : list zsym) (freqs : list (list N)) (sel : list nat) : Prop :=
  Forall (fun f => length f = used + 1) freqs /\ 1 <= length freqs < 8 /\
  length sel = length syms / 50 + 1 /\ gapless (length freqs) sel.

Theorem block_assembled p crc data st ptr col enc used freqs sel :
  front_end data ptr col enc used -> (N.of_nat (length data) <= 1000000)%N -> (crc < 4294967296)%N ->
  zle_with_strategy st enc (length used) = Ok (zsyms 0 enc, (freqs, sel)) ->
  stats_ok (length used) (zsyms 0 enc) freqs sel ->
  exists b, generate_block_data p crc data st = Ok (block_bits crc b, crc) /\ parts_ok data b /\
    bp_sel b = sel /\ length (bp_tables b) = length freqs.
Proof.
  intros (E & SP & EM & SU & IU & LU & BU & LE & LC & FE & IE) HL Hcrc EZ (Hf & Hk & Hs & m & Hm & Hg).
  unfold generate_block_data. rewrite E. cbn [bind]. rewrite EM. cbn [bind]. rewrite EZ. cbn [bind].
  destruct (tables_ok LU Hf) as (tables & ET & LT & GT).
  specialize (ET p). unfold tables_of in ET. rewrite ET. cbn [bind].
  destruct (@selectors_round_trip sel m (length tables)) as (un & ES & LN & FN & IN); [auto|lia|lia|].
  rewrite ES. cbn [bind]. rewrite write_symbol_table_spec by auto. cbn [bind].
  pose proof (zsyms_length 0 enc) as LZ.
  pose proof (Nat.mul_div_le (length (zsyms 0 enc)) 50 ltac:(lia)) as LS.
  rewrite N.mod_small by lia. rewrite pad15_ok by lia. cbn [bind].
  assert (Forall (fun s => s < length tables) sel) as FS.
  { apply Forall_forall. intros x Hx. apply Hg in Hx. lia. }
  assert (Forall (sym_below (length used)) (zsyms 0 enc)) as FB by (apply zsyms_below; auto).
  destruct (@data_round_trip tables sel (zsyms 0 enc)) as (bits & ED & RD); auto.
  { apply Forall_forall. intros T HT. eapply good_table_of; eauto. }
  { apply Forall_forall. intros T HT. apply table_covers with (used := length used) (tables := tables); auto; lia. }
  rewrite ED. cbn [bind].
  destruct SP as (i & sa & SP). assert (ptr < length data) as HP by (cbv zeta in SP; tauto).
  rewrite N.mod_small by lia. rewrite block_header_bits by lia.
  exists (mk_parts ptr used tables sel un (zsyms 0 enc) bits).
  split; [|split; [|split; auto]].
  - unfold block_bits. cbn [bp_ptr bp_used bp_tables bp_sel bp_unary bp_syms bp_data].
    assert (flat_map encode_code_table tables
            = flat_map (fun T => encode_bit_lengths (code_lengths T)) tables) as ->.
    { rewrite !flat_map_concat_map. f_equal. apply map_ext_in. intros T HT.
      eapply encode_code_table_bits; eauto. }
    rewrite <- !app_assoc. reflexivity.
  - exists col, enc. cbn [bp_ptr bp_used bp_tables bp_sel bp_unary bp_syms bp_data].
    repeat (split; [solve [auto; lia]|]). split; [exists i, sa; auto|].
    repeat (split; [solve [auto; lia]|]). auto.
Qed.

(** ** the decoder reads the block back *)
Lemma reads_trees p used tables : 1 <= used -> good_tables used tables ->
  reads (fun r => read_trees p (length tables) r (used + 2))
    (flat_map (fun T => encode_bit_lengths (code_lengths T)) tables) (map code_lengths tables).
Proof.
  intros Hu. unfold good_tables. induction 1 as [|T tables HT HF IH]; cbn [length read_trees flat_map map].
  - apply reads_ret.
  - destruct HT as (A & B & _).
    assert (length (code_lengths T) = used + 2) as HL.
    { unfold code_lengths. rewrite map_length, <- (map_length snd), A. apply alphabet_length; auto. }
    apply reads_bind with (a := code_lengths T).
    + apply reads_unwrap. rewrite <- HL. apply reads_delta.
      * intros E; rewrite E in HL; cbn [length] in HL; lia.
      * eapply Forall_impl; [|exact B]. cbv beta; intros; lia.
    + apply (@reads_ext _ (fun r => let! (ts, r) := read_trees p (length tables) r (used + 2) in
                Ok (code_lengths T :: ts, r))); [reflexivity|].
      rewrite <- (app_nil_r (flat_map _ _)). eapply reads_bind; [exact IH|]. apply reads_ret.
Qed.

Lemma rebuild_tables p used tables : good_tables used tables ->
  map_res (fun tree => let! t := from_weights tree in canonicalize p t) (map code_lengths tables) = Ok tables.
Proof.
  unfold good_tables. induction 1 as [|T tables HT HF IH]; cbn [map map_res]; auto.
  destruct HT as (_ & _ & _ & _ & t' & -> & E). cbn [bind]. rewrite E. cbn [bind]. rewrite IH. reflexivity.
Qed.

(** what the decoder makes of the bits of a block (after the magic) *)
Definition block_body (crc : N) (b : block_parts) : list bool :=
  pad crc 32 ++ [false] ++ pad (N.of_nat (bp_ptr b)) 24 ++
  map_bits (mem (bp_used b)) ++ pad (N.of_nat (length (bp_tables b))) 3 ++
  pad (N.of_nat (length (bp_sel b))) 15 ++ flat_map unary (bp_unary b) ++
  flat_map (fun T => encode_bit_lengths (code_lengths T)) (bp_tables b) ++ bp_data b.

Lemma block_bits_body crc b : block_bits crc b = bytes_bits block_magic ++ block_body crc b.
Proof. reflexivity. Qed.

Lemma reads_last {A B} (f : bit_reader -> res (A * bit_reader)) bs a (g : A -> bit_reader -> res (B * bit_reader)) b :
  reads f bs a -> (forall r, g a r = Ok (b, r)) -> reads (fun r => let! (x, r) := f r in g x r) bs b.
Proof.
  intros Hf Hg r rest E. destruct (Hf r rest E) as (r' & -> & E'). cbn [bind]. rewrite Hg. eauto.
Qed.

(** a pure step between reads *)
Lemma reads_pure {A B} (m : res A) (g : A -> bit_reader -> res (B * bit_reader)) bs a b :
  m = Ok a -> reads (g a) bs b -> reads (fun r => let! x := m in g x r) bs b.
Proof. intros -> H. exact H. Qed.

Theorem block_read_some (P : list nat -> Prop) crc data b : parts_ok data b -> (N.of_nat (length data) <= 1000000)%N ->
  (crc < 4294967296)%N -> (forall col, bwt_spec data col (bp_ptr b) -> exists out, inverse_bwt col (bp_ptr b) = Ok out /\ P out) ->
  exists out, P out /\ forall p, reads (decode_block_data p) (block_body crc b) (inverse_rle out, crc).
Proof.
  intros (col & enc & SP & SU & IU & LU & BU & LE & FE & IE & EZ & HT & GT & LS & FS & LN & FN & IN & _ & RD)
    HL Hcrc HI. destruct (HI col SP) as (out & EI & HP0). exists out. split; auto. intros p. unfold decode_block_data, block_body.
  pose proof (bwt_length SP) as LC.
  assert (bp_ptr b < length data) as HP by (destruct SP as (i & sa & SP); cbv zeta in SP; tauto).
  pose proof (zsyms_length 0 enc) as LZ.
  pose proof (Nat.mul_div_le (length (bp_syms b)) 50 ltac:(lia)) as LS'. rewrite <- EZ in LZ.
  eapply reads_bind; [apply reads_number; [lia|exact Hcrc]|]. cbv beta.
  eapply reads_bind; [apply (@reads_bits 1 [false]); reflexivity|]. cbv beta.
  eapply reads_bind; [apply reads_number; [lia|]|].
  { change (2 ^ N.of_nat 24)%N with 16777216%N. lia. }
  eapply reads_bind; [apply reads_unwrap, reads_symbol_table; auto|]. cbv beta.
  eapply reads_bind; [apply reads_number; [lia|]|].
  { change (2 ^ N.of_nat 3)%N with 8%N. lia. }
  cbv beta. eapply reads_bind; [apply reads_number; [lia|]|].
  { change (2 ^ N.of_nat 15)%N with 32768%N. lia. }
  cbv beta. rewrite !Nat2N.id.
  eapply reads_bind.
  { apply reads_unwrap. rewrite <- LN. apply reads_unary; auto.
    intros E. rewrite E in LN. cbn [length] in LN. lia. }
  cbv beta. eapply reads_pure; [exact IN|]. cbv beta.
  eapply reads_bind; [apply reads_trees; eauto; lia|]. cbv beta.
  eapply reads_pure; [eapply rebuild_tables; eauto|]. cbv beta.
  eapply reads_last; [exact RD|]. intros r.
  rewrite EZ, zle_round_trip. 2:{ unfold two63; lia. }
  cbn [bind]. rewrite IE. cbn [bind]. rewrite EI. reflexivity.
Qed.
Theorem block_read p crc data b out : parts_ok data b -> (N.of_nat (length data) <= 1000000)%N ->
  (crc < 4294967296)%N -> (forall col, bwt_spec data col (bp_ptr b) -> inverse_bwt col (bp_ptr b) = Ok out) ->
  reads (decode_block_data p) (block_body crc b) (inverse_rle out, crc).
Proof.
  intros HP HL HC HI. destruct (@block_read_some (eq out) crc data b HP HL HC) as (o & <- & H); auto.
  intros col SP. exists out. auto.
Qed.

(** ** the single-table strategy always suits *)
Lemma sym_below_app used l : Forall (sym_below used) l -> Forall (sym_below used) (l ++ [RunA]).
Proof. intros H. apply Forall_app; split; auto. repeat constructor. Qed.

Theorem single_stats used enc : 1 <= used -> Forall (fun k => k < used) enc ->
  (N.of_nat (length enc) <= 1000000)%N ->
  exists freqs sel, zle_with_strategy Single enc used = Ok (zsyms 0 enc, (freqs, sel)) /\
    stats_ok used (zsyms 0 enc) freqs sel /\ length freqs = 2 /\ sel = repeat 0 (length (zsyms 0 enc) / 50 + 1).
Proof.
  intros Hu HF HL. cbn [zle_with_strategy]. rewrite zle_transform_eq.
  destruct (@single_fold used (zsyms 0 enc ++ [RunA])) with (m := single_create used) as (m & -> & LM & CM); auto.
  { apply sym_below_app, zsyms_below; auto. }
  { cbn [single_create sg_freq]. apply repeat_length. }
  cbn [bind]. unfold single_finalize. eexists; eexists; split; [reflexivity|].
  cbn [single_create sg_count] in CM. rewrite app_length in CM. cbn [length] in CM.
  pose proof (zsyms_length 0 enc) as LZ.
  assert (N.to_nat (selector_count (sg_count m)) = length (zsyms 0 enc) / 50 + 1) as EC.
  { rewrite selector_count_exact by lia. rewrite CM.
    replace (0 + N.of_nat (length (zsyms 0 enc) + 1) + 49)%N with (N.of_nat (length (zsyms 0 enc)) + 1 * 50)%N by lia.
    rewrite N.div_add by discriminate. rewrite N2Nat.inj_add, N2Nat.inj_div, Nat2N.id. reflexivity. }
  rewrite EC. repeat split; auto; cbn [length]; try lia.
  - apply repeat_length.
  - exists 1. split; [lia|]. intros x. split; intros Hx.
    + apply repeat_spec in Hx. lia.
    + assert (x = 0) as -> by lia. rewrite Nat.add_1_r. left; auto.
Qed.

(** The block written for any data by the single-table strategy. *)
Theorem single_block p crc data : bytes data -> data <> [] -> (N.of_nat (length data) <= 1000000)%N ->
  (crc < 4294967296)%N ->
  exists b, generate_block_data p crc data Single = Ok (block_bits crc b, crc) /\ parts_ok data b /\
    length (bp_tables b) = 2 /\ bp_sel b = repeat 0 (length (bp_syms b) / 50 + 1).
Proof.
  intros HB Hne HL Hc. destruct (front_end_ok HB Hne) as (ptr & col & enc & used & FE).
  pose proof FE as (_ & _ & _ & _ & _ & LU & _ & LE & _ & FF & _).
  destruct (@single_stats (length used) enc) as (freqs & sel & EZ & SO & L2 & ES); auto; [lia|lia|].
  destruct (@block_assembled p crc data Single ptr col enc used freqs sel) as (b & EG & PO & EB & LT); auto.
  exists b. repeat split; auto; [lia|]. rewrite EB, ES.
  destruct PO as (c' & e' & PO). assert (bp_syms b = zsyms 0 e') as Esy by tauto.
  assert (length (bp_sel b) = length (bp_syms b) / 50 + 1) as LS by tauto.
  rewrite EB, ES, repeat_length in LS. rewrite LS. reflexivity.
Qed.

(** ** the shape of the k-means outcome *)
Definition means_shape (used k : nat) (centers : list (list f32)) : Prop :=
  length centers = k /\ Forall (fun c => length c = used) centers.

Lemma mean_update_length size c pt : length (mean_update size c pt) = length c.
Proof.
  revert pt; induction c as [|x c IH]; intros pt; cbn [mean_update]; auto.
  destruct pt; cbn [length]; auto.
Qed.

Lemma Forall_nth_error {A} (P : A -> Prop) l i x : Forall P l -> nth_error l i = Some x -> P x.
Proof. intros H E. apply nth_error_In in E. rewrite Forall_forall in H; auto. Qed.

Lemma Forall_set_at {A} (P : A -> Prop) l i x l' : Forall P l -> P x -> set_at l i x = Ok l' -> Forall P l'.
Proof.
  intros H Hx E. apply set_at_inv in E. apply Forall_forall. intros y Hy.
  apply In_nth_error in Hy as (j & Hj). destruct E as (E1 & E2 & E3 & E4).
  destruct (Nat.eq_dec j i) as [->|Hne].
  - rewrite E3 in Hj. injection Hj as <-. auto.
  - rewrite E4 in Hj by auto. eapply Forall_nth_error; eauto.
Qed.

Lemma nearest_bound centers pt : forall number best b, fst best < b -> number + length centers <= b ->
  nearest centers pt number best < b.
Proof.
  induction centers as [|c centers IH]; intros number best b Hb HN; cbn [nearest]; auto.
  cbn [length] in HN. apply IH; [|lia].
  destruct (snd best) as [m|]; [destruct (f32_lt _ _)|]; cbn [fst]; lia.
Qed.

Lemma assign_all_ok centers data : 1 <= length centers ->
  length (assign_all centers data) = length data /\
  Forall (fun a => a < length centers) (assign_all centers data) /\ bytes (assign_all centers data).
Proof.
  intros H. unfold assign_all. split; [apply map_length|]. split.
  - apply Forall_forall. intros a Ha. apply in_map_iff in Ha as (pt & <- & _).
    pose proof (@nearest_bound centers pt 0 (0, None) (length centers)) as NB.
    cbn [fst] in NB. specialize (NB ltac:(lia) ltac:(lia)). eapply Nat.le_lt_trans; [|exact NB]. apply Nat.mod_le. lia.
  - apply Forall_forall. intros a Ha. apply in_map_iff in Ha as (pt & <- & _). apply Nat.mod_upper_bound. lia.
Qed.

Lemma update_fold_ok dim k pairs : Forall (fun da => snd da < k) pairs ->
  forall centers sizes, means_shape dim k centers -> length sizes = k ->
  exists centers' sizes', fold_res update_step pairs (centers, sizes) = Ok (centers', sizes') /\
    means_shape dim k centers' /\ length sizes' = k.
Proof.
  induction 1 as [|[pt a] pairs Ha HF IH]; intros centers sizes HM HS; cbn [fold_res].
  - exists centers, sizes. auto.
  - cbn [snd] in Ha. destruct HM as (HM1 & HM2). unfold update_step at 1.
    rewrite (@get_at_lt _ sizes a 0) by lia. cbn [bind].
    rewrite (@get_at_lt _ centers a []) by lia. cbn [bind].
    match goal with |- context [set_at centers a ?x] =>
      destruct (@set_at_ok _ centers a x) as (c' & Ec & Lc & _); [lia|] end.
    rewrite Ec. cbn [bind].
    match goal with |- context [set_at sizes a ?x] =>
      destruct (@set_at_ok _ sizes a x) as (s' & Es & Ls & _); [lia|] end.
    rewrite Es. cbn [bind]. apply IH; [|lia]. split; [lia|].
    eapply Forall_set_at; [exact HM2| |exact Ec]. cbv beta. rewrite mean_update_length.
    rewrite Forall_forall in HM2. apply HM2. apply nth_In. lia.
Qed.

Lemma iteration_ok dim k data st : 1 <= k -> means_shape dim k (fst st) ->
  exists centers, kmeans_iteration dim k data st = Ok (centers, assign_all (fst st) data) /\
    means_shape dim k centers.
Proof.
  intros Hk HM. unfold kmeans_iteration.
  pose proof HM as (HM1 & HM2).
  destruct (@assign_all_ok (fst st) data) as (A1 & A2 & _); [lia|].
  destruct (@update_fold_ok dim k (combine data (assign_all (fst st) data))) with
    (centers := map (fun _ : list f32 => repeat f32_zero dim) (fst st)) (sizes := repeat 0 k) as (c' & s' & -> & M & _).
  - apply Forall_forall. intros [pt a] Hin. apply in_combine_r in Hin. cbn [snd].
    rewrite Forall_forall in A2. rewrite <- HM1. auto.
  - split; [rewrite map_length; auto|]. apply Forall_forall. intros c Hc.
    apply in_map_iff in Hc as (? & <- & _). apply repeat_length.
  - apply repeat_length.
  - cbn [bind]. eauto.
Qed.

Theorem kmeans_shape dim data iterations k : 1 <= k -> data <> [] ->
  Forall (fun row => length row = dim) data ->
  exists means sel, kmeans_solve dim data iterations k = Ok (means, sel) /\
    length means = k /\ Forall (fun m => length m = dim) means /\
    length sel = length data /\ Forall (fun s => s < k) sel /\
    (iterations = 0 -> sel = repeat 0 (length data)) /\ bytes sel.
Proof.
  intros Hk Hne HD. unfold kmeans_solve.
  assert (0 < length data) as Hlen by (destruct data; [congruence|cbn [length]; lia]).
  assert (exists centers, map_res (initial_center data k) (seq 0 k) = Ok centers /\ means_shape dim k centers)
    as (centers & -> & HM).
  { assert (forall l, (forall i, In i l -> i < k) ->
      exists centers, map_res (initial_center data k) l = Ok centers /\ means_shape dim (length l) centers) as G.
    { induction l as [|i l IH]; intros Hl; cbn [map_res].
      - exists []. repeat split. constructor.
      - unfold initial_center at 1.
        assert (i * length data / k < length data) as Hi.
        { apply Nat.div_lt_upper_bound; [lia|]. specialize (Hl i (or_introl eq_refl)). nia. }
        rewrite (@get_at_lt _ data _ []) by auto. cbn [bind].
        destruct IH as (cs & -> & L & F); [intros; apply Hl; right; auto|]. cbn [bind].
        eexists; split; [reflexivity|]. split; [cbn [length]; lia|]. constructor; auto.
        rewrite map_length. rewrite Forall_forall in HD. apply HD, nth_In; auto. }
    destruct (G (seq 0 k)) as (cs & E & M); [intros i Hi; apply in_seq in Hi; lia|].
    rewrite seq_length in M. eauto. }
  cbn [bind].
  assert (forall n st, means_shape dim k (fst st) -> length (snd st) = length data ->
     Forall (fun s => s < k) (snd st) -> bytes (snd st) ->
     exists c a, fold_res (fun st _ => kmeans_iteration dim k data st) (repeat tt n) st = Ok (c, a) /\
       means_shape dim k c /\ length a = length data /\ Forall (fun s => s < k) a /\ (n = 0 -> a = snd st) /\ bytes a) as G.
  { induction n as [|n IH]; intros [c a] M L F FY; cbn [repeat fold_res].
    - exists c, a. cbn [fst snd] in *. auto 10.
    - destruct (@iteration_ok dim k data (c, a) Hk M) as (c' & -> & M'). cbn [bind].
      pose proof M as (M1 & _). cbn [fst] in M1.
      destruct (@assign_all_ok c data) as (A1 & A2 & A3); [lia|]. rewrite M1 in A2.
      destruct (IH (c', assign_all (fst (c, a)) data)) as (c2 & a2 & E & HM2 & ? & ? & _ & ?); cbn [fst snd]; auto.
      exists c2, a2. split; auto. split; auto. split; auto. split; auto. split; auto. discriminate. }
  destruct (G iterations (centers, repeat 0 (length data))) as (c & a & -> & (M1 & M2) & L & F & Z & FY); cbn [fst snd]; auto.
  - apply repeat_length.
  - apply Forall_forall. intros x Hx. apply repeat_spec in Hx. lia.
  - apply Forall_forall. intros x Hx. apply repeat_spec in Hx. unfold is_byte. lia.
  - cbn [bind]. eexists; eexists; split; [reflexivity|]. repeat split; auto.
    + rewrite map_length. auto.
    + apply Forall_forall. intros m Hm. apply in_map_iff in Hm as (y & <- & Hy).
      rewrite map_length. rewrite Forall_forall in M2. auto.
Qed.

(** the maps collected by the k-means reporter *)
Definition bmap_ok (used : nat) (m : blockwise_map) (n : nat) : Prop :=
  length (bm_current m) = used + 1 /\ Forall (fun x => length x = used + 1) (bm_maps m) /\
  bm_size m = used /\ n = 50 * length (bm_maps m) + bm_counter m /\ bm_counter m < 50.

Lemma blockwise_fold used syms : 1 <= used -> Forall (sym_below used) syms -> forall m n,
  bmap_ok used m n ->
  exists m', fold_res blockwise_report syms m = Ok m' /\ bmap_ok used m' (n + length syms) /\
    bm_iterations m' = bm_iterations m /\ bm_clusters m' = bm_clusters m.
Proof.
  intros Hu. induction 1 as [|s syms Hs HF IH]; intros m n HM; cbn [fold_res].
  - exists m. cbn [length]. rewrite Nat.add_0_r. auto.
  - unfold blockwise_report at 1. pose proof (symbol_index_lt _ Hs Hu) as Hi.
    destruct HM as (M1 & M2 & M3 & M4 & M5).
    rewrite (@get_at_lt _ _ _ 0) by lia. cbn [bind].
    match goal with |- context [set_at ?l ?i ?x] => destruct (@set_at_ok _ l i x) as (l' & -> & HL' & _) end; [lia|].
    cbn [bind].
    assert (forall m1, bmap_ok used m1 (S n) -> bm_iterations m1 = bm_iterations m -> bm_clusters m1 = bm_clusters m ->
      exists m', fold_res blockwise_report syms m1 = Ok m' /\ bmap_ok used m' (n + length (s :: syms)) /\
      bm_iterations m' = bm_iterations m /\ bm_clusters m' = bm_clusters m) as G.
    { intros m1 H1 H2 H3. destruct (IH m1 (S n) H1) as (m' & A & B & C & D). exists m'.
      split; auto. split; [|split; congruence]. cbn [length]. rewrite Nat.add_succ_r. exact B. }
    destruct (Nat.leb_spec 50 (bm_counter m + 1)) as [H50|H50]; cbn [bind]; apply G; auto; unfold bmap_ok;
      cbn [bm_current bm_maps bm_size bm_counter].
    + split; [rewrite repeat_length; lia|]. split.
      { apply Forall_app; split; auto. constructor; auto. lia. }
      split; auto. rewrite app_length. cbn [length]. lia.
    + split; [lia|]. split; auto. split; auto. lia.
Qed.

Theorem blockwise_stats used enc k iterations : 1 <= used -> Forall (fun i => i < used) enc -> 1 <= k ->
  exists freqs sel, zle_with_strategy (BlockWise k iterations) enc used = Ok (zsyms 0 enc, (freqs, sel)) /\
    Forall (fun f => length f = used + 1) freqs /\ length freqs = k /\
    length sel = (length (zsyms 0 enc) + 1) / 50 + 1 /\ Forall (fun s => s < k) sel /\
    (iterations = 0 -> sel = repeat 0 (length sel)) /\ bytes sel.
Proof.
  intros Hu HF Hk. cbn [zle_with_strategy]. rewrite zle_transform_eq.
  destruct (@blockwise_fold used (zsyms 0 enc ++ [RunA])) with (m := blockwise_create used k iterations) (n := 0)
    as (m & -> & MO & MI & MC); auto.
  { apply sym_below_app, zsyms_below; auto. }
  { unfold bmap_ok, blockwise_create. cbn [bm_current bm_maps bm_size bm_counter].
    rewrite repeat_length. repeat split; auto; cbn [length]; lia. }
  cbn [bind]. unfold blockwise_finalize. destruct MO as (M1 & M2 & M3 & M4 & M5).
  cbn [blockwise_create bm_iterations bm_clusters] in MI, MC. rewrite MI, MC, M3.
  destruct (@kmeans_shape (used + 1) (bm_maps m ++ [bm_current m]) iterations k) as (means & sel & -> & A & B & C & D & E & EY); auto.
  { destruct (bm_maps m); discriminate. }
  { apply Forall_app; split; auto. }
  cbn [bind]. exists means, sel. split; auto. split; auto. split; auto.
  rewrite app_length in C, M4. cbn [length] in C, M4.
  assert (length sel = (length (zsyms 0 enc) + 1) / 50 + 1) as LS.
  { rewrite C. f_equal. apply Nat.div_unique with (r := bm_counter m); lia. }
  split; auto. split; auto. split; auto. intros H0. rewrite (E H0) at 1. rewrite app_length. cbn [length]. f_equal. lia.
Qed.

(** The block written by the k-means strategy, when the number of symbols does not hit
    the extra map and the chosen tables leave no gap. *)
Theorem blockwise_block p crc data k iterations : bytes data -> data <> [] ->
  (N.of_nat (length data) <= 1000000)%N -> (crc < 4294967296)%N -> 1 <= k < 8 ->
  (forall ptr col enc used sel freqs, front_end data ptr col enc used ->
     zle_with_strategy (BlockWise k iterations) enc (length used) = Ok (zsyms 0 enc, (freqs, sel)) ->
     (length (zsyms 0 enc) + 1) mod 50 <> 0 /\ gapless k sel) ->
  exists b, generate_block_data p crc data (BlockWise k iterations) = Ok (block_bits crc b, crc) /\ parts_ok data b /\
    length (bp_tables b) = k.
Proof.
  intros HB Hne HL Hc Hk HG. destruct (front_end_ok HB Hne) as (ptr & col & enc & used & FE).
  pose proof FE as (_ & _ & _ & _ & _ & LU & _ & LE & _ & FF & _).
  destruct (@blockwise_stats (length used) enc k iterations) as (freqs & sel & EZ & F1 & F2 & F3 & F4 & _ & _); auto; [lia|lia|].
  destruct (HG _ _ _ _ _ _ FE EZ) as (G1 & G2).
  destruct (@block_assembled p crc data (BlockWise k iterations) ptr col enc used freqs sel) as (b & EG & PO & EB & LT); auto.
  { split; auto. split; [lia|]. rewrite F2. split; auto. rewrite F3. f_equal.
    remember (length (zsyms 0 enc)) as n. clear - G1.
    pose proof (Nat.div_mod (n + 1) 50 ltac:(lia)). pose proof (Nat.mod_upper_bound (n + 1) 50 ltac:(lia)).
    apply Nat.div_unique with (r := (n + 1) mod 50 - 1); lia. }
  exists b. repeat split; auto. lia.
Qed.

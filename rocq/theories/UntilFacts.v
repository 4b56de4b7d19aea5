(** * What a k-means stream determines, whatever the number of symbols

    A block with a spare selector is not read back by this crate's decoder (SpareFacts.v),
    but a decoder that stops at the end of block reads it; so its stream still determines
    the data. *)
From Verif Require Import Base BaseFacts SpecBits SpecCrc SpecRle SpecBwt SpecBzip2 SpecStream Bitwise BitwiseFacts Rle RleFacts Mtf
  Crc32 Crc32Facts Bwt BwtFacts Zle ZleFacts SymbolStatistics Huffman CodeTable SymbolMap SymbolMapFacts Selectors SelectorsFacts CodeTableFacts GroupFacts MtfFacts HuffmanFacts BlockEncoder BlockDecoder
  BlockFacts Stream StreamFacts RoundTripFacts EncodeFacts InjectFacts LosslessFacts DecodeFacts SpareFacts.

(** groups until the end of block, which makes a group short *)
Fixpoint read_until (sel : list nat) (tables : list canonical_table) (r : bit_reader) : res (list zsym * bit_reader) :=
  match sel with
  | [] => Ok ([], r)
  | s :: tl =>
      let! T := get_at tables s in
      let! (a, r) := unwrap (read_symbols r T 50) in
      if length a <? 50 then Ok (a, r) else let! (b, r) := read_until tl tables r in Ok (a ++ b, r)
  end.
Lemma until_read tables extra : Forall good_table tables -> forall sel k zle full,
  (forall i, nth_error sel i = nth_error full (k + i)) ->
  length sel = length zle / 50 + 1 ->
  Forall (fun s => s < length tables) sel ->
  Forall (fun T => covers T zle) tables ->
  exists codes T e, map_res (code_at tables full) (enumerate_from (50 * k) zle) = Ok codes /\
    table_at tables full (50 * k + length zle) = Ok T /\
    find_first (fun e => hsym_eqb (snd e) EoB) T = Some e /\
    reads (read_until (sel ++ extra) tables) (concat codes ++ fst e) zle.
Proof.
  intros HG. induction sel as [|s sel IH]; intros k zle full Hfull HL HS HC; [simpl in HL; lia|].
  inversion HS as [|? ? Hs HS']; subst.
  destruct (nth_error tables s) as [T|] eqn:ET; [|apply nth_error_None in ET; lia].
  assert (nth_error full k = Some s) as Hk by (rewrite <- (Nat.add_0_r k), <- Hfull; auto).
  assert (In T tables) as HinT by (eapply nth_error_In; eauto).
  assert (good_table T) as GT by (rewrite Forall_forall in HG; auto).
  assert (covers T zle) as (CT & CE) by (rewrite Forall_forall in HC; auto).
  destruct (Nat.lt_ge_cases (length zle) 50) as [Hlt|Hge].
  - rewrite Nat.div_small in HL by auto. destruct sel; [|simpl in HL; lia].
    pose proof (@code_group tables full T k s zle 0 Hk ET ltac:(lia)) as E.
    rewrite Nat.add_0_r in E.
    apply in_map_iff in CE as ([c e'] & Ee & Hin). cbn [snd] in Ee; subst e'.
    exists (map (fun s => symbol_code T (Normal s)) zle), T, (c, EoB).
    split; auto. split.
    { unfold table_at. rewrite (Nat.mul_comm 50 k), Nat.add_comm, Nat.div_add, Nat.div_small by lia.
      rewrite Nat.add_0_l. rewrite (get_at_some _ _ Hk). cbn [bind]. apply get_at_some; auto. }
    split. { destruct GT as (_ & ND & _). apply find_symbol; auto. }
    cbn [fst]. intros r rest Er. cbn [app read_until].
    rewrite (get_at_some _ _ ET). cbn [bind].
    destruct (@reads_last_group T zle _ c 50 GT (coded_symbols GT CT) Hin Hlt r rest Er) as (r' & -> & Er').
    cbn [unwrap bind]. rewrite (proj2 (Nat.ltb_lt _ _) Hlt). exists r'; auto.
  - set (a := firstn 50 zle). set (b := skipn 50 zle).
    assert (zle = a ++ b) as Ez by (symmetry; apply firstn_skipn).
    assert (length a = 50) as Ha by (unfold a; rewrite firstn_length; lia).
    assert (length zle = 50 + length b) as Hlen by (rewrite Ez, app_length; lia).
    assert (length zle / 50 = length b / 50 + 1) as Hdiv.
    { rewrite Hlen. replace (50 + length b) with (length b + 1 * 50) by lia.
      rewrite Nat.div_add; lia. }
    assert (Forall (fun T => covers T b) tables) as HCb.
    { eapply Forall_impl; [|exact HC]. intros T' (C1 & C2). split; auto.
      rewrite Ez in C1. apply Forall_app in C1. tauto. }
    destruct (IH (S k) b full) as (codes & T' & e & E1 & E2 & E3 & E4); auto.
    { intros i. replace (S k + i) with (k + S i) by lia. rewrite <- Hfull. reflexivity. }
    { cbn [length] in HL. lia. }
    assert (Forall (fun s => In (Normal s) (map snd T)) a) as CTa
      by (rewrite Ez in CT; apply Forall_app in CT; tauto).
    pose proof (@code_group tables full T k s a 0 Hk ET ltac:(lia)) as Ea.
    rewrite Nat.add_0_r in Ea.
    exists (map (fun s => symbol_code T (Normal s)) a ++ codes), T', e.
    split.
    { rewrite Ez at 1. rewrite enumerate_from_app. rewrite (map_res_app _ _ _ Ea).
      replace (50 * k + length a) with (50 * S k) by lia. rewrite E1. reflexivity. }
    split. { replace (50 * k + length zle) with (50 * S k + length b) by lia. auto. }
    split; auto.
    rewrite concat_app, <- app_assoc.
    intros r rest Er. rewrite <- app_assoc in Er. cbn [app read_until].
    rewrite (get_at_some _ _ ET). cbn [bind].
    destruct (@reads_full_group T a _ 50 GT (coded_symbols GT CTa) Ha ltac:(lia) r _ Er) as (r' & -> & Er').
    cbn [unwrap bind]. rewrite Ha. cbn [Nat.ltb Nat.leb].
    destruct (E4 r' rest Er') as (r2 & -> & Er2). cbn [bind].
    exists r2. rewrite <- Ez. auto.
Qed.


Theorem data_until tables sel extra zle bits : Forall good_table tables ->
  length sel = length zle / 50 + 1 -> Forall (fun s => s < length tables) sel ->
  Forall (fun T => covers T zle) tables -> encode_data tables sel zle = Ok bits -> reads (read_until (sel ++ extra) tables) bits zle.
Proof.
  intros HG HL HS HC HE.
  destruct (@until_read tables extra HG sel 0 zle sel) as (codes & T & e & E1 & E2 & E3 & E4); auto.
  unfold encode_data in HE. change (enumerate zle) with (enumerate_from (50 * 0) zle) in HE.
  unfold code_at in E1. rewrite E1 in HE. cbn [bind] in HE.
  change (50 * 0 + length zle) with (length zle) in E2. rewrite E2 in HE. cbn [bind] in HE.
  rewrite E3 in HE. cbn in HE. injection HE as <-. exact E4.
Qed.

(** [decode_block_data] without its last two steps, and stopping at the end of block *)
Definition front_until (p : profile) (r : bit_reader) : res (list nat * nat * N * bit_reader) :=
  let! (crc, r) := read_number r 32 in
  let! (_, r) := read_bits r 1 in
  let! (orig_ptr, r) := read_number r 24 in
  let! (symbols, r) := unwrap (read_symbol_table r) in
  let! (num_trees, r) := read_number r 3 in
  let! (num_selectors, r) := read_number r 15 in
  let! (selectors_mtf, r) := unwrap (read_unary p r (N.to_nat num_selectors)) in
  let! selectors := inverse_mtf selectors_mtf (seq 0 (N.to_nat num_trees)) in
  let! (trees, r) := read_trees p (N.to_nat num_trees) r (length symbols + 2) in
  let! code_tables :=
    map_res (fun tree => let! t := from_weights tree in canonicalize p t) trees in
  let! (zle_input, r) := read_until selectors code_tables r in
  let! mtf_input := decode_zle zle_input in
  let! bwt_input := inverse_mtf mtf_input symbols in
  Ok (bwt_input, N.to_nat orig_ptr, crc, r).


Lemma parts_ok_spare data b : (N.of_nat (length data) <= 1000000)%N -> parts_ok data b -> parts_spare data b.
Proof.
  intros HL (col & enc & SP & SU & IU & LU & BU & LE & FE & IE & EZ & HT & GT & LS & FS & LN & FN & IN & ED & _).
  pose proof (zsyms_length 0 enc) as LZ. pose proof (bwt_length SP) as LC.
  pose proof (Nat.mul_div_le (length (bp_syms b)) 50 ltac:(lia)) as LS'. rewrite <- EZ in LZ.
  exists col, enc, (bp_sel b), []. rewrite app_nil_r.
    split; [exact SP|]. split; [exact SU|]. split; [exact IU|]. split; [exact LU|]. split; [exact BU|]. split; [exact LE|]. split; [exact FE|].
    split; [exact IE|]. split; [exact EZ|]. split; [lia|]. split; [exact GT|]. split; [reflexivity|]. split; [exact LS|].
    split; [lia|]. split; [exact FS|]. split; [exact LN|]. split; [exact FN|]. split; [exact IN|]. exact ED.
Qed.
Lemma until_front p crc data b : parts_spare data b -> (N.of_nat (length data) <= 1000000)%N -> (crc < 4294967296)%N ->
  exists col, bwt_spec data col (bp_ptr b) /\ reads (front_until p) (block_body crc b) (col, bp_ptr b, crc).
Proof.
  intros (col & enc & sel & extra & SP & SU & IU & LU & BU & LE & FE & IE & EZ & HT & GT & ES & LS & L15 & FS & LN & FN & IN & ED)
    HL Hcrc. exists col. split; auto. unfold front_until, block_body.
  pose proof (bwt_length SP) as LC.
  assert (bp_ptr b < length data) as HP by (destruct SP as (i & sa & SP); cbv zeta in SP; tauto).
  pose proof (zsyms_length 0 enc) as LZ. rewrite <- EZ in LZ.
  assert (length (bp_sel b) <> 0) as LB by (rewrite ES, app_length; lia).
  eapply reads_bind; [apply reads_number; [lia|exact Hcrc]|]. cbv beta.
  eapply reads_bind; [apply (@reads_bits 1 [false]); reflexivity|]. cbv beta.
  eapply reads_bind; [apply reads_number; [lia|]|].
  { change (2 ^ N.of_nat 24)%N with 16777216%N. lia. }
  eapply reads_bind; [apply reads_unwrap, reads_symbol_table; auto|]. cbv beta.
  eapply reads_bind; [apply reads_number; [lia|]|].
  { change (2 ^ N.of_nat 3)%N with 8%N. lia. }
  cbv beta. eapply reads_bind; [apply reads_number; [lia|]|].
  { change (2 ^ N.of_nat 15)%N with 32768%N. exact L15. }
  cbv beta. rewrite !Nat2N.id.
  eapply reads_bind.
  { apply reads_unwrap. rewrite <- LN. apply reads_unary; auto.
    intros E. rewrite E in LN. cbn [length] in LN. lia. }
  cbv beta. eapply reads_pure; [exact IN|]. cbv beta.
  eapply reads_bind; [apply reads_trees; eauto; lia|]. cbv beta.
  eapply reads_pure; [eapply rebuild_tables; eauto|]. cbv beta.
  assert (Forall (sym_below (length (bp_used b))) (bp_syms b)) as FB by (rewrite EZ; apply zsyms_below; auto).
  eapply reads_last.
  { rewrite ES. apply (@data_until (bp_tables b) sel extra (bp_syms b) (bp_data b)); [|exact LS|exact FS| |exact ED].
    - apply Forall_forall. intros T HT'. eapply good_table_of; eauto.
    - apply Forall_forall. intros T HT'. apply table_covers with (used := length (bp_used b)) (tables := bp_tables b); auto; lia. }
  intros r. rewrite EZ, zle_round_trip. 2:{ unfold two63; lia. }
  cbn [bind]. rewrite IE. reflexivity.
Qed.

(** as in LosslessFacts.v *)
Definition kept (st : strategy) (q : list nat) (b : block_parts) : Prop :=
  generate_block_data Wrapping (crc32 q) (coded q) st = Ok (block_bits (crc32 q) b, crc32 q) /\ parts_spare (coded q) b.
Lemma encodes_kept st q b : sized q -> encodes Wrapping st q b -> kept st q b.
Proof. intros (_ & HL) (E & PO). split; auto. apply parts_ok_spare; auto. unfold RLE_LIMIT in HL. lia. Qed.
Lemma block_kept st st' q q' b b' rest rest' r : sized q -> sized q' -> kept st q b -> kept st' q' b' ->
  rbits r = block_body (crc32 q) b ++ rest -> rbits r = block_body (crc32 q') b' ++ rest' ->
  q = q' /\ exists r', rbits r' = rest /\ rbits r' = rest'.
Proof.
  intros (HB & HL) (HB' & HL') (_ & PO) (_ & PO') HR HR'. unfold RLE_LIMIT in *.
  destruct (@until_front Wrapping (crc32 q) (coded q) b PO) as (c & SP & R); [lia|apply crc32_lt; auto|].
  destruct (@until_front Wrapping (crc32 q') (coded q') b' PO') as (c' & SP' & R'); [lia|apply crc32_lt; auto|].
  destruct (R r rest HR) as (r1 & E1 & H1). destruct (R' r rest' HR') as (r2 & E2 & H2).
  rewrite E1 in E2. injection E2 as -> EP _ ->. rewrite EP in SP. split; [|eauto].
  apply coded_inj. eapply bwt_injective; eauto.
Qed.
Lemma blocks_kept st st' ps : forall ps' bs bs' rest rest' r, Forall sized ps -> Forall sized ps' ->
  Forall2 (kept st) ps bs -> Forall2 (kept st') ps' bs' ->
  rbits r = concat (map (fun x => block_bits (crc32 (fst x)) (snd x)) (combine ps bs)) ++ bytes_bits footer_magic ++ rest ->
  rbits r = concat (map (fun x => block_bits (crc32 (fst x)) (snd x)) (combine ps' bs')) ++ bytes_bits footer_magic ++ rest' -> ps = ps'.
Proof.
  induction ps as [|q ps IH]; intros ps' bs bs' rest rest' r HZ HZ' H H' E E'.
  - inversion H; subst. destruct H' as [|q' b' ps' bs' Hb H']; auto. exfalso. cbn [combine map concat fst snd app] in E, E'.
    rewrite block_bits_body, <- !app_assoc in E'.
    destruct (what_next_footer _ E) as (r1 & E1 & _). destruct (what_next_block _ E') as (r2 & E2 & _). congruence.
  - inversion H as [|? b ? bs0 Hb H0]; subst. cbn [combine map concat fst snd app] in E.
    rewrite block_bits_body, <- !app_assoc in E. destruct (what_next_block _ E) as (r1 & E1 & HR1).
    destruct H' as [|q' b' ps' bs' Hb' H']; cbn [combine map concat fst snd app] in E'.
    + destruct (what_next_footer _ E') as (r2 & E2 & _). congruence.
    + rewrite block_bits_body, <- !app_assoc in E'. destruct (what_next_block _ E') as (r2 & E2 & HR2).
      rewrite E1 in E2. injection E2 as <-.
      apply Forall_cons_iff in HZ as (Z1 & Z2). apply Forall_cons_iff in HZ' as (Z1' & Z2').
      destruct (@block_kept st st' q q' b b' _ _ r1 Z1 Z1' Hb Hb' HR1 HR2) as (<- & r3 & HR3 & HR3'). f_equal. eapply IH; eauto.
Qed.
(** the bits of a stream up to the checksum *)
Definition blocks_stream (ps : list (list nat)) (bs : list block_parts) (t out : list bool) : Prop :=
  out = bytes_bits [66; 90; 104; 57] ++ concat (map (fun x => block_bits (crc32 (fst x)) (snd x)) (combine ps bs)) ++
    bytes_bits footer_magic ++ t.
Lemma stream_kept st st' ps ps' bs bs' t t' out : Forall sized ps -> Forall sized ps' ->
  Forall2 (kept st) ps bs -> Forall2 (kept st') ps' bs' ->
  blocks_stream ps bs t (bytes_bits out) -> blocks_stream ps' bs' t' (bytes_bits out) -> ps = ps'.
Proof.
  unfold blocks_stream. intros HZ HZ' H H' E E'. pose proof (rbits_from_reader out) as HR. pose proof HR as HR'. rewrite E in HR. rewrite E' in HR'.
  destruct (@reads_bytes [66; 90; 104; 57] ltac:(repeat constructor) _ _ HR) as (r1 & E1 & HR1).
  destruct (@reads_bytes [66; 90; 104; 57] ltac:(repeat constructor) _ _ HR') as (r2 & E2 & HR2).
  rewrite E1 in E2. injection E2 as <-.
  eapply blocks_kept; [exact HZ|exact HZ'|exact H|exact H'|exact HR1|exact HR2].
Qed.

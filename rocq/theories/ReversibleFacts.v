(** * One block read back: exactly what the inverse block sort gives *)
From Verif Require Import Base BaseFacts SpecBits SpecCrc SpecRle SpecBwt SpecBzip2 SpecStream Bitwise BitwiseFacts Rle RleFacts
  Crc32 Crc32Facts Bwt BwtFacts UnsortFacts RestoreFacts SymbolStatistics BlockEncoder BlockDecoder BlockFacts Stream StreamFacts RoundTripFacts
  EncodeFacts RunExactFacts DecodeFacts ReferenceFacts SilentFacts.

(** ** no four equal bytes in a row *)
Definition no_four (l : list nat) : Prop := forall before x after, l <> before ++ repeat x 4 ++ after.
Lemma no_four_tail a l : no_four (a ++ l) -> no_four l.
Proof. intros H before x after E. apply (H (a ++ before) x after). rewrite E, app_assoc. reflexivity. Qed.

Lemma dec_no_four l : forall eq p, eq <= 3 -> no_four (repeat p (S eq) ++ dec eq (Some p) l) -> dec eq (Some p) l = l.
Proof.
  induction l as [|x l IH]; intros eq p He H; [reflexivity|]. destruct (Nat.eq_dec eq 3) as [->|N].
  { exfalso. exact (H [] p _ eq_refl). }
  cbn [dec] in *. replace (eq =? 3) with false in * by (symmetry; apply Nat.eqb_neq; auto).
  destruct (Nat.eqb_spec p x) as [->|NE]; f_equal.
  - apply IH; [lia|]. intros before y after E. apply (H before y after). rewrite <- E.
    replace (S (S eq)) with (S eq + 1) by lia. rewrite (repeat_app x (S eq) 1), <- app_assoc. reflexivity.
  - apply IH; [lia|]. exact (no_four_tail _ H).
Qed.
Lemma inverse_no_four l q : no_four q -> inverse_rle l = q -> l = q.
Proof.
  intros H E. unfold inverse_rle in E. rewrite dec_fold in E. cbn [app] in E. destruct l as [|x l]; [exact E|]. cbn [dec] in E. subst q.
  f_equal. symmetry. apply (@dec_no_four l 0 x); [lia|exact H].
Qed.
Lemma expand_no_four_from l : forall last run, run <= 4 -> no_four (repeat last run ++ rle1_expand_from last run l) -> rle1_expand_from last run l = l.
Proof.
  induction l as [|x l IH]; intros last run Hr H; [reflexivity|]. destruct (Nat.eq_dec run 4) as [->|N].
  { exfalso. exact (H [] last _ eq_refl). }
  cbn [rle1_expand_from] in *. replace (run =? 4) with false in * by (symmetry; apply Nat.eqb_neq; auto).
  destruct ((1 <=? run) && (x =? last)) eqn:E; f_equal.
  - apply andb_true_iff in E as (_ & E). apply Nat.eqb_eq in E as ->. apply IH; [lia|]. intros before y after E. apply (H before y after).
    rewrite <- E. replace (S run) with (run + 1) by lia. rewrite (repeat_app last run 1), <- app_assoc. reflexivity.
  - apply IH; [lia|]. exact (no_four_tail _ H).
Qed.
Lemma expand_no_four l q : no_four q -> rle1_expand l = q -> l = q.
Proof. intros H E. subst q. symmetry. apply (@expand_no_four_from l 0 0); [lia|exact H]. Qed.
Lemma no_four_runs q : no_four q -> forall r, In r (runs q) -> snd r <= 3.
Proof.
  intros H r Hr. apply in_split in Hr as (A & B & E). destruct (Nat.le_gt_cases (snd r) 3) as [|G]; auto. exfalso.
  pose proof (expand_runs_runs q) as X. rewrite E in X. unfold expand_runs in X. rewrite flat_map_app in X. cbn [flat_map] in X.
  replace (snd r) with (4 + (snd r - 4)) in X by lia. rewrite repeat_app, <- app_assoc in X. exact (H _ _ _ (eq_sym X)).
Qed.

(** ** this crate's decoder

    [o]: what the inverse block sort makes of the block of [q] *)
Definition sorted_back (q o : list nat) : Prop := length o = length (coded q) /\ (o = coded q <-> reversible (coded q)).
Lemma inverse_loop_length pairs k : forall start out, inverse_bwt_loop k pairs start = Ok out -> length out = k.
Proof.
  induction k as [|k IH]; intros start out E; cbn [inverse_bwt_loop] in E; [injection E as <-; reflexivity|].
  destruct (get_at pairs start) as [[next v]| | |]; try discriminate. cbn [bind] in E.
  destruct (inverse_bwt_loop k pairs next) as [o| | |] eqn:EL; try discriminate. cbn [bind] in E. injection E as <-. cbn [length].
  f_equal. eapply IH; eauto.
Qed.
Lemma inverse_length col ptr out : inverse_bwt col ptr = Ok out -> length out = length col.
Proof.
  unfold inverse_bwt. destruct (of_option _) as [[s v]| | |]; try discriminate. cbn [bind]. apply inverse_loop_length.
Qed.
Lemma encodes_exact p st q b : bytes q -> (N.of_nat (length (coded q)) <= RLE_LIMIT + 5)%N -> encodes p st q b ->
  exists out, sorted_back q out /\
    forall p', reads (decode_block_data p') (block_body (crc32 q) b) (inverse_rle out, crc32 q).
Proof.
  intros HB HL (E & PO).
  destruct (@block_read_some (fun out => sorted_back q out) (crc32 q) (coded q) b PO) as (out & S & R).
  - unfold RLE_LIMIT in HL. lia.
  - apply crc32_lt; auto.
  - intros col SP. assert (bp_ptr b < length col) as HP.
    { rewrite (bwt_length SP). destruct SP as (i & sa & SP); cbv zeta in SP; tauto. }
    destruct (inverse_bwt_total col HP) as (out & EO). exists out. split; auto.
    split; [rewrite (inverse_length _ _ EO); apply (bwt_length SP)|].
    rewrite <- (inverse_reversible SP), EO. split; [intros ->; auto|congruence].
  - exists out. auto.
Qed.

(** ** the reference decoder *)
Lemma reference_block p st q b rest : bytes q -> (N.of_nat (length (coded q)) <= RLE_LIMIT + 5)%N -> encodes p st q b ->
  2 <= length (bp_tables b) <= 6 ->
  exists out, sorted_back q out /\ get_block 9 (block_body (crc32 q) b ++ rest) =
    if (N.of_nat (length (coded q)) <=? 900000)%N && (crc32_bzip2 (rle1_expand out) =? crc32 q)%N
    then Some (mk_parsed (rle1_expand out) (crc32 q) out 0, rest) else None.
Proof.
  intros HB HL HE HT. unfold RLE_LIMIT in HL. destruct (@block_spec_size 9%N p st q b rest HB HE ltac:(lia) HT) as (col & SP & ->).
  assert (bp_ptr b < length col) as HP.
  { rewrite (bwt_length SP). destruct SP as (i & sa & SP); cbv zeta in SP; tauto. }
  pose proof (unsort_word col HP) as EU. eexists. split; [split|].
  - etransitivity; [eapply inverse_length; apply unsort_inverse; exact EU|exact (bwt_length SP)].
  - rewrite <- (unsort_reversible_iff SP), EU. split; [intros ->; reflexivity|intros X; injection X as X; exact X].
  - change (100000 * 9)%N with 900000%N. rewrite EU. destruct (_ <=? _)%N; [|reflexivity]. cbn [andb].
    destruct (crc32_bzip2 _ =? _)%N; reflexivity.
Qed.

(** ** whole streams *)


Lemma loop_back ps bs :
  Forall2 (fun q b => exists o, sorted_back q o /\ forall p, reads (decode_block_data p) (block_body (crc32 q) b) (inverse_rle o, crc32 q)) ps bs ->
  exists os got st, Forall2 sorted_back ps os /\
  (st = Ok tt -> got = concat (map inverse_rle os)) /\ (map inverse_rle os = ps -> st = Ok tt) /\ forall p fuel r out rest,
  rbits r = concat (map (fun x => block_bits (crc32 (fst x)) (snd x)) (combine ps bs)) ++ bytes_bits footer_magic ++ rest ->
  length ps < fuel ->
  exists e, decode_loop fuel p r (mk_writer [] out) = (e, mk_writer [] (out ++ got)) /\ status e = st.
Proof.
  induction 1 as [|q b ps bs (o & HS & HR) HF IH].
  - exists [], [], (Ok tt). split; [constructor|]. split; [auto|]. split; [auto|]. intros p fuel r out rest HR HL.
    destruct fuel as [|fuel]; [lia|]. cbn [decode_loop].
    cbn [combine map concat app] in HR. destruct (what_next_footer _ HR) as (r' & -> & HR').
    exists (Ok r'). rewrite app_nil_r. auto.
  - destruct IH as (os & got & st & HO & HG & HQ & IH).
    assert (forall p r rest, rbits r = concat (map (fun x => block_bits (crc32 (fst x)) (snd x)) (combine (q :: ps) (b :: bs))) ++ rest ->
      exists r1 r2, what_next r = Ok (BlockHeader, r1) /\ decode_block_data p r1 = Ok (inverse_rle o, crc32 q, r2) /\
        rbits r2 = concat (map (fun x => block_bits (crc32 (fst x)) (snd x)) (combine ps bs)) ++ rest) as HD.
    { intros p r rest E. cbn [combine map concat fst snd] in E. rewrite block_bits_body, <- !app_assoc in E.
      destruct (what_next_block _ E) as (r1 & E1 & HR1). destruct (HR p r1 _ HR1) as (r2 & E2 & HR2). exists r1, r2. auto. }
    destruct (crc32 (inverse_rle o) =? crc32 q)%N eqn:EC.
    + exists (o :: os), (inverse_rle o ++ got), st. split; [constructor; auto|]. cbn [map concat].
      split; [intros X; rewrite (HG X); reflexivity|]. split; [intros X; injection X as X1 X2; auto|].
      intros p fuel r out rest E HL. destruct fuel as [|fuel]; [lia|]. cbn [decode_loop].
      destruct (HD p r _ E) as (r1 & r2 & -> & ED & E2). unfold decode_block. rewrite ED, EC. cbn [w_write w_script w_out].
      destruct (IH p fuel r2 (out ++ inverse_rle o) rest E2) as (e & -> & Es); [cbn [length] in HL; lia|].
      exists e. rewrite app_assoc. auto.
    + exists (o :: os), [], Err. split; [constructor; auto|]. split; [discriminate|].
      split; [cbn [map]; intros X; injection X as X1 X2; rewrite X1, N.eqb_refl in EC; discriminate|].
      intros p fuel r out rest E HL. destruct fuel as [|fuel]; [lia|]. cbn [decode_loop].
      destruct (HD p r _ E) as (r1 & r2 & -> & ED & E2). unfold decode_block. rewrite ED, EC. exists Err. rewrite app_nil_r. auto.
Qed.

Theorem made_back st data ps bs out k : bytes data -> cuts data ps -> Forall2 (encodes Wrapping st) ps bs ->
  bytes_bits out = stream_bits ps bs ++ repeat false k ->
  exists os got s, Forall2 sorted_back ps os /\ (s = Ok tt -> got = concat (map inverse_rle os)) /\
    (map inverse_rle os = ps -> s = Ok tt) /\ forall p, decode_stream p out (good_sink []) = (s, good_sink got).
Proof.
  intros HB HC H2 E. destruct (cuts_pieces HC) as (EC & HN & HL).
  assert (Forall bytes ps) as HBP by (apply Forall_concat; rewrite EC; auto).
  destruct (@loop_back ps bs) as (os & got & s & HO & HG & HQ & HD).
  { clear - H2 HBP HL. induction H2 as [|q b ps bs HQ H2 IH]; [constructor|].
    inversion HBP; inversion HL; subst. constructor; auto. eapply encodes_exact; eauto. }
  exists os, got, s. split; auto. split; auto. split; auto. intros p. unfold decode_stream, decode_source, read_file_header. fold (br_from_reader out).
  pose proof (rbits_from_reader out) as HR. rewrite E in HR. unfold stream_bits in HR. rewrite <- !app_assoc in HR.
  destruct (@reads_bytes [66; 90; 104; 57] ltac:(repeat constructor) _ _ HR) as (r1 & E1 & HR1).
  change (length [66; 90; 104; 57]) with 4 in E1. rewrite E1. cbn [bind].
  change (nats_eqb (firstn 3 [66; 90; 104; 57]) [66; 90; 104]) with true. cbn iota.
  destruct (HD p (S (bits_left r1)) r1 [] _ HR1) as (e & EL & Es).
  { rewrite bits_left_rbits, HR1, app_length. pose proof (Forall2_len H2) as L2. pose proof (blocks_length _ _ L2). lia. }
  unfold good_sink. rewrite EL. subst s. destruct e; reflexivity.
Qed.

(** for data without four equal bytes in a row every piece codes to itself *)
Lemma no_four_front a l : no_four (a ++ l) -> no_four a.
Proof. intros H before x after E. apply (H before x (after ++ l)). rewrite E, <- !app_assoc. reflexivity. Qed.
Lemma no_four_pieces ps : no_four (concat ps) -> Forall no_four ps.
Proof.
  induction ps as [|q ps IH]; intros H; constructor; cbn [concat] in H.
  - exact (no_four_front _ H).
  - apply IH. exact (no_four_tail _ H).
Qed.
(** data without four equal bytes in a row is only put together from the right pieces *)
Lemma aligned (f : list nat -> list nat) : (forall o q, no_four q -> f o = q -> o = q) -> forall ps os,
  Forall2 (fun q o : list nat => length o = length q) ps os -> no_four (concat ps) -> concat (map f os) = concat ps -> os = ps.
Proof.
  intros Hf. induction 1 as [|q o ps os HL H IH]; intros HN E; [reflexivity|]. cbn [map concat] in *.
  assert (no_four (f o)) as H1 by (rewrite <- E in HN; exact (no_four_front _ HN)). pose proof (Hf o _ H1 eq_refl) as EO.
  assert (length (f o) = length q) as EL by (rewrite <- EO; exact HL).
  assert (f o = q /\ concat (map f os) = concat ps) as (E1 & E2).
  { split; [apply (f_equal (firstn (length q))) in E; rewrite !firstn_app, EL, Nat.sub_diag, firstn_all, <- EL, firstn_all in E; cbn [firstn] in E; rewrite !app_nil_r in E; exact E|].
    apply (f_equal (skipn (length q))) in E. rewrite !skipn_app, EL, Nat.sub_diag, skipn_all, <- EL, skipn_all in E. exact E. }
  f_equal; [congruence|]. apply IH; auto. exact (no_four_tail _ HN).
Qed.

Lemma blocks_back ps bs : Forall2 (fun q b => bytes q /\ (N.of_nat (length (coded q)) <= RLE_LIMIT + 5)%N /\
    (exists p st, encodes p st q b) /\ 2 <= length (bp_tables b) <= 6) ps bs ->
  forall fuel crcs rest blocks tail,
  get_blocks fuel 9 crcs (concat (map (fun x => block_bits (crc32 (fst x)) (snd x)) (combine ps bs)) ++ bytes_bits footer_magic ++ rest) = Some (blocks, tail) ->
  exists os, Forall2 sorted_back ps os /\ Forall fits_level9 ps /\ contents_of blocks = concat (map rle1_expand os).
Proof.
  induction 1 as [|q b ps bs (HB & HL & (p & st & HE) & HT) HF IH]; intros fuel crcs rest blocks tail E;
    (destruct fuel as [|fuel]; [discriminate|]); cbn [get_blocks combine map concat app fst snd] in E.
  - rewrite footer_magic_bits, gets_number in E by (auto; try lia; reflexivity).
    change (FOOTER_MAGIC =? BLOCK_MAGIC)%N with false in E. rewrite N.eqb_refl in E.
    destruct (get_number 32 _) as [[crc r]|]; [|discriminate]. cbn in E. destruct (crc =? _)%N; [|discriminate]. injection E as <- <-.
    exists []. split; [constructor|]. split; [constructor|reflexivity].
  - rewrite block_bits_body, <- !app_assoc in E. rewrite magic_bits, gets_number in E by (auto; try lia; reflexivity).
    rewrite N.eqb_refl in E.
    match type of E with context [get_block 9 (_ ++ ?r)] => destruct (@reference_block p st q b r HB HL HE HT) as (o & HO & HG) end.
    rewrite HG in E. clear HG. destruct (N.leb_spec (N.of_nat (length (coded q))) 900000) as [HS|]; cbn [andb] in E; [|discriminate].
    destruct (crc32_bzip2 _ =? _)%N; [|discriminate].
    match type of E with context [get_blocks fuel 9 ?c ?l] => destruct (get_blocks fuel 9 c l) as [[bl r]|] eqn:EB; [|discriminate] end.
    injection E as <- <-. destruct (IH _ _ _ _ _ EB) as (os & H2 & HS' & EC). exists (o :: os). split; [constructor; auto|].
    split; [constructor; auto|]. unfold contents_of in *. cbn [map concat pb_contents]. rewrite EC. reflexivity.
Qed.

Theorem reference_back p st ps bs w k data : Forall bytes ps -> Forall (fun q => (N.of_nat (length (coded q)) <= RLE_LIMIT + 5)%N) ps ->
  Forall2 (encodes p st) ps bs -> Forall (fun b => 2 <= length (bp_tables b) <= 6) bs ->
  bytes w -> bytes_bits w = stream_bits ps bs ++ repeat false k -> bunzip2 w = Some data ->
  exists os, Forall2 sorted_back ps os /\ Forall fits_level9 ps /\ data = concat (map rle1_expand os).
Proof.
  intros HB HL HE HT HW E EU. unfold stream_bits in E. rewrite <- app_assoc in E.
  assert (bytes [66; 90; 104; 57]) as H9 by (unfold bytes; repeat (apply Forall_cons; [unfold is_byte; lia|]); apply Forall_nil).
  destruct (bytes_prefix _ H9 HW E) as (tl & -> & Et).
  unfold bunzip2 in EU. cbn [app bunzip2_blocks] in EU. change ((49 <=? 57) && (57 <=? 57)) with true in EU. cbn [guard] in EU.
  rewrite bits_of_bytes, Et in EU. rewrite <- !app_assoc in EU. cbv zeta in EU. change (N.of_nat (57 - 48)) with 9%N in EU.
  match type of EU with context [get_blocks ?f 9 ?c ?l] => destruct (get_blocks f 9 c l) as [[bl r]|] eqn:EB; [|discriminate] end.
  destruct (length r <? 8); [|discriminate]. injection EU as <-.
  eapply blocks_back; [|exact EB]. clear - HB HL HE HT.
  induction HE as [|q b ps bs HQ HE IH]; [constructor|]. inversion HB; inversion HL; inversion HT; subst. constructor; auto. split; auto. split; auto. split; eauto.
Qed.

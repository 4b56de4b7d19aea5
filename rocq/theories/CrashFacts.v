(** * What the sink holds at any moment of a compression *)
From Verif Require Import Base BaseFacts Bitwise BitwiseFacts Rle RleFacts SpecRle Crc32 Crc32Facts SymbolStatistics BlockEncoder BlockFacts BlockDecoder
  SpecBits SpecStream Stream StreamFacts RoundTripFacts EncodeFacts ReaderFacts DecodeFacts Concurrency ConcurrencyFacts.

(** ** the sink only grows *)
Definition grown (w w' : writer) : Prop := exists more, w_out w' = w_out w ++ more.
Lemma grown_refl w : grown w w.
Proof. exists []. rewrite app_nil_r. reflexivity. Qed.
Lemma grown_trans w1 w2 w3 : grown w1 w2 -> grown w2 w3 -> grown w1 w3.
Proof. intros (a & Ea) (b & Eb). exists (a ++ b). rewrite Eb, Ea, app_assoc. reflexivity. Qed.
Lemma write_grows w buf : grown w (snd (w_write w buf)).
Proof. unfold w_write. destruct (w_script w) as [|[k|] tl]; cbn [snd]; [exists buf|exists (firstn k buf)|exists []; rewrite app_nil_r]; reflexivity. Qed.
Lemma chunks_grow bits : forall w, grown w (snd (write_chunks bits w)).
Proof.
  remember (length bits) as n eqn:En. revert bits En. induction n as [n IH] using lt_wf_ind. intros bits -> w.
  destruct bits as [|b0 [|b1 [|b2 [|b3 [|b4 [|b5 [|b6 [|b7 rest]]]]]]]]; try apply grown_refl. cbn [write_chunks].
  pose proof (write_grows w [byte_of_bits [b0; b1; b2; b3; b4; b5; b6; b7]]) as HW.
  destruct (w_write w _) as [[x| | |] w1]; cbn [snd] in *; auto.
  eapply grown_trans; [exact HW|]. eapply IH; [|reflexivity]. cbn [length]. lia.
Qed.
Definition sink (e : enc_state) : writer := bw_sink (en_bw e).
Lemma write_or_panic_grows bits e : grown (sink e) (sink (snd (write_or_panic bits e))).
Proof.
  unfold write_or_panic, write_bits, sink. pose proof (chunks_grow (bw_pending (en_bw e) ++ bits) (bw_sink (en_bw e))) as H.
  destruct (write_chunks _ _) as [[x| | |] w1]; cbn [snd en_bw bw_sink] in *; exact H.
Qed.
Lemma finish_grows e : grown (sink e) (sink (snd (finish e))).
Proof.
  unfold finish. pose proof (write_or_panic_grows (stream_footer (en_crc e)) e) as H.
  destruct (write_or_panic _ e) as [[x| | |] e1]; cbn [snd] in *; auto. eapply grown_trans; [exact H|]. clear H.
  unfold bw_finalize, sink. destruct (bw_pending (en_bw e1)) as [|b l]; [apply grown_refl|].
  match goal with |- context [w_write ?w ?x] => pose proof (write_grows w x) as H; destruct (w_write w x) as [[y| | |] w2] end;
    cbn [snd en_bw bw_sink] in *; exact H.
Qed.
Lemma main_grows s s' : main_step s = Some s' -> grown (sink (c_enc s)) (sink (c_enc s')).
Proof.
  unfold main_step, ended. intros E.
  destruct (c_pc s) as [i|i|r].
  - destruct (nth_error (c_workers s) i) as [k|]; [|injection E as <-; apply grown_refl].
    destruct (fill_block (c_rd s)) as [[f rd]| | |]; try (injection E as <-; apply grown_refl).
    destruct (fl_buf f); [injection E as <-; apply grown_refl|]. destruct (wk_dead k); [injection E as <-; apply grown_refl|].
    destruct (update _ i true); [|injection E as <-; apply grown_refl]. destruct (update _ i _); injection E as <-; apply grown_refl.
  - assert ((if c_fin s then let (r, e) := finish (c_enc s) in Some (mk_c (MEnd r) (c_rd s) (c_fin s) (c_pending s) e (c_workers s))
             else Some (mk_c (MFill 0) (c_rd s) (c_fin s) (c_pending s) (c_enc s) (c_workers s))) = Some s' ->
            grown (sink (c_enc s)) (sink (c_enc s'))) as HF.
    { intros E1. destruct (c_fin s); [|injection E1 as <-; apply grown_refl].
      pose proof (finish_grows (c_enc s)) as H. destruct (finish (c_enc s)) as [r e]. injection E1 as <-. exact H. }
    destruct (nth_error (c_workers s) i) as [k|]; [|auto]. destruct (nth_error (c_pending s) i) as [[|]|]; [|injection E as <-; apply grown_refl|auto].
    destruct (wk_results k) as [|[bits crc] rs]; [destruct (wk_dead k); [injection E as <-; apply grown_refl|discriminate]|].
    pose proof (write_or_panic_grows bits (c_enc s)) as H.
    destruct (write_or_panic bits (c_enc s)) as [[u| | |] e]; cbn [snd] in H; try (injection E as <-; exact H).
    destruct (update _ i false); [|injection E as <-; apply grown_refl]. destruct (update _ i _); injection E as <-; [exact H|apply grown_refl].
  - discriminate.
Qed.

Section Story.
  Variables (p : profile) (st : strategy) (n : nat).
  Notation gen := (block_worker p st).

  Lemma step_grows s s' : cstep gen s s' -> grown (sink (c_enc s)) (sink (c_enc s')).
  Proof.
    intros [E|(i & closed & _ & E)]; [apply main_grows; auto|]. apply worker_step_same in E as (-> & _). apply grown_refl.
  Qed.
  Lemma run_grows k s s' : crun gen k s s' -> grown (sink (c_enc s)) (sink (c_enc s')).
  Proof. induction 1; [apply grown_refl|]. eapply grown_trans; [apply step_grows; eauto|auto]. Qed.

  (** ** what has been read, and what of it has been written *)
  Lemma flush_app ws : forall ws2 e, flush_round p st (ws ++ ws2) e =
    match flush_round p st ws e with (Ok _, e1) => flush_round p st ws2 e1 | other => other end.
  Proof.
    induction ws as [|[c d] ws IH]; intros ws2 e; cbn [app flush_round]; auto.
    destruct (generate_block_data p c d st) as [[bits b]| | |]; auto. destruct (write_or_panic bits e) as [[u| | |] e1]; auto.
  Qed.
  Definition story (w : writer) (ps : list (list nat)) (s : cstate) (ws : list work) : Prop :=
    exists written flight later left e1, ps = written ++ flight ++ later /\ cuts left later /\ delivers (c_rd s) left /\
      ws = map piece_work flight /\
      write_or_panic file_header (mk_enc (bw_from_writer w) 0) = (Ok tt, e1) /\
      flush_round p st (map piece_work written) e1 = (Ok tt, c_enc s).
  Lemma step_story w ps s s' ws ws' : story w ps s ws -> moved p st s s' ws ws' -> is_over (c_pc s') = false -> story w ps s' ws'.
  Proof.
    intros (written & flight & later & left & e1 & H1 & H2 & H3 & H4 & H5 & H6) [(M1 & M2 & M3)|[(f & M1 & M2 & M3)|[(v & bits & crc & e & M1 & M2 & M3 & M4 & M5)|M]]] HO;
      [| | |congruence].
    - exists written, flight, later, left, e1. rewrite M2, M3, M1. auto 10.
    - destruct (fill_block_cut H3) as (rd' & EF & HD). rewrite M1 in EF.
      assert (f = fill_of (fst (fst (cut left))) (snd (cut left))) as EF1 by congruence. assert (rd' = c_rd s') as EF2 by congruence. clear EF M1. subst f rd'.
      inversion H2 as [|? piece rest fin later' Hne EC HC]; subst.
      + exists written, flight, [], [], e1. cbn [cut] in *. change (cut []) with (@nil nat, @nil nat, true) in *. cbn [fst snd fill_of fl_buf] in *.
        rewrite M2. repeat split; auto; try apply HD. cbn. rewrite app_nil_r. reflexivity.
      + rewrite EC in *. cbn [fst snd] in *. destruct (cut_spec _ EC) as (_ & _ & _ & HP). specialize (HP Hne).
        exists written, (flight ++ [piece]), later', rest, e1. rewrite M2, map_app, work_of_piece. rewrite <- !app_assoc. cbn [app map fill_of fl_buf].
        destruct piece as [|x piece]; [congruence|]. repeat split; auto; apply HD.
    - rewrite H4 in M1. destruct flight as [|q flight]; cbn [map] in M1; [discriminate|].
      assert (v = piece_work q) as -> by congruence. assert (ws' = map piece_work flight) as HW by congruence.
      exists (written ++ [q]), flight, later, left, e1. rewrite M5. rewrite <- app_assoc. cbn [app]. repeat (split; auto).
      rewrite map_app, flush_app, H6. cbn [map flush_round piece_work]. unfold block_worker, piece_work in M2. cbn [fst snd] in M2. rewrite M2, M3, M4. reflexivity.
  Qed.
  Lemma over_stays s s' : cstep gen s s' -> is_over (c_pc s') = false -> is_over (c_pc s) = false.
  Proof.
    intros [E|(i & closed & _ & E)] HO; [|apply worker_step_same in E as (_ & _ & EP); congruence].
    unfold main_step in E. destruct (c_pc s); auto. discriminate.
  Qed.
  Lemma run_story k s s' : crun gen k s s' -> forall w ps g ws, inv p st n s g ws -> story w ps s ws -> is_over (c_pc s') = false ->
    exists g' ws', inv p st n s' g' ws' /\ story w ps s' ws'.
  Proof.
    induction 1 as [s|k s s1 s2 HS HR IH]; intros w ps g ws HI HT HO; [eauto|].
    assert (is_over (c_pc s1) = false) as HO1.
    { clear - HR HO. induction HR as [|k s s1 s2 HS HR IH]; auto. eapply over_stays; eauto. }
    destruct (step_inv HI HS) as (g1 & ws1 & (I1 & M1) & _). eapply IH; eauto. eapply step_story; eauto.
  Qed.
  Lemma flight_few s g ws : inv p st n s g ws -> is_over (c_pc s) = false -> length ws <= n.
  Proof.
    intros HI HO. pose proof (inv_len HI) as L. pose proof (inv_placed HI) as P. unfold placed in P.
    destruct (c_pc s); [destruct P as (m & E & _)|destruct P as (m & E)|discriminate];
      rewrite E, ?app_length, ?map_length in L; lia.
  Qed.
End Story.

Lemma start_story p st n rd data ps e1 : delivers rd data -> cuts data ps ->
  write_or_panic file_header (mk_enc (bw_from_writer (good_sink [])) 0) = (Ok tt, e1) ->
  story p st (good_sink []) ps (cinit n rd (good_sink [])) [].
Proof.
  intros HD HC E. exists [], [], ps, data, e1. unfold cinit. rewrite E. cbn [c_rd c_enc app map flush_round]. auto 10.
Qed.
Theorem state_story p st n rd data ps k s : bytes data -> delivers rd data -> cuts data ps ->
  crun (block_worker p st) k (cinit n rd (good_sink [])) s -> is_over (c_pc s) = false ->
  exists written flight later bodies, ps = written ++ flight ++ later /\ length flight <= n /\ delivers (c_rd s) (concat later) /\
    Forall2 (made p st) written bodies /\ bytes (w_out (sink (c_enc s))) /\ length (bw_pending (en_bw (c_enc s))) < 8 /\
    bytes_bits (w_out (sink (c_enc s))) ++ bw_pending (en_bw (c_enc s)) =
      bytes_bits [66; 90; 104; 57] ++ concat (map framed (combine written bodies)).
Proof.
  intros HB HD HC HR HO.
  assert (enc_ok (mk_enc (bw_from_writer (good_sink [])) 0)) as H0.
  { repeat split; cbn [en_bw bw_from_writer bw_pending length bw_sink w_out good_sink]; try lia; constructor. }
  destruct (write_or_panic_ok file_header H0) as (e1 & E1 & H1 & B1 & C1).
  assert (reader_bytes rd) as HRB.
  { destruct HD as (_ & _ & HD). unfold reader_bytes. apply Forall_forall. intros [c| |] He; cbn [event_bytes]; auto.
    unfold bytes in *. rewrite <- HD, Forall_forall in HB. apply Forall_forall. intros x Hx. apply HB. apply in_flat_map. eauto. }
  destruct (@run_story p st n k _ _ HR (good_sink []) ps (repeat None n) [] (@start_inv p st n rd (good_sink []) HRB)
    (@start_story p st n rd data ps e1 HD HC E1) HO) as (g & ws & HI & written & flight & later & left & e1' & S1 & S2 & S3 & S4 & S5 & S6).
  rewrite E1 in S5. injection S5 as <-. destruct (cuts_pieces HC) as (EC & _ & _). destruct (cuts_pieces S2) as (EL & _ & _).
  assert (Forall bytes ps) as HBP by (apply Forall_concat; rewrite EC; auto).
  rewrite S1 in HBP. apply Forall_app in HBP as (HBW & _).
  destruct (@flush_frames p st written HBW e1 (c_enc s) H1 S6) as (((H2 & H2') & H2b) & bodies & L & B2 & C2).
  exists written, flight, later, bodies. split; auto. split.
  { pose proof (flight_few HI HO) as HF. rewrite S4, map_length in HF. exact HF. }
  split; [rewrite EL; exact S3|]. split; auto. split; auto. split; auto.
  unfold wbits in B2. unfold sink. rewrite B2. f_equal. unfold wbits in B1. rewrite B1.
  cbn [en_bw bw_from_writer bw_sink w_out bw_pending good_sink]. cbn [bytes_bits flat_map app]. rewrite file_header_bits. reflexivity.
Qed.

(** ** decompressing what begins with whole blocks *)
Lemma trace_prefix p ps bs : Forall2 (decodes p) ps bs -> forall fuel r rest,
  rbits r = concat (map (fun x => block_bits (crc32 (fst x)) (snd x)) (combine ps bs)) ++ rest -> length ps <= fuel ->
  exists more, fst (trace fuel p r) = ps ++ more.
Proof.
  induction 1 as [|q b ps bs HD HF IH]; intros fuel r rest HR HL; [eexists; reflexivity|].
  destruct fuel as [|fuel]; [cbn [length] in HL; lia|]. cbn [trace].
  cbn [combine map concat fst snd] in HR. rewrite block_bits_body, <- !app_assoc in HR.
  destruct (what_next_block _ HR) as (r1 & -> & HR1). destruct (HD r1 _ HR1) as (r2 & -> & HR2). rewrite N.eqb_refl.
  destruct (IH fuel r2 rest HR2) as (more & EM); [cbn [length] in HL; lia|].
  destruct (trace fuel p r2) as [l e]. cbn [fst] in *. rewrite EM. exists more. reflexivity.
Qed.
Theorem decode_prefix p ps bs input rest : Forall2 (decodes p) ps bs ->
  bytes_bits input = bytes_bits [66; 90; 104; 57] ++ concat (map (fun x => block_bits (crc32 (fst x)) (snd x)) (combine ps bs)) ++ rest ->
  exists more, w_out (snd (decode_stream p input (good_sink []))) = concat ps ++ more.
Proof.
  intros HF HW. rewrite decode_stream_trace. unfold good_sink. cbn [w_script w_out]. unfold stream_trace.
  destruct (@read_file_header_ok 57 (br_from_reader input) (concat (map (fun x => block_bits (crc32 (fst x)) (snd x)) (combine ps bs)) ++ rest))
    as (r1 & -> & HR1); [unfold is_byte; lia|rewrite rbits_from_reader; exact HW|].
  destruct (@trace_prefix p ps bs HF (S (bits_left r1)) r1 rest HR1) as (more & E).
  { rewrite bits_left_rbits, HR1, app_length. pose proof (Forall2_len HF) as L2. pose proof (blocks_length _ _ L2). lia. }
  destruct (trace _ p r1) as [l e]. cbn [fst] in E. rewrite offer_nil, E. cbn [snd w_out app]. exists (concat more). apply concat_app.
Qed.

(** ... and what ends after whole blocks, or within the next 47 bits, is not taken for complete *)
Lemma trace_blocks_only p ps bs : Forall2 (decodes p) ps bs -> forall fuel r rest,
  rbits r = concat (map (fun x => block_bits (crc32 (fst x)) (snd x)) (combine ps bs)) ++ rest -> length rest < 48 ->
  forall r', snd (trace fuel p r) <> Ok r'.
Proof.
  induction 1 as [|q b ps bs HD HF IH]; intros fuel r rest HR HL r'.
  - destruct fuel as [|fuel]; [discriminate|]. cbn [combine map concat app] in HR. cbn [trace].
    destruct (what_next r) as [[t r1]| | |] eqn:EW; try discriminate. apply what_next_inv in EW. exfalso.
    rewrite HR in EW. apply (f_equal (@length bool)) in EW. rewrite app_length in EW. revert EW.
    replace (length (bytes_bits (match t with BlockHeader => block_magic | StreamFooter => footer_magic end))) with 48 by (destruct t; reflexivity). lia.
  - destruct fuel as [|fuel]; [discriminate|]. cbn [trace].
    cbn [combine map concat fst snd] in HR. rewrite block_bits_body, <- !app_assoc in HR.
    destruct (what_next_block _ HR) as (r1 & -> & HR1). destruct (HD r1 _ HR1) as (r2 & -> & HR2). rewrite N.eqb_refl.
    pose proof (IH fuel r2 rest HR2 HL r') as HN. destruct (trace fuel p r2) as [l e]. exact HN.
Qed.
Theorem decode_blocks_only p ps bs input rest : Forall2 (decodes p) ps bs ->
  bytes_bits input = bytes_bits [66; 90; 104; 57] ++ concat (map (fun x => block_bits (crc32 (fst x)) (snd x)) (combine ps bs)) ++ rest ->
  length rest < 48 -> fst (decode_stream p input (good_sink [])) <> Ok tt.
Proof.
  intros HF HW HL. rewrite decode_stream_trace. unfold good_sink. cbn [w_script w_out]. unfold stream_trace.
  destruct (@read_file_header_ok 57 (br_from_reader input) (concat (map (fun x => block_bits (crc32 (fst x)) (snd x)) (combine ps bs)) ++ rest))
    as (r1 & -> & HR1); [unfold is_byte; lia|rewrite rbits_from_reader; exact HW|].
  pose proof (@trace_blocks_only p ps bs HF (S (bits_left r1)) r1 rest HR1 HL) as HN.
  destruct (trace _ p r1) as [l e]. cbn [snd] in HN. rewrite offer_nil. cbn [fst].
  destruct e as [r'| | |]; try discriminate. exfalso. eapply HN. reflexivity.
Qed.
(** the last, incomplete byte filled up with zeros *)
Lemma completed out pending : length pending < 8 -> exists more k, k < 8 /\ bytes_bits (out ++ more) = (bytes_bits out ++ pending) ++ repeat false k.
Proof.
  intros HL. destruct pending as [|x pending]; [exists [], 0; split; [lia|rewrite !app_nil_r; reflexivity]|].
  exists [byte_of_bits ((x :: pending) ++ repeat false (8 - length (x :: pending)))], (8 - length (x :: pending)).
  split; [cbn [length]; lia|]. rewrite bytes_bits_app, <- app_assoc. f_equal. unfold bytes_bits. cbn [flat_map]. rewrite app_nil_r.
  apply byte_of_bits_bits. rewrite app_length, repeat_length. lia.
Qed.
Lemma made_blocks p ps bodies : Forall2 (made p Single) ps bodies -> Forall bytes ps -> Forall (fun q => q <> []) ps ->
  Forall (fun q => (N.of_nat (length (coded q)) <= RLE_LIMIT + 5)%N) ps -> Forall piece_safe ps ->
  exists bs, (forall p', Forall2 (decodes p') ps bs) /\
    map framed (combine ps bodies) = map (fun x => block_bits (crc32 (fst x)) (snd x)) (combine ps bs) /\ length bs = length ps.
Proof.
  induction 1 as [|q body ps bodies HM H2 IH]; intros HB HN HL HS; [exists []; repeat split; constructor|].
  apply Forall_cons_iff in HB as (B1 & B2). apply Forall_cons_iff in HN as (N1 & N2). apply Forall_cons_iff in HL as (L1 & L2). apply Forall_cons_iff in HS as (S1 & S2).
  destruct (IH B2 N2 L2 S2) as (bs & D & E & L). destruct (@single_encodes p q B1 N1 L1) as (b & HE).
  exists (b :: bs). split; [|split].
  - intros p'. constructor; auto. eapply encodes_decodes; eauto.
  - cbn [combine map]. rewrite E. f_equal. cbn [fst snd]. destruct HE as (HE & _). unfold made in HM. rewrite HE in HM. congruence.
  - cbn [length]. lia.
Qed.

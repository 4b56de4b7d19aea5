(** * C01, C02, C03: exactly which inputs come back, when no byte is repeated four times

    Words used in the statements: [compressed], [decompressed] (SpecStream), [bunzip2]
    (SpecBzip2: the reference decoder), [reversible], [rotation_safe] (SpecBwt). *)
From Verif Require Import Base BaseFacts SpecBits SpecCrc SpecRle SpecBwt SpecBzip2 SpecStream Bitwise BitwiseFacts Rle RleFacts
  Crc32 Crc32Facts Bwt BwtFacts UnsortFacts RestoreFacts ReferenceFacts SymbolStatistics BlockEncoder BlockDecoder BlockFacts Stream StreamFacts RoundTripFacts
  EncodeFacts DecodeFacts SilentFacts ReversibleFacts PropertiesStages PropertiesStream PropertiesFew.

Lemma no_four_coded q : no_four q -> coded q = q.
Proof. intros H. apply (short_runs_coded q (no_four_runs H)). Qed.
Lemma sorted_self q o : no_four q -> sorted_back q o -> length o = length q /\ (o = q -> reversible q).
Proof. intros H. unfold sorted_back. rewrite (no_four_coded H). tauto. Qed.
Lemma back_self (f : list nat -> list nat) ps os : (forall o q, no_four q -> f o = q -> o = q) ->
  Forall no_four ps -> Forall2 sorted_back ps os -> no_four (concat ps) -> concat (map f os) = concat ps -> Forall reversible ps.
Proof.
  intros Hf HF H2 HN E. assert (os = ps) as ->.
  { apply (@aligned f Hf ps os); auto. clear - HF H2. induction H2; inversion HF; subst; constructor; auto. eapply sorted_self; eauto. }
  assert (forall os, Forall2 sorted_back ps os -> os = ps -> Forall reversible ps) as G; [|exact (G ps H2 eq_refl)].
  clear - HF. induction HF as [|q ps HQ HF IH]; intros os H2 X; [constructor|]. destruct os as [|o os]; [discriminate|]. injection X as -> ->. inversion H2; subst.
  constructor; [|eapply IH; eauto]. eapply sorted_self; eauto.
Qed.

Lemma short_runs_pieces st data ps : bytes data -> no_four data -> cuts data ps -> table_count st < 8 ->
  Forall (fun q => exists b, encodes Wrapping st q b) ps ->
  exists out, (forall p n, 1 <= n -> compressed p n st data out) /\ (forall p, blocks_are p st ps out) /\
    (forall p, decompressed p out data <-> Forall reversible ps) /\
    (2 <= table_count st <= 6 -> bunzip2 out = Some data <-> Forall (fun q => reversible q /\ (N.of_nat (length q) <= 900000)%N) ps).
Proof.
  intros HB HD HC H8 HEN. destruct (cuts_pieces HC) as (EC & HN & HL).
  assert (Forall no_four ps) as HP by (apply no_four_pieces; rewrite EC; exact HD).
  assert (Forall bytes ps) as HBP by (apply Forall_concat; rewrite EC; auto).
  destruct (@stream_made st data ps HB HC HEN) as (bs & out & k & H2 & Hk & HO & HR & E).
  exists out. split; auto. split; [intros p; apply compressed_blocks with (n := 1) (data := data); auto|]. split.
  - intros p. split.
    + destruct (@made_back _ _ _ _ _ _ HB HC H2 E) as (os & got & s & HS & HG & _ & HX). unfold decompressed. rewrite HX. intros X.
      injection X as Xs Xg. apply (@back_self inverse_rle ps os); auto; [intros o q Hq; apply inverse_no_four; auto|rewrite EC; exact HD|].
      rewrite <- (HG Xs), Xg, EC. reflexivity.
    + intros HV. eapply made_decompresses; eauto. clear - HP HV. induction HP as [|q ps HQ HP IH]; inversion HV; subst; constructor; auto.
      destruct (short_runs_coded q (no_four_runs HQ)) as (E1 & E2). split; auto. rewrite E1. auto.
  - intros H26. assert (Forall (fun b => 2 <= length (bp_tables b) <= 6) bs) as HT.
    { clear - H2 HBP HN HL H8 H26. induction H2 as [|q b ps bs HQ H2 IH]; [constructor|]. apply Forall_cons_iff in HBP as (B1 & B2).
      apply Forall_cons_iff in HN as (N1 & N2). apply Forall_cons_iff in HL as (L1 & L2). constructor; auto.
      rewrite (@encodes_tables Wrapping st q b B1 N1 L1 H8 HQ). exact H26. }
    split.
    + intros EU. destruct (@reference_back _ _ _ _ _ _ _ HBP HL H2 HT HO E EU) as (os & HS & HV & EX).
      assert (Forall reversible ps) as HRV.
      { apply (@back_self rle1_expand ps os); auto; [intros o q Hq; apply expand_no_four; auto|rewrite EC; exact HD|]. rewrite EC. auto. }
      clear - HV HRV HP. induction HP as [|q ps HQ HP IH]; inversion HV; inversion HRV; subst; constructor; auto. split; auto.
      unfold fits_level9 in *. rewrite (no_four_coded HQ) in *. auto.
    + intros HV. eapply reference_pieces; eauto. clear - HP HV. induction HP as [|q ps HQ HP IH]; inversion HV as [|? ? (V1 & V2)]; subst; constructor; auto.
      unfold fits_level9. rewrite (no_four_coded HQ). auto.
Qed.

(** For an input of any length without four equal bytes in a row: the pieces of the input
    code to themselves, and the crate's decoder restores the input if and only if every piece
    is reversible; so does the reference decoder, if the pieces also fit the announced block
    size. *)
Theorem C01_short_runs_exact : forall data, bytes data ->
  (forall before x after, data <> before ++ [x; x; x; x] ++ after) ->
  exists out pieces, (forall p n, 1 <= n -> compressed p n Single data out) /\
    (forall p, blocks_are p Single pieces out) /\ concat pieces = data /\ Forall (fun q => q <> []) pieces /\
    (forall p, decompressed p out data <-> Forall reversible pieces) /\
    (bunzip2 out = Some data <-> Forall (fun q => reversible q /\ (N.of_nat (length q) <= 900000)%N) pieces).
Proof.
  intros data HB HF. destruct (cuts_exists data) as (ps & HC). destruct (cuts_pieces HC) as (EC & HN & _).
  destruct (@short_runs_pieces Single data ps HB HF HC ltac:(cbn [table_count]; lia) (single_encodable HB HC)) as (out & H1 & H2 & H3 & H4). specialize (H4 ltac:(cbn [table_count]; lia)). exists out, ps. repeat (split; auto).
Qed.

(** For at most 720000 bytes there is one piece, the input itself, and it fits. *)
Theorem C01_short_runs_one_block_exact : forall data, bytes data -> data <> [] -> (N.of_nat (length data) <= 720000)%N ->
  (forall before x after, data <> before ++ [x; x; x; x] ++ after) ->
  exists out, (forall p n, 1 <= n -> compressed p n Single data out) /\
    (forall p, decompressed p out data <-> reversible data) /\ (bunzip2 out = Some data <-> reversible data).
Proof.
  intros data HB HN HL HF. assert (cuts data [data]) as HC by (apply small_cuts; auto).
  destruct (@short_runs_pieces Single data [data] HB HF HC ltac:(cbn [table_count]; lia) (single_encodable HB HC)) as (out & H1 & _ & H3 & H4). exists out. split; auto.
  pose proof (small_fits data HL) as HS. unfold fits_level9 in HS. rewrite (no_four_coded HF) in HS. split.
  - intros p. rewrite H3. split; [intros X; inversion X; auto|intros X; constructor; auto].
  - rewrite (H4 ltac:(cbn [table_count]; lia)). split; [intros X; inversion X; tauto|intros X; constructor; auto].
Qed.
(** The part about the reference decoder. *)
Theorem C03_short_runs_exact : forall data, bytes data ->
  (forall before x after, data <> before ++ [x; x; x; x] ++ after) ->
  exists out pieces, (forall p n, 1 <= n -> compressed p n Single data out) /\
    (forall p, blocks_are p Single pieces out) /\ concat pieces = data /\ Forall (fun q => q <> []) pieces /\
    (bunzip2 out = Some data <-> Forall (fun q => reversible q /\ (N.of_nat (length q) <= 900000)%N) pieces).
Proof.
  intros data HB HF. destruct (C01_short_runs_exact HB HF) as (out & ps & H1 & H2 & H3 & H4 & _ & H6). exists out, ps. auto.
Qed.
(** The same for the k-means strategy, if the table numbers are all used and the
    end-of-block symbol does not complete a group. *)
Theorem C02_short_runs_exact_partial : forall k iterations data, 1 <= k <= 7 -> bytes data ->
  (forall before x after, data <> before ++ [x; x; x; x] ++ after) ->
  exists pieces, concat pieces = data /\ Forall (fun q => q <> []) pieces /\
    (Forall (tables_safe k iterations) pieces ->
     exists out, (forall p n, 1 <= n -> compressed p n (BlockWise k iterations) data out) /\
       (forall p, blocks_are p (BlockWise k iterations) pieces out) /\
       (forall p, decompressed p out data <-> Forall reversible pieces) /\
       (2 <= k <= 6 -> bunzip2 out = Some data <-> Forall (fun q => reversible q /\ (N.of_nat (length q) <= 900000)%N) pieces)).
Proof.
  intros k it data Hk HB HF. destruct (cuts_exists data) as (ps & HC). destruct (cuts_pieces HC) as (EC & HN & _).
  exists ps. split; auto. split; auto. intros HT.
  pose proof (Forall_exists_and _ _ (blockwise_encodable Hk HB HC HT)) as HE.
  destruct (@short_runs_pieces (BlockWise k it) data ps HB HF HC ltac:(cbn [table_count]; lia) HE) as (out & H1 & H2 & H3 & H4). exists out. auto.
Qed.
(** For at most 38 bytes the tables and selectors are never in the way (C02_short_safe). *)
Theorem C02_short_inputs_exact : forall k iterations data, 1 <= k <= 7 -> bytes data -> data <> [] -> length data <= 38 ->
  (forall before x after, data <> before ++ [x; x; x; x] ++ after) ->
  exists out, (forall p n, 1 <= n -> compressed p n (BlockWise k iterations) data out) /\
    (forall p, decompressed p out data <-> reversible data) /\ (2 <= k <= 6 -> bunzip2 out = Some data <-> reversible data).
Proof.
  intros k it data Hk HB HN HL HF. assert (N.of_nat (length data) <= 720000)%N as HS0 by lia.
  assert (cuts data [data]) as HC by (apply small_cuts; auto).
  assert (Forall (tables_safe k it) [data]) as HT by (constructor; [apply C02_short_safe; auto|constructor]).
  pose proof (Forall_exists_and _ _ (blockwise_encodable Hk HB HC HT)) as HE.
  destruct (@short_runs_pieces (BlockWise k it) data [data] HB HF HC ltac:(cbn [table_count]; lia) HE) as (out & H1 & _ & H3 & H4). exists out. split; auto.
  pose proof (small_fits data HS0) as HS. unfold fits_level9 in HS. rewrite (no_four_coded HF) in HS. split.
  - intros p. rewrite H3. split; [intros X; inversion X; auto|intros X; constructor; auto].
  - intros H26. rewrite (H4 H26). split; [intros X; inversion X; tauto|intros X; constructor; auto].
Qed.
(** Both outcomes occur: one input is restored although it is not rotation-safe, the other
    is not restored. *)
Example C01_short_runs_case : (forall before x after, [0; 1; 0; 0; 0] <> before ++ [x; x; x; x] ++ after) /\
  reversible [0; 1; 0; 0; 0] /\ ~ rotation_safe [0; 1; 0; 0; 0] /\
  (forall before x after, [98; 97; 97; 97] <> before ++ [x; x; x; x] ++ after) /\ ~ reversible [98; 97; 97; 97].
Proof.
  destruct C06_reversible_case as (_ & H1 & H2 & H3). split; [|split; [auto|split; [auto|split; [|auto]]]].
  - intros before x after E. do 3 (destruct before as [|? before]; [cbn [app] in E; inversion E; congruence|cbn [app] in E; injection E as _ E]).
    apply (f_equal (@length nat)) in E. rewrite app_length in E. cbn [length] in E. lia.
  - intros before x after E. do 2 (destruct before as [|? before]; [cbn [app] in E; inversion E; congruence|cbn [app] in E; injection E as _ E]).
    apply (f_equal (@length nat)) in E. rewrite app_length in E. cbn [length] in E. lia.
Qed.
Print Assumptions C01_short_runs_exact.
Print Assumptions C02_short_inputs_exact.
Print Assumptions C02_short_runs_exact_partial.
Print Assumptions C01_short_runs_one_block_exact.
Print Assumptions C03_short_runs_exact.

(** * Decompressing what the crate itself compressed, whatever the data: C01, C08, C53

    Words used in the statements: SpecStream ([compressed], [decompressed], [good_sink],
    [comes_back], [piece_safe]), SpecBzip2 ([bunzip2], the reference decoder), SpecCrc
    ([crc32_bzip2]). *)
From Verif Require Import Base BaseFacts SpecBits SpecCrc SpecRle SpecBwt SpecBzip2 SpecStream Bitwise BitwiseFacts Rle RleFacts
  Crc32 Crc32Facts SymbolStatistics BlockDecoder BlockFacts Stream StreamFacts RoundTripFacts EncodeFacts DecodeFacts
  Bwt BwtFacts RunExactFacts PropertiesStream SilentFacts InjectFacts LosslessFacts UnsortFacts RestoreFacts.

(** ** C53: never other data in place of the original *)

(** There is an input of 265 bytes that comes back as other data of the same length, and
    without any error: the block checksums agree.  The stream itself is right: the
    reference decoder restores the input.

    In the fifteen eight-byte slots "aaaa" 0 0 0 1 the decoder takes the last byte for a
    count (the ambiguous run of C08) and gives 0 instead; the slots stand where the
    CRC polynomial has its coefficients, so the fifteen changes cancel in the checksum. *)
Definition slot (i : nat) : list nat :=
  if existsb (Nat.eqb (32 - i)) [32; 26; 23; 22; 16; 12; 11; 10; 8; 7; 5; 4; 2; 1; 0]
  then [97; 97; 97; 97; 0; 0; 0; 1] else [97; 98; 99; 100; 101; 102; 103; 104].
Definition victim : list nat := flat_map slot (seq 0 33) ++ [200].
Theorem C53_silent_refuted : exists data other out, bytes data /\ length data = 265 /\ length other = 265 /\ other <> data /\
  (forall p n, 1 <= n -> compressed p n Single data out) /\ bunzip2 out = Some data /\
  forall p, decompressed p out other.
Proof.
  exists victim, (map (fun x => if x =? 1 then 0 else x) victim).
  assert (bytes victim) as HB.
  { apply Forall_forall. assert (forallb (fun x => x <? 256) victim = true) as H by (vm_compute; reflexivity).
    rewrite forallb_forall in H. intros x Hx. apply Nat.ltb_lt, H; auto. }
  assert (reversible (coded victim)) as HS.
  { assert (exists front, coded victim = front ++ [200] /\ forallb (fun x => negb (x =? 200)) front = true) as (front & -> & EF).
    { exists (removelast (coded victim)). vm_compute. auto. }
    apply safe_reversible, unique_last_safe. intros Hin. rewrite forallb_forall in EF. specialize (EF _ Hin). discriminate. }
  destruct (@C03_one_block_partial victim HB) as (out & HC & HR); [vm_compute; discriminate|auto|].
  exists out. split; auto. split; [reflexivity|]. split; [reflexivity|]. split; [vm_compute; discriminate|].
  split; auto. split; auto.
  assert (out = w_out (snd (seq_encode Wrapping Single [victim] (good_sink [])))) as ->.
  { rewrite (@compressed_inv Wrapping 1 Single victim [victim] out); auto.
    apply small_cuts; vm_compute; discriminate. }
  intros p. unfold decompressed. destruct p; vm_compute; reflexivity.
Qed.

(** But for this nothing worse happens.  For every input the decoder neither panics nor
    runs forever on the stream; the pieces come back one by one, and one that does not come
    back as itself is not [piece_safe] and has either the same CRC-32 as what is written
    instead, or is answered with an error. *)
Theorem C53_outcome_partial : forall data, bytes data ->
  exists out pieces got status, (forall p n, 1 <= n -> compressed p n Single data out) /\
    (forall p, blocks_are p Single pieces out) /\ concat pieces = data /\ Forall (fun q => q <> []) pieces /\
    comes_back pieces got status /\ forall p, decode_stream p out (good_sink []) = (status, good_sink got).
Proof.
  intros data HB. destruct (cuts_exists data) as (ps & HC). destruct (cuts_pieces HC) as (EC & HN & HL).
  destruct (@stream_made Single data ps HB HC (single_encodable HB HC)) as (bs & out & k & H2 & Hk & HO & HR & E).
  destruct (@made_comes_back _ _ _ _ _ _ HB HC H2 E) as (got & s & HG & HD).
  exists out, ps, got, s. split; auto. split; [intros p; apply compressed_blocks with (n := 1) (data := data); auto|]. auto.
Qed.
(** For at most 720000 bytes: the input, other data with its CRC-32, or an error and
    nothing written. *)
Theorem C53_one_block_partial : forall data, bytes data -> (N.of_nat (length data) <= 720000)%N ->
  exists out, (forall p n, 1 <= n -> compressed p n Single data out) /\
    ((forall p, decompressed p out data) \/
     (exists other, other <> data /\ crc32_bzip2 other = crc32_bzip2 data /\ forall p, decompressed p out other) \/
     (forall p, decode_stream p out (good_sink []) = (Err, good_sink []))).
Proof.
  intros data HB HL.
  assert (exists ps, cuts data ps /\ (ps = [] /\ data = [] \/ ps = [data])) as (ps & HC & HP).
  { destruct data as [|x data]; [exists []; split; [constructor|auto]|].
    exists [x :: data]. split; auto. apply small_cuts; [discriminate|auto]. }
  destruct (@stream_made Single data ps HB HC (single_encodable HB HC)) as (bs & out & k & H2 & Hk & HO & HR & E).
  destruct (@made_comes_back _ _ _ _ _ _ HB HC H2 E) as (got & s & HG & HD). exists out. split; auto.
  destruct HP as [(-> & ->)| ->].
  - inversion HG; subst. left. exact HD.
  - inversion HG as [|q l g s' HG'|q other l g s' NE HU HBo EC HG'|q l HU]; subst.
    + inversion HG'; subst. left. intros p. unfold decompressed. rewrite HD, app_nil_r. reflexivity.
    + inversion HG'; subst. right. left. exists other. split; auto. split; auto. intros p. unfold decompressed.
      rewrite HD, app_nil_r. reflexivity.
    + right. right. exact HD.
Qed.
(** The same for the k-means strategy, if the table numbers are all used and the
    end-of-block symbol does not complete a group. *)
Theorem C53_kmeans_partial : forall k iterations data, 1 <= k <= 7 -> bytes data ->
  exists pieces, concat pieces = data /\ Forall (fun q => q <> []) pieces /\
    (Forall (tables_safe k iterations) pieces ->
     exists out got status, (forall p n, 1 <= n -> compressed p n (BlockWise k iterations) data out) /\
       comes_back pieces got status /\ forall p, decode_stream p out (good_sink []) = (status, good_sink got)).
Proof.
  intros k it data Hk HB. destruct (cuts_exists data) as (ps & HC). destruct (cuts_pieces HC) as (EC & HN & HL).
  exists ps. split; auto. split; auto. intros HT.
  pose proof (Forall_exists_and _ _ (blockwise_encodable Hk HB HC HT)) as HE.
  destruct (@stream_made (BlockWise k it) data ps HB HC HE) as (bs & out & kk & H2 & Hkk & HO & HR & E).
  destruct (@made_comes_back _ _ _ _ _ _ HB HC H2 E) as (got & s & HG & HD). exists out, got, s. auto.
Qed.
(** All outcomes occur: the input for "hello world", other data above, an error for "baaa". *)
Example C53_case : exists out, (forall p n, 1 <= n -> compressed p n Single [98; 97; 97; 97] out) /\
  (forall p, decode_stream p out (good_sink []) = (Err, good_sink [])) /\ comes_back [[98; 97; 97; 97]] [] Err /\
  comes_back [hello; hello] (hello ++ hello) (Ok tt).
Proof.
  destruct (@C53_one_block_partial [98; 97; 97; 97]) as (out & HC & _); [small_bytes|cbn; lia|].
  exists out. split; auto.
  assert (out = w_out (snd (seq_encode Wrapping Single [[98; 97; 97; 97]] (good_sink [])))) as ->.
  { rewrite (@compressed_inv Wrapping 1 Single [98; 97; 97; 97] [[98; 97; 97; 97]] out); auto.
    apply small_cuts; [discriminate|cbn; lia]. }
  split; [intros p; destruct p; vm_compute; reflexivity|]. split.
  - apply back_error. intros (_ & HS). destruct (bwt_ok (l := coded [98; 97; 97; 97])) as (col & ptr & E & SP);
      [vm_compute; repeat constructor|discriminate|].
    pose proof (bwt_inverse_reversible SP HS) as EI. vm_compute in E. injection E as <- <-. vm_compute in EI. discriminate.
  - replace (hello ++ hello) with (hello ++ hello ++ []) by (rewrite app_nil_r; reflexivity). repeat constructor.
Qed.
Print Assumptions C53_silent_refuted.
Print Assumptions C53_outcome_partial.
Print Assumptions C53_one_block_partial.
Print Assumptions C53_kmeans_partial.

(** ** C08, C01: exactly when

    [run_exact] (SpecRle): whenever a run of n >= 4 bytes is directly followed by a run of m
    bytes of value n - 4, then m <= 2, or m = n, or m = 3 and nothing follows.  A run
    longer than 255 bytes counts as several. *)
Theorem C08_expand_exact_partial : forall l, ~ In (251, 255) (runs l) ->
  (inverse_rle (coded l) = l <-> run_exact l = true) /\ (inverse_rle (coded l) = rle1_expand (coded l) <-> run_exact l = true).
Proof.
  intros l H. split; [apply inverse_rle_exact; auto|]. 
  assert (rle1_expand (coded l) = l) as -> by (rewrite coded_aug; apply rle_lossless). apply inverse_rle_exact; auto.
Qed.
(** For an input of one block whose block sort is right (suffix order is rotation order),
    not containing 255 bytes 251 in a row: it comes back if and only if it is [run_exact]. *)
Theorem C01_round_trip_exact_partial : forall data, bytes data -> (N.of_nat (length data) <= 720000)%N ->
  reversible (coded data) -> ~ In (251, 255) (runs data) ->
  exists out, (forall p n, 1 <= n -> compressed p n Single data out) /\ forall p, decompressed p out data <-> run_exact data = true.
Proof.
  intros data HB HL HS HI. destruct data as [|x data].
  { destruct HS as (i & (Hi & _) & _). cbn in Hi. lia. }
  assert (cuts (x :: data) [x :: data]) as HC by (apply small_cuts; [discriminate|auto]).
  destruct (@stream_made Single _ _ HB HC (single_encodable HB HC)) as (bs & out & k & H2 & Hk & HO & HR & E).
  exists out. split; auto. inversion H2 as [|q b l l' HE H2' E1 E2]; subst. inversion H2'; subst.
  destruct (cuts_pieces HC) as (_ & _ & HLL). apply Forall_cons_iff in HLL as (HLL & _).
  pose proof (@one_block_reads _ _ _ _ _ E (@safe_reads _ _ _ _ HB HLL HE HS)) as HD. intros p. unfold decompressed. rewrite HD.
  rewrite <- (@inverse_rle_exact (x :: data)) by auto. fold (coded (x :: data)).
  remember (x :: data) as q eqn:Eq. split.
  - destruct (_ =? _)%N; [|discriminate]. intros H. injection H as H. exact H.
  - intros ->. rewrite N.eqb_refl. reflexivity.
Qed.
(** a condition visible in the data: the last byte does not occur before, and is not a count *)
Lemma coded_run_in x r : In x (coded_run r) -> x = fst r \/ x <= 251 \/ 255 < snd r.
Proof.
  destruct r as [b n]. unfold coded_run. destruct (4 <=? n); cbn [fst snd].
  - rewrite in_app_iff. intros [H|[H|[]]]; [apply repeat_spec in H; auto|lia].
  - intros H. apply repeat_spec in H. auto.
Qed.
Theorem C01_unique_end_exact_partial : forall front last, bytes (front ++ [last]) ->
  (N.of_nat (length (front ++ [last])) <= 720000)%N -> ~ In last front -> 252 <= last -> ~ In (251, 255) (runs front) ->
  exists out, (forall p n, 1 <= n -> compressed p n Single (front ++ [last]) out) /\ forall p, decompressed p out (front ++ [last]) <-> run_exact (front ++ [last]) = true.
Proof.
  intros front last HB HL HI H252 HN.
  assert (forall l b n, ~ In last (repeat b n ++ l) -> 1 <= n -> runs_from b n (l ++ [last]) = runs_from b n l ++ [(last, 1)]) as HR.
  { induction l as [|x l IH]; intros b n Hin Hn; cbn [app runs_from].
    - replace (last =? b) with false; [reflexivity|]. symmetry. apply Nat.eqb_neq. intros ->. apply Hin. destruct n; [lia|]. left. reflexivity.
    - destruct (Nat.eqb_spec x b) as [->|Hx]; cbn [andb].
      + destruct (n <? 255).
        * apply IH; [|lia]. intros H. apply Hin. apply in_app_iff in H. apply in_app_iff. cbn [repeat In] in *. tauto.
        * cbn [app]. f_equal. apply IH; [|lia]. intros H. apply Hin. apply in_app_iff. cbn [repeat app In] in *. tauto.
      + cbn [app]. f_equal. apply IH; [|lia]. intros H. apply Hin. apply in_app_iff. cbn [repeat app In] in *. tauto. }
  assert (runs (front ++ [last]) = runs front ++ [(last, 1)]) as ER.
  { destruct front as [|x front]; [reflexivity|]. cbn [app runs]. apply HR; [|lia]. exact HI. }
  apply C01_round_trip_exact_partial; auto.
  - assert (coded (front ++ [last]) = coded front ++ [last]) as -> by (unfold coded; rewrite ER, flat_map_app; reflexivity).
    apply safe_reversible, unique_last_safe. unfold coded. intros H. apply in_flat_map in H as ([b n] & Hr & Hx). apply coded_run_in in Hx. cbn [fst snd] in Hx.
    pose proof (runs_ok_runs front) as Hok.
    assert (b <> last /\ n <= 255) as (Hb & Hn); [|lia].
    split.
    + intros ->. apply HI. rewrite <- (expand_runs_runs front). apply in_flat_map. exists (last, n). split; auto. cbn [fst snd].
      assert (1 <= n) by (clear - Hr Hok; induction (runs front) as [|r l IH]; [destruct Hr|]; cbn [runs_ok] in Hok; destruct Hok as (H1 & H2 & _); destruct Hr as [->|Hr]; [unfold run_ok in H1; cbn [snd] in H1; lia|auto]).
      destruct n; [lia|]. left. reflexivity.
    + clear - Hr Hok; induction (runs front) as [|r l IH]; [destruct Hr|]; cbn [runs_ok] in Hok; destruct Hok as (H1 & H2 & _); destruct Hr as [->|Hr]; [unfold run_ok in H1; cbn [snd] in H1; lia|auto].
  - rewrite ER. intros H. apply in_app_iff in H as [H|[H|[]]]; [auto|]. injection H as -> H. lia.
Qed.
(** both outcomes: "aaaaa" followed by five bytes 1 comes back, followed by six it does not *)
Example C01_exact_case : run_exact (repeat 97 5 ++ repeat 1 5 ++ [98; 255]) = true /\ run_safe (repeat 97 5 ++ repeat 1 5 ++ [98; 255]) = false /\ run_exact (repeat 97 5 ++ repeat 1 6 ++ [98; 255]) = false /\ ~ In (251, 255) (runs (repeat 97 5 ++ repeat 1 6 ++ [98])) /\ ~ In 255 (repeat 97 5 ++ repeat 1 6 ++ [98]).
Proof. repeat split; try reflexivity; cbv; intuition discriminate. Qed.
Print Assumptions C08_expand_exact_partial.
Print Assumptions C01_round_trip_exact_partial.
Print Assumptions C01_unique_end_exact_partial.

(** ** C63: compression loses nothing

    The decoder may fail to restore an input (C01, C06, C53), but no two inputs, blocks or
    options share a compressed stream: what the input was is always in the file. *)
Lemma compressed_unique p n p' n' st data out out' : 1 <= n -> 1 <= n' -> bytes data ->
  compressed p n st data out -> compressed p' n' st data out' -> out = out'.
Proof.
  intros Hn Hn' HB H H'. destruct (cuts_exists data) as (ps & HC).
  pose proof (compressed_inv HC Hn H) as E. pose proof (compressed_inv HC Hn' H') as E'.
  rewrite (seq_encode_profile p p' st _ HB HC) in E. rewrite E in E'. injection E'. auto.
Qed.
Lemma cuts_sized data ps : bytes data -> cuts data ps -> Forall sized ps.
Proof.
  intros HB HC. destruct (cuts_pieces HC) as (EC & HN & HL).
  assert (Forall bytes ps) as HBP by (apply Forall_concat; rewrite EC; auto).
  rewrite Forall_forall in *. intros q Hq. split; auto.
Qed.
Lemma made_unique p n p' n' st st' data data' ps ps' out : bytes data -> bytes data' -> 1 <= n -> 1 <= n' ->
  cuts data ps -> cuts data' ps' -> Forall (fun q => exists b, encodes Wrapping st q b) ps ->
  Forall (fun q => exists b, encodes Wrapping st' q b) ps' ->
  compressed p n st data out -> compressed p' n' st' data' out -> data = data'.
Proof.
  intros HB HB' Hn Hn' HC HC' HE HE' H H'.
  destruct (stream_made HB HC HE) as (bs & o & k & H2 & _ & _ & HR & E).
  destruct (stream_made HB' HC' HE') as (bs' & o' & k' & H2' & _ & _ & HR' & E').
  rewrite (compressed_unique Hn Hn HB (HR p n Hn) H) in E. rewrite (compressed_unique Hn' Hn' HB' (HR' p' n' Hn') H') in E'.
  pose proof (@stream_det _ _ _ _ _ _ _ _ _ (cuts_sized HB HC) (cuts_sized HB' HC') H2 H2' E E') as ->.
  destruct (cuts_pieces HC) as (<- & _). destruct (cuts_pieces HC') as (<- & _). reflexivity.
Qed.

Theorem C63_lossless : forall p p' n n' data data' out, bytes data -> bytes data' -> 1 <= n -> 1 <= n' ->
  compressed p n Single data out -> compressed p' n' Single data' out -> data = data'.
Proof.
  intros p p' n n' data data' out HB HB' Hn Hn' H H'.
  destruct (cuts_exists data) as (ps & HC). destruct (cuts_exists data') as (ps' & HC').
  eapply made_unique with (1 := HB) (2 := HB') (3 := Hn) (4 := Hn'); eauto using single_encodable.
Qed.
(** So is the block sort: the column and the number stored with it determine the block,
    although the crate's own inverse does not always find it (C06). *)
Theorem C63_block_sort : forall block block' column pointer, bytes block -> bytes block' ->
  bwt block = Ok (column, pointer) -> bwt block' = Ok (column, pointer) -> block = block'.
Proof.
  intros l l' c ptr HB HB' E E'.
  destruct l as [|x l]; [vm_compute in E; discriminate|]. destruct l' as [|x' l']; [vm_compute in E'; discriminate|].
  destruct (bwt_ok HB ltac:(discriminate)) as (c1 & p1 & E1 & SP). rewrite E in E1. injection E1 as <- <-.
  destruct (bwt_ok HB' ltac:(discriminate)) as (c1 & p1 & E1 & SP'). rewrite E' in E1. injection E1 as <- <-.
  eapply bwt_injective; eauto.
Qed.
(** With the k-means strategy, for inputs whose selectors survive (C02): also between
    different numbers of tables and between the two strategies. *)
Theorem C63_kmeans_partial : forall k iterations data, 1 <= k <= 7 -> bytes data ->
  exists pieces, concat pieces = data /\ Forall (fun q => q <> []) pieces /\ (Forall (tables_safe k iterations) pieces ->
    forall p n out, 1 <= n -> compressed p n (BlockWise k iterations) data out ->
    (forall p' n' data', bytes data' -> 1 <= n' -> compressed p' n' Single data' out -> data' = data) /\
    (forall k' iterations' data', 1 <= k' <= 7 -> bytes data' ->
      exists pieces', concat pieces' = data' /\ Forall (fun q => q <> []) pieces' /\
       (Forall (tables_safe k' iterations') pieces' ->
        forall p' n', 1 <= n' -> compressed p' n' (BlockWise k' iterations') data' out -> data' = data))).
Proof.
  intros k it data Hk HB. destruct (cuts_exists data) as (ps & HC). destruct (cuts_pieces HC) as (EC & HN & _).
  exists ps. split; auto. split; auto. intros HT p n out Hn H.
  pose proof (Forall_exists_and _ _ (blockwise_encodable Hk HB HC HT)) as HE. split.
  - intros p' n' data' HB' Hn' H'. destruct (cuts_exists data') as (ps' & HC').
    eapply made_unique with (1 := HB') (2 := HB) (3 := Hn') (4 := Hn); eauto using single_encodable.
  - intros k' it' data' Hk' HB'. destruct (cuts_exists data') as (ps' & HC'). destruct (cuts_pieces HC') as (EC' & HN' & _).
    exists ps'. split; auto. split; auto. intros HT' p' n' Hn' H'.
    pose proof (Forall_exists_and _ _ (blockwise_encodable Hk' HB' HC' HT')) as HE'.
    eapply made_unique with (1 := HB') (2 := HB) (3 := Hn') (4 := Hn); eauto.
Qed.
(** "baaa" is not restored by the crate's decoder, and nothing else has its stream. *)
Example C63_case : exists out, (forall p n, 1 <= n -> compressed p n Single [98; 97; 97; 97] out) /\
  (forall p, decode_stream p out (good_sink []) = (Err, good_sink [])) /\
  forall p n data, bytes data -> 1 <= n -> compressed p n Single data out -> data = [98; 97; 97; 97].
Proof.
  destruct C53_case as (out & HC & HD & _). exists out. split; auto. split; auto. intros p n data HB Hn H.
  eapply C63_lossless with (3 := Hn) (4 := le_n 1) (5 := H) (6 := HC Checked 1 (le_n 1)); auto. small_bytes.
Qed.
Print Assumptions C63_lossless.
Print Assumptions C63_block_sort.
Print Assumptions C63_kmeans_partial.

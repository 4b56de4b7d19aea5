(** * The compressing process is killed: C69

    Words used in the statements: [reached], [returned] (top of PropertiesThreads: the
    states of all interleavings of the threads), [delivers], [encode_returns],
    [good_sink], [piece_safe] (SpecStream), [blocks_are], [encoded_alone] and
    [block_frame_bits] (top of PropertiesStream).

    Each write of the encoder to its sink is one atomic step of the model, and
    [written_by s] is what the sink has received in state [s].  A process that is killed
    in state [s] leaves these bytes, or, if the sink buffers, some prefix of them. *)
From Verif Require Import Base BaseFacts Bitwise BitwiseFacts SpecBits SpecCrc SpecRle SpecStream Rle RleFacts Crc32 Crc32Facts SymbolStatistics BlockEncoder
  BlockFacts BlockDecoder Stream StreamFacts RoundTripFacts EncodeFacts ReaderFacts DecodeFacts Concurrency ConcurrencyFacts CrashFacts PropertiesStream PropertiesDecode
  PropertiesRobust PropertiesThreads UnsortFacts RestoreFacts.

Definition written_by (s : cstate) : list nat := w_out (bw_sink (en_bw (c_enc s))).

(** Whatever the reader, the sink, the number of threads and the interleaving: what has
    been written at any moment is a prefix of what will have been written in the end. *)
Theorem C69_prefix : forall p st n rd w k s r, reader_bytes rd -> 1 <= n -> r_tail_fail rd = false ->
  reached p st n rd w k s -> encode_returns p rd w n st r ->
  exists more, w_out (snd r) = written_by s ++ more.
Proof.
  intros p st n rd w k s r HB Hn HT HR HE. destruct (@C56_can_finish p st n rd w k s HB Hn HT HR) as (k' & s' & HR' & (r' & HE') & _).
  assert (reached p st n rd w (k + k') s') as HR2 by (eapply run_app; eauto).
  destruct (@C20_schedule_independent p st n rd w (k + k') s' r' HB HR2 HE') as (HE2 & _).
  rewrite (returns_det HE HE2). destruct HE' as (_ & <-). exact (run_grows HR').
Qed.

Lemma not_over s : (forall r, ~ returned s r) -> is_over (c_pc s) = false.
Proof.
  intros H. destruct (c_pc s) as [i|i|r] eqn:E; auto. exfalso. apply (H (r, bw_sink (en_bw (c_enc s)))). split; auto.
Qed.

(** How far it has come before it returns: of the pieces the input is cut into, some have
    been written as whole blocks, up to 7 bits of which are still missing; at most one per
    thread has been read and not written; the rest has not been read.  The pieces are
    those of the finished stream. *)
Theorem C69_progress : forall data p st n rd k s, bytes data -> 1 <= n -> delivers rd data ->
  reached p st n rd (good_sink []) k s -> (forall r, ~ returned s r) ->
  exists written flight unread bodies pending,
    concat (written ++ flight ++ unread) = data /\ Forall (fun q => q <> []) (written ++ flight ++ unread) /\
    (forall w, encode_returns p rd (good_sink []) n st (Ok tt, w) -> blocks_are p st (written ++ flight ++ unread) (w_out w)) /\
    length flight <= n /\ delivers (c_rd s) (concat unread) /\
    Forall2 (encoded_alone p st) written bodies /\ length pending < 8 /\
    bits_of (written_by s) ++ pending =
      bits_of [66; 90; 104; 57] ++ concat (map (fun x => block_frame_bits (fst x) (snd x)) (combine written bodies)).
Proof.
  intros data p st n rd k s HB Hn HD HR HO. apply not_over in HO.
  destruct (cuts_exists data) as (ps & HC). destruct (cuts_pieces HC) as (EC & HN & _).
  assert (Forall bytes ps) as HBP by (apply Forall_concat; rewrite EC; auto).
  destruct (@state_story p st n rd data ps k s HB HD HC HR HO) as (written & flight & later & bodies & E & HF & HD' & H2 & _ & HP & EB).
  exists written, flight, later, bodies, (bw_pending (en_bw (c_enc s))). rewrite <- E. split; auto. split; auto. split.
  { intros w HE. pose proof (returns_det HE (@returns_seq p rd (good_sink []) n st data ps HD HC Hn)) as ES. symmetry in ES.
    destruct (@seq_blocks p st ps _ HBP ES) as (A & _). exact A. }
  split; auto. split; auto. rewrite E in HBP. apply Forall_app in HBP as (HBW & _).
  split; [|split; auto].
  - clear - H2 HBW. induction H2 as [|q b ps bodies HQ H2 IH]; constructor.
    + apply Forall_cons_iff in HBW as (B & _). unfold encoded_alone, block_frame_bits. rewrite <- crc32_correct by auto. exact HQ.
    + apply IH. apply Forall_cons_iff in HBW. tauto.
  - unfold written_by. rewrite !bits_of_bytes. unfold sink in EB. rewrite EB. f_equal. apply frames_eq; auto.
    symmetry. exact (Forall2_len H2).
Qed.

(** Decompressing what a killed compression has left, default strategy: never anything
    but a prefix of the input, if the finished stream would have been readable, and the
    whole input if the decoder reports success.  ([c] is any prefix of what has been
    written, so this includes a kill within a write.) *)
Theorem C69_killed : forall data, bytes data ->
  exists pieces, concat pieces = data /\ Forall (fun q => q <> []) pieces /\
    (forall p n out, 1 <= n -> compressed p n Single data out -> blocks_are p Single pieces out) /\
    (Forall piece_safe pieces -> forall p n rd k s c more p', 1 <= n -> delivers rd data ->
      reached p Single n rd (good_sink []) k s -> c ++ more = written_by s ->
      exists missing, w_out (snd (decode_stream p' c (good_sink []))) ++ missing = data /\
        (fst (decode_stream p' c (good_sink [])) = Ok tt -> missing = [])).
Proof.
  intros data HB. destruct (cuts_exists data) as (ps & HC). destruct (cuts_pieces HC) as (EC & HN & HL).
  exists ps. split; auto. split; auto. split; [intros p n out Hn H; eapply compressed_blocks; eauto|].
  intros HS p n rd k s c more p' Hn HD HR Ec.
  destruct (@stream_made Single data ps HB HC (single_encodable HB HC)) as (bs & out & j & H2 & Hk & HO & HF & E).
  pose proof (@made_decompresses Single data ps bs out j HB HC H2 HS E p') as HDE.
  destruct (@C69_prefix p Single n rd (good_sink []) k s _ (delivers_bytes HD HB) Hn (proj1 HD) HR (HF p n Hn rd HD)) as (more2 & E2).
  cbn [snd good_sink w_out] in E2. rewrite <- Ec, <- app_assoc in E2.
  destruct (@C50_prefix p' c (more ++ more2) [] []) as (extra & EX). rewrite <- E2 in EX. unfold decompressed in HDE.
  fold (good_sink []) in EX. rewrite HDE in EX. cbn [snd w_out good_sink] in EX. exists extra. split; [symmetry; exact EX|].
  intros HK. destruct (decode_stream p' c (good_sink [])) as [r w'] eqn:ED. cbn [fst snd] in *. subst r.
  rewrite E2, (@C28_concatenation_dropped p' c (good_sink []) w' (more ++ more2) ED) in HDE.
  assert (w' = good_sink data) as -> by congruence. cbn [w_out good_sink] in EX. apply (f_equal (@length nat)) in EX. rewrite app_length in EX.
  destruct extra; auto. cbn [length] in EX. lia.
Qed.

(** ... and it is never mistaken for a complete file before the compression returns, nor
    is much of it lost: all but the last [n + 1] of the pieces read come back, whatever
    part of the next write [more] has reached the sink as well. *)
Lemma app_split {A} (a : list A) : forall b c d, a ++ b = c ++ d -> length b <= length d -> exists r, a = c ++ r.
Proof.
  induction a as [|x a IH]; intros b [|y c] d E HL; cbn [app] in E; try (eexists; reflexivity).
  - apply (f_equal (@length A)) in E. cbn [length] in E. rewrite app_length in E. lia.
  - injection E as <- E. destruct (IH b c d E HL) as (r & ->). exists r. reflexivity.
Qed.
Theorem C69_kept : forall data, bytes data ->
  exists pieces, concat pieces = data /\ Forall (fun q => q <> []) pieces /\
    (forall p n out, 1 <= n -> compressed p n Single data out -> blocks_are p Single pieces out) /\
    (Forall piece_safe pieces -> forall p n rd k s, 1 <= n -> delivers rd data ->
      reached p Single n rd (good_sink []) k s -> (forall r, ~ returned s r) ->
      (forall c more p', c ++ more = written_by s -> fst (decode_stream p' c (good_sink [])) <> Ok tt) /\
      exists saved lost unread, pieces = saved ++ lost ++ unread /\ length lost <= n + 1 /\ delivers (c_rd s) (concat unread) /\
        forall p' more, exists got, w_out (snd (decode_stream p' (written_by s ++ more) (good_sink []))) = concat saved ++ got).
Proof.
  intros data HB. destruct (cuts_exists data) as (ps & HC). destruct (cuts_pieces HC) as (EC & HN & HL).
  exists ps. split; auto. split; auto. split; [intros p n out Hn H; eapply compressed_blocks; eauto|].
  intros HS p n rd k s Hn HD HR HO. apply not_over in HO.
  assert (Forall bytes ps) as HBP by (apply Forall_concat; rewrite EC; auto).
  destruct (@state_story p Single n rd data ps k s HB HD HC HR HO) as (written & flight & later & bodies & E & HF & HD' & H2 & _ & HP & EB).
  assert (Forall bytes written /\ Forall (fun q => q <> []) written /\ Forall (fun q => (N.of_nat (length (coded q)) <= RLE_LIMIT + 5)%N) written /\
    Forall piece_safe written) as (B1 & N1 & L1 & S1).
  { rewrite E in HBP, HN, HL, HS. apply Forall_app in HBP, HN, HL, HS. tauto. }
  split.
  - intros c more p' Ec HK. destruct (@made_blocks p written bodies H2 B1 N1 L1 S1) as (bs & HDs & EM & _).
    destruct (@completed (w_out (sink (c_enc s))) _ HP) as (tl & j & Hj & ET). rewrite EB, EM, <- app_assoc in ET.
    apply (@decode_blocks_only p' written bs _ _ (HDs p') ET); [rewrite repeat_length; lia|].
    unfold sink. fold (written_by s). rewrite <- Ec, <- app_assoc.
    destruct (decode_stream p' c (good_sink [])) as [r w'] eqn:ED. cbn [fst] in HK. subst r.
    rewrite (@C28_concatenation_dropped p' c (good_sink []) w' (more ++ tl) ED). reflexivity.
  - assert (written = [] \/ exists saved q, written = saved ++ [q]) as [->|(saved & q & ->)].
    { clear. induction written using rev_ind; eauto. }
    + exists [], flight, later. split; auto. split; [lia|]. split; auto. intros p' more. eexists. reflexivity.
    + exists saved, (q :: flight), later. split; [rewrite E, <- app_assoc; reflexivity|]. split; [cbn [length]; lia|]. split; auto.
      apply Forall2_app_inv_l in H2 as (bodies1 & bl & H2 & H2l & ->).
      inversion H2l as [|? body ? ? HQ HX]; subst. inversion HX; subst. clear H2l HX.
      apply Forall_app in B1 as (B1 & _), N1 as (N1 & _), L1 as (L1 & _), S1 as (S1 & _).
      destruct (@made_blocks p saved bodies1 H2 B1 N1 L1 S1) as (bs & HDs & EM & _).
      pose proof (Forall2_len H2) as L12. rewrite ReferenceFacts.combine_app in EB by lia. rewrite map_app, concat_app, app_assoc in EB.
      apply app_split in EB as (rest & ER).
      * rewrite EM, <- app_assoc in ER. intros p' more. apply (@decode_prefix p' saved bs _ (rest ++ bytes_bits more) (HDs p')).
        unfold written_by. unfold sink in ER. rewrite bytes_bits_app, ER, <- !app_assoc. reflexivity.
      * cbn [combine map concat]. rewrite app_nil_r. unfold framed. rewrite !app_length. change (length (bytes_bits block_magic)) with 48. lia.
Qed.

(** One interleaving chosen step by step: [None] is the main thread, [Some i] worker [i]. *)
Fixpoint drive (p : profile) (st : strategy) (choices : list (option nat)) (s : cstate) : option cstate :=
  match choices with
  | [] => Some s
  | c :: choices =>
      match match c with None => main_step s | Some i => worker_step (block_worker p st) false i s end with
      | Some s => drive p st choices s
      | None => None
      end
  end.
Lemma drive_run p st choices : forall s s', drive p st choices s = Some s' -> crun (block_worker p st) (length choices) s s'.
Proof.
  induction choices as [|[i|] choices IH]; intros s s' E; cbn [drive length] in *; [injection E as <-; constructor| |].
  - destruct (worker_step _ false i s) as [s1|] eqn:ES; [|discriminate]. econstructor; [|eauto].
    right. exists i, false. split; [discriminate|exact ES].
  - destruct (main_step s) as [s1|] eqn:ES; [|discriminate]. econstructor; [|eauto]. left. exact ES.
Qed.
(** Compressing "x" with two threads, killed when the block has been written and the footer
    has not: up to 7 bits of the block are missing, the decoder panics and has written
    nothing; a moment later it is whole. *)
Definition one_byte : reader := mk_reader [RChunk [120]] false.
Definition killed_here : cstate :=
  match drive Checked Single [None; None; Some 0; Some 0; None] (cinit 2 one_byte (good_sink [])) with
  | Some s => s
  | None => cinit 2 one_byte (good_sink [])
  end.
Example C69_case : delivers one_byte [120] /\ reached Checked Single 2 one_byte (good_sink []) 5 killed_here /\ (forall r, ~ returned killed_here r) /\
  length (written_by killed_here) = 26 /\ c_rd killed_here = mk_reader [] false /\
  decode_stream Wrapping (written_by killed_here) (good_sink []) = (Panic, good_sink []) /\
  exists out, compressed Checked 2 Single [120] out /\ length out = 37 /\ firstn 26 out = written_by killed_here /\ decompressed Wrapping out [120].
Proof.
  split; [split; [reflexivity|]; split; [repeat constructor; discriminate|reflexivity]|].
  split.
  { apply (@drive_run Checked Single [None; None; Some 0; Some 0; None]). unfold killed_here.
    match goal with |- ?x = _ => destruct x eqn:E end; [reflexivity|]. vm_compute in E. discriminate E. }
  split; [intros r (H & _); vm_compute in H; discriminate H|]. split; [vm_compute; reflexivity|]. split; [vm_compute; reflexivity|].
  split; [vm_compute; reflexivity|]. eexists. split; [|].
  { apply compressed_seq with (ps := [[120]]); [apply small_cuts; [discriminate|cbn; lia]|lia|vm_compute; reflexivity]. }
  split; [reflexivity|]. split; [vm_compute; reflexivity|vm_compute; reflexivity].
Qed.
Example C69_case_safe : piece_safe [120].
Proof. split; [reflexivity|]. apply reversible_ok; [discriminate|vm_compute; reflexivity]. Qed.
Print Assumptions C69_prefix.
Print Assumptions C69_progress.
Print Assumptions C69_killed.
Print Assumptions C69_kept.

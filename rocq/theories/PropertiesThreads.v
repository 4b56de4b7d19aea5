(** * Threads and failing readers and sinks: C20, C21, C23, C24, C54-C56, C61

    Words used in the statements: SpecStream ([encode_returns], [encode_runs_forever],
    [delivers], [reader_bytes], [good_sink], [compressed]), the transition system of
    Concurrency.v ([cinit], [cstep], [crun]) and the sequential [encode_stream]. *)
From Verif Require Import Base BaseFacts Bitwise BitwiseFacts SpecRle Rle RleFacts SpecStream Crc32 SymbolStatistics BlockEncoder Stream StreamFacts
  RoundTripFacts EncodeFacts ReaderFacts Concurrency ConcurrencyFacts SinkFacts ParallelFacts BlockFacts PropertiesStream.

(** [s] is a state of the threads after [k] steps of some interleaving *)
Definition reached (p : profile) (st : strategy) (n : nat) (rd : reader) (w : writer) (k : nat) (s : cstate) : Prop :=
  crun (block_worker p st) k (cinit n rd w) s.
(** [encode_stream] has returned (or panicked) with outcome [r] and the sink is [w'] *)
Definition returned (s : cstate) (r : res unit * writer) : Prop :=
  c_pc s = MEnd (fst r) /\ bw_sink (en_bw (c_enc s)) = snd r.

(** ** C20 *)

(** Whatever the interleaving, reader, sink and thread count: if the call returns, then
    with the outcome and the bytes of the sequential encoder. *)
Theorem C20_schedule_independent : forall p st n rd w k s r, reader_bytes rd ->
  reached p st n rd w k s -> returned s r -> encode_returns p rd w n st r /\ fst r <> NoFuel.
Proof.
  intros p st n rd w k s [r w'] HB HR (E1 & E2). cbn [fst snd] in *. subst w'. apply run_ends with (k := k); auto.
Qed.
(** No deadlock: as long as the call has not returned some thread can move. *)
Theorem C20_no_deadlock : forall p st n rd w k s, reader_bytes rd -> reached p st n rd w k s ->
  (exists r, returned s r) \/ exists s', cstep (block_worker p st) s s'.
Proof.
  intros p st n rd w k s HB HR. destruct (@run_progress p st n k rd w s HB HR) as [(r & E)|H]; auto.
  left. exists (r, bw_sink (en_bw (c_enc s))). split; auto.
Qed.
(** Termination: with at least one thread and a reader that comes to an end, every
    interleaving has a bounded number of steps. *)
Theorem C20_terminates : forall p st n rd w, reader_bytes rd -> 1 <= n -> r_tail_fail rd = false ->
  exists bound, forall k s, reached p st n rd w k s -> k <= bound.
Proof.
  intros p st n rd w HB Hn HT. eexists. intros k s HR. eapply (@run_bounded p st n rd w); eauto.
Qed.
(** Together, for an input that arrives without errors: every interleaving ends, after a
    bounded number of steps, with one and the same outcome and output. *)
Lemma delivers_bytes rd data : delivers rd data -> bytes data -> reader_bytes rd.
Proof.
  intros (_ & _ & <-) HB. unfold reader_bytes. apply Forall_forall. intros [c| |] He; cbn [event_bytes]; auto.
  unfold bytes in *. rewrite Forall_forall in *. intros x Hx. apply HB. apply in_flat_map. eauto.
Qed.
Theorem C20_every_interleaving : forall data p st n rd w, bytes data -> 1 <= n -> delivers rd data ->
  exists r bound, encode_returns p rd w n st r /\
    forall k s, reached p st n rd w k s ->
      k <= bound /\ (forall r', returned s r' -> r' = r) /\
      (returned s r \/ exists s', cstep (block_worker p st) s s').
Proof.
  intros data p st n rd w HB Hn HD. pose proof (delivers_bytes HD HB) as HRB.
  destruct (C19_thread_count_independent st w HB) as (r & _ & HS). specialize (HS n Hn p rd HD).
  destruct (@C20_terminates p st n rd w HRB Hn (proj1 HD)) as (bound & HK).
  exists r, bound. split; auto. intros k s HR. split; [eauto|].
  assert (forall r', returned s r' -> r' = r) as HU.
  { intros r' H'. destruct (@C20_schedule_independent p st n rd w k s r' HRB HR H') as (H1 & _). eapply returns_det; eauto. }
  split; auto. destruct (@C20_no_deadlock p st n rd w k s HRB HR) as [(r' & H')|H]; auto.
  left. rewrite <- (HU r' H'). auto.
Qed.
(** two workers, two interleavings of the input "x" that both end *)
Example C20_case : exists rd k s r, delivers rd [120] /\ reached Checked Single 2 rd (good_sink []) k s /\ returned s r /\ fst r = Ok tt.
Proof.
  assert (delivers (mk_reader [RChunk [120]] false) [120]) as HD.
  { split; [reflexivity|]. split; [repeat constructor; discriminate|reflexivity]. }
  assert (bytes [120]) as HB by small_bytes.
  destruct (@run_exists Checked Single 2 (mk_reader [RChunk [120]] false) (good_sink []))
    as (k & s & r & HR & E); [apply (delivers_bytes HD HB)|lia|reflexivity|].
  exists (mk_reader [RChunk [120]] false), k, s, (r, bw_sink (en_bw (c_enc s))).
  split; auto. split; auto. split; [split; auto|]. cbn [fst].
  destruct (@run_ends Checked Single 2 k _ _ s r (delivers_bytes HD HB) HR E) as (H & _).
  destruct (C31_never_panics HB) as (out & _ & HC). specialize (HC Checked 2 ltac:(lia) _ HD).
  pose proof (returns_det H HC) as EQ. congruence.
Qed.
Print Assumptions C20_schedule_independent.
Print Assumptions C20_no_deadlock.
Print Assumptions C20_terminates.
Print Assumptions C20_every_interleaving.

(** ** C21: termination for every thread count *)

(** With no worker thread nothing is ever read: it runs forever, whatever the input. *)
Theorem C21_zero_threads_refuted : forall p st rd out, encode_runs_forever p rd (good_sink out) 0 st.
Proof.
  intros p st rd out fuel. unfold encode_stream.
  assert (exists e, write_or_panic file_header (mk_enc (bw_from_writer (good_sink out)) 0) = (Ok tt, e)) as (e & ->).
  { vm_compute. eauto. }
  assert (forall fuel rd e, encode_rounds fuel p 0 st rd e = (NoFuel, e)) as G.
  { clear. induction fuel as [|fuel IH]; intros rd e; cbn [encode_rounds read_round flush_round]; auto. }
  rewrite G. reflexivity.
Qed.
(** With at least one it returns, also if reads fail now and then, as long as the reader
    reaches an end of file. *)
Theorem C21_terminates_partial : forall p st n rd w, reader_bytes rd -> 1 <= n -> r_tail_fail rd = false ->
  exists r, fst r <> NoFuel /\ encode_returns p rd w n st r.
Proof.
  intros p st n rd w HB Hn HT. destruct (@run_exists p st n rd w HB Hn HT) as (k & s & r & HR & E).
  destruct (@run_ends p st n k rd w s r HB HR E) as (H & HN). exists (r, bw_sink (en_bw (c_enc s))). auto.
Qed.
Example C21_case : reader_bytes (mk_reader [RChunk [1; 2]; RFail; RChunk []; RInterrupted; RChunk [3]] false).
Proof. repeat constructor; cbn [event_bytes]; unfold bytes, is_byte; repeat constructor; lia. Qed.
Print Assumptions C21_zero_threads_refuted.
Print Assumptions C21_terminates_partial.

(** ** C55: blocks in flight *)

(** In every state of every interleaving there are as many workers as asked for, and each
    holds at most one block: waiting, being encoded, or encoded and not yet fetched; the
    blocks waiting or being encoded have at most 900005 bytes.  So the main thread never
    reads further ahead than one block per thread. *)
Theorem C55_in_flight : forall p st n rd w k s, reader_bytes rd -> reached p st n rd w k s ->
  length (c_workers s) = n /\ Forall (fun x => held x <= 1) (c_workers s) /\ list_sum (map held (c_workers s)) <= n /\
  forall x item, In x (c_workers s) -> In item (wk_queue x) \/ wk_busy x = Some item -> (N.of_nat (length (snd item)) <= 900005)%N.
Proof.
  intros p st n rd w k s HB HR. destruct (@run_held p st n k rd w s HB HR) as (A & B & C & _).
  split; auto. split; auto. split.
  - rewrite <- A. clear - B. induction B as [|x l Hx HF IH]; cbn [map list_sum fold_right length]; [auto|]. unfold list_sum in IH. lia.
  - intros x item Hx HI. rewrite Forall_forall in C. specialize (C x Hx). rewrite Forall_forall in C. apply C.
    apply in_or_app. destruct HI as [HI|HI]; [auto|right]. rewrite HI. left. reflexivity.
Qed.
(** After a normal return nothing is left anywhere. *)
Theorem C55_nothing_left : forall p st n rd w k s w', reader_bytes rd -> reached p st n rd w k s -> returned s (Ok tt, w') ->
  Forall (fun x => wk_queue x = [] /\ wk_busy x = None /\ wk_results x = []) (c_workers s).
Proof.
  intros p st n rd w k s w' HB HR (E & _). destruct (@run_held p st n k rd w s HB HR) as (_ & _ & _ & D).
  eapply Forall_impl; [|apply D; exact E]. intros [q b r d]. unfold held. cbn [wk_queue wk_busy wk_results].
  destruct q, b, r; cbn [length]; auto; lia.
Qed.
Example C55_case : exists s, reached Checked Single 2 (mk_reader [RChunk [120]] false) (good_sink []) 2 s /\
  map held (c_workers s) = [1; 0] /\ exists s', reached Checked Single 2 (mk_reader [RChunk [120]] false) (good_sink []) 3 s'.
Proof.
  eexists. split; [|split].
  - eapply crun_cons; [left; vm_compute; reflexivity|]. eapply crun_cons; [|apply crun_nil].
    right. exists 0, false. split; [discriminate|]. vm_compute. reflexivity.
  - reflexivity.
  - eexists. eapply crun_cons; [left; vm_compute; reflexivity|]. eapply crun_cons; [left; vm_compute; reflexivity|].
    eapply crun_cons; [|apply crun_nil]. right. exists 0, false. split; [discriminate|]. vm_compute. reflexivity.
Qed.
Print Assumptions C55_in_flight.
Print Assumptions C55_nothing_left.

(** ** C56: no thread is left behind *)

(** When nothing can move any more the call has returned (or panicked) and every worker
    thread has ended; together with C20_terminates: every interleaving comes to this
    point after a bounded number of steps, if the reader comes to an end. *)
Theorem C56_threads_end : forall p st n rd w k s, reader_bytes rd -> reached p st n rd w k s ->
  (forall s', ~ cstep (block_worker p st) s s') ->
  (exists r, returned s r) /\ length (c_workers s) = n /\ Forall (fun x => wk_dead x = true) (c_workers s).
Proof.
  intros p st n rd w k s HB HR HN. destruct (@run_stuck p st n k rd w s HB HR HN) as ((r & E) & D).
  split; [exists (r, bw_sink (en_bw (c_enc s))); split; auto|]. split; auto. apply (@run_held p st n k rd w s HB HR).
Qed.
(** Such a point is reached from every state. *)
Theorem C56_can_finish : forall p st n rd w k s, reader_bytes rd -> 1 <= n -> r_tail_fail rd = false -> reached p st n rd w k s ->
  exists k' s', crun (block_worker p st) k' s s' /\ (exists r, returned s' r) /\ Forall (fun x => wk_dead x = true) (c_workers s').
Proof.
  intros p st n rd w k s HB Hn HT HR. destruct (@C20_terminates p st n rd w HB Hn HT) as (bound & HK).
  assert (forall m k s, reached p st n rd w k s -> bound <= k + m ->
    exists k' s', crun (block_worker p st) k' s s' /\ (exists r, returned s' r) /\ Forall (fun x => wk_dead x = true) (c_workers s')) as G.
  { clear k s HR. induction m as [|m IH]; intros k s HR HM.
    - exists 0, s. split; [constructor|]. destruct (@C56_threads_end p st n rd w k s HB HR) as (A & _ & C); auto.
      intros s' E. assert (reached p st n rd w (k + 1) s') as HR'.
      { eapply run_app; [exact HR|]. econstructor; [exact E|constructor]. }
      apply HK in HR'. lia.
    - destruct (@run_progress p st n k rd w s HB HR) as [(r & ER)|(s' & E)].
      + destruct (forallb (fun x => wk_dead x) (c_workers s)) eqn:ED.
        * exists 0, s. split; [constructor|]. split; [exists (r, bw_sink (en_bw (c_enc s))); split; auto|].
          apply Forall_forall. rewrite forallb_forall in ED. exact ED.
        * assert (exists s', cstep (block_worker p st) s s') as (s' & E).
          { apply (@run_moves p st n k rd w s HB HR). intros HF. rewrite <- Bool.not_true_iff_false in ED. apply ED.
            apply forallb_forall. rewrite Forall_forall in HF. exact HF. }
          destruct (IH (k + 1) s') as (k' & s2 & A & B); [|lia|].
          { eapply run_app; [exact HR|]. econstructor; [exact E|constructor]. }
          exists (S k'), s2. split; auto. econstructor; eauto.
      + destruct (IH (k + 1) s') as (k' & s2 & A & B); [|lia|].
        { eapply run_app; [exact HR|]. econstructor; [exact E|constructor]. }
        exists (S k'), s2. split; auto. econstructor; eauto. }
  apply (G bound k s HR). lia.
Qed.
Example C56_case : reader_bytes (mk_reader [RChunk [120]] false) /\
  reached Checked Single 2 (mk_reader [RChunk [120]] false) (good_sink []) 0 (cinit 2 (mk_reader [RChunk [120]] false) (good_sink [])).
Proof. split; [|constructor]. repeat constructor; cbn [event_bytes]. Qed.
Print Assumptions C56_threads_end.
Print Assumptions C56_can_finish.

(** ** C54: the end of the input *)

(** A reader may report the end of the file and later deliver more (a file that grows, a
    terminal).  Compression does not stop at the first such report: here the byte after it
    is part of the output. *)
Theorem C54_end_of_file_refuted : exists out, (forall p n, 1 <= n -> compressed p n Single [97; 98] out) /\
  forall p n, 1 <= n ->
    encode_returns p (mk_reader [RChunk [97]; RChunk []; RChunk [98]] false) (good_sink []) n Single (Ok tt, good_sink out).
Proof.
  destruct (@C31_never_panics [97; 98]) as (out & _ & H); [small_bytes|]. exists out. split; [exact H|].
  intros p n Hn. assert (delivers (mk_reader [RChunk [97; 98]] false) [97; 98]) as HD.
  { split; [reflexivity|]. split; [repeat constructor; discriminate|reflexivity]. }
  destruct (H p n Hn _ HD) as (enough & HE). exists enough. intros fuel Hf. rewrite <- (HE fuel Hf).
  unfold encode_stream. destruct (write_or_panic file_header _) as [[u| | |] e]; auto.
  assert (encode_rounds fuel p n Single (mk_reader [RChunk [97]; RChunk []; RChunk [98]] false) e =
          encode_rounds fuel p n Single (mk_reader [RChunk [97; 98]] false) e) as ->; [|reflexivity].
  destruct fuel as [|fuel]; [reflexivity|]. cbn [encode_rounds]. destruct n as [|n]; [lia|]. reflexivity.
Qed.
(** Where it stops depends on the number of threads: after a report that ends the input
    for one thread, the next thread asks again. *)
Theorem C54_thread_dependent_refuted : exists rd out1 out2, out1 <> out2 /\
  (forall p, encode_returns p rd (good_sink []) 1 Single (Ok tt, good_sink out1)) /\
  (forall p n, 2 <= n -> encode_returns p rd (good_sink []) n Single (Ok tt, good_sink out2)) /\
  forall p, decompressed p out1 [97] /\ decompressed p out2 [97; 98].
Proof.
  exists (mk_reader [RChunk [97]; RChunk []; RChunk []; RChunk [98]] false).
  exists (w_out (snd (seq_encode Wrapping Single [[97]] (good_sink [])))).
  exists (w_out (snd (seq_encode Wrapping Single [[97]; [98]] (good_sink [])))).
  split; [vm_compute; discriminate|]. split; [|split].
  - intros p. exists 1. intros fuel Hf. destruct fuel as [|fuel]; [lia|]. destruct p; vm_compute; reflexivity.
  - intros p n Hn. exists 1. intros fuel Hf. destruct fuel as [|fuel]; [lia|]. destruct n as [|[|n]]; try lia.
    assert (read_round (S (S n)) (mk_reader [RChunk [97]; RChunk []; RChunk []; RChunk [98]] false) =
            read_round 2 (mk_reader [RChunk [97]; RChunk []; RChunk []; RChunk [98]] false)) as E by (destruct n; vm_compute; reflexivity).
    assert (encode_stream (S fuel) p (mk_reader [RChunk [97]; RChunk []; RChunk []; RChunk [98]] false) (good_sink []) (S (S n)) Single =
            encode_stream (S fuel) p (mk_reader [RChunk [97]; RChunk []; RChunk []; RChunk [98]] false) (good_sink []) 2 Single) as ->.
    { unfold encode_stream. destruct (write_or_panic file_header _) as [[u| | |] e]; auto. cbn [encode_rounds]. rewrite E.
      assert (exists ws rd', read_round 2 (mk_reader [RChunk [97]; RChunk []; RChunk []; RChunk [98]] false) = Ok (ws, true, rd')) as (ws & rd' & ->)
        by (vm_compute; eauto).
      reflexivity. }
    destruct p; vm_compute; reflexivity.
  - intros p. split; destruct p; vm_compute; reflexivity.
Qed.
Print Assumptions C54_end_of_file_refuted.
Print Assumptions C54_thread_dependent_refuted.

(** ** C23: failing reads *)

(** The bytes that arrived before a failing read (in the same request) are dropped, and
    the call returns as if they had never been there: the output is that of the rest. *)
Lemma failed_read lost rest tail : (0 < N.of_nat (length lost) < 720000)%N ->
  fill_block (mk_reader (RChunk lost :: RFail :: rest) tail) = Ok (fill_init, mk_reader rest tail).
Proof.
  intros HL. unfold fill_block. cbn [fill_loop fill_init fl_total].
  change (N.of_nat 0 <? RLE_LIMIT)%N with true. cbn iota.
  change (to_take (length (fl_rle fill_init))) with (Ok 720000%N). cbn [bind].
  unfold take_read_to_end. cbn [r_events r_tail_fail take_events].
  change (720000 =? 0)%N with false. cbn iota.
  destruct lost as [|x lost]; [cbn [length] in HL; lia|].
  replace (N.of_nat (length (x :: lost)) <=? 720000)%N with true by (symmetry; apply N.leb_le; lia).
  replace (720000 - N.of_nat (length (x :: lost)) =? 0)%N with false by (symmetry; apply N.eqb_neq; lia). reflexivity.
Qed.
Theorem C23_lost_bytes_refuted : forall p st n w lost rest tail r, 1 <= n -> (0 < N.of_nat (length lost) < 720000)%N ->
  encode_returns p (mk_reader rest tail) w n st r ->
  encode_returns p (mk_reader (RChunk lost :: RFail :: rest) tail) w n st r.
Proof.
  intros p st n w lost rest tail r Hn HL (enough & H). exists (S enough). intros fuel Hf. destruct fuel as [|fuel]; [lia|].
  rewrite <- (H fuel ltac:(lia)). unfold encode_stream.
  destruct (write_or_panic file_header _) as [[u| | |] e]; auto.
  assert (encode_rounds (S fuel) p n st (mk_reader (RChunk lost :: RFail :: rest) tail) e =
          encode_rounds fuel p n st (mk_reader rest tail) e) as ->; [|reflexivity].
  cbn [encode_rounds]. destruct n as [|n]; [lia|]. cbn [read_round]. rewrite failed_read by auto.
  cbn [bind fill_init fl_buf fl_finalize flush_round]. reflexivity.
Qed.
(** so "ab", an error, "c" is compressed, with a normal return, to the stream of "c" *)
Theorem C23_example_refuted : exists out,
  (forall p n, 1 <= n -> encode_returns p (mk_reader [RChunk [97; 98]; RFail; RChunk [99]] false) (good_sink []) n Single (Ok tt, good_sink out)) /\
  forall p n, 1 <= n -> compressed p n Single [99] out.
Proof.
  destruct (@C31_never_panics [99]) as (out & _ & H); [small_bytes|]. exists out. split; auto.
  intros p n Hn. apply C23_lost_bytes_refuted; [auto|cbn; lia|]. apply H; auto.
  split; [reflexivity|]. split; [repeat constructor; discriminate|reflexivity].
Qed.
(** An error that does not go away is retried forever. *)
Theorem C23_retries_forever_refuted : forall p st n out, encode_runs_forever p (mk_reader [] true) (good_sink out) n st.
Proof.
  intros p st n out fuel. unfold encode_stream.
  assert (exists e, write_or_panic file_header (mk_enc (bw_from_writer (good_sink out)) 0) = (Ok tt, e)) as (e & ->).
  { vm_compute. eauto. }
  assert (forall fuel e, encode_rounds fuel p n st (mk_reader [] true) e = (NoFuel, e)) as G.
  { clear. induction fuel as [|fuel IH]; intros e; cbn [encode_rounds]; auto.
    destruct n as [|n]; [cbn [read_round flush_round]; auto|]. cbn [read_round].
    change (fill_block (mk_reader [] true)) with (Ok (fill_init, mk_reader [] true)). cbn [bind fill_init fl_buf fl_finalize flush_round]. auto. }
  rewrite G. reflexivity.
Qed.
(** What holds: if the reader never signals an end of file and then keeps failing, the
    call never returns normally. *)
Definition no_eof (rd : reader) : Prop := Forall (fun e => e <> RChunk []) (r_events rd) /\ r_tail_fail rd = true.
Lemma take_no_eof events : Forall (fun e => e <> RChunk []) events -> forall limit acc r events',
  take_events limit events true acc = (r, events') ->
  Forall (fun e => e <> RChunk []) events' /\ (r = Err \/ exists l, r = Ok (acc ++ l) /\ ((1 <= limit)%N -> l <> [])).
Proof.
  induction 1 as [|e events He HF IH]; intros limit acc r events' E; cbn [take_events] in E;
    destruct (N.eqb_spec limit 0) as [Hz|Hz].
  - injection E as <- <-. split; auto. right. exists []. rewrite app_nil_r. split; auto. lia.
  - injection E as <- <-. auto.
  - injection E as <- <-. split; auto. right. exists []. rewrite app_nil_r. split; auto. lia.
  - destruct e as [[|x bs]| |]; [congruence| | |apply IH in E; auto].
    + destruct (N.leb_spec (N.of_nat (length (x :: bs))) limit) as [Hle|Hgt].
      * apply IH in E as (A & [->|(l & -> & _)]); split; auto. right. exists ((x :: bs) ++ l). rewrite app_assoc. split; auto. discriminate.
      * injection E as <- <-. split.
        -- constructor; auto. intros E. assert (length (skipn (N.to_nat limit) (x :: bs)) = 0) as L by (injection E as ->; auto).
           rewrite skipn_length in L. lia.
        -- right. exists (firstn (N.to_nat limit) (x :: bs)). split; auto. intros _ E.
           assert (length (firstn (N.to_nat limit) (x :: bs)) = 0) as L by (rewrite E; auto).
           rewrite firstn_length in L. lia.
    + injection E as <- <-. auto.
Qed.
Lemma fill_no_eof fuel : forall rd b f rd', no_eof rd -> fill_loop fuel rd (fill_of b false) = Ok (f, rd') ->
  no_eof rd' /\ fl_finalize f = false.
Proof.
  induction fuel as [|fuel IH]; intros rd b f rd' (HN & HT) E; cbn [fill_loop] in E; cbn [fill_of fl_total] in E;
    destruct (N.ltb_spec (N.of_nat (length (coded b))) RLE_LIMIT) as [Hlt|Hge]; try discriminate;
    try (injection E as <- <-; split; [split; auto|reflexivity]).
  destruct (to_take_ok b Hlt) as (ET & HR). unfold fill_of at 1 in E. cbn [fl_rle] in E. rewrite ET in E. cbn [bind] in E.
  unfold take_read_to_end in E. rewrite HT in E. destruct (take_events (request b) (r_events rd) true []) as [r ev] eqn:EE.
  destruct (@take_no_eof _ HN _ _ _ _ EE) as (A & [->|(l & -> & B)]).
  - injection E as <- <-. split; [split; auto|reflexivity].
  - specialize (B HR). cbn [app] in E. destruct l as [|x l]; [congruence|].
    apply (IH (mk_reader ev true) (b ++ x :: l)); [split; auto|]. rewrite <- E. f_equal.
    rewrite fill_step. cbv zeta. cbn [fill_of fl_buf fl_rle fl_count fl_last fl_finalize]. reflexivity.
Qed.
Lemma round_no_eof n : forall rd ws fin rd', no_eof rd -> read_round n rd = Ok (ws, fin, rd') -> fin = false /\ no_eof rd'.
Proof.
  induction n as [|n IH]; intros rd ws fin rd' HN E; cbn [read_round] in E.
  - injection E as _ <- <-. auto.
  - destruct (fill_block rd) as [[f rd1]| | |] eqn:EF; try discriminate. cbn [bind] in E.
    destruct (@fill_no_eof _ _ [] _ _ HN EF) as (H1 & H2).
    destruct (fl_buf f); [injection E as _ <- <-; auto|].
    destruct (read_round n rd1) as [[[ws2 fin2] rd2]| | |] eqn:ER; try discriminate. cbn [bind] in E. injection E as _ <- <-.
    destruct (IH _ _ _ _ H1 ER) as (-> & H3). rewrite H2. auto.
Qed.
Theorem C23_no_normal_return_partial : forall p st n rd w fuel, no_eof rd -> fst (encode_stream fuel p rd w n st) <> Ok tt.
Proof.
  intros p st n rd w fuel HN. unfold encode_stream.
  destruct (write_or_panic file_header _) as [[u| | |] e]; cbn [fst]; try discriminate.
  assert (forall fuel rd e u e', no_eof rd -> encode_rounds fuel p n st rd e <> (Ok u, e')) as G.
  { clear. induction fuel as [|fuel IH]; intros rd e u e' HN; cbn [encode_rounds]; try discriminate.
    destruct (read_round n rd) as [[[ws fin] rd']| | |] eqn:ER; try discriminate.
    destruct (round_no_eof _ HN ER) as (-> & HN'). destruct (flush_round p st ws e) as [[u1| | |] e1]; try discriminate. auto. }
  specialize (G fuel rd e). destruct (encode_rounds fuel p n st rd e) as [[u2| | |] e2]; cbn [fst]; try discriminate.
  exfalso. apply (G u2 e2 HN). reflexivity.
Qed.
Example C23_case : no_eof (mk_reader [RChunk [1; 2]; RFail; RChunk [3]] true).
Proof. split; [repeat constructor; discriminate|reflexivity]. Qed.
Print Assumptions C23_lost_bytes_refuted.
Print Assumptions C23_example_refuted.
Print Assumptions C23_retries_forever_refuted.
Print Assumptions C23_no_normal_return_partial.

(** ** C24: failing and short writes *)

(** A write that accepts nothing (the answer [Ok(0)]) goes unnoticed: normal return, the
    first byte is missing. *)
Theorem C24_short_write_refuted : forall p st n rd, 1 <= n -> delivers rd [] ->
  encode_returns p rd (mk_writer [WAccept 0] []) n st (Ok tt, good_sink (tl empty_stream)).
Proof.
  intros p st n rd Hn HD.
  assert (seq_encode p st [] (mk_writer [WAccept 0] []) = (Ok tt, good_sink (tl empty_stream))) as <-.
  { destruct p; vm_compute; reflexivity. }
  eapply returns_seq; eauto. constructor.
Qed.
(** What holds: a normal return means that no call failed; and if no call accepted
    nothing, the sink has received everything a sink without any trouble would have. *)
Theorem C24_write_errors_partial : forall p st n rd script out w', 
  encode_returns p rd (mk_writer script out) n st (Ok tt, w') ->
  exists answers, script = answers ++ w_script w' /\ ~ In WFail answers /\
    (~ In (WAccept 0) answers -> encode_returns p rd (good_sink out) n st (Ok tt, good_sink (w_out w'))).
Proof.
  intros p st n rd script out w' (enough & H).
  destruct (@encode_calls enough p rd (mk_writer script out) n st tt w' (H enough (le_n _))) as (used & A & B & C & _).
  exists used. cbn [w_script] in A. split; auto. split; auto. intros H0. exists enough. intros fuel Hf.
  destruct (@encode_calls fuel p rd (mk_writer script out) n st tt w' (H fuel Hf)) as (used2 & A2 & B2 & C2 & _).
  cbn [w_script] in A2. rewrite A in A2. apply app_inv_tail in A2. subst used2. apply C2. auto.
Qed.
(** A failing call ends in a panic. *)
Theorem C24_failure_panics : forall p st n rd script out r,
  encode_returns p rd (mk_writer (WFail :: script) out) n st r -> fst r = Panic.
Proof.
  intros p st n rd script out r (enough & H). rewrite <- (H enough (le_n _)). unfold encode_stream.
  assert (exists e, write_or_panic file_header (mk_enc (bw_from_writer (mk_writer (WFail :: script) out)) 0) = (Panic, e)) as (e & ->).
  { vm_compute. eauto. }
  reflexivity.
Qed.
Example C24_case : exists rd w', delivers rd [] /\
  encode_returns Checked rd (mk_writer [WAccept 1; WAccept 3; WAccept 7] []) 1 Single (Ok tt, w') /\ w_out w' = empty_stream.
Proof.
  destruct (delivers_exists []) as (rd & HD). exists rd. eexists. split; [exact HD|]. split.
  - assert (seq_encode Checked Single [] (mk_writer [WAccept 1; WAccept 3; WAccept 7] []) = (Ok tt, good_sink empty_stream)) as E by (vm_compute; reflexivity).
    rewrite <- E. eapply returns_seq; [exact HD|constructor|lia].
  - reflexivity.
Qed.
Print Assumptions C24_short_write_refuted.
Print Assumptions C24_write_errors_partial.
Print Assumptions C24_failure_panics.

(** ** C61: the workers encode in parallel *)

(** If the input falls into [length ps] blocks, some interleaving has the first
    [min n (length ps)] of them being encoded at the same time, by different threads. *)
Theorem C61_parallel : forall p st n data ps rd out, bytes out -> delivers rd data -> cuts data ps ->
  exists k s, reached p st n rd (good_sink out) k s /\ length (c_workers s) = n /\
    length (filter (fun x => match wk_busy x with Some _ => true | None => false end) (c_workers s)) = Nat.min n (length ps).
Proof.
  intros p st n data ps rd out HO HD HC.
  assert (length (firstn n ps) = Nat.min n (length ps)) as EL by apply firstn_length.
  rewrite <- (firstn_skipn n ps) in HC.
  destruct (@some_busy p st n data (firstn n ps) (skipn n ps) rd out HD HC) as (k & s & R & E); [lia|auto|].
  exists k, s. split; auto. rewrite E. rewrite app_length, map_length, repeat_length. split; [lia|].
  rewrite filter_app, app_length, <- EL.
  replace (length (filter _ (repeat worker_init _))) with 0.
  - rewrite Nat.add_0_r. clear. induction (firstn n ps) as [|q l IH]; cbn [map filter busy wk_busy length]; auto.
  - symmetry. clear. induction (n - length (firstn n ps)) as [|m IH]; cbn [repeat filter worker_init wk_busy]; auto.
Qed.
(** In particular every worker is busy at once if there are 230 MB of input per thread
    (usually 0.9 MB are enough; more only for long runs of equal bytes). *)
Theorem C61_all_busy : forall p st n data rd out, bytes data -> bytes out -> delivers rd data ->
  (230000000 * N.of_nat n <= N.of_nat (length data))%N ->
  exists k s, reached p st n rd (good_sink out) k s /\ length (c_workers s) = n /\ Forall (fun x => wk_busy x <> None) (c_workers s).
Proof.
  intros p st n data rd out HB HO HD HL. destruct (cuts_exists data) as (ps & HC).
  pose proof (@many_pieces data ps n HB HC HL) as HN.
  assert (length (firstn n ps) = n) as EL by (rewrite firstn_length; lia).
  rewrite <- (firstn_skipn n ps) in HC.
  destruct (@some_busy p st n data (firstn n ps) (skipn n ps) rd out HD HC) as (k & s & R & E); [lia|auto|].
  rewrite EL, Nat.sub_diag in E. cbn [repeat] in E. rewrite app_nil_r in E.
  exists k, s. split; auto. rewrite E, map_length. split; auto.
  apply Forall_forall. intros x Hx. apply in_map_iff in Hx as (q & <- & _). discriminate.
Qed.
(** But a worker that is done does not get the next block before the others of its round
    are done too: with two or more threads and enough input there is a moment when the
    main thread is blocked, a worker holds nothing at all, and input is left to be read. *)
Theorem C61_no_idle_worker_refuted : forall p n data rd out, bytes data -> bytes out -> delivers rd data -> 2 <= n ->
  (230000000 * (N.of_nat n + 1) <= N.of_nat (length data))%N ->
  exists k s rest x, reached p Single n rd (good_sink out) k s /\ main_step s = None /\
    delivers (c_rd s) rest /\ rest <> [] /\ In x (c_workers s) /\ held x = 0 /\ wk_dead x = false.
Proof.
  intros p n data rd out HB HO HD Hn HL. destruct (cuts_exists data) as (ps & HC).
  assert (S n <= length ps) as HN by (apply (@many_pieces data ps (S n) HB HC); lia).
  pose proof (single_encodable HB HC) as HS. destruct (cuts_pieces HC) as (EC & HNE & HLE).
  assert (length (firstn n ps) = n) as EL by (rewrite firstn_length; lia).
  assert (skipn n ps <> []) as HSK by (intros E0; pose proof (skipn_length n ps) as H0; rewrite E0 in H0; cbn [length] in H0; lia).
  rewrite <- (firstn_skipn n ps) in HC.
  destruct ps as [|q1 ps]; [cbn in HN; lia|]. apply Forall_cons_iff in HS as ((b & EB & _) & _).
  apply Forall_cons_iff in HNE as (N1 & _). apply Forall_cons_iff in HLE as (L1 & _).
  assert (bytes q1) as B1 by (cbn [concat] in EC; rewrite <- EC in HB; apply Forall_app in HB; tauto).
  assert (block_worker p Single (piece_work q1) = Ok (block_bits (crc32 q1) b, crc32 q1)) as EG.
  { unfold block_worker, piece_work. cbn [fst snd]. rewrite (@block_profile p Wrapping); auto;
      [apply coded_bytes; auto|apply coded_nonempty; auto|unfold RLE_LIMIT in *; lia]. }
  destruct n as [|[|n]]; [lia|lia|]. destruct ps as [|q2 ps]; [cbn in HN; lia|]. cbn [firstn] in HC, EL.
  destruct (@idle_worker _ _ _ _ _ _ _ _ _ _ _ HD HC EL HO EG) as (k & rd' & rest & fin & pend & e & HD' & HC' & R & M).
  eexists k, _, rest, worker_init. split; [exact R|]. split; [exact M|]. split; [exact HD'|]. split.
  - intros ->. apply HSK. destruct (cuts_pieces HC') as (E3 & H3 & _). destruct (skipn (S (S n)) (q1 :: q2 :: ps)) as [|q l]; [auto|].
    apply Forall_cons_iff in H3 as (H3 & _). cbn [concat] in E3. destruct q; [congruence|discriminate E3].
  - cbn [c_workers]. split; [left; reflexivity|]. split; reflexivity.
Qed.
Example C61_case : exists data, bytes data /\ (230000000 * (2 + 1) <= N.of_nat (length data))%N /\ exists rd, delivers rd data.
Proof.
  exists (repeat 120 (3 * N.to_nat 230000000)). split.
  - apply Forall_forall. intros x Hx. apply repeat_spec in Hx. subst. unfold is_byte. lia.
  - split; [rewrite repeat_length; lia|]. exists (mk_reader [RChunk (repeat 120 (3 * N.to_nat 230000000))] false).
    split; [reflexivity|]. split; [|cbn [r_events flat_map]; apply app_nil_r].
    apply Forall_cons; [|constructor]. intros E. apply (f_equal (fun l => N.of_nat (length l))) in E. rewrite repeat_length in E. cbn [length] in E. lia.
Qed.
Print Assumptions C61_parallel.
Print Assumptions C61_all_busy.
Print Assumptions C61_no_idle_worker_refuted.

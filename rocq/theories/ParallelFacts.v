(** * How many workers encode at the same time *)
From Verif Require Import Base BaseFacts Bitwise BitwiseFacts SpecRle Rle RleFacts SpecStream Crc32 SymbolStatistics BlockEncoder Stream StreamFacts
  RoundTripFacts EncodeFacts ReaderFacts Concurrency ConcurrencyFacts.

Lemma expand_len l : bytes l -> forall last run, length (rle1_expand_from last run l) <= 255 * length l.
Proof.
  induction 1 as [|x l Hx HF IH]; intros last run; cbn [rle1_expand_from length]; [lia|]. unfold is_byte in Hx.
  destruct (run =? 4).
  - rewrite app_length, repeat_length. specialize (IH 0 0). lia.
  - destruct (_ && _); cbn [length]; [specialize (IH x (S run))|specialize (IH x 1)]; lia.
Qed.
Lemma piece_len q : bytes q -> (N.of_nat (length (coded q)) <= RLE_LIMIT + 5)%N -> (N.of_nat (length q) < 230000000)%N.
Proof.
  intros HB HL. pose proof (@rle_lossless q) as E. change (rle1_expand (aug (rle_state q)) = q) in E. rewrite <- coded_aug in E. unfold rle1_expand in E.
  pose proof (@expand_len (coded q) (coded_bytes HB) 0 0) as H. rewrite E in H. unfold RLE_LIMIT in HL. lia.
Qed.
Lemma many_pieces data ps n : bytes data -> cuts data ps -> (230000000 * N.of_nat n <= N.of_nat (length data))%N -> n <= length ps.
Proof.
  intros HB HC HL. destruct (cuts_pieces HC) as (EC & _ & HF).
  assert (Forall bytes ps) as HBP by (apply Forall_concat; rewrite EC; auto).
  assert (N.of_nat (length (concat ps)) <= 230000000 * N.of_nat (length ps))%N as H.
  { clear - HF HBP. induction ps as [|q ps IH]; [cbn; lia|]. cbn [concat length]. rewrite app_length.
    apply Forall_cons_iff in HF as (H1 & H2). apply Forall_cons_iff in HBP as (H3 & H4). specialize (IH H2 H4).
    pose proof (piece_len H3 H1). lia. }
  rewrite EC in H. lia.
Qed.

Section Parallel.
  Variables (p : profile) (st : strategy).
  Notation gen := (block_worker p st).
  Definition queued (q : list nat) : worker := mk_worker [piece_work q] None [] false.
  Definition busy (q : list nat) : worker := mk_worker [] (Some (piece_work q)) [] false.

  (** the main thread hands out the first pieces *)
  Lemma fill_steps ps1 : forall n done rd data ps2 e fin, delivers rd data -> cuts data (ps1 ++ ps2) -> length ps1 <= n ->
    exists k rd' rest fin', delivers rd' rest /\ cuts rest ps2 /\
      crun gen k
        (mk_c (MFill (length done)) rd fin (repeat true (length done) ++ repeat false n) e (map queued done ++ repeat worker_init n))
        (mk_c (MFill (length done + length ps1)) rd' fin' (repeat true (length done + length ps1) ++ repeat false (n - length ps1)) e
           (map queued (done ++ ps1) ++ repeat worker_init (n - length ps1))).
  Proof.
    induction ps1 as [|q ps1 IH]; intros n done rd data ps2 e fin HD HC Hn.
    - exists 0, rd, data, fin. rewrite app_nil_r, Nat.add_0_r, Nat.sub_0_r. split; auto. split; auto. constructor.
    - cbn [length] in Hn. destruct n as [|n]; [lia|].
      inversion HC as [|data' piece rest f ps Hne EC HC' E1 E2]; subst.
      destruct (fill_block_cut HD) as (rd' & EF & HD'). rewrite EC in EF, HD'. cbn [fst snd] in EF, HD'.
      destruct (cut_spec _ EC) as (_ & _ & _ & Hq). specialize (Hq Hne).
      destruct (IH n (done ++ [q]) rd' rest ps2 e (fin || f) HD' HC' ltac:(lia)) as (k & rd2 & rest2 & fin2 & D2 & C2 & R2).
      exists (S k), rd2, rest2, fin2. split; auto. split; auto.
      rewrite app_length in R2. cbn [length] in *. rewrite <- app_assoc in R2. cbn [app] in R2.
      replace (length done + S (length ps1)) with (length done + 1 + length ps1) by lia. 
      replace (S n - S (length ps1)) with (n - length ps1) by lia.
      eapply crun_cons; [|exact R2]. left. unfold main_step. cbn [c_pc c_workers c_rd].
      cbn [repeat]. rewrite nth_mid by (rewrite map_length; auto). rewrite EF. unfold fill_of at 1. cbn [fl_buf].
      destruct q as [|x q]; [congruence|]. cbn [wk_dead worker_init c_pending].
      rewrite !update_mid by (rewrite ?repeat_length, ?map_length; auto).
      cbn [wk_queue wk_busy wk_results app]. rewrite work_of_piece. cbn [c_fin c_enc].
      f_equal. rewrite Nat.add_1_r. f_equal.
      + rewrite <- (Nat.add_1_r (length done)), repeat_app, <- app_assoc. reflexivity.
      + rewrite map_app, <- app_assoc. reflexivity.
  Qed.
  (** the workers start *)
  Lemma busy_steps ps : forall done rest pc rd fin pend e,
    crun gen (length ps) (mk_c pc rd fin pend e (map busy done ++ map queued ps ++ rest))
      (mk_c pc rd fin pend e (map busy (done ++ ps) ++ rest)).
  Proof.
    induction ps as [|q ps IH]; intros done rest pc rd fin pend e.
    - rewrite app_nil_r. constructor.
    - cbn [length]. eapply crun_cons.
      + right. exists (length done), false. split; [discriminate|]. unfold worker_step. cbn [c_workers map app].
        rewrite nth_mid by (rewrite map_length; auto). cbn [worker_action queued wk_dead wk_busy wk_queue wk_results].
        rewrite update_mid by (rewrite map_length; auto). reflexivity.
      + specialize (IH (done ++ [q]) rest pc rd fin pend e). rewrite map_app in IH. rewrite <- !app_assoc in IH. exact IH.
  Qed.

  (** as many workers as there are pieces encode at the same time *)
  Lemma some_busy n data ps1 ps2 rd out : delivers rd data -> cuts data (ps1 ++ ps2) -> length ps1 <= n -> bytes out ->
    exists k s, crun gen k (cinit n rd (good_sink out)) s /\ c_workers s = map busy ps1 ++ repeat worker_init (n - length ps1).
  Proof.
    intros HD HC Hn HO. unfold cinit.
    assert (enc_ok (mk_enc (bw_from_writer (good_sink out)) 0)) as HE0 by (split; [split; [reflexivity|cbn; lia]|exact HO]).
    destruct (write_or_panic_ok file_header HE0) as (e & -> & HE & _).
    destruct (@fill_steps ps1 n [] rd data ps2 e false HD HC Hn) as (k & rd' & rest & fin & HD' & HC' & R).
    exists (k + length ps1). eexists. split; [eapply run_app; [exact R|]|].
    - cbn [length app map]. exact (@busy_steps ps1 [] (repeat worker_init (n - length ps1)) _ rd' fin _ e).
    - reflexivity.
  Qed.
  (** all [n] workers encode at the same time *)
  Lemma all_busy n data ps1 ps2 rd out : delivers rd data -> cuts data (ps1 ++ ps2) -> length ps1 = n -> bytes out ->
    exists k rd' rest fin e, delivers rd' rest /\ cuts rest ps2 /\ enc_ok e /\
      crun gen k (cinit n rd (good_sink out)) (mk_c (MFill n) rd' fin (repeat true n) e (map busy ps1)).
  Proof.
    intros HD HC Hn HO. unfold cinit.
    assert (enc_ok (mk_enc (bw_from_writer (good_sink out)) 0)) as HE0 by (split; [split; [reflexivity|cbn; lia]|exact HO]).
    destruct (write_or_panic_ok file_header HE0) as (e & -> & HE & _).
    destruct (@fill_steps ps1 n [] rd data ps2 e false HD HC ltac:(lia)) as (k & rd' & rest & fin & HD' & HC' & R).
    cbn [length repeat app map] in R. rewrite Hn, Nat.sub_diag in R. cbn [repeat] in R. rewrite !app_nil_r in R. cbn [Nat.add] in R.
    exists (k + length ps1), rd', rest, fin, e. split; auto. split; auto. split; auto.
    eapply run_app; [exact R|]. pose proof (@busy_steps ps1 [] [] (MFill n) rd' fin (repeat true n) e) as B.
    cbn [map app] in B. rewrite !app_nil_r in B. exact B.
  Qed.

  (** the first has delivered, the second is still encoding: the main thread waits for it *)
  Lemma idle_worker n data q1 q2 ps1 ps2 rd out r : delivers rd data -> cuts data ((q1 :: q2 :: ps1) ++ ps2) ->
    length (q1 :: q2 :: ps1) = n -> bytes out -> gen (piece_work q1) = Ok r ->
    exists k rd' rest fin pend e, delivers rd' rest /\ cuts rest ps2 /\
      crun gen k (cinit n rd (good_sink out)) (mk_c (MFlush 1) rd' fin pend e (worker_init :: map busy (q2 :: ps1))) /\
      main_step (mk_c (MFlush 1) rd' fin pend e (worker_init :: map busy (q2 :: ps1))) = None.
  Proof.
    intros HD HC Hn HO EG. destruct (@all_busy n data (q1 :: q2 :: ps1) ps2 rd out HD HC Hn HO) as (k & rd' & rest & fin & e & HD' & HC' & HE & R).
    destruct r as (bits, crc). destruct (write_or_panic_ok bits HE) as (e' & EW & HE' & _).
    exists (k + (1 + (1 + (1 + 0)))), rd', rest, fin, (false :: repeat true (n - 1)), (mk_enc (en_bw e') (update_total_crc crc (en_crc e'))).
    split; auto. split; auto. destruct n as [|[|n]]; [discriminate|discriminate|]. cbn [Nat.sub]. split.
    - eapply run_app; [exact R|]. cbn [Nat.add]. cbn [map].
      eapply crun_cons; [left; unfold main_step; cbn [c_pc c_workers]|].
      { replace (nth_error (busy q1 :: busy q2 :: map busy ps1) (S (S n))) with (@None worker); [reflexivity|].
        symmetry. apply nth_error_None. cbn [length] in *. rewrite map_length. lia. }
      cbn [c_rd c_fin c_pending c_enc c_workers].
      eapply crun_cons; [right; exists 0, false; split; [discriminate|]|].
      { unfold worker_step. cbn [c_workers nth_error worker_action busy wk_dead wk_busy]. rewrite EG. cbn [update]. reflexivity. }
      cbn [c_rd c_fin c_pending c_enc c_pc wk_queue wk_results app].
      eapply crun_cons; [left; unfold main_step; cbn [c_pc c_workers c_pending nth_error repeat wk_results c_enc]|constructor].
      cbn [busy wk_queue wk_results app]. rewrite EW. cbn [update wk_queue wk_busy wk_dead c_rd c_fin]. reflexivity.
    - reflexivity.
  Qed.
End Parallel.

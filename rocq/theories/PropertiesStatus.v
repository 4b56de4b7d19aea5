(** * The exit status: C75

    Words used in the statements: [try_main] (Cli.v): the command line tool; [fs_get d f]:
    the content of a file of directory [d]; [decompress_name], [compress_name]: the name of
    the output (C36); [decompressed] (SpecStream.v): the library accepts the input. *)
From Verif Require Import Base BaseFacts Bitwise BitwiseFacts SpecStream SymbolStatistics BlockEncoder Stream StreamFacts EncodeFacts
  Concurrency RoundTripFacts SinkFacts DecodeFacts Cli CliSteps PropertiesStream PropertiesSize PropertiesDecode PropertiesThreads PropertiesCli PropertiesKill.

(** [f] cannot be worked on: it is not there, or its output is *)
Definition refused (d : fs) (f out : fname) : Prop := fs_get d f = None \/ fs_get d out <> None.

(** One file of [decompress]: status 1 exactly if it is refused, otherwise 0 exactly if the
    library accepts the content, otherwise 101. *)
Theorem C75_decompress_status : forall p cpus f d, exists e d',
  (forall fuel, try_main fuel p cpus ideal_disk (Decompress [f]) d = (e, d')) /\
  (e = ExitError <-> refused d f (decompress_name f)) /\
  (e = ExitOk <-> ~ refused d f (decompress_name f) /\ exists input content, fs_get d f = Some input /\ decompressed p input content) /\
  (e = ExitPanic <-> ~ refused d f (decompress_name f) /\ exists input, fs_get d f = Some input /\ forall content, ~ decompressed p input content) /\
  e <> ExitNever.
Proof.
  intros p cpus f d. unfold refused.
  assert (forall fuel, try_main fuel p cpus ideal_disk (Decompress [f]) d = try_main 0 p cpus ideal_disk (Decompress [f]) d) as HF by reflexivity.
  destruct (try_main 0 p cpus ideal_disk (Decompress [f]) d) as (e & d') eqn:E. exists e, d'. split; [exact HF|]. clear HF.
  cbn [try_main for_each_file] in E. unfold decompress_one, create_file in E. destruct (fs_get d f) as [input|] eqn:EG.
  2:{ assert (e = ExitError) as -> by congruence. repeat split; try discriminate; auto; intros H; intuition discriminate. }
  destruct (fs_get d (decompress_name f)) as [old|] eqn:EO.
  { assert (e = ExitError) as -> by congruence.
    repeat split; try discriminate; auto; try (intros _; right; discriminate); intros (H & _); exfalso; apply H; right; discriminate. }
  cbn [ideal_disk dk_answers] in E. change (mk_writer [] []) with (good_sink []) in E.
  destruct (decode_stream p input (good_sink [])) as [r w] eqn:ED.
  pose proof (@C29_terminates_partial p input (good_sink [])) as HT. rewrite ED in HT. cbn [fst] in HT.
  assert (~ (Some input = None \/ @None (list nat) <> None)) as HN by (intros [H|H]; [discriminate|auto]).
  destruct r as [[]| | |]; cbn [exit_of] in E; [| | |congruence].
  - assert (e = ExitOk) as -> by congruence. assert (decompressed p input (w_out w)) as HD.
    { unfold decompressed. rewrite ED. pose proof (decode_stream_trace p input (mk_writer [] [])) as G. change (mk_writer [] []) with (good_sink []) in G.
      rewrite ED in G. destruct (stream_trace p input) as [bl e']. cbn [good_sink w_script w_out] in G. rewrite offer_nil in G.
      apply (f_equal snd) in G. cbn [snd] in G. rewrite G. reflexivity. }
    split; [split; [discriminate|tauto]|].
    split; [split; [intros _; split; [exact HN|exists input, (w_out w); auto]|reflexivity]|].
    split; [split; [discriminate|intros (_ & i & Ei & H); exfalso; assert (i = input) as -> by congruence; exact (H _ HD)]|discriminate].
  - assert (e = ExitPanic) as -> by congruence. split; [split; [discriminate|tauto]|].
    assert (forall c, ~ decompressed p input c) as HD by (intros c H; unfold decompressed in H; rewrite ED in H; discriminate).
    split; [split; [discriminate|intros (_ & i & c & Ei & H); exfalso; assert (i = input) as -> by congruence; exact (HD _ H)]|].
    split; [split; [intros _; split; [exact HN|exists input; auto]|reflexivity]|discriminate].
  - assert (e = ExitPanic) as -> by congruence. split; [split; [discriminate|tauto]|].
    assert (forall c, ~ decompressed p input c) as HD by (intros c H; unfold decompressed in H; rewrite ED in H; discriminate).
    split; [split; [discriminate|intros (_ & i & c & Ei & H); exfalso; assert (i = input) as -> by congruence; exact (HD _ H)]|].
    split; [split; [intros _; split; [exact HN|exists input; auto]|reflexivity]|discriminate].
Qed.

(** One file of [compress], with at least one thread: status 1 exactly if it is refused; if
    not, 101 exactly for [BlockWise] with no tables and a file that is not empty, and 0
    otherwise. *)
Definition no_tables (options : option encoding_options) : Prop := exists iterations, options = Some (OptKMeans iterations 0).
Theorem C75_compress_status : forall p cpus threads options f d,
  (forall content, fs_get d f = Some content -> bytes content) -> 1 <= thread_count threads cpus ->
  exists enough e d',
  (forall fuel, enough <= fuel -> try_main fuel p cpus ideal_disk (Compress [f] threads options) d = (e, d')) /\
  (e = ExitError <-> refused d f (compress_name f)) /\
  (e = ExitPanic <-> ~ refused d f (compress_name f) /\ no_tables options /\ fs_get d f <> Some []) /\
  (e = ExitOk <-> ~ refused d f (compress_name f) /\ (no_tables options -> fs_get d f = Some [])) /\
  e <> ExitNever /\ (forall content, e = ExitOk -> fs_get d' (compress_name f) = Some content -> bytes content).
Proof.
  intros p cpus threads options f d HBy Hn. unfold refused. set (out := compress_name f).
  destruct (fs_get d f) as [content|] eqn:EG.
  2:{ exists 0, ExitError, d. split; [intros fuel _; cbn [try_main for_each_file]; unfold compress_one; rewrite EG; reflexivity|].
      repeat split; try discriminate; auto; intros H; intuition discriminate. }
  destruct (fs_get d out) as [old|] eqn:EO.
  { exists 0, ExitError, d.
    split; [intros fuel _; cbn [try_main for_each_file]; unfold compress_one, create_file; rewrite EG; fold out; rewrite EO; reflexivity|].
    repeat split; try discriminate; auto; try (intros _; right; discriminate); intros (H & _); exfalso; apply H; right; discriminate. }
  assert (~ (Some content = None \/ @None (list nat) <> None)) as HN by (intros [H|H]; [discriminate|auto]).
  pose proof (HBy content eq_refl) as HB.
  assert (forall r w, encode_returns p (file_reader content) (good_sink []) (thread_count threads cpus) (strategy_of_options options) (r, w) ->
    exists enough, forall fuel, enough <= fuel -> try_main fuel p cpus ideal_disk (Compress [f] threads options) d = (exit_of r, fs_set (fs_set d out []) out (w_out w))) as HR.
  { intros r w (enough & HE). exists enough. intros fuel Hfu. cbn [try_main for_each_file]. unfold compress_one, create_file. rewrite EG. fold out.
    rewrite EO. fold (thread_count threads cpus). change (mk_writer (buffered_answers (dk_free ideal_disk)) []) with (good_sink []).
    rewrite (HE fuel Hfu). cbn [ideal_disk dk_free buffered_file]. destruct (exit_of r); reflexivity. }
  assert ((exists o, bytes o /\ encode_returns p (file_reader content) (good_sink []) (thread_count threads cpus) (strategy_of_options options) (Ok tt, good_sink o)) ->
    (no_tables options -> content = []) -> exists enough e d',
    (forall fuel, enough <= fuel -> try_main fuel p cpus ideal_disk (Compress [f] threads options) d = (e, d')) /\
    (e = ExitError <-> Some content = None \/ @None (list nat) <> None) /\
    (e = ExitPanic <-> ~ (Some content = None \/ @None (list nat) <> None) /\ no_tables options /\ Some content <> Some []) /\
    (e = ExitOk <-> ~ (Some content = None \/ @None (list nat) <> None) /\ (no_tables options -> Some content = Some [])) /\
    e <> ExitNever /\ (forall c, e = ExitOk -> fs_get d' out = Some c -> bytes c)) as HOk.
  { intros (o & HBo & HE) HC. destruct (HR _ _ HE) as (enough & HE2). exists enough. do 2 eexists. split; [exact HE2|]. cbn [exit_of good_sink w_out].
    split; [split; [discriminate|tauto]|]. split; [split; [discriminate|intros (_ & H & H'); exfalso; apply H'; f_equal; auto]|].
    split; [split; [intros _; split; [exact HN|intros H; f_equal; auto]|reflexivity]|]. split; [discriminate|].
    intros c _ Ec. rewrite fs_get_set_same in Ec. assert (c = o) as -> by congruence. exact HBo. }
  destruct options as [[|iterations tables]|].
  - apply HOk; [|intros (i & H); discriminate]. destruct (C31_never_panics HB) as (o & HBo & HC).
    exists o. split; [exact HBo|]. apply HC; [exact Hn|apply file_delivers].
  - destruct (@C59_kmeans_runs content tables iterations HB) as (H1 & H2).
    assert (tables = 0 /\ content <> [] \/ (1 <= tables \/ content = [])) as [(-> & Hc)|Ht].
    { destruct tables as [|k]; [|right; left; lia]. destruct content; [right; right; reflexivity|left; split; [reflexivity|discriminate]]. }
    + destruct (H2 eq_refl Hc p _ (file_reader content) Hn (file_delivers content)) as (w & HE).
      destruct (HR Panic w HE) as (enough & HE2). exists enough. do 2 eexists. split; [exact HE2|]. cbn [exit_of].
      split; [split; [discriminate|tauto]|].
      split; [split; [intros _; split; [exact HN|split; [eexists; reflexivity|congruence]]|reflexivity]|].
      split; [split; [discriminate|intros (_ & H); exfalso; assert (Some content = Some []) by (apply H; eexists; reflexivity); congruence]|].
      split; [discriminate|intros; discriminate].
    + destruct (H1 Ht) as (o & HBo & HC). apply HOk; [exists o; split; [exact HBo|apply HC; [exact Hn|apply file_delivers]]|].
      intros (i & E). assert (tables = 0) as -> by congruence. destruct Ht as [Ht|Ht]; [lia|exact Ht].
  - apply HOk; [|intros (i & H); discriminate]. destruct (C31_never_panics HB) as (o & HBo & HC).
    exists o. split; [exact HBo|]. apply HC; [exact Hn|apply file_delivers].
Qed.

(** Every command with any number of files comes to an end, with one of the three statuses
    and always the same, for every directory of bytes, with at least one thread. *)
Theorem C75_always_ends : forall p cpus c d, bytes_in d -> some_threads cpus c ->
  exists enough e d', e <> ExitNever /\ forall fuel, enough <= fuel -> try_main fuel p cpus ideal_disk c d = (e, d').
Proof.
  intros p cpus c d HB HT.
  assert (forall files d, bytes_in d \/ (exists l, c = Decompress l) -> exists enough e d', e <> ExitNever /\
    forall fuel, enough <= fuel -> try_main fuel p cpus ideal_disk (with_files c files) d = (e, d')) as G.
  { clear d HB. induction files as [|f files IH]; intros d HB.
    { exists 0, ExitOk, d. split; [discriminate|]. intros fuel _. destruct c; reflexivity. }
    assert (exists enough e d', e <> ExitNever /\ (forall fuel, enough <= fuel -> try_main fuel p cpus ideal_disk (with_files c [f]) d = (e, d')) /\
      (e = ExitOk -> bytes_in d' \/ exists l, c = Decompress l)) as (n1 & e & d1 & HN & HE & HB1).
    { destruct c as [l|l threads options].
      - destruct (@C75_decompress_status p cpus f d) as (e & d' & H1 & _ & _ & _ & H2). exists 0, e, d'. split; [exact H2|].
        split; [intros fuel _; exact (H1 fuel)|]. intros _. right. eauto.
      - destruct HB as [HB|(l' & E)]; [|discriminate].
        assert (1 <= thread_count threads cpus) as Hn by (cbn [some_threads threads_of] in HT; unfold thread_count; destruct threads; exact HT).
        destruct (@C75_compress_status p cpus threads options f d (HB f) Hn) as (n1 & e & d' & H1 & _ & _ & _ & H2 & H3).
        exists n1, e, d'. split; [exact H2|]. split; [exact H1|]. intros ->. left.
        pose proof (H1 n1 (le_n _)) as E. cbn [try_main for_each_file] in E.
        destruct (compress_one n1 p ideal_disk (match threads with Some n => n | None => cpus end) (strategy_of_options options) d f) as [e1 d2] eqn:E1.
        assert (e1 = ExitOk /\ d2 = d') as (-> & ->) by (destruct e1; split; congruence).
        apply compress_one_effect in E1 as [(E1 & _)|(c & A1 & A2 & A3)]; [discriminate|].
        intros g content Hg. destruct (nats_eqb (compress_name f) g) eqn:EE.
        + apply nats_eqb_spec in EE. subst g. exact (H3 content eq_refl Hg).
        + apply (HB g). rewrite <- A3; [exact Hg|]. intros ->. rewrite nats_eqb_refl in EE. discriminate. }
    assert (e = ExitOk \/ e <> ExitOk) as [->|He] by (destruct e; auto; right; discriminate).
    - destruct (IH d1 (HB1 eq_refl)) as (n2 & e2 & d2 & HN2 & HE2). exists (n1 + n2), e2, d2. split; [exact HN2|]. intros fuel Hfu.
      rewrite <- (HE2 fuel) by lia. assert (try_main fuel p cpus ideal_disk (with_files c [f]) d = (ExitOk, d1)) as E by (apply HE; lia).
      destruct c as [l|l threads options]; cbn [with_files] in *.
      + apply decompress_cons with (1 := E).
      + apply compress_cons with (1 := E).
    - exists n1, e, d1. split; [exact HN|]. intros fuel Hfu. specialize (HE fuel Hfu). destruct c as [l|l threads options]; cbn [with_files try_main for_each_file] in *.
      + destruct (decompress_one p ideal_disk d f) as [e1 d2]. destruct e1; congruence.
      + destruct (compress_one _ _ _ _ _ d f) as [e1 d2]. destruct e1; congruence. }
  destruct (G (files_of c) d (or_introl HB)) as (n & e & d' & HN & HE). exists n, e, d'. split; [exact HN|]. intros fuel Hfu. rewrite <- (HE fuel Hfu).
  destruct c; reflexivity.
Qed.
(** "f" holds "hello"; nothing called "f.bz2" *)
Example C75_case : let d := [([102], hello)] in bytes_in d /\ some_threads 4 (Compress [[102]] None None) /\
  ~ refused d [102] (compress_name [102]) /\ refused d [103] (compress_name [103]) /\ refused d [102] (decompress_name [102]).
Proof.
  cbn [some_threads threads_of]. split; [|split; [lia|]].
  - intros g c. cbn [fs_get]. destruct (nats_eqb [102] g); [|discriminate]. intros E. assert (c = hello) as -> by congruence. apply C01_case.
  - split; [intros [H|H]; [discriminate|apply H; reflexivity]|]. split; [left; reflexivity|right; discriminate].
Qed.
Print Assumptions C75_decompress_status.
Print Assumptions C75_compress_status.
Print Assumptions C75_always_ends.

(** * Names that are not plain files: C76; any reader: C23, C31

    Words used in the statements: [node_main] (CliNodes.v): the command line tool on a [tree],
    in which a name stands for a plain file, for a [Device] that can be opened and answers
    reads as it likes ([a_directory]: every read fails), or for something that cannot be
    opened; [arriving] (below): the bytes of a name that arrive before the first failure or end of
    file; [no_eof] (PropertiesThreads.v): the reader never signals an end of file, and fails
    forever in the end. *)
From Verif Require Import Base BaseFacts Bitwise BitwiseFacts SpecRle Rle RleFacts SpecStream Crc32 SymbolStatistics BlockEncoder Stream StreamFacts
  ReaderFacts RoundTripFacts EncodeFacts ExpandFacts SinkFacts DecodeFacts Concurrency ConcurrencyFacts Cli CliNodes PropertiesStream PropertiesThreads
  PropertiesDecode PropertiesRobust PropertiesCli.

(** ** the library on any reader *)
Lemma read_round_any n : forall rd, reader_bytes rd -> exists ps fin rd', read_round n rd = Ok (map piece_work ps, fin, rd') /\
  reader_bytes rd' /\ Forall (fun q => bytes q /\ q <> [] /\ (N.of_nat (length (coded q)) <= RLE_LIMIT + 5)%N) ps.
Proof.
  induction n as [|n IH]; intros rd HB; cbn [read_round].
  - exists [], false, rd. auto.
  - destruct (fill_block_any rd) as (b & fin & rd1 & E & _ & _ & HL & HB1 & _). destruct (HB1 HB) as (HBb & HB').
    rewrite E. cbn [bind]. cbn [fill_of fl_buf fl_finalize]. destruct b as [|x b].
    + exists [], fin, rd1. auto.
    + destruct (IH rd1 HB') as (ps & fin2 & rd2 & E2 & HB2 & HP). rewrite E2. cbn [bind].
      exists ((x :: b) :: ps), (fin || fin2), rd2. split; [cbn [map]; f_equal; f_equal; f_equal; f_equal; apply (work_of_piece (x :: b) fin)|].
      split; [exact HB2|]. constructor; [|exact HP]. split; [exact HBb|]. split; [discriminate|exact HL].
Qed.
(** Whatever the reader does, with at least one table and a sink that takes everything
    [encode_stream] does not panic: it returns normally or goes on. *)
Theorem C31_any_reader : forall p n st rd out fuel, reader_bytes rd -> bytes out -> 1 <= table_count st ->
  let r := fst (encode_stream fuel p rd (good_sink out) n st) in r = Ok tt \/ r = NoFuel.
Proof.
  intros p n st rd out fuel HB HO Hk. cbv zeta. unfold encode_stream.
  assert (enc_ok (mk_enc (bw_from_writer (good_sink out)) 0)) as H0.
  { repeat split; cbn [good_sink en_bw bw_from_writer bw_pending length bw_sink w_out]; try lia; exact HO. }
  destruct (write_or_panic_ok file_header H0) as (e1 & -> & H1 & _).
  assert (forall fuel rd e, reader_bytes rd -> enc_ok e ->
    (exists e', encode_rounds fuel p n st rd e = (Ok tt, e') /\ enc_ok e') \/ (exists e', encode_rounds fuel p n st rd e = (NoFuel, e'))) as G.
  { clear - Hk. induction fuel as [|fuel IH]; intros rd e HB He; cbn [encode_rounds]; [eauto|].
    destruct (read_round_any n HB) as (ps & fin & rd' & -> & HB' & HP).
    destruct (@flush_runs p st ps) with (e := e) as (e2 & -> & H2); [|exact He|].
    { rewrite Forall_forall in *. intros q Hq. destruct (HP q Hq) as (P1 & P2 & P3). unfold RLE_LIMIT in P3.
      apply block_runs; auto; [apply coded_bytes; auto|apply coded_nonempty; auto|lia]. }
    destruct fin; [left; eauto|]. apply IH; auto. }
  destruct (G fuel rd e1 HB H1) as [(e2 & -> & H2)|(e2 & ->)]; [|right; reflexivity].
  destruct (write_or_panic_ok (stream_footer (en_crc e2)) H2) as (e3 & -> & (H3 & H3') & _).
  destruct (@finalize_ok (en_bw e3) H3 H3') as (bw & k & -> & _). left. reflexivity.
Qed.
(** So a reader that never signals an end of file and fails in the end keeps it running
    forever, however many bytes it has given before. *)
Theorem C23_runs_forever : forall p n st rd out, reader_bytes rd -> bytes out -> 1 <= table_count st -> no_eof rd ->
  encode_runs_forever p rd (good_sink out) n st.
Proof.
  intros p n st rd out HB HO Hk HE fuel. destruct (@C31_any_reader p n st rd out fuel HB HO Hk) as [H|H]; [|exact H].
  exfalso. exact (C23_no_normal_return_partial p st n (good_sink out) fuel HE H).
Qed.
Example C23_forever_case : let rd := mk_reader [RChunk [1; 2]; RInterrupted; RChunk [3]; RFail] true in reader_bytes rd /\ no_eof rd.
Proof. cbv zeta. repeat split; repeat constructor; cbn [event_bytes]; try discriminate; unfold bytes, is_byte; repeat constructor; lia. Qed.
Print Assumptions C31_any_reader.
Print Assumptions C23_runs_forever.

(** ** C76 *)

(** On directories of plain files this is the tool of Cli.v. *)
Definition plain (d : fs) : tree := map (fun x => (fst x, Plain (snd x))) d.
Lemma tree_get_plain d f : tree_get (plain d) f = match fs_get d f with Some c => Some (Plain c) | None => None end.
Proof. induction d as [|[g c] d IH]; cbn [plain map fst snd tree_get fs_get]; auto. destruct (nats_eqb g f); auto. Qed.
Lemma tree_set_plain d f c : tree_set (plain d) f (Plain c) = plain (fs_set d f c).
Proof.
  induction d as [|[g x] d IH]; cbn [plain map fst snd tree_set fs_set]; auto. destruct (nats_eqb g f); cbn [map fst snd]; auto.
  f_equal. exact IH.
Qed.
Lemma create_plain d f : create_node (plain d) f = match create_file d f with Some d1 => Some (plain d1) | None => None end.
Proof. unfold create_node, create_file. rewrite tree_get_plain. destruct (fs_get d f); auto. rewrite tree_set_plain. reflexivity. Qed.
Lemma source_plain content : byte_source (file_reader content) = map AByte content.
Proof. destruct content as [|b content]; [reflexivity|]. cbn [file_reader byte_source r_events flat_map one_by_one]. apply app_nil_r. Qed.
Theorem C76_plain_files : forall fuel p cpus c d,
  node_main fuel p cpus c (plain d) = (fst (try_main fuel p cpus ideal_disk c d), plain (snd (try_main fuel p cpus ideal_disk c d))).
Proof.
  intros fuel p cpus c d.
  assert (forall onen one, (forall d f, onen (plain d) f = (fst (one d f), plain (snd (one d f)))) -> forall files d,
    for_each_node onen files (plain d) = (fst (for_each_file one files d), plain (snd (for_each_file one files d)))) as G.
  { intros onen one H. induction files as [|f files IH]; intros d0; cbn [for_each_node for_each_file]; [reflexivity|].
    rewrite H. destruct (one d0 f) as [[| | |] d1]; cbn [fst snd]; auto. }
  destruct c as [files|files threads options]; cbn [node_main try_main]; apply G; clear d; intros d f.
  - unfold decompress_node, decompress_one, open_node. rewrite tree_get_plain. destruct (fs_get d f) as [content|]; [|reflexivity].
    rewrite create_plain. destruct (create_file d (decompress_name f)) as [d1|]; [|reflexivity].
    rewrite source_plain. cbn [ideal_disk dk_answers]. unfold decode_stream.
    destruct (decode_source p (map AByte content) (mk_writer [] [])) as [[u| | |] w]; cbn [fst snd exit_of]; rewrite tree_set_plain; reflexivity.
  - unfold compress_node, compress_one, open_node. rewrite tree_get_plain. destruct (fs_get d f) as [content|]; [|reflexivity].
    rewrite create_plain. destruct (create_file d (compress_name f)) as [d1|]; [|reflexivity].
    cbn [ideal_disk dk_free buffered_answers buffered_file].
    destruct (encode_stream _ _ _ _ _ _) as [r w]; cbn [fst snd]; rewrite tree_set_plain; reflexivity.
Qed.

(** [compress] of a name that can be opened, but whose reads fail before an end of file and
    go on failing - a directory, say - never ends, for any number of threads and any number
    of tables but 0, and leaves the arguments after it undone. *)
Theorem C76_compress_hangs_refuted : forall fuel p cpus f rest threads options d rd,
  tree_get d f = Some (Device rd) -> reader_bytes rd -> no_eof rd -> tree_get d (compress_name f) = None ->
  (forall iterations, options <> Some (OptKMeans iterations 0)) ->
  fst (node_main fuel p cpus (Compress (f :: rest) threads options) d) = ExitNever.
Proof.
  intros fuel p cpus f rest threads options d rd HG HB HE HO HT. cbn [node_main for_each_node]. unfold compress_node, open_node. rewrite HG.
  unfold create_node. rewrite HO.
  assert (1 <= table_count (strategy_of_options options)) as Hk.
  { destruct options as [[|it k]|]; cbn [strategy_of_options table_count]; try lia. destruct k; [exfalso; exact (HT it eq_refl)|lia]. }
  pose proof (@C23_runs_forever p (match threads with Some n => n | None => cpus end) (strategy_of_options options) rd [] HB (Forall_nil _) Hk HE fuel) as H.
  change (mk_writer [] []) with (good_sink []). destruct (encode_stream fuel p rd (good_sink []) _ _) as [r w]. cbn [fst] in H. subst r. reflexivity.
Qed.
Lemma directory_no_eof : exists rd, a_directory = Device rd /\ reader_bytes rd /\ no_eof rd.
Proof. exists (mk_reader [] true). repeat split; constructor. Qed.

(** If the reads of every argument reach an end of file - with or without failures before -
    and there is a thread, [compress] ends. *)
Definition reaches_end (x : node) : Prop := match x with Plain c => bytes c | Device rd => reader_bytes rd /\ r_tail_fail rd = false | Locked => True end.
Theorem C76_compress_ends : forall p cpus f threads options d, 1 <= thread_count threads cpus ->
  (forall x, tree_get d f = Some x -> reaches_end x) ->
  exists enough e d', e <> ExitNever /\
    forall fuel, enough <= fuel -> node_main fuel p cpus (Compress [f] threads options) d = (e, d').
Proof.
  intros p cpus f threads options d Hn HR. cbn [node_main for_each_node]. unfold compress_node. fold (thread_count threads cpus).
  destruct (open_node d f) as [rd|] eqn:EO.
  2:{ exists 0, ExitError, d. split; [discriminate|reflexivity]. }
  destruct (create_node d (compress_name f)) as [d1|].
  2:{ exists 0, ExitError, d. split; [discriminate|reflexivity]. }
  assert (reader_bytes rd /\ r_tail_fail rd = false) as (HB & HF).
  { unfold open_node in EO. destruct (tree_get d f) as [[c|r|]|] eqn:EG; try discriminate; injection EO as <-; specialize (HR _ eq_refl); cbn [reaches_end] in HR.
    - split; [|reflexivity]. destruct c as [|b c]; [constructor|]. constructor; [exact HR|constructor].
    - exact HR. }
  destruct (@C21_terminates_partial p (strategy_of_options options) (thread_count threads cpus) rd (mk_writer [] []) HB Hn HF) as ([r w] & HN & enough & HE).
  cbn [fst] in HN. exists enough, (exit_of r), (tree_set d1 (compress_name f) (Plain (w_out w))).
  split; [destruct r; try discriminate; congruence|]. intros fuel Hfu. rewrite (HE fuel Hfu). destruct (exit_of r); reflexivity.
Qed.

(** One file of [decompress], whatever it is: status 1 exactly if it cannot be opened or its
    output exists; otherwise 0 exactly if the library accepts the bytes that arrive before
    the first failure or end of file, and then these decide the output; else 101. *)
Fixpoint before_failure (events : list revent) : list nat :=
  match events with
  | [] => []
  | RFail :: _ | RChunk [] :: _ => []
  | RInterrupted :: later => before_failure later
  | RChunk bs :: later => bs ++ before_failure later
  end.
Definition arriving (d : tree) (f : fname) (input : list nat) : Prop :=
  tree_get d f = Some (Plain input) \/ exists rd, tree_get d f = Some (Device rd) /\ input = before_failure (r_events rd).
Lemma arriving_source rd : delivered (byte_source rd) = before_failure (r_events rd).
Proof.
  destruct rd as [evs tf]. cbn [byte_source r_events]. unfold byte_source. cbn [r_events]. induction evs as [|[[|b bs]| |] evs IH]; cbn [flat_map one_by_one before_failure app]; auto.
  assert (forall l t, delivered (map AByte l ++ t) = l ++ delivered t) as H by (induction l as [|x l IHl]; intros t; cbn [map app delivered]; [reflexivity|rewrite IHl; reflexivity]).
  rewrite H, IH. reflexivity.
Qed.
Lemma arriving_open d f input : arriving d f input <-> exists rd, open_node d f = Some rd /\ input = delivered (byte_source rd).
Proof.
  unfold arriving, open_node. split.
  - intros [H|(rd & H & ->)]; rewrite H; eexists; (split; [reflexivity|]); [rewrite source_plain, delivered_bytes; reflexivity|symmetry; apply arriving_source].
  - intros (rd & H & ->). destruct (tree_get d f) as [[c|r|]|]; try discriminate; injection H as <-.
    + left. rewrite source_plain, delivered_bytes. reflexivity.
    + right. exists r. split; [reflexivity|apply arriving_source].
Qed.
Theorem C76_decompress_status : forall p cpus f d, exists e d',
  (forall fuel, node_main fuel p cpus (Decompress [f]) d = (e, d')) /\
  (e = ExitError <-> (tree_get d f = None \/ tree_get d f = Some Locked) \/ tree_get d (decompress_name f) <> None) /\
  (e = ExitOk <-> tree_get d (decompress_name f) = None /\ exists input content, arriving d f input /\ decompressed p input content) /\
  (e = ExitPanic <-> tree_get d (decompress_name f) = None /\ exists input, arriving d f input /\ forall content, ~ decompressed p input content) /\
  (forall input content, e = ExitOk -> arriving d f input -> decompressed p input content -> tree_get d' (decompress_name f) = Some (Plain content)) /\
  e <> ExitNever.
Proof.
  intros p cpus f d. set (out := decompress_name f).
  assert (forall fuel, node_main fuel p cpus (Decompress [f]) d = node_main 0 p cpus (Decompress [f]) d) as HF by reflexivity.
  destruct (node_main 0 p cpus (Decompress [f]) d) as (e & d') eqn:E. exists e, d'. split; [exact HF|]. clear HF.
  cbn [node_main for_each_node] in E. unfold decompress_node, create_node in E. fold out in E.
  assert (open_node d f = None <-> tree_get d f = None \/ tree_get d f = Some Locked) as HL.
  { unfold open_node. destruct (tree_get d f) as [[c|r|]|]; split; auto; try discriminate; intros [H|H]; discriminate. }
  destruct (open_node d f) as [rd|] eqn:EO.
  2:{ assert (e = ExitError) as -> by congruence. assert (tree_get d f = None \/ tree_get d f = Some Locked) as H0 by (apply HL; reflexivity).
      split; [split; auto|]. split; [split; [discriminate|intros (_ & i & c & Hi & _); apply arriving_open in Hi as (r & Er & _); congruence]|].
      split; [split; [discriminate|intros (_ & i & Hi & _); apply arriving_open in Hi as (r & Er & _); congruence]|]. split; discriminate. }
  assert (~ (tree_get d f = None \/ tree_get d f = Some Locked)) as HN by (intros H; apply HL in H; discriminate). clear HL.
  assert (forall input, arriving d f input -> input = delivered (byte_source rd)) as HA.
  { intros input Hi. apply arriving_open in Hi as (r & Er & ->). assert (r = rd) as -> by congruence. reflexivity. }
  assert (arriving d f (delivered (byte_source rd))) as HA0 by (apply arriving_open; exists rd; auto).
  destruct (tree_get d out) as [old|] eqn:EG.
  { assert (e = ExitError) as -> by congruence. split; [split; [intros _; right; discriminate|reflexivity]|].
    split; [split; [discriminate|intros (H & _); discriminate]|]. split; [split; [discriminate|intros (H & _); discriminate]|]. split; discriminate. }
  pose proof (@C51_any_reader p (byte_source rd) (mk_writer [] [])) as HC. set (input := delivered (byte_source rd)) in *.
  destruct (decode_source p (byte_source rd) (mk_writer [] [])) as [r w]. cbn [fst snd] in HC.
  pose proof (@C29_terminates_partial p input (mk_writer [] [])) as HT. rewrite <- HC in HT. cbn [fst] in HT.
  assert (forall content, decompressed p input content <-> status r = Ok tt /\ w = good_sink content) as HD.
  { intros content. unfold decompressed. change (good_sink []) with (mk_writer [] []). rewrite <- HC. split; [intros H|intros (-> & ->); reflexivity].
    split; [apply (f_equal fst) in H; exact H|apply (f_equal snd) in H; exact H]. }
  assert (forall content, tree_get (tree_set (tree_set d out (Plain [])) out (Plain content)) out = Some (Plain content)) as HS.
  { intros content. generalize (tree_set d out (Plain [])). induction t as [|[g y] t IH]; cbn [tree_set tree_get].
    - rewrite nats_eqb_refl. reflexivity.
    - destruct (nats_eqb g out) eqn:Eg; cbn [tree_get]; [rewrite nats_eqb_refl; reflexivity|]. rewrite Eg. exact IH. }
  assert (status r <> Ok tt -> (forall content, ~ decompressed p input content)) as HX.
  { intros H content Hc. apply HD in Hc as (Hc & _). auto. }
  destruct r as [rest| | |]; cbn [status] in *; [| | |congruence].
  - assert (e = ExitOk) as -> by congruence.
    assert (w = good_sink (w_out w)) as HW.
    { pose proof (decode_stream_trace p input (mk_writer [] [])) as G. rewrite <- HC in G. destruct (stream_trace p input) as [bl e'].
      cbn [w_script w_out] in G. rewrite offer_nil in G. apply (f_equal snd) in G. cbn [snd] in G. rewrite G. reflexivity. }
    split; [split; [discriminate|intros [H|H]; [tauto|congruence]]|].
    split; [split; [intros _; split; [reflexivity|]; exists input, (w_out w); split; [exact HA0|apply HD; auto]|reflexivity]|].
    split; [split; [discriminate|intros (_ & i & Hi & H); exfalso; rewrite (HA _ Hi) in H; apply (H (w_out w)), HD; auto]|].
    split; [|discriminate]. intros i content _ Hi Hc. rewrite (HA _ Hi) in Hc. apply HD in Hc as (_ & ->). cbn [good_sink w_out] in E.
    assert (d' = tree_set (tree_set d out (Plain [])) out (Plain content)) as -> by congruence. apply HS.
  - assert (e = ExitPanic) as -> by congruence. specialize (HX ltac:(discriminate)).
    split; [split; [discriminate|intros [H|H]; [tauto|congruence]]|].
    split; [split; [discriminate|intros (_ & i & c & Hi & H); rewrite (HA _ Hi) in H; exfalso; exact (HX _ H)]|].
    split; [split; [intros _; split; [reflexivity|]; exists input; auto|reflexivity]|]. split; discriminate.
  - assert (e = ExitPanic) as -> by congruence. specialize (HX ltac:(discriminate)).
    split; [split; [discriminate|intros [H|H]; [tauto|congruence]]|].
    split; [split; [discriminate|intros (_ & i & c & Hi & H); rewrite (HA _ Hi) in H; exfalso; exact (HX _ H)]|].
    split; [split; [intros _; split; [reflexivity|]; exists input; auto|reflexivity]|]. split; discriminate.
Qed.
(** So [decompress] of a directory, or of anything from which not one byte arrives: status 1
    if the output exists, as it does for a name without extension, which is its own output;
    otherwise 101, and an empty file is left. *)
Corollary C76_decompress_nothing : forall fuel p cpus f d, arriving d f [] ->
  fst (node_main fuel p cpus (Decompress [f]) d) = (if tree_get d (decompress_name f) then ExitError else ExitPanic) /\
  (tree_get d (decompress_name f) = None ->
    forall g, tree_get (snd (node_main fuel p cpus (Decompress [f]) d)) g = if nats_eqb (decompress_name f) g then Some (Plain []) else tree_get d g).
Proof.
  intros fuel p cpus f d HE. apply arriving_open in HE as (rd & HO & HE). symmetry in HE. cbn [node_main for_each_node]. unfold decompress_node, create_node. rewrite HO.
  destruct (tree_get d (decompress_name f)) eqn:EG; [split; [reflexivity|discriminate]|].
  pose proof (@C51_any_reader p (byte_source rd) (mk_writer [] [])) as HC. rewrite HE in HC.
  assert (decode_stream p [] (mk_writer [] []) = (Err, mk_writer [] [])) as E0 by (destruct p; vm_compute; reflexivity).
  rewrite E0 in HC. destruct (decode_source p (byte_source rd) (mk_writer [] [])) as [r w]. cbn [fst snd] in HC.
  assert (r = Err) as -> by (destruct r; try discriminate; reflexivity). assert (w = mk_writer [] []) as -> by congruence.
  cbn [fst snd w_out]. split; [reflexivity|]. intros _ g.
  assert (forall t x, tree_get (tree_set t (decompress_name f) x) g = if nats_eqb (decompress_name f) g then Some x else tree_get t g) as HS.
  { clear. intros t x. induction t as [|[h y] t IH]; cbn [tree_set tree_get]; [reflexivity|].
    destruct (nats_eqb h (decompress_name f)) eqn:Eh; cbn [tree_get].
    - apply nats_eqb_spec in Eh. subst h. destruct (nats_eqb (decompress_name f) g); reflexivity.
    - rewrite IH. destruct (nats_eqb h g) eqn:Eg; [|reflexivity]. apply nats_eqb_spec in Eg. subst h.
      destruct (nats_eqb (decompress_name f) g) eqn:E2; [|reflexivity]. apply nats_eqb_spec in E2. rewrite E2, nats_eqb_refl in Eh. discriminate. }
  rewrite !HS. destruct (nats_eqb (decompress_name f) g); reflexivity.
Qed.
(** A path without a file name is refused by both commands, whatever is there. *)
Theorem C76_no_name : forall fuel p cpus f rest threads options d,
  (exists dir, directory dir /\ (f = dir ++ [46; 46] \/ f = dir ++ [46; 46; 47])) \/ f = [46] \/ Forall (fun x => x = 47) f ->
  node_main fuel p cpus (Compress (f :: rest) threads options) d = (ExitError, d) /\
  node_main fuel p cpus (Decompress (f :: rest)) d = (ExitError, d).
Proof.
  intros fuel p cpus f rest threads options d H. destruct (C36_no_name H) as (EC & ED). cbn [node_main for_each_node].
  unfold compress_node, decompress_node, create_node, open_node. rewrite EC, ED. destruct (tree_get d f) as [[c|rd|]|]; split; reflexivity.
Qed.
(** Whatever the files, devices and arguments: what was there stays as it was. *)
Theorem C76_keeps : forall fuel p cpus c d g x, tree_get d g = Some x -> tree_get (snd (node_main fuel p cpus c d)) g = Some x.
Proof.
  assert (forall t f x y g, tree_get t f = None \/ f <> g -> tree_get t g = Some y -> tree_get (tree_set t f x) g = Some y) as HS.
  { induction t as [|[h z] t IH]; intros f x y g; cbn [tree_set tree_get]; [discriminate|]. intros [HN|HN] HG.
    - destruct (nats_eqb h f) eqn:E; [discriminate|]. cbn [tree_get]. destruct (nats_eqb h g); [exact HG|]. apply IH; auto.
    - destruct (nats_eqb h f) eqn:E; cbn [tree_get].
      + apply nats_eqb_spec in E. subst h. rewrite (nats_eqb_ne HN) in *. exact HG.
      + destruct (nats_eqb h g); [exact HG|]. apply IH; auto. }
  assert (forall t f t1, create_node t f = Some t1 -> forall x y g, tree_get t g = Some y -> tree_get (tree_set t1 f x) g = Some y) as HC.
  { intros t f t1 E x y g HG. unfold create_node in E. destruct (tree_get t f) eqn:EF; [discriminate|]. injection E as <-.
    assert (f <> g) as Hne by (intros ->; congruence). apply HS; [right; exact Hne|]. apply HS; auto. }
  assert (forall one, (forall t f g y, tree_get t g = Some y -> tree_get (snd (one t f)) g = Some y) -> forall files t g y,
    tree_get t g = Some y -> tree_get (snd (for_each_node one files t)) g = Some y) as HF.
  { intros one H. induction files as [|f files IH]; intros t g y HG; cbn [for_each_node]; [exact HG|].
    pose proof (H t f g y HG) as H1. destruct (one t f) as [[| | |] t1]; cbn [snd] in *; auto. }
  intros fuel p cpus c d g x HG. destruct c as [files|files threads options]; cbn [node_main]; apply HF; try exact HG; clear - HC.
  - intros t f g y HG. unfold decompress_node. destruct (open_node t f); [|exact HG]. destruct (create_node t (decompress_name f)) as [t1|] eqn:E; [|exact HG].
    destruct (decode_source p _ _) as [res w]. cbn [snd]. eapply HC; eauto.
  - intros t f g y HG. unfold compress_node. destruct (open_node t f); [|exact HG]. destruct (create_node t (compress_name f)) as [t1|] eqn:E; [|exact HG].
    destruct (encode_stream _ _ _ _ _ _) as [res w]. cbn [snd]. eapply HC; eauto.
Qed.
(** a directory "d" *)
Example C76_case : exists rd, let d := [([100], a_directory); ([102], Plain hello)] in
  tree_get d [100] = Some (Device rd) /\ reader_bytes rd /\ no_eof rd /\ tree_get d (compress_name [100]) = None /\
  arriving d [100] [] /\ (forall x, tree_get d [102] = Some x -> reaches_end x).
Proof.
  destruct directory_no_eof as (rd & E & HB & HE). exists rd. cbv zeta. split; [cbn [tree_get nats_eqb Nat.eqb andb]; congruence|].
  split; [exact HB|]. split; [exact HE|]. split; [reflexivity|]. split; [right; exists (mk_reader [] true); split; reflexivity|]. intros x Hx. assert (x = Plain hello) as -> by (cbn in Hx; congruence). apply C01_case.
Qed.
Print Assumptions C76_plain_files.
Print Assumptions C76_compress_hangs_refuted.
Print Assumptions C76_compress_ends.
Print Assumptions C76_decompress_status.
Print Assumptions C76_decompress_nothing.
Print Assumptions C76_no_name.
Print Assumptions C76_keeps.

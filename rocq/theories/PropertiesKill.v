(** * The command is killed: C70, C71

    Words used in the statements: the model of the tool in Cli.v ([try_main], [fs_get],
    [adds] and [all_ok] from PropertiesCli) and its steps in CliSteps.v: [process_of p cpus
    c d s] says that command [c], started in directory [d], may at some moment be in state
    [s]; [dir s] is the directory at that moment, which is what stays if the process is
    killed then.  (A kill within a [write] leaves something between the directories of two
    such moments.) *)
From Verif Require Import Base BaseFacts Bitwise BitwiseFacts SpecBits SpecStream Crc32 SymbolStatistics BlockEncoder BlockDecoder Stream StreamFacts
  RoundTripFacts EncodeFacts ReaderFacts DecodeFacts Concurrency ConcurrencyFacts CrashFacts Cli CliSteps PropertiesStream PropertiesDecode PropertiesThreads
  PropertiesCrash PropertiesRobust PropertiesCli.

(** ** the buffer *)
Lemma buf_invariant accepted : fst (buf_after accepted) ++ snd (buf_after accepted) = accepted /\ length (snd (buf_after accepted)) <= BUF_CAPACITY.
Proof.
  unfold buf_after. induction accepted as [|x l IH] using rev_ind; [split; [reflexivity|apply Nat.le_0_l]|].
  rewrite fold_left_app. cbn [fold_left]. destruct IH as (IH & HL). unfold buf_write at 1 3 5.
  destruct (Nat.ltb_spec (length (snd (fold_left buf_write l ([], [])))) BUF_CAPACITY) as [H|H]; cbn [fst snd].
  - split; [rewrite app_assoc, IH; reflexivity|]. rewrite app_length. cbn [length]. lia.
  - split; [rewrite IH; reflexivity|]. cbn [length]. unfold BUF_CAPACITY in *. lia.
Qed.
Lemma dropped_all accepted : on_disk_dropped accepted = accepted.
Proof. apply buf_invariant. Qed.
Lemma on_disk_prefix accepted : exists more, accepted = on_disk accepted ++ more /\ length more <= BUF_CAPACITY.
Proof. destruct (buf_invariant accepted) as (E & L). exists (snd (buf_after accepted)). split; [symmetry; exact E|exact L]. Qed.

(** ** files *)
Lemma fs_set_set d f a b : fs_set (fs_set d f a) f b = fs_set d f b.
Proof.
  induction d as [|[g c] d IH]; cbn [fs_set]; [rewrite nats_eqb_refl; reflexivity|].
  destruct (nats_eqb g f) eqn:E; cbn [fs_set]; [rewrite nats_eqb_refl; reflexivity|]. rewrite E, IH. reflexivity.
Qed.
Lemma create_get d f d1 : create_file d f = Some d1 -> fs_get d f = None /\ d1 = fs_set d f [].
Proof. unfold create_file. destruct (fs_get d f); [discriminate|]. intros E. injection E as <-. auto. Qed.

(** ** decoding *)
Lemma block_grows p r w : grown w (snd (decode_block p r w)).
Proof.
  unfold decode_block. destruct (decode_block_data p r) as [[[c crc] r1]| | |]; try apply grown_refl.
  destruct (crc32 c =? crc)%N; [|apply grown_refl]. pose proof (write_grows w c) as H. destruct (w_write w c) as [[x| | |] w1]; exact H.
Qed.
Lemma loop_grows p fuel : forall r w, grown w (snd (decode_loop fuel p r w)).
Proof.
  induction fuel as [|fuel IH]; intros r w; cbn [decode_loop]; [apply grown_refl|].
  destruct (what_next r) as [[[|] r1]| | |]; try apply grown_refl. pose proof (block_grows p r1 w) as H.
  destruct (decode_block p r1 w) as [[r2| | |] w2]; cbn [snd] in *; auto. eapply grown_trans; [exact H|]. apply IH.
Qed.
(** what [decode_stream] gives when it goes on from here *)
Definition goes_on (p : profile) (content : list nat) (r : bit_reader) (w : writer) : Prop :=
  exists fuel, decode_stream p content (mk_writer [] []) = (status (fst (decode_loop fuel p r w)), snd (decode_loop fuel p r w)).
Lemma goes_on_start p content r : read_file_header (br_from_reader content) = Ok r -> goes_on p content r (mk_writer [] []).
Proof.
  intros E. exists (S (bits_left r)). unfold decode_stream, decode_source. unfold br_from_reader in E. rewrite E.
  destruct (decode_loop _ p r _) as [[x| | |] w]; reflexivity.
Qed.
Lemma goes_on_fuel p content r w : goes_on p content r w -> exists fuel,
  decode_stream p content (mk_writer [] []) = (status (fst (decode_loop (S fuel) p r w)), snd (decode_loop (S fuel) p r w)).
Proof.
  intros ([|fuel] & E); [|eauto]. exfalso. apply (@C29_terminates_partial p content (mk_writer [] [])). rewrite E. reflexivity.
Qed.
Lemma goes_on_block p content r r1 r2 w w2 : goes_on p content r w -> what_next r = Ok (BlockHeader, r1) -> decode_block p r1 w = (Ok r2, w2) ->
  goes_on p content r2 w2.
Proof. intros H E1 E2. apply goes_on_fuel in H as (fuel & H). cbn [decode_loop] in H. rewrite E1, E2 in H. exists fuel. exact H. Qed.

(** ** the invariant *)
Lemma all_ok_app one before f d d1 d2 : all_ok one before d d1 -> one f d1 = (ExitOk, d2) -> all_ok one (before ++ [f]) d d2.
Proof. induction 1; intros E; cbn [app]; [econstructor; eauto; constructor|econstructor; eauto]. Qed.

Definition bytes_in (d : fs) : Prop := forall f content, fs_get d f = Some content -> bytes content.
Section Invariant.
  Variables (p : profile) (cpus : nat) (c : command) (d : fs).
  Let alone (fuel : nat) (f : fname) (d : fs) := try_main fuel p cpus ideal_disk (with_files c [f]) d.

  Lemma alone_decode fuel f d1 d2 content r w : (exists files, c = Decompress files) -> fs_get d1 f = Some content ->
    create_file d1 (out_name c f) = Some d2 -> decode_stream p content (mk_writer [] []) = (r, w) ->
    alone fuel f d1 = (exit_of r, fs_set d2 (out_name c f) (w_out w)).
  Proof.
    intros (files & ->) EG EC ED. unfold alone. cbn [with_files try_main for_each_file out_name] in *. unfold decompress_one. rewrite EG, EC.
    cbn [ideal_disk dk_answers]. rewrite ED. destruct (exit_of r); reflexivity.
  Qed.
  Lemma alone_encode fuel f d1 d2 content r w : (exists files threads options, c = Compress files threads options) -> fs_get d1 f = Some content ->
    create_file d1 (out_name c f) = Some d2 ->
    encode_stream fuel p (file_reader content) (good_sink []) (threads_of cpus c) (strategy_in c) = (r, w) ->
    alone fuel f d1 = (exit_of r, fs_set d2 (out_name c f) (w_out w)).
  Proof.
    intros (files & threads & options & ->) EG EC ED. unfold alone. cbn [with_files try_main for_each_file out_name threads_of strategy_in] in *.
    unfold compress_one. rewrite EG, EC. cbn [ideal_disk dk_free buffered_answers buffered_file].
    change (mk_writer [] []) with (good_sink []).
    replace (match threads with Some n => n | None => cpus end) with (threads_of cpus (Compress files threads options)) by (destruct threads; reflexivity).
    cbn [threads_of]. rewrite ED. destruct (exit_of r); reflexivity.
  Qed.
  Lemma alone_missing fuel f d1 : fs_get d1 f = None -> alone fuel f d1 = (ExitError, d1).
  Proof.
    intros EG. unfold alone. destruct c as [files|files threads options]; cbn [with_files try_main for_each_file];
      unfold compress_one, decompress_one; rewrite EG; reflexivity.
  Qed.
  Lemma alone_exists fuel f d1 content : fs_get d1 f = Some content -> create_file d1 (out_name c f) = None -> alone fuel f d1 = (ExitError, d1).
  Proof.
    intros EG EC. unfold alone. destruct c as [files|files threads options]; cbn [with_files try_main for_each_file out_name] in *;
      unfold compress_one, decompress_one; rewrite EG, EC; reflexivity.
  Qed.

  Hypothesis Hthreads : match c with Compress _ _ _ => 1 <= threads_of cpus c | _ => True end.

  (** what the activity means for the file [f] that is worked on, directory [d1] before *)
  Definition working (d1 : fs) (s : process) (f : fname) : Prop :=
    exists content, fs_get d1 f = Some content /\
    match doing s with
    | Opened f' content' => f' = f /\ content' = content /\ dir s = d1
    | Decoding out r w => exists d2, (exists files, c = Decompress files) /\ out = out_name c f /\ create_file d1 out = Some d2 /\
        dir s = fs_set d2 out (w_out w) /\ goes_on p content r w
    | Encoding out q => exists d2 k, (exists files threads options, c = Compress files threads options) /\ out = out_name c f /\ create_file d1 out = Some d2 /\
        dir s = fs_set d2 out (on_disk (written_by q)) /\ reached p (strategy_in c) (threads_of cpus c) (file_reader content) (good_sink []) k q
    | Next | Exited _ => False
    end.
  Definition inv_at (s : process) : Prop :=
    exists before d1 enough, (forall fuel, enough <= fuel -> all_ok (alone fuel) before d d1) /\ (bytes_in d1 \/ exists files, c = Decompress files) /\
    match doing s with
    | Next => files_of c = before ++ todo s /\ dir s = d1
    | Exited e => (e = ExitOk /\ files_of c = before /\ dir s = d1) \/
        (e <> ExitOk /\ exists f, files_of c = before ++ f :: todo s /\ forall fuel, enough <= fuel -> alone fuel f d1 = (e, dir s))
    | _ => exists f, files_of c = before ++ f :: todo s /\ working d1 s f
    end.

  Lemma step_inv_at s s' : inv_at s -> pstep p cpus c s s' -> inv_at s'.
  Proof.
    intros (before & d1 & enough & HA & HY & HI) HS. destruct HS; cbn [doing todo dir] in HI.
    - destruct HI as (EF & ->). rewrite app_nil_r in EF. exists before, d1, enough. split; auto. split; auto. cbn [doing dir]. left. auto.
    - destruct HI as (EF & ->). exists before, d1, enough. split; auto. split; auto. cbn [doing dir todo]. right. split; [discriminate|].
      exists f. split; auto. intros fuel _. apply alone_missing; auto.
    - destruct HI as (EF & ->). exists before, d1, enough. split; auto. split; auto. cbn [doing dir todo]. exists f. split; auto.
      exists content. split; auto. cbn [doing dir]. auto.
    - destruct HI as (f' & EF & content' & EG & E1 & E2 & E3). cbn [dir] in E3. subst f' content' d0. exists before, d1, enough. split; auto. split; auto.
      cbn [doing dir todo]. right. split; [discriminate|]. exists f. split; auto. intros fuel _. eapply alone_exists; eauto.
    - destruct HI as (f' & EF & content' & EG & E1 & E2 & E3). cbn [dir] in E3. subst f' content' d0. exists before, d1, enough. split; auto. split; auto.
      cbn [doing dir todo]. destruct (create_get _ _ H0) as (HN & ED).
      destruct (read_file_header (br_from_reader content)) as [r| | |] eqn:ER;
        [exists f; split; auto; exists content; split; auto; exists d2; split; [eauto|]; split; auto; split; auto;
          split; [cbn [dir w_out]; rewrite ED, fs_set_set; reflexivity|apply goes_on_start; auto]| | |];
        (right; split; [discriminate|]; exists f; split; auto; intros fuel _;
         pose proof (@C29_terminates_partial p content (mk_writer [] [])) as HT;
         assert (decode_stream p content (mk_writer [] []) = (fst (decode_stream p content (mk_writer [] [])), mk_writer [] [])) as EDS
           by (unfold decode_stream, decode_source; unfold br_from_reader in ER; rewrite ER; reflexivity);
         rewrite (@alone_decode fuel f _ _ _ _ _ (ex_intro _ _ H) EG H0 EDS); cbn [w_out]; rewrite ED, fs_set_set;
         revert HT; unfold decode_stream, decode_source; unfold br_from_reader in ER; rewrite ER; cbn [fst exit_of]; intros HT; try reflexivity; congruence).
    - destruct HI as (f & EF & content & EG & d2 & HC & E1 & EC & ED & HG). cbn [dir] in ED. exists before, d1, enough. split; auto. split; auto.
      cbn [doing dir todo]. exists f. split; auto. exists content. split; auto. exists d2. split; auto. split; auto. split; auto.
      split; [cbn [dir]; rewrite ED, fs_set_set; reflexivity|]. eapply goes_on_block; eauto.
    - destruct HI as (f & EF & content & EG & d2 & HC & E1 & EC & ED & HG). cbn [dir] in ED. exists before, d1, enough. split; auto. split; auto.
      cbn [doing dir todo]. right. split; [discriminate|]. exists f. split; auto. intros fuel _. subst out.
      pose proof (@C29_terminates_partial p content (mk_writer [] [])) as HT.
      apply goes_on_fuel in HG as (k & HG). cbn [decode_loop] in HG. rewrite H, H0 in HG. rewrite HG in HT.
      rewrite (@alone_decode fuel f _ _ _ _ _ HC EG EC HG), ED, fs_set_set.
      destruct result as [r2| | |]; cbn [fst snd status exit_of] in *; try reflexivity; [exfalso; eapply H1; reflexivity|congruence].
    - destruct HI as (f & EF & content & EG & d2 & HC & E1 & EC & ED & HG). cbn [dir] in ED. subst out.
      apply goes_on_fuel in HG as (k & HG). cbn [decode_loop] in HG. rewrite H in HG. cbn [fst snd status] in HG.
      exists (before ++ [f]), d0, enough. cbn [doing todo dir]. split; [|split; [destruct HC as (files & ->); eauto|split; [rewrite EF, <- app_assoc; reflexivity|reflexivity]]].
      intros fuel Hf. eapply all_ok_app; [apply HA; auto|]. rewrite (@alone_decode fuel f _ _ _ _ _ HC EG EC HG), ED. reflexivity.
    - destruct HI as (f & EF & content & EG & d2 & HC & E1 & EC & ED & HG). cbn [dir] in ED. exists before, d1, enough. split; auto. split; auto.
      cbn [doing dir todo]. right. split; [discriminate|]. exists f. split; auto. intros fuel _. subst out.
      pose proof (@C29_terminates_partial p content (mk_writer [] [])) as HT.
      apply goes_on_fuel in HG as (k & HG). cbn [decode_loop] in HG.
      destruct (what_next r) as [x| | |]; [exfalso; eapply H; reflexivity| | |]; cbn [fst snd status] in HG; rewrite HG in HT; cbn [fst] in HT; try congruence;
        rewrite (@alone_decode fuel f _ _ _ _ _ HC EG EC HG), ED; reflexivity.
    - destruct HI as (f' & EF & content' & EG & E1 & E2 & E3). cbn [dir] in E3. subst f' content' d0. exists before, d1, enough. split; auto. split; auto.
      cbn [doing dir todo]. destruct (create_get _ _ H0) as (HN & ED). exists f. split; auto. exists content. split; auto. exists d2, 0. split; [eauto|].
      split; auto. split; auto. split; [|constructor]. cbn [dir].
      assert (on_disk (written_by (cinit (threads_of cpus c) (file_reader content) (mk_writer [] []))) = []) as ->; [|rewrite ED, fs_set_set; reflexivity].
      unfold cinit. destruct (write_or_panic file_header _) as [r e] eqn:EW. vm_compute in EW. injection EW as <- <-. vm_compute. reflexivity.
    - destruct HI as (f & EF & content & EG & d2 & k & HC & E1 & EC & ED & HR). cbn [dir] in ED. exists before, d1, enough. split; auto. split; auto.
      cbn [doing dir todo]. exists f. split; auto. exists content. split; auto. exists d2, (k + 1). split; auto. split; auto. split; auto.
      split; [cbn [dir]; rewrite ED, fs_set_set; reflexivity|]. eapply run_app; [exact HR|]. econstructor; [exact H|constructor].
    - destruct HI as (f & EF & content & EG & d2 & k & HC & E1 & EC & ED & HR). cbn [dir] in ED. subst out.
      assert (1 <= threads_of cpus c) as Hn by (destruct HC as (? & ? & ? & ->); exact Hthreads).
      assert (bytes content) as HB by (destruct HY as [HY|(files & E)]; [eapply HY; eauto|destruct HC as (? & ? & ? & HC); congruence]).
      pose proof (file_delivers content) as HD.
      destruct (@C20_schedule_independent p (strategy_in c) (threads_of cpus c) (file_reader content) (good_sink []) k s (r, bw_sink (en_bw (c_enc s))) (delivers_bytes HD HB) HR
        (conj H eq_refl)) as ((enough2 & HE) & HNF). cbn [fst] in HNF.
      assert (forall fuel, enough2 <= fuel -> alone fuel f d1 = (exit_of r, fs_set d2 (out_name c f) (written_by s))) as HF.
      { intros fuel Hf. exact (@alone_encode fuel f _ _ _ _ _ HC EG EC (HE fuel Hf)). }
      rewrite dropped_all, ED, fs_set_set. fold (written_by s).
      destruct r as [[]| | |]; [|exists before, d1, (enough + enough2)..].
      + exists (before ++ [f]), (fs_set d2 (out_name c f) (written_by s)), (enough + enough2). cbn [doing todo dir].
        split; [|split; [left|split; [rewrite EF, <- app_assoc; reflexivity|reflexivity]]].
        * intros fuel Hf. eapply all_ok_app; [apply HA; lia|]. apply HF. lia.
        * assert (encode_returns p (file_reader content) (good_sink []) (threads_of cpus c) (strategy_in c) (Ok tt, bw_sink (en_bw (c_enc s)))) as HER by (exists enough2; exact HE).
          destruct (C33_framing HB Hn HD HER) as (_ & _ & _ & _ & _ & _ & _ & HBO & _).
          destruct (@create_adds d1 (out_name c f) d2 (written_by s) EC) as (_ & A1 & A2). intros g content' EG'.
          destruct (nats_eqb g (out_name c f)) eqn:EE.
          { apply nats_eqb_spec in EE. subst g. rewrite A1 in EG'. injection EG' as <-. exact HBO. }
          rewrite A2 in EG' by (intros ->; rewrite nats_eqb_refl in EE; discriminate). destruct HY as [HY|(files & E)]; [eapply HY; eauto|destruct HC as (? & ? & ? & HC); congruence].
      + split; [intros fuel Hf; apply HA; lia|]. split; auto. cbn [doing dir todo exit_of]. right. split; [discriminate|]. exists f. split; auto. intros fuel Hf. apply HF. lia.
      + split; [intros fuel Hf; apply HA; lia|]. split; auto. cbn [doing dir todo exit_of]. right. split; [discriminate|]. exists f. split; auto. intros fuel Hf. apply HF. lia.
      + congruence.
  Qed.
  Theorem process_inv s : bytes_in d -> process_of p cpus c d s -> inv_at s.
  Proof.
    intros HB. induction 1 as [|s s' H IH HS]; [|eapply step_inv_at; eauto].
    exists [], d, 0. split; [intros; constructor|]. split; auto. split; reflexivity.
  Qed.
End Invariant.

(** ** C70 *)

(** At least one thread, for [compress]. *)
Definition some_threads (cpus : nat) (c : command) : Prop := match c with Compress _ _ _ => 1 <= threads_of cpus c | Decompress _ => True end.
(** One file as a command of its own. *)
Definition alone (p : profile) (cpus : nat) (c : command) (fuel : nat) (f : fname) (d : fs) : exit * fs :=
  try_main fuel p cpus ideal_disk (with_files c [f]) d.

(** No file that was there is changed, at no moment, for any thread count. *)
Theorem C70_nothing_lost : forall p cpus c d s f content, process_of p cpus c d s ->
  fs_get d f = Some content -> fs_get (dir s) f = Some content.
Proof.
  intros p cpus c d s f content HP HG.
  assert (fs_get (dir s) f = Some content /\ match doing s with Decoding out _ _ | Encoding out _ => out <> f | _ => True end) as (H & _); auto.
  induction HP as [|s s' HP (IH & IN) HS]; [split; [exact HG|exact I]|].
  assert (forall d d1 out, create_file d out = Some d1 -> fs_get d f = Some content -> out <> f /\ fs_get d1 f = Some content) as HC.
  { intros d0 d1 out EC EG. apply create_get in EC as (EN & ->). assert (out <> f) as HN by congruence. split; auto.
    rewrite fs_get_set_other; auto. }
  destruct HS; cbn [doing dir] in *; try (split; auto; fail).
  - destruct (HC _ _ _ H0 IH). split; auto. destruct (read_file_header _); auto.
  - split; auto. rewrite fs_get_set_other; auto.
  - split; auto. rewrite fs_get_set_other; auto.
  - destruct (HC _ _ _ H0 IH). split; auto.
  - split; auto. rewrite fs_get_set_other; auto.
  - split; [rewrite fs_get_set_other; auto|]. destruct r; auto.
Qed.

(** ... nor over any history of commands, each of them finished or killed. *)
Inductive history (d : fs) : fs -> Prop :=
| history_start : history d d
| history_command d1 p cpus c s : history d d1 -> process_of p cpus c d1 s -> history d (dir s).
Theorem C70_history : forall d d' f content, history d d' -> fs_get d f = Some content -> fs_get d' f = Some content.
Proof. intros d d' f content. induction 1 as [|d1 p cpus c s H IH HP]; intros HG; auto. eapply C70_nothing_lost; eauto. Qed.

(** When the process has ended by itself, the directory and the status are those of Cli.v. *)
Lemma for_each_alone p cpus c fuel : forall before d d1, all_ok (alone p cpus c fuel) before d d1 -> forall after,
  try_main fuel p cpus ideal_disk (with_files c (before ++ after)) d = try_main fuel p cpus ideal_disk (with_files c after) d1.
Proof.
  induction 1 as [d|f files d d1 d2 E HA IH]; intros after; [reflexivity|]. rewrite <- IH. cbn [app]. unfold alone in E.
  destruct c as [l|l n o]; cbn [with_files try_main for_each_file] in *.
  - destruct (decompress_one p ideal_disk d f) as [[| | |] d']; try discriminate. assert (d' = d1) as -> by congruence. reflexivity.
  - destruct (compress_one _ _ _ _ _ d f) as [[| | |] d']; try discriminate. assert (d' = d1) as -> by congruence. reflexivity.
Qed.
Lemma alone_first p cpus c fuel f rest d e d' : alone p cpus c fuel f d = (e, d') -> e <> ExitOk ->
  try_main fuel p cpus ideal_disk (with_files c (f :: rest)) d = (e, d').
Proof.
  unfold alone. destruct c as [l|l n o]; cbn [with_files try_main for_each_file];
    [destruct (decompress_one p ideal_disk d f) as [[| | |] d1]|destruct (compress_one _ _ _ _ _ d f) as [[| | |] d1]]; intros E HN; congruence.
Qed.
Lemma with_own c : with_files c (files_of c) = c.
Proof. destruct c; reflexivity. Qed.
Theorem C70_result : forall p cpus c d rest e d', bytes_in d -> some_threads cpus c ->
  process_of p cpus c d (mk_process rest (Exited e) d') ->
  exists enough, forall fuel, enough <= fuel -> try_main fuel p cpus ideal_disk c d = (e, d').
Proof.
  intros p cpus c d rest e d' HB HT HP. destruct (@process_inv p cpus c d HT _ HB HP) as (before & d1 & enough & HA & _ & HI). cbn [doing dir todo] in HI.
  exists enough. intros fuel Hf. rewrite <- (with_own c) at 1. destruct HI as [(-> & EF & ->)|(HN & f & EF & HE)].
  - rewrite EF. replace before with (before ++ []) by apply app_nil_r. rewrite (for_each_alone (HA fuel Hf)). destruct c; reflexivity.
  - rewrite EF, (for_each_alone (HA fuel Hf)). apply alone_first; auto. apply HE. auto.
Qed.

(** At any moment: the arguments up to some point have been processed completely, as by
    commands of their own; of the next one there is at most a part of its output, a prefix
    of what it would have become. *)
Lemma sorted_out p cpus c d1 s f : some_threads cpus c -> bytes_in d1 \/ (exists files, c = Decompress files) -> working p cpus c d1 s f ->
  dir s = d1 \/ exists part, adds d1 (dir s) (out_name c f) part /\ exists e content more enough d',
    adds d1 d' (out_name c f) content /\ content = part ++ more /\
    forall fuel, enough <= fuel -> alone p cpus c fuel f d1 = (e, d').
Proof.
  intros HT HY (content & EG & HW). destruct (doing s) as [|f' content'|out r w|out q|e]; try contradiction.
  - left. apply HW.
  - right. destruct HW as (d2 & HC & -> & EC & -> & HG). exists (w_out w). split; [apply create_adds; auto|].
    destruct HG as (fuel & HG). destruct (loop_grows p fuel r w) as (more & EM).
    exists (exit_of (status (fst (decode_loop fuel p r w)))), (w_out (snd (decode_loop fuel p r w))), more, 0, (fs_set d2 (out_name c f) (w_out (snd (decode_loop fuel p r w)))).
    split; [apply create_adds; auto|]. split; auto. intros k _. exact (@alone_decode p cpus c k f _ _ _ _ _ HC EG EC HG).
  - right. destruct HW as (d2 & k & HC & -> & EC & -> & HR).
    assert (1 <= threads_of cpus c) as Hn by (destruct HC as (? & ? & ? & ->); exact HT).
    assert (bytes content) as HB by (destruct HY as [HY|(files & E)]; [eapply HY; eauto|destruct HC as (? & ? & ? & HC); congruence]).
    pose proof (file_delivers content) as HD. exists (on_disk (written_by q)). split; [apply create_adds; auto|].
    destruct (@C21_terminates_partial p (strategy_in c) (threads_of cpus c) (file_reader content) (good_sink []) (delivers_bytes HD HB) Hn (proj1 HD)) as ([r w] & HN & HE).
    destruct (@C69_prefix p (strategy_in c) (threads_of cpus c) _ _ k q _ (delivers_bytes HD HB) Hn (proj1 HD) HR HE) as (more & EM).
    destruct (on_disk_prefix (written_by q)) as (more1 & E1 & _). destruct HE as (enough & HE). cbn [snd] in EM.
    exists (exit_of r), (w_out w), (more1 ++ more), enough, (fs_set d2 (out_name c f) (w_out w)).
    split; [apply create_adds; auto|]. split; [rewrite EM, E1 at 1; rewrite <- app_assoc; reflexivity|].
    intros fuel Hf. exact (@alone_encode p cpus c fuel f _ _ _ _ _ HC EG EC (HE fuel Hf)).
Qed.
Theorem C70_any_moment : forall p cpus c d s, bytes_in d -> some_threads cpus c -> process_of p cpus c d s ->
  exists before after d1 enough, files_of c = before ++ after /\
    (forall fuel, enough <= fuel -> all_ok (alone p cpus c fuel) before d d1) /\
    (dir s = d1 \/
     exists f rest part e content more d', after = f :: rest /\ adds d1 (dir s) (out_name c f) part /\
       (forall fuel, enough <= fuel -> alone p cpus c fuel f d1 = (e, d')) /\
       adds d1 d' (out_name c f) content /\ content = part ++ more).
Proof.
  intros p cpus c d s HB HT HP. destruct (@process_inv p cpus c d HT _ HB HP) as (before & d1 & enough & HA & HY & HI).
  assert (forall f rest, files_of c = before ++ f :: rest -> working p cpus c d1 s f ->
    exists before after d1 enough, files_of c = before ++ after /\
    (forall fuel, enough <= fuel -> all_ok (alone p cpus c fuel) before d d1) /\
    (dir s = d1 \/
     exists f rest part e content more d', after = f :: rest /\ adds d1 (dir s) (out_name c f) part /\
       (forall fuel, enough <= fuel -> alone p cpus c fuel f d1 = (e, d')) /\
       adds d1 d' (out_name c f) content /\ content = part ++ more)) as HW.
  { intros f rest EF HW. destruct (sorted_out HT HY HW) as [E|(part & A1 & e & content & more & enough2 & d' & A2 & E2 & HE)].
    - exists before, (f :: rest), d1, enough. auto.
    - exists before, (f :: rest), d1, (enough + enough2). split; auto. split; [intros fuel Hf; apply HA; lia|]. right.
      exists f, rest, part, e, content, more, d'. split; auto. split; auto. split; auto. intros fuel Hf. apply HE. lia. }
  destruct (doing s) as [|f' content'|out r w|out q|e] eqn:ED; try (destruct HI as (f & EF & HI); eapply HW; eauto; fail).
  - destruct HI as (EF & E). exists before, (todo s), d1, enough. auto.
  - destruct HI as [(_ & EF & E)|(HN & f & EF & HE)].
    + exists before, [], d1, enough. rewrite app_nil_r. auto.
    + exists before, (f :: todo s), d1, enough. split; auto. split; auto.
      assert (dir s = d1 \/ exists x, adds d1 (dir s) (out_name c f) x) as [E|(x & A)]; auto.
      { specialize (HE enough (le_n _)). unfold alone in HE. destruct c as [l|l n o]; cbn [with_files try_main for_each_file out_name] in *.
        - destruct (decompress_one p ideal_disk d1 f) as [e1 d2] eqn:E1. apply decompress_one_effect in E1.
          assert (d2 = dir s) as <- by (destruct e1; congruence). destruct E1 as [(_ & E1)|E1]; auto.
        - destruct (compress_one _ _ _ _ _ d1 f) as [e1 d2] eqn:E1. apply compress_one_effect in E1.
          assert (d2 = dir s) as <- by (destruct e1; congruence). destruct E1 as [(_ & E1)|E1]; auto. }
      right. exists f, (todo s), x, e, x, [], (dir s). rewrite app_nil_r. auto 10.
Qed.

(** ** C71

    "After a kill the command can simply be run again" is false: as soon as the first
    output has been created, complete or not, the same command does nothing. *)
Theorem C71_rerun_refuted : forall p cpus c d s first rest part fuel, process_of p cpus c d s ->
  files_of c = first :: rest -> fs_get (dir s) (out_name c first) = Some part ->
  try_main fuel p cpus ideal_disk c (dir s) = (ExitError, dir s).
Proof.
  intros p cpus c d s first rest part fuel _ EF EP. destruct c as [l|l n o]; cbn [files_of out_name] in *; subst l; cbn [try_main for_each_file];
    unfold decompress_one, compress_one, create_file; destruct (fs_get (dir s) first); rewrite ?EP; reflexivity.
Qed.

(** What does work: remove the output that is incomplete, if there is one, and run the
    command for the arguments that were not completed.  The end is that of the undisturbed
    command. *)
Definition same_files (d d' : fs) : Prop := forall g, fs_get d g = fs_get d' g.
Definition removed (d d' : fs) (f : fname) : Prop := fs_get d' f = None /\ forall g, g <> f -> fs_get d' g = fs_get d g.
Lemma set_same d d' f x : same_files d d' -> same_files (fs_set d f x) (fs_set d' f x).
Proof.
  intros HS g. destruct (nats_eqb g f) eqn:E; [apply nats_eqb_spec in E; subst g; rewrite !fs_get_set_same; reflexivity|].
  rewrite !fs_get_set_other by (intros ->; rewrite nats_eqb_refl in E; discriminate). apply HS.
Qed.
Lemma one_same p cpus c fuel f d d' e d1 : same_files d d' -> alone p cpus c fuel f d = (e, d1) ->
  exists d1', alone p cpus c fuel f d' = (e, d1') /\ same_files d1 d1'.
Proof.
  intros HS. unfold alone. destruct c as [l|l n o]; cbn [with_files try_main for_each_file]; unfold decompress_one, compress_one, create_file; rewrite <- (HS f).
  - destruct (fs_get d f) as [content|]; [|intros E; assert (d1 = d /\ e = ExitError) as (-> & ->) by (split; congruence); eauto].
    rewrite <- (HS (decompress_name f)). destruct (fs_get d (decompress_name f)); [intros E; assert (d1 = d /\ e = ExitError) as (-> & ->) by (split; congruence); eauto|].
    destruct (decode_stream p content _) as [r w]. intros E.
    assert (e = exit_of r /\ d1 = fs_set (fs_set d (decompress_name f) []) (decompress_name f) (w_out w)) as (-> & ->) by (destruct (exit_of r); split; congruence).
    exists (fs_set (fs_set d' (decompress_name f) []) (decompress_name f) (w_out w)). split; [destruct (exit_of r); reflexivity|]. apply set_same, set_same. auto.
  - destruct (fs_get d f) as [content|]; [|intros E; assert (d1 = d /\ e = ExitError) as (-> & ->) by (split; congruence); eauto].
    rewrite <- (HS (compress_name f)). destruct (fs_get d (compress_name f)); [intros E; assert (d1 = d /\ e = ExitError) as (-> & ->) by (split; congruence); eauto|].
    destruct (encode_stream fuel p _ _ _ _) as [r w]. intros E.
    set (x := buffered_file (dk_free ideal_disk) (w_out w)) in *.
    assert (e = exit_of r /\ d1 = fs_set (fs_set d (compress_name f) []) (compress_name f) x) as (-> & ->) by (destruct (exit_of r); split; congruence).
    exists (fs_set (fs_set d' (compress_name f) []) (compress_name f) x). split; [destruct (exit_of r); reflexivity|]. apply set_same, set_same. auto.
Qed.
Lemma alone_cons p cpus c fuel f rest d d1 : alone p cpus c fuel f d = (ExitOk, d1) ->
  try_main fuel p cpus ideal_disk (with_files c (f :: rest)) d = try_main fuel p cpus ideal_disk (with_files c rest) d1.
Proof.
  unfold alone. destruct c as [l|l n o]; cbn [with_files try_main for_each_file];
    [destruct (decompress_one p ideal_disk d f) as [[| | |] d2]|destruct (compress_one _ _ _ _ _ d f) as [[| | |] d2]]; intros E; try discriminate;
    assert (d2 = d1) as -> by congruence; reflexivity.
Qed.
Lemma main_same p cpus c fuel files : forall d d' e d1, same_files d d' -> try_main fuel p cpus ideal_disk (with_files c files) d = (e, d1) ->
  exists d1', try_main fuel p cpus ideal_disk (with_files c files) d' = (e, d1') /\ same_files d1 d1'.
Proof.
  induction files as [|f files IH]; intros d d' e d1 HS E.
  - destruct c; cbn [with_files try_main for_each_file] in *; assert (e = ExitOk /\ d1 = d) as (-> & ->) by (split; congruence); eauto.
  - destruct (alone p cpus c fuel f d) as [e1 d2] eqn:E1. destruct (one_same _ _ _ _ _ HS E1) as (d2' & E2 & HS2). destruct (match e1 with ExitOk => true | _ => false end) eqn:EO.
    + destruct e1; try discriminate. rewrite (@alone_cons p cpus c fuel f files _ _ E1) in E. rewrite (@alone_cons p cpus c fuel f files _ _ E2). eapply IH; eauto.
    + assert (e1 <> ExitOk) as HN by (intros ->; discriminate). rewrite (@alone_first p cpus c fuel f files _ _ _ E1 HN) in E. rewrite (@alone_first p cpus c fuel f files _ _ _ E2 HN).
      assert (e = e1 /\ d1 = d2) as (-> & ->) by (split; congruence). eauto.
Qed.
Theorem C71_resume : forall p cpus c d s, bytes_in d -> some_threads cpus c -> process_of p cpus c d s ->
  exists before after incomplete enough, files_of c = before ++ after /\
    (incomplete = None \/ exists f rest, after = f :: rest /\ incomplete = Some (out_name c f) /\ fs_get d (out_name c f) = None) /\
    forall cleaned, match incomplete with None => same_files (dir s) cleaned | Some o => removed (dir s) cleaned o end ->
    forall fuel, enough <= fuel -> exists e d1 d2, try_main fuel p cpus ideal_disk c d = (e, d1) /\
      try_main fuel p cpus ideal_disk (with_files c after) cleaned = (e, d2) /\ same_files d1 d2.
Proof.
  intros p cpus c d s HB HT HP. destruct (@C70_any_moment p cpus c d s HB HT HP) as (before & after & d1 & enough & EF & HA & HI).
  assert (forall cleaned, same_files d1 cleaned -> forall fuel, enough <= fuel -> exists e d2 d3, try_main fuel p cpus ideal_disk c d = (e, d2) /\
    try_main fuel p cpus ideal_disk (with_files c after) cleaned = (e, d3) /\ same_files d2 d3) as HM.
  { intros cleaned HS fuel Hf.
    assert (try_main fuel p cpus ideal_disk c d = try_main fuel p cpus ideal_disk (with_files c after) d1) as EM.
    { rewrite <- (for_each_alone (HA fuel Hf)), <- EF, with_own. reflexivity. }
    rewrite EM.
    destruct (try_main fuel p cpus ideal_disk (with_files c after) d1) as [e d2] eqn:E. destruct (main_same _ _ _ _ _ HS E) as (d3 & E3 & H3). eauto 10. }
  destruct HI as [E|(f & rest & part & e & content & more & d' & -> & A & _)].
  - exists before, after, None, enough. split; auto. split; auto. intros cleaned HS. rewrite E in HS. auto.
  - exists before, (f :: rest), (Some (out_name c f)), enough. split; auto. split.
    + right. exists f, rest. split; auto. split; auto. destruct A as (A & _). destruct (fs_get d (out_name c f)) eqn:EG; auto.
      exfalso. assert (fs_get d1 (out_name c f) = Some l) as X; [|congruence].
      specialize (HA enough (le_n _)). clear - HA EG. revert EG. induction HA as [|g files d d1 d2 E HA IH]; intros EG; auto. apply IH.
      unfold alone in E. destruct c; eapply C35_never_overwrites in E; eauto.
    + intros cleaned (R1 & R2). apply HM. intros g. destruct A as (A1 & A2 & A3). destruct (nats_eqb g (out_name c f)) eqn:EE.
      * apply nats_eqb_spec in EE. subst g. congruence.
      * assert (g <> out_name c f) as HN by (intros ->; rewrite nats_eqb_refl in EE; discriminate). rewrite R2, A3; auto.
Qed.

(** The states are not an artefact of a model that gets stuck: as long as the process has
    not ended it can take a step, and it cannot take infinitely many. *)
Theorem C70_goes_on : forall p cpus c d s, bytes_in d -> some_threads cpus c -> process_of p cpus c d s ->
  (exists e, doing s = Exited e) \/ exists s', pstep p cpus c s s'.
Proof.
  intros p cpus c d s HB HT HP. destruct (@process_inv p cpus c d HT _ HB HP) as (before & d1 & enough & HA & HY & HI).
  destruct s as [files act dr]. cbn [doing dir todo] in *. destruct act as [|f' content'|out r w|out q|e]; [right|right|right|right|left; eauto].
  - destruct files as [|f rest]; [eexists; constructor|]. destruct (fs_get dr f) as [content|] eqn:EG; eexists; [eapply step_open|eapply step_open_fails]; eauto.
  - destruct (create_file dr (out_name c f')) as [d2|] eqn:EC; [|eexists; eapply step_create_fails; eauto].
    destruct c as [l|l n o] eqn:Ec; eexists; [eapply step_create_decode|eapply step_create_encode]; eauto.
  - destruct (what_next r) as [[[|] r1]| | |] eqn:EW; try (eexists; eapply step_next_fails; rewrite EW; discriminate).
    + eexists. eapply step_footer. eauto.
    + destruct (decode_block p r1 w) as [[r2| | |] w2] eqn:EB; eexists; [eapply step_block; eauto|eapply step_block_fails; eauto; discriminate..].
  - destruct HI as (f & EF & content & EG & d2 & k & HC & E1 & EC & ED & HR).
    assert (bytes content) as HBC by (destruct HY as [HY|(l & E)]; [eapply HY; eauto|destruct HC as (? & ? & ? & HC); congruence]).
    destruct (@C20_no_deadlock p (strategy_in c) _ _ _ k q (delivers_bytes (file_delivers content) HBC) HR) as [(r & HR')|(q' & HS)].
    + eexists. eapply step_encoded. apply HR'.
    + eexists. eapply step_encode. exact HS.
Qed.
Ltac invert c H := inversion H; repeat match goal with E : c = _ |- _ => revert E end; subst; intros.
Lemma steps_end p cpus c d : bytes_in d -> some_threads cpus c -> forall n s, length (todo s) <= n -> process_of p cpus c d s ->
  doing s = Next -> Acc (fun s' s => pstep p cpus c s s') s.
Proof.
  intros HB HT.
  assert (forall files e dr, Acc (fun s' s => pstep p cpus c s s') (mk_process files (Exited e) dr)) as HEx.
  { intros files e dr. constructor. intros s' HS. inversion HS. }
  induction n as [|n IH]; intros [files act dr] HL HP HN; cbn [todo doing] in *; subst act.
  - destruct files; [|cbn [length] in HL; lia]. constructor. intros s' HS. invert c HS; auto.
  - constructor. intros s1 HS1. pose proof (@process_step p cpus c d _ _ HP HS1) as HP1. invert c HS1; auto.
    cbn [length] in HL. apply le_S_n in HL. clear HS1 HP. constructor. intros s2 HS2. pose proof (@process_step p cpus c d _ _ HP1 HS2) as HP2. invert c HS2; auto.
    + destruct (read_file_header (br_from_reader content)) as [r| | |]; auto.
      generalize (mk_writer [] []) as w, d1 as dr2, HP2. clear HS2 HP1 HP2.
      remember (length (rbits r)) as m eqn:Em. revert r Em. induction m as [m IHm] using lt_wf_ind. intros r -> w dr2 HP2.
      constructor. intros s3 HS3. pose proof (@process_step p cpus c d _ _ HP2 HS3) as HP3. invert c HS3; auto.
      * assert (length (rbits r2) < length (rbits r)) as HL2.
        { match goal with H : what_next _ = _ |- _ => apply what_next_inv in H; rename H into EW end.
          match goal with H : decode_block _ _ _ = _ |- _ => rename H into EB end.
          rewrite EW, app_length. change (length (bytes_bits block_magic)) with 48.
          unfold decode_block in EB. destruct (regular_block p) as (_ & _ & BR).
          destruct (decode_block_data p r1) as [[[cc crc] r3]| | |] eqn:EBD; try discriminate. destruct (BR _ _ _ EBD) as (used & E2 & _).
          destruct (crc32 cc =? crc)%N; [|discriminate]. destruct (w_write w cc) as [[x| | |] w3]; try discriminate.
          assert (r3 = r2) as -> by congruence. rewrite E2, app_length. lia. }
        exact (IHm _ HL2 r2 eq_refl _ _ HP3).
    + destruct (@process_inv p cpus c d HT _ HB HP2) as (before & d3 & enough & HA & HY & HI). cbn [doing] in HI.
      destruct HI as (f0 & EF & content0 & EG & d4 & k0 & HC & E1 & EC & ED & HR0).
      assert (bytes content0) as HBC by (destruct HY as [HY|(l & E)]; [eapply HY; eauto|destruct HC as (? & ? & ? & HC); congruence]).
      pose proof (file_delivers content0) as HDC.
      assert (1 <= threads_of cpus c) as Hn by (destruct HC as (? & ? & ? & ->); exact HT).
      destruct (@C20_terminates p (strategy_in c) (threads_of cpus c) (file_reader content0) (good_sink []) (delivers_bytes HDC HBC) Hn (proj1 HDC)) as (bound & HBd).
      assert (forall m k q dr, bound - k <= m -> reached p (strategy_in c) (threads_of cpus c) (file_reader content0) (good_sink []) k q ->
        process_of p cpus c d (mk_process rest (Encoding (out_name c f) q) dr) -> Acc (fun s' s => pstep p cpus c s s') (mk_process rest (Encoding (out_name c f) q) dr)) as G;
        [|eapply G; eauto].
      clear - IH HL HBd HEx. induction m as [|m IHm]; intros k q dr Hk HR HPq; constructor; intros s3 HS3; pose proof (@process_step p cpus c d _ _ HPq HS3) as HP3; invert c HS3.
      * assert (k + 1 <= bound) as X; [|lia]. eapply HBd. eapply run_app; [exact HR|]. econstructor; [eassumption|constructor].
      * destruct r as [u| | |]; cbn [exit_of]; auto.
      * assert (reached p (strategy_in c) (threads_of cpus c) (file_reader content0) (good_sink []) (k + 1) s') as HR'.
        { eapply run_app; [exact HR|]. econstructor; [eassumption|constructor]. }
        pose proof (HBd _ _ HR'). eapply IHm; [|exact HR'|exact HP3]. lia.
      * destruct r as [u| | |]; cbn [exit_of]; auto.
Qed.
Theorem C70_ends : forall p cpus c d, bytes_in d -> some_threads cpus c ->
  ~ exists run : nat -> process, process_of p cpus c d (run 0) /\ doing (run 0) = Next /\ forall i, pstep p cpus c (run i) (run (S i)).
Proof.
  intros p cpus c d HB HT (run & H0 & HN & HS).
  pose proof (@steps_end p cpus c d HB HT _ (run 0) (le_n _) H0 HN) as HA.
  assert (forall s, Acc (fun s' s => pstep p cpus c s s') s -> forall i, run i = s -> False) as G; [|eapply G; eauto].
  induction 1 as [s _ IH]. intros i <-. eapply IH; [apply HS|reflexivity].
Qed.
(** So there is a way to the end, and by [C70_result] it is the one of Cli.v. *)
Theorem C70_can_finish : forall p cpus c d, bytes_in d -> some_threads cpus c ->
  exists rest e d', process_of p cpus c d (mk_process rest (Exited e) d').
Proof.
  intros p cpus c d HB HT.
  assert (forall s, Acc (fun s' s => pstep p cpus c s s') s -> process_of p cpus c d s ->
    exists rest e d', process_of p cpus c d (mk_process rest (Exited e) d')) as G.
  { induction 1 as [s _ IH]. intros HP. destruct (@C70_goes_on p cpus c d s HB HT HP) as [(e & E)|(s' & HS)].
    - destruct s as [files act dr]. cbn [doing] in E. subst act. eauto.
    - eapply IH; [exact HS|]. eapply process_step; eauto. }
  eapply G; [|apply process_start]. eapply steps_end; [exact HB|exact HT|apply le_n|apply process_start|reflexivity].
Qed.

(** While a file is being compressed its output grows by whole buffers of 8 KiB: what a kill
    leaves has a length that is a multiple of 8192, whatever has been compressed already. *)
Lemma buffers_out accepted : exists n, length (on_disk accepted) = n * BUF_CAPACITY.
Proof.
  unfold on_disk, buf_after. induction accepted as [|x l IH] using rev_ind; [exists 0; reflexivity|]. destruct IH as (n & E).
  rewrite fold_left_app. cbn [fold_left]. pose proof (buf_invariant l) as (_ & HL). unfold buf_after in HL.
  set (b := fold_left buf_write l ([], [])) in *. unfold buf_write.
  destruct (Nat.ltb_spec (length (snd b)) BUF_CAPACITY) as [H|H]; cbn [fst snd].
  - exists n. exact E.
  - exists (S n). rewrite app_length, E, (Nat.le_antisymm _ _ HL H). clear. generalize BUF_CAPACITY. intros k. cbn [Nat.mul]. apply Nat.add_comm.
Qed.
Theorem C70_whole_buffers : forall p cpus c d s out q, process_of p cpus c d s -> doing s = Encoding out q ->
  exists part buffers, fs_get (dir s) out = Some part /\ length part = buffers * (8 * 1024).
Proof.
  intros p cpus c d s out q HP. revert out q. induction HP as [|s s' HP IH HS]; intros out q E; [discriminate|].
  destruct HS; cbn [doing dir] in *; try discriminate.
  - destruct (read_file_header _); discriminate.
  - injection E as <- <-. destruct (create_get _ _ H0) as (_ & ->). exists [], 0. rewrite fs_get_set_same. auto.
  - injection E as <- <-. destruct (buffers_out (w_out (bw_sink (en_bw (c_enc s'))))) as (n & HN).
    eexists. exists n. rewrite fs_get_set_same. split; [reflexivity|exact HN].
  - destruct r; discriminate.
Qed.

(** [compress a] on the file "x", killed right after the output was created; then again. *)
Definition one_file : fs := [([97], [120])].
Example C70_case : exists s, process_of Checked 2 (Compress [[97]] None None) one_file s /\ bytes_in one_file /\
  dir s = one_file ++ [([97; 46; 98; 122; 50], [])] /\
  (forall fuel, try_main fuel Checked 2 ideal_disk (Compress [[97]] None None) (dir s) = (ExitError, dir s)) /\
  exists fuel d', try_main fuel Checked 2 ideal_disk (Compress [[97]] None None) one_file = (ExitOk, d') /\
    exists out, fs_get d' [97; 46; 98; 122; 50] = Some out /\ length out = 37.
Proof.
  eexists. split.
  { eapply process_step; [eapply process_step; [apply process_start|]|].
    - apply (@step_open Checked 2 (Compress [[97]] None None) [97] [] one_file [120]). reflexivity.
    - eapply step_create_encode with (d1 := one_file ++ [([97; 46; 98; 122; 50], [])]); [reflexivity|vm_compute; reflexivity]. }
  split; [intros f content E; cbn [one_file fs_get] in E; destruct (nats_eqb [97] f); [|discriminate]; injection E as <-; small_bytes|].
  split; [reflexivity|]. split; [intros fuel; reflexivity|].
  exists 3. eexists. split; [vm_compute; reflexivity|]. eexists. split; [vm_compute; reflexivity|reflexivity].
Qed.
(** [decompress a.b] of a file with two blocks, killed between them *)
Definition two_block_file : fs := [([97; 46; 98], PropertiesRobust.two_blocks)].
Example C70_case_decompress : exists s, process_of Wrapping 2 (Decompress [[97; 46; 98]]) two_block_file s /\
  fs_get (dir s) [97] = Some [97; 98; 99; 100; 101] /\
  exists d', (forall fuel, try_main fuel Wrapping 2 ideal_disk (Decompress [[97; 46; 98]]) two_block_file = (ExitOk, d')) /\
    fs_get d' [97] = Some [97; 98; 99; 100; 101; 120; 121; 122].
Proof.
  eexists. split.
  { eapply process_step; [eapply process_step; [eapply process_step; [apply process_start|]|]|].
    - apply (@step_open Wrapping 2 (Decompress [[97; 46; 98]]) [97; 46; 98] [] two_block_file PropertiesRobust.two_blocks). reflexivity.
    - eapply step_create_decode; [reflexivity|vm_compute; reflexivity].
    - destruct (read_file_header (br_from_reader PropertiesRobust.two_blocks)) as [r| | |] eqn:E; vm_compute in E; try discriminate E. injection E as <-.
      eapply step_block; [vm_compute; reflexivity|vm_compute; reflexivity]. }
  split; [vm_compute; reflexivity|]. eexists. split; [intros fuel; vm_compute; reflexivity|vm_compute; reflexivity].
Qed.
Print Assumptions C70_nothing_lost.
Print Assumptions C70_history.
Print Assumptions C70_result.
Print Assumptions C70_whole_buffers.
Print Assumptions C70_any_moment.
Print Assumptions C70_goes_on.
Print Assumptions C70_ends.
Print Assumptions C70_can_finish.
Print Assumptions C71_rerun_refuted.
Print Assumptions C71_resume.

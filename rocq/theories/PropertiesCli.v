(** * The command line tool: C21, C35 - C37, C44 - C46, C62

    Words used in the statements: SpecStream ([compressed], [decompressed], [piece_safe]) and
    the model of the tool in Cli.v: [try_main fuel p cpus disk command directory] gives how
    the process ends and the directory it leaves; directories map names to contents
    ([fs_get]). *)
From Verif Require Import Base BaseFacts Bitwise BitwiseFacts SpecRle SpecBwt SpecBzip2 SpecStream Rle RleFacts Crc32 SymbolStatistics
  BlockEncoder Stream StreamFacts RoundTripFacts EncodeFacts SinkFacts DecodeFacts Cli PropertiesStream PropertiesThreads.

(** ** directories *)
Lemma nats_eqb_spec a b : nats_eqb a b = true <-> a = b.
Proof.
  split; [|intros ->; apply nats_eqb_refl]. revert b; induction a as [|x a IH]; intros [|y b]; cbn [nats_eqb]; try discriminate; auto.
  intros H. apply andb_true_iff in H as (H1 & H2). apply Nat.eqb_eq in H1. f_equal; auto.
Qed.
Lemma fs_get_set_same d f c : fs_get (fs_set d f c) f = Some c.
Proof.
  induction d as [|[g c0] d IH]; cbn [fs_set fs_get].
  - rewrite nats_eqb_refl. reflexivity.
  - destruct (nats_eqb g f) eqn:E; cbn [fs_get]; [rewrite nats_eqb_refl; reflexivity|]. rewrite E. auto.
Qed.
Lemma fs_get_set_other d f g c : g <> f -> fs_get (fs_set d f c) g = fs_get d g.
Proof.
  intros Hne. induction d as [|[h c0] d IH]; cbn [fs_set fs_get].
  - destruct (nats_eqb f g) eqn:E; auto. apply nats_eqb_spec in E. congruence.
  - destruct (nats_eqb h f) eqn:E; cbn [fs_get].
    + apply nats_eqb_spec in E. subst h. destruct (nats_eqb f g) eqn:E2; auto. apply nats_eqb_spec in E2. congruence.
    + destruct (nats_eqb h g); auto.
Qed.
(** [d'] is [d] with one more file *)
Definition adds (d d' : fs) (f : fname) (content : list nat) : Prop :=
  fs_get d f = None /\ fs_get d' f = Some content /\ forall g, g <> f -> fs_get d' g = fs_get d g.
Lemma create_adds d f d1 c : create_file d f = Some d1 -> adds d (fs_set d1 f c) f c.
Proof.
  unfold create_file. destruct (fs_get d f) eqn:E; try discriminate. intros H. injection H as <-.
  split; auto. split; [apply fs_get_set_same|]. intros g Hg. rewrite !fs_get_set_other by auto. reflexivity.
Qed.

(** ** one file *)
Lemma compress_one_effect fuel p dk n st d f e d' : compress_one fuel p dk n st d f = (e, d') ->
  (e = ExitError /\ d' = d) \/ (exists c, adds d d' (compress_name f) c).
Proof.
  unfold compress_one. destruct (fs_get d f) as [content|]; [|intros E; injection E as <- <-; auto].
  destruct (create_file d (compress_name f)) as [d1|] eqn:EC; [|intros E; injection E as <- <-; auto].
  destruct (encode_stream _ _ _ _ _ _) as [r w]. intros E. injection E as <- <-. right. eexists. apply create_adds; auto.
Qed.
Lemma decompress_one_effect p dk d f e d' : decompress_one p dk d f = (e, d') ->
  (e = ExitError /\ d' = d) \/ (exists c, adds d d' (decompress_name f) c).
Proof.
  unfold decompress_one. destruct (fs_get d f) as [content|]; [|intros E; injection E as <- <-; auto].
  destruct (create_file d (decompress_name f)) as [d1|] eqn:EC; [|intros E; injection E as <- <-; auto].
  destruct (decode_stream _ _ _) as [r w]. intros E. injection E as <- <-. right. eexists. apply create_adds; auto.
Qed.

(** ** C35: existing files are never touched *)
Lemma for_each_keeps one : (forall d f e d', one d f = (e, d') -> forall g c, fs_get d g = Some c -> fs_get d' g = Some c) ->
  forall files d e d', for_each_file one files d = (e, d') -> forall g c, fs_get d g = Some c -> fs_get d' g = Some c.
Proof.
  intros H. induction files as [|f files IH]; intros d e d' E g c HG; cbn [for_each_file] in E.
  - injection E as _ <-. auto.
  - destruct (one d f) as [e1 d1] eqn:E1. pose proof (H _ _ _ _ E1 _ _ HG) as HG1.
    destruct e1; try (injection E as _ <-; exact HG1). eapply IH; eauto.
Qed.
Lemma adds_keeps d d' f c : adds d d' f c -> forall g x, fs_get d g = Some x -> fs_get d' g = Some x.
Proof. intros (A & B & C) g x HG. rewrite C; auto. intros ->. congruence. Qed.
Theorem C35_never_overwrites : forall fuel p cpus dk command d e d',
  try_main fuel p cpus dk command d = (e, d') ->
  forall f content, fs_get d f = Some content -> fs_get d' f = Some content.
Proof.
  intros fuel p cpus dk c d e d' E. destruct c as [files|files n o]; cbn [try_main] in E; eapply for_each_keeps; try exact E.
  - intros d0 f0 e0 d1 E1 g x HG. apply decompress_one_effect in E1 as [(_ & ->)|(y & H)]; auto. eapply adds_keeps; eauto.
  - intros d0 f0 e0 d1 E1 g x HG. apply compress_one_effect in E1 as [(_ & ->)|(y & H)]; auto. eapply adds_keeps; eauto.
Qed.
(** a run that fails on its second file: the first output stays, the existing one too *)
Example C35_case : exists d e d', d = [([97], [1]); ([98], [2]); ([98; 46; 98; 122; 50], [9; 9])] /\
  try_main 3 Checked 1 ideal_disk (Compress [[97]; [98]] None None) d = (e, d') /\ e = ExitError /\ length d' = 4 /\
  fs_get d' [98; 46; 98; 122; 50] = Some [9; 9].
Proof. eexists; eexists; eexists. split; [reflexivity|]. split; [vm_compute; reflexivity|]. repeat split. Qed.
Print Assumptions C35_never_overwrites.

(** ** C36: names *)

(** the directory part of a path: empty, or something with a slash at its end *)
Definition directory (dir : fname) : Prop := dir = [] \/ exists up, dir = up ++ [47].
(** the name of a file inside its directory: not empty, without slash, not "." and not ".." *)
Definition plain_name (name : fname) : Prop := ~ In 47 name /\ name <> [] /\ name <> [46] /\ name <> [46; 46].
(** the path of a file: a directory and a name *)
Definition file_name (f : fname) : Prop := exists dir name, directory dir /\ plain_name name /\ f = dir ++ name.
Lemma plain_file_name f : plain_name f -> file_name f.
Proof. intros H. exists [], f. split; [left; reflexivity|]. split; [exact H|reflexivity]. Qed.
Ltac named := apply plain_file_name; repeat split; try discriminate; intros H; cbn [In] in H; intuition discriminate.
Lemma split_none sep l : ~ In sep l -> split_last sep l = None.
Proof.
  induction l as [|x l IH]; cbn [split_last In]; intros H; auto. rewrite IH by tauto.
  replace (x =? sep) with false; auto. symmetry. apply Nat.eqb_neq. intuition.
Qed.
Lemma split_app sep f e : ~ In sep e -> split_last sep (f ++ sep :: e) = Some (f, e).
Proof.
  intros He. induction f as [|x f IH]; cbn [app split_last].
  - rewrite split_none, Nat.eqb_refl by auto. reflexivity.
  - rewrite IH. reflexivity.
Qed.
Lemma split_back sep f b e : split_last sep f = Some (b, e) -> f = b ++ sep :: e /\ ~ In sep e.
Proof.
  revert b e; induction f as [|x f IH]; intros b e; cbn [split_last]; try discriminate.
  assert (split_last sep f = None -> ~ In sep f) as HN.
  { clear. induction f as [|y f IH]; cbn [split_last In]; auto.
    destruct (split_last sep f) as [[? ?]|]; try discriminate. destruct (Nat.eqb_spec y sep); try discriminate.
    intros _ [H|H]; [apply n; exact H|apply IH; auto]. }
  destruct (split_last sep f) as [[b0 e0]|] eqn:E.
  - intros H. injection H as <- <-. destruct (IH b0 e0 eq_refl) as (-> & H). auto.
  - destruct (Nat.eqb_spec x sep) as [->|]; try discriminate. intros H. injection H as <- <-. auto.
Qed.
Lemma nats_eqb_ne f g : f <> g -> nats_eqb f g = false.
Proof. intros H. destruct (nats_eqb f g) eqn:E; auto. apply nats_eqb_spec in E. congruence. Qed.
Lemma name_found_in k dir name : directory dir -> plain_name name -> file_name_in (S k) (dir ++ name) = Some (dir, name).
Proof.
  intros HD (HS & H0 & H1 & H2). cbn [file_name_in]. unfold SLASH, DOT. destruct HD as [->|(up & ->)].
  - cbn [app]. rewrite split_none by exact HS. rewrite !nats_eqb_ne by assumption. reflexivity.
  - rewrite <- app_assoc. cbn [app]. rewrite split_app by exact HS. rewrite !nats_eqb_ne by assumption. reflexivity.
Qed.
Lemma name_found dir name : directory dir -> plain_name name -> file_name_of (dir ++ name) = Some (dir, name).
Proof. apply name_found_in. Qed.
Lemma no_dot_bz2 : ~ In 46 bz2.
Proof. cbn [bz2 In]. intuition discriminate. Qed.
Lemma app_dot_named f e : ~ In 47 f -> ~ In 47 e -> f <> [] -> (e <> [] \/ f <> [46]) -> plain_name (f ++ 46 :: e).
Proof.
  intros Sf Se Hf He. split.
  - intros H. apply in_app_or in H as [H|[H|H]]; [auto|discriminate|auto].
  - destruct f as [|x f]; [congruence|]. destruct e as [|y e].
    + repeat split; try discriminate; destruct f as [|? [|? ?]]; try discriminate. intros E. injection E as ->. destruct He; congruence.
    + repeat split; try discriminate; destruct f as [|? [|? ?]]; discriminate.
Qed.

(** [compress] appends [.bz2] to the path; [decompress] takes that back. *)
Theorem C36_names : forall f, file_name f ->
  compress_name f = f ++ [46; 98; 122; 50] /\ decompress_name (compress_name f) = f.
Proof.
  intros f (dir & name & HD & HN & ->). assert (compress_name (dir ++ name) = dir ++ name ++ 46 :: bz2) as E.
  { unfold compress_name, set_extension, extension. rewrite name_found by auto. unfold file_stem.
    destruct (split_last DOT name) as [[b e]|] eqn:ES; [|reflexivity].
    apply split_back in ES as (-> & He). destruct b as [|x b]; [reflexivity|].
    unfold dot_bz2, DOT. destruct (e ++ [46; 98; 122; 50]) as [|y t] eqn:EY; [destruct e; discriminate|].
    rewrite <- EY. f_equal. rewrite <- app_assoc. reflexivity. }
  split; [rewrite E, <- app_assoc; reflexivity|]. rewrite E. unfold decompress_name, set_extension.
  destruct HN as (HS & H0 & H1 & H2). rewrite name_found; [|exact HD|].
  - unfold file_stem. unfold DOT. rewrite split_app by apply no_dot_bz2. destruct name; [congruence|reflexivity].
  - apply app_dot_named; auto. cbn [bz2 In]. intuition discriminate.
Qed.
(** consequence: different inputs have different outputs *)
Theorem C36_outputs_differ : forall f g, file_name f -> file_name g -> compress_name f = compress_name g -> f = g.
Proof.
  intros f g Hf Hg E. rewrite <- (proj2 (C36_names Hf)), <- (proj2 (C36_names Hg)), E. reflexivity.
Qed.
(** [decompress] drops whatever extension there is, [.bz2] or not; without one it refuses
    (the output name is the input name, which exists). *)
Theorem C36_decompress_name : forall dir name e, directory dir -> ~ In 47 name -> name <> [] -> ~ In 46 e -> ~ In 47 e ->
  (e <> [] \/ name <> [46]) -> decompress_name (dir ++ name ++ 46 :: e) = dir ++ name.
Proof.
  intros dir name e HD HS Hf He HSe Hor. unfold decompress_name, set_extension. rewrite name_found; [|exact HD|apply app_dot_named; auto].
  unfold file_stem, DOT. rewrite split_app by auto. destruct name; [congruence|reflexivity].
Qed.
Theorem C36_no_extension : forall fuel p cpus dk dir name rest d content, directory dir -> plain_name name -> ~ In 46 name ->
  fs_get d (dir ++ name) = Some content -> try_main fuel p cpus dk (Decompress ((dir ++ name) :: rest)) d = (ExitError, d).
Proof.
  intros fuel p cpus dk dir name rest d content HD HN Hdot HG. cbn [try_main for_each_file]. unfold decompress_one. rewrite HG.
  assert (decompress_name (dir ++ name) = dir ++ name) as ->.
  { unfold decompress_name, set_extension. rewrite name_found by auto. unfold file_stem. rewrite split_none by exact Hdot. reflexivity. }
  unfold create_file. rewrite HG. reflexivity.
Qed.
(** Whatever the command, the output is in the directory of the input. *)
Theorem C36_same_directory : forall dir name, directory dir -> plain_name name ->
  (exists out, compress_name (dir ++ name) = dir ++ out /\ plain_name out) /\
  (exists out, decompress_name (dir ++ name) = dir ++ out /\ out <> [] /\ ~ In 47 out).
Proof.
  intros dir name HD HN. split.
  - destruct (@C36_names (dir ++ name)) as (E & _); [exists dir, name; auto|]. exists (name ++ [46; 98; 122; 50]).
    split; [rewrite E, <- app_assoc; reflexivity|]. destruct HN as (HS & H0 & H1 & H2). apply app_dot_named; auto.
    cbn [In]. intuition discriminate.
  - exists (file_stem name). split; [unfold decompress_name, set_extension; rewrite name_found by auto; reflexivity|].
    destruct HN as (HS & H0 & _). unfold file_stem. destruct (split_last DOT name) as [[[|x b] e]|] eqn:ES; auto.
    apply split_back in ES as (-> & _). split; [discriminate|]. intros H. apply HS. apply in_or_app. auto.
Qed.
(** What stands after the name - slashes and "." components - is dropped: [compress a.x/./] would write [a.x.bz2]
    (if [a.x/./] could be opened, that is, if it were no directory). *)
Theorem C36_trailing : forall dir name, directory dir -> plain_name name ->
  (compress_name (dir ++ name ++ [47]) = compress_name (dir ++ name) /\ compress_name (dir ++ name ++ [47; 46]) = compress_name (dir ++ name)) /\
  (decompress_name (dir ++ name ++ [47]) = decompress_name (dir ++ name) /\ decompress_name (dir ++ name ++ [47; 46]) = decompress_name (dir ++ name)).
Proof.
  intros dir name HD HN.
  assert (file_name_of (dir ++ name ++ [47]) = file_name_of (dir ++ name) /\ file_name_of (dir ++ name ++ [47; 46]) = file_name_of (dir ++ name)) as (E1 & E2).
  { pose proof (fun k => @name_found_in k dir name HD HN) as HK.
    rewrite (name_found HD HN). unfold file_name_of. split.
    - cbn [file_name_in]. rewrite app_assoc. unfold SLASH. rewrite split_app by (intros []). cbn [nats_eqb orb].
      rewrite app_length. cbn [length]. replace (length (dir ++ name) + 1) with (S (length (dir ++ name))) by lia. apply HK.
    - cbn [file_name_in]. rewrite app_assoc. unfold SLASH. rewrite split_app by (cbn [In]; intuition discriminate).
      replace (nats_eqb [46] [] || nats_eqb [46] [DOT]) with true by reflexivity.
      rewrite app_length. cbn [length]. replace (length (dir ++ name) + 2) with (S (S (length (dir ++ name)))) by lia. apply HK. }
  unfold compress_name, decompress_name, set_extension, extension. rewrite E1, E2, (name_found HD HN). auto.
Qed.
(** A path without a file name - "..", "a/..", ".", "/", "//", the empty path - is its own output name. *)
Theorem C36_no_name : forall f, (exists dir, directory dir /\ (f = dir ++ [46; 46] \/ f = dir ++ [46; 46; 47])) \/ f = [46] \/ Forall (fun x => x = 47) f ->
  compress_name f = f /\ decompress_name f = f.
Proof.
  intros f H. assert (file_name_of f = None) as E.
  2:{ unfold compress_name, decompress_name, set_extension, extension. rewrite E. auto. }
  assert (forall k dir, directory dir -> file_name_in (S k) (dir ++ [46; 46]) = None) as HD.
  { intros k dir [->|(up & ->)]; [reflexivity|]. cbn [file_name_in]. rewrite <- app_assoc. cbn [app]. unfold SLASH.
    rewrite split_app by (cbn [In]; intuition discriminate). reflexivity. }
  destruct H as [(dir & D & [->| ->])|[->|H]].
  - apply HD. exact D.
  - unfold file_name_of. cbn [file_name_in]. replace (dir ++ [46; 46; 47]) with ((dir ++ [46; 46]) ++ SLASH :: []) by (rewrite <- app_assoc; reflexivity).
    rewrite split_app by (intros []). cbn [nats_eqb orb]. rewrite !app_length. cbn [length]. replace (length dir + 2 + 1) with (S (length dir + 2)) by lia. apply HD. exact D.
  - reflexivity.
  - unfold file_name_of. generalize (S (length f)). intros k.
    assert (forall m, file_name_in k (repeat 47 m) = None) as G.
    { induction k as [|k IH]; intros m; [reflexivity|]. cbn [file_name_in]. destruct m as [|m]; [reflexivity|].
      replace (repeat 47 (S m)) with (repeat 47 m ++ SLASH :: []) by (symmetry; apply (repeat_cons m 47)).
      rewrite split_app by (intros []). apply IH. }
    specialize (G (length f)). replace f with (repeat 47 (length f)); [exact G|]. symmetry.
    clear - H. induction H as [|x f -> HF IH]; [reflexivity|]. cbn [length repeat]. rewrite <- IH. reflexivity.
Qed.
(** "a.tar", ".profile", "x.", "./d.e/f" *)
Example C36_case : file_name [97; 46; 116; 97; 114] /\ file_name [46; 112; 114; 111; 102; 105; 108; 101] /\ file_name [120; 46] /\
  file_name [46; 47; 100; 46; 101; 47; 102] /\ compress_name [46; 47; 100; 46; 101; 47; 102] = [46; 47; 100; 46; 101; 47; 102; 46; 98; 122; 50] /\
  decompress_name [46; 47; 100; 46; 101; 47; 102] = [46; 47; 100; 46; 101; 47; 102] /\
  compress_name [120; 46] = [120; 46; 46; 98; 122; 50].
Proof.
  split; [named|]. split; [named|]. split; [named|]. split; [|repeat split].
  exists [46; 47; 100; 46; 101; 47], [102]. split; [right; exists [46; 47; 100; 46; 101]; reflexivity|]. split; [|reflexivity].
  repeat split; try discriminate. cbn [In]. intuition discriminate.
Qed.
Print Assumptions C36_names.
Print Assumptions C36_outputs_differ.
Print Assumptions C36_decompress_name.
Print Assumptions C36_no_extension.
Print Assumptions C36_same_directory.
Print Assumptions C36_trailing.
Print Assumptions C36_no_name.

(** ** C37: round trip on the command line; arguments in order *)

Definition bz2_of (f : fname) : fname := f ++ [46; 98; 122; 50].
Lemma file_delivers content : delivers (file_reader content) content.
Proof.
  split; [reflexivity|]. unfold file_reader. destruct content as [|x c]; cbn [r_events].
  - split; [constructor|reflexivity].
  - cbn [flat_map event_data]. rewrite app_nil_r. split; [repeat constructor; discriminate|reflexivity].
Qed.
Definition thread_count (threads : option nat) (cpus : nat) : nat := match threads with Some n => n | None => cpus end.

(** [compress f] ends with status 0 and adds the file [f.bz2] with the library's stream *)
Theorem C37_compress : forall p cpus threads f d content, file_name f -> bytes content -> 1 <= thread_count threads cpus ->
  fs_get d f = Some content -> fs_get d (bz2_of f) = None ->
  exists out, (forall p n, 1 <= n -> compressed p n Single content out) /\
    exists enough d', adds d d' (bz2_of f) out /\
      forall fuel, enough <= fuel -> try_main fuel p cpus ideal_disk (Compress [f] threads None) d = (ExitOk, d').
Proof.
  intros p cpus threads f d content Hf HB Hn HG HO. destruct (C31_never_panics HB) as (out & _ & HC).
  exists out. split; auto. destruct (HC p _ Hn _ (file_delivers content)) as (enough & HE).
  exists enough. eexists. split.
  2:{ intros fuel Hfu. cbn [try_main for_each_file strategy_of_options]. unfold compress_one. rewrite HG.
      rewrite (proj1 (C36_names Hf)). fold (bz2_of f). unfold create_file. rewrite HO. fold (thread_count threads cpus).
      change (mk_writer (buffered_answers (dk_free ideal_disk)) []) with (good_sink []).
      rewrite (HE fuel Hfu). cbn [exit_of good_sink w_out ideal_disk dk_free buffered_file]. reflexivity. }
  apply create_adds. unfold create_file. rewrite HO. reflexivity.
Qed.
(** [decompress f.bz2] on any file that the library decompresses to [content] *)
Theorem C37_decompress : forall fuel p cpus f d input content, file_name f -> decompressed p input content ->
  fs_get d (bz2_of f) = Some input -> fs_get d f = None ->
  exists d', adds d d' f content /\ try_main fuel p cpus ideal_disk (Decompress [bz2_of f]) d = (ExitOk, d').
Proof.
  intros fuel p cpus f d input content Hf HD HG HN. eexists. split.
  2:{ cbn [try_main for_each_file]. unfold decompress_one. rewrite HG.
      pose proof (C36_names Hf) as (E1 & E2). rewrite E1 in E2. fold (bz2_of f) in E2. rewrite E2.
      unfold create_file. rewrite HN. unfold decompressed, good_sink in HD. cbn [ideal_disk dk_answers]. rewrite HD.
      cbn [exit_of w_out]. reflexivity. }
  apply create_adds. unfold create_file. rewrite HN. reflexivity.
Qed.
(** Both together, for contents that the library restores (C01). *)
Theorem C37_round_trip_partial : forall p p' cpus threads f d content, file_name f -> bytes content ->
  (N.of_nat (length content) <= 720000)%N -> piece_safe content -> 1 <= thread_count threads cpus ->
  fs_get d f = Some content -> fs_get d (bz2_of f) = None ->
  exists out enough d', adds d d' (bz2_of f) out /\
    (forall fuel, enough <= fuel -> try_main fuel p cpus ideal_disk (Compress [f] threads None) d = (ExitOk, d')) /\
    forall fuel d2, fs_get d2 (bz2_of f) = Some out -> fs_get d2 f = None ->
      exists d3, adds d2 d3 f content /\ try_main fuel p' cpus ideal_disk (Decompress [bz2_of f]) d2 = (ExitOk, d3).
Proof.
  intros p p' cpus threads f d content Hf HB HL HS Hn HG HO.
  destruct (@C37_compress p cpus threads f d content Hf HB Hn HG HO) as (out & HC & enough & d' & HA & HR).
  exists out, enough, d'. split; auto. split; auto. intros fuel d2 H2 H3.
  apply C37_decompress with (input := out); auto.
  destruct (C01_round_trip_one_block_partial HB HL HS) as (out' & HC' & HD).
  destruct (delivers_exists content) as (rd & HDe).
  pose proof (returns_det (HC Checked 1 (le_n _) rd HDe) (HC' Checked 1 (le_n _) rd HDe)) as E. injection E as ->. apply HD.
Qed.
(** It fails for the file "f" with contents "baaa": status 101, and "f" is left empty. *)
Theorem C37_round_trip_refuted : exists d out d', fs_get d [102] = Some [98; 97; 97; 97] /\
  (forall p, exists enough, forall fuel, enough <= fuel -> try_main fuel p 4 ideal_disk (Compress [[102]] None None) d = (ExitOk, d')) /\
  adds d d' (bz2_of [102]) out /\
  forall p fuel, exists d3, try_main fuel p 4 ideal_disk (Decompress [bz2_of [102]]) [(bz2_of [102], out)] = (ExitPanic, d3) /\
    fs_get d3 [102] = Some [].
Proof.
  exists [([102], [98; 97; 97; 97])].
  assert (file_name [102]) as Hf by named.
  assert (bytes [98; 97; 97; 97]) as HB by small_bytes.
  exists (w_out (snd (seq_encode Wrapping Single [[98; 97; 97; 97]] (good_sink [])))).
  exists [([102], [98; 97; 97; 97]); (bz2_of [102], w_out (snd (seq_encode Wrapping Single [[98; 97; 97; 97]] (good_sink []))))].
  split; [reflexivity|]. split; [|split].
  - intros p. assert (1 <= 4) as Hn by lia.
    assert (compressed p 4 Single [98; 97; 97; 97] (w_out (snd (seq_encode Wrapping Single [[98; 97; 97; 97]] (good_sink []))))) as HC.
    { apply compressed_seq with (ps := [[98; 97; 97; 97]]); [apply small_cuts; [discriminate|cbn; lia]|exact Hn|].
      destruct p; vm_compute; reflexivity. }
    destruct (HC _ (file_delivers [98; 97; 97; 97])) as (enough & HE). exists enough. intros fuel Hfu.
    cbn [try_main for_each_file strategy_of_options]. unfold compress_one. cbn [fs_get nats_eqb Nat.eqb andb].
    rewrite (proj1 (C36_names Hf)). unfold create_file. cbn [fs_get nats_eqb Nat.eqb andb app].
    change (mk_writer (buffered_answers (dk_free ideal_disk)) []) with (good_sink []).
    rewrite (HE fuel Hfu). cbn [exit_of good_sink w_out ideal_disk dk_free buffered_file]. reflexivity.
  - repeat split. intros g Hg. cbn [fs_get]. destruct (nats_eqb [102] g); auto.
    destruct (nats_eqb (bz2_of [102]) g) eqn:E; auto. apply nats_eqb_spec in E. congruence.
  - intros p fuel. eexists. split; [destruct p; vm_compute; reflexivity|reflexivity].
Qed.

(** *** many files *)

(** the library restores this content (C01 says when) *)
Definition restorable (content : list nat) : Prop :=
  forall out, (forall p n, 1 <= n -> compressed p n Single content out) -> forall p, decompressed p out content.
Lemma compressed_same content out out' : (forall p n, 1 <= n -> compressed p n Single content out) ->
  (forall p n, 1 <= n -> compressed p n Single content out') -> out = out'.
Proof.
  intros HC HC'. destruct (delivers_exists content) as (rd & HDe).
  pose proof (returns_det (HC Checked 1 (le_n _) rd HDe) (HC' Checked 1 (le_n _) rd HDe)) as E. injection E as E. exact E.
Qed.
Lemma restorable_small content : bytes content -> (N.of_nat (length content) <= 720000)%N -> piece_safe content -> restorable content.
Proof.
  intros HB HL HS out HC. destruct (C01_round_trip_one_block_partial HB HL HS) as (out' & HC' & HD).
  rewrite (compressed_same HC HC'). exact HD.
Qed.
Lemma bz2_differ f g : f <> g -> bz2_of f <> bz2_of g.
Proof. intros H E. apply H. unfold bz2_of in E. apply app_inv_tail in E. exact E. Qed.
Lemma compress_cons fuel p cpus threads options f rest d d1 : try_main fuel p cpus ideal_disk (Compress [f] threads options) d = (ExitOk, d1) ->
  try_main fuel p cpus ideal_disk (Compress (f :: rest) threads options) d = try_main fuel p cpus ideal_disk (Compress rest threads options) d1.
Proof.
  cbn [try_main for_each_file]. destruct (compress_one _ _ _ _ _ d f) as [[| | |] d2]; try discriminate. intros E.
  assert (d2 = d1) as -> by congruence. reflexivity.
Qed.
Lemma decompress_cons fuel p cpus f rest d d1 : try_main fuel p cpus ideal_disk (Decompress [f]) d = (ExitOk, d1) ->
  try_main fuel p cpus ideal_disk (Decompress (f :: rest)) d = try_main fuel p cpus ideal_disk (Decompress rest) d1.
Proof.
  cbn [try_main for_each_file]. destruct (decompress_one _ _ d f) as [[| | |] d2]; try discriminate. intros E.
  assert (d2 = d1) as -> by congruence. reflexivity.
Qed.
(** [compress] of any list of files whose outputs do not exist adds all outputs. *)
Theorem C37_compress_many : forall p cpus threads files d, NoDup files -> 1 <= thread_count threads cpus ->
  (forall f, In f files -> file_name f /\ fs_get d (bz2_of f) = None /\ exists content, fs_get d f = Some content /\ bytes content) ->
  exists enough d', (forall fuel, enough <= fuel -> try_main fuel p cpus ideal_disk (Compress files threads None) d = (ExitOk, d')) /\
    (forall g, ~ In g (map bz2_of files) -> fs_get d' g = fs_get d g) /\
    forall f content, In f files -> fs_get d f = Some content ->
      exists out, fs_get d' (bz2_of f) = Some out /\ forall p n, 1 <= n -> compressed p n Single content out.
Proof.
  intros p cpus threads files. induction files as [|f files IH]; intros d HD Hn HF.
  - exists 0, d. split; [reflexivity|]. split; [auto|intros f content []].
  - inversion HD as [|? ? Hnf HD']; subst. destruct (HF f (or_introl eq_refl)) as (Hf & HO & content & HG & HB).
    destruct (@C37_compress p cpus threads f d content Hf HB Hn HG HO) as (out & HC & n1 & d1 & (_ & A1 & A2) & HR).
    assert (forall g, In g files -> fs_get d1 g = fs_get d g) as HSame.
    { intros g Hg. apply A2. intros ->. destruct (HF (bz2_of f) (or_intror Hg)) as (_ & _ & c & E & _). congruence. }
    assert (forall g, In g files -> bz2_of g <> bz2_of f) as HNE by (intros g Hg; apply bz2_differ; intros ->; auto).
    destruct (IH d1 HD' Hn) as (n2 & d' & HR2 & HO2 & HP2).
    { intros g Hg. destruct (HF g (or_intror Hg)) as (H1 & H2 & c & H3 & H4). split; [exact H1|]. split; [rewrite A2; auto|].
      exists c. split; [rewrite HSame; auto|exact H4]. }
    exists (n1 + n2), d'. split; [|split].
    + intros fuel Hfu. rewrite (@compress_cons fuel p cpus threads None f files d d1) by (apply HR; lia). apply HR2. lia.
    + intros g Hg. cbn [map In] in Hg. rewrite HO2 by auto. apply A2. intros ->. auto.
    + intros g c [<-|Hg] HGc.
      * assert (c = content) as -> by congruence. exists out. split; [|exact HC]. rewrite HO2; [exact A1|].
        intros Hin. apply in_map_iff in Hin as (h & E & Hh). exact (HNE h Hh E).
      * apply HP2; [exact Hg|]. rewrite HSame; auto.
Qed.
(** [decompress] of the outputs in a directory without the originals gives all of them back,
    if the library restores their contents. *)
Theorem C37_round_trip_many_partial : forall p p' cpus cpus' threads files d, NoDup files -> 1 <= thread_count threads cpus ->
  (forall f, In f files -> file_name f /\ fs_get d (bz2_of f) = None /\ exists content, fs_get d f = Some content /\ bytes content /\ restorable content) ->
  exists enough d', (forall fuel, enough <= fuel -> try_main fuel p cpus ideal_disk (Compress files threads None) d = (ExitOk, d')) /\
    (forall g, ~ In g (map bz2_of files) -> fs_get d' g = fs_get d g) /\
    forall d2, (forall f, In f files -> fs_get d2 (bz2_of f) = fs_get d' (bz2_of f) /\ fs_get d2 f = None) ->
      exists d3, (forall fuel, try_main fuel p' cpus' ideal_disk (Decompress (map bz2_of files)) d2 = (ExitOk, d3)) /\
        (forall f, In f files -> fs_get d3 f = fs_get d f) /\ forall g, ~ In g files -> fs_get d3 g = fs_get d2 g.
Proof.
  intros p p' cpus cpus' threads files d HD Hn HF.
  destruct (@C37_compress_many p cpus threads files d HD Hn) as (enough & d' & HR & HO & HP).
  { intros f Hf. destruct (HF f Hf) as (A & B & c & C & D & _). eauto. }
  exists enough, d'. split; [exact HR|]. split; [exact HO|]. clear HR HO.
  induction files as [|f files IH]; intros d2 H2.
  - exists d2. split; [reflexivity|]. split; [intros f []|auto].
  - inversion HD as [|? ? Hnf HD']; subst. destruct (HF f (or_introl eq_refl)) as (Hf & _ & content & HG & HB & HRes).
    destruct (HP f content (or_introl eq_refl) HG) as (out & HGo & HC). destruct (H2 f (or_introl eq_refl)) as (E2 & E3). rewrite HGo in E2.
    assert (exists d1, adds d2 d1 f content /\ forall fuel, try_main fuel p' cpus' ideal_disk (Decompress [bz2_of f]) d2 = (ExitOk, d1)) as (d1 & (_ & A1 & A2) & HR1).
    { destruct (@C37_decompress 0 p' cpus' f d2 out content Hf (HRes out HC p') E2 E3) as (d1 & HA & HR). exists d1. split; [exact HA|].
      intros fuel. exact HR. }
    destruct (IH HD') with (d2 := d1) as (d3 & HR3 & HS3 & HU3).
    { intros g Hg. apply HF. right. exact Hg. }
    { intros g c Hg HGc. apply HP; [right; exact Hg|exact HGc]. }
    { intros g Hg. destruct (H2 g (or_intror Hg)) as (F1 & F2).
      assert (g <> f) as Hne by (intros ->; auto). split; [|rewrite A2; auto].
      rewrite A2; [exact F1|]. intros E. destruct (HF g (or_intror Hg)) as (_ & HN & _). rewrite E in HN. congruence. }
    exists d3. split; [|split].
    + intros fuel. cbn [map]. rewrite (@decompress_cons fuel p' cpus' (bz2_of f) (map bz2_of files) d2 d1) by apply HR1. apply HR3.
    + intros g [<-|Hg]; [|apply HS3; exact Hg]. rewrite HU3 by exact Hnf. congruence.
    + intros g Hg. cbn [In] in Hg. rewrite HU3 by tauto. apply A2. intros ->. auto.
Qed.
(** two files, "f" and "a.b/c" *)
Example C37_many_case : let files := [[102]; [97; 46; 98; 47; 99]] in let d := [([102], hello); ([97; 46; 98; 47; 99], hello)] in
  NoDup files /\ (forall f, In f files -> file_name f /\ fs_get d (bz2_of f) = None /\ exists content, fs_get d f = Some content /\ bytes content /\ restorable content).
Proof.
  split; [repeat constructor; cbn [In]; intuition discriminate|]. intros f [<-|[<-|[]]].
  - split; [named|]. split; [reflexivity|]. exists hello. split; [reflexivity|]. split; [apply C01_case|].
    apply restorable_small; [apply C01_case|vm_compute; discriminate|apply C01_case].
  - split; [exists [97; 46; 98; 47], [99]; split; [right; exists [97; 46; 98]; reflexivity|]; split; [|reflexivity]; repeat split; try discriminate; cbn [In]; intuition discriminate|].
    split; [reflexivity|]. exists hello. split; [reflexivity|]. split; [apply C01_case|].
    apply restorable_small; [apply C01_case|vm_compute; discriminate|apply C01_case].
Qed.

(** *** what exit status 0 means *)
Lemma rounds_more fuel : forall more p n st rd e r e', encode_rounds fuel p n st rd e = (r, e') -> r <> NoFuel ->
  fuel <= more -> encode_rounds more p n st rd e = (r, e').
Proof.
  induction fuel as [|fuel IH]; intros more p n st rd e r e' E HR HM; cbn [encode_rounds] in E; [congruence|].
  destruct more as [|more]; [lia|]. cbn [encode_rounds].
  destruct (read_round n rd) as [[[ws fin] rd']| | |]; auto.
  destruct (flush_round p st ws e) as [r1 e1]. destruct r1; auto. destruct fin; auto. apply IH; auto. lia.
Qed.
Lemma encode_more fuel more p rd w n st r w' : encode_stream fuel p rd w n st = (r, w') -> r <> NoFuel -> fuel <= more ->
  encode_stream more p rd w n st = (r, w').
Proof.
  unfold encode_stream. intros E HR HM. destruct (write_or_panic file_header _) as [r0 e0]. destruct r0; auto.
  destruct (encode_rounds fuel p n st rd e0) as [r1 e1] eqn:E1.
  assert (r1 <> NoFuel) as HN by (intros ->; injection E as <- _; congruence).
  rewrite (rounds_more _ _ _ _ _ E1 HN HM). exact E.
Qed.

Lemma good_sink_stays fuel p rd n st u w : encode_stream fuel p rd (good_sink []) n st = (Ok u, w) -> w = good_sink (w_out w).
Proof.
  unfold encode_stream, good_sink. intros E.
  destruct (write_or_panic file_header (mk_enc (bw_from_writer (mk_writer [] [])) 0)) as [[u1| | |] e1] eqn:E1; try discriminate.
  destruct (encode_rounds fuel p n st rd e1) as [[u2| | |] e2] eqn:E2; try discriminate.
  destruct (write_or_panic (stream_footer (en_crc e2)) e2) as [[u3| | |] e3] eqn:E3; try discriminate.
  apply room_write_or_panic in E1 as (l1 & G1 & _); [|reflexivity].
  apply room_rounds in E2 as (l2 & G2 & _); [|apply G1].
  apply room_write_or_panic in E3 as (l3 & (_ & GS) & _); [|apply G2].
  destruct (bw_finalize (en_bw e3)) as [r bw] eqn:E4.
  assert (w_script (bw_sink bw) = []) as HS.
  { unfold bw_finalize in E4. destruct (bw_pending (en_bw e3)) as [|b pe].
    - injection E4 as _ <-. exact GS.
    - unfold w_write in E4. rewrite GS in E4. injection E4 as _ <-. reflexivity. }
  injection E as _ <-. destruct (bw_sink bw) as [sc o]. cbn [w_script w_out] in *. subst sc. reflexivity.
Qed.

(** [decompress f] ends with status 0 only when the library accepts the file and the
    output did not exist before; the output then holds what the library made of the file. *)
Theorem C37_decompress_status : forall fuel p cpus f d d',
  try_main fuel p cpus ideal_disk (Decompress [f]) d = (ExitOk, d') ->
  exists input content, fs_get d f = Some input /\ decompressed p input content /\ adds d d' (decompress_name f) content.
Proof.
  intros fuel p cpus f d d' E. cbn [try_main for_each_file] in E.
  destruct (decompress_one p ideal_disk d f) as [e d1] eqn:E1. destruct e; try discriminate. injection E as <-.
  unfold decompress_one in E1. destruct (fs_get d f) as [input|] eqn:EG; [|discriminate].
  destruct (create_file d (decompress_name f)) as [d2|] eqn:EC; [|discriminate].
  destruct (decode_stream p input (mk_writer (dk_answers ideal_disk) [])) as [r w] eqn:ED. injection E1 as Er <-.
  exists input, (w_out w). split; auto. split; [|apply create_adds; auto].
  unfold decompressed, good_sink. cbn [ideal_disk dk_answers] in ED. rewrite ED.
  assert (r = Ok tt) as -> by (destruct r as [[]| | |]; auto; discriminate).
  pose proof (decode_stream_trace p input (mk_writer [] [])) as G. rewrite ED in G. destruct (stream_trace p input) as [bl e].
  cbn [w_script w_out] in G. rewrite offer_nil in G. injection G as _ ->. reflexivity.
Qed.
(** [compress f] with any options: status 0 means that the library's [encode_stream] ended
    normally on the file's contents, with the thread count and the coding strategy asked
    for, and that the output holds what it wrote. *)
Definition strategy_for (options : option encoding_options) (st : strategy) : Prop :=
  match options with
  | None | Some OptSingle => st = Single
  | Some (OptKMeans iterations tables) => exists t i, st = BlockWise t i /\ t = tables /\ i = iterations
  end.
Theorem C37_compress_status : forall fuel p cpus threads options f d d',
  try_main fuel p cpus ideal_disk (Compress [f] threads options) d = (ExitOk, d') ->
  exists content out rd st, fs_get d f = Some content /\ delivers rd content /\ strategy_for options st /\
    encode_returns p rd (good_sink []) (thread_count threads cpus) st (Ok tt, good_sink out) /\
    adds d d' (compress_name f) out.
Proof.
  intros fuel p cpus threads options f d d' E. cbn [try_main for_each_file] in E. fold (thread_count threads cpus) in E.
  destruct (compress_one fuel p ideal_disk (thread_count threads cpus) (strategy_of_options options) d f) as [e d1] eqn:E1.
  destruct e; try discriminate. injection E as <-.
  unfold compress_one in E1. destruct (fs_get d f) as [content|] eqn:EG; [|discriminate].
  destruct (create_file d (compress_name f)) as [d2|] eqn:EC; [|discriminate].
  change (mk_writer (buffered_answers (dk_free ideal_disk)) []) with (good_sink []) in E1.
  destruct (encode_stream fuel p (file_reader content) (good_sink []) (thread_count threads cpus) (strategy_of_options options)) as [r w] eqn:ED.
  injection E1 as Er <-. cbn [ideal_disk dk_free buffered_file].
  exists content, (w_out w), (file_reader content), (strategy_of_options options).
  split; auto. split; [apply file_delivers|]. split; [|split].
  - destruct options as [[|i t]|]; cbn [strategy_for strategy_of_options]; eauto.
  - assert (r = Ok tt) as -> by (destruct r as [[]| | |]; auto; discriminate).
    exists fuel. intros more HM. rewrite (encode_more _ _ _ _ _ ED) by (auto; discriminate).
    f_equal. eapply good_sink_stays; exact ED.
  - apply create_adds; auto.
Qed.

(** Arguments are processed one after the other, as if by separate commands, up to the
    first failure. *)
Inductive all_ok (one : fname -> fs -> exit * fs) : list fname -> fs -> fs -> Prop :=
| all_ok_nil d : all_ok one [] d d
| all_ok_cons f files d d1 d2 : one f d = (ExitOk, d1) -> all_ok one files d1 d2 -> all_ok one (f :: files) d d2.
Definition with_files (c : command) (files : list fname) : command :=
  match c with Decompress _ => Decompress files | Compress _ n o => Compress files n o end.
Definition files_of (c : command) : list fname := match c with Decompress files | Compress files _ _ => files end.
Theorem C37_in_order : forall fuel p cpus dk command d e d',
  try_main fuel p cpus dk command d = (e, d') ->
  let single := fun f d => try_main fuel p cpus dk (with_files command [f]) d in
  (e = ExitOk /\ all_ok single (files_of command) d d') \/
  (exists before f after d1, files_of command = before ++ f :: after /\ all_ok single before d d1 /\
     single f d1 = (e, d') /\ e <> ExitOk).
Proof.
  intros fuel p cpus dk c d e d' E single.
  assert (forall one files d e d', for_each_file one files d = (e, d') ->
    let s := fun f d => for_each_file one [f] d in
    (e = ExitOk /\ all_ok s files d d') \/
    (exists before f after d1, files = before ++ f :: after /\ all_ok s before d d1 /\ s f d1 = (e, d') /\ e <> ExitOk)) as G.
  { clear. intros one files d e d' E s. revert d E. induction files as [|f files IH]; intros d E; cbn [for_each_file] in E.
    - injection E as <- <-. left. split; auto. constructor.
    - destruct (one d f) as [e1 d1] eqn:E1.
      assert (s f d = (e1, d1)) as ES by (unfold s; cbn [for_each_file]; rewrite E1; destruct e1; reflexivity).
      destruct e1; try (right; exists [], f, files, d; injection E as <- <-; split; [reflexivity|]; split; [constructor|];
        split; [exact ES|discriminate]).
      destruct (IH d1 E) as [(-> & H)|(b & g & a & d2 & -> & H1 & H2 & H3)].
      + left. split; auto. econstructor; eauto.
      + right. exists (f :: b), g, a, d2. split; auto. split; [econstructor; eauto|]. auto. }
  destruct c as [files|files n o]; cbn [try_main] in E; apply G in E; exact E.
Qed.
Example C37_case : file_name [102] /\ bytes hello /\ piece_safe hello /\ (N.of_nat (length hello) <= 720000)%N /\
  fs_get [([102], hello)] [102] = Some hello /\ fs_get [([102], hello)] (bz2_of [102]) = None.
Proof. split; [named|]. split; [apply C01_case|]. split; [apply C01_case|]. repeat split; discriminate. Qed.
Print Assumptions C37_compress.
Print Assumptions C37_compress_many.
Print Assumptions C37_round_trip_many_partial.
Print Assumptions C37_decompress_status.
Print Assumptions C37_compress_status.
Print Assumptions C37_decompress.
Print Assumptions C37_round_trip_partial.
Print Assumptions C37_round_trip_refuted.
Print Assumptions C37_in_order.

(** ** C21 on the command line: [--threads 0] hangs *)
Theorem C21_command_line_refuted : forall fuel p cpus dk f rest options d content, file_name f ->
  fs_get d f = Some content -> fs_get d (bz2_of f) = None -> dk_free dk = None ->
  fst (try_main fuel p cpus dk (Compress (f :: rest) (Some 0) options) d) = ExitNever.
Proof.
  intros fuel p cpus dk f rest o d content Hf HG HO HF. cbn [try_main for_each_file]. unfold compress_one. rewrite HG.
  rewrite (proj1 (C36_names Hf)). fold (bz2_of f). unfold create_file. rewrite HO, HF.
  pose proof (C21_zero_threads_refuted p (strategy_of_options o) (file_reader content) [] fuel) as H.
  change (mk_writer (buffered_answers None) []) with (good_sink []).
  destruct (encode_stream fuel p (file_reader content) (good_sink []) 0 (strategy_of_options o)) as [r w].
  cbn [fst] in H. subst r. reflexivity.
Qed.
Print Assumptions C21_command_line_refuted.

(** ** C44: a full disk while compressing *)

(** What happens with [free] bytes of disk space and a stream of [length out] bytes: if
    the stream exceeds the bytes that can be flushed by less than a buffer the status is
    0 although the file is cut; otherwise the process panics. *)
Lemma roundup_ge free : (free < BUF_SIZE * (free / BUF_SIZE + 1))%N.
Proof. unfold BUF_SIZE. pose proof (N.div_mod free 8192 ltac:(discriminate)). pose proof (N.mod_lt free 8192 ltac:(discriminate)). lia. Qed.
Theorem C44_full_disk : forall p cpus threads f d content free answers, file_name f -> bytes content ->
  1 <= thread_count threads cpus -> fs_get d f = Some content -> fs_get d (bz2_of f) = None ->
  exists out, (forall p n, 1 <= n -> compressed p n Single content out) /\
    exists enough d', adds d d' (bz2_of f) (firstn (N.to_nat free) out) /\
      forall fuel, enough <= fuel ->
        try_main fuel p cpus (mk_disk (Some free) answers) (Compress [f] threads None) d =
        (if (N.of_nat (length out) <=? BUF_SIZE * (free / BUF_SIZE + 1))%N then ExitOk else ExitPanic, d').
Proof.
  intros p cpus threads f d content free answers Hf HB Hn HG HO. destruct (C31_never_panics HB) as (out & _ & HC).
  exists out. split; auto. destruct (HC p _ Hn _ (file_delivers content)) as (enough & HE).
  exists enough. eexists. split.
  - apply create_adds. unfold create_file. rewrite HO. reflexivity.
  - intros fuel Hfu. specialize (HE fuel Hfu). cbn [try_main for_each_file strategy_of_options]. unfold compress_one. rewrite HG.
    rewrite (proj1 (C36_names Hf)). fold (bz2_of f). unfold create_file. rewrite HO. fold (thread_count threads cpus).
    cbn [dk_free buffered_answers buffered_file]. unfold good_sink in HE. pose proof (roundup_ge free) as HR.
    destruct (N.leb_spec (N.of_nat (length out)) (BUF_SIZE * (free / BUF_SIZE + 1))) as [Hle|Hgt].
    + pose proof (@encode_room _ _ _ _ _ _ _ HE (N.to_nat (BUF_SIZE * (free / BUF_SIZE + 1)) - length out) [WFail]) as E.
      replace (length out + _) with (N.to_nat (BUF_SIZE * (free / BUF_SIZE + 1))) in E by lia.
      rewrite E. cbn [exit_of w_out]. reflexivity.
    + destruct (@encode_full _ _ _ _ _ _ _ HE (N.to_nat (BUF_SIZE * (free / BUF_SIZE + 1))) []) as (script & E); [lia|].
      rewrite E. cbn [exit_of w_out]. rewrite firstn_firstn, Nat.min_l by lia. reflexivity.
Qed.

(** So on a disk without any space left a file whose stream has at most 8192 bytes is
    "compressed" with exit status 0 and an empty output. *)
Theorem C44_status_zero_refuted : forall p cpus threads f d content answers out, file_name f -> bytes content ->
  1 <= thread_count threads cpus -> fs_get d f = Some content -> fs_get d (bz2_of f) = None ->
  compressed p (thread_count threads cpus) Single content out -> (N.of_nat (length out) <= 8192)%N ->
  exists enough d', adds d d' (bz2_of f) [] /\
    forall fuel, enough <= fuel -> try_main fuel p cpus (mk_disk (Some 0%N) answers) (Compress [f] threads None) d = (ExitOk, d').
Proof.
  intros p cpus threads f d content answers out Hf HB Hn HG HO HC HL.
  destruct (@C44_full_disk p cpus threads f d content 0%N answers Hf HB Hn HG HO) as (out' & HC' & enough & d' & HA & HR).
  destruct (delivers_exists content) as (rd & HDe).
  pose proof (returns_det (HC rd HDe) (HC' p _ Hn rd HDe)) as E. injection E as <-.
  exists enough, d'. split; [exact HA|]. intros fuel Hfu. rewrite (HR fuel Hfu). f_equal.
  replace (N.of_nat (length out) <=? _)%N with true; auto. symmetry. apply N.leb_le. exact HL.
Qed.
(** If there is space for the whole stream it is all there, and a panic is the only other way out. *)
Theorem C44_enough_space : forall p cpus threads f d content free answers out, file_name f -> bytes content ->
  1 <= thread_count threads cpus -> fs_get d f = Some content -> fs_get d (bz2_of f) = None ->
  compressed p (thread_count threads cpus) Single content out -> (N.of_nat (length out) <= free)%N ->
  exists enough d', adds d d' (bz2_of f) out /\
    forall fuel, enough <= fuel -> try_main fuel p cpus (mk_disk (Some free) answers) (Compress [f] threads None) d = (ExitOk, d').
Proof.
  intros p cpus threads f d content free answers out Hf HB Hn HG HO HC HL.
  destruct (@C44_full_disk p cpus threads f d content free answers Hf HB Hn HG HO) as (out' & HC' & enough & d' & HA & HR).
  destruct (delivers_exists content) as (rd & HDe).
  pose proof (returns_det (HC rd HDe) (HC' p _ Hn rd HDe)) as E. injection E as <-.
  exists enough, d'. rewrite firstn_all2 in HA by lia. split; [exact HA|]. intros fuel Hfu. rewrite (HR fuel Hfu). f_equal.
  pose proof (roundup_ge free). replace (N.of_nat (length out) <=? _)%N with true; auto. symmetry. apply N.leb_le. lia.
Qed.
Example C44_case : exists d', try_main 3 Checked 1 (mk_disk (Some 10%N) []) (Compress [[102]] None None) [([102], [1; 2; 3])] = (ExitOk, d') /\
  length (match fs_get d' [102; 46; 98; 122; 50] with Some c => c | None => [] end) = 10 /\
  exists d2, try_main 3 Checked 1 ideal_disk (Compress [[102]] None None) [([102], [1; 2; 3])] = (ExitOk, d2) /\
  length (match fs_get d2 [102; 46; 98; 122; 50] with Some c => c | None => [] end) = 41.
Proof. eexists. split; [vm_compute; reflexivity|]. split; [reflexivity|]. eexists. split; vm_compute; reflexivity. Qed.
Print Assumptions C44_full_disk.
Print Assumptions C44_status_zero_refuted.
Print Assumptions C44_enough_space.

(** ** C45: what a failing command leaves behind *)

(** exit status 1 (the file is missing or the output exists): nothing *)
Theorem C45_error_leaves_nothing : forall fuel p cpus dk command f d d', files_of command = [f] ->
  try_main fuel p cpus dk command d = (ExitError, d') ->
  d' = d /\ (fs_get d f = None \/ exists old, fs_get d (match command with Decompress _ => decompress_name f | Compress _ _ _ => compress_name f end) = Some old).
Proof.
  intros fuel p cpus dk command f d d' EF E.
  destruct command as [files|files n o]; cbn [files_of] in EF; subst files; cbn [try_main for_each_file] in E.
  - unfold decompress_one in E. destruct (fs_get d f) as [content|]; [|injection E as <-; auto].
    unfold create_file in E. destruct (fs_get d (decompress_name f)) as [old|]; [injection E as <-; eauto|].
    destruct (decode_stream _ _ _) as [[u| | |] w]; discriminate.
  - unfold compress_one in E. destruct (fs_get d f) as [content|]; [|injection E as <-; auto].
    unfold create_file in E. destruct (fs_get d (compress_name f)) as [old|]; [injection E as <-; eauto|].
    destruct (encode_stream _ _ _ _ _ _) as [[u| | |] w]; discriminate.
Qed.
(** Any other failure leaves the output file behind, with whatever was written. *)
Theorem C45_partial_output_refuted : forall fuel p cpus dk command f d e d', files_of command = [f] ->
  try_main fuel p cpus dk command d = (e, d') -> e = ExitPanic ->
  exists partial_output, adds d d' (match command with Decompress _ => decompress_name f | Compress _ _ _ => compress_name f end) partial_output.
Proof.
  intros fuel p cpus dk command f d e d' EF E He.
  destruct command as [files|files n o]; cbn [files_of] in EF; subst files; cbn [try_main for_each_file] in E.
  - destruct (decompress_one p dk d f) as [e1 d1] eqn:E1. destruct e1; injection E as <- <-; try discriminate.
    apply decompress_one_effect in E1 as [(? & _)|(c & H)]; [discriminate|eauto].
  - destruct (compress_one _ _ _ _ _ _ _) as [e1 d1] eqn:E1. destruct e1; injection E as <- <-; try discriminate.
    apply compress_one_effect in E1 as [(? & _)|(c & H)]; [discriminate|eauto].
Qed.
(** it does happen: a file that is not a bzip2 stream *)
Example C45_case : try_main 0 Checked 1 ideal_disk (Decompress [[102; 46; 98]]) [([102; 46; 98], [1; 2; 3; 4; 5])] =
  (ExitPanic, [([102; 46; 98], [1; 2; 3; 4; 5]); ([102], [])]) /\
  try_main 0 Checked 1 ideal_disk (Decompress [[102; 46; 98]]) [([102], [7])] = (ExitError, [([102], [7])]).
Proof. split; vm_compute; reflexivity. Qed.
Print Assumptions C45_error_leaves_nothing.
Print Assumptions C45_partial_output_refuted.

(** ** C46: another process between the existence check and the creation *)

(** the file of the other process is emptied *)
Theorem C46_race_refuted : exists others d f theirs, fs_get d f = None /\ fs_get (others d) f = Some theirs /\ theirs <> [] /\
  exists d', create_file_shared others d f = Some d' /\ fs_get d' f = Some [].
Proof. exists (fun d => ([102], [1; 2]) :: d), [], [102], [1; 2]. repeat split; try discriminate. eexists. split; reflexivity. Qed.
(** exactly then is a file lost: all other files keep what the other process made of them *)
Theorem C46_without_race : forall others d f d', create_file_shared others d f = Some d' ->
  (forall g, g <> f -> fs_get d' g = fs_get (others d) g) /\ fs_get d' f = Some [] /\
  (fs_get (others d) f = None -> forall g c, fs_get (others d) g = Some c -> fs_get d' g = Some c).
Proof.
  unfold create_file_shared. intros others d f d'. destruct (fs_get d f); try discriminate. intros E. injection E as <-.
  split; [intros g Hg; apply fs_get_set_other; auto|]. split; [apply fs_get_set_same|].
  intros HN g c HG. rewrite fs_get_set_other; auto. intros ->. congruence.
Qed.
(** with nobody else at work this is [create_file] of the rest of the model *)
Theorem C46_alone : forall d f, create_file_shared (fun d => d) d f = create_file d f.
Proof. reflexivity. Qed.
Print Assumptions C46_race_refuted.
Print Assumptions C46_without_race.

(** ** C62: the documented output name of [decompress] *)

(** The README promises [f.out] for [f.bz2].  The tool writes [f] instead and leaves
    whatever is (or is not) called [f.out] alone. *)
Definition dot_out : fname := [46; 111; 117; 116].
Theorem C62_documented_name_refuted : forall fuel p cpus f d input content, file_name f -> decompressed p input content ->
  fs_get d (bz2_of f) = Some input -> fs_get d f = None ->
  exists d', try_main fuel p cpus ideal_disk (Decompress [bz2_of f]) d = (ExitOk, d') /\
    fs_get d' f = Some content /\ fs_get d' (f ++ dot_out) = fs_get d (f ++ dot_out).
Proof.
  intros fuel p cpus f d input content Hf HD HG HN.
  destruct (@C37_decompress fuel p cpus f d input content Hf HD HG HN) as (d' & (_ & A & B) & E).
  exists d'. split; auto. split; auto. apply B. intros H. apply (f_equal (@length nat)) in H.
  rewrite app_length in H. cbn [dot_out length] in H. lia.
Qed.
(** So [compress f] followed by [decompress f.bz2] in the same directory ends with an
    error: [compress] keeps [f], and [decompress] does not overwrite it. *)
Theorem C62_in_place_refuted : forall fuel p cpus dk f d input, file_name f -> fs_get d (bz2_of f) = Some input ->
  (exists content, fs_get d f = Some content) -> try_main fuel p cpus dk (Decompress [bz2_of f]) d = (ExitError, d).
Proof.
  intros fuel p cpus dk f d input Hf HG (content & HC). cbn [try_main for_each_file]. unfold decompress_one. rewrite HG.
  pose proof (C36_names Hf) as (E1 & E2). rewrite E1 in E2. fold (bz2_of f) in E2. rewrite E2.
  unfold create_file. rewrite HC. reflexivity.
Qed.
Example C62_case : exists d out, file_name [102] /\ decompressed Checked out [] /\ fs_get d (bz2_of [102]) = Some out /\ fs_get d [102] = None.
Proof.
  exists [([102; 46; 98; 122; 50], [66; 90; 104; 57; 23; 114; 69; 56; 80; 144; 0; 0; 0; 0])], [66; 90; 104; 57; 23; 114; 69; 56; 80; 144; 0; 0; 0; 0].
  split; [named|]. split; [vm_compute; reflexivity|]. split; reflexivity.
Qed.
Print Assumptions C62_documented_name_refuted.
Print Assumptions C62_in_place_refuted.

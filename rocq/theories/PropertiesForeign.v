(** * Properties of decompression of streams made by any encoder: C47, C48 (and C08)

    Words used in the statements: SpecBzip2 ([bunzip2_blocks], [contents_of], [parsed]: a
    reference decoder written from the format), SpecRle ([plain_counts], [rle1_expand]),
    SpecStream ([decompressed], [good_sink]), SpecCrc and the model's [decode_stream]. *)
From Verif Require Import Base BaseFacts SpecBits SpecCrc SpecRle SpecBzip2 SpecStream Bitwise Rle
  Crc32 Crc32Facts BlockDecoder Stream DecodeFacts ReferenceFacts PropertiesStream ForeignFacts AgreeFacts.

(** ** C08, for any run-length coded data

    Whatever encoder made it: the decoder expands it as the format says, unless some count
    byte is followed by three more bytes of its own value and a further byte. *)
Theorem C08_expand_any_partial : forall l, plain_counts l = true -> inverse_rle l = rle1_expand l.
Proof. intros l H. apply inverse_rle_plain; auto. Qed.
(** the count 2 is followed by two bytes of value 2, the count 255 by three at the end *)
Example C08_any_case :
  let l := [97; 97; 97; 97; 2; 2; 2; 98; 98; 98; 98; 255; 255; 255; 255] in
  (plain_counts l = true) /\ (length (rle1_expand l) = 270).
Proof. split; vm_compute; reflexivity. Qed.

(** ** C47: debug and release builds decompress alike *)

(** They do not: here a code length steps below zero and back up (the stream is not valid). *)
Theorem C47_builds_differ_refuted : exists file data, bytes file /\ bunzip2 file = None /\
  fst (decode_stream Checked file (good_sink [])) = Panic /\ decompressed Wrapping file data /\ data <> [].
Proof.
  exists [66; 90; 104; 49; 49; 65; 89; 38; 83; 89; 102; 169; 126; 121; 0; 0; 3; 129; 128; 60; 0; 16; 0; 32; 0; 48; 58; 163; 64; 54; 166; 158; 136; 148; 162; 89; 6; 24; 93; 201; 20; 225; 66; 65; 154; 165; 249; 228].
  exists (concat (repeat [97; 98; 114; 97; 99; 97; 100; 97; 98; 114; 97] 3)).
  split; [small_bytes|]. split; [vm_compute; reflexivity|]. split; [vm_compute; reflexivity|].
  split; [vm_compute; reflexivity|discriminate].
Qed.
(** But whenever the debug build does not panic, on whatever input and sink, the release
    build does exactly the same; and when it panics, what it has written by then is a
    prefix of what the release build writes. *)
Theorem C47_builds_agree_partial : forall input sink,
  let (debug, sink_debug) := decode_stream Checked input sink in
  let (release, sink_release) := decode_stream Wrapping input sink in
  (debug <> Panic -> release = debug /\ sink_release = sink_debug) /\
  exists more, w_out sink_release = w_out sink_debug ++ more.
Proof.
  intros input sink. pose proof (stream_agree input sink) as H.
  destruct (decode_stream Checked input sink) as [d sd]. destruct (decode_stream Wrapping input sink) as [r sr].
  destruct H as [E|(E & more & M)].
  - injection E as -> ->. split; auto. exists []. rewrite app_nil_r. reflexivity.
  - cbn [fst snd] in *. split; [intros H; congruence|eauto].
Qed.

(** ** C48: every valid stream is decompressed *)

(** Four equal bytes followed by three zero bytes and another byte (this file was written
    by the original bzip2): the stream is valid, the decoder rejects it. *)
Definition bzip2_file : list nat := [66; 90; 104; 49; 49; 65; 89; 38; 83; 89; 117; 91; 2; 78; 0; 0; 3; 193; 0; 64; 0; 48; 0; 32; 0; 48; 204; 13; 136; 162; 87; 23; 114; 69; 56; 80; 144; 117; 91; 2; 78].
Theorem C48_decodes_runs_refuted : exists file data, bytes file /\ bunzip2 file = Some data /\
  forall p, decode_stream p file (good_sink []) = (Err, good_sink []).
Proof.
  exists bzip2_file, [97; 97; 97; 97; 0; 0; 0; 98]. split; [small_bytes|]. split; [vm_compute; reflexivity|].
  intros p. destruct p; vm_compute; reflexivity.
Qed.
(** A block with a selector more than it needs (accepted by the original bzip2). *)
Theorem C48_decodes_selectors_refuted : exists file data, bytes file /\ bunzip2 file = Some data /\
  forall p, decode_stream p file (good_sink []) = (Err, good_sink []).
Proof.
  exists [66; 90; 104; 49; 49; 65; 89; 38; 83; 89; 102; 169; 126; 121; 0; 0; 3; 129; 128; 60; 0; 16; 0; 32; 0; 80; 102; 128; 109; 77; 61; 17; 41; 68; 178; 12; 48; 187; 146; 41; 194; 132; 131; 53; 75; 243; 200].
  eexists. split; [small_bytes|]. split; [vm_compute; reflexivity|].
  intros p. destruct p; vm_compute; reflexivity.
Qed.

(** Every valid file, made by whatever encoder, is decompressed to its contents if its
    blocks have no spare selectors and no count byte is followed by three more bytes of
    its own value and a further byte. *)
Theorem C48_decodes_partial : forall p file blocks, bytes file -> bunzip2_blocks file = Some blocks ->
  Forall (fun b => pb_unused b = 0 /\ plain_counts (pb_coded b) = true) blocks ->
  decompressed p file (contents_of blocks).
Proof. intros p file blocks HB E HF. apply reference_decodes; auto. Qed.

(** Spare selectors aside, the decoder never panics on a valid file, it writes nothing but
    blocks with the checksum stored in the file, and it answers [Ok] only when it has written
    as many blocks as there are. *)
Theorem C48_never_silent_partial : forall p file blocks, bytes file -> bunzip2_blocks file = Some blocks ->
  Forall (fun b => pb_unused b = 0) blocks ->
  exists result written, decode_stream p file (good_sink []) = (result, good_sink (concat written)) /\
    Forall2 (fun out b => crc32_bzip2 out = crc32_bzip2 (pb_contents b) /\
                          (plain_counts (pb_coded b) = true -> out = pb_contents b))
      written (firstn (length written) blocks) /\
    (result = Ok tt /\ length written = length blocks \/
     result = Err /\ exists b, nth_error blocks (length written) = Some b /\ plain_counts (pb_coded b) = false).
Proof.
  intros p file blocks HB E HF. destruct (@reference_follows p _ _ HB E HF) as (A & B).
  assert (forall pre, Forall passes pre -> Forall (fun b => crc32_bzip2 (pb_contents b) = pb_crc b /\
     pb_contents b = rle1_expand (pb_coded b)) pre ->
     Forall2 (fun out b => crc32_bzip2 out = crc32_bzip2 (pb_contents b) /\
        (plain_counts (pb_coded b) = true -> out = pb_contents b))
       (map (fun b => inverse_rle (pb_coded b)) pre) pre) as F2.
  { induction pre as [|b pre IH]; intros P1 P2; cbn [map]; constructor.
    - apply Forall_cons_iff in P1 as (P1 & _). apply Forall_cons_iff in P2 as ((C1 & C2) & _). split.
      + rewrite C1. exact P1.
      + intros HP. apply plain_passes; auto.
    - apply Forall_cons_iff in P1 as (_ & P1). apply Forall_cons_iff in P2 as (_ & P2). auto. }
  destruct B as [(PS & B)|(pre & b & post & EB & PS & NP & B)].
  - exists (Ok tt), (map (fun b => inverse_rle (pb_coded b)) blocks). split; [exact B|]. rewrite map_length, firstn_all.
    split; auto.
  - exists Err, (map (fun b => inverse_rle (pb_coded b)) pre). split; [exact B|]. rewrite map_length. subst blocks.
    apply Forall_app in A as (A1 & A2). apply Forall_cons_iff in A2 as ((C1 & C2) & _).
    rewrite firstn_app, firstn_all, Nat.sub_diag, firstn_O, app_nil_r. split; auto.
    right. split; auto. exists b. rewrite nth_error_app2, Nat.sub_diag by lia. split; [reflexivity|].
    destruct (plain_counts (pb_coded b)) eqn:HP; auto. exfalso. apply NP. unfold passes.
    rewrite plain_passes by auto. auto.
Qed.

(** A file made by the original bzip2 (level 1) meets the conditions. *)
Example C48_case : exists blocks, bunzip2_blocks [66; 90; 104; 49; 49; 65; 89; 38; 83; 89; 102; 169; 126; 121; 0; 0; 3; 129; 128; 60; 0; 16; 0; 32; 0; 48; 205; 0; 218; 154; 122; 34; 82; 137; 100; 24; 97; 119; 36; 83; 133; 9; 6; 106; 151; 231; 144] = Some blocks /\
  Forall (fun b => pb_unused b = 0 /\ plain_counts (pb_coded b) = true) blocks /\
  contents_of blocks = concat (repeat [97; 98; 114; 97; 99; 97; 100; 97; 98; 114; 97] 3).
Proof. eexists. split; [vm_compute; reflexivity|]. split; [repeat constructor|vm_compute; reflexivity]. Qed.

Print Assumptions C08_expand_any_partial.
Print Assumptions C47_builds_differ_refuted.
Print Assumptions C47_builds_agree_partial.
Print Assumptions C48_decodes_runs_refuted.
Print Assumptions C48_decodes_selectors_refuted.
Print Assumptions C48_decodes_partial.
Print Assumptions C48_never_silent_partial.

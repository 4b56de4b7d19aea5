(** * Compressing into a sink that fails or accepts less than offered *)
From Verif Require Import Base BaseFacts Bitwise BitwiseFacts Crc32 SymbolStatistics BlockEncoder SpecStream Stream StreamFacts.

(** [w'] is [w] after some calls none of which failed; if none was short either, a sink
    that accepts everything would have gone the same way *)
Definition calls (w w' : writer) (same : Prop) : Prop :=
  exists used, w_script w = used ++ w_script w' /\ ~ In WFail used /\ (~ In (WAccept 0) used -> same) /\
    (w_script w' <> [] -> length (w_out w') <= length (w_out w) + length used).

Lemma calls_none w (same : Prop) : same -> calls w w same.
Proof. intros H. exists []. cbn [app In length]. repeat split; auto. intros _. lia. Qed.
Lemma calls_imp w w' (s1 s2 : Prop) : (s1 -> s2) -> calls w w' s1 -> calls w w' s2.
Proof. intros H (u & A & B & C & D). exists u. split; [|split; [|split]]; auto. Qed.
Lemma calls_trans w w1 w2 (s1 s2 s3 : Prop) : calls w w1 s1 -> calls w1 w2 s2 -> (s1 -> s2 -> s3) -> calls w w2 s3.
Proof.
  intros (u1 & A1 & B1 & C1 & D1) (u2 & A2 & B2 & C2 & D2) H. exists (u1 ++ u2). split; [rewrite A1, A2, app_assoc; auto|]. split; [|split].
  - intros H1. apply in_app_or in H1. tauto.
  - intros H1. apply H; [apply C1|apply C2]; intros H2; apply H1; apply in_or_app; auto.
  - intros H1. rewrite app_length. specialize (D2 H1).
    assert (w_script w1 <> []) as H2 by (rewrite A2; intros H2; apply app_eq_nil in H2 as (_ & H2); auto). specialize (D1 H2). lia.
Qed.
Definition plain_sink (w : writer) : writer := mk_writer [] (w_out w).

Lemma write_call w b r w' : w_write w [b] = (Ok r, w') -> calls w w' (w_write (plain_sink w) [b] = (Ok 1, plain_sink w')).
Proof.
  unfold w_write, plain_sink. destruct w as [[|[k|] s] o]; cbn [w_script w_out]; intros E; try discriminate; injection E as <- <-.
  - exists []. cbn [app w_script In]. split; auto. split; auto. split; auto. congruence.
  - exists [WAccept k]. cbn [w_script app w_out In]. split; auto. split; [intuition discriminate|]. split.
    + intros H. destruct k as [|k]; [exfalso; apply H; auto|]. cbn [firstn length]. rewrite firstn_nil. reflexivity.
    + intros _. rewrite app_length, firstn_length. cbn [length]. lia.
Qed.
Lemma chunks_calls bits : forall w rem w', write_chunks bits w = (Ok rem, w') ->
  calls w w' (write_chunks bits (plain_sink w) = (Ok rem, plain_sink w')).
Proof.
  remember (length bits) as n eqn:En. revert bits En. induction n as [n IH] using lt_wf_ind. intros bits En w rem w' E.
  destruct bits as [|b0 [|b1 [|b2 [|b3 [|b4 [|b5 [|b6 [|b7 rest]]]]]]]]; cbn [write_chunks] in *;
    try (injection E as <- <-; apply calls_none; reflexivity).
  destruct (w_write w [byte_of_bits [b0; b1; b2; b3; b4; b5; b6; b7]]) as [[r| | |] w1] eqn:EW; try discriminate.
  eapply calls_trans; [apply (write_call _ _ EW)|eapply IH; [|reflexivity|exact E]; cbn [length] in En; lia|].
  cbv beta. intros -> ->. reflexivity.
Qed.
Definition plain_bw (bw : bit_writer) : bit_writer := mk_bw (bw_pending bw) (plain_sink (bw_sink bw)).
Definition plain_enc (e : enc_state) : enc_state := mk_enc (plain_bw (en_bw e)) (en_crc e).
Notation sink_of e := (bw_sink (en_bw e)).

Lemma write_calls bits e u e' : write_or_panic bits e = (Ok u, e') ->
  calls (sink_of e) (sink_of e') (write_or_panic bits (plain_enc e) = (Ok u, plain_enc e')).
Proof.
  unfold write_or_panic, write_bits. destruct e as [[pe w] crc]. cbn [en_bw bw_pending bw_sink plain_enc plain_bw en_crc].
  destruct (write_chunks (pe ++ bits) w) as [[rem| | |] w1] eqn:E; try discriminate.
  intros H. injection H as <- <-. cbn [en_bw bw_sink bw_pending en_crc]. eapply calls_imp; [|apply (chunks_calls _ _ E)].
  cbv beta. intros ->. reflexivity.
Qed.
Lemma finalize_calls bw u bw' : bw_finalize bw = (Ok u, bw') ->
  calls (bw_sink bw) (bw_sink bw') (exists bw2, bw_finalize (plain_bw bw) = (Ok u, bw2) /\ bw_sink bw2 = plain_sink (bw_sink bw')).
Proof.
  unfold bw_finalize. destruct bw as [pe w]. cbn [bw_pending bw_sink plain_bw].
  destruct pe as [|b pe].
  - intros E. injection E as <- <-. apply calls_none. eexists. split; [reflexivity|]. reflexivity.
  - destruct (w_write w _) as [[r| | |] w1] eqn:E; try discriminate. intros H. injection H as <- <-. cbn [bw_sink].
    eapply calls_imp; [|apply (write_call _ _ E)]. cbv beta. intros ->. eexists. split; reflexivity.
Qed.
Lemma flush_calls p st ws : forall e u e', flush_round p st ws e = (Ok u, e') ->
  calls (sink_of e) (sink_of e') (flush_round p st ws (plain_enc e) = (Ok u, plain_enc e')).
Proof.
  induction ws as [|[c d] ws IH]; intros e u e' E; cbn [flush_round] in *.
  - injection E as <- <-. apply calls_none. reflexivity.
  - destruct (generate_block_data p c d st) as [[bits bc]| | |]; try discriminate.
    destruct (write_or_panic bits e) as [[u1| | |] e1] eqn:EW; try discriminate.
    eapply calls_trans; [apply (write_calls _ _ EW)|apply (IH _ _ _ E)|]. cbv beta. intros -> H. exact H.
Qed.
Lemma rounds_calls p n st fuel : forall rd e u e', encode_rounds fuel p n st rd e = (Ok u, e') ->
  calls (sink_of e) (sink_of e') (encode_rounds fuel p n st rd (plain_enc e) = (Ok u, plain_enc e')).
Proof.
  induction fuel as [|fuel IH]; intros rd e u e' E; cbn [encode_rounds] in *; try discriminate.
  destruct (read_round n rd) as [[[ws fin] rd']| | |]; try discriminate.
  destruct (flush_round p st ws e) as [[u1| | |] e1] eqn:EF; try discriminate. destruct fin.
  - injection E as <- <-. eapply calls_imp; [|apply (flush_calls _ _ _ _ EF)]. cbv beta. intros ->. destruct u1. reflexivity.
  - eapply calls_trans; [apply (flush_calls _ _ _ _ EF)|apply (IH _ _ _ _ E)|]. cbv beta. intros -> H. exact H.
Qed.
Theorem encode_calls fuel p rd w n st u w' : encode_stream fuel p rd w n st = (Ok u, w') ->
  calls w w' (encode_stream fuel p rd (plain_sink w) n st = (Ok u, plain_sink w')).
Proof.
  unfold encode_stream. intros E.
  destruct (write_or_panic file_header (mk_enc (bw_from_writer w) 0)) as [[u1| | |] e1] eqn:E1; try discriminate.
  destruct (encode_rounds fuel p n st rd e1) as [[u2| | |] e2] eqn:E2; try discriminate.
  destruct (write_or_panic (stream_footer (en_crc e2)) e2) as [[u3| | |] e3] eqn:E3; try discriminate.
  destruct (bw_finalize (en_bw e3)) as [r bw] eqn:E4. destruct r as [u4| | |]; try discriminate. cbn [unwrap] in E. injection E as <- <-.
  eapply calls_trans; [apply (write_calls _ _ E1)| |].
  { eapply calls_trans; [apply (@rounds_calls _ _ _ _ _ _ _ _ E2)| |].
    { eapply calls_trans; [apply (write_calls _ _ E3)|apply (finalize_calls _ E4)|]. intros A B. exact (conj A B). }
    intros A B. exact (conj A B). }
  intros A (B & C & bw2 & D1 & D2).
  change (plain_enc (mk_enc (bw_from_writer w) 0)) with (mk_enc (bw_from_writer (plain_sink w)) 0) in A.
  rewrite A, B. change (en_crc (plain_enc e2)) with (en_crc e2). rewrite C.
  change (en_bw (plain_enc e3)) with (plain_bw (en_bw e3)). rewrite D1, D2. destruct u4; reflexivity.
Qed.

(** ** sinks that accept byte after byte for long enough *)

Lemma room_write w b k rest : w_script w = repeat (WAccept 1) (S k) ++ rest ->
  w_write w [b] = (Ok 1, mk_writer (repeat (WAccept 1) k ++ rest) (w_out w ++ [b])).
Proof. unfold w_write. intros ->. reflexivity. Qed.

Lemma room_chunks bits : forall out rem wp, write_chunks bits (mk_writer [] out) = (Ok rem, wp) ->
  exists l, length (w_out wp) = length out + l /\ w_script wp = [] /\ forall k rest,
    write_chunks bits (mk_writer (repeat (WAccept 1) (l + k) ++ rest) out) =
    (Ok rem, mk_writer (repeat (WAccept 1) k ++ rest) (w_out wp)).
Proof.
  remember (length bits) as n eqn:En. revert bits En. induction n as [n IH] using lt_wf_ind. intros bits En out rem wp E.
  destruct bits as [|b0 [|b1 [|b2 [|b3 [|b4 [|b5 [|b6 [|b7 rest0]]]]]]]]; cbn [write_chunks] in *;
    try (injection E as <- <-; exists 0; cbn [w_out w_script Nat.add]; rewrite Nat.add_0_r; repeat split; reflexivity).
  unfold w_write at 1 in E. cbn [w_script w_out] in E.
  eapply (IH (length rest0)) in E; [|cbn [length] in En; lia|reflexivity].
  destruct E as (l & L & S0 & H). exists (S l). rewrite app_length in L. cbn [length] in L.
  split; [lia|]. split; [exact S0|]. intros k rest. cbn [Nat.add].
  cbn [write_chunks]. erewrite room_write; [|cbn [w_script]; reflexivity]. cbn [w_out]. rewrite H. reflexivity.
Qed.

(** the same encoder state on a sink that goes on accepting [k] bytes and then answers [rest] *)
Definition room_bw (k : nat) (rest : list wresp) (bw : bit_writer) : bit_writer :=
  mk_bw (bw_pending bw) (mk_writer (repeat (WAccept 1) k ++ rest) (w_out (bw_sink bw))).
Definition room_enc (k : nat) (rest : list wresp) (e : enc_state) : enc_state := mk_enc (room_bw k rest (en_bw e)) (en_crc e).
Definition grows (e e' : enc_state) (l : nat) : Prop :=
  length (w_out (sink_of e')) = length (w_out (sink_of e)) + l /\ w_script (sink_of e') = [].

Lemma room_write_or_panic bits e u e' : w_script (sink_of e) = [] -> write_or_panic bits e = (Ok u, e') ->
  exists l, grows e e' l /\ forall k rest,
    write_or_panic bits (room_enc (l + k) rest e) = (Ok u, room_enc k rest e').
Proof.
  unfold write_or_panic, write_bits. destruct e as [[pe [sc out]] crc]. cbn [en_bw bw_pending bw_sink en_crc w_script]. intros ->.
  destruct (write_chunks (pe ++ bits) (mk_writer [] out)) as [[rem| | |] w1] eqn:E; try discriminate.
  intros H. injection H as <- <-. apply room_chunks in E as (l & L & S0 & H). exists l. split; [split; auto|].
  intros k rest. unfold room_enc, room_bw. cbn [en_bw bw_pending bw_sink en_crc w_out]. rewrite H. reflexivity.
Qed.
Lemma grows_trans e1 e2 e3 l1 l2 : grows e1 e2 l1 -> grows e2 e3 l2 -> grows e1 e3 (l1 + l2).
Proof. unfold grows. intros (A & B) (C & D). split; auto. lia. Qed.

Lemma room_flush p st ws : forall e u e', w_script (sink_of e) = [] -> flush_round p st ws e = (Ok u, e') ->
  exists l, grows e e' l /\ forall k rest, flush_round p st ws (room_enc (l + k) rest e) = (Ok u, room_enc k rest e').
Proof.
  induction ws as [|[c d] ws IH]; intros e u e' HS E; cbn [flush_round] in *.
  - injection E as <- <-. exists 0. split; [split; auto; lia|]. reflexivity.
  - destruct (generate_block_data p c d st) as [[bits bc]| | |]; try discriminate.
    destruct (write_or_panic bits e) as [[u1| | |] e1] eqn:EW; try discriminate.
    apply room_write_or_panic in EW as (l1 & G1 & H1); auto.
    apply IH in E as (l2 & G2 & H2); [|apply G1]. exists (l1 + l2). split.
    + eapply grows_trans; [exact G1|exact G2].
    + intros k rest. rewrite <- Nat.add_assoc. rewrite H1.
      exact (H2 k rest).
Qed.
Lemma room_rounds p n st fuel : forall rd e u e', w_script (sink_of e) = [] -> encode_rounds fuel p n st rd e = (Ok u, e') ->
  exists l, grows e e' l /\ forall k rest, encode_rounds fuel p n st rd (room_enc (l + k) rest e) = (Ok u, room_enc k rest e').
Proof.
  induction fuel as [|fuel IH]; intros rd e u e' HS E; cbn [encode_rounds] in *; try discriminate.
  destruct (read_round n rd) as [[[ws fin] rd']| | |]; try discriminate.
  destruct (flush_round p st ws e) as [[u1| | |] e1] eqn:EF; try discriminate.
  apply room_flush in EF as (l1 & G1 & H1); auto. destruct fin.
  - injection E as <- <-. exists l1. split; auto. intros k rest. rewrite H1. destruct u1. reflexivity.
  - apply IH in E as (l2 & G2 & H2); [|apply G1]. exists (l1 + l2). split; [eapply grows_trans; eauto|].
    intros k rest. rewrite <- Nat.add_assoc, H1. apply H2.
Qed.
(** with room for the whole output the outcome is that of a perfect sink *)
Theorem encode_room fuel p rd n st u out : encode_stream fuel p rd (mk_writer [] []) n st = (Ok u, mk_writer [] out) ->
  forall k rest, encode_stream fuel p rd (mk_writer (repeat (WAccept 1) (length out + k) ++ rest) []) n st =
    (Ok u, mk_writer (repeat (WAccept 1) k ++ rest) out).
Proof.
  unfold encode_stream. intros E k rest.
  destruct (write_or_panic file_header (mk_enc (bw_from_writer (mk_writer [] [])) 0)) as [[u1| | |] e1] eqn:E1; try discriminate.
  destruct (encode_rounds fuel p n st rd e1) as [[u2| | |] e2] eqn:E2; try discriminate.
  destruct (write_or_panic (stream_footer (en_crc e2)) e2) as [[u3| | |] e3] eqn:E3; try discriminate.
  apply room_write_or_panic in E1 as (l1 & G1 & H1); [|reflexivity].
  apply room_rounds in E2 as (l2 & G2 & H2); [|apply G1].
  apply room_write_or_panic in E3 as (l3 & G3 & H3); [|apply G2].
  pose proof (grows_trans (grows_trans G1 G2) G3) as (GL & GS). cbn [en_bw bw_from_writer bw_sink w_out length Nat.add] in GL.
  destruct (bw_finalize (en_bw e3)) as [r bw] eqn:E4. destruct r as [u4| | |]; try discriminate. cbn [unwrap] in E. injection E as <- EB.
  unfold bw_finalize in E4.
  assert (exists l4, length out = l1 + l2 + l3 + l4 /\ forall k rest, exists bw', bw_finalize (room_bw (l4 + k) rest (en_bw e3)) = (Ok u4, bw') /\ bw_sink bw' = mk_writer (repeat (WAccept 1) k ++ rest) out) as (l4 & L4 & H4).
  { unfold bw_finalize, room_bw. cbn [bw_pending bw_sink].
    destruct (bw_pending (en_bw e3)) as [|b pe] eqn:EP.
    - injection E4 as <- <-. exists 0. rewrite EB in GL. cbn [w_out] in GL. split; [lia|]. intros k0 rest0. eexists. split; [reflexivity|].
      cbn [bw_sink Nat.add]. rewrite EB. reflexivity.
    - unfold w_write in E4. rewrite GS in E4. injection E4 as <- <-. cbn [bw_sink] in EB. injection EB as EB.
      exists 1. rewrite <- EB, app_length. cbn [length]. split; [lia|]. intros k0 rest0. eexists. split; [reflexivity|]. cbn [bw_sink].
      reflexivity. }
  rewrite L4.
  change (mk_enc (bw_from_writer (mk_writer ?s [])) 0) with (mk_enc (mk_bw [] (mk_writer s [])) 0).
  specialize (H1 (l2 + (l3 + (l4 + k))) rest). unfold room_enc at 1, room_bw at 1 in H1.
  cbn [en_bw bw_from_writer bw_pending bw_sink w_out en_crc] in H1.
  replace (l1 + l2 + l3 + l4 + k) with (l1 + (l2 + (l3 + (l4 + k)))) by lia. rewrite H1.
  rewrite H2. cbn [room_enc en_crc]. fold (room_enc (l3 + (l4 + k)) rest e2). rewrite H3.
  destruct (H4 k rest) as (bw' & E5 & E6). cbn [room_enc en_bw]. rewrite E5, E6. destruct u4. reflexivity.
Qed.

(** ** ... and for not long enough: the sink then holds a prefix of the output *)
Lemma chunks_extend bits : forall out rem wp, write_chunks bits (mk_writer [] out) = (Ok rem, wp) -> exists more, w_out wp = out ++ more.
Proof.
  remember (length bits) as n eqn:En. revert bits En. induction n as [n IH] using lt_wf_ind. intros bits En out rem wp E.
  destruct bits as [|b0 [|b1 [|b2 [|b3 [|b4 [|b5 [|b6 [|b7 rest0]]]]]]]]; cbn [write_chunks] in *;
    try (injection E as <- <-; exists []; cbn [w_out]; rewrite app_nil_r; reflexivity).
  unfold w_write at 1 in E. cbn [w_script w_out] in E.
  eapply (IH (length rest0)) in E; [|cbn [length] in En; lia|reflexivity].
  destruct E as (more & ->). eexists. rewrite <- app_assoc. reflexivity.
Qed.
Lemma full_chunks bits : forall out rem wp k rest, write_chunks bits (mk_writer [] out) = (Ok rem, wp) ->
  length out + k < length (w_out wp) ->
  write_chunks bits (mk_writer (repeat (WAccept 1) k ++ WFail :: rest) out) =
    (Err, mk_writer rest (firstn (length out + k) (w_out wp))).
Proof.
  remember (length bits) as n eqn:En. revert bits En. induction n as [n IH] using lt_wf_ind. intros bits En out rem wp k rest E HK.
  destruct bits as [|b0 [|b1 [|b2 [|b3 [|b4 [|b5 [|b6 [|b7 rest0]]]]]]]]; cbn [write_chunks] in *;
    try (injection E as <- <-; cbn [w_out] in HK; lia).
  unfold w_write at 1 in E. cbn [w_script w_out] in E. destruct k as [|k].
  - cbn [repeat app]. unfold w_write. cbn [w_script w_out]. f_equal. f_equal.
    apply chunks_extend in E as (more & ->). rewrite Nat.add_0_r, <- app_assoc. rewrite firstn_app, Nat.sub_diag, firstn_O, app_nil_r.
    symmetry. apply firstn_all.
  - erewrite room_write; [|cbn [w_script]; reflexivity]. cbn [w_out].
    rewrite (IH (length rest0)) with (rem := rem) (wp := wp); auto.
    + rewrite app_length. cbn [length]. do 2 f_equal. f_equal. lia.
    + cbn [length] in En. lia.
    + rewrite app_length. cbn [length]. lia.
Qed.
Definition extends (e e' : enc_state) : Prop := exists more, w_out (sink_of e') = w_out (sink_of e) ++ more.
Lemma extends_refl e : extends e e.
Proof. exists []. rewrite app_nil_r. reflexivity. Qed.
Lemma extends_trans e1 e2 e3 : extends e1 e2 -> extends e2 e3 -> extends e1 e3.
Proof. intros (a & A) (b & B). exists (a ++ b). rewrite B, A, app_assoc. reflexivity. Qed.
(** [e] on a sink that accepts [k] more bytes and then fails *)
Definition full_enc (k : nat) (rest : list wresp) (e : enc_state) : enc_state := room_enc k (WFail :: rest) e.
Definition stuck (r : res unit * enc_state) (k : nat) (e e' : enc_state) : Prop :=
  fst r = Panic /\ w_out (sink_of (snd r)) = firstn (length (w_out (sink_of e)) + k) (w_out (sink_of e')).

Lemma full_write_or_panic bits e u e' : w_script (sink_of e) = [] -> write_or_panic bits e = (Ok u, e') ->
  extends e e' /\ forall k rest, length (w_out (sink_of e)) + k < length (w_out (sink_of e')) ->
    stuck (write_or_panic bits (full_enc k rest e)) k e e'.
Proof.
  unfold write_or_panic, write_bits, stuck, extends. destruct e as [[pe [sc out]] crc]. cbn [en_bw bw_pending bw_sink en_crc w_script]. intros ->.
  destruct (write_chunks (pe ++ bits) (mk_writer [] out)) as [[rem| | |] w1] eqn:E; try discriminate.
  intros H. injection H as <- <-. cbn [en_bw bw_sink w_out]. split; [eapply chunks_extend; eauto|].
  intros k rest HK. unfold full_enc, room_enc, room_bw. cbn [en_bw bw_pending bw_sink en_crc w_out].
  rewrite (@full_chunks _ _ _ _ k rest E HK). cbn [fst snd en_bw bw_sink w_out]. auto.
Qed.
Lemma stuck_later r k e e1 e2 : extends e1 e2 -> length (w_out (sink_of e)) + k < length (w_out (sink_of e1)) ->
  stuck r k e e1 -> stuck r k e e2.
Proof.
  intros (m & EM) HK (A & B). split; auto. rewrite B, EM. rewrite firstn_app.
  replace (_ - _) with 0 by lia. rewrite firstn_O, app_nil_r. reflexivity.
Qed.
Lemma stuck_moved r k l e e1 e2 : grows e e1 l -> stuck r k e1 e2 -> stuck r (l + k) e e2.
Proof. intros (L & _) (A & B). split; auto. rewrite B, L. f_equal. lia. Qed.
Lemma full_moved l k rest e e' u bits : (forall k rest, write_or_panic bits (room_enc (l + k) rest e) = (Ok u, room_enc k rest e')) ->
  write_or_panic bits (full_enc (l + k) rest e) = (Ok u, full_enc k rest e').
Proof. intros H. apply H. Qed.

Lemma full_flush p st ws : forall e u e', w_script (sink_of e) = [] -> flush_round p st ws e = (Ok u, e') ->
  extends e e' /\ forall k rest, length (w_out (sink_of e)) + k < length (w_out (sink_of e')) ->
    stuck (flush_round p st ws (full_enc k rest e)) k e e'.
Proof.
  induction ws as [|[c d] ws IH]; intros e u e' HS E; cbn [flush_round] in *.
  - injection E as <- <-. split; [apply extends_refl|]. intros; lia.
  - destruct (generate_block_data p c d st) as [[bits bc]| | |]; try discriminate.
    destruct (write_or_panic bits e) as [[u1| | |] e1] eqn:EW; try discriminate.
    destruct (room_write_or_panic _ _ HS EW) as (l1 & G1 & H1).
    destruct (full_write_or_panic _ _ HS EW) as (X1 & F1).
    apply IH in E as (X2 & F2); [|apply G1]. cbn [en_bw] in F2.
    assert (extends e1 e') as X2' by exact X2.
    split; [eapply extends_trans; eauto|]. intros k rest HK.
    destruct (Nat.lt_ge_cases (length (w_out (sink_of e)) + k) (length (w_out (sink_of e1)))) as [Hl|Hg].
    + apply stuck_later with (e1 := e1); auto. specialize (F1 k rest Hl). destruct F1 as (A & B).
      destruct (write_or_panic bits (full_enc k rest e)) as [[u2| | |] e2]; cbn [fst snd] in *; try discriminate. split; auto.
    + destruct G1 as (L1 & S1). replace k with (l1 + (k - l1)) by lia. unfold full_enc. rewrite H1.
      apply stuck_moved with (e1 := e1); [split; auto|]. apply (F2 (k - l1) rest). lia.
Qed.
Lemma full_rounds p n st fuel : forall rd e u e', w_script (sink_of e) = [] -> encode_rounds fuel p n st rd e = (Ok u, e') ->
  extends e e' /\ forall k rest, length (w_out (sink_of e)) + k < length (w_out (sink_of e')) ->
    stuck (encode_rounds fuel p n st rd (full_enc k rest e)) k e e'.
Proof.
  induction fuel as [|fuel IH]; intros rd e u e' HS E; cbn [encode_rounds] in *; try discriminate.
  destruct (read_round n rd) as [[[ws fin] rd']| | |]; try discriminate.
  destruct (flush_round p st ws e) as [[u1| | |] e1] eqn:EF; try discriminate.
  destruct (@room_flush p st ws e u1 e1 HS EF) as (l1 & G1 & H1). destruct (@full_flush p st ws e u1 e1 HS EF) as (X1 & F1).
  assert (forall k rest, length (w_out (sink_of e)) + k < length (w_out (sink_of e1)) ->
    stuck (match flush_round p st ws (full_enc k rest e) with
           | (Ok _, e0) => if fin then (Ok tt, e0) else encode_rounds fuel p n st rd' e0
           | (Err, _) as other | (Panic, _) as other | (NoFuel, _) as other => other end) k e e1) as F1'.
  { intros k rest HK. destruct (F1 k rest HK) as (A & B).
    destruct (flush_round p st ws (full_enc k rest e)) as [[u2| | |] e2]; cbn [fst snd] in *; try discriminate. split; auto. }
  destruct fin.
  - injection E as <- <-. split; auto.
  - apply IH in E as (X2 & F2); [|apply G1]. split; [eapply extends_trans; eauto|]. intros k rest HK.
    destruct (Nat.lt_ge_cases (length (w_out (sink_of e)) + k) (length (w_out (sink_of e1)))) as [Hl|Hg].
    + apply stuck_later with (e1 := e1); auto.
    + destruct G1 as (L1 & S1). replace k with (l1 + (k - l1)) by lia. unfold full_enc at 1. rewrite H1.
      apply stuck_moved with (e1 := e1); [split; auto|]. apply (F2 (k - l1) rest). lia.
Qed.
(** without room for the whole output: a panic, and the sink holds what there was room for *)
Theorem encode_full fuel p rd n st u out : encode_stream fuel p rd (mk_writer [] []) n st = (Ok u, mk_writer [] out) ->
  forall k rest, k < length out -> exists script,
    encode_stream fuel p rd (mk_writer (repeat (WAccept 1) k ++ WFail :: rest) []) n st = (Panic, mk_writer script (firstn k out)).
Proof.
  unfold encode_stream. intros E k rest HK.
  destruct (write_or_panic file_header (mk_enc (bw_from_writer (mk_writer [] [])) 0)) as [[u1| | |] e1] eqn:E1; try discriminate.
  destruct (encode_rounds fuel p n st rd e1) as [[u2| | |] e2] eqn:E2; try discriminate.
  destruct (write_or_panic (stream_footer (en_crc e2)) e2) as [[u3| | |] e3] eqn:E3; try discriminate.
  set (e0 := mk_enc (bw_from_writer (mk_writer [] [])) 0) in *.
  assert (w_script (sink_of e0) = []) as S0 by reflexivity.
  destruct (room_write_or_panic _ _ S0 E1) as (l1 & G1 & H1). destruct (full_write_or_panic _ _ S0 E1) as (X1 & F1).
  assert (w_script (sink_of e1) = []) as S1 by apply G1.
  destruct (@room_rounds p n st fuel rd e1 u2 e2 S1 E2) as (l2 & G2 & H2). destruct (@full_rounds p n st fuel rd e1 u2 e2 S1 E2) as (X2 & F2).
  assert (w_script (sink_of e2) = []) as S2 by apply G2.
  destruct (room_write_or_panic _ _ S2 E3) as (l3 & G3 & H3). destruct (full_write_or_panic _ _ S2 E3) as (X3 & F3).
  assert (w_script (sink_of e3) = []) as S3 by apply G3.
  assert (length (w_out (sink_of e0)) = 0) as L0 by reflexivity.
  destruct G1 as (L1 & _), G2 as (L2 & _), G3 as (L3 & _).
  change (mk_enc (bw_from_writer (mk_writer (repeat (WAccept 1) k ++ WFail :: rest) [])) 0) with (full_enc k rest e0).
  destruct (bw_finalize (en_bw e3)) as [r bw] eqn:E4. destruct r as [u4| | |]; try discriminate. cbn [unwrap] in E. injection E as <- EB.
  assert (exists more, out = w_out (sink_of e3) ++ more) as (more & EO).
  { unfold bw_finalize, w_write in E4. rewrite S3 in E4. destruct (bw_pending (en_bw e3)).
    - injection E4 as <- <-. exists []. rewrite app_nil_r, EB. reflexivity.
    - injection E4 as <- <-. cbn [bw_sink] in EB. injection EB as <-. eauto. }
  assert (forall r j e e', stuck r j e e' -> length (w_out (sink_of e)) + j = k -> (exists m, out = w_out (sink_of e') ++ m) ->
    k <= length (w_out (sink_of e')) -> fst r = Panic /\ w_out (sink_of (snd r)) = firstn k out) as FIN.
  { intros r0 j e e' (A & B) HJ (m & EM) HL. split; auto. rewrite B, HJ, EM, firstn_app.
    replace (_ - _) with 0 by lia. rewrite firstn_O, app_nil_r. reflexivity. }
  destruct (Nat.lt_ge_cases k (length (w_out (sink_of e1)))) as [Hl1|Hg1].
  { destruct (FIN _ _ _ _ (F1 k rest ltac:(lia))) as (A & B).
    - lia.
    - destruct (extends_trans X2 X3) as (m & EM). exists (m ++ more). rewrite EO, EM, app_assoc. reflexivity.
    - lia.
    - destruct (write_or_panic file_header (full_enc k rest e0)) as [[?| | |] [[pe [sc o]] crc]]; cbn [fst snd en_bw bw_sink w_out] in *; try discriminate.
      exists sc. rewrite B. reflexivity. }
  replace k with (l1 + (k - l1)) by lia. unfold full_enc at 1. rewrite H1. fold (full_enc (k - l1) rest e1).
  replace (l1 + (k - l1)) with k by lia.
  destruct (Nat.lt_ge_cases k (length (w_out (sink_of e2)))) as [Hl2|Hg2].
  { destruct (FIN _ _ _ _ (F2 (k - l1) rest ltac:(lia))) as (A & B).
    - lia.
    - destruct X3 as (m & EM). exists (m ++ more). rewrite EO, EM, app_assoc. reflexivity.
    - lia.
    - destruct (encode_rounds fuel p n st rd (full_enc (k - l1) rest e1)) as [[?| | |] [[pe [sc o]] crc]]; cbn [fst snd en_bw bw_sink w_out] in *; try discriminate.
      exists sc. rewrite B. reflexivity. }
  replace (k - l1) with (l2 + (k - l1 - l2)) by lia. unfold full_enc at 1. rewrite H2.
  change (en_crc (room_enc (k - l1 - l2) (WFail :: rest) e2)) with (en_crc e2).
  fold (full_enc (k - l1 - l2) rest e2).
  destruct (Nat.lt_ge_cases k (length (w_out (sink_of e3)))) as [Hl3|Hg3].
  { destruct (FIN _ _ _ _ (F3 (k - l1 - l2) rest ltac:(lia))) as (A & B).
    - lia.
    - exists more. exact EO.
    - lia.
    - destruct (write_or_panic (stream_footer (en_crc e2)) (full_enc (k - l1 - l2) rest e2)) as [[?| | |] [[pe [sc o]] crc]]; cbn [fst snd en_bw bw_sink w_out] in *; try discriminate.
      exists sc. rewrite B. reflexivity. }
  replace (k - l1 - l2) with (l3 + (k - l1 - l2 - l3)) by lia. unfold full_enc at 1. rewrite H3.
  cbn [room_enc en_bw]. unfold bw_finalize in *. unfold room_bw. cbn [bw_pending bw_sink].
  destruct (bw_pending (en_bw e3)) as [|b pe] eqn:EP.
  { exfalso. injection E4 as <- <-. rewrite EB in Hg3. cbn [w_out] in Hg3. lia. }
  unfold w_write in E4. rewrite S3 in E4. injection E4 as <- <-. cbn [bw_sink] in EB. injection EB as EB.
  assert (k = length (w_out (sink_of e3))) as -> by (rewrite <- EB, app_length in HK; cbn [length] in HK; lia).
  replace (length (w_out (sink_of e3)) - l1 - l2 - l3) with 0 by lia. cbn [repeat app]. unfold w_write. cbn [w_script w_out unwrap bw_sink].
  exists rest. do 2 f_equal. rewrite <- EB, firstn_app, Nat.sub_diag, firstn_O, app_nil_r. symmetry. apply firstn_all.
Qed.

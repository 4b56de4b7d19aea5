(** * Arbitrary readers: failing reads, early end of file *)
From Verif Require Import Base BaseFacts Bitwise Rle RleFacts SpecRle Crc32 SymbolStatistics SpecStream Stream StreamFacts.

Definition events_size (l : list revent) : nat := list_sum (map event_size l).
Lemma events_size_cons e l : events_size (e :: l) = event_size e + events_size l.
Proof. reflexivity. Qed.

(** what one request does to the reader *)
Lemma take_events_any tail_fail events : forall limit acc r events',
  take_events limit events tail_fail acc = (r, events') ->
  (r = Err \/ exists l, r = Ok (acc ++ l) /\ (Forall event_bytes events -> bytes l) /\
     (l <> [] -> events_size events' < events_size events)) /\
  events_size events' <= events_size events /\
  (Forall event_bytes events -> Forall event_bytes events') /\
  ((1 <= limit)%N -> (exists l, r = Ok l /\ events' = [] /\ tail_fail = false) \/ events_size events' < events_size events \/
     (events = [] /\ tail_fail = true)).
Proof.
  induction events as [|e events IH]; intros limit acc r events' E; cbn [take_events] in E;
    (destruct (N.eqb_spec limit 0) as [Hz|Hz];
      [injection E as <- <-; split; [right; exists []; rewrite app_nil_r; split; [auto|split; [constructor|congruence]]|];
       split; [auto|]; split; [auto|lia] |]).
  - destruct tail_fail; injection E as <- <-; (split; [|split; [auto|split; [auto|]]]); auto.
    + right. exists []. rewrite app_nil_r. split; [auto|split; [constructor|congruence]].
    + intros _. left. exists acc. auto.
  - rewrite !events_size_cons. destruct e as [bs| |].
    3: { apply IH in E as (A & B & C & D). cbn [event_size]. split; [|split; [lia|split]].
         - destruct A as [->|(l & -> & A1 & A2)]; auto. right. exists l. split; auto. split; [|intros _; lia].
           intros H. apply Forall_cons_iff in H as (_ & H). auto.
         - intros H. apply Forall_cons_iff in H as (_ & H). auto.
         - intros _. right. left. lia. }
    2: { injection E as <- <-. split; [auto|]. split; [cbn [event_size]; lia|]. split.
         - intros H. apply Forall_cons_iff in H. tauto.
         - intros _. right. left. cbn [event_size]. lia. }
    destruct bs as [|x bs].
    { injection E as <- <-. split; [|split; [cbn [event_size]; lia|split]].
      - right. exists []. rewrite app_nil_r. split; [auto|split; [constructor|congruence]].
      - intros H. apply Forall_cons_iff in H. tauto.
      - intros _. right. left. cbn [event_size]. lia. }
    destruct (N.leb_spec (N.of_nat (length (x :: bs))) limit) as [Hle|Hgt].
    + apply IH in E as (A & B & C & D). cbn [event_size]. split; [|split; [lia|split]].
      * destruct A as [->|(l & -> & A1 & A2)]; auto. right. exists ((x :: bs) ++ l). rewrite app_assoc. split; auto. split.
        -- intros H. apply Forall_cons_iff in H as (H1 & H2). apply Forall_app. split; [exact H1|apply A1; auto].
        -- intros _. lia.
      * intros H. apply Forall_cons_iff in H as (H1 & H2). auto.
      * intros _. right. left. lia.
    + injection E as <- <-. cbn [event_size]. rewrite events_size_cons. cbn [event_size]. rewrite skipn_length.
      assert (0 < N.to_nat limit) as HP by lia. cbn [length] in *. split; [|split; [lia|split]].
      * right. exists (firstn (N.to_nat limit) (x :: bs)). split; auto. split; [|intros _; lia].
        intros H. apply Forall_cons_iff in H as (H1 & _). cbn [event_bytes] in H1. unfold bytes in *.
        rewrite <- (firstn_skipn (N.to_nat limit) (x :: bs)) in H1. apply Forall_app in H1. tauto.
      * intros H. apply Forall_cons_iff in H as (H1 & H2). constructor; auto. cbn [event_bytes] in *. unfold bytes in *.
        rewrite <- (firstn_skipn (N.to_nat limit) (x :: bs)) in H1. apply Forall_app in H1. tauto.
      * intros _. right. left. lia.
Qed.

Lemma take_events_len tail_fail events : forall limit acc l events',
  take_events limit events tail_fail acc = (Ok l, events') -> (N.of_nat (length l) <= N.of_nat (length acc) + limit)%N.
Proof.
  induction events as [|e events IH]; intros limit acc l events' E; cbn [take_events] in E;
    (destruct (N.eqb_spec limit 0) as [Hz|Hz]; [injection E as <- _; lia|]).
  - destruct tail_fail; [discriminate|]. injection E as <- _. lia.
  - destruct e as [[|x bs]| |]; [injection E as <- _; lia| |discriminate|apply IH in E; exact E].
    destruct (N.leb_spec (N.of_nat (length (x :: bs))) limit) as [Hle|Hgt].
    + apply IH in E. rewrite app_length in E. lia.
    + injection E as <- _. rewrite app_length. pose proof (firstn_le_length (N.to_nat limit) (x :: bs)). lia.
Qed.
(** one request at most fills the block up to five bytes above the limit *)
Lemma request_bound b buf : (N.of_nat (length (coded b)) < RLE_LIMIT)%N -> (N.of_nat (length buf) <= request b)%N ->
  (N.of_nat (length (coded (b ++ buf))) <= RLE_LIMIT + 5)%N.
Proof.
  intros Hlt G3. rewrite coded_aug, rle_state_app.
  pose proof (@aug_growth _ (rle_fold_ok buf (rle_state_ok b))) as G1.
  pose proof (growth_fold buf (rle_state_ok b)) as G2.
  assert (growth (rle_state b) <= 20) as G4 by (unfold growth; lia).
  assert (5 * request b <= (RLE_LIMIT - N.of_nat (length (rle_data (rle_state b)))) * 4)%N as G5.
  { apply N.mul_div_le. discriminate. }
  pose proof (data_le_aug (rle_state b)) as G6. rewrite <- coded_aug in G6.
  remember (length (aug (fold_left rle_step buf (rle_state b)))) as X.
  remember (length (rle_data (fold_left rle_step buf (rle_state b)))) as Y.
  remember (growth (fold_left rle_step buf (rle_state b))) as Z.
  clear - G1 G2 G3 G4 G5 G6 Hlt. unfold RLE_LIMIT in *. lia.
Qed.

(** filling one block from any reader *)
Lemma fill_any fuel : forall rd b, reader_size rd < fuel ->
  exists b' fin rd', fill_loop fuel rd (fill_of b false) = Ok (fill_of b' fin, rd') /\
    r_tail_fail rd' = r_tail_fail rd /\
    reader_size rd' <= reader_size rd /\
    ((N.of_nat (length (coded b)) <= RLE_LIMIT + 5)%N -> (N.of_nat (length (coded b')) <= RLE_LIMIT + 5)%N) /\
    (reader_bytes rd -> bytes b -> bytes b' /\ reader_bytes rd') /\
    ((N.of_nat (length (coded b)) < RLE_LIMIT)%N -> r_tail_fail rd = false -> fin = true \/ reader_size rd' < reader_size rd).
Proof.
  induction fuel as [|fuel IH]; intros rd b HF; [lia|]. cbn [fill_loop]. cbn [fill_of fl_total].
  destruct (N.ltb_spec (N.of_nat (length (coded b))) RLE_LIMIT) as [Hlt|Hge].
  2: { exists b, false, rd. split; [reflexivity|]. repeat split; auto. lia. }
  destruct (to_take_ok b Hlt) as (ET & HR). unfold fill_of at 1. cbn [fl_rle]. rewrite ET. cbn [bind].
  unfold take_read_to_end. destruct (take_events (request b) (r_events rd) (r_tail_fail rd) []) as [r events'] eqn:EE.
  destruct (@take_events_any _ _ _ _ _ _ EE) as (A & B & C & D). specialize (D HR).
  destruct A as [->|(l & -> & A1 & A2)].
  - exists b, false, (mk_reader events' (r_tail_fail rd)). split; [reflexivity|]. cbn [r_tail_fail]. split; auto.
    split; [exact B|]. split; [auto|]. split; [intros H1 H2; split; [auto|apply C; auto]|].
    intros _ HT. right. destruct D as [(l & E & _)|[D|(_ & D)]]; [discriminate|exact D|congruence].
  - cbn [app]. destruct l as [|x l].
    + exists b, true, (mk_reader events' (r_tail_fail rd)). split; [reflexivity|]. cbn [r_tail_fail]. split; auto.
      split; [exact B|]. split; [auto|]. split; [intros H1 H2; split; [auto|apply C; auto]|]. auto.
    + specialize (A2 ltac:(discriminate)). set (rd1 := mk_reader events' (r_tail_fail rd)).
      assert (reader_size rd1 < reader_size rd) as HS by exact A2.
      destruct (IH rd1 (b ++ x :: l)) as (b' & fin & rd' & E & T & S1 & SL & S2 & S3); [lia|].
      exists b', fin, rd'. split.
      { rewrite <- E. f_equal. rewrite fill_step. cbv zeta. cbn [fill_of fl_buf fl_rle fl_count fl_last fl_finalize]. reflexivity. }
      split; [exact T|]. split; [lia|]. split.
      { intros _. apply SL, request_bound; auto. apply take_events_len in EE. cbn [app length] in *. lia. }
      split.
      { intros H1 H2. apply S2; [apply C; exact H1|]. apply Forall_app. split; [exact H2|apply A1; exact H1]. }
      intros _ _. right. lia.
Qed.
Lemma fill_block_any rd : exists b fin rd', fill_block rd = Ok (fill_of b fin, rd') /\
    r_tail_fail rd' = r_tail_fail rd /\ reader_size rd' <= reader_size rd /\
    (N.of_nat (length (coded b)) <= RLE_LIMIT + 5)%N /\
    (reader_bytes rd -> bytes b /\ reader_bytes rd') /\
    (r_tail_fail rd = false -> fin = true \/ reader_size rd' < reader_size rd).
Proof.
  unfold fill_block. destruct (@fill_any (S (reader_size rd)) rd []) as (b & fin & rd' & E & T & S1 & SL & S2 & S3); [lia|].
  exists b, fin, rd'. split; [exact E|]. split; auto. split; auto. split; [apply SL; rewrite coded_nil; unfold RLE_LIMIT; lia|]. split.
  - intros H. apply S2; auto. constructor.
  - intros H. apply S3; auto. reflexivity.
Qed.

(** * Reading the input and cutting it into blocks *)
From Verif Require Import Base BaseFacts Bitwise BitwiseFacts SpecRle Rle RleFacts Crc32
  SymbolStatistics BlockEncoder Stream.
From Verif Require Export SpecStream.

Lemma delivers_exists data : exists rd, delivers rd data.
Proof.
  exists (mk_reader (map RChunk (match data with [] => [] | _ => [data] end)) false). split; auto.
  destruct data; cbn [map r_events flat_map event_data]; split; auto.
  - repeat constructor. discriminate.
  - apply app_nil_r.
Qed.

Lemma firstn_app_ge {A} n (a b : list A) : length a <= n -> firstn n (a ++ b) = a ++ firstn (n - length a) b.
Proof. intros H. rewrite firstn_app. rewrite firstn_all2 by auto. auto. Qed.
Lemma skipn_app_ge {A} n (a b : list A) : length a <= n -> skipn n (a ++ b) = skipn (n - length a) b.
Proof. intros H. rewrite skipn_app. rewrite skipn_all2 by auto. auto. Qed.

Lemma take_events_spec events : Forall harmless events -> forall limit acc,
  exists events', take_events limit events false acc =
      (Ok (acc ++ firstn (N.to_nat limit) (flat_map event_data events)), events') /\
    Forall harmless events' /\ flat_map event_data events' = skipn (N.to_nat limit) (flat_map event_data events).
Proof.
  induction 1 as [|c events Hc HF IH]; intros limit acc.
  - cbn [flat_map take_events]. rewrite firstn_nil, skipn_nil, app_nil_r.
    exists []. destruct (limit =? 0)%N; auto.
  - cbn [flat_map take_events]. destruct (N.eqb_spec limit 0) as [->|H0].
    + cbn [N.to_nat firstn skipn]. rewrite app_nil_r. exists (c :: events). repeat split; auto.
    + destruct c as [c| |]; cbn [harmless] in Hc; [|easy|cbn [event_data app]; apply IH].
      cbn [event_data]. destruct c as [|x c]; [congruence|]. set (bs := x :: c) in *. clearbody bs.
      destruct (N.leb_spec (N.of_nat (length bs)) limit) as [HL|HL].
      * destruct (IH (limit - N.of_nat (length bs))%N (acc ++ bs)) as (ch' & E & F & C).
        exists ch'. rewrite E. rewrite firstn_app_ge, skipn_app_ge by lia.
        replace (N.to_nat (limit - N.of_nat (length bs))) with (N.to_nat limit - length bs) in * by lia.
        rewrite <- app_assoc. auto.
      * exists (RChunk (skipn (N.to_nat limit) bs) :: events). cbn [flat_map event_data].
        rewrite firstn_app, skipn_app. replace (N.to_nat limit - length bs) with 0 by lia.
        cbn [firstn skipn]. rewrite app_nil_r. repeat split; auto.
        constructor; auto. cbn [harmless]. intros E. apply (f_equal (@length nat)) in E. rewrite skipn_length in E.
        cbn [length] in E. lia.
Qed.

Lemma take_spec rd data limit : delivers rd data ->
  exists rd', take_read_to_end limit rd = (Ok (firstn (N.to_nat limit) data), rd') /\
    delivers rd' (skipn (N.to_nat limit) data).
Proof.
  intros (HT & HF & <-). unfold take_read_to_end. rewrite HT.
  destruct (take_events_spec HF limit []) as (ch' & -> & F & C). cbn [app].
  eexists; split; [reflexivity|]. split; auto.
Qed.

Lemma reader_size_ge rd data : delivers rd data -> length data <= reader_size rd.
Proof.
  intros (_ & _ & <-). unfold reader_size. induction (r_events rd) as [|c events IH]; [auto|]. cbn [map flat_map event_size].
  change (list_sum (?x :: ?l)) with (x + list_sum l). rewrite app_length. destruct c; cbn [event_data event_size length]; lia.
Qed.

(** ** the size of the coded block *)
Definition rle_state (l : list nat) : rle_result := rle l 0 None.
Lemma coded_aug l : coded l = aug (rle_state l).
Proof. unfold coded, aug, rle_state. symmetry. apply rle_runs. Qed.

Lemma total_size_aug s : rle_total_size (length (rle_data s)) (rle_counter s) (rle_last s) = length (aug s).
Proof.
  unfold rle_total_size, aug, rle_augment. destruct (rle_last s); auto.
  destruct (4 <=? rle_counter s); rewrite ?app_length, ?repeat_length; cbn [length]; lia.
Qed.

Definition growth (s : rle_result) : nat := Nat.min (5 * rle_counter s) 20.
Definition rstate_ok (s : rle_result) : Prop :=
  (rle_last s = None -> rle_counter s = 0) /\ (rle_last s <> None -> 1 <= rle_counter s <= 255).

Lemma rle_step_ok s x : rstate_ok s -> rstate_ok (rle_step s x).
Proof.
  intros (H1 & H2). unfold rle_step. destruct (rle_last s) as [b|] eqn:E.
  - specialize (H2 ltac:(discriminate)). destruct (negb (b =? x) || (255 <? S (rle_counter s))) eqn:C.
    + split; cbn [rle_last rle_counter]; [discriminate|lia].
    + apply orb_false_iff in C as (_ & C). apply Nat.ltb_ge in C.
      split; cbn [rle_last rle_counter]; [discriminate|lia].
  - rewrite H1 by auto. split; cbn [rle_last rle_counter]; [discriminate|lia].
Qed.
Lemma rle_fold_ok l s : rstate_ok s -> rstate_ok (fold_left rle_step l s).
Proof. revert s; induction l as [|x l IH]; intros s H; cbn [fold_left]; auto using rle_step_ok. Qed.
Lemma rle_state_ok l : rstate_ok (rle_state l).
Proof. apply rle_fold_ok. split; cbn [rle_last rle_counter]; [auto|congruence]. Qed.

Lemma growth_step s x : rstate_ok s ->
  4 * length (rle_data (rle_step s x)) + growth (rle_step s x) <= 4 * length (rle_data s) + growth s + 5.
Proof.
  intros (H1 & H2). unfold rle_step, growth. destruct (rle_last s) as [b|] eqn:E.
  - specialize (H2 ltac:(discriminate)). destruct (negb (b =? x) || (255 <? S (rle_counter s))) eqn:C;
      cbn [rle_data rle_counter]; [|lia].
    rewrite app_length. unfold rle_emit. destruct (Nat.leb_spec 5 (S (rle_counter s))) as [G|G].
    + rewrite app_length, repeat_length. cbn [length]. lia.
    + rewrite repeat_length. lia.
  - cbn [rle_data rle_counter]. lia.
Qed.
Lemma growth_fold l s : rstate_ok s ->
  4 * length (rle_data (fold_left rle_step l s)) + growth (fold_left rle_step l s)
  <= 4 * length (rle_data s) + growth s + 5 * length l.
Proof.
  revert s; induction l as [|x l IH]; intros s H; cbn [fold_left length]; [lia|].
  specialize (IH (rle_step s x) (rle_step_ok x H)). pose proof (growth_step x H). lia.
Qed.
Lemma aug_growth s : rstate_ok s -> 4 * length (aug s) <= 4 * length (rle_data s) + growth s.
Proof.
  intros (H1 & H2). unfold aug, rle_augment, growth. destruct (rle_last s) as [b|] eqn:E; [|lia].
  destruct (Nat.leb_spec 4 (rle_counter s)); rewrite ?app_length, ?repeat_length; cbn [length]; lia.
Qed.
Lemma data_lt_aug s : rstate_ok s -> rle_last s <> None -> length (rle_data s) < length (aug s).
Proof.
  intros (H1 & H2) HN. specialize (H2 HN). unfold aug, rle_augment. destruct (rle_last s) as [b|]; [|congruence].
  destruct (4 <=? rle_counter s); rewrite ?app_length, ?repeat_length; cbn [length]; lia.
Qed.
Lemma data_le_aug s : length (rle_data s) <= length (aug s).
Proof.
  unfold aug, rle_augment. destruct (rle_last s) as [b|]; [|lia].
  destruct (4 <=? rle_counter s); rewrite ?app_length; lia.
Qed.

Lemma rle_state_app a b : rle_state (a ++ b) = fold_left rle_step b (rle_state a).
Proof. unfold rle_state, rle. apply fold_left_app. Qed.

Lemma rle_last_none l : rle_last (rle_state l) = None -> l = [].
Proof.
  destruct (rev l) as [|x t] eqn:E.
  - intros _. rewrite <- (rev_involutive l), E. auto.
  - rewrite <- (rev_involutive l), E. cbn [rev]. rewrite rle_state_app. cbn [fold_left].
    unfold rle_step. destruct (rle_last (rle_state (rev t))); [destruct (_ || _)|]; discriminate.
Qed.

(** ** filling a block, as a function of the data alone *)
Definition fill_of (b : list nat) (fin : bool) : fill :=
  mk_fill b (rle_data (rle_state b)) (length (coded b)) (rle_counter (rle_state b)) (rle_last (rle_state b)) fin.

(** the number of bytes asked for when [b] has been read *)
Definition request (b : list nat) : N := ((RLE_LIMIT - N.of_nat (length (rle_data (rle_state b)))) * 4 / 5)%N.

Fixpoint cut_loop (fuel : nat) (b data : list nat) : list nat * list nat * bool :=
  if (N.of_nat (length (coded b)) <? RLE_LIMIT)%N
  then match fuel with
       | O => (b, data, true)
       | S fuel' =>
           match firstn (N.to_nat (request b)) data with
           | [] => (b, data, true)
           | buf => cut_loop fuel' (b ++ buf) (skipn (N.to_nat (request b)) data)
           end
       end
  else (b, data, false).

Lemma to_take_ok b : (N.of_nat (length (coded b)) < RLE_LIMIT)%N ->
  to_take (length (rle_data (rle_state b))) = Ok (request b) /\ (1 <= request b)%N.
Proof.
  intros H. rewrite coded_aug in H. unfold to_take, request.
  pose proof (data_le_aug (rle_state b)) as H1.
  assert (N.of_nat (length (rle_data (rle_state b))) + 2 <= RLE_LIMIT)%N as H2.
  { destruct (rle_last (rle_state b)) eqn:E.
    - pose proof (@data_lt_aug (rle_state b) (rle_state_ok b)) as G. rewrite E in G.
      specialize (G ltac:(discriminate)). lia.
    - apply rle_last_none in E. subst b. change (length (rle_data (rle_state []))) with 0. unfold RLE_LIMIT. lia. }
  replace (RLE_LIMIT <? _)%N with false by (symmetry; apply N.ltb_ge; lia).
  split; auto. apply N.div_le_lower_bound; [discriminate|]. lia.
Qed.

Lemma fill_step b buf fin : fill_of (b ++ buf) fin =
  let result := rle buf (rle_counter (rle_state b)) (rle_last (rle_state b)) in
  mk_fill (b ++ buf) (rle_data (rle_state b) ++ rle_data result)
    (rle_total_size (length (rle_data (rle_state b)) + length (rle_data result)) (rle_counter result) (rle_last result))
    (rle_counter result) (rle_last result) fin.
Proof.
  cbv zeta. pose proof (rle_app b buf 0 None) as HA.
  assert (rle_state (b ++ buf) = rle (b ++ buf) 0 None) as HS by reflexivity.
  unfold fill_of. rewrite coded_aug, <- total_size_aug, HS, HA.
  cbn [rle_data rle_counter rle_last]. unfold rle_state. rewrite app_length. reflexivity.
Qed.

Lemma firstn_cons_len {A} n (l : list A) x t : firstn n l = x :: t -> length (skipn n l) < length l.
Proof.
  intros H. rewrite skipn_length. assert (0 < n) by (destruct n; [discriminate|lia]).
  destruct l; [rewrite firstn_nil in H; discriminate|cbn [length]; lia].
Qed.

Lemma fill_loop_cut fuel : forall rd data b, delivers rd data -> length data < fuel ->
  exists rd', fill_loop fuel rd (fill_of b false) =
      Ok (fill_of (fst (fst (cut_loop fuel b data))) (snd (cut_loop fuel b data)), rd') /\
    delivers rd' (snd (fst (cut_loop fuel b data))).
Proof.
  induction fuel as [|fuel IH]; intros rd data b HD HL; [lia|].
  cbn [fill_loop cut_loop]. cbn [fill_of fl_total].
  destruct (N.ltb_spec (N.of_nat (length (coded b))) RLE_LIMIT) as [Hlt|Hge].
  2:{ exists rd. cbn [fst snd]. auto. }
  destruct (to_take_ok b Hlt) as (ET & HR). unfold fill_of at 1. cbn [fl_rle].
  rewrite ET. cbn [bind]. destruct (take_spec (request b) HD) as (rd' & -> & HD').
  destruct (firstn (N.to_nat (request b)) data) as [|x buf] eqn:EF.
  - exists rd'. cbn [fst snd]. split; [reflexivity|].
    assert (data = []) as ->; [|rewrite skipn_nil in HD'; auto].
    destruct data; auto. destruct (N.to_nat (request b)) eqn:EN; [lia|discriminate].
  - rewrite <- EF in *. set (buf' := firstn (N.to_nat (request b)) data) in *.
    destruct (IH rd' (skipn (N.to_nat (request b)) data) (b ++ buf') HD') as (rd2 & E & HD2).
    { pose proof (firstn_cons_len _ _ EF). lia. }
    exists rd2. split; auto. rewrite <- E. f_equal.
    rewrite fill_step. cbv zeta. cbn [fill_of fl_buf fl_rle fl_count fl_last fl_finalize]. reflexivity.
Qed.

(** what the cut looks like *)
Lemma cut_loop_spec fuel : forall b data, length data < fuel ->
  (N.of_nat (length (coded b)) <= RLE_LIMIT + 5)%N ->
  forall piece rest fin, cut_loop fuel b data = (piece, rest, fin) ->
  b ++ data = piece ++ rest /\
  (N.of_nat (length (coded piece)) <= RLE_LIMIT + 5)%N /\
  (fin = true -> rest = [] /\ (N.of_nat (length (coded piece)) < RLE_LIMIT)%N) /\
  (fin = false -> RLE_LIMIT <= N.of_nat (length (coded piece)))%N.
Proof.
  induction fuel as [|fuel IH]; intros b data HL HB piece rest fin; [lia|]. cbn [cut_loop].
  destruct (N.ltb_spec (N.of_nat (length (coded b))) RLE_LIMIT) as [Hlt|Hge].
  2:{ intros E. injection E as <- <- <-. repeat split; auto; discriminate. }
  destruct (to_take_ok b Hlt) as (ET & HR).
  destruct (firstn (N.to_nat (request b)) data) as [|x buf] eqn:EF.
  - intros E. injection E as <- <- <-.
    assert (data = []) as ->.
    { destruct data; auto. destruct (N.to_nat (request b)) eqn:EN; [lia|discriminate]. }
    repeat split; auto; discriminate.
  - rewrite <- EF in *. intros E. apply IH in E.
    + rewrite <- app_assoc, firstn_skipn in E. exact E.
    + pose proof (firstn_cons_len _ _ EF). lia.
    + rewrite coded_aug, rle_state_app.
      pose proof (@aug_growth _ (rle_fold_ok (firstn (N.to_nat (request b)) data) (rle_state_ok b))) as G1.
      pose proof (growth_fold (firstn (N.to_nat (request b)) data) (rle_state_ok b)) as G2.
      assert (length (firstn (N.to_nat (request b)) data) <= N.to_nat (request b)) as G3 by apply firstn_le_length.
      assert (growth (rle_state b) <= 20) as G4 by (unfold growth; lia).
      assert (5 * request b <= (RLE_LIMIT - N.of_nat (length (rle_data (rle_state b)))) * 4)%N as G5.
      { apply N.mul_div_le. discriminate. }
      pose proof (data_le_aug (rle_state b)) as G6. rewrite <- coded_aug in G6.
      remember (length (aug (fold_left rle_step (firstn (N.to_nat (request b)) data) (rle_state b)))) as X.
      remember (length (rle_data (fold_left rle_step (firstn (N.to_nat (request b)) data) (rle_state b)))) as Y.
      remember (growth (fold_left rle_step (firstn (N.to_nat (request b)) data) (rle_state b))) as Z.
      clear - G1 G2 G3 G4 G5 G6 Hlt. unfold RLE_LIMIT in *. lia.
Qed.

Lemma cut_loop_fuel f1 : forall f2 b data, length data < f1 -> length data < f2 ->
  cut_loop f1 b data = cut_loop f2 b data.
Proof.
  induction f1 as [|f1 IH]; intros f2 b data H1 H2; [lia|]. destruct f2 as [|f2]; [lia|]. cbn [cut_loop].
  destruct (_ <? _)%N; auto. destruct (firstn (N.to_nat (request b)) data) as [|x buf] eqn:EF; auto.
  apply IH; pose proof (firstn_cons_len _ _ EF); lia.
Qed.

Definition cut (data : list nat) : list nat * list nat * bool := cut_loop (S (length data)) [] data.

Lemma fill_block_cut rd data : delivers rd data ->
  exists rd', fill_block rd = Ok (fill_of (fst (fst (cut data))) (snd (cut data)), rd') /\
    delivers rd' (snd (fst (cut data))).
Proof.
  intros HD. unfold fill_block, cut. pose proof (reader_size_ge HD).
  rewrite (@cut_loop_fuel (S (length data)) (S (reader_size rd))) by lia.
  change fill_init with (fill_of [] false). apply fill_loop_cut; auto. lia.
Qed.

Lemma coded_nil : length (coded []) = 0.
Proof. reflexivity. Qed.

Lemma cut_spec data piece rest fin : cut data = (piece, rest, fin) ->
  data = piece ++ rest /\ (N.of_nat (length (coded piece)) <= RLE_LIMIT + 5)%N /\
  (fin = true -> rest = []) /\ (data <> [] -> piece <> []).
Proof.
  intros E. unfold cut in E.
  assert (N.of_nat (length (coded [])) <= RLE_LIMIT + 5)%N as H0 by (rewrite coded_nil; unfold RLE_LIMIT; lia).
  destruct (@cut_loop_spec (S (length data)) [] data (Nat.lt_succ_diag_r _) H0 _ _ _ E) as (A & B & C & D).
  cbn [app] in A. split; auto. split; auto. split; [intros H; apply C; auto|].
  intros Hne ->. cbn [app] in A. destruct fin.
  - destruct (C eq_refl) as (-> & _). auto.
  - specialize (D eq_refl). rewrite coded_nil in D. unfold RLE_LIMIT in D. lia.
Qed.

(** all the pieces *)
Inductive cuts : list nat -> list (list nat) -> Prop :=
| cuts_nil : cuts [] []
| cuts_cons data piece rest fin ps : data <> [] -> cut data = (piece, rest, fin) -> cuts rest ps ->
    cuts data (piece :: ps).

Lemma cuts_det data ps1 ps2 : cuts data ps1 -> cuts data ps2 -> ps1 = ps2.
Proof.
  intros H; revert ps2; induction H as [|data piece rest fin ps Hne E H IH]; intros ps2 H2; inversion H2; subst; auto; try congruence.
  rewrite E in H1. injection H1 as <- <- <-. f_equal. auto.
Qed.
Lemma cuts_exists data : exists ps, cuts data ps.
Proof.
  remember (length data) as n eqn:En. revert data En. induction n as [n IH] using lt_wf_ind. intros data ->.
  destruct data as [|x data]; [exists []; constructor|].
  destruct (cut (x :: data)) as [[piece rest] fin] eqn:E.
  destruct (cut_spec _ E) as (A & _ & _ & B). specialize (B ltac:(discriminate)).
  destruct (IH (length rest)) with (data := rest) as (ps & H); auto.
  { rewrite A, app_length. destruct piece; [congruence|cbn [length]; lia]. }
  exists (piece :: ps). econstructor; eauto. discriminate.
Qed.
Lemma cuts_pieces data ps : cuts data ps -> concat ps = data /\ Forall (fun q => q <> []) ps /\
  Forall (fun q => (N.of_nat (length (coded q)) <= RLE_LIMIT + 5)%N) ps.
Proof.
  induction 1 as [|data piece rest fin ps Hne E H IH]; [repeat split; constructor|].
  destruct (cut_spec _ E) as (A & B & _ & C). destruct IH as (I1 & I2 & I3).
  cbn [concat]. rewrite I1. repeat split; auto.
Qed.

Definition piece_work (q : list nat) : work := (crc32 q, coded q).
Lemma work_of_piece q fin : work_of_fill (fill_of q fin) = piece_work q.
Proof.
  unfold work_of_fill, piece_work, fill_of. cbn [fl_buf fl_rle fl_count fl_last]. rewrite coded_aug. reflexivity.
Qed.

(** one round over the workers *)
Lemma read_round_cuts n : forall rd data ps, delivers rd data -> cuts data ps ->
  exists fin rd' ps1 ps2 rest, read_round n rd = Ok (map piece_work ps1, fin, rd') /\
    ps = ps1 ++ ps2 /\ delivers rd' rest /\ cuts rest ps2 /\ (fin = true -> ps2 = []) /\
    (fin = false -> length ps1 = n).
Proof.
  induction n as [|n IH]; intros rd data ps HD HC.
  - exists false, rd, [], ps, data. cbn [read_round map app length].
    split; auto. split; auto. split; auto. split; auto. split; auto. discriminate.
  - cbn [read_round]. destruct (fill_block_cut HD) as (rd' & -> & HD'). cbn [bind].
    destruct (cut data) as [[piece rest] fin] eqn:EC. cbn [fst snd] in *.
    destruct (cut_spec _ EC) as (A & _ & B & C).
    destruct HC as [|data piece' rest' fin' ps Hne EC' HC].
    + (* no data left *)
      destruct piece; [|discriminate]. destruct rest; [|discriminate].
      assert (fin = true) as -> by (vm_compute in EC; congruence).
      exists true, rd', [], [], []. cbn [fill_of fl_buf fl_finalize map app].
      split; auto. split; auto. split; auto. split; [constructor|]. split; auto. discriminate.
    + rewrite EC in EC'. injection EC' as <- <- <-. specialize (C Hne).
      unfold fill_of at 1. cbn [fl_buf].
      destruct piece as [|x piece]; [congruence|]. set (q := x :: piece) in *.
      destruct (IH rd' rest ps HD' HC) as (fin2 & rd2 & ps1 & ps2 & rest2 & -> & -> & D1 & D2 & D3 & D4).
      cbn [bind]. rewrite work_of_piece. cbn [fill_of fl_finalize].
      exists (fin || fin2), rd2, (q :: ps1), ps2, rest2. cbn [map app].
      split; auto. split; auto. split; auto. split; auto. split.
      * intros Hf. apply orb_true_iff in Hf as [->|Hf]; auto.
        rewrite (B eq_refl) in HC. inversion HC as [E1 E2|]; [|congruence].
        symmetry in E2. apply app_eq_nil in E2. tauto.
      * intros Hf. apply orb_false_iff in Hf as [_ Hf]. cbn [length]. f_equal; auto.
Qed.

Lemma flush_round_app p st ws1 ws2 e : flush_round p st (ws1 ++ ws2) e =
  match flush_round p st ws1 e with
  | (Ok _, e) => flush_round p st ws2 e
  | other => other
  end.
Proof.
  revert e; induction ws1 as [|[crc data] ws1 IH]; intros e; cbn [app flush_round]; auto.
  destruct (generate_block_data p crc data st) as [[bits c]| | |]; auto.
  destruct (write_or_panic bits e) as [[u| | |] e']; auto.
Qed.

(** all rounds together write the pieces in order, whatever the number of threads *)
Lemma encode_rounds_cuts p st n : 1 <= n -> forall fuel rd data ps e, delivers rd data -> cuts data ps ->
  length ps < fuel ->
  encode_rounds fuel p n st rd e = flush_round p st (map piece_work ps) e.
Proof.
  intros Hn. induction fuel as [|fuel IH]; intros rd data ps e HD HC HF; [lia|]. cbn [encode_rounds].
  destruct (read_round_cuts n HD HC) as (fin & rd' & ps1 & ps2 & rest & -> & -> & D1 & D2 & D3 & D4).
  rewrite map_app, flush_round_app.
  destruct (flush_round p st (map piece_work ps1) e) as [[u| | |] e'] eqn:EF; auto. destruct u.
  destruct fin.
  - rewrite (D3 eq_refl). reflexivity.
  - apply IH with (data := rest); auto. rewrite app_length in HF. specialize (D4 eq_refl). lia.
Qed.

Lemma cuts_length data ps : cuts data ps -> length ps <= length data.
Proof.
  induction 1 as [|data piece rest fin ps Hne E H IH]; auto.
  destruct (cut_spec _ E) as (A & _ & _ & B). specialize (B Hne).
  rewrite A, app_length. destruct piece; [congruence|cbn [length]; lia].
Qed.

(** ** the whole of [encode_stream], sequentially *)
Definition seq_encode (p : profile) (st : strategy) (ps : list (list nat)) (w : writer) : res unit * writer :=
  let e := mk_enc (bw_from_writer w) 0 in
  match write_or_panic file_header e with
  | (Ok _, e) =>
      match flush_round p st (map piece_work ps) e with
      | (Ok _, e) =>
          match write_or_panic (stream_footer (en_crc e)) e with
          | (Ok _, e) =>
              let (result, bw) := bw_finalize (en_bw e) in
              (unwrap result, bw_sink bw)
          | (result, e) => (result, bw_sink (en_bw e))
          end
      | (result, e) => (result, bw_sink (en_bw e))
      end
  | (result, e) => (result, bw_sink (en_bw e))
  end.

Theorem encode_stream_seq fuel p rd w n st data ps : delivers rd data -> cuts data ps -> 1 <= n ->
  length data < fuel -> encode_stream fuel p rd w n st = seq_encode p st ps w.
Proof.
  intros HD HC Hn HF. unfold encode_stream, seq_encode.
  destruct (write_or_panic file_header _) as [[u| | |] e]; auto.
  pose proof (cuts_length HC). rewrite (@encode_rounds_cuts p st n Hn fuel rd data ps e HD HC) by lia. reflexivity.
Qed.

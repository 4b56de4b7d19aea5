(** * An input whose block exceeds 900000 run-length coded bytes (C30) *)
From Verif Require Import Base BaseFacts SpecRle SpecBwt SpecBzip2 SpecStream Bitwise BitwiseFacts Rle RleFacts Crc32 Crc32Facts BwtFacts UnsortFacts RestoreFacts
  SymbolStatistics BlockEncoder BlockFacts Stream StreamFacts RoundTripFacts ReferenceFacts EncodeFacts.

(** [k] runs of four bytes, alternating between the values [b] and [1 - b] *)
Fixpoint fours (k b : nat) : list nat :=
  match k with O => [] | S k' => repeat b 4 ++ fours k' (1 - b) end.

Lemma fours_length k b : length (fours k b) = 4 * k.
Proof. revert b; induction k as [|k IH]; intros b; cbn [fours]; auto. rewrite app_length, repeat_length, IH. lia. Qed.
Lemma fours_small k b : b <= 1 -> Forall (fun x => x <= 1) (fours k b).
Proof.
  revert b; induction k as [|k IH]; intros b Hb; cbn [fours]; [constructor|]. apply Forall_app. split; [|apply IH; lia].
  apply Forall_forall. intros x Hx. apply repeat_spec in Hx. lia.
Qed.

Lemma run_of_four s b y : rle_counter s = 4 -> rle_last s = Some y -> y <> b ->
  fold_left rle_step (repeat b 4) s = mk_rle (rle_data s ++ repeat y 4 ++ [0]) 4 (Some b).
Proof.
  intros Hc Hl Hy. destruct s as [d c l]. cbn [rle_counter rle_last rle_data] in *. subst c l.
  cbn [repeat fold_left]. unfold rle_step at 4. cbn [rle_counter rle_last rle_data].
  replace (y =? b) with false by (symmetry; apply Nat.eqb_neq; auto). cbn [negb orb].
  unfold rle_emit. cbn [Nat.leb]. change ((5 - 5) mod 256) with 0.
  unfold rle_step at 3. cbn [rle_counter rle_last rle_data]. rewrite Nat.eqb_refl. cbn [negb orb].
  change (255 <? 2) with false. cbn iota.
  unfold rle_step at 2. cbn [rle_counter rle_last rle_data]. rewrite Nat.eqb_refl. cbn [negb orb].
  change (255 <? 3) with false. cbn iota.
  unfold rle_step at 1. cbn [rle_counter rle_last rle_data]. rewrite Nat.eqb_refl. cbn [negb orb].
  change (255 <? 4) with false. cbn iota. reflexivity.
Qed.

Fixpoint flip (k b : nat) : nat := match k with O => b | S k' => flip k' (1 - b) end.
Lemma flip_small k b : b <= 1 -> flip k b <= 1.
Proof. revert b; induction k; intros b Hb; cbn [flip]; auto. apply IHk. lia. Qed.

(** the bytes after [k] runs, the last of them still pending *)
Lemma fold_fours k : forall b s, b <= 1 -> rle_counter s = 4 -> rle_last s = Some (1 - b) ->
  exists d, fold_left rle_step (fours k b) s = mk_rle (rle_data s ++ d) 4 (Some (1 - flip k b)) /\
    length d = 5 * k /\ ~ In 4 d.
Proof.
  induction k as [|k IH]; intros b s Hb Hc Hl; cbn [fours flip].
  - exists []. rewrite app_nil_r. destruct s as [d c l]; cbn [rle_counter rle_last rle_data] in *; subst. auto.
  - rewrite fold_left_app, (@run_of_four s b (1 - b)) by (auto; lia).
    destruct (IH (1 - b) (mk_rle (rle_data s ++ repeat (1 - b) 4 ++ [0]) 4 (Some b))) as (d & E & L & N);
      [lia|reflexivity|cbn [rle_last]; f_equal; lia|].
    rewrite E. cbn [rle_data]. exists (repeat (1 - b) 4 ++ [0] ++ d). split; [|split].
    + f_equal. rewrite <- !app_assoc. reflexivity.
    + rewrite !app_length, repeat_length, L. cbn [length]. lia.
    + rewrite !in_app_iff. intros [H|[H|H]]; auto.
      * apply repeat_spec in H. lia.
      * destruct H as [H|[]]; lia.
Qed.

(** the first request is filled by [2] and [m + 1] runs but one byte *)
Section Witness.
  Variable m : nat.
  Hypothesis Hm : N.of_nat m = 179998%N.
  Let b := flip m 1.
  Definition first_part : list nat := 2 :: repeat 0 4 ++ fours m 1 ++ repeat b 3.
  Definition oversize : list nat := first_part ++ [b; 3; 4].

  Lemma b_small : b <= 1.
  Proof. apply flip_small. lia. Qed.
  Lemma first_length : N.of_nat (length first_part) = 720000%N.
  Proof. unfold first_part. cbn [length]. rewrite !app_length, !repeat_length, fours_length. lia. Qed.

  Lemma first_state : exists d, rle_state first_part = mk_rle d 3 (Some b) /\ N.of_nat (length d) = 899996%N /\ ~ In 4 d.
  Proof.
    unfold first_part, rle_state, rle. change (2 :: repeat 0 4 ++ ?x) with ((2 :: repeat 0 4) ++ x).
    rewrite fold_left_app. change (fold_left rle_step (2 :: repeat 0 4) (mk_rle [] 0 None)) with (mk_rle [2] 4 (Some 0)).
    rewrite fold_left_app.
    destruct (@fold_fours m 1 (mk_rle [2] 4 (Some 0))) as (d & -> & L & N); [lia|reflexivity|reflexivity|].
    cbn [rle_data]. fold b. pose proof b_small as Hb.
    assert (fold_left rle_step (repeat b 3) (mk_rle ([2] ++ d) 4 (Some (1 - b))) =
            mk_rle (([2] ++ d) ++ repeat (1 - b) 4 ++ [0]) 3 (Some b)) as ->.
    { cbn [repeat fold_left]. unfold rle_step at 3. cbn [rle_counter rle_last rle_data].
      replace (1 - b =? b) with false by (symmetry; apply Nat.eqb_neq; lia). cbn [negb orb].
      unfold rle_emit. cbn [Nat.leb]. change ((5 - 5) mod 256) with 0.
      unfold rle_step at 2. cbn [rle_counter rle_last rle_data]. rewrite Nat.eqb_refl. cbn [negb orb].
      change (255 <? 2) with false. cbn iota.
      unfold rle_step at 1. cbn [rle_counter rle_last rle_data]. rewrite Nat.eqb_refl. cbn [negb orb].
      change (255 <? 3) with false. cbn iota. reflexivity. }
    exists (([2] ++ d) ++ repeat (1 - b) 4 ++ [0]). split; auto. split.
    - rewrite !app_length, repeat_length, L. cbn [length]. lia.
    - rewrite !in_app_iff. intros [[H|H]|[H|H]]; auto.
      + destruct H as [H|[]]; lia.
      + apply repeat_spec in H. lia.
      + destruct H as [H|[]]; lia.
  Qed.

  Lemma first_coded : N.of_nat (length (coded first_part)) = 899999%N.
  Proof.
    destruct first_state as (d & E & L & _). rewrite coded_aug, E. unfold aug, rle_augment. cbn [rle_data rle_counter rle_last Nat.leb].
    rewrite app_length, repeat_length. lia.
  Qed.
  Lemma first_request : request first_part = 3%N.
  Proof. destruct first_state as (d & E & L & _). unfold request. rewrite E. cbn [rle_data]. rewrite L. reflexivity. Qed.

  Lemma whole_state : exists d, coded oversize = d ++ [4] /\ N.of_nat (length d) = 900002%N /\ ~ In 4 d.
  Proof.
    destruct first_state as (d & E & L & N). pose proof b_small as Hb.
    rewrite coded_aug. unfold oversize. rewrite rle_state_app, E. cbn [fold_left].
    unfold rle_step at 3. cbn [rle_counter rle_last rle_data]. rewrite Nat.eqb_refl. cbn [negb orb].
    change (255 <? 4) with false. cbn iota.
    unfold rle_step at 2. cbn [rle_counter rle_last rle_data].
    replace (b =? 3) with false by (symmetry; apply Nat.eqb_neq; lia). cbn [negb orb].
    unfold rle_step at 1. cbn [rle_counter rle_last rle_data]. change (3 =? 4) with false. cbn [negb orb].
    unfold aug, rle_augment, rle_emit. cbn [rle_data rle_counter rle_last Nat.leb].
    change ((5 - 5) mod 256) with 0. change (repeat 3 (2 - 1)) with [3]. change (repeat 4 1) with [4].
    eexists. split; [reflexivity|]. split.
    - rewrite !app_length, repeat_length. cbn [length]. lia.
    - rewrite !in_app_iff. intros [[H|[H|H]]|H]; auto.
      + apply repeat_spec in H. lia.
      + destruct H as [H|[]]; lia.
      + destruct H as [H|[]]; lia.
  Qed.
  Lemma oversize_coded : N.of_nat (length (coded oversize)) = 900003%N.
  Proof. destruct whole_state as (d & E & L & _). rewrite E, app_length. cbn [length]. lia. Qed.
  Lemma oversize_safe : reversible (coded oversize).
  Proof. destruct whole_state as (d & E & _ & N). rewrite E. apply safe_reversible, unique_last_safe; auto. Qed.
  Lemma oversize_length : N.of_nat (length oversize) = 720003%N.
  Proof. unfold oversize. rewrite app_length. pose proof first_length. cbn [length]. lia. Qed.
  Lemma oversize_bytes : bytes oversize.
  Proof.
    pose proof b_small as Hb. unfold bytes, oversize. apply Forall_app. split.
    - unfold first_part. constructor; [unfold is_byte; lia|]. apply Forall_app; split; [|apply Forall_app; split].
      + apply Forall_forall. intros x Hx. apply repeat_spec in Hx. unfold is_byte. lia.
      + eapply Forall_impl; [|apply fours_small; lia]. unfold is_byte. intros; cbn beta in *; lia.
      + apply Forall_forall. intros x Hx. apply repeat_spec in Hx. unfold is_byte. lia.
    - do 3 (apply Forall_cons; [unfold is_byte; lia|]). apply Forall_nil.
  Qed.

  (** the whole input ends up in one block *)
  Lemma oversize_cuts : cuts oversize [oversize].
  Proof.
    assert (oversize <> []) as Hne by (unfold oversize, first_part; discriminate).
    apply cuts_cons with (rest := []) (fin := false); [exact Hne| |constructor].
    unfold cut. pose proof oversize_length as HL.
    rewrite (@cut_loop_fuel (S (length oversize)) (S (S (S (length oversize))))) by lia.
    remember (length oversize) as len. cbn [cut_loop].
    rewrite coded_nil. change (N.of_nat 0 <? RLE_LIMIT)%N with true. cbn iota.
    change (request []) with 720000%N.
    assert (firstn (N.to_nat 720000) oversize = first_part) as ->.
    { rewrite <- first_length, Nat2N.id. unfold oversize. rewrite firstn_app, Nat.sub_diag, firstn_O, app_nil_r. apply firstn_all. }
    assert (skipn (N.to_nat 720000) oversize = [b; 3; 4]) as ->.
    { rewrite <- first_length, Nat2N.id. unfold oversize. rewrite skipn_app, Nat.sub_diag, skipn_all. reflexivity. }
    destruct first_part as [|x0 tl0] eqn:EP; [unfold first_part in EP; discriminate|]. rewrite <- EP. cbn [app].
    rewrite first_coded. change (899999 <? RLE_LIMIT)%N with true. cbn iota.
    rewrite first_request. change (firstn (N.to_nat 3) [b; 3; 4]) with [b; 3; 4]. change (skipn (N.to_nat 3) [b; 3; 4]) with (@nil nat).
    cbn iota. fold oversize. destruct len as [|len]; [lia|]. cbn [cut_loop].
    rewrite oversize_coded. change (900003 <? RLE_LIMIT)%N with false. reflexivity.
  Qed.
End Witness.

(** The largest block: the first request ends in a run of eight, two more runs of four follow. *)
Section Largest.
  Variable m : nat.
  Hypothesis Hm : N.of_nat m = 179997%N.
  Let b := flip m 1.
  Definition largest_first : list nat := repeat 0 4 ++ fours m 1 ++ repeat b 8.
  Definition largest_tail : list nat := repeat 2 4 ++ repeat 3 4.
  Definition largest : list nat := largest_first ++ largest_tail.

  Lemma lb_small : b <= 1.
  Proof. apply flip_small. lia. Qed.
  Lemma largest_first_length : N.of_nat (length largest_first) = 720000%N.
  Proof. unfold largest_first. rewrite !app_length, !repeat_length, fours_length. lia. Qed.
  Lemma largest_first_state : exists d, rle_state largest_first = mk_rle d 8 (Some b) /\ N.of_nat (length d) = 899990%N.
  Proof.
    unfold largest_first, rle_state, rle. rewrite fold_left_app.
    change (fold_left rle_step (repeat 0 4) (mk_rle [] 0 None)) with (mk_rle [] 4 (Some 0)).
    rewrite fold_left_app.
    destruct (@fold_fours m 1 (mk_rle [] 4 (Some 0))) as (d & -> & L & _); [lia|reflexivity|reflexivity|].
    cbn [rle_data app]. fold b. pose proof lb_small as Hb.
    change (repeat b 8) with (repeat b 4 ++ repeat b 4). rewrite fold_left_app, (@run_of_four (mk_rle d 4 (Some (1 - b))) b (1 - b)); [|reflexivity|reflexivity|clearbody b; lia].
    cbn [rle_data]. exists (d ++ repeat (1 - b) 4 ++ [0]). split.
    - clearbody b. assert (b = 0 \/ b = 1) as [-> | ->] by lia; reflexivity.
    - rewrite !app_length, repeat_length, L. cbn [length]. lia.
  Qed.
  Lemma largest_first_coded : N.of_nat (length (coded largest_first)) = 899995%N.
  Proof.
    destruct largest_first_state as (d & E & L). rewrite coded_aug, E. unfold aug, rle_augment. cbn [rle_data rle_counter rle_last Nat.leb].
    rewrite !app_length, repeat_length. cbn [length]. lia.
  Qed.
  Lemma largest_first_request : request largest_first = 8%N.
  Proof. destruct largest_first_state as (d & E & L). unfold request. rewrite E. cbn [rle_data]. rewrite L. reflexivity. Qed.
  Lemma largest_coded : N.of_nat (length (coded largest)) = 900005%N.
  Proof.
    destruct largest_first_state as (d & E & L). pose proof lb_small as Hb.
    rewrite coded_aug. unfold largest, largest_tail. rewrite rle_state_app, E. 
    assert (fold_left rle_step (repeat 2 4) (mk_rle d 8 (Some b)) = mk_rle (d ++ repeat b 4 ++ [4]) 4 (Some 2)) as E2.
    { clearbody b. assert (b = 0 \/ b = 1) as [-> | ->] by lia; reflexivity. }
    rewrite fold_left_app, E2. rewrite (@run_of_four _ 3 2) by (auto; lia). unfold aug, rle_augment. cbn [rle_data rle_counter rle_last Nat.leb].
    rewrite !app_length, !repeat_length. cbn [length]. lia.
  Qed.
  Lemma largest_length : N.of_nat (length largest) = 720008%N.
  Proof. unfold largest. rewrite app_length. pose proof largest_first_length. cbn [length largest_tail app repeat]. lia. Qed.
  Lemma largest_bytes : bytes largest.
  Proof.
    pose proof lb_small as Hb. unfold bytes, largest, largest_first, largest_tail. repeat (apply Forall_app; split).
    2:{ eapply Forall_impl; [|apply fours_small; lia]. unfold is_byte. intros; cbn beta in *; lia. }
    all: apply Forall_forall; intros x Hx; apply repeat_spec in Hx; unfold is_byte; lia.
  Qed.
  Lemma largest_cuts : cuts largest [largest].
  Proof.
    assert (largest <> []) as Hne by (unfold largest, largest_first; discriminate).
    apply cuts_cons with (rest := []) (fin := false); [exact Hne| |constructor].
    unfold cut. pose proof largest_length as HL.
    rewrite (@cut_loop_fuel (S (length largest)) (S (S (S (length largest))))) by lia.
    remember (length largest) as len. cbn [cut_loop].
    rewrite coded_nil. change (N.of_nat 0 <? RLE_LIMIT)%N with true. cbn iota.
    change (request []) with 720000%N.
    assert (firstn (N.to_nat 720000) largest = largest_first) as ->.
    { rewrite <- largest_first_length, Nat2N.id. unfold largest. rewrite firstn_app, Nat.sub_diag, firstn_O, app_nil_r. apply firstn_all. }
    assert (skipn (N.to_nat 720000) largest = largest_tail) as ->.
    { rewrite <- largest_first_length, Nat2N.id. unfold largest. rewrite skipn_app, Nat.sub_diag, skipn_all. reflexivity. }
    destruct largest_first as [|x0 tl0] eqn:EP; [unfold largest_first in EP; discriminate|]. rewrite <- EP. cbn [app].
    rewrite largest_first_coded. change (899995 <? RLE_LIMIT)%N with true. cbn iota.
    rewrite largest_first_request. change (firstn (N.to_nat 8) largest_tail) with largest_tail. change (skipn (N.to_nat 8) largest_tail) with (@nil nat).
    destruct largest_tail as [|y0 tl1] eqn:ET; [discriminate|]. rewrite <- ET. clear ET.
    change (largest_first ++ largest_tail) with largest.
    cbn [cut_loop].
    rewrite largest_coded. change (900005 <? RLE_LIMIT)%N with false. reflexivity.
  Qed.
End Largest.

(** * The counted compressor gives the same results and takes linearly many steps *)
From Verif Require Import Base BaseFacts Bitwise BitwiseFacts Rle Crc32 Bwt BwtFacts Mtf MtfFacts Zle ZleFacts Float32 KMeans SymbolStatistics
  PackageMerge PackageMergeFacts Huffman HuffmanFacts CodeTable SymbolMap SymbolMapFacts Selectors BlockEncoder BlockFacts ExpandFacts
  Cost BwtCost BwtCostFacts EncodeCost SpecStream EncodeFacts.

(** ** generic *)
Lemma within_pure {A B} (m : counted A) a (f : A -> counted B) r j k : within m (Ok a) j -> j <= k ->
  within (f a) r (k - j) -> within (cbind m f) r k.
Proof. intros H1 H2 H3. exact (@within_bind _ _ m f (Ok a) (fun _ => r) j k H1 H2 ltac:(intros b [= <-]; auto)). Qed.
Lemma within_inv {A T} (I : T -> Prop) (f : T -> A -> counted T) g k l :
  (forall s x, In x l -> I s -> within (f s x) (g s x) k /\ (forall s', g s x = Ok s' -> I s')) ->
  forall s, I s -> within (cfold f l s) (fold_res g l s) (length l * S k).
Proof.
  induction l as [|x l IH]; intros H s HI; [apply within_done|]. cbn [cfold fold_res length].
  destruct (H s x (or_introl eq_refl) HI) as (H1 & H2).
  eapply within_bind with (j := S k).
  - apply within_steps; [lia|]. eapply within_le; [exact H1|lia].
  - lia.
  - intros s' E. eapply within_le; [apply IH; auto; intros; apply H; auto; right; auto|lia].
Qed.
Lemma fold_res_inv {A T} (I : T -> Prop) (g : T -> A -> res T) l :
  (forall s x s', In x l -> I s -> g s x = Ok s' -> I s') -> forall s s', I s -> fold_res g l s = Ok s' -> I s'.
Proof.
  induction l as [|x l IH]; intros H s s' HI E; cbn [fold_res] in E; [injection E as <-; auto|].
  apply bind_ok in E as (s1 & E1 & E). eapply IH; [|eapply H|exact E]; eauto; [intros; eapply H; eauto; right; auto|left; auto].
Qed.
Lemma map_res_pure {A B} (f : A -> B) l : map_res (fun x => Ok (f x)) l = Ok (map f l).
Proof. induction l as [|x l IH]; cbn [map_res map]; auto. rewrite IH. reflexivity. Qed.
Lemma fold_res_pure {A T} (f : T -> A -> T) l : forall s, fold_res (fun s x => Ok (f s x)) l s = Ok (fold_left f l s).
Proof. induction l as [|x l IH]; intros s; cbn [fold_res fold_left bind]; auto. Qed.
Lemma map_res_ext {A B} (f g : A -> res B) l : (forall x, In x l -> f x = g x) -> map_res f l = map_res g l.
Proof.
  induction l as [|x l IH]; intros H; cbn [map_res]; auto. rewrite (H x) by (left; auto). rewrite IH by (intros; apply H; right; auto). reflexivity.
Qed.
Lemma map_res_In {A B} (f : A -> res B) l : forall l', map_res f l = Ok l' -> forall y, In y l' -> exists x, In x l /\ f x = Ok y.
Proof.
  induction l as [|x l IH]; intros l' E y Hy; cbn [map_res] in E; [injection E as <-; destruct Hy|].
  apply bind_ok in E as (y' & E1 & E). apply bind_ok in E as (ys & E2 & E). injection E as <-.
  destruct Hy as [<-|Hy]; [exists x; split; auto; left; auto|]. destruct (IH _ E2 y Hy) as (x' & H & H'). exists x'. split; auto. right; auto.
Qed.
Lemma within_ok {A} (m : counted A) a k : within m (Ok a) k -> fst m = Ok a.
Proof. intros (H & _). auto. Qed.
Lemma w_copy {A} (l : list A) : within (c_copy l) (Ok l) (length l).
Proof. apply within_takes. lia. Qed.
Lemma w_append {A} (a b : list A) : within (c_append a b) (Ok (a ++ b)) (length b).
Proof. apply within_takes. lia. Qed.
Lemma w_sort {A} leb (l : list A) : within (c_sort leb l) (Ok (sort_by leb l)) (4 * (length l * length l)).
Proof. apply within_takes. lia. Qed.
Lemma w_find_first {A} p (l : list A) : within (c_find_first p l) (Ok (find_first p l)) (2 * length l).
Proof.
  induction l as [|x l IH]; cbn [c_find_first find_first length]; [apply within_done|].
  apply within_steps; [lia|]. destruct (p x); [apply within_done|]. eapply within_le; [exact IH|lia].
Qed.
(** [bind] of a known [Ok] *)
Ltac wp j0 := eapply within_pure with (j := j0); [|lia|].
Ltac wb j0 := eapply within_bind with (j := j0); [|lia|].

(** ** move to front *)
Lemma w_find_pos i dict : within (c_find_pos i dict) (find_pos i dict) (2 * length dict).
Proof.
  induction dict as [|d dict IH]; cbn [c_find_pos find_pos length]; [split; cbn; auto; lia|].
  apply within_steps; [lia|]. destruct (d =? i); [apply within_done|].
  wb (2 * length dict); [exact IH|]. intros k _. apply within_done.
Qed.
Lemma find_pos_lt i dict k : find_pos i dict = Ok k -> k < length dict.
Proof.
  revert k. induction dict as [|d dict IH]; intros k H; cbn [find_pos] in H; [discriminate|]. cbn [length].
  destruct (d =? i); [injection H as <-; lia|]. apply bind_ok in H as (k' & E & H). injection H as <-. apply IH in E. lia.
Qed.
Lemma w_bring pos dict : within (c_bring_to_front_of_dict pos dict) (bring_to_front_of_dict pos dict) (pos + 2).
Proof. unfold c_bring_to_front_of_dict, bring_to_front_of_dict. wi. Qed.
Lemma bring_length pos dict dict' : bring_to_front_of_dict pos dict = Ok dict' -> length dict' = length dict.
Proof.
  unfold bring_to_front_of_dict. intros H. apply bind_ok in H as (el & E & H).
  assert (dict' = el :: firstn pos dict ++ skipn (S pos) dict) as -> by congruence. clear H.
  apply get_at_inv in E. assert (pos < length dict) by (apply nth_error_Some; congruence).
  cbn [length]. rewrite app_length, firstn_length, skipn_length. lia.
Qed.
Lemma w_mtf_loop input : forall dict, within (c_mtf_loop input dict) (mtf_loop input dict) (length input * (3 * length dict + 5)).
Proof.
  induction input as [|v input IH]; intros dict; cbn [c_mtf_loop mtf_loop length]; [apply within_done|].
  change (S (length input) * (3 * length dict + 5)) with (3 * length dict + 5 + length input * (3 * length dict + 5)).
  remember (length input * (3 * length dict + 5)) as X eqn:EX.
  wb (3 + 2 * length dict); [apply within_steps; [lia|]; eapply within_le; [apply w_find_pos|lia]|].
  intros pos E. apply find_pos_lt in E.
  wb (length dict + 2); [eapply within_le; [apply w_bring|lia]|].
  intros dict' E'. apply bring_length in E'.
  wb X; [rewrite EX, <- E'; apply IH|].
  intros out _. apply within_done.
Qed.
Lemma w_create_dict input : bytes input ->
  within (c_create_dict input) (create_dict input) (2 * length input + 4 * (256 * 256) + 4 * 256).
Proof.
  intros HB. unfold c_create_dict.
  wp 256; [apply within_takes; lia|].
  unfold create_dict.
  wb (length input * 2); [apply within_fold_const with (k := 1); intros; apply within_step; lia|].
  intros flags EF.
  assert (length flags = 256) as LF.
  { destruct (@mark_used_spec input (repeat false 256) HB (repeat_length _ _)) as (f & E & L & _).
    rewrite EF in E. injection E as <-. exact L. }
  assert (length (used_from_flags flags) <= 256) as LU.
  { unfold used_from_flags. rewrite map_length. etransitivity; [apply filter_length_le|].
    rewrite enumerate_length. lia. }
  wp (2 * 256); [apply within_takes; lia|].
  wp 256; [eapply within_le; [apply w_copy|lia]|].
  wp (4 * (256 * 256)); [eapply within_le; [apply w_sort|apply Nat.mul_le_mono_l, Nat.mul_le_mono; lia]|].
  apply within_done.
Qed.
Lemma w_mtf input : bytes input -> within (c_mtf input) (mtf input) (775 * length input + 4 * (256 * 256) + 4 * 256).
Proof.
  intros HB. unfold c_mtf, mtf.
  wb (2 * length input + 4 * (256 * 256) + 4 * 256); [apply w_create_dict; auto|].
  intros (dict & used) E. destruct (create_dict_spec HB) as (u & E' & SU & IU & LU).
  rewrite E in E'. injection E' as -> ->.
  wb (length input * 773); [eapply within_le; [apply w_mtf_loop|apply Nat.mul_le_mono_l; lia]|].
  intros enc _. apply within_done.
Qed.

(** ** zero runs *)
Lemma zero_digits z : length (low_bits (N.of_nat z + 1)) <= z + 1.
Proof.
  destruct (encode_zero_split z) as (l & E & E2). pose proof (encode_zero_length z) as L.
  rewrite E2, map_length in L. rewrite E, app_length. cbn [length]. lia.
Qed.
Lemma zle_loop_inv R (report : R -> zsym -> res R) (I : R -> Prop) input :
  (forall s x s', I s -> report s x = Ok s' -> I s') ->
  forall z out s z' out' s', I s -> zle_loop report input z (out, s) = Ok (z', (out', s')) -> I s'.
Proof.
  intros HI. assert (forall syms out s out' s', I s -> emit_all report (out, s) syms = Ok (out', s') -> I s') as HE.
  { intros syms out s out' s' H E. unfold emit_all in E. cbn [fst snd] in E. apply bind_ok in E as (r & E & H2). injection H2 as _ <-.
    eapply fold_res_inv; [|exact H|exact E]. cbv beta. intros; eapply HI; eauto. }
  induction input as [|i input IH]; intros z out s z' out' s' H E; cbn [zle_loop] in E; [injection E as _ _ <-; auto|].
  destruct (i =? 0); [eapply IH; eauto|].
  apply bind_ok in E as ((o1 & s1) & E1 & E). apply bind_ok in E as ((o2 & s2) & E2 & E).
  assert (I s1) as H1. { destruct (0 <? z); [eapply HE; [exact H|exact E1]|]. injection E1 as _ <-. auto. }
  eapply IH; [|exact E]. eapply HE; [exact H1|exact E2].
Qed.
Lemma w_emit R c_report (report : R -> zsym -> res R) (I : R -> Prop) r syms out s :
  (forall s x, I s -> within (c_report s x) (report s x) r /\ (forall s', report s x = Ok s' -> I s')) -> I s ->
  within (c_emit_all c_report (out, s) syms) (emit_all report (out, s) syms) (length syms * (r + 3)).
Proof.
  intros HR HI. unfold c_emit_all, emit_all. cbn [fst snd].
  pose proof (@within_inv _ _ I c_report report r syms (fun s x _ => HR s x) s HI) as W.
  replace (length syms * (r + 3)) with (2 * length syms + length syms * S r) by lia.
  remember (length syms * S r) as X.
  apply within_steps; [lia|]. wb X; [exact W|]. intros. apply within_done.
Qed.
Lemma w_run R c_report (report : R -> zsym -> res R) (I : R -> Prop) r z out s :
  (forall s x, I s -> within (c_report s x) (report s x) r /\ (forall s', report s x = Ok s' -> I s')) -> I s ->
  within (if 0 <? z then let? syms := c_encode_zero_amount z in c_emit_all c_report (out, s) syms else done (out, s))
    (if 0 <? z then emit_all report (out, s) (encode_zero_amount z) else Ok (out, s)) (z * (r + 9)).
Proof.
  intros HR HI. destruct (Nat.ltb_spec 0 z) as [H|H]; [|apply within_done].
  pose proof (encode_zero_length z) as L. pose proof (zero_digits z) as D.
  assert (length (encode_zero_amount z) * (r + 3) <= z * (r + 3)) as L2 by (apply Nat.mul_le_mono_r; auto).
  replace (z * (r + 9)) with (z * (r + 3) + 6 * z) by lia. remember (z * (r + 3)) as X.
  wp (6 * z); [apply within_takes; lia|]. eapply within_le; [apply w_emit with (I := I); auto|lia].
Qed.
Lemma w_zle_loop R c_report (report : R -> zsym -> res R) (I : R -> Prop) r input :
  (forall s x, I s -> within (c_report s x) (report s x) r /\ (forall s', report s x = Ok s' -> I s')) ->
  forall z out s, I s -> exists z', within (c_zle_loop c_report input z (out, s)) (zle_loop report input z (out, s)) (z' + 2 * length input) /\
    z' <= (z + length input) * (r + 9) /\
    (forall z1 st, zle_loop report input z (out, s) = Ok (z1, st) -> z' + z1 * (r + 9) <= (z + length input) * (r + 9)).
Proof.
  intros HR. induction input as [|i input IH]; intros z out s HI.
  - exists 0. cbn [c_zle_loop zle_loop length]. split; [apply within_done|]. split; [lia|]. intros z1 st [= -> _]. lia.
  - cbn [c_zle_loop zle_loop length]. destruct (i =? 0).
    + destruct (IH (z + 1) out s HI) as (z' & W & L & F). exists z'.
      replace (z + S (length input)) with (z + 1 + length input) by lia. split; [|split; auto].
      apply within_steps; [lia|]. eapply within_le; [exact W|lia].
    + (* the rest after the emissions *)
      destruct (bind (if 0 <? z then emit_all report (out, s) (encode_zero_amount z) else Ok (out, s))
                 (fun st => emit_all report st [Number i])) as [(out2, s2)| | |] eqn:E.
      2-4: exists (z * (r + 9) + 1 * (r + 3)); split; [|split; [lia|]].
      2,4,6: apply within_steps; [lia|]; wb (z * (r + 9)); [apply w_run with (I := I); auto|];
             intros (o1 & s1) E1; wb (1 * (r + 3)); [apply w_emit with (I := I); auto|];
             [|intros st E2; exfalso; rewrite E1 in E; cbn [bind] in E; rewrite E2 in E; discriminate].
      2-4: destruct (0 <? z); [|injection E1 as <- <-; auto]; unfold emit_all in E1; cbn [fst snd] in E1;
           apply bind_ok in E1 as (r1 & E1 & H2); injection H2 as _ <-;
           eapply fold_res_inv; [|exact HI|exact E1]; cbv beta; intros; eapply HR; eauto.
      2-4: intros z1 st E2; exfalso; apply bind_ok in E2 as (st1 & E1 & E2); rewrite E1 in E; cbn [bind] in E;
           rewrite E in E2; discriminate.
      apply bind_ok in E as ((o1 & s1) & E1 & E2).
      assert (I s1) as H1.
      { destruct (0 <? z); [|injection E1 as <- <-; auto]; unfold emit_all in E1; cbn [fst snd] in E1;
           apply bind_ok in E1 as (r1 & E1 & H2); injection H2 as _ <-;
           eapply fold_res_inv; [|exact HI|exact E1]; cbv beta; intros; eapply HR; eauto. }
      assert (I s2) as H2.
      { unfold emit_all in E2; cbn [fst snd] in E2; apply bind_ok in E2 as (r1 & E2 & H2); injection H2 as _ <-.
        eapply fold_res_inv; [|exact H1|exact E2]; cbv beta; intros; eapply HR; eauto. }
      destruct (IH 0 out2 s2 H2) as (z' & W & L & F).
      exists (z * (r + 9) + (r + 3) + z'). split; [|split].
      * apply within_steps; [lia|]. wb (z * (r + 9)); [apply w_run with (I := I); auto|].
        intros st Est. rewrite E1 in Est. injection Est as <-.
        wb (1 * (r + 3)); [apply w_emit with (I := I); auto|].
        intros st Est. rewrite E2 in Est. injection Est as <-.
        eapply within_le; [exact W|lia].
      * lia.
      * intros z1 st E3. rewrite E1 in E3. cbn [bind] in E3. rewrite E2 in E3. cbn [bind] in E3.
        apply F in E3. lia.
Qed.
Lemma w_zle R c_report (report : R -> zsym -> res R) (I : R -> Prop) r input s :
  (forall s x, I s -> within (c_report s x) (report s x) r /\ (forall s', report s x = Ok s' -> I s')) -> I s ->
  within (c_zle_transform c_report input s) (zle_transform report input s) (length input * (r + 11) + r).
Proof.
  intros HR HI. unfold c_zle_transform, zle_transform.
  destruct (@w_zle_loop R c_report report I r input HR 0 [] s HI) as (z' & W & L & F).
  replace (length input * (r + 11) + r) with (length input * (r + 9) + 2 * length input + r) by lia.
  remember (length input * (r + 9)) as X. cbn [Nat.add] in L, F.
  wb (z' + 2 * length input); [exact W|]. intros (z1 & (out1 & s1)) E. pose proof (F _ _ E) as F1.
  assert (I s1) as H1. { eapply zle_loop_inv; [|exact HI|exact E]. intros; eapply HR; eauto. }
  wb (z1 * (r + 9)); [apply w_run with (I := I); auto|]. intros (o2 & s2) E2.
  assert (I s2) as H2.
  { destruct (0 <? z1); [|injection E2 as <- <-; auto]; unfold emit_all in E2; cbn [fst snd] in E2;
      apply bind_ok in E2 as (r1 & E2 & H2); injection H2 as _ <-;
      eapply fold_res_inv; [|exact H1|exact E2]; cbv beta; intros; eapply HR; eauto. }
  wb r; [apply HR; auto|]. intros. apply within_done.
Qed.

(** ** statistics *)
Lemma w_single_report m s : within (c_single_report m s) (single_report m s) 2.
Proof. unfold c_single_report, single_report. wi. Qed.
Lemma w_single used enc : 1 <= used -> Forall (fun i => i < used) enc -> (N.of_nat (length enc) <= 1000000)%N ->
  within (c_zle_with_strategy Single enc used) (zle_with_strategy Single enc used) (14 * length enc + 3 * used + 6).
Proof.
  intros Hu HF HL. destruct (single_stats Hu HF HL) as (freqs & sel & ES & (S1 & S2 & S3 & _) & L2 & EL).
  pose proof (zsyms_length 0 enc) as LZ.
  assert (length sel <= length enc + 1) as LS. { pose proof (Nat.div_le_upper_bound (length (zsyms 0 enc)) 50 (length (zsyms 0 enc))). lia. }
  cbn [zle_with_strategy] in *. cbn [c_zle_with_strategy]. unfold single_create in *.
  wp (used + 1); [apply within_takes; lia|].
  wb (length enc * 13 + 2); [apply w_zle with (I := fun _ => True) (r := 2); auto; intros; split; auto; apply w_single_report|].
  intros (syms & m) E. rewrite E in ES. cbn [bind] in ES. assert (syms = zsyms 0 enc /\ single_finalize m = (freqs, sel)) as (-> & EF) by (split; congruence).
  assert (length (sg_freq m) = used + 1) as LF.
  { assert (freqs = [sg_freq m; sg_freq m]) as E1 by (apply (f_equal fst) in EF; symmetry; exact EF). subst freqs. apply Forall_cons_iff in S1. tauto. }
  wp (2 * (used + 1) + length sel).
  - unfold c_single_finalize. rewrite EF. cbn [snd]. apply within_takes. lia.
  - rewrite EF. apply within_done.
Qed.

Lemma w_blockwise_report m s : within (c_blockwise_report m s) (blockwise_report m s) (bm_size m + 4).
Proof.
  unfold c_blockwise_report, blockwise_report. wb 1; [apply within_step; lia|]. intros f _.
  wb 1; [apply within_step; lia|]. intros cur _. cbv zeta.
  destruct (50 <=? bm_counter m + 1); [|apply within_done].
  wp (bm_size m + 1); [apply within_takes; lia|].
  wp 1; [apply (@w_append _ (bm_maps m) [cur])|]. apply within_done.
Qed.
Lemma blockwise_report_size m s m' : blockwise_report m s = Ok m' -> bm_size m' = bm_size m.
Proof.
  unfold blockwise_report. intros H. apply bind_ok in H as (f & _ & H). apply bind_ok in H as (cur & _ & H).
  destruct (50 <=? bm_counter m + 1); injection H as <-; reflexivity.
Qed.
Lemma w_nearest dim pt : length pt = dim -> forall centers number best,
  within (c_nearest centers pt number best) (Ok (nearest centers pt number best)) (length centers * (3 * dim + 1)).
Proof.
  intros HP. induction centers as [|c centers IH]; intros number best; cbn [c_nearest nearest length]; [apply within_done|].
  change (S (length centers) * (3 * dim + 1)) with (3 * dim + 1 + length centers * (3 * dim + 1)).
  remember (length centers * (3 * dim + 1)) as X.
  wp (3 * dim + 1).
  - apply within_steps; [lia|]. apply within_takes. rewrite combine_length. lia.
  - cbv zeta. eapply within_le; [apply IH|]. lia.
Qed.
Lemma w_assign dim centers data : Forall (fun row => length row = dim) data ->
  within (c_assign_all centers data) (Ok (assign_all centers data)) (length data * (length centers * (3 * dim + 1) + 2)).
Proof.
  intros HD. unfold c_assign_all, assign_all. rewrite <- map_res_pure.
  eapply within_le; [apply within_map with (k := length centers * (3 * dim + 1) + 1)|apply Nat.mul_le_mono_l; lia].
  intros pt Hpt. rewrite Forall_forall in HD. wp (length centers * (3 * dim + 1)); [apply w_nearest; auto|]. apply within_step. lia.
Qed.
Lemma w_update dim st da : length (fst da) = dim -> within (c_update_step st da) (update_step st da) (4 * dim + 4).
Proof.
  intros HD. destruct st as (centers & sizes), da as (pt & a). cbn [fst] in HD. unfold c_update_step, update_step.
  wb 1; [apply within_step; lia|]. intros size _. wb 1; [apply within_step; lia|]. intros center _.
  wp (4 * dim); [apply within_takes; rewrite combine_length; lia|].
  wb 1; [apply within_step; lia|]. intros c' _. wb 1; [apply within_step; lia|]. intros s' _. apply within_done.
Qed.
Lemma w_iteration dim k data st : 1 <= k -> means_shape dim k (fst st) -> Forall (fun row => length row = dim) data ->
  within (c_kmeans_iteration dim k data st) (kmeans_iteration dim k data st)
    (length data * (k * (3 * dim + 1) + 4 * dim + 7) + k * (dim + 3)).
Proof.
  intros Hk (M1 & M2) HD. unfold c_kmeans_iteration, kmeans_iteration. cbv zeta.
  replace (length data * (k * (3 * dim + 1) + 4 * dim + 7) + k * (dim + 3))
    with (length data * (k * (3 * dim + 1) + 2) + length data * (4 * dim + 5) + k * (dim + 2) + k) by lia.
  remember (length data * (k * (3 * dim + 1) + 2)) as X. remember (length data * (4 * dim + 5)) as Y. remember (k * (dim + 2)) as Z.
  wp X; [subst X; rewrite <- M1; apply w_assign; auto|].
  wp Z; [subst Z; apply within_takes; rewrite M1; lia|].
  wp k; [apply within_takes; lia|].
  wb Y.
  - eapply within_le; [apply within_fold_const with (k := 4 * dim + 4)|].
    + intros s x Hx. apply w_update. destruct x as (pt & a). apply in_combine_l in Hx. rewrite Forall_forall in HD. cbn [fst]. auto.
    + subst Y. rewrite combine_length. replace (S (4 * dim + 4)) with (4 * dim + 5) by lia. apply Nat.mul_le_mono_r. lia.
  - intros (c & s) _. apply within_done.
Qed.
Lemma w_kmeans dim data it k : 1 <= k -> data <> [] -> Forall (fun row => length row = dim) data ->
  within (c_kmeans_solve dim data it k) (kmeans_solve dim data it k)
    (it * (length data * (k * (3 * dim + 1) + 4 * dim + 7) + k * (dim + 3) + 1) + k * (6 * dim + 6) + length data).
Proof.
  intros Hk Hne HD. unfold c_kmeans_solve, kmeans_solve.
  remember (length data * (k * (3 * dim + 1) + 4 * dim + 7) + k * (dim + 3)) as W.
  replace (k * (6 * dim + 6)) with (k * (2 * dim + 3) + k * (4 * dim + 3)) by lia.
  remember (it * (W + 1)) as X. remember (k * (2 * dim + 3)) as Y. remember (k * (4 * dim + 3)) as Z.
  (* the shape of the centers, from the run of the model *)
  assert (forall i row, get_at data i = Ok row -> length row = dim) as HG.
  { intros i row E. apply get_at_inv in E. eapply Forall_nth_error in HD; [exact HD|exact E]. }
  wb Y.
  - eapply within_le; [apply within_map with (k := 2 * dim + 2)|subst Y; rewrite seq_length; apply Nat.mul_le_mono_l; lia].
    intros i _. unfold c_initial_center, initial_center. wb 1; [apply within_step; lia|]. intros row E. apply HG in E.
    apply within_takes. lia.
  - intros centers EC.
    assert (means_shape dim k centers) as HM.
    { split; [apply map_res_inv_length in EC; rewrite EC; apply seq_length|].
      apply Forall_forall. intros c Hc. destruct (map_res_In _ _ EC c Hc) as (i & _ & E). unfold initial_center in E.
      apply bind_ok in E as (row & E1 & E2). injection E2 as <-. rewrite map_length. eapply HG; eauto. }
    wp (length data); [apply within_takes; lia|].
    wb X.
    + eapply within_le; [apply within_inv with (k := W) (I := fun st : list (list f32) * list nat => means_shape dim k (fst st))|].
      * intros st x _ HS. split; [subst W; apply w_iteration; auto|]. intros st' E.
        destruct (@iteration_ok dim k data st Hk HS) as (c & E2 & M). rewrite E in E2. injection E2 as ->. exact M.
      * exact HM.
      * rewrite repeat_length. subst X. apply Nat.mul_le_mono_l. lia.
    + intros (c & a) E.
      assert (means_shape dim k c) as (M1 & M2).
      { change c with (fst (c, a)). eapply fold_res_inv with (I := fun st : list (list f32) * list nat => means_shape dim k (fst st)); [| |exact E]; [|exact HM].
        cbv beta. intros st x st' _ HS E2. destruct (@iteration_ok dim k data st Hk HS) as (c2 & E3 & M). rewrite E2 in E3. injection E3 as ->. exact M. }
      eapply within_pure with (j := Z) (a := map (map (fun x => f32_to_usize (f32_mul x (f32_of_N 10000)))) c); [|lia|].
      * rewrite <- map_res_pure. eapply within_le; [apply within_map with (k := 4 * dim + 2)|subst Z; rewrite M1; apply Nat.mul_le_mono_l; lia].
        intros row Hr. rewrite Forall_forall in M2. rewrite <- (M2 row Hr). apply within_takes. lia.
      * apply within_done.
Qed.
Definition kmeans_cost (dim g it k : nat) : nat :=
  it * (g * (k * (3 * dim + 1) + 4 * dim + 7) + k * (dim + 3) + 1) + k * (6 * dim + 6) + g.
Lemma kmeans_cost_mono dim g g' it k : g <= g' -> kmeans_cost dim g it k <= kmeans_cost dim g' it k.
Proof.
  intros H. unfold kmeans_cost. apply Nat.add_le_mono; [|auto]. apply Nat.add_le_mono_r, Nat.mul_le_mono_l, Nat.add_le_mono_r, Nat.add_le_mono_r, Nat.mul_le_mono_r. auto.
Qed.
Lemma w_blockwise used enc k it : 1 <= used -> Forall (fun i => i < used) enc -> 1 <= k ->
  within (c_zle_with_strategy (BlockWise k it) enc used) (zle_with_strategy (BlockWise k it) enc used)
    (length enc * (used + 15) + 3 * used + 7 + kmeans_cost (used + 1) ((length enc + 1) / 50 + 1) it k).
Proof.
  intros Hu HF Hk. pose proof (zsyms_length 0 enc) as LZ.
  cbn [zle_with_strategy c_zle_with_strategy]. unfold blockwise_create.
  remember (kmeans_cost (used + 1) ((length enc + 1) / 50 + 1) it k) as K.
  remember (length enc * (used + 15)) as X.
  wp (used + 1); [apply within_takes; lia|].
  wb (X + used + 4).
  - eapply within_le; [apply w_zle with (I := fun m => bm_size m = used) (r := used + 4)|].
    + intros m s Hm. split; [rewrite <- Hm; apply w_blockwise_report|]. intros m' E. apply blockwise_report_size in E. congruence.
    + reflexivity.
    + replace (used + 4 + 11) with (used + 15) by lia. lia.
  - intros (syms & m) E.
    destruct (@blockwise_fold used (zsyms 0 enc ++ [RunA]) Hu) with (m := blockwise_create used k it) (n := 0)
      as (m' & EF & MO & MI & MC).
    { apply sym_below_app, zsyms_below; auto. }
    { unfold bmap_ok, blockwise_create. cbn [bm_current bm_maps bm_size bm_counter].
      rewrite repeat_length. repeat split; auto; cbn [length]; lia. }
    rewrite zle_transform_eq in E. unfold blockwise_create in EF, MI, MC. rewrite EF in E. cbn [bind] in E.
    assert (m' = m) as -> by congruence. clear E EF.
    destruct MO as (M1 & M2 & M3 & M4 & M5). cbn [bm_iterations bm_clusters] in MI, MC.
    wb (used + 2 + K).
    + unfold c_blockwise_finalize, blockwise_finalize. rewrite MI, MC, M3. cbv zeta.
      wp (used + 1); [apply within_takes; lia|].
      wp 1; [apply (@w_append _ (bm_maps m) [bm_current m])|].
      eapply within_le; [apply w_kmeans; auto|].
      * destruct (bm_maps m); discriminate.
      * apply Forall_app; split; auto.
      * change (kmeans_cost (used + 1) (length (bm_maps m ++ [bm_current m])) it k <= used + 2 + K - (used + 1) - 1).
        replace (used + 2 + K - (used + 1) - 1) with K by lia. subst K. apply kmeans_cost_mono.
        rewrite app_length in *. cbn [length] in *. apply Nat.add_le_mono_r.
        apply Nat.div_le_lower_bound; lia.
    + intros rep _. apply within_done.
Qed.

(** ** package merge *)
Fixpoint entry_depth (e : coin_entry) : nat :=
  match e with One _ _ => 0 | Two _ l r => S (Nat.max (entry_depth l) (entry_depth r)) end.
Lemma flatten_nodes e : length (flatten_entry e) <= entry_nodes e.
Proof. induction e as [|v l IHl r IHr]; cbn [flatten_entry entry_nodes length]; [lia|]. rewrite app_length. lia. Qed.
Lemma w_flatten e : within (c_flatten_entry e) (Ok (flatten_entry e)) (entry_nodes e * (entry_depth e + 1)).
Proof.
  induction e as [v c|v l IHl r IHr]; cbn [c_flatten_entry flatten_entry entry_nodes entry_depth].
  - apply within_steps; [lia|]. apply within_done.
  - pose proof (flatten_nodes r) as HR.
    remember (Nat.max (entry_depth l) (entry_depth r)) as d eqn:Ed.
    assert (entry_nodes l * (entry_depth l + 1) <= entry_nodes l * (d + 1)) as H1 by (apply Nat.mul_le_mono_l; lia).
    assert (entry_nodes r * (entry_depth r + 1) <= entry_nodes r * (d + 1)) as H2 by (apply Nat.mul_le_mono_l; lia).
    replace (S (entry_nodes l + entry_nodes r) * (S d + 1)) with (d + 2 + (entry_nodes l * (d + 1) + entry_nodes l) + (entry_nodes r * (d + 1) + entry_nodes r)) by lia.
    remember (entry_nodes l * (d + 1)) as X. remember (entry_nodes r * (d + 1)) as Y.
    wp (1 + X); [apply within_steps; [lia|]; eapply within_le; [exact IHl|lia]|].
    wp Y; [eapply within_le; [exact IHr|lia]|].
    eapply within_le; [apply w_append|lia].
Qed.
Lemma list_nodes_cons e l : list_nodes (e :: l) = entry_nodes e + list_nodes l.
Proof. reflexivity. Qed.
Lemma list_nodes_app a b : list_nodes (a ++ b) = list_nodes a + list_nodes b.
Proof. unfold list_nodes. rewrite map_app, list_sum_app. reflexivity. Qed.
Lemma list_sum_perm a b : Permutation a b -> list_sum a = list_sum b.
Proof.
  induction 1; auto; [| |congruence].
  - change (x + list_sum l = x + list_sum l'). lia.
  - change (y + (x + list_sum l) = x + (y + list_sum l)). lia.
Qed.
Lemma list_nodes_sort l : list_nodes (sort_by entry_leb l) = list_nodes l.
Proof. unfold list_nodes. apply list_sum_perm, Permutation_map. symmetry. apply sort_by_perm. Qed.
Lemma w_pairs n : forall l, length l <= n ->
  within (c_package_pairs l) (Ok (package_pairs l)) (3 * length l + list_nodes l + 2) /\
  list_nodes (package_pairs l) <= list_nodes l + length l / 2 /\
  forall d, Forall (fun e => entry_depth e <= d) l -> Forall (fun e => entry_depth e <= S d) (package_pairs l).
Proof.
  induction n as [|n IH]; intros l HL.
  - destruct l; [|cbn [length] in HL; lia]. split; [apply within_takes; cbn; lia|]. split; [cbn; lia|]. constructor.
  - destruct l as [|a [|b l]].
    + split; [apply within_takes; cbn; lia|]. split; [cbn; lia|]. constructor.
    + split; [apply within_takes; cbn; lia|]. split; [cbn; lia|]. constructor.
    + cbn [length] in HL. destruct (IH l ltac:(lia)) as (W & HS & D). cbn [c_package_pairs package_pairs length].
      rewrite !list_nodes_cons. cbn [entry_nodes]. split; [|split].
      * wp (6 + entry_nodes a + entry_nodes b); [apply within_takes; lia|].
        wp (3 * length l + list_nodes l + 2); [exact W|]. apply within_done.
      * assert (HD : S (S (length l)) / 2 = S (length l / 2)).
        { change (S (S (length l))) with (1 * 2 + length l). rewrite Nat.div_add_l by lia. reflexivity. }
        rewrite HD. lia.
      * intros d HF. apply Forall_cons_iff in HF as (Ha & HF). apply Forall_cons_iff in HF as (Hb & HF).
        constructor; [cbn [entry_depth]; lia|]. apply D; auto.
Qed.
Definition level_inv (m j : nat) (st : list coin_entry * list coin_entry) : Prop :=
  length (fst st) <= m /\ list_nodes (fst st) <= 2 * (m * j) /\ Forall (fun e => entry_depth e <= j) (fst st) /\
  length (snd st) <= 2 * m /\ list_nodes (snd st) <= 2 * (m * j) /\ Forall (fun e => entry_depth e <= j) (snd st).
Lemma coins_nodes coins : list_nodes (map (fun c => One (coin_value c) c) coins) = length coins.
Proof. induction coins as [|c coins IH]; auto. cbn [map length]. rewrite list_nodes_cons, IH. reflexivity. Qed.
Lemma w_level coins m j st e : (forall e, length (filter (fun c => coin_exp c =? e) coins) <= m) -> level_inv m j st ->
  within (c_merge_level coins st e) (Ok (merge_level coins st e)) (20 * (m * m) + 7 * m + 2 + 4 * (m * S j)) /\
  level_inv m (S j) (merge_level coins st e).
Proof.
  intros HM (L1 & N1 & D1 & _). unfold c_merge_level, merge_level, coins_of_exp. cbv zeta.
  specialize (HM e). remember (filter (fun c => coin_exp c =? e) coins) as own eqn:Eo.
  remember (sort_by entry_leb (map (fun c => One (coin_value c) c) own)) as so eqn:Es.
  assert (length so = length own) as LS by (subst so; rewrite sort_by_length, map_length; auto).
  assert (list_nodes so = length own) as NS by (subst so; rewrite list_nodes_sort; apply coins_nodes).
  assert (Forall (fun e => entry_depth e <= 0) so) as DS.
  { apply Forall_forall. intros x Hx. subst so. apply sort_by_in in Hx. apply in_map_iff in Hx as (c & <- & _). cbn. lia. }
  remember (sort_by entry_leb (so ++ fst st)) as lst eqn:El.
  assert (length lst = length so + length (fst st)) as LL by (subst lst; rewrite sort_by_length, app_length; auto).
  assert (list_nodes lst = length own + list_nodes (fst st)) as NL by (subst lst; rewrite list_nodes_sort, list_nodes_app; lia).
  assert (Forall (fun e => entry_depth e <= j) lst) as DL.
  { apply Forall_forall. intros x Hx. subst lst. apply sort_by_in in Hx. apply in_app_iff in Hx. rewrite Forall_forall in *.
    destruct Hx as [Hx|Hx]; auto. apply DS in Hx. lia. }
  destruct (@w_pairs (length lst) lst (le_n _)) as (WP & SP & DP).
  assert (length own * length own <= m * m) as Q1 by (apply Nat.mul_le_mono; auto).
  assert (length lst * length lst <= (2 * m) * (2 * m)) as Q2 by (apply Nat.mul_le_mono; lia).
  assert (m * S j = m * j + m) as EJ by lia. remember (m * j) as J. remember (m * m) as Q.
  assert ((2 * m) * (2 * m) = 4 * Q) as EQ by (subst Q; lia).
  assert (length lst / 2 <= m) as HD by (apply Nat.div_le_upper_bound; lia).
  split.
  - wp (4 * Q); [subst so; eapply within_le; [apply w_sort|rewrite map_length; lia]|].
    wp m; [eapply within_le; [apply w_append|lia]|].
    wp (16 * Q); [rewrite El; eapply within_le; [apply w_sort|]; rewrite app_length, <- Es, <- LL; lia|].
    rewrite <- Es, <- El.
    wp (list_nodes lst); [apply within_takes; lia|].
    wp (3 * length lst + list_nodes lst + 2); [exact WP|]. apply within_done.
  - unfold level_inv. cbn [fst snd]. rewrite EJ. repeat split.
    + rewrite package_pairs_length. lia.
    + lia.
    + apply DP. auto.
    + lia.
    + lia.
    + eapply Forall_impl; [|exact DL]. cbv beta. intros; lia.
Qed.
Lemma w_levels coins m J : (forall e, length (filter (fun c => coin_exp c =? e) coins) <= m) -> forall keys j st,
  j + length keys <= J -> level_inv m j st ->
  within (cfold (c_merge_level coins) keys st) (Ok (fold_left (merge_level coins) keys st))
    (length keys * (20 * (m * m) + 7 * m + 3 + 4 * (m * J))) /\
  level_inv m (j + length keys) (fold_left (merge_level coins) keys st).
Proof.
  intros HM. induction keys as [|e keys IH]; intros j st HJ HI; cbn [cfold fold_left length].
  - split; [apply within_done|]. rewrite Nat.add_0_r. auto.
  - cbn [length] in HJ. destruct (@w_level coins m j st e HM HI) as (W & HI').
    destruct (IH (S j) (merge_level coins st e)) as (W2 & HI2); [lia|auto|]. split; [|rewrite Nat.add_succ_r; exact HI2].
    assert (m * S j <= m * J) as HJ2 by (apply Nat.mul_le_mono_l; lia).
    remember (20 * (m * m) + 7 * m + 3 + 4 * (m * J)) as C.
    change (S (length keys) * C) with (C + length keys * C). remember (length keys * C) as X.
    wp C; [apply within_steps; [lia|]; eapply within_le; [exact W|lia]|].
    eapply within_le; [exact W2|lia].
Qed.
Lemma w_flatten_all l d : Forall (fun e => entry_depth e <= d) l ->
  within (cmap c_flatten_entry l) (Ok (map flatten_entry l)) (list_nodes l * (d + 1) + length l).
Proof.
  induction 1 as [|e l He HF IH]; cbn [cmap map length]; [apply within_done|]. rewrite list_nodes_cons.
  assert (entry_nodes e * (entry_depth e + 1) <= entry_nodes e * (d + 1)) as H1 by (apply Nat.mul_le_mono_l; lia).
  rewrite Nat.mul_add_distr_r. remember (entry_nodes e * (d + 1)) as X. remember (list_nodes l * (d + 1)) as Y.
  wp (1 + X); [apply within_steps; [lia|]; eapply within_le; [apply w_flatten|lia]|].
  wp (Y + length l); [exact IH|]. apply within_done.
Qed.
Lemma solution_nodes l : length (concat (map flatten_entry l)) <= list_nodes l.
Proof.
  induction l as [|e l IH]; [cbn; lia|]. cbn [map concat]. rewrite app_length, list_nodes_cons. pose proof (flatten_nodes e). lia.
Qed.
Lemma make_coins_length w limit : length (make_coins w limit) = limit * length w.
Proof.
  unfold make_coins. rewrite <- (seq_length limit 1) at 2. induction (seq 1 limit) as [|i l IH]; auto.
  cbn [flat_map length]. rewrite app_length, map_length, IH. lia.
Qed.
Lemma make_coins_filter w limit e : length (filter (fun c => coin_exp c =? e) (make_coins w limit)) <= length w.
Proof.
  unfold make_coins. rewrite filter_make_coins. destruct (_ && _); [rewrite map_length|cbn [length]]; lia.
Qed.
(** 18 denominations *)
Lemma w_package_merge w : w <> [] ->
  within (c_package_merge (make_coins w 17)) (package_merge (make_coins w 17))
    (360 * (length w * length w) + 2300 * length w + 1430) /\
  forall packages, package_merge (make_coins w 17) = Ok packages -> length packages <= 2 * length w /\
    length (concat packages) <= 36 * length w.
Proof.
  intros Hw. pose proof (make_coins_length w 17) as LC. pose proof (make_coins_filter w 17) as HF.
  pose proof (max_exp_make 17 Hw) as EM.
  unfold c_package_merge, package_merge. destruct (make_coins w 17) as [|c0 cs] eqn:EC.
  { destruct w; [congruence|discriminate]. }
  rewrite <- EC in *. clear c0 cs EC. set (coins := make_coins w 17) in *. set (m := length w) in *.
  assert (level_inv m 0 ([], [])) as HI by (unfold level_inv; cbn [fst snd length]; repeat split; try (cbn; lia); constructor).
  pose proof (@w_levels coins m 18 HF (rev (seq 0 18)) 0 ([], [])) as WL.
  destruct WL as (WL & HI2); [rewrite rev_length, seq_length; lia|exact HI|].
  rewrite EM in *. change (17 + 1) with 18 in *. cbv zeta.
  remember (fold_left (merge_level coins) (rev (seq 0 18)) ([], [])) as st eqn:Est.
  rewrite rev_length, seq_length in WL, HI2. change (0 + 18) with 18 in HI2.
  destruct HI2 as (_ & _ & _ & L2 & N2 & D2). remember (m * m) as Q.
  split.
  - wp (34 * m); [apply within_takes; rewrite LC; lia|].
    wp (36 + 68 * m); [apply within_takes; rewrite LC; lia|].
    wp (4 * (18 * 18)); [eapply within_le; [apply w_sort|rewrite seq_length; lia]|].
    wp 36; [apply within_takes; rewrite sort_by_length, seq_length; lia|].
    wp (18 * (20 * Q + 7 * m + 3 + 4 * (m * 18))); [exact WL|].
    eapply within_le; [apply w_flatten_all; exact D2|].
    assert (list_nodes (snd st) * 19 <= 2 * (m * 18) * 19) by (apply Nat.mul_le_mono_r; auto). lia.
  - intros packages [= <-]. rewrite map_length. split; [auto|]. pose proof (solution_nodes (snd st)). lia.
Qed.
Lemma concat_firstn_length {A} (ls : list (list A)) n : length (concat (firstn n ls)) <= length (concat ls).
Proof.
  revert n. induction ls as [|l ls IH]; intros [|n]; cbn [firstn concat length]; try lia. rewrite !app_length. specialize (IH n). lia.
Qed.
Lemma w_compute_lis w : w <> [] ->
  within (c_compute_lis w 17) (compute_lis w 17) (432 * (length w * length w) + 2430 * length w + 1447).
Proof.
  intros Hw. unfold c_compute_lis, compute_lis. remember (length w * length w) as Q eqn:EQ.
  wp (17 + 51 * length w); [apply within_takes; lia|].
  destruct (w_package_merge Hw) as (WP & HP). rewrite <- EQ in WP.
  wb (360 * Q + 2300 * length w + 1430); [exact WP|]. intros packages E. destruct (HP _ E) as (P1 & P2). cbv zeta.
  pose proof (concat_firstn_length packages (length w - 1)) as P3.
  remember (concat (firstn (length w - 1) packages)) as sol.
  wp (74 * length w); [apply within_takes; lia|].
  rewrite <- map_res_pure.
  eapply within_le; [apply within_map with (k := 2 * length sol + 2); intros; apply within_takes; lia|].
  assert (length w * S (2 * length sol + 2) <= length w * (72 * length w + 3)) as H by (apply Nat.mul_le_mono_l; lia).
  assert (length w * (72 * length w + 3) = 72 * Q + 3 * length w) by (subst Q; lia). lia.
Qed.

(** ** Huffman codes *)
Lemma iterate_length (l : list N) : length (iterate_frequencies l) = length l.
Proof. unfold iterate_frequencies. rewrite map_length. apply enumerate_length. Qed.
Lemma break_ties_length o l : length (break_ties o l) = length l.
Proof. rewrite <- (map_length fst), break_ties_fst, map_length. reflexivity. Qed.
Lemma w_compute_huffman freqs :
  within (c_compute_huffman freqs) (compute_huffman freqs)
    (436 * ((length freqs + 1) * (length freqs + 1)) + 2450 * (length freqs + 1) + 1447).
Proof.
  unfold c_compute_huffman, compute_huffman. cbv zeta.
  remember (map (fun x => (Normal (fst x), snd x)) (iterate_frequencies freqs) ++ [(EoB, 0%N)]) as tb eqn:Et.
  assert (length tb = length freqs + 1) as LT by (subst tb; rewrite app_length, map_length, iterate_length; reflexivity).
  rewrite <- LT. remember (length tb * length tb) as Q eqn:EQ.
  wp (3 * length tb); [apply within_takes; lia|].
  wp (4 * Q); [eapply within_le; [apply w_sort|lia]|].
  remember (sort_by (fun x y : hsym * N => (snd x <=? snd y)%N) tb) as st eqn:Es.
  assert (length st = length tb) as LS by (subst st; apply sort_by_length).
  wp (5 * length tb); [apply within_takes; lia|].
  remember (break_ties None st) as bt eqn:Eb.
  assert (length bt = length tb) as LB by (subst bt; rewrite break_ties_length; auto).
  wp (2 * length tb); [apply within_takes; lia|].
  assert (map snd bt <> []) as HN by (destruct bt; [cbn [length] in LB; lia|discriminate]).
  wb (432 * Q + 2430 * length tb + 1447).
  - eapply within_le; [apply (w_compute_lis HN)|]. rewrite map_length, LB. lia.
  - intros ls _. apply within_takes. lia.
Qed.
Lemma w_increment p l u : increment_symbol p l = Ok u ->
  within (c_increment_symbol p l) (Ok u) (2 * length l + 4 * length u).
Proof.
  unfold increment_symbol, c_increment_symbol, c_convert_to_number. intros E. apply bind_ok in E as (v & E1 & E).
  rewrite E1. wp (2 * length l); [apply within_takes; lia|].
  destruct (v + 1 =? two64)%N; [destruct p; [discriminate|]|]; injection E as <-; apply within_takes; lia.
Qed.
Definition short (e : list bool * hsym) : Prop := length (fst e) <= 17.
Lemma w_assign_codes p es : forall last cs, assign_codes p last es = Ok cs -> Forall short cs -> length last <= 17 ->
  within (c_assign_codes p last es) (Ok cs) (length es * 156).
Proof.
  induction es as [|(len, s) es IH]; intros last cs E HF HL; cbn [assign_codes c_assign_codes length] in *.
  - injection E as <-. apply within_done.
  - apply bind_ok in E as (u & E1 & E). cbv zeta in E. apply bind_ok in E as (rest & E2 & E). injection E as <-.
    apply Forall_cons_iff in HF as (HC & HF). unfold short in HC. cbn [fst] in HC.
    pose proof HC as HC'. rewrite app_length, repeat_length in HC'.
    wp (2 + 2 * 17 + 4 * 17).
    { apply within_steps; [lia|]. eapply within_le; [apply w_increment; exact E1|]. lia. }
    wp (2 * 17); [apply within_takes; lia|].
    wp 18; [apply within_takes; lia|].
    wp (length es * 156); [apply (IH _ _ E2); auto|]. apply within_done.
Qed.
Lemma w_canonicalize p t T : canonicalize p t = Ok T -> Forall short T ->
  within (c_canonicalize p t) (Ok T) (8 * (length t * length t) + 156 * length t + 36).
Proof.
  unfold canonicalize, c_canonicalize. intros E HF. pose proof (@sort_by_length _ entry_order t) as LS.
  remember (length t * length t) as Q eqn:EQ.
  wp (4 * Q); [eapply within_le; [apply w_sort|lia]|].
  destruct (sort_by entry_order t) as [|(len, s) es]; [discriminate|]. cbn [length] in LS.
  apply bind_ok in E as (cs & E1 & E).
  pose proof (sort_by_perm (fun x y : list bool * hsym => hsym_leb (snd x) (snd y)) ((repeat false len, s) :: cs)) as P.
  assert (T = sort_by (fun x y : list bool * hsym => hsym_leb (snd x) (snd y)) ((repeat false len, s) :: cs)) as HT by congruence.
  assert (Forall short ((repeat false len, s) :: cs)) as HF2.
  { eapply Permutation_Forall; [|exact HF]. rewrite HT. symmetry. exact P. }
  apply Forall_cons_iff in HF2 as (H1 & H2). unfold short in H1. cbn [fst] in H1. pose proof H1 as H1'. rewrite repeat_length in H1'.
  assert (length cs = length es) as LC.
  { clear - E1. revert cs E1. generalize (repeat false len). induction es as [|(l, x) es IH]; intros last cs E; cbn [assign_codes] in E.
    - injection E as <-. reflexivity.
    - apply bind_ok in E as (u & _ & E). cbv zeta in E. apply bind_ok in E as (rest & E2 & E). injection E as <-. cbn [length].
      f_equal. eapply IH. exact E2. }
  wp 36; [apply within_takes; lia|].
  wp (156 * length es); [eapply within_le; [apply w_assign_codes; [exact E1|exact H2|exact H1]|lia]|].
  rewrite HT. eapply within_le; [apply w_sort|]. cbn [length]. rewrite LC, LS. lia.
Qed.
Lemma good_short used T tables : good_tables used tables -> In T tables -> Forall short T /\ length T = length (alphabet used).
Proof.
  intros H Hin. unfold good_tables in H. rewrite Forall_forall in H. destruct (H T Hin) as (A & B & _).
  split; [|rewrite <- A, map_length; reflexivity].
  unfold code_lengths in B. rewrite Forall_map in B. eapply Forall_impl; [|exact B]. unfold short. cbv beta. intros; lia.
Qed.
(** one code table, for an alphabet of at most 258 symbols *)
Definition one_table_cost : nat := 444 * (258 * 258) + 2606 * 258 + 1483.
Lemma w_table p freqs used : 1 <= used <= 256 -> length freqs = used + 1 ->
  within (let? t := c_compute_huffman freqs in c_canonicalize p t) (let! t := compute_huffman freqs in canonicalize p t) one_table_cost.
Proof.
  intros Hu HL. destruct (@tables_ok used [freqs] Hu) as (tables & E & L & G); [constructor; auto|].
  specialize (E p). unfold tables_of in E. cbn [map_res] in E. apply bind_ok in E as (T & E1 & E). cbn [bind] in E. injection E as <-.
  destruct (@good_short used T _ G ltac:(left; auto)) as (HS & _).
  pose proof E1 as E0. apply bind_ok in E1 as (t & E1 & E2).
  assert ((length freqs + 1) * (length freqs + 1) <= 258 * 258) as Q by (apply Nat.mul_le_mono; lia).
  unfold one_table_cost. remember (258 * 258) as K eqn:EK.
  wb (436 * K + 2450 * 258 + 1447); [eapply within_le; [apply w_compute_huffman|lia]|].
  intros t' Et. rewrite E1 in Et. injection Et as <-. rewrite E2.
  assert (length t <= 258) as LT.
  { destruct (@compute_huffman_ok freqs ltac:(lia)) as (t' & Et & P & _). rewrite E1 in Et. injection Et as <-.
    apply Permutation_length in P. rewrite map_length, alphabet_length in P by lia. lia. }
  assert (length t * length t <= K) as Q2 by (subst K; apply Nat.mul_le_mono; auto).
  eapply within_le; [apply w_canonicalize; [exact E2|exact HS]|]. lia.
Qed.

(** ** symbol map, selectors, coded data *)
Lemma w_mark d v : within (c_mark_symbol d v) (mark_symbol d v) 19.
Proof.
  unfold c_mark_symbol, mark_symbol. cbv zeta. wb 1; [apply within_step; lia|]. intros o _.
  apply within_pure with (a := match o with Some given => given | None => repeat false 16 end) (j := 16);
    [destruct o; [apply within_done|apply within_takes; lia]|lia|].
  wb 1; [apply within_step; lia|]. intros g _. apply within_step; lia.
Qed.
Lemma w_symbol_map table : bytes table -> length table <= 256 ->
  within (c_write_symbol_table table) (write_symbol_table table) (8 * (256 * 256) + 40 * 250).
Proof.
  intros HB HL. assert (length table * length table <= 256 * 256) as Q by (apply Nat.mul_le_mono; auto).
  unfold c_write_symbol_table, write_symbol_table. cbv zeta. remember (256 * 256) as K.
  wp 256; [eapply within_le; [apply w_copy|lia]|].
  wp (4 * K); [eapply within_le; [apply w_sort|lia]|].
  wp 256; [eapply within_le; [apply w_copy|lia]|].
  wp (4 * K); [eapply within_le; [apply w_sort|lia]|].
  wp 16; [apply within_takes; lia|].
  wb (length table * 20); [apply within_fold_const; intros; apply w_mark|].
  intros ds ED. change (repeat None 16) with (details (fun _ => false)) in ED.
  destruct (@fold_mark table (fun _ => false) HB) as (m' & E & _). rewrite ED in E.
  assert (ds = details m') as -> by congruence. clear E.
  assert (length (details m') = 16) as L1 by (unfold details; rewrite map_length, seq_length; reflexivity).
  assert (length (flat_map (fun d : option (list bool) => match d with Some l => l | None => [] end) (details m')) <= 16 * 16) as L2.
  { unfold details. transitivity (16 * length (seq 0 16)); [|rewrite seq_length; lia].
    generalize (seq 0 16). induction l as [|r l IH]; [cbn; lia|]. cbn [map flat_map]. rewrite app_length.
    change (length (r :: l)) with (S (length l)). unfold detail at 1. destruct (region_used m' r); [rewrite map_length, seq_length|cbn [length]]; lia. }
  wp 48; [apply within_takes; lia|].
  wp (3 * 256); [apply within_takes; lia|].
  eapply within_le; [apply w_append|]. lia.
Qed.
Lemma w_selectors sel : bytes sel ->
  within (c_create_selectors sel) (create_selectors sel) (1288 * length sel + 4 * (256 * 256) + 4 * 256) /\
  forall bits n, create_selectors sel = Ok (bits, n) -> length bits <= 256 * length sel.
Proof.
  intros HB. destruct (mtf_spec HB) as (enc & used & E & _ & _ & LU & LE & FE & _).
  assert (length (flat_map unary enc) <= 256 * length enc) as HU.
  { clear - FE LU. induction FE as [|x enc Hx FE IH]; [cbn; lia|]. cbn [flat_map length]. rewrite app_length.
    unfold unary at 1. rewrite app_length, repeat_length. cbn [length]. lia. }
  split.
  - unfold c_create_selectors, create_selectors. wb (775 * length sel + 4 * (256 * 256) + 4 * 256); [apply w_mtf; auto|].
    intros (enc', used') E'. rewrite E in E'. injection E' as <- <-. rewrite LE. apply within_takes. lia.
  - unfold create_selectors. rewrite E. cbn [bind]. intros bits n H. assert (bits = flat_map unary enc) as -> by congruence. lia.
Qed.
Lemma find_first_In {A} p (l : list A) x : find_first p l = Some x -> In x l.
Proof. induction l as [|y l IH]; cbn [find_first]; [discriminate|]. destruct (p y); [intros [= ->]; left; auto|right; auto]. Qed.
Lemma w_symbol_code T s : length T <= 258 -> Forall short T ->
  within (c_symbol_code T s) (Ok (symbol_code T s)) 550.
Proof.
  intros HL HF. unfold c_symbol_code, symbol_code.
  wp (2 * 258); [eapply within_le; [apply w_find_first|lia]|].
  destruct (find_first _ T) as [e|] eqn:E; [|apply within_done]. apply find_first_In in E.
  rewrite Forall_forall in HF. specialize (HF e E). unfold short in HF. apply within_takes. lia.
Qed.
Lemma w_encode_data used tables sel syms : good_tables used tables -> 1 <= used <= 256 ->
  within (c_encode_data tables sel syms) (encode_data tables sel syms) (length syms * 555 + 553).
Proof.
  intros HG Hu.
  assert (forall i T, table_at tables sel i = Ok T -> length T <= 258 /\ Forall short T) as HT.
  { intros i T E. unfold table_at in E. apply bind_ok in E as (t & _ & E). apply get_at_inv, nth_error_In in E.
    destruct (@good_short used T _ HG E) as (A & B). rewrite alphabet_length in B by lia. split; auto. lia. }
  unfold c_encode_data, encode_data.
  wb (length syms * 555).
  - rewrite <- (enumerate_length syms). apply within_map with (k := 554). intros (i, s) _. cbn [fst snd].
    wb 4; [apply within_steps; [lia|]; unfold c_table_at, table_at; wb 1; [apply within_step; lia|]; intros; apply within_step; lia|].
    intros T E. destruct (HT _ _ E) as (A & B). apply w_symbol_code; auto.
  - intros codes _. wb 2; [unfold c_table_at, table_at; wb 1; [apply within_step; lia|]; intros; apply within_step; lia|].
    intros T E. destruct (HT _ _ E) as (A & B).
    wp (2 * 258); [eapply within_le; [apply w_find_first|lia]|].
    wb 1; [apply within_step; lia|]. intros e Ee. destruct (find_first _ T) as [e'|] eqn:E'; [|discriminate]. cbn [of_option] in Ee.
    injection Ee as ->. apply find_first_In in E'. rewrite Forall_forall in B. specialize (B e E'). unfold short in B.
    apply within_takes. lia.
Qed.
Lemma pad_length v k : length (convert_to_code_pad_to_n_bits v k) = Nat.max k (length (low_bits v)).
Proof. unfold convert_to_code_pad_to_n_bits. cbv zeta. rewrite rev_length, app_length, repeat_length. lia. Qed.
Lemma field_length k : length (convert_to_code_pad_to_n_bits (N.of_nat k) 3) <= 3 + k.
Proof.
  rewrite pad_length. assert (length (low_bits (N.of_nat k)) <= k); [|lia]. apply size_lt.
  induction k as [|k IH]; [reflexivity|]. rewrite !Nat2N.inj_succ, N.pow_succ_r'. lia.
Qed.
Lemma short_size T : Forall short T -> table_size T <= 18 * length T.
Proof.
  unfold table_size. induction 1 as [|e T He HF IH]; [cbn; lia|]. cbn [map length].
  change (length (fst e) + 1 + list_sum (map (fun e => length (fst e) + 1) T) <= 18 * S (length T)). unfold short in He. lia.
Qed.
Definition tree_cost : nat := 258 * 18 + 6 * 258 + 6 * (5 + 33 * 258).
Lemma w_trees used tables : good_tables used tables -> 1 <= used <= 256 ->
  within (cmap (fun table => let? table := takes (table_size table) (Ok table) in c_encode_code_table table) tables)
    (Ok (map encode_code_table tables)) (length tables * S tree_cost).
Proof.
  intros HG Hu. rewrite <- map_res_pure. apply within_map. intros T HT.
  destruct (@good_short used T _ HG HT) as (A & B). rewrite alphabet_length in B by lia. pose proof (short_size A) as SZ.
  assert (length (encode_code_table T) <= 5 + 33 * 258) as L.
  { rewrite (@encode_code_table_bits used T tables HG HT). unfold good_tables in HG. rewrite Forall_forall in HG.
    destruct (HG T HT) as (_ & C & _). pose proof (table_bits_length C) as L.
    assert (length (code_lengths T) = length T) as E by (unfold code_lengths; apply map_length). rewrite E, B in L. lia. }
  unfold tree_cost. wp (258 * 18); [apply within_takes; lia|]. apply within_takes. lia.
Qed.

(** ** a block *)
(** what the k-means strategy adds for [n] bytes *)
Definition strategy_cost (st : strategy) (n : nat) : nat :=
  match st with
  | Single => 0
  | BlockWise k it => 260 * n + kmeans_cost 257 ((n + 1) / 50 + 1) it k
  end.
Lemma kmeans_cost_dim dim dim' g it k : dim <= dim' -> kmeans_cost dim g it k <= kmeans_cost dim' g it k.
Proof.
  intros H. unfold kmeans_cost.
  assert (k * (3 * dim + 1) <= k * (3 * dim' + 1)) as H1 by (apply Nat.mul_le_mono_l; lia).
  assert (k * (dim + 3) <= k * (dim' + 3)) as H2 by (apply Nat.mul_le_mono_l; lia).
  assert (k * (6 * dim + 6) <= k * (6 * dim' + 6)) as H3 by (apply Nat.mul_le_mono_l; lia).
  remember (k * (3 * dim + 1)) as a. remember (k * (3 * dim' + 1)) as a'.
  assert (g * (a + 4 * dim + 7) <= g * (a' + 4 * dim' + 7)) as H4 by (apply Nat.mul_le_mono_l; lia).
  remember (k * (dim + 3)) as b. remember (k * (dim' + 3)) as b'.
  remember (g * (a + 4 * dim + 7)) as c. remember (g * (a' + 4 * dim' + 7)) as c'.
  assert (it * (c + b + 1) <= it * (c' + b' + 1)) as H5 by (apply Nat.mul_le_mono_l; lia). lia.
Qed.
Lemma w_statistics st enc used : 1 <= used <= 256 -> Forall (fun i => i < used) enc -> (N.of_nat (length enc) <= 1000000)%N ->
  1 <= table_count st ->
  within (c_zle_with_strategy st enc used) (zle_with_strategy st enc used)
    (14 * length enc + 3 * 256 + 7 + strategy_cost st (length enc)).
Proof.
  intros Hu HF HL Hk. destruct st as [k it|]; cbn [strategy_cost table_count] in *.
  - eapply within_le; [apply w_blockwise; auto; lia|].
    pose proof (@kmeans_cost_dim (used + 1) 257 ((length enc + 1) / 50 + 1) it k ltac:(lia)).
    assert (length enc * (used + 15) <= length enc * 271) by (apply Nat.mul_le_mono_l; lia).
    remember (length enc * (used + 15)) as X. lia.
  - eapply within_le; [apply w_single; auto; lia|]. lia.
Qed.
Definition block_fixed_cost : nat := 16 * (256 * 256) + 100 * 250.
Definition per_table_cost : nat := one_table_cost + 1 + S tree_cost + 10 + 2 * (5 + 33 * 258).
Definition block_cost (st : strategy) (n : nat) : nat :=
  1757 * n + block_fixed_cost + table_count st * per_table_cost + strategy_cost st n.
Lemma header_length crc ptr : (crc < 4294967296)%N -> (ptr < 16777216)%N -> length (block_header crc ptr) = 105.
Proof.
  intros Hc Hp. rewrite block_header_bits by auto. rewrite !app_length, bytes_bits_length, !pad_n_length.
  - reflexivity.
  - exact Hp.
  - exact Hc.
Qed.
Lemma concat_flat {A B} (f : A -> list B) l : concat (map f l) = flat_map f l.
Proof. symmetry. apply flat_map_concat_map. Qed.
Theorem w_block p crc data st : bytes data -> data <> [] -> (N.of_nat (length data) <= 1000000)%N -> (crc < 4294967296)%N ->
  1 <= table_count st ->
  within (c_generate_block_data p crc data st) (generate_block_data p crc data st) (block_cost st (length data)).
Proof.
  intros HB Hne HL HC Hk.
  destruct (front_end_ok HB Hne) as (ptr & col & enc & used & FE).
  pose proof FE as (E & SP & EM & SU & IU & LU & BU & LE & LC & FF & IE).
  destruct (@stats_bytes st (length used) enc) as (freqs & sel & ST & BY); auto; try lia.
  pose proof ST as (EZ & SF & SL & SB & SG & SS).
  destruct (tables_ok LU SF) as (tables & ET & LT & GT). specialize (ET p).
  destruct (w_selectors BY) as (WS & HS).
  pose proof (zsyms_length 0 enc) as LZ.
  assert (length sel * 50 <= length data + 101) as LSel.
  { assert ((length (zsyms 0 enc) + 1) / 50 * 50 <= length (zsyms 0 enc) + 1) by (rewrite Nat.mul_comm; apply Nat.mul_div_le; lia). lia. }
  assert (N.of_nat (length sel) < 32768)%N as HS15 by lia.
  assert (bytes col) as BC.
  { eapply Permutation_Forall; [apply (bwt_column_perm SP)|exact HB]. }
  assert (N.of_nat ptr < 16777216)%N as HPtr.
  { assert (ptr < length data) by (destruct SP as (i & rows & _ & _ & _ & H & _); exact H). lia. }
  unfold c_generate_block_data, generate_block_data, block_cost, block_fixed_cost.
  remember (table_count st) as k eqn:Ek. remember (strategy_cost st (length data)) as X eqn:EX. remember (256 * 256) as K eqn:EK.
  assert (k * per_table_cost = k * S one_table_cost + k * S tree_cost + k * 10 + 2 * (k * (5 + 33 * 258))) as HP
    by (unfold per_table_cost; lia). rewrite HP. clear HP.
  remember (k * S one_table_cost) as k1 eqn:E1. remember (k * S tree_cost) as k2 eqn:E2. remember (k * (5 + 33 * 258)) as k3 eqn:E3.
  wb (380 * length data + 25 * 256 + 110); [apply w_bwt; auto|]. intros (col', ptr') H. rewrite E in H. injection H as <- <-.
  wb (775 * length data + 4 * K + 4 * 256); [rewrite <- LC; subst K; apply w_mtf; auto|].
  intros (enc', used') H. rewrite EM in H. injection H as <- <-.
  wb (14 * length data + 3 * 256 + 7 + X); [subst X; rewrite <- LE; apply w_statistics; auto; try lia|].
  intros (syms, (freqs', sel')) H. rewrite EZ in H. injection H as <- <- <-.
  wb k1.
  { rewrite E1, <- SL. apply within_map. intros f Hf. apply w_table with (used := length used); auto.
    rewrite Forall_forall in SF. auto. }
  intros tables' H. unfold tables_of in ET. rewrite ET in H. injection H as <-.
  wb (1288 * length sel + 4 * K + 4 * 256); [subst K; exact WS|].
  intros (sbits, nsel) H. pose proof (HS _ _ H) as LSB.
  wb (8 * K + 40 * 250); [subst K; apply w_symbol_map; auto; lia|].
  intros smap Hm. assert (length smap <= 272) as LM.
  { rewrite write_symbol_table_spec in Hm by auto. injection Hm as <-. apply map_bits_length. }
  assert (nsel = length sel) as ->.
  { unfold create_selectors in H. apply bind_ok in H as ((e & u) & _ & H). cbv beta iota zeta in H. congruence. }
  rewrite (N.mod_small (N.of_nat (length sel)) 65536) by lia.
  wb 60; [apply within_takes; lia|]. intros sfield Hf.
  assert (length sfield = 15) as LF.
  { unfold convert_to_code_pad_to_15_bits in Hf. cbv zeta in Hf. destruct (_ <=? 15) eqn:E15; [|discriminate]. apply Nat.leb_le in E15.
    remember (low_bits (N.of_nat (length sel))) as lb. assert (sfield = rev (lb ++ repeat false (15 - length lb))) as -> by congruence.
    rewrite rev_length, app_length, repeat_length. clear - E15. lia. }
  wp k2; [rewrite E2, <- SL, <- LT; apply w_trees with (used := length used); auto|].
  rewrite (N.mod_small (N.of_nat ptr) 4294967296) by lia.
  pose proof (header_length HC HPtr) as LH.
  wp (6 * 105); [apply within_takes; lia|].
  pose proof (field_length (length tables)) as LFl.
  wp (4 * (3 + k)); [apply within_takes; lia|].
  rewrite concat_flat.
  pose proof (tables_bits_length GT LU) as LTB.
  assert ((5 + 33 * (length used + 2)) * length tables <= k3) as LTB2.
  { rewrite E3, LT, SL, Nat.mul_comm. apply Nat.mul_le_mono_l. lia. }
  wp (105 + 272 + (3 + k) + 15 + 256 * length sel + 2 * k3); [apply within_takes; lia|].
  wb (length data * 555 + 553).
  { eapply within_le; [apply w_encode_data with (used := length used); auto|]. lia. }
  intros dbits _. rewrite <- !app_assoc. apply within_done.
Qed.

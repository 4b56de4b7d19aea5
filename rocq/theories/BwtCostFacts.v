(** * The counted block sort gives the same results and takes linearly many steps *)
From Verif Require Import Base BaseFacts SpecBwt Sais SaisBase SaisInduce SaisSort SaisFacts Bwt BwtFacts Cost BwtCost.
From Coq Require Import Permutation.

Ltac wi :=
  repeat match goal with
  | |- within (done _) (Ok _) _ => apply within_done
  | |- within (Panic, 0) Panic _ => split; cbn; auto; lia
  | |- within (c_get _ _) _ _ => unfold c_get; apply within_step; lia
  | |- within (c_set _ _ _) _ _ => unfold c_set; apply within_step; lia
  | |- within (step _) _ _ => apply within_step; lia
  | |- within (takes _ _) _ _ => apply within_takes; lia
  | |- within (steps _ _) _ _ => apply within_steps; [lia|]
  | |- within (cbind (c_get _ _) _) _ _ =>
      eapply within_bind with (j := 1); [unfold c_get; apply within_step; lia|lia|intros ? ?]
  | |- within (cbind (c_set _ _ _) _) _ _ =>
      eapply within_bind with (j := 1); [unfold c_set; apply within_step; lia|lia|intros ? ?]
  | |- within (cbind (step _) _) _ _ =>
      eapply within_bind with (j := 1); [apply within_step; lia|lia|intros ? ?]
  | |- within (cbind (steps 1 (c_set _ _ _)) _) _ _ =>
      eapply within_bind with (j := 2); [unfold c_set; apply within_steps; [lia|apply within_step; lia]|lia|intros ? ?]
  | |- within (cbind (takes ?k _) _) _ _ =>
      eapply within_bind with (j := k); [apply within_takes; lia|try lia|intros ? ?]
  | |- within (if ?b then _ else _) (if ?b then _ else _) _ => destruct b
  | |- within (match ?b with _ => _ end) (match ?b with _ => _ end) _ => destruct b
  end.

Lemma w_suffix_type_step text types i : within (c_suffix_type_step text types i) (suffix_type_step text types i) 4.
Proof. unfold c_suffix_type_step, suffix_type_step. wi. Qed.
Lemma w_new {A B} (x : A) n (f : list A -> counted B) g k : n <= k ->
  (within (f (repeat x n)) g (k - n)) -> within (cbind (c_new x n) f) g k.
Proof. intros H (H1 & H2). unfold c_new, takes, cbind. destruct (f (repeat x n)). split; cbn in *; auto; lia. Qed.
Lemma w_get_suffix_types text : within (c_get_suffix_types text) (get_suffix_types text) (6 * length text + 3).
Proof.
  assert (get_suffix_types text =
    let! types := Ok (repeat TL (length text + 1) ++ [TS]) in
    if length text =? 0 then Ok types else
    let! types := set_at types (length text - 1) TL in
    fold_res (suffix_type_step text) (rev (seq 0 (length text - 1))) types) as -> by reflexivity.
  unfold c_get_suffix_types. apply w_new; [lia|].
  eapply within_bind with (j := 1); [apply within_step; lia|lia|]. intros types _.
  destruct (Nat.eqb_spec (length text) 0) as [E|E]; [wi|]. wi.
  eapply within_le; [apply within_fold_const with (k := 4); intros; apply w_suffix_type_step|].
  rewrite rev_length, seq_length. lia.
Qed.
Lemma w_get_bucket_sizes text alpha : within (c_get_bucket_sizes text alpha) (get_bucket_sizes text alpha) (3 * length text + alpha).
Proof.
  unfold c_get_bucket_sizes, get_bucket_sizes. apply w_new; [lia|].
  eapply within_le; [apply within_fold_const with (k := 2)|lia].
  intros s x _. unfold c_bucket_size_step, bucket_size_step. wi.
Qed.
Lemma w_is_lms i types : within (c_is_lms_character i types) (is_lms_character i types) 2.
Proof. unfold c_is_lms_character, is_lms_character. wi. Qed.
Lemma w_tail st c v : within (c_place_at_tail st c v) (place_at_tail st c v) 4.
Proof. unfold c_place_at_tail, place_at_tail. wi. Qed.
Lemma w_head st c v : within (c_place_at_head st c v) (place_at_head st c v) 4.
Proof. unfold c_place_at_head, place_at_head. wi. Qed.
Lemma w_identify_step text types st i : within (c_identify_step text types st i) (identify_step text types st i) 8.
Proof.
  unfold c_identify_step, identify_step. eapply within_bind with (j := 2); [apply w_is_lms|lia|]. intros b _.
  wi. eapply within_le; [apply w_tail|lia].
Qed.
Lemma w_identify sa text types sizes :
  within (c_identify_lms_characters sa text types sizes) (identify_lms_characters sa text types sizes)
    (9 * length text + 4 * length sizes + 1).
Proof.
  unfold c_identify_lms_characters, identify_lms_characters. wi.
  eapply within_bind with (j := 4 * length sizes) (r := Ok (get_bucket_tails sizes)) (g := fun tails => let! (sa, _) := fold_res (identify_step text types) (rev (seq 0 (length text))) (a, tails) in Ok sa);
    [apply within_takes; lia|lia|]. intros tails _.
  eapply within_bind.
  - apply within_fold_const with (k := 8). intros; apply w_identify_step.
  - rewrite rev_length, seq_length. lia.
  - intros (sa' & hs) _. wi.
Qed.
Lemma w_induce_l_step text types st i : within (c_induce_l_step text types st i) (induce_l_step text types st i) 8.
Proof.
  unfold c_induce_l_step, induce_l_step. wi. eapply within_le; [apply w_head|lia].
Qed.
Lemma w_induce_s_step text types st i : within (c_induce_s_step text types st i) (induce_s_step text types st i) 8.
Proof.
  unfold c_induce_s_step, induce_s_step. wi. eapply within_le; [apply w_tail|lia].
Qed.
Lemma w_sort_l sa text types sizes :
  within (c_induction_sort_l sa text types sizes) (induction_sort_l sa text types sizes) (9 * length sa + 4 * length sizes).
Proof.
  unfold c_induction_sort_l, induction_sort_l.
  eapply within_bind with (j := 4 * length sizes) (r := Ok (get_bucket_heads sizes)) (g := fun heads => let! (sa, _) := fold_res (induce_l_step text types) (seq 0 (length sa)) (sa, heads) in Ok sa);
    [apply within_takes; lia|lia|]. intros heads _.
  eapply within_bind.
  - apply within_fold_const with (k := 8). intros; apply w_induce_l_step.
  - rewrite seq_length. lia.
  - intros (sa' & hs) _. wi.
Qed.
Lemma w_sort_s sa text types sizes :
  within (c_induction_sort_s sa text types sizes) (induction_sort_s sa text types sizes) (9 * length sa + 4 * length sizes).
Proof.
  unfold c_induction_sort_s, induction_sort_s.
  eapply within_bind with (j := 4 * length sizes) (r := Ok (get_bucket_tails sizes)) (g := fun tails => let! (sa, _) := fold_res (induce_s_step text types) (rev (seq 0 (length sa))) (sa, tails) in Ok sa);
    [apply within_takes; lia|lia|]. intros heads _.
  eapply within_bind.
  - apply within_fold_const with (k := 8). intros; apply w_induce_s_step.
  - rewrite rev_length, seq_length. lia.
  - intros (sa' & hs) _. wi.
Qed.
Lemma w_place_lms sa text sizes summary offsets :
  within (c_place_lms_characters sa text sizes summary offsets) (place_lms_characters sa text sizes summary offsets)
    (8 * length summary + 4 * length sizes + 1).
Proof.
  unfold c_place_lms_characters, place_lms_characters. wi.
  eapply within_bind with (j := 4 * length sizes) (r := Ok (get_bucket_tails sizes)) (g := fun tails => let! (sa, _) := fold_res (place_lms_step text summary offsets) (rev (seq 2 (length summary - 2))) (a, tails) in Ok sa);
    [apply within_takes; lia|lia|]. intros tails _.
  eapply within_bind.
  - apply within_fold_const with (k := 7). intros s x _. unfold c_place_lms_step, place_lms_step. wi.
    eapply within_le; [apply w_tail|lia].
  - rewrite rev_length, seq_length. lia.
  - intros (sa' & hs) _. wi.
Qed.
Lemma w_summary_direct r : within (c_summary_direct r) (summary_direct r) (4 * length r + 2).
Proof.
  unfold c_summary_direct, summary_direct. apply w_new; [lia|]. wi.
  eapply within_le; [apply within_fold_const with (k := 2)|rewrite seq_length; lia].
  intros s x _. unfold c_summary_step, summary_step. wi.
Qed.

(** ** comparing LMS blocks *)
Section Blocks.
  Variable text : list nat.
  Variable types : list suffix_type.
  Hypothesis HT : types_ok text types.
  Notation n := (length text).
  Notation lms := (lms types).
  Notation next := (next text types).

  Lemma w_blocks_loop fuel x y i : y < n -> 1 <= i -> y + i <= next y ->
    within (c_lms_blocks_loop fuel text x y i types) (lms_blocks_loop fuel text x y i types) (7 * (next y - y - i) + 5).
  Proof.
    revert i. induction fuel as [|fuel IH]; intros i Hy Hi Hn; [split; cbn; auto; lia|].
    cbn [c_lms_blocks_loop lms_blocks_loop]. apply within_steps; [lia|].
    destruct (Nat.ltb_spec (i + y) n) as [Hy2|Hy2]; [|apply within_done].
    destruct (i + x <? n); cbn [andb]; [|apply within_done].
    eapply within_bind with (j := 2); [apply w_is_lms|lia|]. intros b1 _.
    eapply within_bind with (j := 2); [apply w_is_lms|lia|]. intros b2 E2.
    rewrite (@is_lms_ok text types HT (y + i)) in E2 by lia. injection E2 as <-.
    destruct (b1 && lms (y + i)) eqn:E1; [apply within_done|].
    destruct (Bool.eqb b1 (lms (y + i))) eqn:E3; cbn [negb]; [|apply within_done].
    assert (y + i < next y) as Hlt.
    { destruct (Nat.eq_dec (y + i) (next y)) as [E|]; [|lia]. destruct (@next_spec text types y Hy) as (_ & H2 & _).
      rewrite <- E in H2. rewrite H2 in E1, E3 by lia. destruct b1; discriminate. }
    eapply within_bind with (j := 1); [apply within_step; lia|lia|]. intros a _.
    eapply within_bind with (j := 1); [apply within_step; lia|lia|]. intros b _.
    destruct (negb (a =? b)); [apply within_done|].
    eapply within_le; [apply IH; lia|lia].
  Qed.

  Lemma w_blocks_equal x y : y <= n ->
    within (c_are_lms_blocks_equal text x y types) (are_lms_blocks_equal text x y types) (7 * (next y - y)).
  Proof.
    intros Hy. unfold c_are_lms_blocks_equal, are_lms_blocks_equal.
    destruct (x =? n); cbn [orb]; [apply within_done|].
    destruct (Nat.eqb_spec y n) as [->|Ny]; [apply within_done|].
    destruct (@next_spec text types y ltac:(lia)) as (H1 & _).
    eapply within_bind with (j := 1); [apply within_step; lia|lia|]. intros a _.
    eapply within_bind with (j := 1); [apply within_step; lia|lia|]. intros b _.
    destruct (negb (a =? b)); [apply within_done|].
    eapply within_le; [apply w_blocks_loop; lia|lia].
  Qed.

  Definition weight (e : option nat) : nat :=
    match e with Some x => if lms x then 4 + 7 * (next x - x) else 3 | None => 1 end.
  Lemma w_naming_step st e : (forall x, e = Some x -> x <= n) ->
    within (c_naming_step text types st e) (naming_step text types st e) (weight e).
  Proof.
    intros He. unfold c_naming_step, naming_step. destruct e as [x|]; cbn [of_option bind].
    2:{ split; cbn; auto. }
    unfold weight. specialize (He x eq_refl). change (within (cbind (step (Ok x)) (fun e : nat => let? lms := c_is_lms_character e types in
      if negb lms then done st else let? prev := takes 0 (of_option (nm_previous st)) in
      let? eq := c_are_lms_blocks_equal text prev e types in
      let? names := c_set (nm_names st) e (Some (if eq then nm_current st else nm_current st + 1)) in
      done (mk_naming names (if eq then nm_current st else nm_current st + 1) (nm_count st + 1) (Some x))))
      (let! e := Ok x in let! lms := is_lms_character e types in
      if negb lms then Ok st else let! prev := of_option (nm_previous st) in
      let! eq := are_lms_blocks_equal text prev e types in
      let! names := set_at (nm_names st) e (Some (if eq then nm_current st else nm_current st + 1)) in
      Ok (mk_naming names (if eq then nm_current st else nm_current st + 1) (nm_count st + 1) (Some x)))
      (if lms x then 4 + 7 * (next x - x) else 3)).
    eapply within_bind with (j := 1); [apply within_step; lia|destruct (lms x); lia|]. intros e E. injection E as <-.
    eapply within_bind with (j := 2); [apply w_is_lms|destruct (lms x); lia|]. intros b E.
    rewrite (@is_lms_ok text types HT x He) in E. injection E as <-.
    destruct (lms x); cbn [negb]; [|apply within_done].
    eapply within_bind with (j := 0); [apply within_takes; lia|lia|]. intros prev _.
    eapply within_bind with (j := 7 * (next x - x)); [apply w_blocks_equal; auto|lia|]. intros b _.
    eapply within_bind with (j := 1); [apply within_step; lia|lia|]. intros names _. apply within_done.
  Qed.

  Variable l : list nat.
  Hypothesis Ll : length l = n + 1.
  Hypothesis Il : forall x, In x l <-> x <= n.
  Hypothesis NDl : NoDup l.
  Hypothesis Ol : forall a b, a < b <= n -> lexlt (K2 text types tkA (nth a l 0)) (K2 text types tkA (nth b l 0)).
  Hypothesis Zl : nth 0 l 0 = n.
  Notation m := (length (q types l)).
  Notation PP := (PP text types).

  Lemma PP_gap a : a < m -> nth a PP 0 + 2 <= nth (a + 1) PP 0.
  Proof.
    intros Ha. pose proof (@PP_incr text types HT l Ll Il NDl Ol Zl a (a + 1) ltac:(lia)) as HI.
    destruct (@PP_nth text types HT l Ll Il NDl Ol Zl a Ha) as (H1 & H2).
    destruct (Nat.eq_dec (nth (a + 1) PP 0) (nth a PP 0 + 1)) as [E|]; [exfalso|lia].
    pose proof (lms_S types _ H2) as HS. destruct (@S_facts text types HT _ H1 HS) as (H3 & _).
    destruct (Nat.eq_dec (a + 1) m) as [Em|Nm].
    - rewrite Em, (@PP_last text types HT l Ll Il NDl Ol Zl) in E. lia.
    - destruct (@PP_nth text types HT l Ll Il NDl Ol Zl (a + 1) ltac:(lia)) as (H4 & H5).
      rewrite E in H5. rewrite Nat.add_1_r in H5. cbn [SaisInduce.lms] in H5.
      apply andb_true_iff in H5 as (_ & H5). unfold isL in H5. rewrite HS in H5. discriminate.
  Qed.
  Lemma PP_low a : 1 <= m -> a <= m -> 2 * a + 1 <= nth a PP 0.
  Proof.
    intros Hm. induction a as [|a IH]; intros Ha.
    - destruct (@PP_nth text types HT l Ll Il NDl Ol Zl 0 ltac:(lia)) as (_ & H2).
      destruct (nth 0 PP 0); [discriminate|lia].
    - pose proof (@PP_gap a ltac:(lia)) as H. rewrite Nat.add_1_r in H. specialize (IH ltac:(lia)). lia.
  Qed.
  Lemma m_half : 1 <= m -> 2 * m + 1 <= n.
  Proof.
    intros Hm. pose proof (@PP_low m Hm ltac:(lia)) as H. rewrite (@PP_last text types HT l Ll Il NDl Ol Zl) in H. auto.
  Qed.

  (** the lengths of the blocks add up to at most the length of the text *)
  Lemma sum_firstn_next k : k <= m -> list_sum (map (fun x => next x - x) (firstn k PP)) + nth 0 PP 0 = nth k PP 0.
  Proof.
    induction k as [|k IH]; intros Hk; [reflexivity|].
    assert (firstn (S k) PP = firstn k PP ++ [nth k PP 0]) as ->.
    { assert (k < length PP) as Hl by (rewrite (@PP_length text types HT l Ll Il NDl Ol Zl); lia).
      clear -Hl. revert Hl. generalize PP. clear. intros t. revert t. induction k as [|k IH]; intros [|x t] Hl; cbn in Hl; try lia.
      - reflexivity.
      - cbn [firstn nth app]. f_equal. apply IH. lia. }
    rewrite map_app, list_sum_app. cbn [map list_sum fold_right].
    rewrite (@PP_next text types HT l Ll Il NDl Ol Zl k) by lia.
    pose proof (@PP_incr text types HT l Ll Il NDl Ol Zl k (k + 1) ltac:(lia)). specialize (IH ltac:(lia)).
    rewrite Nat.add_1_r in *. lia.
  Qed.
  Lemma sum_next : list_sum (map (fun x => next x - x) (q types l)) <= n.
  Proof.
    assert (Permutation (q types l) (firstn m PP)) as HP.
    { assert (firstn m PP = filter lms (seq 0 n)) as ->.
      { assert (length (filter lms (seq 0 n)) = m) as HL.
        { pose proof (@PP_length text types HT l Ll Il NDl Ol Zl) as H. unfold SaisFacts.PP in H. rewrite app_length in H. cbn [length] in H. lia. }
        unfold SaisFacts.PP. rewrite firstn_app, HL, Nat.sub_diag, <- HL, firstn_all. cbn [firstn]. apply app_nil_r. }
      apply NoDup_Permutation.
      - unfold q. apply NoDup_filter. destruct l; auto. inversion NDl; auto.
      - apply NoDup_filter, seq_NoDup.
      - intros x. rewrite (@q_in text types HT l Ll Il NDl Ol Zl). rewrite filter_In, in_seq. intuition lia. }
    assert (list_sum (map (fun x => next x - x) (q types l)) = list_sum (map (fun x => next x - x) (firstn m PP))) as ->.
    { apply (Permutation_map (fun x => next x - x)) in HP. revert HP. generalize (map (fun x => next x - x) (q types l)), (map (fun x => next x - x) (firstn m PP)).
      intros a b. clear. induction 1 as [|x a b _ IH|x y a|a b c _ IH1 _ IH2]; auto; try congruence.
      - change (x + list_sum a = x + list_sum b). lia.
      - change (y + (x + list_sum a) = x + (y + list_sum a)). lia. }
    pose proof (@sum_firstn_next m ltac:(lia)) as H. rewrite (@PP_last text types HT l Ll Il NDl Ol Zl) in H. lia.
  Qed.
End Blocks.

(** ** lengths *)
Lemma set_at_len {A} (l : list A) i x l' : set_at l i x = Ok l' -> length l' = length l.
Proof.
  unfold set_at. destruct (update l i x) as [t|] eqn:E; [|discriminate]. intros H. injection H as <-.
  revert i t E. induction l as [|y l IH]; intros [|i] t E; cbn in E; try discriminate.
  - injection E as <-. reflexivity.
  - destruct (update l i x) as [t'|] eqn:E'; [|discriminate]. injection E as <-. cbn. f_equal. eauto.
Qed.
Lemma fold_inv {A T} (P : T -> Prop) (f : T -> A -> res T) l s s' : (forall s x s', P s -> f s x = Ok s' -> P s') ->
  P s -> fold_res f l s = Ok s' -> P s'.
Proof.
  intros H. revert s. induction l as [|x l IH]; intros s HP E; cbn in E.
  - injection E as <-. auto.
  - destruct (f s x) as [t| | |] eqn:E1; try discriminate. cbn in E. eauto.
Qed.
Ltac ok1 H := match type of H with bind ?r _ = Ok _ => let E := fresh "E" in destruct r eqn:E; try discriminate H; cbn [bind] in H end.
Lemma tail_len st c v st' : place_at_tail st c v = Ok st' -> length (fst st') = length (fst st).
Proof.
  destruct st as (sa, t). unfold place_at_tail. intros H. ok1 H. ok1 H. destruct a as [|a]; [discriminate|]. ok1 H.
  injection H as <-. cbn. eapply set_at_len; eauto.
Qed.
Lemma head_len st c v st' : place_at_head st c v = Ok st' -> length (fst st') = length (fst st).
Proof.
  destruct st as (sa, t). unfold place_at_head. intros H. ok1 H. ok1 H. ok1 H. injection H as <-. cbn. eapply set_at_len; eauto.
Qed.
Lemma fold_len {A} (f : list (option nat) * list nat -> A -> res (list (option nat) * list nat)) l s s' :
  (forall s x s', f s x = Ok s' -> length (fst s') = length (fst s)) -> fold_res f l s = Ok s' -> length (fst s') = length (fst s).
Proof.
  intros H E. apply (@fold_inv _ _ (fun t => length (fst t) = length (fst s)) f l s s'); auto.
  intros t x t' H1 H2. rewrite <- H1. eauto.
Qed.
Lemma identify_len sa text types sizes sa' : identify_lms_characters sa text types sizes = Ok sa' -> length sa' = length sa.
Proof.
  unfold identify_lms_characters. intros H. ok1 H. ok1 H. destruct a0 as (s & t). injection H as <-.
  apply set_at_len in E. rewrite <- E. change s with (fst (s, t)). eapply (@fold_len _ _ _ (a, _)); [|exact E0].
  intros s0 x s1. unfold identify_step. intros H. ok1 H. destruct a0; [|injection H as <-; auto]. ok1 H. eapply tail_len; eauto.
Qed.
Lemma sort_l_len sa text types sizes sa' : induction_sort_l sa text types sizes = Ok sa' -> length sa' = length sa.
Proof.
  unfold induction_sort_l. intros H. ok1 H. destruct a as (s & t). injection H as <-.
  change s with (fst (s, t)). eapply (@fold_len _ _ _ (sa, _)); [|exact E].
  intros s0 x s1. unfold induce_l_step. intros H. ok1 H. destruct a as [[|j]|]; try (injection H as <-; auto).
  ok1 H. destruct (type_eqb a TL); [|injection H as <-; auto]. ok1 H. eapply head_len; eauto.
Qed.
Lemma place_lms_len sa text sizes summary offsets sa' :
  place_lms_characters sa text sizes summary offsets = Ok sa' -> length sa' = length sa.
Proof.
  unfold place_lms_characters. intros H. ok1 H. ok1 H. destruct a0 as (s & t). injection H as <-.
  apply set_at_len in E. rewrite <- E. change s with (fst (s, t)). eapply (@fold_len _ _ _ (a, _)); [|exact E0].
  intros s0 x s1. unfold place_lms_step. intros H. ok1 H. ok1 H. ok1 H. ok1 H. eapply tail_len; eauto.
Qed.

(** ** the reduced problem *)
Section Reduce.
  Variable text : list nat.
  Variable types : list suffix_type.
  Hypothesis HT : types_ok text types.
  Variable l : list nat.
  Notation n := (length text).
  Hypothesis Ll : length l = n + 1.
  Hypothesis Il : forall x, In x l <-> x <= n.
  Hypothesis NDl : NoDup l.
  Hypothesis Ol : forall a b, a < b <= n -> lexlt (K2 text types tkA (nth a l 0)) (K2 text types tkA (nth b l 0)).
  Hypothesis Zl : nth 0 l 0 = n.
  Notation m := (length (q types l)).

  Lemma weights : list_sum (map (fun e => S (weight text types e)) (tl (map Some l))) <= 12 * n.
  Proof.
    assert (tl (map (@Some nat) l) = map Some (tl l)) as -> by (destruct l; auto).
    pose proof (@sum_next text types HT l Ll Il NDl Ol Zl) as HS. unfold q in HS.
    assert (length (tl l) = n) as HL by (destruct l; cbn in *; lia).
    assert (forall t, list_sum (map (fun e => S (weight text types e)) (map Some t)) <=
      5 * length t + 7 * list_sum (map (fun x => next text types x - x) (filter (lms types) t))) as H.
    { induction t as [|x t IH]; [cbn; lia|].
      change (S (weight text types (Some x)) + list_sum (map (fun e => S (weight text types e)) (map Some t)) <=
        5 * S (length t) + 7 * list_sum (map (fun x => next text types x - x) (filter (lms types) (x :: t)))).
      cbn [filter]. unfold weight at 1. destruct (lms types x).
      - change (list_sum (map (fun x => next text types x - x) (x :: filter (lms types) t))) with
          (next text types x - x + list_sum (map (fun x => next text types x - x) (filter (lms types) t))). lia.
      - lia. }
    specialize (H (tl l)). rewrite HL in H. lia.
  Qed.

  Lemma w_reduce : within (c_reduce_problem (map Some l) text types) (reduce_problem (map Some l) text types)
    (17 * n + 3 * m + 10).
  Proof.
    destruct (@naming_loop text types HT l Ll Il NDl Ol Zl) as (names0 & names & E0 & E1 & LN & _ & _).
    unfold c_reduce_problem, reduce_problem.
    assert (get_at (map Some l) 0 = Ok (Some n)) as EG.
    { apply get_at_some. rewrite (@l_cons text types l Ll Il NDl Ol Zl). reflexivity. }
    apply w_new; [lia|].
    eapply within_bind with (j := 1); [apply within_step; lia|lia|]. intros first Ef.
    rewrite EG in Ef. injection Ef as <-.
    eapply within_bind with (j := 0); [apply within_takes; lia|lia|]. intros fo Ef. injection Ef as <-.
    eapply within_bind with (j := 1); [apply within_step; lia|lia|]. intros nm En. rewrite E0 in En. injection En as <-.
    eapply within_bind with (j := 12 * n).
    { eapply within_le; [apply within_fold with (w := weight text types)|apply weights].
      intros s e He. apply w_naming_step; auto. intros x ->.
      assert (In (Some x) (map Some l)) as Hx by (destruct l; cbn in *; auto).
      apply in_map_iff in Hx as (y & Ey & Hy). injection Ey as <-. apply Il; auto. }
    { lia. }
    intros st Es. rewrite E1 in Es. injection Es as <-. cbn [nm_names nm_count nm_current].
    match goal with |- within (cbind (takes ?k (Ok ?e)) ?f) _ _ =>
      apply (@within_bind _ _ (takes k (Ok e)) f (Ok e) (fun entries => let! reduced_text := fill_reduced (m + 1) (map snd entries) in
        let! offsets := fill_reduced (m + 1) (map fst entries) in
        Ok (mk_reduced reduced_text offsets (nms text types l m + 1))) k) end; [apply within_takes; lia|lia|].
    intros entries _.
    eapply within_bind with (j := 2 * (m + 1)); [apply within_takes; lia|lia|]. intros rt _.
    eapply within_bind with (j := m + 1); [apply within_takes; lia|lia|]. intros off _. apply within_done.
  Qed.
End Reduce.

(** ** the suffix array *)
Lemma w_orchestrate fuel : forall text alpha, length text + 1 <= fuel -> Forall (fun x => x < alpha) text ->
  within (c_orchestrate_build_suffix_array fuel text alpha) (orchestrate_build_suffix_array fuel text alpha)
    (350 * length text + 25 * alpha + 100).
Proof.
  induction fuel as [|fuel IH]; intros text alpha Hf HA; [lia|].
  cbn [c_orchestrate_build_suffix_array orchestrate_build_suffix_array].
  destruct (get_suffix_types_ok text) as (types & ET & HT).
  eapply within_bind with (j := 6 * length text + 3); [apply w_get_suffix_types|lia|]. intros ty Et.
  rewrite ET in Et. injection Et as <-.
  eapply within_bind with (j := 3 * length text + alpha); [apply w_get_bucket_sizes|lia|]. intros sizes ES.
  assert (length sizes = alpha) as HS by (rewrite (bucket_sizes_ok HA) in ES; injection ES as <-; rewrite map_length, seq_length; auto).
  rewrite (bucket_sizes_ok HA) in ES. injection ES as <-. set (sizes := map (size_of text) (seq 0 alpha)) in *.
  apply w_new; [lia|].
  destruct (@first_pass text types alpha HT HA) as (sa & sa1 & l & EI & EL & ESo & Ll & Il & NDl & Ol & Zl). fold sizes in EI, EL, ESo.
  pose proof (identify_len _ _ _ _ EI) as LI. rewrite repeat_length in LI. pose proof (sort_l_len _ _ _ _ EL) as LL.
  eapply within_bind; [apply w_identify|lia|]. intros x Ex. rewrite EI in Ex. injection Ex as <-.
  eapply within_bind; [apply w_sort_l|lia|]. intros x Ex. rewrite EL in Ex. injection Ex as <-.
  eapply within_bind; [apply w_sort_s|lia|]. intros x Ex. rewrite ESo in Ex. injection Ex as <-.
  pose proof (@m_half text types HT l Ll Il NDl Ol Zl) as HM.
  pose proof (@R_length text types HT l Ll Il NDl Ol Zl) as RL.
  destruct (@reduce_ok text types HT l Ll Il NDl Ol Zl) as (nmx & ER & NM).
  pose proof (@R_bound text types HT l Ll Il NDl Ol Zl nmx NM) as RB. specialize (RL nmx).
  pose proof (@R_distinct text types HT l Ll Il NDl Ol Zl nmx NM) as RD.
  pose proof (@nms_le text types l Ll Zl (length (q types l))) as HN.
  eapply within_bind; [apply (@w_reduce text types HT l Ll Il NDl Ol Zl)|lia|]. intros x Ex. rewrite ER in Ex. injection Ex as <-.
  cbn [rp_text rp_offsets rp_alphabet]. set (R := map nmx (PP text types)) in *.
  set (m := length (q types l)) in *. remember (nms text types l m + 1) as al eqn:EAl.
  assert (al <> length R -> 1 <= m) as HM1 by lia.
  apply within_bind with (j := if m =? 0 then 6 else 375 * m + 450).
  - destruct (Nat.eqb_spec al (length R)) as [E|E].
    + eapply within_le; [apply w_summary_direct|]. destruct (Nat.eqb_spec m 0) as [E0|E0]; lia.
    + specialize (HM1 E). eapply within_le; [apply IH; auto; lia|]. destruct (Nat.eqb_spec m 0) as [E0|E0]; lia.
  - destruct (Nat.eqb_spec m 0) as [E|E]; lia.
  - intros summary Esum.
    assert (length summary = m + 2) as LS.
    { assert (exists l', Ok summary = Ok (map Some l') /\ length l' = length R + 1) as (l' & E & HL).
      { rewrite <- Esum. destruct (Nat.eqb_spec al (length R)) as [E|E].
        - destruct (@summary_direct_ok R) as (l' & E1 & E2 & _); [auto|rewrite <- E; auto|lia|eauto].
        - destruct (@orchestrate_ok fuel R al) as (l' & E1 & E2 & _); auto; [|eauto].
          specialize (HM1 E). lia. }
      injection E as ->. rewrite map_length. lia. }
    destruct (Nat.eqb_spec m 0) as [E0|E0]; (apply w_new; [lia|]);
    (eapply within_bind; [apply w_place_lms|lia|]); intros sb Eb; apply place_lms_len in Eb; rewrite repeat_length in Eb.
    all: (eapply within_bind; [apply w_sort_l|lia|]); intros sb1 Eb1; apply sort_l_len in Eb1.
    all: eapply within_le; [apply w_sort_s|lia].
Qed.

(** ** the rotation *)
Lemma w_compare input i fuel : forall j k, i <= k < j -> j <= length input -> length input + 1 <= fuel + j ->
  exists j' k' c, c_duval_compare fuel input i j k = (Ok (j', k'), c) /\ duval_compare fuel input i j k = Ok (j', k') /\
    i <= k' < j' /\ j <= j' <= length input /\ c <= 5 * (j' - j) + 3.
Proof.
  induction fuel as [|fuel IH]; intros j k H1 H2 H3; [lia|]. cbn [c_duval_compare duval_compare].
  destruct (Nat.ltb_spec j (length input)) as [Hj|Hj].
  - unfold c_get. rewrite !get_ch by lia. unfold step. cbn [cbind bind fst snd].
    destruct (ch input k <=? ch input j).
    + destruct (IH (j + 1) (if ch input k <? ch input j then i else k + 1)) as (j' & k' & c & E1 & E2 & E3 & E4 & E5); try lia.
      { destruct (ch input k <? ch input j); lia. }
      exists j', k', (1 + (1 + (1 + (2 + c)))). unfold steps at 1. cbn [fst snd]. rewrite E1. cbn [fst snd steps].
      split; auto. split; auto. split; auto. lia.
    + exists j, k, 3. split; [reflexivity|]. split; auto. split; auto. lia.
  - exists j, k, 1. split; [reflexivity|]. split; auto. split; auto. lia.
Qed.
Lemma w_advance j k fuel : forall i fs, k < j -> i <= j -> j + 1 <= fuel + i ->
  exists i' fs' c, c_duval_advance fuel i j k fs = (Ok (i', fs'), c) /\ duval_advance fuel i j k fs = Ok (i', fs') /\
    k < i' <= j /\ i <= i' /\ (i <= k -> i + (j - k) <= i') /\ c <= i' - i + 1.
Proof.
  induction fuel as [|fuel IH]; intros i fs H1 H2 H3; [lia|]. cbn [c_duval_advance duval_advance].
  destruct (Nat.leb_spec i k) as [Hi|Hi].
  - destruct (IH (i + (j - k)) i) as (i' & fs' & c & E1 & E2 & E3 & E4 & E5 & E6); try lia.
    exists i', fs', (1 + c). rewrite E1. split; [reflexivity|]. split; auto. lia.
  - exists i, fs, 1. split; [reflexivity|]. split; auto. lia.
Qed.
Lemma w_duval_loop input fuel : forall i fs, i <= length input -> length input + 1 <= fuel + i ->
  within (c_duval_loop fuel input i fs) (duval_loop fuel input i fs) (18 * (length input - i) + 1).
Proof.
  induction fuel as [|fuel IH]; intros i fs H1 H2; [lia|]. cbn [c_duval_loop duval_loop].
  apply within_steps; [lia|].
  destruct (Nat.ltb_spec i (length input)) as [Hi|Hi]; [|apply within_done].
  destruct (@w_compare input i (S (length input)) (i + 1) i) as (j & k & c & E1 & E2 & E3 & E4 & E5); try lia.
  destruct (@w_advance j k (S (S (length input))) i fs) as (i' & fs' & c' & F1 & F2 & F3 & F4 & F5 & F6); try lia.
  apply within_bind with (j := c); [rewrite E1, E2; split; auto|lia|]. intros (j0, k0) E. rewrite E2 in E. injection E as <- <-.
  apply within_bind with (j := c'); [rewrite F1, F2; split; auto|lia|]. intros (i0, f0) E. rewrite F2 in E. injection E as <- <-.
  eapply within_le; [apply IH; lia|lia].
Qed.
Lemma w_rotate input : within (c_rotate_duval input) (rotate_duval input) (20 * length input + 1).
Proof.
  unfold c_rotate_duval, rotate_duval. apply within_bind with (j := 18 * length input + 1).
  - unfold c_duval, duval. eapply within_le; [apply w_duval_loop; lia|lia].
  - lia.
  - intros o _. apply within_takes. lia.
Qed.

(** ** the whole block sort *)
Lemma w_build bs : Forall (fun b => b < 256) bs ->
  within (c_build_suffix_array bs) (build_suffix_array bs) (353 * length bs + 25 * 256 + 102).
Proof.
  intros HB. unfold c_build_suffix_array, build_suffix_array.
  destruct (@orchestrate_ok (length bs + 1) bs 256) as (l & E & HL & _); auto.
  pose proof (@w_orchestrate (length bs + 1) bs 256 ltac:(lia) HB) as W.
  apply within_bind with (j := 351 * length bs + 25 * 256 + 100).
  - apply within_steps; [lia|]. eapply within_le; [exact W|lia].
  - lia.
  - intros sa Esa. rewrite E in Esa. injection Esa as <-.
    eapply within_le; [apply within_map with (k := 1)|rewrite map_length; lia].
    intros; apply within_step; lia.
Qed.
Lemma w_bwt s : Forall (fun b => b < 256) s -> within (c_bwt s) (bwt s) (380 * length s + 25 * 256 + 110).
Proof.
  intros HB. unfold c_bwt, bwt, bwt_private.
  apply within_bind with (j := 20 * length s + 1); [apply w_rotate|lia|]. intros (rotated, shift) ER.
  assert (length rotated = length s /\ Forall (fun b => b < 256) rotated) as (LR & FR).
  { unfold rotate_duval in ER. ok1 ER. destruct (a <=? length s); [|discriminate]. injection ER as <- <-. split.
    - rewrite app_length, skipn_length, firstn_length. destruct (Nat.le_gt_cases a (length s)); lia.
    - rewrite <- (firstn_skipn a s) in HB. apply Forall_app in HB as (H1 & H2). apply Forall_app; auto. }
  destruct (build_suffix_array_ok FR) as (sa & ES & (LS & _)).
  apply within_bind with (j := 353 * length rotated + 25 * 256 + 102); [apply w_build; auto|lia|]. intros entries EE.
  rewrite ES in EE. injection EE as <-.
  apply within_bind with (j := 5 * length sa).
  - unfold c_bwt_column, bwt_column. apply within_steps; [lia|].
    assert (length (filter (fun x => x <? length rotated) sa) <= length sa) as HF.
    { clear. induction sa as [|x sa IH]; cbn [filter length]; [lia|]. destruct (x <? length rotated); cbn [length]; lia. }
    eapply within_le; [apply within_map with (k := 2)|lia]. intros x _. apply within_steps; [lia|]. apply within_step. lia.
  - lia.
  - intros data _. destruct (length s =? 0); [split; cbn; auto; lia|].
    apply within_bind with (j := 2 * length sa); [apply within_takes; lia|lia|]. intros (p, x) _. apply within_done.
Qed.

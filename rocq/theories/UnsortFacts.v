(** * The inverse block sort: the one of the format, and the crate's *)
From Verif Require Import Base BaseFacts SpecBwt SpecBzip2 LexFacts Bwt BwtFacts.

(** ** inverse block sort *)
Lemma row_leb_spec a b : row_leb a b = true <-> lexle a b.
Proof.
  revert b; induction a as [|x a IH]; intros [|y b]; cbn [row_leb].
  - split; auto. intros _. left; auto.
  - split; auto. intros _. right. constructor.
  - split; [discriminate|]. intros [H|H]; [discriminate|inversion H].
  - change (row_leb (x :: a) (y :: b)) with (if x <? y then true else if y <? x then false else row_leb a b).
    destruct (Nat.ltb_spec x y); [split; intros _; [right; apply lex_head; auto|reflexivity]|].
    destruct (Nat.ltb_spec y x).
    + split; [discriminate|]. intros [E|E]; [injection E as E1 E2; lia|inversion E; subst; lia].
    + assert (x = y) as -> by lia. rewrite IH. split.
      * apply lexle_cons.
      * intros [E|E]; [injection E as ->; left; auto|]. inversion E; subst; [lia|right; auto].
Qed.

Lemma insert_row_spec r rows : Permutation (r :: rows) (insert_row r rows) /\
  (StronglySorted lexle rows -> StronglySorted lexle (insert_row r rows)).
Proof.
  induction rows as [|x rows (IP & IS)]; cbn [insert_row].
  - split; auto. intros _. repeat constructor.
  - destruct (row_leb r x) eqn:E.
    + split; auto. intros HS. apply row_leb_spec in E. constructor; auto. inversion HS as [|? ? _ HF]; subst.
      constructor; auto. eapply Forall_impl; [|exact HF]. intros y Hy. eapply lexle_trans; eauto.
    + split; [rewrite perm_swap; constructor; auto|]. intros HS. inversion HS as [|? ? HS' HF]; subst.
      constructor; auto. apply Forall_forall. intros y Hy. apply (Permutation_in _ (Permutation_sym IP)) in Hy as [<-|Hy].
      * destruct (lexle_total r x) as [G|G]; auto. apply row_leb_spec in G. congruence.
      * rewrite Forall_forall in HF. auto.
Qed.

Lemma sort_rows_spec rows : Permutation rows (sort_rows rows) /\ StronglySorted lexle (sort_rows rows).
Proof.
  unfold sort_rows. induction rows as [|r rows (IP & IS)]; cbn [fold_right]; [split; constructor|].
  destruct (insert_row_spec r (fold_right insert_row [] rows)) as (A & B). split; auto.
  rewrite <- A. constructor; auto.
Qed.

Lemma sort_rows_unique rows M : Permutation rows M -> StronglySorted lexle M -> sort_rows rows = M.
Proof.
  intros P HS. destruct (sort_rows_spec rows) as (A & B).
  eapply sorted_perm_unique; [apply lexle_antisym| | |]; auto. rewrite <- A. auto.
Qed.

Lemma rebuild_rows n M : 0 < n -> (forall m, In m M -> length m = n) -> StronglySorted lexle M ->
  Permutation (map (rot_right n) M) M -> forall k, k <= n -> rebuild k (column n M) = map (firstn k) M.
Proof.
  intros Hn HL HS HP. induction k as [|k IH]; intros Hk; cbn [rebuild].
  - unfold column. rewrite map_map. apply map_ext. intros; reflexivity.
  - rewrite IH by lia. apply sort_rows_unique; [|apply firsts_sorted with (n := n); auto].
    unfold column.
    assert (forall X, (forall m, In m X -> In m M) ->
      map (fun x => fst x :: snd x) (combine (map (last_of n) X) (map (firstn k) X)) = map (firstn (S k)) (map (rot_right n) X)) as G.
    { induction X as [|m X IHX]; intros HX; [reflexivity|]. cbn [map combine fst snd].
      rewrite IHX by (intros; apply HX; right; auto). f_equal. unfold rot_right. cbn [firstn]. f_equal.
      rewrite firstn_firstn. f_equal. lia. }
    rewrite G by auto. apply Permutation_map; auto.
Qed.

Lemma unsort_safe l col ptr : bwt_spec l col ptr -> rotation_safe l -> unsort col ptr = Some l.
Proof.
  intros SP (i' & Hi' & HS). pose proof (bwt_length SP) as LC. destruct SP as (i & sa & Hi & HSA & EC & HP & EP).
  rewrite <- (@smallest_suffix_unique l i i' Hi Hi') in HS. destruct Hi as (Hil & _).
  assert (length (rotation l i) = length l) as RL by apply rotation_length.
  destruct (filtered_sa HSA) as (F1 & F2 & F3 & F4). cbv zeta in *. rewrite RL in *.
  set (rows := filter (fun x => x <? length l) sa) in *. set (r := rotation l i) in *.
  assert (0 < length r) as Hr by (rewrite RL; lia).
  assert (length rows = length r) as G1 by (rewrite RL; auto).
  assert (forall x, In x rows <-> x < length r) as G3 by (intros x; rewrite RL; auto).
  assert (forall a b, a < b < length r -> lexlt (suffix r (nth a rows 0)) (suffix r (nth b rows 0))) as G4
    by (intros a b Hab; rewrite RL in Hab; auto).
  unfold unsort. rewrite LC.
  replace col with (column (length r) (matrix r rows)).
  2:{ rewrite EC, <- RL. apply matrix_column; auto. }
  rewrite <- RL. rewrite rebuild_rows; auto.
  - rewrite nth_error_map. rewrite (nth_error_nth' _ []) by (unfold matrix; rewrite map_length; lia).
    rewrite matrix_nth; [|auto|rewrite RL; auto|rewrite RL; auto]. cbn [option_map]. rewrite EP.
    rewrite firstn_all2 by (rewrite rotation_length; lia). f_equal. unfold r.
    apply rotation_undo. lia.
  - apply matrix_len.
  - apply matrix_sorted; auto.
  - apply matrix_closed; auto.
Qed.


(** ** both inverses agree *)
Section Unsort.
  Variable col : list nat.
  Definition links : list (nat * nat) := sort_by (fun x y => snd x <=? snd y) (enumerate col).
  Fixpoint path (k row : nat) : list nat :=
    match k with
    | O => []
    | S k' => snd (nth row links (0, 0)) :: path k' (fst (nth row links (0, 0)))
    end.

  Lemma links_perm : Permutation (enumerate col) links.
  Proof. apply sort_by_perm. Qed.
  Lemma links_length : length links = length col.
  Proof. rewrite <- (Permutation_length links_perm). unfold enumerate. rewrite <- (map_length fst), enumerate_from_fst, seq_length. auto. Qed.
  Lemma links_bound x : In x links -> fst x < length col.
  Proof.
    intros H. apply (Permutation_in _ (Permutation_sym links_perm)) in H. apply (in_map fst) in H.
    unfold enumerate in H. rewrite enumerate_from_fst in H. apply in_seq in H. lia.
  Qed.
  Lemma path_loop k : forall row, row < length col -> inverse_bwt_loop k links row = Ok (path k row).
  Proof.
    induction k as [|k IH]; intros row Hr; [reflexivity|]. cbn [inverse_bwt_loop path].
    rewrite (@get_at_some _ links row (nth row links (0, 0))) by (apply nth_error_nth'; rewrite links_length; auto).
    cbn [bind]. destruct (nth row links (0, 0)) as [nx v] eqn:E. cbn [bind fst snd]. rewrite IH.
    - reflexivity.
    - apply (links_bound (nx, v)). rewrite <- E. apply nth_In. rewrite links_length; auto.
  Qed.

  Definition row_of k (x : nat * nat) : list nat := snd x :: path k (fst x).
  Lemma combine_rows k : forall i (c : list nat),
    map (fun x => fst x :: snd x) (combine c (map (path k) (seq i (length c)))) = map (row_of k) (enumerate_from i c).
  Proof.
    intros i c; revert i; induction c as [|x c IH]; intros i; [reflexivity|].
    cbn [length seq map combine enumerate_from]. rewrite IH. reflexivity.
  Qed.
  Lemma rows_of_links k : map (path (S k)) (seq 0 (length col)) = map (row_of k) links.
  Proof.
    apply nth_ext with (d := path (S k) 0) (d' := row_of k (0, 0)).
    { rewrite !map_length, seq_length, links_length. auto. }
    rewrite map_length, seq_length. intros i Hi. rewrite !map_nth, seq_nth by auto. reflexivity.
  Qed.
  Lemma paths_sorted k : StronglySorted lexle (map (path k) (seq 0 (length col))) ->
    StronglySorted lexle (map (row_of k) links).
  Proof.
    intros HS.
    assert (forall a b, a < b < length col -> lexle (path k a) (path k b)) as HM.
    { intros a b H. pose proof (@ssorted_nth_gen _ _ _ (path k 0) a b HS) as G.
      rewrite map_length, seq_length in G. rewrite !map_nth, !seq_nth in G by lia. apply G; auto. }
    pose proof (sort_stable 0 col) as ST. change (StronglySorted pair_lt links) in ST.
    assert (forall x, In x links -> fst x < length col) as HB by apply links_bound.
    induction ST as [|x l ST IH HF]; cbn [map]; constructor.
    - apply IH. intros y Hy. apply HB. right; auto.
    - rewrite Forall_map, Forall_forall in *. intros y Hy. specialize (HF y Hy). unfold row_of.
      destruct HF as [H|[E H]]; [right; constructor; auto|]. rewrite E. apply lexle_cons, HM.
      split; auto. apply HB. right; auto.
  Qed.
  Lemma nil_rows n i : map (path 0) (seq i n) = repeat [] n.
  Proof. revert i; induction n as [|n IH]; intros i; [reflexivity|]. cbn [seq map repeat]. rewrite IH. reflexivity. Qed.
  Lemma rebuild_paths k : rebuild k col = map (path k) (seq 0 (length col)) /\
    StronglySorted lexle (map (path k) (seq 0 (length col))).
  Proof.
    induction k as [|k (IH & IS)].
    - cbn [rebuild]. rewrite nil_rows. split.
      + generalize col as c. induction c as [|x c IH]; [reflexivity|]. cbn [map length repeat]. rewrite IH. reflexivity.
      + generalize (length col) as n. induction n as [|n IH]; cbn [repeat]; constructor; auto.
        apply Forall_forall. intros x Hx. apply repeat_spec in Hx as ->. left; auto.
    - rewrite rows_of_links. split; [|apply paths_sorted; auto]. cbn [rebuild]. rewrite IH, combine_rows.
      apply sort_rows_unique; [apply Permutation_map, links_perm|]. apply paths_sorted; auto.
  Qed.
  Theorem unsort_inverse ptr block : unsort col ptr = Some block -> inverse_bwt col ptr = Ok block.
  Proof.
    unfold unsort, inverse_bwt. rewrite (proj1 (rebuild_paths (length col))). intros E.
    assert (ptr < length col) as HP.
    { apply nth_error_lt in E. rewrite map_length, seq_length in E. auto. }
    rewrite nth_error_map, (nth_error_nth' _ 0) in E by (rewrite seq_length; auto). rewrite seq_nth in E by auto.
    cbn [option_map Nat.add] in E. injection E as <-. fold links.
    destruct (find_first (fun x => fst x =? ptr) links) as [[s v]|] eqn:EF.
    - apply find_first_some in EF as (_ & EF). cbn [fst] in EF. apply Nat.eqb_eq in EF as ->. cbn [of_option bind].
      apply path_loop; auto.
    - exfalso. assert (In ptr (map fst links)) as Hin.
      { eapply Permutation_in; [apply Permutation_map, links_perm|]. unfold enumerate. rewrite enumerate_from_fst.
        apply in_seq; lia. }
      apply in_map_iff in Hin as (x & Ex & Hx).
      rewrite find_first_none in EF. specialize (EF x Hx). cbv beta in EF. rewrite Ex, Nat.eqb_refl in EF. discriminate.
  Qed.
End Unsort.


(** * The block sort is inverted when suffix order and rotation order agree *)
From Verif Require Import Base BaseFacts SpecBwt LexFacts Sais SaisBase SaisSort SaisFacts Bwt DuvalFacts.

(** ** lexle *)
Lemma lexle_refl a : lexle a a.
Proof. left; auto. Qed.
Lemma lexle_trans a b c : lexle a b -> lexle b c -> lexle a c.
Proof.
  intros H1 H2; destruct H1 as [->|H1]; auto. destruct H2 as [<-|H2]; right; auto.
  eapply lexlt_trans; eauto.
Qed.
Lemma lexle_antisym a b : lexle a b -> lexle b a -> a = b.
Proof. intros [H1|H1] [H2|H2]; auto. exfalso; eapply lexlt_asym; eauto. Qed.
Lemma lexle_total a b : lexle a b \/ lexle b a.
Proof. destruct (lexlt_total a b) as [H|[H|H]]; unfold lexle; auto. Qed.
Lemma lexle_cons x a b : lexle a b -> lexle (x :: a) (x :: b).
Proof. intros [->|H]; [left; auto|right; apply lex_tail; auto]. Qed.

Lemma lexlt_firstn k a b : lexlt a b -> length a = length b -> lexle (firstn k a) (firstn k b).
Proof.
  intros H; revert k; induction H as [y b|x y a b H|x a b H IH]; intros k HL; try discriminate.
  - destruct k; [left; auto|]. right. cbn [firstn]. apply lex_head; auto.
  - destruct k; [left; auto|]. cbn [firstn]. apply lexle_cons. apply IH. simpl in HL; lia.
Qed.
Lemma lexle_firstn k a b : lexle a b -> length a = length b -> lexle (firstn k a) (firstn k b).
Proof. intros [->|H] HL; [left; auto|]. apply lexlt_firstn; auto. Qed.

(** ** stability of the pair sort *)
Definition pair_lt (x y : nat * nat) : Prop := snd x < snd y \/ (snd x = snd y /\ fst x < fst y).

Lemma insert_stable x l : StronglySorted pair_lt l -> Forall (fun y => fst x < fst y) l ->
  StronglySorted pair_lt (insert_by (fun x y => snd x <=? snd y) x l).
Proof.
  induction 1 as [|y l H IH HF]; intros HX; cbn [insert_by]; [repeat constructor|].
  inversion HX; subst. destruct (Nat.leb_spec (snd x) (snd y)) as [Hle|Hgt].
  - constructor; [constructor; auto|]. constructor.
    + unfold pair_lt. lia.
    + eapply Forall_impl; [|exact HF]. unfold pair_lt. intros z Hz.
      assert (snd y <= snd z) by lia.
      destruct (Nat.eq_dec (snd x) (snd z)); [|lia]. 
      destruct Hz as [Hz|[Hz1 Hz2]]; lia.
  - constructor; auto. apply Forall_forall. intros z Hz.
    apply Permutation_in with (l' := x :: l) in Hz; [|symmetry; apply insert_by_perm].
    destruct Hz as [<-|Hz]; [left; auto|]. rewrite Forall_forall in HF; auto.
Qed.

Lemma sort_stable i (l : list nat) :
  StronglySorted pair_lt (sort_by (fun x y => snd x <=? snd y) (enumerate_from i l)).
Proof.
  revert i; induction l as [|x l IH]; intros i; [constructor|]. cbn [enumerate_from sort_by].
  apply insert_stable; auto. apply Forall_forall. intros z Hz. apply sort_by_in in Hz.
  apply (in_map fst) in Hz. rewrite enumerate_from_fst in Hz. apply in_seq in Hz. cbn [fst]. lia.
Qed.

(** ** a sorted matrix closed under rotation is rebuilt from its last column *)
Lemma ssorted_nth_gen {A} (R : A -> A -> Prop) (l : list A) d a b :
  StronglySorted R l -> a < b < length l -> R (nth a l d) (nth b l d).
Proof.
  intros HS; revert a b; induction HS as [|m t H IH HF]; intros a b Hab; [simpl in Hab; lia|].
  cbn [length] in Hab. destruct b as [|b]; [lia|]. destruct a as [|a]; cbn [nth].
  - rewrite Forall_forall in HF. apply HF. apply nth_In; lia.
  - apply IH; lia.
Qed.

Section Matrix.
  Variable n : nat.
  Variable M : list (list nat).
  Definition last_of (m : list nat) : nat := nth (n - 1) m 0.
  Definition rot_right (m : list nat) : list nat := last_of m :: firstn (n - 1) m.
  Hypothesis n_pos : 0 < n.
  Hypothesis rows_len : forall m, In m M -> length m = n.
  Hypothesis rows_sorted : StronglySorted lexle M.
  Hypothesis rows_closed : Permutation (map rot_right M) M.

  Definition column : list nat := map last_of M.
  Notation pairs := (sort_by (fun x y => snd x <=? snd y) (enumerate column)).

  Lemma sorted_nth a b : a < b < length M -> lexle (nth a M []) (nth b M []).
  Proof.
    apply ssorted_nth_gen; auto.
  Qed.

  Lemma firsts_sorted k : StronglySorted lexle (map (firstn k) M).
  Proof.
    revert rows_len rows_sorted. clear. intros HL HS; revert HL.
    induction HS as [|m t H IH HF]; intros HL; [constructor|]. cbn [map]. constructor.
    - apply IH. intros; apply HL; right; auto.
    - apply Forall_forall. intros x Hx. apply in_map_iff in Hx as (y & <- & Hy).
      rewrite Forall_forall in HF. apply lexle_firstn; [apply HF; auto|].
      rewrite (HL m), (HL y); auto; [right; auto|left; auto].
  Qed.

  Lemma pairs_rows : map (fun x => snd x :: firstn (n - 1) (nth (fst x) M [])) pairs = M.
  Proof.
    apply sorted_perm_unique with (R := lexle); auto using lexle_antisym.
    - (* sorted *)
      assert (forall x, In x pairs -> fst x < length M /\ snd x = last_of (nth (fst x) M [])) as HP.
      { intros [i v] Hx. apply sort_by_in in Hx.
        apply (In_nth_error) in Hx as (k & Hk). rewrite enumerate_nth in Hk.
        unfold column in Hk. rewrite nth_error_map in Hk.
        destruct (nth_error M k) as [m|] eqn:Em; [|discriminate]. cbn [option_map] in Hk.
        injection Hk as <- <-. cbn [fst snd]. split; [eapply nth_error_lt; eauto|].
        erewrite nth_of_error; eauto. }
      pose proof (sort_stable 0 column) as HS. change (enumerate_from 0 column) with (enumerate column) in HS.
      revert HP. induction HS as [|x t H IH HF]; intros HP; [constructor|]. cbn [map]. constructor.
      { apply IH. intros; apply HP; right; auto. }
      apply Forall_forall. intros z Hz. apply in_map_iff in Hz as (y & <- & Hy).
      rewrite Forall_forall in HF. specialize (HF y Hy).
      destruct (HP x) as (X1 & X2); [left; auto|]. destruct (HP y) as (Y1 & Y2); [right; auto|].
      destruct HF as [HF|[E HF]]; [right; apply lex_head; auto|]. rewrite E. apply lexle_cons.
      apply lexle_firstn; [apply sorted_nth; lia|].
      rewrite !rows_len; auto; apply nth_In; auto.
    - (* a permutation of the rotated rows *)
      transitivity (map rot_right M); [|exact rows_closed]. rewrite <- sort_by_perm.
      assert (map (fun x => snd x :: firstn (n - 1) (nth (fst x) M [])) (enumerate column)
              = map rot_right M) as ->; [|auto].
      apply nth_error_ext. intros k. rewrite !nth_error_map.
      unfold column. rewrite enumerate_nth, nth_error_map.
      destruct (nth_error M k) as [m|] eqn:Em; [|auto]. cbn [option_map fst snd].
      unfold rot_right. f_equal. f_equal. f_equal. apply nth_of_error; auto.
  Qed.

  Lemma column_length : length column = length M.
  Proof. unfold column; apply map_length. Qed.

  Lemma pairs_at k : k < length M -> exists k' v, nth_error pairs k = Some (k', v) /\
    k' < length M /\ nth k M [] = v :: firstn (n - 1) (nth k' M []).
  Proof.
    intros Hk.
    destruct (nth_error pairs k) as [[k' v]|] eqn:E.
    - exists k', v. split; auto. split.
      + apply nth_error_In in E. apply sort_by_in in E. apply (in_map fst) in E.
        unfold enumerate in E. rewrite enumerate_from_fst in E. apply in_seq in E. rewrite column_length in E.
        cbn [fst] in E. lia.
      + rewrite <- pairs_rows at 1. apply nth_of_error. rewrite nth_error_map, E. reflexivity.
    - apply nth_error_None in E. rewrite sort_by_length in E.
      rewrite enumerate_length, column_length in E. lia.
  Qed.

  Lemma firstn_firstn_le {A} (l : list A) a b : a <= b -> firstn a (firstn b l) = firstn a l.
  Proof. intros H. rewrite firstn_firstn. f_equal. lia. Qed.

  Lemma loop_rows j k : k < length M -> j <= n -> inverse_bwt_loop j pairs k = Ok (firstn j (nth k M [])).
  Proof.
    revert k; induction j as [|j IH]; intros k Hk Hj; [reflexivity|]. cbn [inverse_bwt_loop].
    destruct (pairs_at Hk) as (k' & v & E & Hk' & EM).
    rewrite (get_at_some _ _ E). cbn [bind]. rewrite IH by lia. cbn [bind].
    rewrite EM. cbn [firstn]. rewrite firstn_firstn_le by lia. auto.
  Qed.

  Theorem inverse_rows k : length M = n -> k < n -> inverse_bwt column k = Ok (nth k M []).
  Proof.
    intros HL Hk. unfold inverse_bwt.
    assert (exists v, find_first (fun x => fst x =? k) pairs = Some (k, v)) as (v & ->).
    { destruct (nth_error column k) as [v|] eqn:E.
      2:{ apply nth_error_None in E. rewrite column_length in E. lia. }
      exists v. apply find_first_unique.
      - apply sort_by_in. apply (nth_error_In _ k). rewrite enumerate_nth, E. auto.
      - apply Nat.eqb_refl.
      - intros [i w] Hin Hi. cbn [fst] in Hi. apply Nat.eqb_eq in Hi. subst i.
        apply sort_by_in in Hin. apply In_nth_error in Hin as (j & Hj).
        rewrite enumerate_nth in Hj.
        destruct (nth_error column j) as [u|] eqn:Eu; [|discriminate]. cbn [option_map] in Hj.
        injection Hj as -> <-. congruence. }
    cbn [of_option bind]. rewrite column_length, HL, loop_rows by lia.
    f_equal. rewrite <- (rows_len (nth k M [])) by (apply nth_In; lia). apply firstn_all.
  Qed.
End Matrix.

(** ** rotations *)
Lemma rotation_length r i : length (rotation r i) = length r.
Proof. unfold rotation. rewrite app_length, skipn_length, firstn_length. lia. Qed.

Lemma rotation_all r : rotation r (length r) = r.
Proof. unfold rotation. rewrite skipn_all, firstn_all. auto. Qed.
Lemma rotation_0 r : rotation r 0 = r.
Proof. unfold rotation. cbn [skipn firstn]. apply app_nil_r. Qed.

Lemma rotation_undo l i : i <= length l ->
  rotation (rotation l i) ((length l - i) mod length l) = l.
Proof.
  intros H. destruct (Nat.eq_dec i 0) as [->|Hi].
  - rewrite Nat.sub_0_r, rotation_0. destruct (length l) eqn:E; [destruct l; [reflexivity|discriminate]|].
    rewrite Nat.mod_same by lia. apply rotation_0.
  - rewrite Nat.mod_small by lia. unfold rotation at 1.
    assert (length (skipn i l) = length l - i) as L by apply skipn_length.
    unfold rotation. rewrite <- L. rewrite skipn_len_app, firstn_skipn_len. apply firstn_skipn.
Qed.

Definition prev_index (n x : nat) : nat := if 0 <? x then x - 1 else n - 1.

Lemma rotation_right r x : x < length r ->
  rot_right (length r) (rotation r x) = rotation r (prev_index (length r) x) /\
  last_of (length r) (rotation r x) = nth (prev_index (length r) x) r 0.
Proof.
  intros Hx. unfold prev_index.
  assert (forall y, y < length r -> skipn y r = nth y r 0 :: skipn (S y) r) as SK.
  { intros y Hy. pose proof (@suffix_cons r y Hy) as H. unfold suffix, ch in H.
    rewrite Nat.add_1_r in H. auto. }
  assert (forall y, y < length r -> firstn (S y) r = firstn y r ++ [nth y r 0]) as FS.
  { intros y Hy. apply firstn_snoc. apply nth_error_nth'; auto. }
  assert (forall (a : list nat) v, length (a ++ [v]) = length r ->
            rot_right (length r) (a ++ [v]) = v :: a /\ last_of (length r) (a ++ [v]) = v) as RR.
  { intros a v HL. rewrite app_length in HL. cbn [length] in HL.
    unfold rot_right, last_of. replace (length r - 1) with (length a) by lia.
    rewrite app_nth2, Nat.sub_diag by lia. cbn [nth]. rewrite firstn_skipn_len. auto. }
  destruct (Nat.ltb_spec 0 x) as [H0|H0].
  - destruct x as [|x]; [lia|]. replace (S x - 1) with x by lia.
    unfold rotation. rewrite (FS x) by lia. rewrite app_assoc.
    destruct (RR (skipn (S x) r ++ firstn x r) (nth x r 0)) as (-> & ->).
    + pose proof (rotation_length r (S x)) as HL. unfold rotation in HL. rewrite (FS x) in HL by lia.
      rewrite app_assoc in HL. exact HL.
    + rewrite (SK x) by lia. auto.
  - assert (x = 0) as -> by lia. rewrite rotation_0.
    assert (r = firstn (length r - 1) r ++ [nth (length r - 1) r 0]) as E.
    { rewrite <- FS by lia. replace (S (length r - 1)) with (length r) by lia. symmetry; apply firstn_all. }
    destruct (RR (firstn (length r - 1) r) (nth (length r - 1) r 0)) as (A & B); [rewrite <- E; auto|].
    rewrite <- E in A, B. rewrite A, B. split; auto.
    unfold rotation. rewrite (SK (length r - 1)) by lia.
    replace (S (length r - 1)) with (length r) by lia. rewrite skipn_all. reflexivity.
Qed.

(** ** the suffix array without the empty suffix *)
Lemma filtered_sa r sa : is_suffix_array r sa ->
  let rows := filter (fun x => x <? length r) sa in
  length rows = length r /\ NoDup rows /\ (forall x, In x rows <-> x < length r) /\
  (forall a b, a < b < length r -> lexlt (suffix r (nth a rows 0)) (suffix r (nth b rows 0))).
Proof.
  intros (L1 & L2 & L3) rows. set (n := length r) in *.
  assert (NoDup sa) as ND.
  { apply (NoDup_nth sa 0). intros i j Hi Hj E.
    destruct (Nat.lt_trichotomy i j) as [G|[G|G]]; auto; exfalso.
    - apply (@lexlt_irrefl (suffix r (nth i sa 0))). rewrite E at 2.
      apply (L3 i j); auto; apply nth_error_nth'; auto.
    - apply (@lexlt_irrefl (suffix r (nth i sa 0))). rewrite E at 1.
      apply (L3 j i); auto; apply nth_error_nth'; auto. }
  assert (NoDup rows) as NR by (apply NoDup_filter; auto).
  assert (forall x, In x rows <-> x < n) as HI.
  { intros x. unfold rows. rewrite filter_In. split.
    - intros [_ H]. apply Nat.ltb_lt; auto.
    - intros H. split; [apply L2; lia|apply Nat.ltb_lt; auto]. }
  assert (length rows = n) as LR.
  { rewrite <- (seq_length n 0). apply Permutation_length. apply NoDup_Permutation; auto using seq_NoDup.
    intros x. rewrite HI, in_seq. lia. }
  split; auto. split; auto. split; auto.
  intros a b Hab. unfold rows. apply sorted_filter with (f := fun x => x <? n) (K := suffix r).
  - intros i j Hij. apply (L3 i j); [lia| |]; apply nth_error_nth'; lia.
  - fold rows. lia.
Qed.

(** ** the rotation matrix of a text whose suffix order is its rotation order *)
Section Rows.
  Variable r rows : list nat.
  Notation n := (length r).
  Hypothesis n_pos : 0 < n.
  Hypothesis HL : length rows = n.
  Hypothesis HN : NoDup rows.
  Hypothesis HI : forall x, In x rows <-> x < n.
  Hypothesis HO : forall a b, a < b < n -> lexlt (suffix r (nth a rows 0)) (suffix r (nth b rows 0)).
  Hypothesis HS : suffixes_sort_rotations r.

  Definition matrix : list (list nat) := map (rotation r) rows.

  Lemma matrix_len m : In m matrix -> length m = n.
  Proof. intros H. apply in_map_iff in H as (x & <- & _). apply rotation_length. Qed.

  Lemma nth_sorted {A} (R : A -> A -> Prop) (l : list A) d :
    (forall a b, a < b < length l -> R (nth a l d) (nth b l d)) -> StronglySorted R l.
  Proof.
    induction l as [|x l IH]; intros H; constructor.
    - apply IH. intros a b Hab. apply (H (S a) (S b)). cbn [length]; lia.
    - apply Forall_forall. intros y Hy. apply (In_nth _ _ d) in Hy as (k & Hk & <-).
      apply (H 0 (S k)). cbn [length]; lia.
  Qed.

  Lemma matrix_nth a : a < n -> nth a matrix [] = rotation r (nth a rows 0).
  Proof.
    intros H. apply nth_of_error. unfold matrix. rewrite nth_error_map, (nth_error_nth' rows 0) by lia. auto.
  Qed.

  Lemma matrix_sorted : StronglySorted lexle matrix.
  Proof.
    apply nth_sorted with (d := []). unfold matrix at 1. rewrite map_length, HL. intros a b Hab.
    rewrite !matrix_nth by lia. apply HS; [apply HI, nth_In; lia|apply HI, nth_In; lia|].
    apply HO; auto.
  Qed.

  Lemma prev_perm : Permutation (map (prev_index n) rows) rows.
  Proof.
    apply NoDup_Permutation; auto.
    - apply NoDup_map_in; auto. intros x y Hx Hy. apply HI in Hx, Hy. unfold prev_index.
      destruct (Nat.ltb_spec 0 x), (Nat.ltb_spec 0 y); lia.
    - intros x. rewrite HI, in_map_iff. split.
      + intros (y & <- & Hy). apply HI in Hy. unfold prev_index. destruct (Nat.ltb_spec 0 y); lia.
      + intros H. destruct (Nat.eq_dec x (n - 1)) as [->|].
        * exists 0. split; auto. apply HI; auto.
        * exists (S x). split; [unfold prev_index; cbn; lia|]. apply HI. lia.
  Qed.

  Lemma matrix_closed : Permutation (map (rot_right n) matrix) matrix.
  Proof.
    unfold matrix. rewrite map_map.
    rewrite (map_ext_in _ (fun x => rotation r (prev_index n x))).
    - rewrite <- map_map. apply Permutation_map. apply prev_perm.
    - intros x Hx. apply HI in Hx. apply rotation_right; auto.
  Qed.

  Lemma matrix_column : column n matrix = map (fun x => nth (prev_index n x) r 0) rows.
  Proof.
    unfold column, matrix. rewrite map_map. apply map_ext_in. intros x Hx. apply HI in Hx.
    apply rotation_right; auto.
  Qed.

  Lemma rows_inverse k : k < n ->
    inverse_bwt (map (fun x => nth (prev_index n x) r 0) rows) k = Ok (rotation r (nth k rows 0)).
  Proof.
    intros Hk. rewrite <- matrix_column.
    rewrite (@inverse_rows n matrix); auto using matrix_len, matrix_sorted, matrix_closed.
    - rewrite matrix_nth; auto.
    - unfold matrix. rewrite map_length; auto.
  Qed.
End Rows.

(** ** what the encoder computes *)
Lemma bwt_column_ok r sa : is_suffix_array r sa -> 0 < length r ->
  bwt_column r sa = Ok (map (fun x => nth (prev_index (length r) x) r 0)
                         (filter (fun x => x <? length r) sa)).
Proof.
  intros HS Hn. unfold bwt_column. destruct (filtered_sa HS) as (_ & _ & HI & _).
  apply map_res_ok. intros x Hx. apply HI in Hx. fold (prev_index (length r) x).
  apply get_at_lt. unfold prev_index. destruct (Nat.ltb_spec 0 x); lia.
Qed.

Lemma find_enumerate (rows : list nat) t : In t rows -> NoDup rows ->
  exists k, k < length rows /\ nth k rows 0 = t /\
    find_first (fun x => snd x =? t) (enumerate rows) = Some (k, t).
Proof.
  intros Hin ND. apply (In_nth _ _ 0) in Hin as (k & Hk & Ek). exists k. split; auto. split; auto.
  apply find_first_unique.
  - apply (nth_error_In _ k). rewrite enumerate_nth.
    rewrite (nth_error_nth' rows 0) by auto. rewrite Ek. auto.
  - apply Nat.eqb_refl.
  - intros [j v] Hj Hv. cbn [snd] in Hv. apply Nat.eqb_eq in Hv. subst v.
    apply In_nth_error in Hj as (i & Hi). rewrite enumerate_nth in Hi.
    destruct (nth_error rows i) as [u|] eqn:Eu; [|discriminate]. cbn [option_map] in Hi.
    injection Hi as <- ->. f_equal.
    apply (proj1 (NoDup_nth rows 0) ND); auto; [eapply nth_error_lt; eauto|].
    erewrite nth_of_error by eauto. auto.
Qed.

Definition bwt_spec (l col : list nat) (ptr : nat) : Prop :=
  exists i rows, smallest_suffix l i /\ is_suffix_array (rotation l i) rows /\
    let keep := filter (fun x => x <? length l) rows in
    col = map (fun x => nth (prev_index (length l) x) (rotation l i) 0) keep /\
    ptr < length l /\ nth ptr keep 0 = (length l - i) mod length l.

Theorem bwt_ok l : bytes l -> l <> [] ->
  exists col ptr, bwt l = Ok (col, ptr) /\ bwt_spec l col ptr.
Proof.
  intros HB Hne. assert (0 < length l) as Hn by (destruct l; [congruence|simpl; lia]).
  unfold bwt, bwt_private, rotate_duval.
  destruct (duval_smallest l) as (i & -> & Hi & Hmin). destruct (Hmin Hn) as (Hi' & Hs). cbn [bind].
  replace (i <=? length l) with true by (symmetry; apply Nat.leb_le; auto). cbn [bind].
  fold (rotation l i).
  assert (bytes (rotation l i)) as HB'.
  { unfold rotation. apply Forall_app. split.
    - rewrite <- (firstn_skipn i l) in HB. apply Forall_app in HB. tauto.
    - rewrite <- (firstn_skipn i l) in HB. apply Forall_app in HB. tauto. }
  destruct (build_suffix_array_ok HB') as (sa & -> & HSA). cbn [bind].
  assert (length (rotation l i) = length l) as RL by apply rotation_length.
  rewrite (bwt_column_ok HSA) by lia. cbn [bind].
  replace (length l =? 0) with false by (symmetry; apply Nat.eqb_neq; lia).
  destruct (filtered_sa HSA) as (F1 & F2 & F3 & F4). rewrite RL in *.
  set (rows := filter (fun x => x <? length l) sa) in *.
  destruct (@find_enumerate rows ((length l - i) mod length l)) as (k & K1 & K2 & K3); auto.
  { apply F3. apply Nat.mod_upper_bound. lia. }
  rewrite K3. cbn [of_option bind]. eexists; eexists; split; [reflexivity|].
  exists i, sa. split; [split; auto|]. split; auto. cbv zeta. fold rows. split; auto. split; [lia|auto].
Qed.

(** the smallest suffix is unique *)
Lemma smallest_suffix_unique l i j : smallest_suffix l i -> smallest_suffix l j -> i = j.
Proof.
  intros (H1 & H2) (H3 & H4). destruct (Nat.eq_dec i j) as [|Hne]; auto. exfalso.
  apply (@lexlt_asym (suffix l i) (suffix l j)); auto.
Qed.

Lemma bwt_inverse_safe l col ptr : bwt_spec l col ptr -> rotation_safe l ->
  inverse_bwt col ptr = Ok l.
Proof.
  intros (i & sa & Hi & HSA & EC & HP & EP) (i' & Hi' & HS).
  rewrite <- (@smallest_suffix_unique l i i' Hi Hi') in HS. destruct Hi as (Hil & _).
  assert (length (rotation l i) = length l) as RL by apply rotation_length.
  destruct (filtered_sa HSA) as (F1 & F2 & F3 & F4). cbv zeta in *. rewrite RL in *.
  set (rows := filter (fun x => x <? length l) sa) in *.
  subst col. pose proof (@rows_inverse (rotation l i) rows) as RI. rewrite RL in RI.
  rewrite RI; auto; [|lia]. rewrite EP. f_equal. apply rotation_undo; lia.
Qed.

Theorem bwt_round_trip l : bytes l -> l <> [] -> rotation_safe l ->
  exists col ptr, bwt l = Ok (col, ptr) /\ inverse_bwt col ptr = Ok l.
Proof.
  intros HB Hne HS. destruct (bwt_ok HB Hne) as (col & ptr & E & SP).
  exists col, ptr. split; auto. eapply bwt_inverse_safe; eauto.
Qed.

(** the column is a permutation of the block *)
Lemma bwt_column_perm l col ptr : bwt_spec l col ptr -> Permutation l col.
Proof.
  intros (i & sa & Hi & HSA & EC & HP & EP). subst col.
  assert (length (rotation l i) = length l) as RL by apply rotation_length.
  destruct (filtered_sa HSA) as (F1 & F2 & F3 & F4). cbv zeta in *. rewrite RL in *.
  set (rows := filter (fun x => x <? length l) sa) in *.
  pose proof (@prev_perm (rotation l i) rows) as PP. rewrite RL in PP.
  assert (Permutation rows (seq 0 (length l))) as PR.
  { apply NoDup_Permutation; auto using seq_NoDup. intros x. rewrite F3, in_seq. lia. }
  assert (map (fun x => nth (prev_index (length l) x) (rotation l i) 0) rows =
          map (fun x => nth x (rotation l i) 0) (map (prev_index (length l)) rows)) as -> by (rewrite map_map; auto).
  rewrite PP by (auto; lia). rewrite PR.
  assert (map (fun x => nth x (rotation l i) 0) (seq 0 (length l)) = rotation l i) as ->.
  { apply (nth_ext _ _ 0 0); [rewrite map_length, seq_length; auto|].
    rewrite map_length, seq_length. intros k Hk. apply nth_of_error.
    rewrite nth_error_map, nth_error_seq. apply Nat.ltb_lt in Hk; rewrite Hk. auto. }
  unfold rotation. rewrite Permutation_app_comm, firstn_skipn. auto.
Qed.
Lemma bwt_length l col ptr : bwt_spec l col ptr -> length col = length l.
Proof. intros H. symmetry. apply Permutation_length. eapply bwt_column_perm; eauto. Qed.

(** ** when is a block rotation-safe *)
Lemma nth_rotation r i k : i < length r -> k < length r ->
  nth k (rotation r i) 0 = nth ((i + k) mod length r) r 0.
Proof.
  intros Hi Hk. unfold rotation.
  destruct (Nat.lt_ge_cases k (length r - i)) as [G|G].
  - rewrite app_nth1 by (rewrite skipn_length; auto). rewrite Nat.mod_small by lia.
    rewrite <- (firstn_skipn i r) at 2. rewrite app_nth2 by (rewrite firstn_length; lia).
    f_equal. rewrite firstn_length. lia.
  - rewrite app_nth2 by (rewrite skipn_length; auto). rewrite skipn_length.
    rewrite nth_firstn_lt by lia. f_equal.
    replace (i + k) with (k - (length r - i) + 1 * length r) by lia.
    rewrite Nat.mod_add by lia. rewrite Nat.mod_small by lia. auto.
Qed.

Lemma lexlt_prefix_cases a b : lexlt a b -> (exists t, b = a ++ t) \/ (forall s t, lexlt (a ++ s) (b ++ t)).
Proof.
  induction 1 as [y b|x y a b H|x a b H IH].
  - left. exists (y :: b). auto.
  - right. intros. apply lex_head; auto.
  - destruct IH as [(t & ->)|IH]; [left; exists t; auto|right; intros; apply lex_tail; auto].
Qed.

Lemma lexle_app_l x a b : lexle a b -> lexle (x ++ a) (x ++ b).
Proof. induction x; cbn [app]; auto using lexle_cons. Qed.

Lemma rotation_split r a : a <= length r -> rotation r a = suffix r a ++ firstn a r.
Proof. reflexivity. Qed.

Lemma skipn_add {A} a b (l : list A) : skipn a (skipn b l) = skipn (a + b) l.
Proof.
  revert l; induction b as [|b IH]; intros l; [rewrite Nat.add_0_r; auto|].
  rewrite Nat.add_succ_r. destruct l as [|x l]; cbn [skipn]; [destruct a; auto|apply IH].
Qed.

(** a text that is its own minimal rotation *)
Lemma minimal_sorts r : (forall j, j < length r -> lexle r (rotation r j)) -> suffixes_sort_rotations r.
Proof.
  intros HM a b Ha Hb H. unfold rotation, suffix in *.
  destruct (lexlt_prefix_cases H) as [(t & E)|G]; [|right; apply G].
  (* suffix a is a prefix of suffix b: then the rest is compared with the start of r *)
  rewrite E, <- app_assoc. apply lexle_app_l.
  assert (length t = a - b /\ b < a) as (Lt & Hba).
  { apply (f_equal (@length nat)) in E. rewrite app_length, !skipn_length in E.
    destruct t; cbn [length] in *; [|lia].
    exfalso. assert (a = b) by lia. subst. eapply lexlt_irrefl; eauto. }
  (* t ++ firstn b r is the start of the rotation at b + (n - a) *)
  set (j := b + (length r - a)).
  assert (j < length r) as Hj by (unfold j; lia).
  assert (firstn a (rotation r j) = t ++ firstn b r) as EJ.
  { unfold rotation.
    assert (skipn j r = t) as ->.
    { unfold j. rewrite Nat.add_comm. rewrite <- skipn_add, E.
      rewrite <- (skipn_length a r). apply skipn_len_app. }
    rewrite firstn_app, Lt. rewrite firstn_all2 by lia. f_equal.
    rewrite firstn_firstn. f_equal. unfold j. lia. }
  rewrite <- EJ. apply lexle_firstn; [apply HM; auto|]. symmetry. apply rotation_length.
Qed.

Lemma rotation_rotation r i j : i < length r -> j < length r ->
  rotation (rotation r i) j = rotation r ((i + j) mod length r).
Proof.
  intros Hi Hj. apply (nth_ext _ _ 0 0); [rewrite !rotation_length; auto|].
  rewrite !rotation_length. intros k Hk.
  assert (forall x, x mod length r < length r) as MB by (intros; apply Nat.mod_upper_bound; lia).
  rewrite nth_rotation by (rewrite ?rotation_length; auto).
  rewrite rotation_length, nth_rotation by auto.
  rewrite nth_rotation by auto. f_equal.
  rewrite Nat.add_mod_idemp_r, Nat.add_mod_idemp_l by lia. f_equal. lia.
Qed.

Theorem minimal_rotation_safe l i : smallest_suffix l i -> minimal_rotation l i -> rotation_safe l.
Proof.
  intros Hs Hm. exists i. split; auto. apply minimal_sorts. rewrite rotation_length.
  intros j Hj. destruct Hs as (Hi & _). rewrite rotation_rotation by auto.
  apply Hm. apply Nat.mod_upper_bound. lia.
Qed.

Lemma unique_smallest_minimal l i : smallest_suffix l i ->
  (forall j, j < length l -> j <> i -> firstn (length l - i) (suffix l j) <> suffix l i) ->
  minimal_rotation l i.
Proof.
  intros Hs HU j Hj.
  destruct (Nat.eq_dec j i) as [->|Hne]; [left; auto|]. destruct Hs as (Hi & Hs).
  specialize (Hs j Hj Hne). right. unfold rotation.
  destruct (lexlt_prefix_cases Hs) as [(t & E)|G]; [|apply G].
  exfalso. apply (HU j Hj Hne). rewrite E.
  replace (length l - i) with (length (suffix l i)) by apply skipn_length. apply firstn_skipn_len.
Qed.

Lemma nth_error_skipn {A} k (l : list A) n : nth_error (skipn k l) n = nth_error l (k + n).
Proof. revert l; induction k as [|k IH]; intros [|x l]; cbn [skipn Nat.add nth_error]; auto. destruct n; auto. Qed.
Lemma nth_error_firstn {A} k (l : list A) n : n < k -> nth_error (firstn k l) n = nth_error l n.
Proof.
  revert l n; induction k as [|k IH]; intros l n H; [lia|]. destruct l, n; cbn [firstn nth_error]; auto. apply IH. lia.
Qed.

(** sufficient: the smallest suffix occurs only once *)
Theorem unique_smallest_safe l i : smallest_suffix l i ->
  (forall j, j < length l -> j <> i -> firstn (length l - i) (suffix l j) <> suffix l i) ->
  rotation_safe l.
Proof.
  intros Hs HU. apply minimal_rotation_safe with i; auto. apply unique_smallest_minimal; auto.
Qed.

(** in particular: the last byte occurs nowhere else *)
Theorem unique_last_safe a x : ~ In x a -> rotation_safe (a ++ [x]).
Proof.
  intros Hx. destruct (duval_smallest (a ++ [x])) as (i & _ & _ & Hm).
  assert (0 < length (a ++ [x])) as Hl by (rewrite app_length; cbn [length]; lia).
  specialize (Hm Hl). apply unique_smallest_safe with i; auto. destruct Hm as (Hi & _).
  rewrite app_length in *. cbn [length] in *. intros j Hj Hne E. unfold suffix in E.
  assert (j <= i) as Hji.
  { apply (f_equal (@length _)) in E. rewrite firstn_length, !skipn_length, app_length in E. cbn [length] in E. lia. }
  assert (nth_error (firstn (length a + 1 - i) (skipn j (a ++ [x]))) (length a - i) = Some x) as EN.
  { rewrite E. rewrite nth_error_skipn. replace (i + (length a - i)) with (length a + 0) by lia.
    rewrite nth_error_app2 by lia. replace (length a + 0 - length a) with 0 by lia. reflexivity. }
  rewrite nth_error_firstn in EN by lia. rewrite nth_error_skipn in EN.
  rewrite nth_error_app1 in EN by lia. apply nth_error_In in EN. auto.
Qed.

(** ** decision procedures (for examples) *)
Definition lexleb (a b : list nat) : bool := negb (lexltb b a).
Lemma lexleb_ok a b : lexleb a b = true -> lexle a b.
Proof.
  unfold lexleb. intros H. destruct (lexlt_total a b) as [G|[G|G]]; unfold lexle; auto.
  apply lexltb_lexlt in G. rewrite G in H. discriminate.
Qed.

Definition sorts_rotations_b (r : list nat) : bool :=
  forallb (fun a => forallb (fun b =>
    if lexltb (suffix r a) (suffix r b) then lexleb (rotation r a) (rotation r b) else true)
    (seq 0 (length r))) (seq 0 (length r)).
Lemma sorts_rotations_ok r : sorts_rotations_b r = true -> suffixes_sort_rotations r.
Proof.
  unfold sorts_rotations_b. intros H a b Ha Hb HL.
  rewrite forallb_forall in H. specialize (H a ltac:(apply in_seq; lia)).
  rewrite forallb_forall in H. specialize (H b ltac:(apply in_seq; lia)).
  apply lexltb_lexlt in HL. rewrite HL in H. apply lexleb_ok; auto.
Qed.
Definition rotation_safe_b (l : list nat) : bool :=
  match duval l with Ok i => sorts_rotations_b (rotation l i) | _ => false end.
Lemma rotation_safe_ok l : l <> [] -> rotation_safe_b l = true -> rotation_safe l.
Proof.
  intros Hne. unfold rotation_safe_b. destruct (duval_smallest l) as (i & -> & _ & Hm). intros H.
  exists i. split; [|apply sorts_rotations_ok; auto]. apply Hm. destruct l; [congruence|simpl; lia].
Qed.

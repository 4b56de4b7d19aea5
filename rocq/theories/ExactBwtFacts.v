(** * Which blocks the block sort transforms as the format says: exactly the rotation-safe ones *)
From Verif Require Import Base BaseFacts SpecBwt SpecBzip2 LexFacts Sais SaisBase SaisSort SaisFacts Bwt BwtFacts UnsortFacts InjectFacts.

(** ** rotations of rotations *)
Lemma shift_perm n i l : i < n -> Permutation l (seq 0 n) -> Permutation (map (fun j => (i + j) mod n) l) (seq 0 n).
Proof.
  intros Hi P. rewrite (Permutation_map _ P). clear l P. apply NoDup_Permutation_bis.
  - apply NoDup_map_in; [|apply seq_NoDup]. intros x y Hx Hy E. apply in_seq in Hx, Hy.
    assert (forall z, z < n -> (i + z) mod n = if i + z <? n then i + z else i + z - n) as F.
    { intros z Hz. destruct (Nat.ltb_spec (i + z) n); [apply Nat.mod_small; auto|].
      replace (i + z) with (i + z - n + 1 * n) at 1 by lia. rewrite Nat.mod_add, Nat.mod_small by lia. lia. }
    rewrite !F in E by lia. destruct (Nat.ltb_spec (i + x) n), (Nat.ltb_spec (i + y) n); lia.
  - rewrite map_length. lia.
  - intros x Hx. apply in_map_iff in Hx as (y & <- & Hy). apply in_seq. split; [lia|]. apply Nat.mod_upper_bound; lia.
Qed.
Lemma rotations_perm l i : i < length l ->
  Permutation (map (rotation (rotation l i)) (seq 0 (length l))) (map (rotation l) (seq 0 (length l))).
Proof.
  intros Hi. rewrite (map_ext_in _ (fun j => rotation l ((i + j) mod length l))).
  - rewrite <- (map_map (fun j => (i + j) mod length l) (rotation l)). apply Permutation_map, shift_perm; auto.
  - intros j Hj. apply in_seq in Hj. apply rotation_rotation; lia.
Qed.
Lemma last_last_of (m : list nat) n : length m = n -> 0 < n -> last m 0 = last_of n m.
Proof.
  intros <- H. unfold last_of. destruct m as [|x m] using rev_ind; [cbn [length] in H; lia|].
  rewrite last_last, app_length. cbn [length]. replace (length m + 1 - 1) with (length m) by lia.
  rewrite app_nth2, Nat.sub_diag by lia. reflexivity.
Qed.

(** ** equal lists *)
Lemma forall2_count (z : list nat) l l' : Forall2 lexle l l' ->
  length (filter (fun x => row_leb x z) l') <= length (filter (fun x => row_leb x z) l).
Proof.
  induction 1 as [|x y l l' H HF IH]; cbn [filter length]; auto.
  destruct (row_leb y z) eqn:E; [|destruct (row_leb x z); cbn [length]; lia].
  apply row_leb_spec in E. rewrite (proj2 (row_leb_spec x z)) by (eapply lexle_trans; eauto). cbn [length]. lia.
Qed.
Lemma forall2_strict l l' : Forall2 lexle l l' -> l <> l' -> exists z,
  length (filter (fun x => row_leb x z) l') < length (filter (fun x => row_leb x z) l).
Proof.
  induction 1 as [|x y l l' H HF IH]; intros N; [congruence|]. destruct (list_eq_dec Nat.eq_dec x y) as [->|NE].
  - destruct IH as (z & Hz); [congruence|]. exists z. cbn [filter]. destruct (row_leb y z); cbn [length]; lia.
  - exists x. cbn [filter]. rewrite (proj2 (row_leb_spec x x)) by (left; auto). pose proof (forall2_count x HF) as C.
    destruct (row_leb y x) eqn:E; cbn [length]; [|lia]. apply row_leb_spec in E. exfalso. apply NE. apply lexle_antisym; auto.
Qed.
Lemma below_equal l l' : Forall2 lexle l l' -> Permutation l l' -> l = l'.
Proof.
  intros HF P. destruct (list_eq_dec (list_eq_dec Nat.eq_dec) l l') as [|N]; auto. exfalso.
  destruct (forall2_strict HF N) as (z & Hz). pose proof (InjectFacts.filter_perm (fun x => row_leb x z) P). lia.
Qed.

(** ** a column that is a transform *)
Section True.
  Variable u c : list nat.
  Variable ptr : nat.
  Notation n := (length u).
  Hypothesis n_pos : 0 < n.
  Variable rs : list nat.
  Hypothesis RP : Permutation rs (seq 0 n).
  Hypothesis RS : StronglySorted lexle (map (rotation u) rs).
  Hypothesis RC : c = map (fun i => last (rotation u i) 0) rs.
  Notation W k := (word (links c) n k).

  Lemma rs_length : length rs = n.
  Proof. rewrite (Permutation_length RP), seq_length. auto. Qed.
  Lemma rs_in x : In x rs <-> x < n.
  Proof. split; intros H; [apply (Permutation_in _ RP) in H; apply in_seq in H; lia|apply (Permutation_in _ (Permutation_sym RP)), in_seq; lia]. Qed.
  Lemma c_length : length c = n.
  Proof. rewrite RC, map_length. apply rs_length. Qed.
  Lemma true_words : map (fun k => W k) (seq 0 n) = map (rotation u) rs.
  Proof.
    pose proof (@rebuild_rows n (map (rotation u) rs) n_pos) as H.
    assert (column n (map (rotation u) rs) = c) as EC.
    { unfold column. rewrite map_map, RC. apply map_ext. intros i. symmetry. apply last_last_of; auto. apply rotation_length. }
    rewrite EC in H. rewrite <- (map_ext (path c n) (fun k => W k)) by (intros; apply path_word).
    rewrite <- c_length at 2. rewrite <- (proj1 (rebuild_paths c n)). rewrite H with (k := n); auto.
    - rewrite map_map. apply map_ext. intros i. apply firstn_all2. rewrite rotation_length. lia.
    - intros m Hm. apply in_map_iff in Hm as (i & <- & _). apply rotation_length.
    - apply (@matrix_closed u rs); auto using rs_length.
      + eapply Permutation_NoDup; [apply Permutation_sym, RP|]. apply seq_NoDup.
      + apply rs_in.
  Qed.
  Lemma true_word k : k < n -> W k = rotation u (nth k rs 0).
  Proof.
    intros Hk. pose proof (f_equal (fun l => nth_error l k) true_words) as E. cbv beta in E. rewrite !nth_error_map in E.
    rewrite (nth_error_nth' _ 0), seq_nth in E by (rewrite ?seq_length; auto).
    rewrite (nth_error_nth' rs 0) in E by (rewrite rs_length; auto). cbn [option_map Nat.add] in E. congruence.
  Qed.
  Lemma true_perm : Permutation (map (fun k => W k) (seq 0 n)) (map (rotation u) (seq 0 n)).
  Proof. rewrite true_words. apply Permutation_map, RP. Qed.
  Lemma true_step k : k < n -> W k = rot_right n (W (nxt (links c) k)).
  Proof.
    intros Hk. assert (length c = n) as LC by apply c_length.
    assert (nxt (links c) k < n) as HX by (rewrite <- LC; apply nxt_bound; lia).
    rewrite (true_word HX). assert (nth (nxt (links c) k) rs 0 < n) as HR by (apply rs_in, nth_In; rewrite rs_length; auto).
    unfold rot_right. rewrite <- (@last_last_of (rotation u (nth (nxt (links c) k) rs 0)) n) by (auto using rotation_length).
    pose proof (true_word HX) as E. rewrite <- E. destruct n as [|n'] eqn:En; [lia|]. rewrite <- En in *.
    replace (n - 1) with n' by lia. rewrite word_firstn by lia. rewrite En at 1. cbn [word]. f_equal.
    assert (In (nth k (links c) (0, 0)) (enumerate c)) as H.
    { apply (Permutation_in _ (Permutation_sym (links_perm c))). apply nth_In. rewrite links_length; lia. }
    unfold ltr. unfold nxt in E. unfold nxt. destruct (nth k (links c) (0, 0)) as [a x] eqn:EL. cbn [fst snd] in *.
    apply In_nth_error in H as (j & H). rewrite enumerate_nth in H. destruct (nth_error c j) as [y|] eqn:Ey; [|discriminate].
    cbn [option_map] in H. injection H as -> ->. rewrite E. rewrite RC in Ey. rewrite nth_error_map in Ey.
    assert (a < length rs) as Ha.
    { destruct (nth_error rs a) eqn:X; [|discriminate]. eapply nth_error_lt; eauto. }
    rewrite (nth_error_nth' rs 0) in Ey by auto. cbn [option_map] in Ey. congruence.
  Qed.
  Lemma true_steps m : forall k, k < n -> W k = Nat.iter m (rot_right n) (W (walk (links c) m k)).
  Proof.
    induction m as [|m IH]; intros k Hk; [reflexivity|]. cbn [walk].
    change (W k = rot_right n (Nat.iter m (rot_right n) (W (walk (links c) m (nxt (links c) k))))).
    rewrite <- IH; [apply true_step; auto|]. rewrite <- c_length. apply nxt_bound. rewrite c_length. auto.
  Qed.
End True.

Lemma rot_right_lt n a b : length a = n -> length b = n -> 0 < n -> last_of n a = last_of n b -> lexlt a b ->
  lexlt (rot_right n a) (rot_right n b).
Proof.
  intros La Lb Hn E H. unfold rot_right. rewrite E. apply lex_tail.
  destruct a as [|x a] using rev_ind; [cbn [length] in La; lia|]. clear IHa.
  destruct b as [|y b] using rev_ind; [cbn [length] in Lb; lia|]. clear IHb.
  rewrite app_length in La, Lb. cbn [length] in La, Lb. replace (n - 1) with (length a) by lia.
  rewrite firstn_skipn_len. replace (length a) with (length b) by lia. rewrite firstn_skipn_len.
  unfold last_of in E. rewrite !app_nth2 in E by lia. replace (n - 1 - length a) with 0 in E by lia.
  replace (n - 1 - length b) with 0 in E by lia. cbn [nth] in E. subst y.
  destruct (lexlt_total a b) as [G|[G|G]]; auto.
  - subst b. exfalso. eapply lexlt_irrefl; eauto.
  - exfalso. eapply lexlt_asym; [exact H|]. apply lexlt_app_eq; auto. lia.
Qed.

Section Exact.
  Variable w rows rs : list nat.
  Notation n := (length w).
  Hypothesis n_pos : 0 < n.
  Hypothesis HL : length rows = n.
  Hypothesis HN : NoDup rows.
  Hypothesis HI : forall x, In x rows <-> x < n.
  Hypothesis HO : forall a b, a < b < n -> lexlt (suffix w (nth a rows 0)) (suffix w (nth b rows 0)).
  Notation c := (col w rows).
  Hypothesis RP : Permutation rs (seq 0 n).
  Hypothesis RS : StronglySorted lexle (map (rotation w) rs).
  Hypothesis RC : c = map (fun i => last (rotation w i) 0) rs.
  Notation W k := (word (links c) n k).
  Hypothesis H0 : W (row rows 0) = w.

  Lemma word_at_most i : i < n -> lexle (W (row rows i)) (rotation w i).
  Proof.
    assert (length c = n) as LC by (apply col_length; auto).
    intros Hi. destruct (lexle_total (W (row rows i)) (rotation w i)) as [|G]; auto. destruct G as [E|G]; [left; auto|]. exfalso.
    revert Hi G. induction i as [|i IH]; intros Hi G.
    - rewrite rotation_0, H0 in G. eapply lexlt_irrefl; eauto.
    - apply IH; [lia|]. assert (i < n) as Hi' by lia.
      pose proof (@row_lt w rows HL HI i Hi') as HR. pose proof (@row_lt w rows HL HI (S i) Hi) as HR'.
      assert (nxt (links c) (row rows i) < n) as HX by (rewrite <- LC; apply nxt_bound; lia).
      destruct (@links_ge w rows n_pos HL HN HI HO i (row rows i) Hi ltac:(lia)) as [X|(_ & X)].
      { rewrite (@ltr_row w rows) in X by auto. lia. }
      assert (lexlt (rotation w (S i)) (W (nxt (links c) (row rows i)))) as G'.
      { destruct (@words_sorted c n (row rows (S i)) (nxt (links c) (row rows i)) ltac:(lia)) as [Y|Y]; [rewrite <- Y; auto|].
        eapply lexlt_trans; eauto. }
      rewrite (@true_step w c n_pos rs RP RS RC) by auto.
      destruct (@rotation_right w (S i) Hi) as (R1 & R2). unfold prev_index in R1, R2. cbn [Nat.ltb Nat.leb] in R1, R2.
      replace (S i - 1) with i in R1, R2 by lia. rewrite <- R1. apply rot_right_lt; auto using rotation_length, word_length.
      rewrite R2.
      pose proof (@true_step w c n_pos rs RP RS RC (row rows i) HR) as E. apply (f_equal (fun l => nth 0 l 0)) in E.
      unfold rot_right in E. cbn [nth] in E. rewrite <- E. rewrite <- (@ltr_row w rows) by auto.
      destruct n as [|n'] eqn:En; [lia|]. reflexivity.
  Qed.
  Lemma words_exact i : i < n -> W (row rows i) = rotation w i.
  Proof.
    assert (map (fun i => W (row rows i)) (seq 0 n) = map (rotation w) (seq 0 n)) as E.
    { apply below_equal.
      - assert (forall l, (forall i, In i l -> i < n) -> Forall2 lexle (map (fun i => W (row rows i)) l) (map (rotation w) l)) as G.
        { induction l as [|x l IH]; intros H; constructor; [apply word_at_most, H; left; auto|apply IH; intros; apply H; right; auto]. }
        apply G. intros x Hx. apply in_seq in Hx. lia.
      - transitivity (map (fun k => W k) (seq 0 n)); [|apply (@true_perm w c n_pos rs RP RS RC)].
        rewrite <- (map_map (row rows) (fun k => W k)). apply Permutation_map. apply NoDup_Permutation_bis.
        + apply NoDup_map_in; [|apply seq_NoDup]. intros x y Hx Hy. apply in_seq in Hx, Hy. apply (@row_inj w rows HI); lia.
        + rewrite map_length. lia.
        + intros x Hx. apply in_map_iff in Hx as (y & <- & Hy). apply in_seq in Hy. apply in_seq. pose proof (@row_lt w rows HL HI y). lia. }
    intros Hi. apply (f_equal (fun l => nth_error l i)) in E. rewrite !nth_error_map, (nth_error_nth' _ 0), seq_nth in E by (rewrite ?seq_length; auto).
    cbn [option_map Nat.add] in E. congruence.
  Qed.
  Lemma exact_safe : suffixes_sort_rotations w.
  Proof.
    intros a b Ha Hb H. unfold suffix in H. rewrite <- !words_exact by auto. apply words_sorted.
    pose proof (@row_order w rows HL HI HO a b Ha Hb H). pose proof (@row_lt w rows HL HI b Hb). rewrite (@col_length w rows HL). lia.
  Qed.
End Exact.

(** ** the theorem *)
Lemma shift_back n i j : i < n -> j < n -> (i + (n - i + j) mod n) mod n = j.
Proof.
  intros Hi Hj. rewrite Nat.add_mod_idemp_r by lia. replace (i + (n - i + j)) with (j + 1 * n) by lia.
  rewrite Nat.mod_add, Nat.mod_small by lia. reflexivity.
Qed.
Lemma smallest_parts u i : smallest_suffix u i ->
  (forall j, 0 < j < length (skipn i u) -> lexlt (skipn i u) (skipn j (skipn i u))) /\
  (forall j, j < length (firstn i u) -> lexlt (skipn i u) (skipn j (firstn i u) ++ skipn i u)).
Proof.
  intros (Hi & Hmin). rewrite skipn_length, firstn_length. split; intros j Hj.
  - rewrite skipn_add. apply (Hmin (j + i)); lia.
  - rewrite <- skipn_app_le, firstn_skipn by (rewrite firstn_length; lia). apply (Hmin j); lia.
Qed.

Lemma transform_safe u c ptr : bwt_spec u c ptr -> burrows_wheeler u c ptr -> rotation_safe u.
Proof.
  intros (i & sa & Hmin & HSA & EC & HP & EP) (rs & RP & RS & RC & k & Hk & Ek). cbv zeta in *.
  exists i. split; auto. pose proof (smallest_parts Hmin) as (HV & HT). destruct Hmin as (Hi & _).
  assert (length (rotation u i) = length u) as RL by apply rotation_length.
  destruct (filtered_sa HSA) as (F1 & F2 & F3 & F4). cbv zeta in *. rewrite RL in *.
  set (rows := filter (fun x => x <? length u) sa) in *. clearbody rows.
  set (v := skipn i u) in *. set (t := firstn i u) in *.
  assert (u = t ++ v) as EU by (symmetry; apply firstn_skipn).
  assert (length v = length u - i) as LV by apply skipn_length.
  assert (length t = i) as LT by (apply firstn_length_le; lia).
  assert (0 < length v) as Hd by lia.
  assert (rotation u i = v ++ t) as ER by reflexivity.
  destruct (list_eq_dec Nat.eq_dec t []) as [ET|NT].
  { apply minimal_sorts. intros j Hj. rewrite RL in Hj. rewrite ER, ET, app_nil_r. unfold rotation.
    destruct (Nat.eq_dec j 0) as [->|N]; [left; cbn [skipn firstn]; rewrite app_nil_r; auto|]. right.
    rewrite <- (app_nil_r v) at 1. apply lexlt_cut_app; [apply HV; rewrite ET in LT; cbn [length] in LT; lia|rewrite skipn_length; lia]. }
  destruct (@tail_above v t Hd HV HT NT) as [HB|(m & EM)].
  2:{ apply minimal_sorts. rewrite ER, EM. change (v ++ concat (repeat v (S m))) with (concat (repeat v (S (S m)))).
      intros j Hj. apply power_minimal; auto. }
  set (w := rotation u i) in *. rewrite <- RL in F1, F3, F4.
  assert (0 < length w) as Hn by lia.
  assert (c = col w rows) as EC' by (unfold col; rewrite RL; exact EC). rewrite EC' in *. clear EC.
  assert (length (col w rows) = length w) as LC by (apply col_length; auto).
  assert (length v < length w) as Ltv by (rewrite ER, app_length; destruct t; [congruence|cbn [length]; lia]).
  assert (exists rs', Permutation rs' (seq 0 (length w)) /\ StronglySorted lexle (map (rotation w) rs') /\
    col w rows = map (fun i => last (rotation w i) 0) rs' /\ map (rotation w) rs' = map (rotation u) rs) as (rs' & RP' & RS' & RC' & RE).
  { exists (map (fun j => (length u - i + j) mod length u) rs).
    assert (map (rotation w) (map (fun j => (length u - i + j) mod length u) rs) = map (rotation u) rs) as E.
    { rewrite map_map. apply map_ext_in. intros j Hj. apply (Permutation_in _ RP) in Hj. apply in_seq in Hj.
      unfold w. rewrite rotation_rotation, shift_back by (auto; try lia; apply Nat.mod_upper_bound; lia). reflexivity. }
    rewrite RL. split; [|split; [rewrite E; auto|split; auto]].
    - assert ((length u - i) mod length u < length u) as HM by (apply Nat.mod_upper_bound; lia).
      rewrite (map_ext _ (fun j => ((length u - i) mod length u + j) mod length u)); [apply shift_perm; auto|].
      intros j. rewrite Nat.add_mod_idemp_l by lia. reflexivity.
    - rewrite RC. rewrite <- (map_map (rotation u) (fun x => last x 0)), <- E, map_map. reflexivity. }
  apply (@exact_safe w rows rs' Hn F1 F2 F3 F4 RP' RS' RC').
  assert (nth ptr rows 0 = length v) as EP' by (rewrite EP, <- LV; apply Nat.mod_small; lia).
  assert (ptr = row rows (length v)) as EPR.
  { rewrite <- EP'. symmetry. apply (@row_of_nth w rows); auto. lia. }
  assert (row rows 0 < length w) as Hr by (apply (@row_lt w rows); auto).
  assert (row rows 0 < row rows (length v)) as HD.
  { apply (@row_order w rows); auto; try lia. cbn [skipn]. rewrite ER, skipn_app, skipn_all, Nat.sub_diag. exact HB. }
  destruct (@word_above w rows Hn F1 F2 F3 F4 (length v) 0) as (W1 & W2); [lia| |].
  { intros j Hj. destruct (Nat.eq_dec j (length v)) as [->|]; [exact HD|].
    apply (@row_order w rows F1 F3 F4); [lia|lia|]. rewrite ER. apply inner_above; auto. lia. }
  cbn [Nat.add] in W2. rewrite (@true_steps w (col w rows) Hn rs' RP' RS' RC' (length v)) by auto. rewrite W2, <- EPR.
  rewrite (@true_word w (col w rows) Hn rs' RP' RS' RC') by lia.
  assert (rotation w (nth ptr rs' 0) = u) as ->.
  { pose proof (f_equal (fun l => nth_error l ptr) RE) as E. cbv beta in E. rewrite !nth_error_map, Hk in E. cbn [option_map] in E.
    rewrite (nth_error_nth' rs' 0) in E by (rewrite (Permutation_length RP'), seq_length; lia). cbn [option_map] in E. congruence. }
  rewrite EU at 1. rewrite RL, iter_rot_right; [auto|]. rewrite <- EU. reflexivity.
Qed.

Lemma safe_transform u c ptr : bwt_spec u c ptr -> rotation_safe u -> burrows_wheeler u c ptr.
Proof.
  intros (i & sa & Hmin & HSA & EC & HP & EP) (i' & Hmin' & HS). cbv zeta in *.
  rewrite <- (@smallest_suffix_unique u i i' Hmin Hmin') in HS. destruct Hmin as (Hi & _).
  assert (length (rotation u i) = length u) as RL by apply rotation_length.
  destruct (filtered_sa HSA) as (F1 & F2 & F3 & F4). cbv zeta in *. rewrite RL in *.
  set (rows := filter (fun x => x <? length u) sa) in *. clearbody rows.
  exists (map (fun j => (i + j) mod length u) rows).
  assert (Permutation rows (seq 0 (length u))) as P.
  { apply NoDup_Permutation; auto using seq_NoDup. intros x. rewrite F3, in_seq. lia. }
  assert (map (rotation u) (map (fun j => (i + j) mod length u) rows) = map (rotation (rotation u i)) rows) as E.
  { rewrite map_map. apply map_ext_in. intros j Hj. apply F3 in Hj. rewrite rotation_rotation by auto. reflexivity. }
  split; [apply shift_perm; auto|]. split; [|split].
  - rewrite E. apply (@matrix_sorted (rotation u i) rows).
    + lia.
    + lia.
    + intros x. rewrite RL. auto.
    + intros a b Hab. apply F4. lia.
    + auto.

  - rewrite <- (map_map (rotation u) (fun x => last x 0)), E, map_map, EC. apply map_ext_in. intros j Hj. apply F3 in Hj.
    rewrite (@last_last_of _ (length u)) by (rewrite ?rotation_length; lia). rewrite <- RL. symmetry. apply rotation_right. lia.
  - exists ((i + (length u - i) mod length u) mod length u). split.
    + rewrite nth_error_map, (nth_error_nth' rows 0) by lia. cbn [option_map]. rewrite EP. reflexivity.
    + rewrite <- rotation_rotation by (auto; apply Nat.mod_upper_bound; lia). apply rotation_undo. lia.
Qed.

Theorem transform_iff u c ptr : bwt_spec u c ptr -> burrows_wheeler u c ptr <-> rotation_safe u.
Proof. intros H. split; [apply transform_safe with (1 := H)|apply safe_transform; auto]. Qed.

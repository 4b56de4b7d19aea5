(** * The symbol counts given to the table builder *)
From Verif Require Import Base BaseFacts Zle ZleFacts Float32 KMeans SymbolStatistics BlockEncoder BlockFacts SpecKMeans.
Open Scope nat_scope.

Definition counts (dim : nat) (l : list zsym) : list nat := map (occurs l) (seq 0 dim).
Lemma counts_length dim l : length (counts dim l) = dim.
Proof. unfold counts. rewrite map_length, seq_length. reflexivity. Qed.
Lemma nth_error_counts dim l s : s < dim -> nth_error (counts dim l) s = Some (occurs l s).
Proof.
  intros H. unfold counts. rewrite nth_error_map. rewrite (nth_error_nth' _ 0) by (rewrite seq_length; auto).
  rewrite seq_nth by auto. reflexivity.
Qed.
Lemma occurs_snoc l x s : occurs (l ++ [x]) s = occurs l s + (if sym_number x =? s then 1 else 0).
Proof. unfold occurs. rewrite filter_app, app_length. cbn [filter]. destruct (sym_number x =? s); reflexivity. Qed.
Lemma occurs_le l s : occurs l s <= length l.
Proof. unfold occurs. induction l as [|x l IH]; cbn [filter length]; [lia|]. destruct (_ =? _); cbn [length]; lia. Qed.
Lemma counts_nil dim : counts dim [] = repeat 0 dim.
Proof. unfold counts. change (occurs []) with (fun _ : nat => 0). rewrite <- (seq_length dim 0) at 2. generalize (seq 0 dim). induction l; cbn; congruence. Qed.

(** bumping one counter *)
Lemma bump {A} (f : nat -> A) (inc : A -> A) dim l s x l' : sym_number x = s -> s < dim ->
  (forall t, t < dim -> f (occurs (l ++ [x]) t) = if s =? t then inc (f (occurs l t)) else f (occurs l t)) ->
  set_at (map f (counts dim l)) s (inc (f (occurs l s))) = Ok l' -> l' = map f (counts dim (l ++ [x])).
Proof.
  intros Es Hs H E. apply set_at_inv in E as (_ & L & S1 & O). apply nth_error_ext. intros j.
  rewrite map_length, counts_length in L.
  destruct (Nat.lt_ge_cases j dim) as [Hj|Hj].
  - rewrite nth_error_map, nth_error_counts by auto. cbn [option_map]. rewrite H by auto. destruct (Nat.eqb_spec s j) as [->|NE].
    + exact S1.
    + rewrite O by auto. rewrite nth_error_map, nth_error_counts by auto. reflexivity.
  - transitivity (@None A); [|symmetry]; apply nth_error_None; [lia|rewrite map_length, counts_length; lia].
Qed.
Lemma symbol_index_number s : symbol_index s = sym_number s.
Proof. destruct s; reflexivity. Qed.

(** ** one table *)
Lemma single_counts used syms : 1 <= used -> Forall (sym_below used) syms -> forall pre m,
  sg_freq m = map N.of_nat (counts (used + 1) pre) ->
  exists m', fold_res single_report syms m = Ok m' /\ sg_freq m' = map N.of_nat (counts (used + 1) (pre ++ syms)).
Proof.
  intros Hu. induction 1 as [|s syms Hs HF IH]; intros pre m HM; cbn [fold_res].
  - exists m. rewrite app_nil_r. auto.
  - unfold single_report at 1. pose proof (symbol_index_lt _ Hs Hu) as Hi. rewrite symbol_index_number in *. rewrite HM.
    rewrite (@get_at_some _ _ _ (N.of_nat (occurs pre (sym_number s)))) by (rewrite nth_error_map, nth_error_counts by lia; reflexivity).
    cbn [bind].
    match goal with |- context [set_at ?l ?i ?x] => destruct (@set_at_ok _ l i x) as (l' & E & _) end;
      [rewrite map_length, counts_length; lia|].
    rewrite E. cbn [bind].
    assert (forall t, t < used + 1 -> N.of_nat (occurs (pre ++ [s]) t) = if sym_number s =? t then (N.of_nat (occurs pre t) + 1)%N else N.of_nat (occurs pre t)) as HB.
    { intros t Ht. rewrite occurs_snoc. destruct (_ =? _); lia. }
    pose proof (@bump _ N.of_nat (fun n => (n + 1)%N) (used + 1) pre (sym_number s) s _ eq_refl ltac:(lia) HB E) as E2. clear E. rename E2 into E.
    destruct (IH (pre ++ [s]) (mk_single l' (sg_count m + 1))) as (m' & E' & H'); [exact E|].
      rewrite <- app_assoc in H'. exists m'. auto.
Qed.

(** ** groups of 50 *)
Definition groups_ok (used : nat) (pre : list zsym) (m : blockwise_map) : Prop :=
  exists full rest, Forall (fun g => length g = 50) full /\ length rest < 50 /\ pre = concat full ++ rest /\
    bm_maps m = map (counts (used + 1)) full /\ bm_current m = counts (used + 1) rest /\ bm_counter m = length rest /\ bm_size m = used.

Lemma map_id_counts dim l : map (fun x => x) (counts dim l) = counts dim l.
Proof. apply map_id. Qed.

Lemma blockwise_counts used syms : 1 <= used -> Forall (sym_below used) syms -> forall pre m, groups_ok used pre m ->
  exists m', fold_res blockwise_report syms m = Ok m' /\ groups_ok used (pre ++ syms) m' /\
    bm_iterations m' = bm_iterations m /\ bm_clusters m' = bm_clusters m.
Proof.
  intros Hu. induction 1 as [|s syms Hs HF IH]; intros pre m HM; cbn [fold_res].
  - exists m. rewrite app_nil_r. auto.
  - destruct HM as (full & rest & H1 & H2 & H3 & H4 & H5 & H6 & H7).
    unfold blockwise_report at 1. pose proof (symbol_index_lt _ Hs Hu) as Hi. rewrite symbol_index_number in *. rewrite H5.
    rewrite (@get_at_some _ _ _ (occurs rest (sym_number s))) by (rewrite nth_error_counts by lia; reflexivity).
    cbn [bind].
    match goal with |- context [set_at ?l ?i ?x] => destruct (@set_at_ok _ l i x) as (l' & E & _) end;
      [rewrite counts_length; lia|].
    rewrite E. cbn [bind]. rewrite <- map_id_counts in E.
    assert (forall t, t < used + 1 -> occurs (rest ++ [s]) t = if sym_number s =? t then occurs rest t + 1 else occurs rest t) as HB.
    { intros t Ht. rewrite occurs_snoc. destruct (_ =? _); lia. }
    pose proof (@bump _ (fun n => n) (fun n => n + 1) (used + 1) rest (sym_number s) s _ eq_refl ltac:(lia) HB E) as E2. clear E. rename E2 into E.
    rewrite map_id_counts in E. subst l'. rewrite H6.
    assert (forall m1, groups_ok used (pre ++ [s]) m1 -> bm_iterations m1 = bm_iterations m -> bm_clusters m1 = bm_clusters m ->
      exists m', fold_res blockwise_report syms m1 = Ok m' /\ groups_ok used (pre ++ s :: syms) m' /\
      bm_iterations m' = bm_iterations m /\ bm_clusters m' = bm_clusters m) as G.
    { intros m1 G1 G2 G3. destruct (IH _ m1 G1) as (m' & A & B & C & D). exists m'.
      rewrite <- app_assoc in B. split; auto. split; auto. split; congruence. }
    destruct (Nat.leb_spec 50 (length rest + 1)) as [H50|H50]; cbn [bind]; apply G; auto; unfold groups_ok;
      cbn [bm_current bm_maps bm_size bm_counter].
    + exists (full ++ [rest ++ [s]]), []. split.
      { apply Forall_app. split; auto. constructor; auto. rewrite app_length. cbn [length]. lia. }
      split; [cbn [length]; lia|]. split.
      { rewrite concat_app. cbn [concat]. rewrite !app_nil_r, app_assoc, H3. reflexivity. }
      split; [rewrite map_app, H4; reflexivity|]. rewrite counts_nil, H7. auto.
    + exists full, (rest ++ [s]). rewrite app_length. cbn [length]. split; auto. split; auto. split; [rewrite H3, app_assoc; reflexivity|].
      auto.
Qed.

Lemma group_full full rest : Forall (fun g => length g = 50) full -> length rest < 50 ->
  map (group (concat full ++ rest)) (seq 0 (length full + 1)) = full ++ [rest].
Proof.
  intros HF HR. induction HF as [|g full Hg HF IH].
  - cbn [length Nat.add seq map concat app]. unfold group. rewrite Nat.mul_0_r. cbn [skipn]. rewrite firstn_all2 by lia. reflexivity.
  - cbn [length Nat.add seq map concat]. rewrite <- app_comm_cons. f_equal.
    + unfold group. rewrite Nat.mul_0_r. cbn [skipn]. rewrite <- app_assoc, firstn_app, Hg, Nat.sub_diag, firstn_O, app_nil_r.
      apply firstn_all2. lia.
    + rewrite <- seq_shift, map_map, <- IH. apply map_ext. intros i. unfold group. f_equal.
      rewrite <- app_assoc. rewrite skipn_app, Hg, skipn_all2 by lia. cbn [app]. f_equal. lia.
Qed.
Lemma groups_counts used pre m : groups_ok used pre m -> bm_maps m ++ [bm_current m] = group_counts pre (used + 1).
Proof.
  intros (full & rest & H1 & H2 & H3 & H4 & H5 & H6 & H7). rewrite H4, H5.
  change [counts (used + 1) rest] with (map (counts (used + 1)) [rest]). rewrite <- map_app, <- (@group_full full rest H1 H2), map_map, <- H3.
  unfold group_counts. replace (length pre / 50) with (length full); [reflexivity|].
  rewrite H3, app_length. assert (length (concat full) = 50 * length full) as ->.
  { clear - H1. induction H1 as [|g l Hg HF IH]; cbn [concat length]; [lia|]. rewrite app_length. lia. }
  rewrite Nat.mul_comm, Nat.div_add_l, Nat.div_small by lia. lia.
Qed.

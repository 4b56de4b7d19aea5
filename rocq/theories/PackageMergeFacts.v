(** * Facts about the package-merge code-length computation *)
From Verif Require Import Base BaseFacts PackageMerge.

Section Merge.
  Context {A : Type} (leb : A -> A -> bool).
  Hypothesis leb_trans : forall x y z, leb x y = true -> leb y z = true -> leb x z = true.
  Hypothesis leb_total : forall x y, leb x y = false -> leb y x = true.

  (** the textbook merge of two lists; the left list wins ties *)
  Fixpoint merge (a : list A) : list A -> list A :=
    fix inner (b : list A) : list A :=
      match a, b with
      | [], _ => b
      | _, [] => a
      | x :: a', y :: b' => if leb x y then x :: merge a' b else y :: inner b'
      end.

  Lemma merge_nil_r a : merge a [] = a.
  Proof. destruct a; reflexivity. Qed.
  Lemma merge_nil_l b : merge [] b = b.
  Proof. destruct b; reflexivity. Qed.
  Lemma merge_cons x a y b :
    merge (x :: a) (y :: b) = if leb x y then x :: merge a (y :: b) else y :: merge (x :: a) b.
  Proof. reflexivity. Qed.

  Lemma leb_refl x : leb x x = true.
  Proof. destruct (leb x x) eqn:E; auto. rewrite <- E; apply leb_total; auto. Qed.

  Lemma insert_merge x a b :
    Forall (fun y => leb x y = true) a -> insert_by leb x (merge a b) = merge (x :: a) b.
  Proof.
    intros Ha. induction b as [|y b IH].
    - rewrite !merge_nil_r. destruct Ha as [|z a Hz Ha]; simpl; auto. rewrite Hz; auto.
    - rewrite merge_cons. destruct (leb x y) eqn:E.
      + destruct Ha as [|z a Hz Ha].
        * rewrite merge_nil_l. simpl. rewrite E; auto.
        * rewrite merge_cons. destruct (leb z y); simpl; [rewrite Hz | rewrite E]; auto.
      + destruct Ha as [|z a Hz Ha].
        * rewrite merge_nil_l. cbn [insert_by]. rewrite E. rewrite merge_nil_l in IH. rewrite IH; auto.
        * rewrite merge_cons.
          assert (leb z y = false) as ->.
          { destruct (leb z y) eqn:E2; auto. rewrite (leb_trans Hz E2) in E; discriminate. }
          cbn [insert_by]. rewrite E, IH; auto.
  Qed.

  Lemma sort_by_fix l : ssorted leb l -> sort_by leb l = l.
  Proof.
    unfold ssorted; induction 1 as [|x l H IH HF]; simpl; auto.
    rewrite IH. destruct HF as [|y l Hy HF]; simpl; auto. rewrite Hy; auto.
  Qed.

  Lemma sort_app_merge a b : ssorted leb a -> ssorted leb b -> sort_by leb (a ++ b) = merge a b.
  Proof.
    intros Ha Hb. induction Ha as [|x a Ha IH HF]; cbn [app sort_by].
    - rewrite merge_nil_l. apply sort_by_fix; auto.
    - rewrite IH. apply insert_merge; auto.
  Qed.

  Lemma merge_perm a b : Permutation (merge a b) (a ++ b).
  Proof.
    revert b; induction a as [|x a IH]; intros b.
    - rewrite merge_nil_l; auto.
    - induction b as [|y b IHb]; [rewrite merge_nil_r, app_nil_r; auto|].
      rewrite merge_cons. destruct (leb x y).
      + cbn [app]. constructor. apply IH.
      + rewrite IHb. apply Permutation_middle.
  Qed.

  Lemma merge_length a b : length (merge a b) = length a + length b.
  Proof. rewrite (Permutation_length (merge_perm a b)), app_length; auto. Qed.

  Lemma merge_sorted a b : ssorted leb a -> ssorted leb b -> ssorted leb (merge a b).
  Proof.
    intros Ha Hb. rewrite <- sort_app_merge by auto. apply sort_by_sorted; [exact leb_total | exact leb_trans].
  Qed.

  (** A prefix of the merge takes a prefix of either list, and never takes an
      element of the right list before an element of the left one that is not larger. *)
  Lemma merge_firstn a b k : ssorted leb a -> ssorted leb b -> k <= length a + length b ->
    exists c d, c + d = k /\ c <= length a /\ d <= length b /\
      Permutation (firstn k (merge a b)) (firstn c a ++ firstn d b) /\
      (forall j y i x, j < d -> nth_error b j = Some y -> nth_error a i = Some x ->
         leb x y = true -> i < c).
  Proof.
    intros Ha; revert b k; induction Ha as [|x a Ha IH HF]; intros b k Hb Hk.
    - exists 0, k. simpl in Hk. rewrite merge_nil_l. simpl.
      repeat split; auto with arith.
      intros j y [|i] x _ _ H; discriminate.
    - revert k Hk; induction Hb as [|y b Hb IHb HFb]; intros k Hk.
      + exists k, 0. rewrite merge_nil_r. simpl firstn at 3. rewrite app_nil_r.
        simpl length in *. repeat split; auto; try lia. 
      + destruct k as [|k].
        { exists 0, 0. simpl. repeat split; auto; try lia. }
        rewrite merge_cons. destruct (leb x y) eqn:E.
        * destruct (IH (y :: b) k) as (c & d & Hc & Hca & Hdb & HP & HT).
          { constructor; auto. } { simpl in *; lia. }
          exists (S c), d. repeat split; try (simpl in *; lia).
          -- cbn [firstn app]. constructor; auto.
          -- intros j z [|i] w Hj Hz Hw Hle; [lia|]. simpl in Hw.
             apply (HT j z i w) in Hle; auto. lia.
        * destruct (IHb k) as (c & d & Hc & Hca & Hdb & HP & HT).
          { simpl in *; lia. }
          exists c, (S d). repeat split; try (simpl in *; lia).
          -- cbn [firstn]. rewrite HP. apply Permutation_middle.
          -- intros [|j] z i w Hj Hz Hw Hle.
             ++ simpl in Hz; inversion Hz; subst z.
                assert (leb x w = true).
                { destruct i as [|i]; simpl in Hw; [inversion Hw; apply leb_refl|].
                  rewrite Forall_forall in HF. apply HF. eapply nth_error_In; eauto. }
                rewrite (leb_trans H Hle) in E; discriminate.
             ++ apply (HT j z i w); auto. lia.
  Qed.
End Merge.

Lemma entry_leb_trans x y z : entry_leb x y = true -> entry_leb y z = true -> entry_leb x z = true.
Proof. unfold entry_leb; rewrite !N.leb_le; lia. Qed.
Lemma entry_leb_total x y : entry_leb x y = false -> entry_leb y x = true.
Proof. unfold entry_leb; rewrite N.leb_gt, N.leb_le; lia. Qed.

(** ** packaging *)
Lemma package_pairs_length l : length (package_pairs l) = length l / 2.
Proof.
  cut (length (package_pairs l) = length l / 2 /\
       forall x, length (package_pairs (x :: l)) = S (length l) / 2); [tauto|].
  induction l as [|a l (IH1 & IH2)]; [split; reflexivity|]. split; auto.
  intros x. cbn [package_pairs length]. rewrite IH1.
  replace (S (S (length l))) with (length l + 1 * 2) by lia. rewrite Nat.div_add; lia.
Qed.

Lemma package_pairs_nth l j p : nth_error (package_pairs l) j = Some p ->
  exists a b, nth_error l (2 * j) = Some a /\ nth_error l (2 * j + 1) = Some b /\
    p = Two (entry_value a + entry_value b)%N a b.
Proof.
  revert l; induction j as [|j IH]; intros [|a [|b l]] H; try discriminate.
  - simpl in H; inversion H; subst. exists a, b; auto.
  - cbn [package_pairs nth_error] in H. apply IH in H as (x & y & H1 & H2 & H3).
    exists x, y. replace (2 * S j) with (S (S (2 * j))) by lia.
    replace (S (S (2 * j)) + 1) with (S (S (2 * j + 1))) by lia. auto.
Qed.

Lemma package_pairs_sorted l : ssorted entry_leb l -> ssorted entry_leb (package_pairs l).
Proof.
  intros H. cut (forall n l, length l <= n -> ssorted entry_leb l -> ssorted entry_leb (package_pairs l)).
  { intros G; apply (G (length l)); auto. }
  clear; induction n as [|n IH]; intros [|a [|b l]] Hn H; try (constructor; fail).
  { simpl in Hn; lia. }
  cbn [package_pairs].
  inversion H as [|? ? H1 HF1]; subst. inversion H1 as [|? ? H2 HF2]; subst.
  constructor; [apply IH; auto; simpl in Hn; lia|].
  apply Forall_forall; intros p Hp.
  apply In_nth_error in Hp as (j & Hj). apply package_pairs_nth in Hj as (x & y & Hx & Hy & ->).
  rewrite Forall_forall in HF1, HF2.
  apply nth_error_In in Hx, Hy. 
  assert (entry_leb a x = true) by (apply HF1; right; auto).
  assert (entry_leb b y = true) by (apply HF2; auto).
  unfold entry_leb in *; simpl in *; rewrite N.leb_le in *; lia.
Qed.

Lemma package_pairs_flatten l d : d <= length l / 2 ->
  flat_map flatten_entry (firstn d (package_pairs l)) = flat_map flatten_entry (firstn (2 * d) l).
Proof.
  revert l; induction d as [|d IH]; intros l Hd; [reflexivity|].
  destruct l as [|a [|b l]].
  - change (S d <= 0) in Hd; lia.
  - change (S d <= 0) in Hd; lia.
  - cbn [package_pairs firstn flat_map flatten_entry].
    replace (2 * S d) with (S (S (2 * d))) by lia. cbn [firstn flat_map].
    rewrite IH, app_assoc; auto.
    cbn [length] in Hd. replace (S (S (length l))) with (length l + 1 * 2) in Hd by lia.
    rewrite Nat.div_add in Hd by lia. lia.
Qed.

(** ** the levels *)
Definition strictly_increasing (w : list N) : Prop := StronglySorted N.lt w.

Definition level_coins (w : list N) (e : nat) : list coin_entry :=
  map (fun v => One v (mk_coin v e)) w.

(** [levels w m e]: the list after processing the [m] deepest levels, of which
    the last has denomination [e]. *)
Fixpoint levels (w : list N) (m e : nat) : list coin_entry :=
  match m with
  | O => []
  | S m' => merge entry_leb (level_coins w e) (package_pairs (levels w m' (S e)))
  end.

Lemma level_coins_sorted w e : strictly_increasing w -> ssorted entry_leb (level_coins w e).
Proof.
  unfold ssorted, strictly_increasing; induction 1 as [|x w H IH HF]; [constructor|].
  cbn [level_coins map]. constructor; auto.
  apply Forall_forall; intros y Hy. apply in_map_iff in Hy as (z & <- & Hz).
  rewrite Forall_forall in HF. apply HF in Hz.
  unfold entry_leb; simpl; rewrite N.leb_le; lia.
Qed.

Lemma levels_sorted w m e : strictly_increasing w -> ssorted entry_leb (levels w m e).
Proof.
  intros H; revert e; induction m as [|m IH]; intros e; [constructor|].
  cbn [levels]. apply merge_sorted.
  - exact entry_leb_trans.
  - exact entry_leb_total.
  - apply level_coins_sorted; auto.
  - apply package_pairs_sorted; auto.
Qed.

Fixpoint level_size (n m : nat) : nat :=
  match m with O => 0 | S m' => n + level_size n m' / 2 end.

Lemma levels_length w m e : length (levels w m e) = level_size (length w) m.
Proof.
  revert e; induction m as [|m IH]; intros e; [reflexivity|].
  cbn [levels level_size]. rewrite merge_length, package_pairs_length, IH.
  unfold level_coins; rewrite map_length; auto.
Qed.

Lemma filter_make_coins w limit s e : 
  filter (fun c => coin_exp c =? e) (flat_map (fun i => map (fun x => mk_coin x i) w) (seq s limit))
  = if (s <=? e) && (e <? s + limit) then map (fun x => mk_coin x e) w else [].
Proof.
  revert s; induction limit as [|limit IH]; intros s.
  - simpl. destruct (Nat.leb_spec s e), (Nat.ltb_spec e (s + 0)); simpl; auto; lia.
  - cbn [seq flat_map]. rewrite filter_app, IH.
    assert (filter (fun c => coin_exp c =? e) (map (fun x => mk_coin x s) w)
            = if s =? e then map (fun x => mk_coin x s) w else []) as ->.
    { clear; induction w as [|x w IH]; simpl; [destruct (s =? e); auto|].
      destruct (Nat.eqb_spec s e); rewrite IH; auto. }
    destruct (Nat.eqb_spec s e) as [->|Hne].
    + replace (e <=? e) with true by (symmetry; apply Nat.leb_le; lia).
      replace (e <? e + S limit) with true by (symmetry; apply Nat.ltb_lt; lia).
      replace (S e <=? e) with false by (symmetry; apply Nat.leb_gt; lia).
      simpl. apply app_nil_r.
    + cbn [app]. replace (S s <=? e) with (s <=? e)
        by (destruct (Nat.leb_spec s e), (Nat.leb_spec (S s) e); auto; lia).
      replace (e <? S s + limit) with (e <? s + S limit) by (f_equal; lia). auto.
Qed.

Lemma coins_of_exp_make w limit e : strictly_increasing w ->
  coins_of_exp (make_coins w limit) e
  = if (1 <=? e) && (e <=? limit) then level_coins w e else [].
Proof.
  intros H. unfold coins_of_exp, make_coins. rewrite filter_make_coins.
  replace (e <? 1 + limit) with (e <=? limit)
    by (destruct (Nat.leb_spec e limit), (Nat.ltb_spec e (1 + limit)); auto; lia).
  destruct ((1 <=? e) && (e <=? limit)); [|reflexivity].
  rewrite map_map. cbn [coin_value].
  apply sort_by_fix. apply level_coins_sorted; auto.
Qed.

Lemma fold_levels w limit : strictly_increasing w -> forall m, m <= limit ->
  fold_left (merge_level (make_coins w limit)) (rev (seq (S (limit - m)) m)) ([], [])
  = (package_pairs (levels w m (S (limit - m))), levels w m (S (limit - m))).
Proof.
  intros H; induction m as [|m IH]; intros Hm; [reflexivity|].
  replace (S (limit - S m)) with (limit - m) by lia.
  cbn [seq rev]. rewrite fold_left_app.
  rewrite IH by lia. cbn [fold_left]. unfold merge_level; cbn [fst].
  rewrite coins_of_exp_make by auto.
  replace (1 <=? limit - m) with true by (symmetry; apply Nat.leb_le; lia).
  replace (limit - m <=? limit) with true by (symmetry; apply Nat.leb_le; lia).
  cbn [andb levels].
  rewrite sort_app_merge.
  - replace (S (limit - m)) with (S (limit - m)) by lia. reflexivity.
  - exact entry_leb_trans.
  - apply level_coins_sorted; auto.
  - apply package_pairs_sorted, levels_sorted; auto.
Qed.

Lemma max_exp_make w limit : w <> [] -> 
  fold_left Nat.max (map coin_exp (make_coins w limit)) 0 = limit.
Proof.
  intros Hw. unfold make_coins.
  assert (forall s k a, a <= s -> fold_left Nat.max
     (map coin_exp (flat_map (fun i => map (fun x => mk_coin x i) w) (seq (S s) k))) a
     = match k with O => a | S _ => s + k end) as G.
  { intros s k; revert s; induction k as [|k IH]; intros s a Ha; [reflexivity|].
    cbn [seq flat_map]. rewrite map_app, fold_left_app, map_map. cbn [coin_exp].
    assert (forall w a, a <= S s -> w <> [] ->
      fold_left Nat.max (map (fun _ : N => S s) w) a = S s) as G.
    { clear; intros w a. revert a; induction w as [|x w IH]; intros a Ha Hw; [congruence|].
      cbn [map fold_left]. destruct w as [|y w]; [cbn [map fold_left]; lia|]. apply IH; [lia|congruence]. }
    rewrite G by (auto; lia).
    rewrite IH by lia. destruct k; lia. }
  rewrite G by lia. destruct limit; lia.
Qed.

Lemma package_merge_levels w limit : strictly_increasing w -> w <> [] -> 0 < limit ->
  package_merge (make_coins w limit) = Ok (map flatten_entry (package_pairs (levels w limit 1))).
Proof.
  intros H Hw Hl. unfold package_merge.
  destruct (make_coins w limit) as [|c cs] eqn:E.
  { destruct limit as [|l]; [lia|]. destruct w; [congruence|discriminate]. }
  rewrite <- E. clear c cs E. rewrite max_exp_make by auto.
  replace (limit + 1) with (S limit) by lia. cbn [seq rev].
  rewrite fold_left_app. pose proof (fold_levels H (le_n limit)) as F.
  rewrite Nat.sub_diag in F. rewrite F. cbn [fold_left]. unfold merge_level; cbn [fst snd].
  rewrite coins_of_exp_make by auto. cbn [Nat.leb andb app].
  rewrite sort_by_fix; auto. apply package_pairs_sorted, levels_sorted; auto.
Qed.

(** ** a prefix of a level selects a nested family of coin prefixes *)
Fixpoint level_selection (w : list N) (e : nat) (cs : list nat) : list coin :=
  match cs with
  | [] => []
  | c :: cs' => firstn c (map (fun v => mk_coin v e) w) ++ level_selection w (S e) cs'
  end.

Fixpoint width (cs : list nat) : nat :=
  match cs with [] => 0 | c :: cs' => c * 2 ^ length cs' + width cs' end.

Definition descending (cs : list nat) : Prop := StronglySorted (fun a b => b <= a) cs.

Lemma flatten_level_coins w e c :
  flat_map flatten_entry (firstn c (level_coins w e)) = firstn c (map (fun v => mk_coin v e) w).
Proof.
  revert c; induction w as [|x w IH]; intros [|c]; auto. simpl. f_equal. apply IH.
Qed.

Lemma flat_map_perm {A B} (f : A -> list B) l1 l2 :
  Permutation l1 l2 -> Permutation (flat_map f l1) (flat_map f l2).
Proof.
  induction 1; simpl; auto.
  - apply Permutation_app_head; auto.
  - rewrite !app_assoc. apply Permutation_app_tail, Permutation_app_comm.
  - etransitivity; eauto.
Qed.


Lemma nth_level_coins w e i v :
  nth_error w i = Some v -> nth_error (level_coins w e) i = Some (One v (mk_coin v e)).
Proof. intros H. unfold level_coins. rewrite nth_error_map, H; auto. Qed.

Lemma levels_selection w m e k : strictly_increasing w -> k <= level_size (length w) m ->
  exists cs, length cs = m /\ descending cs /\ Forall (fun c => c <= length w) cs /\
    k * 2 ^ m = 2 * width cs /\
    Permutation (flat_map flatten_entry (firstn k (levels w m e))) (level_selection w e cs) /\
    (forall c cs' i v, cs = c :: cs' -> i < c -> nth_error w i = Some v ->
       exists j x, j < k /\ nth_error (levels w m e) j = Some x /\ (v <= entry_value x)%N).
Proof.
  intros Hw; revert e k; induction m as [|m IH]; intros e k Hk.
  - simpl in Hk. assert (k = 0) as -> by lia. exists []; simpl; repeat split; auto.
    + constructor.
    + intros; discriminate.
  - cbn [levels level_size] in *.
    destruct (@merge_firstn _ entry_leb entry_leb_trans entry_leb_total
                (level_coins w e) (package_pairs (levels w m (S e))) k)
      as (c & d & Hcd & Hc & Hd & HP & HT).
    { apply level_coins_sorted; auto. }
    { apply package_pairs_sorted, levels_sorted; auto. }
    { unfold level_coins; rewrite map_length, package_pairs_length, levels_length; auto. }
    unfold level_coins in Hc; rewrite map_length in Hc.
    rewrite package_pairs_length, levels_length in Hd.
    destruct (IH (S e) (2 * d)) as (cs & L & D & B & W & P & Q).
    { pose proof (Nat.div_mod (level_size (length w) m) 2). lia. }
    assert (Forall (fun c' => c' <= c) cs) as Hcs.
    { destruct cs as [|c1 cs1]; [constructor|].
      assert (c1 <= c) as H1.
      { destruct (Nat.eq_dec c1 0) as [->|Hne]; [lia|].
        inversion B; subst.
        destruct (nth_error w (c1 - 1)) as [v|] eqn:Ev; [|apply nth_error_None in Ev; lia].
        destruct (Q c1 cs1 (c1 - 1) v eq_refl) as (j & x & Hj & Hx & Hv); auto; [lia|].
        assert (j / 2 < d) as Hj2 by (apply Nat.div_lt_upper_bound; lia).
        destruct (nth_error (package_pairs (levels w (length (c1 :: cs1)) (S e))) (j / 2))
          as [p|] eqn:Ep.
        2:{ apply nth_error_None in Ep. rewrite package_pairs_length, levels_length in Ep. lia. }
        pose proof Ep as Ep'. apply package_pairs_nth in Ep' as (a & b & Ha & Hb & ->).
        assert (c1 - 1 < c); [|lia].
        eapply HT; [exact Hj2 | exact Ep | apply nth_level_coins; exact Ev |].
        unfold entry_leb; cbn [entry_value]. apply N.leb_le.
        assert (x = a \/ x = b) as [->| ->]; [|lia..].
        pose proof (Nat.div_mod j 2 ltac:(lia)). pose proof (Nat.mod_upper_bound j 2 ltac:(lia)).
        destruct (Nat.eq_dec (j mod 2) 0).
        + left. replace (2 * (j / 2)) with j in Ha by lia. congruence.
        + right. replace (2 * (j / 2) + 1) with j in Hb by lia. congruence. }
      inversion D as [|? ? D1 DF]; subst. constructor; auto.
      eapply Forall_impl; [|exact DF]. simpl; intros; lia. }
    exists (c :: cs). repeat split.
    + simpl; auto.
    + constructor; auto.
    + constructor; auto.
    + cbn [width]. rewrite L. cbn [Nat.pow]. nia.
    + cbn [level_selection]. rewrite (flat_map_perm flatten_entry HP), flat_map_app.
      rewrite flatten_level_coins. apply Permutation_app_head.
      rewrite package_pairs_flatten; auto. rewrite levels_length; auto.
    + intros c0 cs' i v Heq Hi Hv. inversion Heq; subst c0 cs'.
      assert (In (One v (mk_coin v e)) (firstn k (merge entry_leb (level_coins w e)
                (package_pairs (levels w m (S e)))))) as Hin.
      { eapply Permutation_in; [symmetry; exact HP|]. apply in_or_app; left.
        eapply nth_error_In with (n := i).
        rewrite nth_error_firstn_lt by lia. apply nth_level_coins; auto. }
      apply In_nth_error in Hin as (j & Hj).
      assert (j < k).
      { apply nth_error_lt in Hj. rewrite firstn_length in Hj. lia. }
      exists j, (One v (mk_coin v e)). rewrite nth_error_firstn_lt in Hj by auto.
      simpl; repeat split; auto. lia.
Qed.

(** ** from the selection to the code lengths *)
Definition cnt (i : nat) (cs : list nat) : nat := length (filter (fun c => i <? c) cs).

Fixpoint indic (i : nat) (cs : list nat) : nat :=
  match cs with [] => 0 | c :: cs' => (if i <? c then 2 ^ length cs' else 0) + indic i cs' end.

Lemma cnt_le i cs : cnt i cs <= length cs.
Proof. apply filter_length_le. Qed.

Lemma indic_cnt i cs : descending cs -> 2 ^ length cs = indic i cs + 2 ^ (length cs - cnt i cs).
Proof.
  unfold descending, cnt; induction 1 as [|c cs H IH HF]; [reflexivity|].
  cbn [indic length filter]. destruct (Nat.ltb_spec i c) as [Hi|Hi].
  - cbn [length Nat.sub Nat.pow]. lia.
  - assert (filter (fun c => i <? c) cs = [] /\ indic i cs = 0) as (-> & ->).
    { clear - HF Hi. induction HF as [|d cs Hd HF IH]; simpl; auto.
      destruct (Nat.ltb_spec i d); [lia|]. destruct IH as (-> & ->); auto. }
    simpl length. rewrite Nat.sub_0_r. lia.
Qed.

Lemma sum_indic n cs : Forall (fun c => c <= n) cs ->
  list_sum (map (fun i => indic i cs) (seq 0 n)) = width cs.
Proof.
  induction 1 as [|c cs Hc HF IH].
  - simpl. induction (seq 0 n); simpl; auto.
  - cbn [indic width]. rewrite <- IH.
    assert (forall l, list_sum (map (fun i => (if i <? c then 2 ^ length cs else 0) + indic i cs) l)
      = length (filter (fun i => i <? c) l) * 2 ^ length cs
        + list_sum (map (fun i => indic i cs) l)) as ->.
    { clear. induction l as [|i l IH]; simpl; auto.
      fold (list_sum (map (fun i => (if i <? c then 2 ^ length cs else 0) + indic i cs) l)).
      rewrite IH. destruct (i <? c); simpl; lia. }
    f_equal. f_equal.
    replace n with (c + (n - c)) by lia. rewrite seq_app, filter_app, app_length.
    assert (filter (fun i => i <? c) (seq 0 c) = seq 0 c) as ->.
    { assert (forall l, Forall (fun i => i < c) l -> filter (fun i => i <? c) l = l) as G.
      { clear; induction 1; simpl; auto. destruct (Nat.ltb_spec x c); [f_equal; auto | lia]. }
      apply G. apply Forall_forall; intros x Hx; apply in_seq in Hx; lia. }
    assert (filter (fun i => i <? c) (seq (0 + c) (n - c)) = []) as ->.
    { assert (forall l, Forall (fun i => c <= i) l -> filter (fun i => i <? c) l = []) as G.
      { clear; induction 1; simpl; auto. destruct (Nat.ltb_spec x c); [lia | auto]. }
      apply G. apply Forall_forall; intros x Hx; apply in_seq in Hx; lia. }
    rewrite seq_length; simpl; lia.
Qed.

Lemma strictly_increasing_NoDup w : strictly_increasing w -> NoDup w.
Proof.
  unfold strictly_increasing; induction 1 as [|x w H IH HF]; constructor; auto.
  intros Hin. rewrite Forall_forall in HF. apply HF in Hin. lia.
Qed.

Lemma count_firstn w i v c e : NoDup w -> nth_error w i = Some v ->
  length (filter (fun x => (coin_value x =? v)%N) (firstn c (map (fun v => mk_coin v e) w)))
  = if i <? c then 1 else 0.
Proof.
  intros H; revert i c; induction H as [|x w Hx H IH]; intros [|i] [|c] Hi;
    try discriminate; try reflexivity.
  - simpl in Hi; inversion Hi; subst x. cbn [map firstn filter coin_value].
    rewrite N.eqb_refl. cbn [length]. change (0 <? S c) with true. f_equal.
    assert (forall l c, ~ In v l -> filter (fun x => (coin_value x =? v)%N)
        (firstn c (map (fun v => mk_coin v e) l)) = []) as G.
    { clear; induction l as [|y l IH]; intros [|c] Hn; simpl; auto.
      destruct (N.eqb_spec y v); [simpl in Hn; tauto|]. apply IH. simpl in Hn; tauto. }
    rewrite G; auto.
  - simpl in Hi. cbn [map firstn filter coin_value].
    destruct (N.eqb_spec x v) as [->|Hne]; [apply nth_error_In in Hi; tauto|].
    rewrite (IH i c Hi). reflexivity.
Qed.

Lemma count_selection w i v e cs : strictly_increasing w -> nth_error w i = Some v ->
  length (filter (fun x => (coin_value x =? v)%N) (level_selection w e cs)) = cnt i cs.
Proof.
  intros H Hi. apply strictly_increasing_NoDup in H.
  revert e; induction cs as [|c cs IH]; intros e; [reflexivity|].
  cbn [level_selection]. rewrite filter_app, app_length, IH.
  rewrite (@count_firstn w i v c e H Hi). unfold cnt; cbn [filter].
  destruct (i <? c); reflexivity.
Qed.

Lemma filter_perm_length {A} (f : A -> bool) l1 l2 :
  Permutation l1 l2 -> length (filter f l1) = length (filter f l2).
Proof.
  induction 1; simpl; auto; try lia.
  - destruct (f x); simpl; lia.
  - destruct (f x), (f y); simpl; lia.
Qed.

Definition kraft (limit : nat) (ls : list nat) : nat :=
  list_sum (map (fun l => 2 ^ (limit - l)) ls).

Lemma compute_lis_lengths w limit : strictly_increasing w -> 2 <= length w -> 0 < limit ->
  2 * (length w - 1) <= level_size (length w) limit ->
  exists cs, compute_lis w limit = Ok (map (fun i => cnt i cs) (seq 0 (length w))) /\
    length cs = limit /\ descending cs /\ Forall (fun c => c <= length w) cs /\
    width cs = (length w - 1) * 2 ^ limit /\
    Permutation (flat_map flatten_entry (firstn (2 * (length w - 1)) (levels w limit 1)))
                (level_selection w 1 cs).
Proof.
  intros H Hn Hl Hs. 
  assert (w <> []) as Hw by (destruct w; simpl in *; [lia|congruence]).
  destruct (@levels_selection w limit 1 (2 * (length w - 1)) H Hs) as (cs & L & D & B & W & P & _).
  exists cs. repeat split; auto; [|nia].
  unfold compute_lis. rewrite package_merge_levels by auto. cbn [bind]. f_equal.
  rewrite firstn_map, <- flat_map_concat_map.
  rewrite package_pairs_flatten by (rewrite levels_length; apply Nat.div_le_lower_bound; lia).
  apply nth_error_ext; intros i. rewrite !nth_error_map, nth_error_seq.
  destruct (nth_error w i) as [v|] eqn:E.
  - pose proof (nth_error_lt _ _ E) as Hi. apply Nat.ltb_lt in Hi; rewrite Hi. cbn [option_map].
    f_equal. rewrite (filter_perm_length _ P). apply count_selection; auto.
  - apply nth_error_None in E. apply Nat.ltb_ge in E; rewrite E. reflexivity.
Qed.

Lemma kraft_sum cs n : descending cs -> Forall (fun c => c <= n) cs ->
  kraft (length cs) (map (fun i => cnt i cs) (seq 0 n)) + width cs = n * 2 ^ length cs.
Proof.
  intros D B. rewrite <- (sum_indic B). unfold kraft. rewrite map_map.
  rewrite <- (seq_length n 0) at 3.
  induction (seq 0 n) as [|i l IH]; [reflexivity|].
  cbn [map length]. change (list_sum (?x :: ?l)) with (x + list_sum l).
  pose proof (indic_cnt i D). lia.
Qed.

Lemma kraft_ge limit ls l : In l ls -> 2 ^ (limit - l) <= kraft limit ls.
Proof.
  unfold kraft. induction ls as [|x ls IH]; [simpl; tauto|].
  cbn [map]. change (list_sum (?x :: ?l)) with (x + list_sum l).
  intros [->|H]; [lia|]. apply IH in H. lia.
Qed.

Lemma level_size_enough n : 2 <= n <= 258 -> 2 * (n - 1) <= level_size n 17.
Proof.
  intros H.
  assert (forallb (fun n => 2 * (n - 1) <=? level_size n 17) (seq 2 257) = true) as G
    by (vm_compute; reflexivity).
  rewrite forallb_forall in G. apply Nat.leb_le, G, in_seq. lia.
Qed.

Theorem compute_lis_spec w : strictly_increasing w -> 2 <= length w <= 258 ->
  exists ls, compute_lis w 17 = Ok ls /\ length ls = length w /\
    Forall (fun l => 1 <= l <= 17) ls /\ kraft 17 ls = 2 ^ 17.
Proof.
  intros H Hn.
  destruct (@compute_lis_lengths w 17 H) as (cs & E & L & D & B & W & _); try lia.
  { apply level_size_enough; auto. }
  eexists; split; [exact E|]. rewrite map_length, seq_length. split; [auto|].
  pose proof (kraft_sum D B) as K. rewrite L, W in K.
  assert (kraft 17 (map (fun i => cnt i cs) (seq 0 (length w))) = 2 ^ 17) as K1.
  { replace (length w * 2 ^ 17) with (2 ^ 17 + (length w - 1) * 2 ^ 17) in K.
    - exact (proj1 (Nat.add_cancel_r _ _ _) K).
    - destruct (length w) as [|m]; [lia|]. cbn [Nat.sub]. rewrite Nat.sub_0_r. 
      rewrite (Nat.mul_succ_l m). apply Nat.add_comm. }
  split; auto.
  apply Forall_forall; intros l Hl. split.
  2:{ apply in_map_iff in Hl as (i & <- & _). rewrite <- L. apply cnt_le. }
  destruct l as [|l]; [exfalso|lia].
  (* a zero length would exhaust the Kraft sum on its own *)
  apply in_split in Hl as (l1 & l2 & Hl).
  assert (length (l1 ++ l2) >= 1) as Hlen.
  { assert (length (map (fun i => cnt i cs) (seq 0 (length w))) = length w)
      by (rewrite map_length, seq_length; auto).
    rewrite Hl, app_length in H0. rewrite app_length. simpl in H0. lia. }
  rewrite Hl in K1. unfold kraft in K1. rewrite map_app, list_sum_app in K1.
  cbn [map] in K1. change (list_sum (?x :: ?l)) with (x + list_sum l) in K1.
  rewrite Nat.sub_0_r in K1.
  assert (exists x, In x (l1 ++ l2)) as (x & Hx).
  { destruct (l1 ++ l2) as [|x t]; [simpl in Hlen; lia|]. exists x; left; auto. }
  pose proof (kraft_ge 17 _ _ Hx) as G. unfold kraft in G. rewrite map_app, list_sum_app in G.
  assert (2 ^ (17 - x) <> 0) by (apply Nat.pow_nonzero; discriminate).
  remember (2 ^ 17) as big. remember (2 ^ (17 - x)) as y. clear - K1 G H0. lia.
Qed.

(** ** optimality *)
Definition sumN (l : list N) : N := fold_right N.add 0%N l.
Lemma sumN_app a b : sumN (a ++ b) = (sumN a + sumN b)%N.
Proof. unfold sumN; induction a; simpl; lia. Qed.
Lemma sumN_perm a b : Permutation a b -> sumN a = sumN b.
Proof. unfold sumN; induction 1; simpl; lia. Qed.

(** the [k] smallest elements have the least sum *)
Lemma min_sum L : StronglySorted N.le L -> forall k M R, Permutation L (M ++ R) -> k <= length M ->
  (sumN (firstn k L) <= sumN M)%N.
Proof.
  induction 1 as [|x L H IH HF]; intros k M R P Hk.
  - apply Permutation_nil in P. apply app_eq_nil in P as (-> & ->). simpl in Hk.
    destruct k; [simpl; lia|lia].
  - destruct k as [|k]; [simpl; lia|].
    assert (In x (M ++ R)) as Hin by (eapply Permutation_in; [exact P|left; auto]).
    apply in_app_or in Hin as [Hin|Hin].
    + apply in_split in Hin as (M1 & M2 & ->).
      rewrite <- app_assoc in P. cbn [app] in P.
      apply Permutation_cons_app_inv in P. rewrite app_assoc in P.
      apply (IH k) in P; [|rewrite app_length in *; simpl in Hk; lia].
      rewrite sumN_app in *. cbn [firstn]. unfold sumN in *; simpl; lia.
    + destruct M as [|y M]; [simpl in Hk; lia|].
      apply in_split in Hin as (R1 & R2 & ->).
      assert (x <= y)%N as Hxy.
      { assert (In y (x :: L)) as [->|Hy] by (eapply Permutation_in; [symmetry; exact P|left; auto]);
          [lia|]. rewrite Forall_forall in HF; auto. }
      rewrite app_assoc in P. apply Permutation_cons_app_inv in P.
      assert (Permutation L (M ++ y :: R1 ++ R2)) as P2.
      { rewrite P. rewrite <- app_assoc. cbn [app]. apply Permutation_middle. }
      apply (IH k) in P2; [|simpl in Hk; lia].
      cbn [firstn]. unfold sumN in *; simpl; lia.
Qed.

Lemma ssorted_values l : ssorted entry_leb l -> StronglySorted N.le (map entry_value l).
Proof.
  unfold ssorted; induction 1 as [|x l H IH HF]; cbn [map]; constructor; auto.
  apply Forall_forall; intros y Hy. apply in_map_iff in Hy as (z & <- & Hz).
  rewrite Forall_forall in HF. apply HF in Hz. apply N.leb_le; auto.
Qed.

Lemma package_pairs_sum l d : d <= length l / 2 ->
  sumN (map entry_value (firstn d (package_pairs l))) = sumN (map entry_value (firstn (2 * d) l)).
Proof.
  revert l; induction d as [|d IH]; intros l Hd; [reflexivity|].
  destruct l as [|a [|b l]].
  - change (S d <= 0) in Hd; lia.
  - change (S d <= 0) in Hd; lia.
  - cbn [length] in Hd. replace (S (S (length l))) with (length l + 1 * 2) in Hd by lia.
    rewrite Nat.div_add in Hd by lia.
    replace (2 * S d) with (S (S (2 * d))) by lia.
    cbn [package_pairs firstn map entry_value]. specialize (IH l ltac:(lia)).
    unfold sumN in *; cbn [fold_right]. rewrite IH. lia.
Qed.

(** a competing choice of coins: one sub-collection of the weights per level *)
Definition sub_collection (w t : list N) : Prop := exists r, Permutation w (t ++ r).

Lemma levels_optimal w m e ts k : strictly_increasing w ->
  length ts = m -> Forall (sub_collection w) ts ->
  k * 2 ^ m <= 2 * width (map (@length N) ts) ->
  k <= level_size (length w) m /\
  (sumN (map entry_value (firstn k (levels w m e))) <= sumN (map sumN ts))%N.
Proof.
  intros Hw; revert e ts k; induction m as [|m IH]; intros e ts k Hl Hts Hk.
  - destruct ts; [|discriminate]. simpl in Hk. assert (k = 0) as -> by lia.
    simpl. split; lia.
  - destruct ts as [|t ts]; [discriminate|]. inversion Hl as [Hl']. 
    inversion Hts as [|? ? (r & Hr) Hts']; subst.
    cbn [map width] in Hk. rewrite map_length in Hk.
    set (d := k - length t).
    destruct (IH (S e) ts (2 * d)) as (H1 & H2); auto.
    { unfold d. cbn [Nat.pow] in Hk. 
      destruct (le_lt_dec k (length t)) as [Hle|Hle].
      - replace (2 * (k - length t)) with 0 by lia. lia.
      - assert (k = length t + (k - length t)) as Heq by lia. rewrite Heq in Hk. nia. }
    assert (length w = length t + length r) as Hlen
      by (rewrite (Permutation_length Hr), app_length; auto).
    assert (d <= level_size (length w) (length ts) / 2) as Hd
      by (apply Nat.div_le_lower_bound; lia).
    split; [cbn [level_size]; lia|].
    cbn [levels]. rewrite <- firstn_map.
    etransitivity.
    + apply min_sum with (k := k) (R := r ++ map entry_value (skipn d (package_pairs (levels w (length ts) (S e)))))
        (M := t ++ map entry_value (firstn d (package_pairs (levels w (length ts) (S e))))).
      * apply ssorted_values, merge_sorted.
        -- exact entry_leb_trans.
        -- exact entry_leb_total.
        -- apply level_coins_sorted; auto.
        -- apply package_pairs_sorted, levels_sorted; auto.
      * rewrite (Permutation_map entry_value (merge_perm entry_leb _ _)), map_app.
        unfold level_coins. rewrite map_map. cbn [entry_value]. rewrite map_id.
        set (P := package_pairs _).
        rewrite <- (firstn_skipn d P) at 1. rewrite map_app, Hr.
        rewrite <- !app_assoc. apply Permutation_app_head. 
        rewrite !app_assoc. apply Permutation_app_tail, Permutation_app_comm.
      * rewrite app_length, map_length, firstn_length, package_pairs_length, levels_length. lia.
    + rewrite sumN_app. rewrite package_pairs_sum by (rewrite levels_length; auto).
      cbn [map]. change (sumN (sumN t :: map sumN ts)) with (sumN t + sumN (map sumN ts))%N. lia.
Qed.

(** values of packages are the sums of their coins *)
Fixpoint wf_entry (x : coin_entry) : Prop :=
  match x with
  | One v c => v = coin_value c
  | Two v a b => v = (entry_value a + entry_value b)%N /\ wf_entry a /\ wf_entry b
  end.

Lemma wf_entry_value x : wf_entry x -> entry_value x = sumN (map coin_value (flatten_entry x)).
Proof.
  induction x as [v c|v a IHa b IHb]; simpl; [intros ->; unfold sumN; simpl; lia|].
  intros (-> & Ha & Hb). rewrite map_app, sumN_app, IHa, IHb; auto.
Qed.

Lemma levels_wf w m e : Forall wf_entry (levels w m e).
Proof.
  revert e; induction m as [|m IH]; intros e; [constructor|].
  cbn [levels]. apply Forall_forall; intros x Hx.
  apply Permutation_in with (1 := merge_perm entry_leb _ _) in Hx.
  apply in_app_or in Hx as [Hx|Hx].
  - apply in_map_iff in Hx as (v & <- & _). reflexivity.
  - apply In_nth_error in Hx as (j & Hj). apply package_pairs_nth in Hj as (a & b & Ha & Hb & ->).
    specialize (IH (S e)). rewrite Forall_forall in IH.
    simpl; repeat split; eapply IH, nth_error_In; eauto.
Qed.

Lemma wf_sum l : Forall wf_entry l ->
  sumN (map entry_value l) = sumN (map coin_value (flat_map flatten_entry l)).
Proof.
  induction 1 as [|x l Hx H IH]; [reflexivity|].
  cbn [flat_map map]. rewrite map_app, sumN_app, <- IH, <- wf_entry_value; auto.
Qed.

(** total cost of a length assignment *)
Definition cost (w : list N) (ls : list nat) : N :=
  sumN (map (fun x => (fst x * N.of_nat (snd x))%N) (combine w ls)).

Lemma cost_selection w e cs :
  sumN (map coin_value (level_selection w e cs))
  = cost w (map (fun i => cnt i cs) (seq 0 (length w))).
Proof.
  revert e; induction cs as [|c cs IH]; intros e.
  - cbn [level_selection map]. unfold cost, cnt; cbn [filter length].
    generalize 0 at 2. induction w as [|x w IHw]; intros s; [reflexivity|].
    cbn [length seq map combine fst snd]. unfold sumN in *; cbn [fold_right].
    rewrite <- IHw. simpl; lia.
  - cbn [level_selection]. rewrite map_app, sumN_app, IH. clear IH.
    unfold cost.
    assert (forall s w, sumN (map coin_value (firstn (c - s) (map (fun v => mk_coin v e) w)))
       + sumN (map (fun x => fst x * N.of_nat (snd x)) (combine w (map (fun i => cnt i cs) (seq s (length w)))))
       = sumN (map (fun x => fst x * N.of_nat (snd x)) (combine w (map (fun i => cnt i (c :: cs)) (seq s (length w))))))%N
      as G.
    { clear. intros s w; revert s; induction w as [|x w IH]; intros s.
      - destruct (c - s); reflexivity.
      - cbn [length seq map combine fst snd]. unfold sumN in *; cbn [fold_right].
        rewrite <- (IH (S s)). unfold cnt; cbn [filter].
        destruct (Nat.ltb_spec s c) as [Hs|Hs].
        + replace (c - s) with (S (c - S s)) by lia.
          cbn [firstn map fold_right coin_value length].
          rewrite Nat2N.inj_succ. lia.
        + replace (c - s) with 0 by lia. replace (c - S s) with 0 by lia.
          cbn [firstn map fold_right]. lia. }
    specialize (G 0 w). rewrite Nat.sub_0_r in G. exact G.
Qed.

(** the competitor: level [e] takes the weights whose length is at least [e] *)
Definition takes (w : list N) (ls : list nat) (e : nat) : list N :=
  map fst (filter (fun x => e <=? snd x) (combine w ls)).

Lemma takes_sub w ls e : length ls = length w -> sub_collection w (takes w ls e).
Proof.
  intros H. exists (map fst (filter (fun x => negb (e <=? snd x)) (combine w ls))).
  unfold takes. rewrite <- map_app.
  assert (forall (f : N * nat -> bool) l, Permutation l (filter f l ++ filter (fun x => negb (f x)) l)) as G.
  { clear; induction l as [|x l IH]; simpl; auto. destruct (f x); simpl.
    - constructor; auto.
    - rewrite IH at 1. apply Permutation_middle. }
  rewrite <- (G (fun x => e <=? snd x)).
  assert (map fst (combine w ls) = w) as ->; [|auto].
  revert ls H; induction w as [|x w IH]; intros [|l ls] H; try discriminate; auto.
  cbn [combine map fst]. rewrite IH; auto.
Qed.

Lemma takes_cons x w l ls e :
  takes (x :: w) (l :: ls) e = if e <=? l then x :: takes w ls e else takes w ls e.
Proof. unfold takes; cbn [combine filter snd]. destruct (e <=? l); reflexivity. Qed.

Lemma takes_cost w ls m : length ls = length w -> Forall (fun l => l <= m) ls ->
  sumN (map sumN (map (takes w ls) (seq 1 m))) = cost w ls.
Proof.
  intros Hlen Hm; revert w Hlen; induction Hm as [|l ls Hl Hm IH]; intros [|x w] Hlen; try discriminate.
  - unfold takes, cost; cbn [combine filter map].
    induction (seq 1 m) as [|e es IHe]; [reflexivity|]. exact IHe.
  - unfold cost in *; cbn [combine map fst snd]. 
    change (sumN (?a :: ?b)) with (a + sumN b)%N.
    rewrite <- IH by (simpl in Hlen; lia). clear IH.
    assert (forall s k, sumN (map sumN (map (takes (x :: w) (l :: ls)) (seq s k)))
      = x * N.of_nat (Nat.min k (S l - s)) + sumN (map sumN (map (takes w ls) (seq s k))))%N as G.
    { clear. intros s k; revert s; induction k as [|k IH]; intros s; [simpl; lia|].
      cbn [seq map]. change (sumN (?a :: ?b)) with (a + sumN b)%N. rewrite IH, takes_cons.
      destruct (Nat.leb_spec s l) as [H|H].
      - change (sumN (x :: takes w ls s)) with (x + sumN (takes w ls s))%N.
        replace (Nat.min (S k) (S l - s)) with (S (Nat.min k (S l - S s))) by lia.
        rewrite Nat2N.inj_succ. lia.
      - replace (Nat.min (S k) (S l - s)) with 0 by lia.
        replace (Nat.min k (S l - S s)) with 0 by lia. lia. }
    rewrite G. replace (Nat.min m (S l - 1)) with l by lia. lia.
Qed.

Lemma takes_width w ls m : length ls = length w -> Forall (fun l => l <= m) ls ->
  width (map (@length N) (map (takes w ls) (seq 1 m))) + kraft m ls = length w * 2 ^ m.
Proof.
  intros Hlen Hm; revert w Hlen; induction Hm as [|l ls Hl Hm IH]; intros [|x w] Hlen; try discriminate.
  - unfold takes, kraft; cbn [combine filter map length].
    change (list_sum []) with 0. 
    induction (seq 1 m) as [|e es IHe]; [reflexivity|]. cbn [map width length]. simpl in *. lia.
  - assert (forall s k, s + k = S m ->
      width (map (@length N) (map (takes (x :: w) (l :: ls)) (seq s k))) + 2 ^ (Nat.min k (m - l))
      = 2 ^ k + width (map (@length N) (map (takes w ls) (seq s k)))) as G.
    { clear - Hl. intros s k; revert s; induction k as [|k IH]; intros s Hs; [simpl; lia|].
      cbn [seq map width]. rewrite !map_length, !seq_length, takes_cons.
      specialize (IH (S s) ltac:(lia)). cbn [Nat.pow].
      destruct (Nat.leb_spec s l) as [H|H].
      - cbn [length]. replace (Nat.min (S k) (m - l)) with (Nat.min k (m - l)) by lia. lia.
      - replace (Nat.min (S k) (m - l)) with (S k) by lia.
        replace (Nat.min k (m - l)) with k in IH by lia. cbn [Nat.pow]. lia. }
    specialize (G 1 m eq_refl). replace (Nat.min m (m - l)) with (m - l) in G by lia.
    specialize (IH w ltac:(simpl in Hlen; lia)).
    unfold kraft in *; cbn [map length]. change (list_sum (?x :: ?l)) with (x + list_sum l). lia.
Qed.

Theorem compute_lis_optimal w ls ls' : strictly_increasing w -> 2 <= length w <= 258 ->
  compute_lis w 17 = Ok ls ->
  length ls' = length w -> Forall (fun l => l <= 17) ls' -> kraft 17 ls' <= 2 ^ 17 ->
  (cost w ls <= cost w ls')%N.
Proof.
  intros H Hn E Hlen Hle Hk.
  destruct (@compute_lis_lengths w 17 H) as (cs & E' & L & D & B & W & P); try lia.
  { apply level_size_enough; auto. }
  rewrite E in E'; inversion E'; subst ls. clear E E'.
  rewrite <- (@cost_selection w 1 cs).
  rewrite <- (sumN_perm (Permutation_map coin_value P)).
  rewrite <- wf_sum.
  2:{ apply Forall_forall; intros x Hx. pose proof (levels_wf w 17 1) as F.
      rewrite Forall_forall in F. apply F. 
      rewrite <- (firstn_skipn (2 * (length w - 1)) (levels w 17 1)). apply in_or_app; auto. }
  rewrite <- (@takes_cost w ls' 17) by auto.
  apply levels_optimal; auto.
  - rewrite Forall_forall; intros t Ht. apply in_map_iff in Ht as (e & <- & _).
    apply takes_sub; auto.
  - pose proof (@takes_width w ls' 17 Hlen Hle) as G.
    remember (2 ^ 17) as big eqn:Eb. clear Eb.
    remember (width (map (@length N) (map (takes w ls') (seq 1 17)))) as W'.
    clear - G Hk Hn. destruct (length w) as [|n]; [lia|]. 
    replace (S n - 1) with n by lia. nia.
Qed.

(** * The block sort loses no information: equal columns and pointers mean equal blocks *)
From Verif Require Import Base BaseFacts SpecBwt SpecBzip2 LexFacts Sais SaisBase SaisSort SaisFacts Bwt BwtFacts UnsortFacts.

(** ** walking along a list of (next row, letter) pairs *)
Section Walk.
  Variable L : list (nat * nat).
  Definition nxt k := fst (nth k L (0, 0)).
  Definition ltr k := snd (nth k L (0, 0)).
  Fixpoint walk m k := match m with O => k | S m' => walk m' (nxt k) end.
  Fixpoint word m k := match m with O => [] | S m' => ltr k :: word m' (nxt k) end.
  Lemma word_length m k : length (word m k) = m.
  Proof. revert k; induction m; intros k; cbn [word length]; auto. Qed.
  Lemma word_add a b k : word (a + b) k = word a k ++ word b (walk a k).
  Proof. revert k; induction a as [|a IH]; intros k; [reflexivity|]. cbn [Nat.add word walk app]. rewrite IH; auto. Qed.
  Lemma walk_add a b k : walk (a + b) k = walk b (walk a k).
  Proof. revert k; induction a as [|a IH]; intros k; [reflexivity|]. cbn [Nat.add walk]. apply IH. Qed.
  Lemma word_firstn a b k : a <= b -> firstn a (word b k) = word a k.
  Proof.
    intros H. replace b with (a + (b - a)) by lia. rewrite word_add, firstn_app, word_length, Nat.sub_diag.
    cbn [firstn]. rewrite app_nil_r. rewrite <- (word_length a k) at 1. apply firstn_all.
  Qed.
End Walk.

Lemma path_word col m : forall k, path col m k = word (links col) m k.
Proof. induction m as [|m IH]; intros k; [reflexivity|]. cbn [path word]. rewrite IH. reflexivity. Qed.

Lemma words_sorted col m a b : a <= b < length col -> lexle (word (links col) m a) (word (links col) m b).
Proof.
  intros H. destruct (Nat.eq_dec a b) as [->|N]; [left; auto|].
  pose proof (@ssorted_nth_gen _ _ _ (path col m 0) a b (proj2 (rebuild_paths col m))) as G.
  rewrite map_length, seq_length in G. rewrite !map_nth, !seq_nth in G by lia. rewrite !path_word in G. apply G. lia.
Qed.

Lemma nxt_bound col k : k < length col -> nxt (links col) k < length col.
Proof. intros H. apply links_bound. apply nth_In. rewrite links_length; auto. Qed.
Lemma walk_bound col m : forall k, k < length col -> walk (links col) m k < length col.
Proof. induction m as [|m IH]; intros k H; cbn [walk]; auto. apply IH, nxt_bound; auto. Qed.
Lemma nxt_inj col a b : a < length col -> b < length col -> nxt (links col) a = nxt (links col) b -> a = b.
Proof.
  intros Ha Hb E. assert (NoDup (map fst (links col))) as ND.
  { eapply Permutation_NoDup; [apply Permutation_map, links_perm|]. unfold enumerate. rewrite enumerate_from_fst. apply seq_NoDup. }
  apply (proj1 (NoDup_nth (map fst (links col)) 0) ND); rewrite ?map_length, ?links_length; auto.
  change 0 with (fst (0, 0)). rewrite !map_nth. exact E.
Qed.
Lemma walk_inj col m : forall a b, a < length col -> b < length col -> walk (links col) m a = walk (links col) m b -> a = b.
Proof.
  induction m as [|m IH]; intros a b Ha Hb E; cbn [walk] in E; auto.
  apply (@nxt_inj col); auto. apply IH; auto using nxt_bound.
Qed.
Lemma nxt_surj col k : k < length col -> exists f, f < length col /\ nxt (links col) f = k.
Proof.
  intros H. assert (In k (map fst (links col))) as HI.
  { eapply Permutation_in; [apply Permutation_map, links_perm|]. unfold enumerate. rewrite enumerate_from_fst. apply in_seq; lia. }
  apply (In_nth _ _ 0) in HI as (f & Hf & E). rewrite map_length, links_length in Hf. exists f. split; auto.
  change 0 with (fst (0, 0)) in E. rewrite map_nth in E. exact E.
Qed.

(** ** sorted lists of pairs *)
Definition lt_g (g : nat -> nat) (x y : nat * nat) : Prop := snd x < snd y \/ (snd x = snd y /\ g (fst x) < g (fst y)).
Definition ltb_g (g : nat -> nat) (x y : nat * nat) : bool := (snd x <? snd y) || ((snd x =? snd y) && (g (fst x) <? g (fst y))).
Lemma ltb_g_iff g x y : ltb_g g x y = true <-> lt_g g x y.
Proof.
  unfold ltb_g, lt_g. rewrite orb_true_iff, andb_true_iff, !Nat.ltb_lt, Nat.eqb_eq. tauto.
Qed.
Lemma filter_all {A} (f : A -> bool) l : (forall x, In x l -> f x = true) -> filter f l = l.
Proof. induction l as [|x l IH]; intros H; cbn [filter]; auto. rewrite H by (left; auto). rewrite IH; auto. intros; apply H; right; auto. Qed.
Lemma filter_none {A} (f : A -> bool) l : (forall x, In x l -> f x = false) -> filter f l = [].
Proof. induction l as [|x l IH]; intros H; cbn [filter]; auto. rewrite H by (left; auto). apply IH. intros; apply H; right; auto. Qed.
Lemma filter_perm {A} (f : A -> bool) l l' : Permutation l l' -> length (filter f l) = length (filter f l').
Proof.
  induction 1 as [|x l l' _ IH|x y l|l l' l'' _ IH1 _ IH2]; cbn [filter]; auto; try congruence.
  - destruct (f x); cbn [length]; auto.
  - destruct (f x), (f y); reflexivity.
Qed.

Lemma nth_skipn {A} (l : list A) d a : forall b, nth b (skipn a l) d = nth (a + b) l d.
Proof. revert l; induction a as [|a IH]; intros l b; [reflexivity|]. destruct l as [|x l]; [destruct b; reflexivity|]. apply IH. Qed.

(** the index of an element of a sorted list is the number of smaller elements *)
Lemma sorted_index g l k : StronglySorted (lt_g g) l -> k < length l ->
  length (filter (fun x => ltb_g g x (nth k l (0, 0))) l) = k.
Proof.
  intros HS Hk. remember (nth k l (0, 0)) as e eqn:Ee. rewrite <- (firstn_skipn k l) at 1. rewrite filter_app, app_length. subst e.
  assert (forall a b, a < b < length l -> lt_g g (nth a l (0, 0)) (nth b l (0, 0))) as HN.
  { intros a b H. apply ssorted_nth_gen; auto. }
  rewrite filter_all, filter_none.
  - rewrite firstn_length. cbn [length]. lia.
  - intros x Hx. apply (In_nth _ _ (0, 0)) in Hx as (j & Hj & <-). rewrite skipn_length in Hj. rewrite nth_skipn.
    destruct (ltb_g g _ _) eqn:E; auto. exfalso. apply ltb_g_iff in E. destruct j as [|j].
    + rewrite Nat.add_0_r in E. unfold lt_g in E. lia.
    + specialize (HN k (k + S j) ltac:(lia)). unfold lt_g in E, HN. lia.
  - intros x Hx. apply (In_nth _ _ (0, 0)) in Hx as (j & Hj & <-). rewrite firstn_length in Hj.
    rewrite nth_firstn_lt by lia. apply ltb_g_iff, HN. lia.
Qed.
Lemma filter_le {A} (f h : A -> bool) l : (forall x, f x = true -> h x = true) -> length (filter f l) <= length (filter h l).
Proof.
  intros H. induction l as [|x l IH]; cbn [filter]; auto. destruct (f x) eqn:E.
  - rewrite (H _ E). cbn [length]. lia.
  - destruct (h x); cbn [length]; lia.
Qed.
Lemma lt_g_unique g l l' :
  StronglySorted (lt_g g) l -> StronglySorted (lt_g g) l' -> Permutation l l' -> l = l'.
Proof.
  intros H1 H2 P. eapply sorted_perm_unique; [|exact H1|exact H2|exact P]. intros a b X Y. exfalso. unfold lt_g in *. lia.
Qed.

Lemma nth_ssorted {A} (R : A -> A -> Prop) (l : list A) d :
  (forall a b, a < b < length l -> R (nth a l d) (nth b l d)) -> StronglySorted R l.
Proof.
  induction l as [|x l IH]; intros H; constructor.
  - apply IH. intros a b Hab. apply (H (S a) (S b)). cbn [length]; lia.
  - apply Forall_forall. intros y Hy. apply (In_nth _ _ d) in Hy as (k & Hk & <-).
    apply (H 0 (S k)). cbn [length]; lia.
Qed.

Lemma lexlt_cons_inv x y a b : lexlt (x :: a) (y :: b) -> x < y \/ (x = y /\ lexlt a b).
Proof. intros H. inversion H; subst; auto. Qed.
Fixpoint idx (x : nat) (l : list nat) : nat :=
  match l with [] => 0 | y :: t => if x =? y then 0 else S (idx x t) end.
Lemma idx_in x l : In x l -> idx x l < length l /\ nth (idx x l) l 0 = x.
Proof.
  induction l as [|y t IH]; intros H; [destruct H|]. cbn [idx length]. destruct (Nat.eqb_spec x y) as [->|N]; [split; [lia|auto]|].
  destruct H as [->|H]; [congruence|]. destruct (IH H). cbn [nth]. split; [lia|auto].
Qed.
Lemma idx_nth l k : NoDup l -> k < length l -> idx (nth k l 0) l = k.
Proof.
  intros ND H. destruct (@idx_in (nth k l 0) l) as (A & B); [apply nth_In; auto|].
  apply (proj1 (NoDup_nth l 0) ND); auto.
Qed.

(** ** the rows of one word *)
Section Word.
  Variable w rows : list nat.
  Notation n := (length w).
  Hypothesis n_pos : 0 < n.
  Hypothesis HL : length rows = n.
  Hypothesis HN : NoDup rows.
  Hypothesis HI : forall x, In x rows <-> x < n.
  Hypothesis HO : forall a b, a < b < n -> lexlt (suffix w (nth a rows 0)) (suffix w (nth b rows 0)).

  Definition row i := idx i rows.
  Definition col := map (fun x => nth (prev_index n x) w 0) rows.
  Definition next_index p := if S p =? n then 0 else S p.
  Definition Q := map (fun p => (row (next_index p), nth p w 0)) rows.
  Definition gr r k := if k =? r then 0 else S k.

  Lemma col_length : length col = n.
  Proof. unfold col. rewrite map_length; auto. Qed.
  Lemma row_lt i : i < n -> row i < n.
  Proof. intros H. rewrite <- HL. apply idx_in, HI; auto. Qed.
  Lemma row_nth i : i < n -> nth (row i) rows 0 = i.
  Proof. intros H. apply idx_in, HI; auto. Qed.
  Lemma row_of_nth k : k < n -> row (nth k rows 0) = k.
  Proof. intros H. apply idx_nth; auto. lia. Qed.
  Lemma row_inj i j : i < n -> j < n -> row i = row j -> i = j.
  Proof. intros Hi Hj E. rewrite <- (row_nth Hi), <- (row_nth Hj), E. auto. Qed.
  Lemma row_order i j : i < n -> j < n -> lexlt (skipn i w) (skipn j w) -> row i < row j.
  Proof.
    intros Hi Hj H. destruct (Nat.lt_trichotomy (row i) (row j)) as [G|[G|G]]; auto; exfalso.
    - apply row_inj in G; auto. subst. eapply lexlt_irrefl; eauto.
    - pose proof (HO (conj G (row_lt Hi))) as X. rewrite !row_nth in X by auto. eapply lexlt_asym; [exact H|exact X].
  Qed.

  Lemma nxt_prev p : p < n -> prev_index n (next_index p) = p /\ next_index p < n.
  Proof. intros H. unfold prev_index, next_index. destruct (Nat.eqb_spec (S p) n); cbn [Nat.ltb Nat.leb]; lia. Qed.
  Lemma prev_nxt p : p < n -> next_index (prev_index n p) = p /\ prev_index n p < n.
  Proof.
    intros H. unfold prev_index, next_index. destruct (Nat.ltb_spec 0 p).
    - replace (S (p - 1)) with p by lia. destruct (Nat.eqb_spec p n); lia.
    - replace (S (n - 1)) with n by lia. rewrite Nat.eqb_refl. lia.
  Qed.

  Lemma Q_length : length Q = n.
  Proof. unfold Q. rewrite map_length; auto. Qed.
  Lemma Q_nth k : k < n -> nth k Q (0, 0) = (row (next_index (nth k rows 0)), nth (nth k rows 0) w 0).
  Proof.
    intros H. apply nth_of_error. unfold Q. rewrite nth_error_map, (nth_error_nth' rows 0) by lia. reflexivity.
  Qed.
  Lemma Q_row i : i < n -> nth (row i) Q (0, 0) = (row (next_index i), nth i w 0).
  Proof. intros H. rewrite Q_nth by (apply row_lt; auto). rewrite row_nth by auto. reflexivity. Qed.

  Lemma Q_perm : Permutation Q (enumerate col).
  Proof.
    assert (enumerate col = map (fun p => (row p, nth (prev_index n p) w 0)) rows) as ->.
    { apply nth_error_ext. intros k. rewrite enumerate_nth. unfold col. rewrite !nth_error_map.
      destruct (nth_error rows k) as [p|] eqn:E; [|reflexivity]. cbn [option_map]. f_equal. f_equal.
      pose proof (nth_error_lt _ _ E) as H. rewrite <- (nth_of_error _ _ 0 E). symmetry. apply row_of_nth. lia. }
    assert (Permutation (map next_index rows) rows) as P.
    { pose proof (@prev_perm w rows n_pos HL HN HI) as P. apply (Permutation_map next_index) in P. rewrite map_map in P.
      rewrite (map_ext_in _ (fun x => x)) in P; [|intros x Hx; apply prev_nxt, HI; auto]. rewrite map_id in P. symmetry. exact P. }
    apply (Permutation_map (fun p => (row p, nth (prev_index n p) w 0))) in P. rewrite map_map in P.
    rewrite (map_ext_in _ (fun p => (row (next_index p), nth p w 0))) in P; [exact P|].
    intros x Hx. destruct (nxt_prev (p := x)) as (-> & _); [apply HI; auto|]. reflexivity.
  Qed.

  Lemma skipn_S i : i < n -> skipn i w = nth i w 0 :: skipn (S i) w.
  Proof. intros H. pose proof (@suffix_cons w i H) as X. unfold suffix, ch in X. rewrite Nat.add_1_r in X. auto. Qed.

  Lemma Q_sorted : StronglySorted (lt_g (gr (row 0))) Q.
  Proof.
    apply nth_ssorted with (d := (0, 0)). rewrite Q_length. intros a b Hab. rewrite !Q_nth by lia.
    pose proof (HO Hab) as H. unfold suffix in H.
    assert (nth a rows 0 < n) as Ha by (apply HI, nth_In; lia). assert (nth b rows 0 < n) as Hb by (apply HI, nth_In; lia).
    set (i := nth a rows 0) in *. set (j := nth b rows 0) in *. clearbody i j.
    rewrite (skipn_S Ha), (skipn_S Hb) in H. unfold lt_g. cbn [fst snd].
    apply lexlt_cons_inv in H as [H|(Ex & Hst)]; [left; auto|]. right. split; [auto|].
    unfold next_index. destruct (Nat.eqb_spec (S j) n) as [Ej|Nj].
    { exfalso. rewrite Ej, skipn_all in Hst. inversion Hst. }
    assert (row (S j) <> row 0) as Rj by (intros E; apply row_inj in E; lia).
    unfold gr. rewrite (proj2 (Nat.eqb_neq _ _) Rj).
    destruct (Nat.eqb_spec (S i) n) as [Ei|Ni]; [rewrite Nat.eqb_refl; lia|].
    assert (row (S i) <> row 0) as Ri by (intros E; apply row_inj in E; lia).
    rewrite (proj2 (Nat.eqb_neq _ _) Ri). apply row_order in Hst; lia.
  Qed.

  (** the word is read off its own order *)
  Lemma Q_word m : forall i, i + m <= n -> i < n -> word Q m (row i) = firstn m (skipn i w).
  Proof.
    induction m as [|m IH]; intros i Hm Hi; [reflexivity|]. cbn [word]. unfold ltr, nxt. rewrite Q_row by auto. cbn [fst snd].
    rewrite (skipn_S Hi). cbn [firstn]. f_equal. destruct m as [|m]; [reflexivity|].
    unfold next_index. destruct (Nat.eqb_spec (S i) n); [lia|]. apply IH; lia.
  Qed.

  Lemma Q_walk m : forall i, i + m < n -> walk Q m (row i) = row (i + m).
  Proof.
    induction m as [|m IH]; intros i Hm; [rewrite Nat.add_0_r; reflexivity|]. cbn [walk]. unfold nxt. rewrite Q_row by lia. cbn [fst].
    unfold next_index. destruct (Nat.eqb_spec (S i) n); [lia|]. rewrite IH by lia. f_equal. lia.
  Qed.
  Lemma Q_around : walk Q n (row 0) = row 0.
  Proof.
    replace (walk Q n (row 0)) with (walk Q ((n - 1) + 1) (row 0)) by (f_equal; lia). rewrite walk_add, Q_walk by lia.
    cbn [walk Nat.add]. unfold nxt. rewrite Q_row by lia. cbn [fst]. unfold next_index. replace (S (n - 1)) with n by lia.
    rewrite Nat.eqb_refl. reflexivity.
  Qed.

  Lemma links_sorted : StronglySorted (lt_g (fun x => x)) (links col).
  Proof. exact (sort_stable 0 col). Qed.
  Lemma links_Q : Permutation (links col) Q.
  Proof. symmetry. rewrite Q_perm. apply links_perm. Qed.
  Lemma letters : map snd (links col) = map snd Q.
  Proof.
    apply sorted_perm_unique with (R := le); [lia| | |apply Permutation_map, links_Q].
    - pose proof links_sorted as S. induction S as [|x l S IH HF]; cbn [map]; constructor; auto.
      rewrite Forall_map. eapply Forall_impl; [|exact HF]. unfold lt_g. lia.
    - pose proof Q_sorted as S. induction S as [|x l S IH HF]; cbn [map]; constructor; auto.
      rewrite Forall_map. eapply Forall_impl; [|exact HF]. unfold lt_g. lia.
  Qed.
  Lemma ltr_row i : i < n -> ltr (links col) (row i) = nth i w 0.
  Proof.
    intros H. unfold ltr. pose proof (row_lt H) as HR. rewrite <- (map_nth snd), letters, map_nth, Q_row by auto. reflexivity.
  Qed.
  Lemma links_order a b : a < b < n -> lt_g (fun x => x) (nth a (links col) (0, 0)) (nth b (links col) (0, 0)).
  Proof. intros H. apply ssorted_nth_gen; [apply links_sorted|]. rewrite links_length, col_length. auto. Qed.
  (** where the pair of position [i] is in the stable order *)
  Lemma links_find i : i < n -> exists f, f < n /\ nth f (links col) (0, 0) = (row (next_index i), nth i w 0) /\
    f = length (filter (fun x => ltb_g (fun x => x) x (row (next_index i), nth i w 0)) Q) /\
    row i = length (filter (fun x => ltb_g (gr (row 0)) x (row (next_index i), nth i w 0)) Q).
  Proof.
    intros H. assert (In (row (next_index i), nth i w 0) (links col)) as X.
    { apply (Permutation_in _ (Permutation_sym links_Q)). rewrite <- (Q_row H). apply nth_In. rewrite Q_length. apply row_lt; auto. }
    apply (In_nth _ _ (0, 0)) in X as (f & Hf & E). pose proof Hf as Hf'. rewrite links_length, col_length in Hf'.
    exists f. split; auto. split; auto. split.
    - rewrite <- E, <- (filter_perm _ links_Q). symmetry. apply sorted_index; auto. apply links_sorted.
    - rewrite <- (Q_row H). symmetry. apply sorted_index; [apply Q_sorted|]. rewrite Q_length. apply row_lt; auto.
  Qed.

  (** above the row of the whole word both orders agree *)
  Lemma links_above i : i < n -> row 0 < row (next_index i) -> nth (row i) (links col) (0, 0) = (row (next_index i), nth i w 0).
  Proof.
    intros H HR. destruct (links_find H) as (f & Hf & E & Ef & Er). rewrite <- E. f_equal. rewrite Er, Ef. f_equal.
    apply filter_ext. intros x. unfold ltb_g. cbn [fst snd]. f_equal. f_equal. unfold gr.
    destruct (Nat.eqb_spec (row (next_index i)) (row 0)); [lia|].
    destruct (Nat.eqb_spec (fst x) (row 0)) as [->|]; [|reflexivity].
    destruct (Nat.ltb_spec (row 0) (row (next_index i))); [reflexivity|lia].
  Qed.
  (** everywhere the stable order leads no lower *)
  Lemma links_ge i k : S i < n -> row i <= k < n -> nth i w 0 < ltr (links col) k \/
    (nth i w 0 = ltr (links col) k /\ row (S i) <= nxt (links col) k).
  Proof.
    intros H Hk. assert (i < n) as Hi by lia. destruct (links_find Hi) as (f & Hf & E & Ef & Er).
    assert (next_index i = S i) as EN by (unfold next_index; destruct (Nat.eqb_spec (S i) n); lia). rewrite EN in *.
    assert (row (S i) <> row 0) as NR by (intros X; apply row_inj in X; lia).
    assert (f <= row i) as LE.
    { rewrite Er, Ef. apply filter_le. intros x. rewrite !ltb_g_iff. unfold lt_g, gr. cbn [fst snd].
      rewrite (proj2 (Nat.eqb_neq _ _) NR). destruct (Nat.eqb_spec (fst x) (row 0)); lia. }
    unfold ltr, nxt. destruct (Nat.eq_dec f k) as [<-|NE]; [rewrite E; cbn [fst snd]; lia|].
    pose proof (@links_order f k ltac:(lia)) as X. rewrite E in X. unfold lt_g in X. cbn [fst snd] in X. lia.
  Qed.
  Lemma ltr_ge i k : i < n -> row i <= k < n -> nth i w 0 <= ltr (links col) k.
  Proof.
    intros Hi Hk. rewrite <- (ltr_row Hi). unfold ltr. destruct (Nat.eq_dec (row i) k) as [<-|NE]; [lia|].
    pose proof (@links_order (row i) k ltac:(lia)) as X. unfold lt_g in X. lia.
  Qed.
  Lemma suffix_le m : forall i k, i < n -> row i <= k < n -> lexle (firstn m (skipn i w)) (word (links col) m k).
  Proof.
    induction m as [|m IH]; intros i k Hi Hk; [left; reflexivity|]. rewrite (skipn_S Hi). cbn [firstn word].
    pose proof (ltr_ge Hi Hk) as G. destruct (Nat.eq_dec (nth i w 0) (ltr (links col) k)) as [E|E]; [|right; apply lex_head; lia].
    rewrite E. apply lexle_cons. destruct (Nat.eq_dec (S i) n) as [EN|NN].
    - rewrite EN, skipn_all. rewrite firstn_nil. destruct (word (links col) m (nxt (links col) k)); [left; auto|right; constructor].
    - assert (k < length col) as Hc by (rewrite col_length; lia). pose proof (nxt_bound col Hc) as NB. rewrite col_length in NB.
      apply IH; [lia|]. destruct (@links_ge i k) as [X|(_ & X)]; lia.
  Qed.

  (** reading forward through rows above the row of the whole word *)
  Lemma word_above m : forall i, i + m < n -> (forall j, i < j <= i + m -> row 0 < row j) ->
    word (links col) m (row i) = firstn m (skipn i w) /\ walk (links col) m (row i) = row (i + m).
  Proof.
    induction m as [|m IH]; intros i Hm HR; [rewrite Nat.add_0_r; split; reflexivity|]. cbn [word walk].
    assert (i < n) as Hi by lia.
    assert (next_index i = S i) as EN by (unfold next_index; destruct (Nat.eqb_spec (S i) n); lia).
    pose proof (links_above Hi) as A. rewrite EN in A. specialize (A ltac:(apply HR; lia)).
    unfold ltr, nxt. rewrite A. cbn [fst snd]. destruct (IH (S i)) as (I1 & I2); [lia|intros; apply HR; lia|].
    rewrite I1, I2, (skipn_S Hi). cbn [firstn]. split; [reflexivity|]. f_equal. lia.
  Qed.
End Word.

(** ** words that end in their smallest suffix *)
Lemma lexlt_cut a b : lexlt a b -> length b <= length a -> lexlt (firstn (length b) a) b.
Proof.
  induction 1 as [y b|x y a b H|x a b H IH]; cbn [length]; intros HL; [lia| |].
  - apply lex_head; auto.
  - cbn [firstn]. apply lex_tail, IH. lia.
Qed.
Lemma lexlt_app_eq a b s t : lexlt a b -> length a = length b -> lexlt (a ++ s) (b ++ t).
Proof.
  intros H E. destruct (lexlt_prefix_cases H) as [(z & ->)|X]; auto. rewrite app_length in E. destruct z; [|cbn [length] in E; lia].
  rewrite app_nil_r in H. exfalso. eapply lexlt_irrefl; eauto.
Qed.
Lemma lexlt_cut_app a b s t : lexlt a b -> length b <= length a -> lexlt (a ++ s) (b ++ t).
Proof.
  intros H HL. rewrite <- (firstn_skipn (length b) a), <- app_assoc. apply lexlt_app_eq; [apply lexlt_cut; auto|].
  rewrite firstn_length. lia.
Qed.
Lemma lexle_cut k a b : lexle a b -> lexle (firstn k a) (firstn k b).
Proof.
  intros [->|H]; [left; auto|]. revert k. induction H as [y b|x y a b H|x a b H IH]; intros k.
  - rewrite firstn_nil. destruct k; [left; auto|right; constructor].
  - destruct k; [left; auto|]. right. cbn [firstn]. apply lex_head; auto.
  - destruct k; [left; auto|]. cbn [firstn]. apply lexle_cons, IH.
Qed.
Lemma lexlt_cancel x a b : lexlt (x ++ a) (x ++ b) -> lexlt a b.
Proof. induction x as [|y x IH]; cbn [app]; auto. intros H. apply lexlt_cons_inv in H as [H|(_ & H)]; [lia|auto]. Qed.
Lemma lexle_cancel x a b : lexle (x ++ a) (x ++ b) -> lexle a b.
Proof. intros [H|H]; [apply app_inv_head in H; left; auto|right; eapply lexlt_cancel; eauto]. Qed.
Lemma skipn_app_le {A} k (a b : list A) : k <= length a -> skipn k (a ++ b) = skipn k a ++ b.
Proof. intros H. rewrite skipn_app. replace (k - length a) with 0 by lia. reflexivity. Qed.
Lemma firstn_app_ge {A} k (a b : list A) : length a <= k -> firstn k (a ++ b) = a ++ firstn (k - length a) b.
Proof. intros H. rewrite firstn_app, firstn_all2 by auto. reflexivity. Qed.

Section Small.
  Variable v t : list nat.
  Notation d := (length v).
  Hypothesis d_pos : 0 < d.
  Hypothesis HV : forall j, 0 < j < d -> lexlt v (skipn j v).
  Hypothesis HT : forall j, j < length t -> lexlt v (skipn j t ++ v).

  Lemma tail_ge z j : j < length t -> z = skipn j t -> lexle v (firstn d z).
  Proof.
    intros Hj ->. pose proof (HT Hj) as H. set (z := skipn j t) in *.
    assert (0 < length z) as LZ by (unfold z; rewrite skipn_length; lia). clearbody z.
    destruct (Nat.le_gt_cases d (length z)) as [G|G].
    - rewrite <- (firstn_all v) at 1. replace (firstn d z) with (firstn d (z ++ v)); [apply lexle_cut; right; auto|].
      rewrite firstn_app. replace (d - length z) with 0 by lia. cbn [firstn]. apply app_nil_r.
    - rewrite firstn_all2 by lia. rewrite <- (firstn_skipn (length z) v) in H at 1.
      assert (length (firstn (length z) v) = length z) as LF by (rewrite firstn_length; lia).
      destruct (lexlt_total (firstn (length z) v) z) as [L|[E|L]].
      + right. rewrite <- (app_nil_r z), <- (firstn_skipn (length z) v). apply lexlt_app_eq; auto.
      + exfalso. rewrite E in H at 1. apply lexlt_cancel in H. eapply lexlt_asym; [exact H|]. apply HV. lia.
      + exfalso. eapply lexlt_asym; [exact H|]. apply lexlt_app_eq; auto.
  Qed.
  Lemma suffix_ge i : i < d + length t -> lexle v (firstn d (skipn i (v ++ t))).
  Proof.
    intros Hi. destruct (Nat.lt_ge_cases i d) as [G|G].
    - rewrite skipn_app_le by lia. destruct (Nat.eq_dec i 0) as [->|N]; [cbn [skipn]; rewrite firstn_skipn_len; left; auto|].
      pose proof (@HV i ltac:(lia)) as H. rewrite firstn_app_ge by (rewrite skipn_length; lia). right.
      rewrite <- (app_nil_r v) at 1. apply lexlt_cut_app; auto. rewrite skipn_length; lia.
    - rewrite skipn_app, (skipn_all2 v) by lia. cbn [app]. eapply tail_ge; [|reflexivity]. lia.
  Qed.
  Lemma inner_above i : 0 < i < d -> lexlt (v ++ t) (skipn i (v ++ t)).
  Proof.
    intros Hi. rewrite skipn_app_le by lia. apply lexlt_cut_app; [apply HV; auto|]. rewrite skipn_length; lia.
  Qed.
  Lemma tail_power k : forall j, j < length t -> length t - j <= k -> lexlt (skipn j t) (v ++ skipn j t) ->
    exists m, skipn j t = concat (repeat v (S m)).
  Proof.
    induction k as [|k IH]; intros j Hj HK H; [lia|]. destruct (@tail_ge _ j Hj eq_refl) as [E|L].
    - assert (skipn j t = v ++ skipn (d + j) t) as EZ.
      { rewrite <- (firstn_skipn d (skipn j t)), <- E, skipn_add. reflexivity. }
      rewrite EZ in H |- *. clear EZ E. set (z := skipn (d + j) t) in *.
      apply lexlt_cancel in H. destruct (Nat.lt_ge_cases (d + j) (length t)) as [G|G].
      + destruct (IH (d + j) G ltac:(lia) H) as (m & EM). exists (S m). fold z in EM. rewrite EM. reflexivity.
      + assert (z = []) as -> by (apply skipn_all2; lia). exists 0. reflexivity.
    - exfalso. eapply lexlt_asym; [exact H|]. rewrite <- (firstn_skipn d (skipn j t)) at 2.
      apply lexlt_cut_app; auto. rewrite firstn_length. lia.
  Qed.
  (** the rest comes after the whole, unless the word is a power of its smallest suffix *)
  Lemma tail_above : t <> [] -> lexlt (v ++ t) t \/ exists m, t = concat (repeat v (S m)).
  Proof.
    intros NT. destruct (lexlt_total (v ++ t) t) as [H|[E|H]]; auto.
    - exfalso. apply (f_equal (@length nat)) in E. rewrite app_length in E. lia.
    - right. apply (@tail_power (length t) 0); [destruct t; [congruence|cbn [length]; lia]|lia|exact H].
  Qed.
End Small.

(** ** a word whose suffixes sort like its rotations *)
Lemma iter_shift {A} (f : A -> A) m : forall x, Nat.iter (S m) f x = Nat.iter m f (f x).
Proof. induction m as [|m IH]; intros x; [reflexivity|]. change (f (Nat.iter (S m) f x) = f (Nat.iter m f (f x))). rewrite IH. reflexivity. Qed.
Lemma iter_rot_right n b : forall a, length (a ++ b) = n -> Nat.iter (length b) (rot_right n) (a ++ b) = b ++ a.
Proof.
  induction b as [|x b IH] using rev_ind; intros a H; [cbn [length app]; rewrite app_nil_r; reflexivity|].
  rewrite app_length. cbn [length]. rewrite Nat.add_1_r. rewrite iter_shift.
  assert (rot_right n (a ++ b ++ [x]) = (x :: a) ++ b) as ->.
  { rewrite app_assoc. rewrite app_length in H. rewrite app_length in H. cbn [length] in H. unfold rot_right, last_of.
    replace (n - 1) with (length (a ++ b)) by (rewrite app_length; lia).
    rewrite app_nth2, Nat.sub_diag by lia. cbn [nth]. rewrite firstn_skipn_len. reflexivity. }
  rewrite IH; [rewrite <- app_assoc; reflexivity|]. rewrite !app_length in *. cbn [length] in *. lia.
Qed.

Lemma walk_surj col m : forall k, k < length col -> exists f, f < length col /\ walk (links col) m f = k.
Proof.
  induction m as [|m IH]; intros k H; [exists k; auto|]. destruct (IH k H) as (g & Hg & E).
  destruct (nxt_surj col Hg) as (f & Hf & Ef). exists f. split; auto. cbn [walk]. rewrite Ef. auto.
Qed.

Lemma inverse_path col k : k < length col -> inverse_bwt col k = Ok (path col (length col) k).
Proof.
  intros H. apply unsort_inverse. unfold unsort. rewrite (proj1 (rebuild_paths col (length col))).
  rewrite nth_error_map, (nth_error_nth' _ 0), seq_nth by (rewrite ?seq_length; auto). reflexivity.
Qed.

Section Safe.
  Variable w rows : list nat.
  Notation n := (length w).
  Hypothesis n_pos : 0 < n.
  Hypothesis HL : length rows = n.
  Hypothesis HN : NoDup rows.
  Hypothesis HI : forall x, In x rows <-> x < n.
  Hypothesis HO : forall a b, a < b < n -> lexlt (suffix w (nth a rows 0)) (suffix w (nth b rows 0)).
  Hypothesis HS : suffixes_sort_rotations w.
  Notation c := (col w rows).

  Lemma safe_word k : k < n -> word (links c) n k = rotation w (nth k rows 0).
  Proof.
    intros Hk. pose proof (@rows_inverse w rows n_pos HL HN HI HO HS k Hk) as H. change (map _ rows) with c in H.
    assert (length c = n) as LC by (apply col_length; auto).
    rewrite inverse_path in H by lia. injection H as H. rewrite LC, path_word in H. auto.
  Qed.
  Lemma links_at k : k < length c -> nth_error c (nxt (links c) k) = Some (ltr (links c) k).
  Proof.
    intros Hk. assert (In (nth k (links c) (0, 0)) (enumerate c)) as H.
    { apply (Permutation_in _ (Permutation_sym (links_perm c))). apply nth_In. rewrite links_length; auto. }
    unfold nxt, ltr. destruct (nth k (links c) (0, 0)) as [a x]. cbn [fst snd].
    apply In_nth_error in H as (j & H). rewrite enumerate_nth in H. destruct (nth_error c j) as [y|] eqn:E; [|discriminate].
    cbn [option_map] in H. injection H as -> ->. auto.
  Qed.
  Lemma safe_step k : k < n -> word (links c) n k = rot_right n (word (links c) n (nxt (links c) k)).
  Proof.
    intros Hk. assert (length c = n) as LC by (apply col_length; auto).
    assert (nxt (links c) k < n) as HX by (rewrite <- LC; apply nxt_bound; lia).
    destruct n as [|n'] eqn:En; [lia|]. rewrite <- En in *. rewrite (safe_word HX).
    assert (nth (nxt (links c) k) rows 0 < n) as HR by (apply HI, nth_In; lia).
    unfold rot_right. rewrite (proj2 (rotation_right w HR)). rewrite <- (safe_word HX).
    replace (n - 1) with n' by lia. rewrite word_firstn by lia. rewrite En at 1. cbn [word]. f_equal.
    pose proof (@links_at k ltac:(lia)) as E. unfold col in E at 1. rewrite nth_error_map, (nth_error_nth' rows 0) in E by lia.
    cbn [option_map] in E. injection E as ->. reflexivity.
  Qed.
  Lemma safe_steps m : forall k, k < n -> word (links c) n k = Nat.iter m (rot_right n) (word (links c) n (walk (links c) m k)).
  Proof.
    induction m as [|m IH]; intros k Hk; [reflexivity|]. cbn [walk]. change (word (links c) n k = rot_right n (Nat.iter m (rot_right n) (word (links c) n (walk (links c) m (nxt (links c) k))))). rewrite <- IH; [apply safe_step; auto|].
    pose proof (@nxt_bound c k) as X. rewrite (@col_length w rows HL) in X. auto.
  Qed.
  Lemma safe_back k a b : k < n -> rotation w (nth k rows 0) = a ++ b ->
    exists f, f < n /\ word (links c) (length b) f = b /\ walk (links c) (length b) f = k.
  Proof.
    intros Hk E. assert (length c = n) as LC by (apply col_length; auto).
    destruct (@walk_surj c (length b) k) as (f & Hf & EF); [lia|]. rewrite LC in Hf. exists f. split; auto. split; auto.
    assert (length (a ++ b) = n) as LA by (rewrite <- E; apply rotation_length).
    pose proof (@safe_steps (length b) f Hf) as X. rewrite EF, (safe_word Hk), E, iter_rot_right in X by auto.
    rewrite <- (@word_firstn _ (length b) n) by (rewrite app_length in LA; lia). rewrite X. apply firstn_skipn_len.
  Qed.
End Safe.

(** ** what a column and a pointer say about the word *)
Definition bw_profile (col : list nat) (ptr : nat) (u v t : list nat) (f : nat) : Prop :=
  u = t ++ v /\ length col = length u /\ 0 < length v /\ (forall j, 0 < j < length v -> lexlt v (skipn j v)) /\
  lexle v (word (links col) (length v) 0) /\ f < length col /\ ptr < length col /\
  word (links col) (length v) f = v /\ walk (links col) (length v) f = ptr /\
  (((exists Q, Permutation Q (enumerate col) /\ StronglySorted (lt_g (gr f)) Q /\ word Q (length u) f = v ++ t) /\
    (t <> [] -> lexlt (v ++ t) t) /\ lexle (v ++ t) (word (links col) (length u) f)) \/
   ((exists m, t = concat (repeat v (S m))) /\ word (links col) (length u) ptr = u)).

Lemma power_swap (v : list nat) m : v ++ concat (repeat v m) = concat (repeat v m) ++ v.
Proof. induction m as [|m IH]; [rewrite app_nil_r; reflexivity|]. cbn [repeat concat]. rewrite IH at 1. rewrite app_assoc. reflexivity. Qed.

Lemma power_length (v : list nat) m : length (concat (repeat v m)) = m * length v.
Proof. induction m as [|m IH]; [reflexivity|]. cbn [repeat concat]. rewrite app_length, IH. lia. Qed.
Lemma power_add (v : list nat) a b : concat (repeat v (a + b)) = concat (repeat v a) ++ concat (repeat v b).
Proof. rewrite repeat_app, concat_app. reflexivity. Qed.
Lemma power_cases v m : 0 < length v -> (forall j, 0 < j < length v -> lexlt v (skipn j v)) ->
  forall j, j < m * length v -> (exists q, q < m /\ j = q * length v) \/
    forall y z, lexlt (v ++ y) (skipn j (concat (repeat v m)) ++ z).
Proof.
  intros Hd HV. induction m as [|m IH]; intros j Hj; [lia|]. destruct (Nat.lt_ge_cases j (length v)) as [G|G].
  - destruct (Nat.eq_dec j 0) as [->|N]; [left; exists 0; lia|]. right. intros y z. cbn [repeat concat].
    rewrite skipn_app_le, <- app_assoc by lia. apply lexlt_cut_app; [apply HV; lia|]. rewrite skipn_length. lia.
  - destruct (IH (j - length v) ltac:(lia)) as [(q & Hq & E)|H]; [left; exists (S q); lia|]. right. intros y z.
    cbn [repeat concat]. rewrite skipn_app, (skipn_all2 v) by lia. apply H.
Qed.
Lemma power_minimal v m : 0 < length v -> (forall j, 0 < j < length v -> lexlt v (skipn j v)) ->
  forall j, j < length (concat (repeat v (S m))) -> lexle (concat (repeat v (S m))) (rotation (concat (repeat v (S m))) j).
Proof.
  intros Hd HV j Hj. rewrite power_length in Hj. destruct (@power_cases v (S m) Hd HV j Hj) as [(q & Hq & ->)|H].
  - left. replace (S m) with (q + (S m - q)) by lia. rewrite power_add. unfold rotation.
    rewrite <- (power_length v q), firstn_skipn_len, skipn_app, skipn_all, Nat.sub_diag. cbn [skipn app].
    rewrite <- !power_add. f_equal. f_equal. lia.
  - right. apply H.
Qed.
Lemma power_rotation v m : rotation (concat (repeat v (S m))) (length v) = concat (repeat v (S m)).
Proof.
  cbn [repeat concat]. unfold rotation. rewrite firstn_skipn_len, skipn_app, skipn_all, Nat.sub_diag. cbn [skipn app].
  symmetry. apply power_swap.
Qed.

Lemma bw_profile_exists u c ptr : bwt_spec u c ptr -> exists v t f, bw_profile c ptr u v t f.
Proof.
  intros (i & sa & (Hi & Hmin) & HSA & EC & HP & EP). cbv zeta in *.
  assert (length (rotation u i) = length u) as RL by apply rotation_length.
  destruct (filtered_sa HSA) as (F1 & F2 & F3 & F4). cbv zeta in *. rewrite RL in *.
  set (rows := filter (fun x => x <? length u) sa) in *. clearbody rows.
  set (v := skipn i u). set (t := firstn i u).
  assert (u = t ++ v) as EU by (symmetry; apply firstn_skipn).
  assert (length v = length u - i) as LV by apply skipn_length.
  assert (length t = i) as LT by (apply firstn_length_le; lia).
  assert (rotation u i = v ++ t) as ER by reflexivity.
  assert (0 < length v) as Hd by lia.
  assert (forall j, 0 < j < length v -> lexlt v (skipn j v)) as HV.
  { intros j Hj. unfold v at 2. rewrite skipn_add. apply (Hmin (j + i)); lia. }
  assert (forall j, j < length t -> lexlt v (skipn j t ++ v)) as HT.
  { intros j Hj. rewrite <- skipn_app_le, <- EU by lia. apply (Hmin j); lia. }
  rewrite ER in *. clear ER. set (w := v ++ t) in *.
  assert (length w = length u) as LW by auto. rewrite <- LW in F1, F3, F4.
  assert (0 < length w) as Hn by lia.
  assert (c = col w rows) as -> by (unfold col; rewrite LW; exact EC). clear EC.
  assert (length (col w rows) = length w) as LC by (apply col_length; auto).
  assert (lexle v (word (links (col w rows)) (length v) 0)) as H0.
  { eapply lexle_trans; [|apply (@suffix_le w rows Hn F1 F2 F3 F4 (length v) (nth 0 rows 0))].
    - apply suffix_ge; auto. assert (nth 0 rows 0 < length w) as X by (apply F3, nth_In; lia). unfold w in X. rewrite app_length in X. lia.
    - apply F3, nth_In; lia.
    - rewrite (@row_of_nth w rows); auto. }
  set (r := row rows 0).
  assert (forall j, 0 < j < length v -> r < row rows j) as HA.
  { intros j Hj. apply (@row_order w rows F1 F3 F4); [lia|lia|]. apply inner_above; auto. }
  assert (r < length w) as Hr by (apply (@row_lt w rows); auto).
  assert (word (Q w rows) (length w) r = w) as HQ.
  { unfold r. rewrite (@Q_word w rows); auto. cbn [skipn]. apply firstn_all. }
  assert (lexle w (word (links (col w rows)) (length w) r)) as HG.
  { rewrite <- (firstn_all w) at 1. apply (@suffix_le w rows Hn F1 F2 F3 F4 (length w) 0); auto. }
  assert (exists Q, Permutation Q (enumerate (col w rows)) /\ StronglySorted (lt_g (gr r)) Q /\ word Q (length u) r = v ++ t) as EQ.
  { exists (Q w rows). split; [apply Q_perm; auto|]. split; [apply Q_sorted; auto|]. rewrite <- LW. exact HQ. }
  assert (nth ptr rows 0 = length v mod length u) as EP' by (rewrite LV; exact EP).
  destruct (list_eq_dec Nat.eq_dec t []) as [ET|NT].
  - (* the whole word is its smallest suffix *)
    assert (length v = length w) as LVW by (rewrite LW, EU, ET; reflexivity).
    assert (ptr = r) as EPR.
    { unfold r. rewrite <- (@row_of_nth w rows Hn F1 F2 ptr) by lia. rewrite EP', LVW, LW, Nat.mod_same by lia. reflexivity. }
    assert (r = 0) as R0.
    { destruct (Nat.eq_dec r 0) as [|N]; auto. exfalso.
      assert (0 < r < length w) as HR by lia. pose proof (F4 _ _ HR) as X.
      unfold r in X. rewrite (@row_nth w rows) in X by auto. unfold suffix in X. cbn [skipn] in X.
      assert (nth 0 rows 0 < length w) as Y by (apply F3, nth_In; lia).
      destruct (Nat.eq_dec (nth 0 rows 0) 0) as [E0|N0]; [rewrite E0 in X; eapply lexlt_irrefl; eauto|].
      eapply lexlt_asym; [exact X|]. unfold w. apply inner_above; auto. lia. }
    assert (links (col w rows) = Q w rows) as ELQ.
    { apply (@lt_g_unique (fun x => x)); [apply links_sorted| |apply links_Q; auto].
      pose proof (@Q_sorted w rows Hn F1 F3 F4) as QS. fold r in QS. rewrite R0 in QS. unfold lt_g, gr in *.
      revert QS. clear. induction 1 as [|x l S IH HF]; constructor; auto. eapply Forall_impl; [|exact HF].
      intros y. cbv beta. destruct (Nat.eqb_spec (fst x) 0), (Nat.eqb_spec (fst y) 0); lia. }
    exists v, t, r. unfold bw_profile. rewrite ELQ, LVW, LC, LW in *. rewrite <- LW in *.
    assert (w = v) as EWV by (unfold w; rewrite ET; apply app_nil_r).
    split; [auto|]. split; [auto|]. split; [auto|]. split; [auto|]. split; [auto|]. split; [auto|]. split; [lia|].
    split; [rewrite HQ; auto|]. split; [rewrite EPR; apply Q_around; auto|].
    left. split; [auto|]. split; [congruence|auto].
  - assert (length v < length w) as Ltv by (unfold w; rewrite app_length; destruct t; [congruence|cbn [length]; lia]).
    rewrite Nat.mod_small in EP' by lia.
    assert (ptr = row rows (length v)) as EPR.
    { rewrite <- EP'. symmetry. apply (@row_of_nth w rows); auto. lia. }
    destruct (@tail_above v t Hd HV HT NT) as [HB|(m & EM)].
    + assert (r < row rows (length v)) as HD.
      { apply (@row_order w rows); auto; try lia. cbn [skipn]. unfold w. rewrite skipn_app, skipn_all, Nat.sub_diag. exact HB. }
      destruct (@word_above w rows Hn F1 F2 F3 F4 (length v) 0) as (W1 & W2); [lia| |].
      { intros j Hj. destruct (Nat.eq_dec j (length v)) as [->|]; [exact HD|apply HA; lia]. }
      cbn [skipn Nat.add] in W1, W2. fold r in W1, W2. unfold w in W1 at 2. rewrite firstn_skipn_len in W1.
      exists v, t, r. unfold bw_profile. rewrite LC, <- LW, EPR. rewrite <- LW in EQ.
      assert (row rows (length v) < length w) by lia. repeat (split; [solve [auto|lia]|]). left. auto.
    + assert (w = concat (repeat v (S (S m)))) as EWP by (unfold w; rewrite EM; reflexivity).
      assert (u = w) as EUW by (rewrite EU, EWP, EM; cbn [repeat concat]; rewrite <- app_assoc, <- power_swap; reflexivity).
      assert (suffixes_sort_rotations w) as HS.
      { apply minimal_sorts. rewrite EWP. apply power_minimal; auto. }
      assert (rotation w (nth ptr rows 0) = t ++ v) as ERT.
      { rewrite EP', <- EU, EUW. rewrite EWP. apply power_rotation. }
      destruct (@safe_back w rows Hn F1 F2 F3 F4 HS ptr t v) as (f & Hf & S1 & S2); [lia|auto|].
      exists v, t, f. unfold bw_profile. rewrite LC, <- LW.
      repeat (split; [solve [auto|lia]|]). right. split; [exists m; auto|]. rewrite safe_word by (auto; lia). rewrite ERT. auto.
Qed.

(** ** the theorem *)
Lemma bw_profile_shorter c ptr u v t f u' v' t' f' : bw_profile c ptr u v t f -> bw_profile c ptr u' v' t' f' -> length v < length v' -> False.
Proof.
  intros (_ & _ & Hd & _ & H0 & Hf & _ & HW & HP & _) (_ & _ & Hd' & HV' & _ & Hf' & _ & HW' & HP' & _) LT.
  set (L := links c) in *.
  assert (skipn (length v' - length v) v' = v) as EV.
  { rewrite <- HW' at 2. replace (length v') with ((length v' - length v) + length v) at 2 by lia.
    rewrite word_add, skipn_app, skipn_all2, word_length, Nat.sub_diag by (rewrite word_length; lia). cbn [skipn app].
    replace (length v') with ((length v' - length v) + length v) in HP' at 1 by lia. rewrite walk_add in HP'.
    transitivity (word L (length v) f); [|exact HW]. f_equal. apply (@walk_inj c (length v)); auto; [apply walk_bound; auto|]. fold L. rewrite HP, HP'. auto. }
  pose proof (HV' (length v' - length v) ltac:(lia)) as X. rewrite EV in X. apply lexlt_cut in X; [|lia].
  assert (lexle v (firstn (length v) v')) as Y.
  { eapply lexle_trans; [exact H0|]. rewrite <- HW', word_firstn by lia. apply words_sorted. lia. }
  destruct Y as [Y|Y]; [rewrite <- Y in X; eapply lexlt_irrefl; eauto|eapply lexlt_asym; eauto].
Qed.

Lemma power_mixed v k : forall t, length t = S k * length v -> 0 < length v -> lexlt (v ++ t) t -> lexle t (concat (repeat v (S k))) -> False.
Proof.
  induction k as [|k IH]; intros t Lt Hd H1 H2.
  - cbn [repeat concat] in H2. rewrite app_nil_r in H2. pose proof (lexle_cut (length v) (or_intror H1)) as X.
    rewrite firstn_skipn_len, firstn_all2 in X by lia. rewrite (lexle_antisym H2 X) in H1 at 2.
    rewrite <- (app_nil_r v) in H1 at 2. rewrite lexlt_app_l in H1. inversion H1.
  - cbn [repeat concat] in H2.
    assert (firstn (length v) t = v) as EV.
    { apply lexle_antisym.
      - pose proof (lexle_cut (length v) H2) as X. rewrite firstn_skipn_len in X. exact X.
      - pose proof (lexle_cut (length v) (or_intror H1)) as X. rewrite firstn_skipn_len in X. exact X. }
    assert (t = v ++ skipn (length v) t) as ET by (rewrite <- EV at 1; symmetry; apply firstn_skipn).
    rewrite ET in H1, H2.
    apply (IH (skipn (length v) t)); [rewrite skipn_length; lia|auto| |].
    + apply lexlt_cancel in H1. exact H1.
    + apply lexle_cancel in H2. exact H2.
Qed.

Theorem bwt_injective u u' c ptr : bwt_spec u c ptr -> bwt_spec u' c ptr -> u = u'.
Proof.
  intros H H'. destruct (bw_profile_exists H) as (v & t & f & P). destruct (bw_profile_exists H') as (v' & t' & f' & P').
  assert (length v = length v') as G.
  { destruct (Nat.lt_trichotomy (length v) (length v')) as [G|[G|G]]; auto; exfalso.
    - exact (bw_profile_shorter P P' G).
    - exact (bw_profile_shorter P' P G). }
  destruct P as (EU & LC & Hd & HV & _ & Hf & Hp & HW & HP & HC). destruct P' as (EU' & LC' & Hd' & HV' & _ & Hf' & Hp' & HW' & HP' & HC').
  rewrite <- G in HW', HP'.
  assert (f = f') as <- by (apply (@walk_inj c (length v)); auto; congruence).
  assert (v = v') as <- by congruence. rewrite <- LC', LC in HC'.
  assert (length t = length t') as LT by (rewrite EU, EU', !app_length in *; lia).
  assert (forall m x y, length x = length t -> length x = S m * length v -> (x <> [] -> lexlt (v ++ x) x) ->
     lexle (v ++ x) (word (links c) (length u) f) -> y = concat (repeat v (S m)) ++ v -> length y = length u -> word (links c) (length u) ptr = y -> False) as MIX.
  { intros m x y L1 L2 X1 X2 Y1 Y2 Y3. apply (@power_mixed v m x); auto.
    - apply X1. intros ->. cbn [length] in L2. nia.
    - assert (word (links c) (length u) f = v ++ concat (repeat v (S m))) as E.
      { rewrite <- (@word_firstn _ (length u) (length v + length u)) by lia. rewrite word_add, HW, HP, Y3, Y1.
        rewrite firstn_app_ge by (rewrite EU, app_length; lia). f_equal.
        rewrite Y1, app_length in Y2. replace (length u - length v) with (length (concat (repeat v (S m)))) by lia. apply firstn_skipn_len. }
      rewrite E in X2. apply lexle_cancel in X2. exact X2. }
  destruct HC as [((Q1 & QP & QS & QW) & HT & HG)|((m & ET) & HR)]; destruct HC' as [((Q2 & QP' & QS' & QW') & HT' & HG')|((m' & ET') & HR')].
  - assert (Q1 = Q2) as <- by (eapply lt_g_unique; eauto; rewrite QP; symmetry; auto).
    rewrite QW in QW'. apply app_inv_head in QW'. congruence.
  - exfalso. apply (MIX m' t u'); auto; try congruence. rewrite LT, ET', power_length. reflexivity.
  - exfalso. apply (MIX m t' u); auto; try congruence. rewrite <- LT, ET, power_length. reflexivity.
  - congruence.
Qed.

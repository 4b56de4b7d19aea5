(** * Lexicographic order: decidability, strict total order *)
From Verif Require Import Base BaseFacts SpecBwt.

Fixpoint lexltb (a b : list nat) : bool :=
  match a, b with
  | _, [] => false
  | [], _ :: _ => true
  | x :: a', y :: b' => if x <? y then true else if x =? y then lexltb a' b' else false
  end.

Lemma lexltb_lexlt a b : lexltb a b = true <-> lexlt a b.
Proof.
  revert b; induction a as [|x a IH]; intros [|y b]; cbn [lexltb]; split; intros H;
    try discriminate; try (inversion H; fail); auto using lex_nil.
  - destruct (Nat.ltb_spec x y); [apply lex_head; auto|].
    destruct (Nat.eqb_spec x y); [|discriminate]. subst; apply lex_tail, IH; auto.
  - inversion H as [|? ? ? ? Hlt|? ? ? Hlt]; subst.
    + apply Nat.ltb_lt in Hlt; rewrite Hlt; auto.
    + rewrite Nat.ltb_irrefl, Nat.eqb_refl. apply IH; auto.
Qed.

Lemma lexlt_irrefl a : ~ lexlt a a.
Proof. induction a; intros H; inversion H; subst; auto; lia. Qed.

Lemma lexlt_trans a b c : lexlt a b -> lexlt b c -> lexlt a c.
Proof.
  intros H; revert c; induction H as [y b|x y a b Hxy|x a b H IH]; intros c Hc; inversion Hc; subst;
    try (constructor; auto; lia).
Qed.

Lemma lexlt_total a b : lexlt a b \/ a = b \/ lexlt b a.
Proof.
  revert b; induction a as [|x a IH]; intros [|y b]; auto.
  - left; constructor.
  - right; right; constructor.
  - destruct (Nat.lt_trichotomy x y) as [H|[->|H]].
    + left; constructor; auto.
    + destruct (IH b) as [H|[->|H]]; [left; apply lex_tail|right; left|right; right; apply lex_tail]; auto.
    + right; right; constructor; auto.
Qed.

Lemma lexlt_asym a b : lexlt a b -> lexlt b a -> False.
Proof. intros H1 H2. eapply lexlt_irrefl, lexlt_trans; eauto. Qed.

Lemma lexltb_irrefl a : lexltb a a = false.
Proof. destruct (lexltb a a) eqn:E; auto. apply lexltb_lexlt, lexlt_irrefl in E; tauto. Qed.

Lemma lexlt_cons_inv x y a b : lexlt (x :: a) (y :: b) <-> x < y \/ (x = y /\ lexlt a b).
Proof.
  split.
  - intros H; inversion H; subst; auto.
  - intros [H|[-> H]]; [apply lex_head | apply lex_tail]; auto.
Qed.

Lemma lexlt_app_l x a b : lexlt (x ++ a) (x ++ b) <-> lexlt a b.
Proof.
  induction x as [|h x IH]; [tauto|]. cbn [app]. rewrite lexlt_cons_inv, IH.
  split; [intros [H|[_ H]]; [lia|auto] | auto].
Qed.

Lemma lexlt_not_nil a : ~ lexlt a [].
Proof. intros H; inversion H. Qed.

(** difference inside the common length is not affected by what follows *)
Lemma lexlt_app_diff a b s t : lexlt a b -> length a = length b -> lexlt (a ++ s) (b ++ t).
Proof.
  induction 1 as [y b|x y a b H|x a b H IH]; intros HL; try discriminate; cbn [app].
  - constructor; auto.
  - apply lex_tail. apply IH. simpl in HL; lia.
Qed.

(** ** counting positions *)
Definition cntb (n : nat) (P : nat -> bool) : nat := length (filter P (seq 0 n)).

Lemma filter_le_gen (P Q : nat -> bool) l : (forall i, In i l -> P i = true -> Q i = true) ->
  length (filter P l) <= length (filter Q l).
Proof.
  induction l as [|x l IH]; intros H; [reflexivity|]. cbn [filter].
  assert (length (filter P l) <= length (filter Q l)) by (apply IH; intros; apply H; auto; right; auto).
  specialize (H x (or_introl eq_refl)). destruct (P x); [rewrite H by auto; simpl; lia|].
  destruct (Q x); simpl; lia.
Qed.

Lemma cntb_le n P Q : (forall i, i < n -> P i = true -> Q i = true) -> cntb n P <= cntb n Q.
Proof. intros H. apply filter_le_gen. intros i Hi. apply in_seq in Hi. apply H; lia. Qed.

Lemma cntb_ext n P Q : (forall i, i < n -> P i = Q i) -> cntb n P = cntb n Q.
Proof.
  intros H. unfold cntb. f_equal. apply filter_ext_in. intros i Hi. apply in_seq in Hi. apply H; lia.
Qed.

Lemma filter_split_gen (P Q : nat -> bool) l :
  length (filter P l) = length (filter (fun i => P i && Q i) l) + length (filter (fun i => P i && negb (Q i)) l).
Proof.
  induction l as [|x l IH]; [reflexivity|]. cbn [filter]. destruct (P x), (Q x); simpl; lia.
Qed.

Lemma cntb_split n P Q : cntb n P = cntb n (fun i => P i && Q i) + cntb n (fun i => P i && negb (Q i)).
Proof. apply filter_split_gen. Qed.

Lemma cntb_single n w : w < n -> cntb n (fun i => i =? w) = 1.
Proof.
  intros H. unfold cntb. replace n with (w + S (n - S w)) by lia.
  rewrite seq_app, filter_app, app_length. cbn [seq filter].
  assert (forall l, ~ In w l -> filter (fun i => i =? w) l = []) as G.
  { induction l as [|x l IH]; intros Hn; [reflexivity|]. cbn [filter].
    destruct (Nat.eqb_spec x w); [subst; simpl in Hn; tauto|]. apply IH. simpl in Hn; tauto. }
  rewrite !G. 
  - replace (0 + w =? w) with true by (symmetry; apply Nat.eqb_eq; lia). reflexivity.
  - rewrite in_seq; lia.
  - rewrite in_seq; lia.
Qed.

Lemma cntb_add n P w : w < n -> P w = false ->
  cntb n (fun i => P i || (i =? w)) = S (cntb n P).
Proof.
  intros Hw HP. rewrite (cntb_split n _ (fun i => i =? w)).
  rewrite (@cntb_ext n _ (fun i => i =? w)).
  2:{ intros i _. destruct (Nat.eqb_spec i w); [rewrite orb_true_r; auto | rewrite andb_false_r; auto]. }
  rewrite cntb_single by auto.
  rewrite (@cntb_ext n (fun i => (P i || (i =? w)) && negb (i =? w)) P); [lia|].
  intros i _. destruct (Nat.eqb_spec i w); [subst; rewrite HP; auto|]. rewrite orb_false_r, andb_true_r; auto.
Qed.

Lemma cntb_lt n P Q w : (forall i, i < n -> P i = true -> Q i = true) ->
  w < n -> P w = false -> Q w = true -> cntb n P < cntb n Q.
Proof.
  intros H Hw HP HQ. assert (cntb n (fun i => P i || (i =? w)) <= cntb n Q).
  { apply cntb_le. intros i Hi Hor. apply orb_true_iff in Hor as [Ho|Ho]; [auto|].
    apply Nat.eqb_eq in Ho; subst; auto. }
  rewrite cntb_add in H0 by auto. lia.
Qed.

Lemma cntb_disj n P Q R : (forall i, i < n -> P i = true -> R i = true) ->
  (forall i, i < n -> Q i = true -> R i = true) ->
  (forall i, i < n -> P i = true -> Q i = true -> False) -> cntb n P + cntb n Q <= cntb n R.
Proof.
  intros H1 H2 H3. rewrite (cntb_split n R P).
  apply Nat.add_le_mono; apply cntb_le; intros i Hi HP.
  - rewrite HP, (H1 i Hi HP); auto.
  - rewrite (H2 i Hi HP). destruct (P i) eqn:E; auto. exfalso; eauto.
Qed.

Lemma cntb_pos n P w : w < n -> P w = true -> 0 < cntb n P.
Proof.
  intros Hw HP. unfold cntb. destruct (filter P (seq 0 n)) as [|x l] eqn:E; [|simpl; lia].
  assert (In w (filter P (seq 0 n))) as Hin by (apply filter_In; split; [apply in_seq; lia|auto]).
  rewrite E in Hin; destruct Hin.
Qed.

Lemma cntb_bound n P : cntb n P <= n.
Proof. unfold cntb. pose proof (filter_length_le P (seq 0 n)). rewrite seq_length in H; auto. Qed.

Lemma cntb_list n P l : NoDup l -> (forall i, In i l <-> i < n /\ P i = true) -> length l = cntb n P.
Proof.
  intros ND H. apply Permutation_length. apply NoDup_Permutation; auto.
  - apply NoDup_filter, seq_NoDup.
  - intros i. rewrite H, filter_In, in_seq. split; intros [A B]; split; auto; lia.
Qed.

Lemma NoDup_map_in {A B} (f : A -> B) l :
  (forall x y, In x l -> In y l -> f x = f y -> x = y) -> NoDup l -> NoDup (map f l).
Proof.
  induction l as [|a l IH]; intros H ND; [constructor|]. inversion ND; subst. cbn [map]. constructor.
  - intros Hin. apply in_map_iff in Hin as (y & E & Hy).
    assert (y = a) by (apply H; [right; auto|left; auto|auto]). subst; auto.
  - apply IH; auto. intros; apply H; auto; right; auto.
Qed.

Lemma firstn_snoc {A} (l : list A) k x : nth_error l k = Some x -> firstn (S k) l = firstn k l ++ [x].
Proof.
  revert l; induction k as [|k IH]; intros [|y l] H; try discriminate.
  - injection H as ->. reflexivity.
  - cbn [nth_error] in H. cbn [firstn app]. f_equal. apply IH; auto.
Qed.

Lemma nth_firstn_lt {A} (l : list A) k a d : a < k -> nth a (firstn k l) d = nth a l d.
Proof.
  revert l a; induction k as [|k IH]; intros [|y l] [|a] H; try lia; auto. cbn [firstn nth]. apply IH; lia.
Qed.

Lemma firstn_In {A} (l : list A) k x : In x (firstn k l) -> In x l.
Proof. intros H. rewrite <- (firstn_skipn k l). apply in_app_iff; auto. Qed.

Lemma NoDup_firstn {A} (l : list A) k : NoDup l -> NoDup (firstn k l).
Proof.
  intros H. rewrite <- (firstn_skipn k l) in H. revert H. generalize (firstn k l) as a, (skipn k l) as b.
  induction a as [|x a IH]; intros b H; [constructor|]. inversion H; subst. constructor; eauto.
  intros Hin. apply H2. apply in_app_iff; auto.
Qed.

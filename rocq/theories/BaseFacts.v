(** * Lemmas about the utilities of Base.v *)
From Verif Require Import Base.
From Coq Require Export Permutation Sorted.

Global Arguments N.add : simpl never.
Global Arguments N.sub : simpl never.
Global Arguments N.mul : simpl never.
Global Arguments N.div : simpl never.
Global Arguments N.modulo : simpl never.
Global Arguments N.pow : simpl never.
Global Arguments N.of_nat : simpl never.
Global Arguments N.to_nat : simpl never.
Global Arguments Nat.div : simpl never.
Global Arguments Nat.modulo : simpl never.

Lemma bind_ok {A B} (m : res A) (k : A -> res B) b :
  bind m k = Ok b <-> exists a, m = Ok a /\ k a = Ok b.
Proof.
  destruct m; simpl; split; intros H; try discriminate; eauto;
    destruct H as (x & H1 & H2); try discriminate; inversion H1; subst; auto.
Qed.

Lemma bind_assoc {A B C} (m : res A) (f : A -> res B) (g : B -> res C) :
  bind (bind m f) g = bind m (fun a => bind (f a) g).
Proof. destruct m; reflexivity. Qed.

(** ** update / nth_error *)
Lemma update_length {A} (l : list A) i x l' : update l i x = Some l' -> length l' = length l.
Proof.
  revert i l'; induction l as [|h tl IH]; intros [|i] l' H; simpl in *; try discriminate.
  - inversion H; reflexivity.
  - destruct (update tl i x) eqn:E; try discriminate. inversion H; subst; simpl. f_equal; eauto.
Qed.

Lemma update_some {A} (l : list A) i x : i < length l -> exists l', update l i x = Some l'.
Proof.
  revert i; induction l as [|h tl IH]; intros [|i] H; simpl in *; try lia; eauto.
  destruct (IH i) as (l' & ->); [lia|]; eauto.
Qed.

Lemma update_none {A} (l : list A) i x : length l <= i -> update l i x = None.
Proof.
  revert i; induction l as [|h tl IH]; intros [|i] H; simpl in *; try lia; auto.
  rewrite IH; [reflexivity | lia].
Qed.

Lemma update_lt {A} (l : list A) i x l' : update l i x = Some l' -> i < length l.
Proof.
  intros H; destruct (le_lt_dec (length l) i) as [H1|H1]; auto.
  rewrite update_none in H by lia; discriminate.
Qed.

Lemma update_same {A} (l : list A) i x l' : update l i x = Some l' -> nth_error l' i = Some x.
Proof.
  revert i l'; induction l as [|h tl IH]; intros [|i] l' H; simpl in *; try discriminate.
  - inversion H; reflexivity.
  - destruct (update tl i x) eqn:E; try discriminate. inversion H; subst; simpl; eauto.
Qed.

Lemma update_other {A} (l : list A) i x l' j :
  update l i x = Some l' -> j <> i -> nth_error l' j = nth_error l j.
Proof.
  revert i l' j; induction l as [|h tl IH]; intros [|i] l' [|j] H Hne; simpl in *;
    try discriminate; try lia.
  - inversion H; reflexivity.
  - destruct (update tl i x) eqn:E; try discriminate. inversion H; subst; reflexivity.
  - destruct (update tl i x) eqn:E; try discriminate. inversion H; subst; simpl. eapply IH; eauto.
Qed.

Lemma update_app_mid {A} (a : list A) y b x : update (a ++ y :: b) (length a) x = Some (a ++ x :: b).
Proof. induction a as [|h tl IH]; simpl; auto. rewrite IH; reflexivity. Qed.

Lemma set_at_ok {A} (l : list A) i x : i < length l -> exists l', set_at l i x = Ok l' /\
  length l' = length l /\ nth_error l' i = Some x /\ forall j, j <> i -> nth_error l' j = nth_error l j.
Proof.
  intros H. destruct (update_some l x H) as (l' & E).
  exists l'. unfold set_at; rewrite E; simpl. repeat split.
  - eapply update_length; eauto.
  - eapply update_same; eauto.
  - intros j Hj; eapply update_other; eauto.
Qed.

Lemma set_at_inv {A} (l : list A) i x l' : set_at l i x = Ok l' ->
  i < length l /\ length l' = length l /\ nth_error l' i = Some x /\
  forall j, j <> i -> nth_error l' j = nth_error l j.
Proof.
  unfold set_at; destruct (update l i x) as [l2|] eqn:E; simpl; intros H; [|discriminate].
  inversion H; subst. repeat split.
  - eapply update_lt; eauto.
  - eapply update_length; eauto.
  - eapply update_same; eauto.
  - intros j Hj; eapply update_other; eauto.
Qed.

Lemma get_at_some {A} (l : list A) i x : nth_error l i = Some x -> get_at l i = Ok x.
Proof. unfold get_at; intros ->; reflexivity. Qed.

Lemma get_at_inv {A} (l : list A) i x : get_at l i = Ok x -> nth_error l i = Some x.
Proof. unfold get_at; destruct (nth_error l i); simpl; congruence. Qed.

Lemma get_at_lt {A} (l : list A) i d : i < length l -> get_at l i = Ok (nth i l d).
Proof. intros H; apply get_at_some. apply nth_error_nth'; auto. Qed.

(** ** loops *)
Lemma fold_res_app {A S} (f : S -> A -> res S) l1 l2 s :
  fold_res f (l1 ++ l2) s = bind (fold_res f l1 s) (fold_res f l2).
Proof.
  revert s; induction l1 as [|x tl IH]; intros s; simpl; auto.
  destruct (f s x); simpl; auto.
Qed.

(** invariant rule: [I k s] holds before the element number [k] *)
Lemma fold_res_ind {A S} (f : S -> A -> res S) (I : nat -> S -> Prop) l s :
  I 0 s ->
  (forall k x s, nth_error l k = Some x -> I k s -> exists s', f s x = Ok s' /\ I (Datatypes.S k) s') ->
  exists s', fold_res f l s = Ok s' /\ I (length l) s'.
Proof.
  revert I s; induction l as [|x tl IH]; intros I s H0 Hs; simpl.
  - eauto.
  - destruct (Hs 0 x s eq_refl H0) as (s1 & -> & H1); simpl.
    destruct (IH (fun k => I (Datatypes.S k)) s1 H1) as (s' & E & H'); eauto.
Qed.

Lemma map_res_ok {A B} (f : A -> res B) l (g : A -> B) :
  (forall x, In x l -> f x = Ok (g x)) -> map_res f l = Ok (map g l).
Proof.
  induction l as [|x tl IH]; intros H; simpl; auto.
  rewrite H by (left; auto); simpl. rewrite IH; simpl; auto.
  intros y Hy; apply H; right; auto.
Qed.

Lemma map_res_inv {A B} (f : A -> res B) l l' :
  map_res f l = Ok l' -> length l' = length l /\
  forall i x, nth_error l i = Some x -> exists y, f x = Ok y /\ nth_error l' i = Some y.
Proof.
  revert l'; induction l as [|x tl IH]; intros l' H; simpl in *.
  - inversion H; subst; split; auto. intros [|i] y Hy; discriminate.
  - destruct (f x) as [y| | |] eqn:E; try discriminate; simpl in H.
    destruct (map_res f tl) as [ys| | |] eqn:E2; try discriminate; simpl in H.
    inversion H; subst. destruct (IH _ eq_refl) as [H1 H2]. simpl; split; [lia|].
    intros [|i] z Hz; simpl in *; [inversion Hz; subst; eauto | eauto].
Qed.

(** ** enumerate *)
Lemma enumerate_from_length {A} i (l : list A) : length (enumerate_from i l) = length l.
Proof. revert i; induction l; intros; simpl; auto. Qed.
Lemma enumerate_length {A} (l : list A) : length (enumerate l) = length l.
Proof. apply enumerate_from_length. Qed.
Lemma enumerate_from_nth {A} i (l : list A) k :
  nth_error (enumerate_from i l) k = option_map (fun x => (i + k, x)) (nth_error l k).
Proof.
  revert i k; induction l as [|x tl IH]; intros i [|k]; simpl; auto.
  - rewrite Nat.add_0_r; reflexivity.
  - rewrite IH. replace (S i + k) with (i + S k) by lia. reflexivity.
Qed.
Lemma enumerate_nth {A} (l : list A) k :
  nth_error (enumerate l) k = option_map (fun x => (k, x)) (nth_error l k).
Proof. apply enumerate_from_nth. Qed.
Lemma enumerate_from_snd {A} i (l : list A) : map snd (enumerate_from i l) = l.
Proof. revert i; induction l as [|x tl IH]; intros; simpl; f_equal; auto. Qed.
Lemma enumerate_from_fst {A} i (l : list A) : map fst (enumerate_from i l) = seq i (length l).
Proof. revert i; induction l as [|x tl IH]; intros; simpl; f_equal; auto. Qed.
Lemma enumerate_from_app {A} i (l1 l2 : list A) :
  enumerate_from i (l1 ++ l2) = enumerate_from i l1 ++ enumerate_from (i + length l1) l2.
Proof.
  revert i; induction l1 as [|x tl IH]; intros i; simpl.
  - rewrite Nat.add_0_r; reflexivity.
  - rewrite IH. do 2 f_equal. f_equal. lia.
Qed.

(** ** find_first *)
Lemma find_first_some {A} (p : A -> bool) l x :
  find_first p l = Some x -> In x l /\ p x = true.
Proof.
  induction l as [|y tl IH]; simpl; [discriminate|].
  destruct (p y) eqn:E; intros H.
  - inversion H; subst; auto.
  - destruct (IH H); auto.
Qed.
Lemma find_first_none {A} (p : A -> bool) l :
  find_first p l = None <-> forall x, In x l -> p x = false.
Proof.
  induction l as [|y tl IH]; simpl; [tauto|].
  destruct (p y) eqn:E; split; intros H; try discriminate.
  - exfalso. specialize (H y (or_introl eq_refl)); congruence.
  - intros x [->|Hx]; auto. apply IH; auto.
  - apply IH; intros x Hx; apply H; auto.
Qed.
(** the first match, when the matching element is unique *)
Lemma find_first_unique {A} (p : A -> bool) l x :
  In x l -> p x = true -> (forall y, In y l -> p y = true -> y = x) -> find_first p l = Some x.
Proof.
  induction l as [|y tl IH]; simpl; intros Hin Hp Hu; [tauto|].
  destruct (p y) eqn:E.
  - f_equal; apply Hu; auto.
  - destruct Hin as [->|Hin]; [congruence|]. apply IH; auto.
Qed.

(** ** stable insertion sort *)
Section Sort.
  Context {A : Type} (leb : A -> A -> bool).
  Lemma insert_by_perm x l : Permutation (x :: l) (insert_by leb x l).
  Proof.
    induction l as [|y tl IH]; simpl; auto.
    destruct (leb x y); auto.
    rewrite perm_swap. constructor. exact IH.
  Qed.
  Lemma sort_by_perm l : Permutation l (sort_by leb l).
  Proof.
    induction l as [|x tl IH]; simpl; auto.
    rewrite <- insert_by_perm. constructor; auto.
  Qed.
  Lemma sort_by_length l : length (sort_by leb l) = length l.
  Proof. symmetry; apply Permutation_length, sort_by_perm. Qed.
  Lemma sort_by_in l x : In x (sort_by leb l) <-> In x l.
  Proof.
    split; apply Permutation_in; [symmetry|]; apply sort_by_perm.
  Qed.

  Hypothesis total : forall x y, leb x y = false -> leb y x = true.
  Hypothesis trans : forall x y z, leb x y = true -> leb y z = true -> leb x z = true.

  Definition ssorted := StronglySorted (fun x y => leb x y = true).

  Lemma insert_by_sorted x l : ssorted l -> ssorted (insert_by leb x l).
  Proof.
    unfold ssorted; induction l as [|y tl IH]; simpl; intros H.
    - repeat constructor.
    - inversion H as [|? ? H1 H2]; subst. destruct (leb x y) eqn:E.
      + constructor; auto. constructor; auto.
        eapply Forall_impl; [|exact H2]. simpl; intros; eauto.
      + constructor; auto.
        apply Forall_forall; intros z Hz.
        apply Permutation_in with (l' := x :: tl) in Hz; [|symmetry; apply insert_by_perm].
        destruct Hz as [<-|Hz]; [apply total; auto|].
        rewrite Forall_forall in H2; auto.
  Qed.
  Lemma sort_by_sorted l : ssorted (sort_by leb l).
  Proof. induction l; simpl; [constructor|]. apply insert_by_sorted; auto. Qed.
End Sort.

Lemma ssorted_nth {A} (leb : A -> A -> bool) l i j x y :
  ssorted leb l -> i < j -> nth_error l i = Some x -> nth_error l j = Some y -> leb x y = true.
Proof.
  unfold ssorted. intros H; revert i j; induction H as [|a l H IH HF]; intros i j Hij Hi Hj.
  - destruct i; discriminate.
  - destruct j as [|j]; [lia|]. destruct i as [|i]; simpl in *.
    + inversion Hi; subst. rewrite Forall_forall in HF. apply HF. eapply nth_error_In; eauto.
    + apply (IH i j); auto; lia.
Qed.

(** a strictly sorted permutation is unique: used to identify sort results *)
Lemma sorted_perm_unique {A} (R : A -> A -> Prop) l1 l2 :
  (forall x y, R x y -> R y x -> x = y) ->
  StronglySorted R l1 -> StronglySorted R l2 -> Permutation l1 l2 -> l1 = l2.
Proof.
  intros anti. revert l2; induction l1 as [|x tl IH]; intros l2 H1 H2 P.
  - apply Permutation_nil in P; auto.
  - destruct l2 as [|y tl2]; [apply Permutation_sym, Permutation_nil in P; discriminate|].
    inversion H1 as [|? ? S1 F1]; inversion H2 as [|? ? S2 F2]; subst.
    assert (x = y) as ->.
    { assert (In x (y :: tl2)) as I1 by (eapply Permutation_in; [exact P | left; auto]).
      assert (In y (x :: tl)) as I2 by (eapply Permutation_in; [symmetry; exact P | left; auto]).
      rewrite Forall_forall in F1, F2.
      destruct I1 as [->|I1]; auto. destruct I2 as [->|I2]; auto. }
    f_equal. apply IH; auto. eapply Permutation_cons_inv; eauto.
Qed.

(** ** lists *)
Lemma nth_error_ext {A} (l1 l2 : list A) :
  (forall i, nth_error l1 i = nth_error l2 i) -> l1 = l2.
Proof.
  revert l2; induction l1 as [|x tl IH]; intros [|y tl2] H; auto.
  - specialize (H 0); discriminate.
  - specialize (H 0); discriminate.
  - f_equal; [specialize (H 0); simpl in H; congruence|].
    apply IH; intros i; apply (H (S i)).
Qed.

Lemma nth_error_lt {A} (l : list A) i x : nth_error l i = Some x -> i < length l.
Proof. intros H; apply nth_error_Some; congruence. Qed.

Lemma nth_error_seq a n i : nth_error (seq a n) i = if i <? n then Some (a + i) else None.
Proof.
  destruct (Nat.ltb_spec i n) as [H|H].
  - rewrite nth_error_nth' with (d := 0) by (rewrite seq_length; auto).
    rewrite seq_nth; auto.
  - apply nth_error_None. rewrite seq_length; auto.
Qed.

Lemma nth_error_rev {A} (l : list A) i : i < length l ->
  nth_error (rev l) i = nth_error l (length l - S i).
Proof.
  intros H. destruct l as [|d tl]; [simpl in H; lia|].
  rewrite nth_error_nth' with (d := d) by (rewrite rev_length; auto).
  rewrite rev_nth by auto.
  symmetry; apply nth_error_nth'. simpl in *; lia.
Qed.

Lemma filter_length_le {A} (p : A -> bool) l : length (filter p l) <= length l.
Proof. induction l as [|x tl IH]; simpl; auto. destruct (p x); simpl; lia. Qed.

Lemma firstn_skipn_len {A} (l1 l2 : list A) : firstn (length l1) (l1 ++ l2) = l1.
Proof. rewrite firstn_app, Nat.sub_diag, firstn_all, firstn_O, app_nil_r; auto. Qed.
Lemma skipn_len_app {A} (l1 l2 : list A) : skipn (length l1) (l1 ++ l2) = l2.
Proof. rewrite skipn_app, Nat.sub_diag, skipn_all; auto. Qed.

Lemma nth_error_firstn_lt {A} (l : list A) k i : i < k -> nth_error (firstn k l) i = nth_error l i.
Proof.
  revert l i; induction k as [|k IH]; intros [|x l] [|i] H; simpl; auto; try lia.
  apply IH; lia.
Qed.

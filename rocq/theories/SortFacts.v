(** * A stable sort has a unique result

    [slice::sort_by] is stable.  Its result is determined by two facts: it is sorted,
    and elements that compare equal keep their relative order.  [sort_by] of Base.v
    is the only list with these two properties. *)
From Verif Require Import Base.
From Coq Require Import Sorting.Sorted.

Section Stable.
Variable A : Type.
Variable leb : A -> A -> bool.
Hypothesis total : forall x y, leb x y = true \/ leb y x = true.
Hypothesis trans : forall x y z, leb x y = true -> leb y z = true -> leb x z = true.

Definition same (x y : A) : bool := leb x y && leb y x.
Definition le_sorted (l : list A) : Prop := StronglySorted (fun x y => leb x y = true) l.
(** [l'] is [l], stably sorted *)
Definition stable_sort_of (l l' : list A) : Prop :=
  le_sorted l' /\ forall x, filter (same x) l' = filter (same x) l.

Lemma same_refl x : same x x = true.
Proof. unfold same. destruct (total x x) as [-> | ->]; auto. Qed.

Lemma insert_filter x l c : filter (same c) (insert_by leb x l) = filter (same c) (x :: l).
Proof.
  induction l as [|y l IH]; cbn [insert_by]; auto. destruct (leb x y) eqn:E; auto.
  cbn [filter] in *. rewrite IH. destruct (same c x) eqn:Ex; destruct (same c y) eqn:Ey; auto.
  unfold same in Ex, Ey. apply andb_true_iff in Ex as [Ex1 Ex2]. apply andb_true_iff in Ey as [Ey1 Ey2].
  rewrite (@trans x c y) in E by auto. discriminate.
Qed.

Lemma insert_sorted x l : le_sorted l -> le_sorted (insert_by leb x l).
Proof.
  induction 1 as [|y l H IH HF]; cbn [insert_by]; [repeat constructor|].
  destruct (leb x y) eqn:E.
  - constructor; [constructor; auto|]. constructor; auto. eapply Forall_impl; [|exact HF]. eauto.
  - constructor; auto. apply Forall_forall. intros z Hz.
    assert (z = x \/ In z l) as [->|Hz'].
    { clear - Hz. induction l as [|w l IH]; cbn [insert_by] in Hz.
      - destruct Hz; auto. 
      - destruct (leb x w); cbn [In] in Hz |- *; [intuition|]. destruct Hz as [->|Hz]; auto. destruct (IH Hz); auto. }
    + destruct (total x y); congruence.
    + rewrite Forall_forall in HF. auto.
Qed.

Theorem sort_by_stable l : stable_sort_of l (sort_by leb l).
Proof.
  split.
  - induction l as [|x l IH]; cbn [sort_by]; [constructor|]. apply insert_sorted; auto.
  - intros c. induction l as [|x l IH]; cbn [sort_by]; auto. rewrite insert_filter. cbn [filter]. rewrite IH. auto.
Qed.

Lemma stable_unique l1 : forall l2, le_sorted l1 -> le_sorted l2 ->
  (forall x, filter (same x) l1 = filter (same x) l2) -> l1 = l2.
Proof.
  induction l1 as [|a l1 IH]; intros l2 H1 H2 H.
  - destruct l2 as [|b l2]; auto. specialize (H b). cbn [filter] in H. rewrite same_refl in H. discriminate.
  - destruct l2 as [|b l2].
    { specialize (H a). cbn [filter] in H. rewrite same_refl in H. discriminate. }
    inversion H1 as [|? ? S1 F1]; inversion H2 as [|? ? S2 F2]; subst.
    assert (In a (b :: l2)) as Ia.
    { apply (proj1 (filter_In (same a) a (b :: l2))). rewrite <- H. cbn [filter]. rewrite same_refl. left; auto. }
    assert (In b (a :: l1)) as Ib.
    { apply (proj1 (filter_In (same b) b (a :: l1))). rewrite H. cbn [filter]. rewrite same_refl. left; auto. }
    assert (leb a b = true) as Lab.
    { destruct Ib as [->|Ib]; [destruct (total b b); auto|]. rewrite Forall_forall in F1. auto. }
    assert (leb b a = true) as Lba.
    { destruct Ia as [->|Ia]; [destruct (total a a); auto|]. rewrite Forall_forall in F2. auto. }
    assert (a = b) as ->.
    { specialize (H a). cbn [filter] in H. rewrite same_refl in H. unfold same at 2 in H. rewrite Lab, Lba in H.
      cbn [andb] in H. congruence. }
    f_equal. apply IH; auto. intros x. specialize (H x). cbn [filter] in H. destruct (same x b); congruence.
Qed.

Theorem sort_by_unique l l' : stable_sort_of l l' -> l' = sort_by leb l.
Proof.
  intros (S & F). destruct (sort_by_stable l) as (S' & F'). apply stable_unique; auto. intros x. rewrite F, F'. auto.
Qed.
End Stable.

(** * SA-IS: suffix types, buckets and their specifications *)
From Verif Require Import Base BaseFacts SpecBwt LexFacts Sais.

Definition ch (text : list nat) (i : nat) : nat := nth i text 0.

Lemma get_ch text i : i < length text -> get_at text i = Ok (ch text i).
Proof. intros H. apply get_at_lt; auto. Qed.

(** ** suffix types *)
Record types_ok (text : list nat) (types : list suffix_type) : Prop := {
  ty_len : length types = length text + 2;
  ty_last : forall i, i + 1 = length text -> nth i types TL = TL;
  ty_end : nth (length text) types TL = TL;
  ty_lt : forall i, i + 1 < length text -> ch text i < ch text (i + 1) -> nth i types TL = TS;
  ty_gt : forall i, i + 1 < length text -> ch text (i + 1) < ch text i -> nth i types TL = TL;
  ty_eq : forall i, i + 1 < length text -> ch text i = ch text (i + 1) ->
            nth i types TL = nth (i + 1) types TL }.

Lemma nth_of_error {A} (l : list A) i d x : nth_error l i = Some x -> nth i l d = x.
Proof. intros H. apply nth_error_nth; auto. Qed.

Lemma set_at_nth {A} (l : list A) i x l' d : set_at l i x = Ok l' ->
  length l' = length l /\ i < length l /\ forall j, nth j l' d = if j =? i then x else nth j l d.
Proof.
  intros H. apply set_at_inv in H as (H1 & H2 & H3 & H4). repeat split; auto.
  intros j. destruct (Nat.eqb_spec j i) as [->|Hne].
  - apply nth_of_error; auto.
  - specialize (H4 j Hne). destruct (nth_error l j) as [y|] eqn:E.
    + rewrite (nth_of_error _ _ _ H4), (nth_of_error _ _ _ E); auto.
    + rewrite !nth_overflow; auto; apply nth_error_None; auto.
Qed.

Lemma set_at_do {A} (l : list A) i x d : i < length l -> exists l', set_at l i x = Ok l' /\
  length l' = length l /\ forall j, nth j l' d = if j =? i then x else nth j l d.
Proof.
  intros H. destruct (@set_at_ok _ l i x H) as (l' & E & _). exists l'. split; auto.
  apply (set_at_nth _ _ _ d) in E. tauto.
Qed.

Lemma get_suffix_types_ok text : exists types, get_suffix_types text = Ok types /\ types_ok text types.
Proof.
  unfold get_suffix_types. set (n := length text).
  destruct (Nat.eqb_spec n 0) as [Hn|Hn].
  - exists (repeat TL (n + 1) ++ [TS]). split; auto. unfold n in *.
    constructor; try (intros; lia).
    + rewrite app_length, repeat_length; simpl; lia.
    + rewrite Hn. reflexivity.
  - set (t0 := repeat TL (n + 1) ++ [TS]).
    assert (length t0 = n + 2) as L0 by (unfold t0; rewrite app_length, repeat_length; simpl; lia).
    destruct (@set_at_do _ t0 (n - 1) TL TL ltac:(lia)) as (t1 & E1 & L1 & N1).
    rewrite E1. cbn [bind].
    assert (forall j, j <= n -> nth j t1 TL = TL) as T1.
    { intros j Hj. rewrite N1. destruct (j =? n - 1); auto. unfold t0.
      rewrite app_nth1 by (rewrite repeat_length; lia).
      destruct (Nat.lt_ge_cases j (n + 1)) as [Hlt|Hlt].
      - apply repeat_spec with (n := n + 1). apply nth_In. rewrite repeat_length; lia.
      - lia. }
    destruct (@fold_res_ind _ _ (suffix_type_step text)
      (fun k types => length types = n + 2 /\
        (forall j, n - 1 <= j <= n -> nth j types TL = TL) /\
        (forall i, n - 1 - k <= i -> i + 1 < n ->
           (ch text i < ch text (i + 1) -> nth i types TL = TS) /\
           (ch text (i + 1) < ch text i -> nth i types TL = TL) /\
           (ch text i = ch text (i + 1) -> nth i types TL = nth (i + 1) types TL)))
      (rev (seq 0 (n - 1))) t1) as (types & E & HL & HT & HC).
    + split; [lia|]. split; [intros; apply T1; lia|]. intros; lia.
    + intros k x s Hk (HL & HT & HC).
      assert (k < n - 1) as Hkn by (apply nth_error_lt in Hk; rewrite rev_length, seq_length in Hk; auto).
      rewrite nth_error_rev in Hk by (rewrite seq_length; auto).
      rewrite seq_length, nth_error_seq in Hk.
      replace (n - 1 - S k <? n - 1) with true in Hk by (symmetry; apply Nat.ltb_lt; lia).
      injection Hk as Hx.
      assert (x + 1 < n) as Hxn by lia.
      unfold suffix_type_step. rewrite !get_ch by (unfold n in *; lia). cbn [bind].
      assert (forall v, exists s', set_at s x v = Ok s' /\ length s' = n + 2 /\
                forall j, nth j s' TL = if j =? x then v else nth j s TL) as SET.
      { intros v. destruct (@set_at_do _ s x v TL) as (s' & E' & L' & N'); [lia|].
        exists s'. rewrite L'. auto. }
      assert (forall v s', (forall j, nth j s' TL = if j =? x then v else nth j s TL) ->
                length s' = n + 2 ->
                (ch text x < ch text (x + 1) -> v = TS) ->
                (ch text (x + 1) < ch text x -> v = TL) ->
                (ch text x = ch text (x + 1) -> v = nth (x + 1) s TL) ->
                length s' = n + 2 /\
                (forall j, n - 1 <= j <= n -> nth j s' TL = TL) /\
                (forall i, n - 1 - S k <= i -> i + 1 < n ->
                  (ch text i < ch text (i + 1) -> nth i s' TL = TS) /\
                  (ch text (i + 1) < ch text i -> nth i s' TL = TL) /\
                  (ch text i = ch text (i + 1) -> nth i s' TL = nth (i + 1) s' TL))) as FIN.
      { intros v s' N' L' V1 V2 V3. split; auto. split.
        - intros j Hj. rewrite N'. destruct (Nat.eqb_spec j x); [lia|]. apply HT; auto.
        - intros i Hi Hi2. rewrite !N'.
          replace (i + 1 =? x) with false by (symmetry; apply Nat.eqb_neq; lia).
          destruct (Nat.eqb_spec i x) as [->|Hne].
          + repeat split; auto.
          + apply HC; lia. }
      destruct (Nat.compare_spec (ch text x) (ch text (x + 1))) as [Hc|Hc|Hc].
      * rewrite (@get_at_lt _ s (x + 1) TL) by lia. cbn [bind].
        destruct (SET (nth (x + 1) s TL)) as (s' & -> & L' & N'). exists s'. split; auto.
        apply (FIN _ _ N' L'); intros; auto; lia.
      * destruct (SET TS) as (s' & -> & L' & N'). exists s'. split; auto.
        apply (FIN _ _ N' L'); intros; auto; lia.
      * destruct (SET TL) as (s' & -> & L' & N'). exists s'. split; auto.
        apply (FIN _ _ N' L'); intros; auto; lia.
    + rewrite E. exists types. split; auto.
      rewrite rev_length, seq_length in HC. unfold n in *.
      constructor; auto.
      * intros i Hi. apply HT; lia.
      * apply HT; lia.
      * intros i Hi Hc. apply HC; auto; lia.
      * intros i Hi Hc. apply HC; auto; lia.
      * intros i Hi Hc. apply HC; auto; lia.
Qed.

(** ** buckets *)
Definition head_of (text : list nat) (c : nat) : nat :=
  1 + cntb (length text) (fun y => ch text y <? c).
Definition tail_of (text : list nat) (c : nat) : nat :=
  cntb (length text) (fun y => ch text y <=? c).
Definition size_of (text : list nat) (c : nat) : nat :=
  cntb (length text) (fun y => ch text y =? c).

Lemma tail_head text c : tail_of text c + 1 = head_of text c + size_of text c.
Proof.
  unfold tail_of, head_of, size_of. rewrite (cntb_split _ (fun y => ch text y <=? c) (fun y => ch text y =? c)).
  rewrite (@cntb_ext _ (fun i => (ch text i <=? c) && (ch text i =? c)) (fun y => ch text y =? c)).
  2:{ intros i _. destruct (Nat.leb_spec (ch text i) c), (Nat.eqb_spec (ch text i) c); auto; lia. }
  rewrite (@cntb_ext _ (fun i => (ch text i <=? c) && negb (ch text i =? c)) (fun y => ch text y <? c)).
  2:{ intros i _. destruct (Nat.leb_spec (ch text i) c), (Nat.eqb_spec (ch text i) c), (Nat.ltb_spec (ch text i) c); auto; lia. }
  lia.
Qed.

Lemma head_S text c : head_of text (S c) = head_of text c + size_of text c.
Proof.
  rewrite <- tail_head. unfold head_of, tail_of.
  rewrite (@cntb_ext _ (fun y => ch text y <? S c) (fun y => ch text y <=? c)); [lia|]. 
  intros i _. destruct (Nat.ltb_spec (ch text i) (S c)), (Nat.leb_spec (ch text i) c); auto; lia.
Qed.

Lemma tail_lt_head text c d : c < d -> tail_of text c < head_of text d.
Proof.
  intros H. unfold tail_of, head_of.
  assert (cntb (length text) (fun y => ch text y <=? c) <= cntb (length text) (fun y => ch text y <? d)); [|lia].
  apply cntb_le. intros i _ E. apply Nat.leb_le in E. apply Nat.ltb_lt; lia.
Qed.

Lemma tail_bound text c : tail_of text c <= length text.
Proof. apply cntb_bound. Qed.

Lemma bucket_sizes_ok text alpha : Forall (fun x => x < alpha) text ->
  get_bucket_sizes text alpha = Ok (map (size_of text) (seq 0 alpha)).
Proof.
  intros HF. unfold get_bucket_sizes.
  destruct (@fold_res_ind _ _ bucket_size_step
    (fun k s => s = map (fun c => cntb k (fun y => ch text y =? c)) (seq 0 alpha)) text (repeat 0 alpha))
    as (s & E & Hs).
  - apply nth_error_ext; intros i. rewrite nth_error_map, nth_error_seq.
    destruct (Nat.ltb_spec i alpha) as [Hi|Hi].
    + cbn [option_map]. rewrite nth_error_nth' with (d := 0) by (rewrite repeat_length; auto).
      f_equal. apply repeat_spec with (n := alpha). apply nth_In; rewrite repeat_length; auto.
    + cbn [option_map]. apply nth_error_None. rewrite repeat_length; auto.
  - intros k x s Hk ->. unfold bucket_size_step.
    assert (x < alpha) as Hx by (rewrite Forall_forall in HF; apply HF; eapply nth_error_In; eauto).
    set (s := map _ _).
    assert (nth_error s x = Some (cntb k (fun y => ch text y =? x))) as Ex.
    { unfold s. rewrite nth_error_map, nth_error_seq. apply Nat.ltb_lt in Hx; rewrite Hx; reflexivity. }
    rewrite (get_at_some _ _ Ex). cbn [bind].
    destruct (@set_at_ok _ s x (cntb k (fun y => ch text y =? x) + 1)) as (s' & E' & L' & N1 & N2).
    { unfold s; rewrite map_length, seq_length; auto. }
    exists s'. split; auto.
    assert (ch text k = x) as Hchk by (unfold ch; apply nth_of_error; auto).
    apply nth_error_ext; intros i. rewrite nth_error_map, nth_error_seq.
    destruct (Nat.eq_dec i x) as [->|Hne].
    + rewrite N1. apply Nat.ltb_lt in Hx; rewrite Hx. cbn [option_map]. f_equal.
      unfold cntb. rewrite seq_S, filter_app, app_length. cbn [filter].
      change (0 + k) with k. change (0 + x) with x. rewrite Hchk, Nat.eqb_refl. reflexivity.
    + rewrite N2 by auto. unfold s. rewrite nth_error_map, nth_error_seq.
      destruct (i <? alpha); auto. cbn [option_map]. f_equal.
      unfold cntb. rewrite seq_S, filter_app, app_length. cbn [filter].
      replace (ch text (0 + k) =? 0 + i) with false; [simpl; lia|].
      change (0 + k) with k. change (0 + i) with i. rewrite Hchk. symmetry. apply Nat.eqb_neq; auto.
  - rewrite E, Hs. reflexivity.
Qed.

Lemma bucket_heads_ok text alpha :
  get_bucket_heads (map (size_of text) (seq 0 alpha)) = map (head_of text) (seq 0 alpha).
Proof.
  unfold get_bucket_heads.
  assert (forall k c, bucket_heads_from (head_of text c) (map (size_of text) (seq c k))
                      = map (head_of text) (seq c k)) as G.
  { induction k as [|k IH]; intros c; [reflexivity|]. cbn [seq map bucket_heads_from].
    rewrite <- head_S, IH. reflexivity. }
  rewrite <- (G alpha 0). f_equal. unfold head_of.
  assert (cntb (length text) (fun y => ch text y <? 0) = 0) as ->; [|reflexivity].
  unfold cntb. induction (seq 0 (length text)); auto.
Qed.

Lemma bucket_tails_ok text alpha :
  get_bucket_tails (map (size_of text) (seq 0 alpha)) = map (tail_of text) (seq 0 alpha).
Proof.
  unfold get_bucket_tails.
  assert (forall k c, bucket_tails_from (head_of text c) (map (size_of text) (seq c k))
                      = map (tail_of text) (seq c k)) as G.
  { induction k as [|k IH]; intros c; [reflexivity|]. cbn [seq map bucket_tails_from].
    rewrite <- head_S, IH. f_equal. pose proof (tail_head text c). rewrite head_S. lia. }
  rewrite <- (G alpha 0). f_equal. unfold head_of.
  assert (cntb (length text) (fun y => ch text y <? 0) = 0) as ->; [|reflexivity].
  unfold cntb. induction (seq 0 (length text)); auto.
Qed.

(** * Facts about Mtf.v *)
From Verif Require Import Base BaseFacts Mtf.

(** ** dictionary *)
Lemma mark_used_spec input flags : bytes input -> length flags = 256 ->
  exists flags', fold_res mark_used input flags = Ok flags' /\ length flags' = 256 /\
    forall i, nth_error flags' i = Some true <-> nth_error flags i = Some true \/ In i input.
Proof.
  revert flags; induction input as [|x tl IH]; intros flags HB HL.
  - exists flags; simpl; split; auto. split; auto. intros i; tauto.
  - inversion HB as [|? ? Hx Htl]; subst. cbn [fold_res]. unfold mark_used at 1.
    unfold is_byte in Hx.
    destruct (set_at_ok flags true (i := x)) as (f1 & -> & HL1 & Hsame & Hoth); [lia|].
    cbn [bind]. destruct (IH f1 Htl) as (f2 & -> & HL2 & HF); [lia|].
    exists f2; split; auto. split; auto. intros i. rewrite HF. cbn [In].
    destruct (Nat.eq_dec i x) as [->|Hne].
    + rewrite Hsame; tauto.
    + rewrite Hoth by auto. intuition congruence.
Qed.

Lemma used_from_flags_In flags x : In x (used_from_flags flags) <-> nth_error flags x = Some true.
Proof.
  unfold used_from_flags. rewrite in_map_iff. split.
  - intros ([i b] & <- & H). apply filter_In in H as [H1 H2]. simpl in *; subst b.
    apply In_nth_error in H1 as (k & Hk). rewrite enumerate_nth in Hk.
    destruct (nth_error flags k) eqn:E; inversion Hk; subst; auto.
  - intros H. exists (x, true); split; auto. apply filter_In; split; auto.
    apply nth_error_In with (n := x). rewrite enumerate_nth, H; reflexivity.
Qed.

Lemma filter_enum_sorted (flags : list bool) i :
  StronglySorted lt (map fst (filter (fun x => snd x) (enumerate_from i flags))) /\
  Forall (fun x => i <= x) (map fst (filter (fun x => snd x) (enumerate_from i flags))).
Proof.
  revert i; induction flags as [|b tl IH]; intros i; simpl; [split; constructor|].
  destruct (IH (S i)) as [H1 H2]. destruct b; simpl.
  - split; constructor; auto; eapply Forall_impl; try exact H2; simpl; intros; lia.
  - split; auto. eapply Forall_impl; [|exact H2]; simpl; intros; lia.
Qed.

Lemma used_sorted flags : StronglySorted lt (used_from_flags flags).
Proof. apply filter_enum_sorted. Qed.

Lemma sort_by_id (l : list nat) : StronglySorted lt l -> sort_by Nat.leb l = l.
Proof.
  induction 1 as [|x tl H IH HF]; simpl; auto. rewrite IH.
  destruct tl as [|y tl']; simpl; auto. inversion HF; subst.
  replace (x <=? y) with true; auto. symmetry; apply Nat.leb_le; lia.
Qed.

Lemma sorted_lt_NoDup l : StronglySorted lt l -> NoDup l.
Proof.
  induction 1 as [|x tl H IH HF]; constructor; auto. intros Hin.
  rewrite Forall_forall in HF. apply HF in Hin; lia.
Qed.

Lemma sorted_lt_length l n : StronglySorted lt l -> Forall (fun x => x < n) l -> length l <= n.
Proof.
  intros HS HF. apply sorted_lt_NoDup in HS.
  rewrite <- (seq_length n 0). apply NoDup_incl_length; auto.
  intros x Hx. apply in_seq. rewrite Forall_forall in HF; apply HF in Hx; lia.
Qed.

Lemma create_dict_spec input : bytes input ->
  exists used, create_dict input = Ok (used, used) /\ StronglySorted lt used /\
    (forall x, In x used <-> In x input) /\ length used <= 256.
Proof.
  intros HB. unfold create_dict.
  destruct (@mark_used_spec input (repeat false 256) HB) as (f & -> & HL & HF).
  { apply repeat_length. }
  cbn [bind]. exists (used_from_flags f).
  rewrite sort_by_id by apply used_sorted. split; auto. split; [apply used_sorted|].
  assert (forall x, In x (used_from_flags f) <-> In x input) as HI.
  { intros x. rewrite used_from_flags_In, HF. split; [|tauto].
    intros [H|H]; auto. exfalso.
    assert (x < 256) as Hx by (apply nth_error_lt in H; rewrite repeat_length in H; auto).
    rewrite nth_error_repeat in H by auto. discriminate. }
  split; auto. apply sorted_lt_length; [apply used_sorted|].
  apply Forall_forall; intros x Hx. apply HI in Hx.
  unfold bytes in HB. rewrite Forall_forall in HB. apply HB; auto.
Qed.

(** ** positions *)
Lemma find_pos_spec x dict : In x dict ->
  exists k, find_pos x dict = Ok k /\ nth_error dict k = Some x /\ k < length dict.
Proof.
  induction dict as [|d tl IH]; simpl; [tauto|]. intros H.
  destruct (Nat.eqb_spec d x) as [->|Hne]; [exists 0; repeat split; auto; lia|].
  destruct H as [->|H]; [congruence|]. destruct (IH H) as (k & -> & H1 & H2).
  exists (S k); simpl; repeat split; auto; lia.
Qed.
Lemma find_pos_nodup dict k x : NoDup dict -> nth_error dict k = Some x -> find_pos x dict = Ok k.
Proof.
  revert k; induction dict as [|d tl IH]; intros k HN Hk; [destruct k; discriminate|].
  inversion HN as [|? ? Hn HN']; subst. destruct k as [|k]; simpl in *.
  - inversion Hk; subst. rewrite Nat.eqb_refl; auto.
  - destruct (Nat.eqb_spec d x) as [->|Hne].
    + exfalso; apply Hn. eapply nth_error_In; eauto.
    + rewrite (IH k); auto.
Qed.

Lemma bring_ok dict k x : nth_error dict k = Some x ->
  bring_to_front_of_dict k dict = Ok (x :: firstn k dict ++ skipn (S k) dict).
Proof. intros H. unfold bring_to_front_of_dict. rewrite (get_at_some _ _ H). reflexivity. Qed.

Lemma bring_perm (dict : list nat) k x : nth_error dict k = Some x ->
  Permutation dict (x :: firstn k dict ++ skipn (S k) dict).
Proof.
  revert k; induction dict as [|d tl IH]; intros k H; [destruct k; discriminate|].
  destruct k as [|k]; simpl in *.
  - inversion H; subst; auto.
  - rewrite perm_swap. constructor. apply IH; auto.
Qed.

(** ** round trip, the decoder's dictionary possibly having further entries *)
Lemma mtf_loop_ok input dict : (forall x, In x input -> In x dict) ->
  exists enc, mtf_loop input dict = Ok enc /\ length enc = length input /\
    Forall (fun k => k < length dict) enc.
Proof.
  revert dict; induction input as [|v tl IH]; intros dict H.
  - exists []; simpl; repeat split; auto.
  - cbn [mtf_loop]. destruct (@find_pos_spec v dict) as (k & -> & Hk & Hlt); [apply H; left; auto|].
    cbn [bind]. rewrite (bring_ok _ _ Hk). cbn [bind].
    pose proof (bring_perm _ _ Hk) as HP.
    destruct (IH (v :: firstn k dict ++ skipn (S k) dict)) as (enc & -> & HL & HF).
    { intros x Hx. eapply Permutation_in; [exact HP|]. apply H; right; auto. }
    exists (k :: enc). cbn [bind]. split; auto. split; [simpl; lia|].
    constructor; auto. apply Permutation_length in HP. rewrite HP. exact HF.
Qed.

Lemma mtf_loop_inverse input dict extra enc : NoDup (dict ++ extra) -> length (dict ++ extra) <= 256 ->
  mtf_loop input dict = Ok enc -> inverse_mtf enc (dict ++ extra) = Ok input.
Proof.
  revert dict enc; induction input as [|v tl IH]; intros dict enc HN HL H; cbn [mtf_loop] in H.
  - inversion H; reflexivity.
  - apply bind_ok in H as (k & Hk & H). apply bind_ok in H as (dict' & Hd & H).
    apply bind_ok in H as (out & Ho & H). inversion H; subst enc; clear H.
    assert (nth_error dict k = Some v) as Hnth.
    { clear - Hk. revert k Hk; induction dict as [|d t IHd]; intros k Hk; simpl in Hk; [discriminate|].
      destruct (Nat.eqb_spec d v) as [->|]; [inversion Hk; reflexivity|].
      apply bind_ok in Hk as (k' & Hk' & E). inversion E; subst; simpl; auto. }
    rewrite (bring_ok _ _ Hnth) in Hd. inversion Hd; subst dict'; clear Hd.
    pose proof (nth_error_lt _ _ Hnth) as Hlt.
    assert (nth_error (dict ++ extra) k = Some v) as Hnth' by (rewrite nth_error_app1; auto).
    cbn [inverse_mtf]. rewrite (get_at_some _ _ Hnth'). cbn [bind].
    rewrite (find_pos_nodup _ HN Hnth'). cbn [bind].
    replace (255 <? k) with false.
    2: { symmetry; apply Nat.ltb_ge. rewrite app_length in HL. lia. }
    rewrite (bring_ok _ _ Hnth'). cbn [bind].
    assert (v :: firstn k (dict ++ extra) ++ skipn (S k) (dict ++ extra) =
            (v :: firstn k dict ++ skipn (S k) dict) ++ extra) as E.
    { rewrite firstn_app, skipn_app. replace (k - length dict) with 0 by lia.
      replace (S k - length dict) with 0 by lia. cbn [firstn skipn app].
      rewrite app_nil_r, <- app_assoc. reflexivity. }
    rewrite E.
    pose proof (bring_perm _ _ Hnth) as HP.
    rewrite (IH _ out); auto.
    + eapply Permutation_NoDup; [|exact HN]. apply Permutation_app_tail; exact HP.
    + rewrite app_length in *. apply Permutation_length in HP. rewrite <- HP; auto.
Qed.

Lemma mtf_spec input : bytes input ->
  exists enc used, mtf input = Ok (enc, used) /\ StronglySorted lt used /\
    (forall x, In x used <-> In x input) /\ length used <= 256 /\
    length enc = length input /\ Forall (fun k => k < length used) enc /\
    inverse_mtf enc used = Ok input.
Proof.
  intros HB. unfold mtf. destruct (@create_dict_spec input HB) as (used & -> & HS & HI & HL).
  cbn [bind]. destruct (@mtf_loop_ok input used) as (enc & E & Hlen & HF).
  { intros x Hx; apply HI; auto. }
  rewrite E; cbn [bind]. exists enc, used. repeat split; auto; try apply HI.
  rewrite <- (app_nil_r used). eapply mtf_loop_inverse; eauto; rewrite app_nil_r; auto.
  apply sorted_lt_NoDup; auto.
Qed.

(** * Facts about Selectors.v *)
From Verif Require Import Base BaseFacts Bitwise BitwiseFacts Mtf MtfFacts Selectors.

Lemma unary_ones p k r amount cur out rest :
  rbits r = repeat true k ++ rest -> length out < amount -> cur + k <= 255 ->
  exists r', rbits r' = rest /\ forall fuel,
    read_unary_loop p (k + fuel) r amount cur out = read_unary_loop p fuel r' amount (cur + k) out.
Proof.
  revert r cur; induction k as [|k IH]; intros r cur E Hout Hc.
  - exists r; simpl in *. rewrite Nat.add_0_r; auto.
  - cbn [repeat app] in E. destruct (read_bit_cons _ E) as (r1 & E1 & H1).
    destruct (IH r1 (cur + 1) H1 Hout) as (r' & Hr' & HE); [lia|].
    exists r'; split; auto. intros fuel. cbn [Nat.add read_unary_loop]. rewrite E1. cbn [bind].
    replace (cur =? 255) with false by (symmetry; apply Nat.eqb_neq; lia). cbn [bind].
    replace (amount <=? length out) with false by (symmetry; apply Nat.leb_gt; lia).
    rewrite HE. f_equal. lia.
Qed.

Lemma unary_loop_read p ls fuel r amount out rest :
  rbits r = flat_map unary ls ++ rest -> ls <> [] -> length out + length ls = amount ->
  Forall (fun l => l <= 255) ls -> length (flat_map unary ls) < fuel ->
  exists r', rbits r' = rest /\ read_unary_loop p fuel r amount 0 out = Ok (out ++ ls, r').
Proof.
  revert fuel r out; induction ls as [|l tl IH]; intros fuel r out E Hne HL HF Hfuel; [congruence|].
  inversion HF; subst. cbn [flat_map length] in *. rewrite <- app_assoc in E.
  rewrite app_length in Hfuel. unfold unary at 1 in E. unfold unary at 1 in Hfuel.
  rewrite app_length, repeat_length in Hfuel. cbn [length] in Hfuel. rewrite <- app_assoc in E.
  destruct (@unary_ones p l r (length out + S (length tl)) 0 out _ E) as (r1 & H1' & HE); [lia|lia|].
  replace fuel with (l + S (fuel - S l)) by lia. rewrite HE. clear HE.
  cbn [app] in H1'. destruct (read_bit_cons _ H1') as (r2 & E2 & H2').
  cbn [read_unary_loop Nat.add]. rewrite E2. cbn [bind]. rewrite app_length. cbn [length].
  destruct tl as [|l2 tl].
  - replace (length out + S (length (@nil nat)) <=? length out + 1) with true
      by (symmetry; apply Nat.leb_le; cbn [length]; lia).
    exists r2; split; auto.
  - replace (length out + S (length (l2 :: tl)) <=? length out + 1) with false
      by (symmetry; apply Nat.leb_gt; cbn [length]; lia).
    destruct (IH (fuel - S l) r2 (out ++ [l])) as (r' & Hr' & E'); auto.
    + congruence.
    + rewrite app_length; cbn [length]; lia.
    + lia.
    + exists r'; split; auto. rewrite E', <- app_assoc. reflexivity.
Qed.

Lemma reads_unary p ls : ls <> [] -> Forall (fun l => l <= 255) ls ->
  reads (fun r => read_unary p r (length ls)) (flat_map unary ls) ls.
Proof.
  intros Hne HF r rest E. unfold read_unary.
  destruct (@unary_loop_read p ls (S (bits_left r)) r (length ls) [] rest E) as (r' & Hr' & E'); auto.
  - rewrite bits_left_rbits, E, app_length. lia.
  - eauto.
Qed.

(** Selectors that use exactly the tables [0 .. k-1] (no gaps) are read back. *)
Lemma selectors_round_trip sel k num_trees :
  (forall x, In x sel <-> x < k) -> k <= num_trees -> num_trees <= 256 ->
  exists enc, create_selectors sel = Ok (flat_map unary enc, length sel) /\
    length enc = length sel /\ Forall (fun x => x <= 255) enc /\
    inverse_mtf enc (seq 0 num_trees) = Ok sel.
Proof.
  intros HI Hk Ht. unfold create_selectors.
  destruct (@mtf_spec sel) as (enc & used & E & HS & HU & HUL & HL & HF & _).
  { apply Forall_forall; intros x Hx. apply HI in Hx. unfold is_byte; lia. }
  rewrite E. cbn [bind]. exists enc.
  assert (used = seq 0 k) as ->.
  { assert (forall a n, StronglySorted lt (seq a n)) as Hseq.
    { intros a n; revert a; induction n as [|n IHn]; intros a; cbn [seq]; constructor; auto.
      apply Forall_forall; intros y Hy; apply in_seq in Hy; lia. }
    apply sorted_perm_unique with (R := lt); auto.
    - intros; lia.
    - apply NoDup_Permutation; [apply sorted_lt_NoDup; auto | apply seq_NoDup |].
      intros x. rewrite HU, HI, in_seq. lia. }
  rewrite seq_length in *.
  split; [reflexivity|]. split; [auto|]. split.
  - eapply Forall_impl; [|exact HF]. simpl; intros; lia.
  - replace num_trees with (k + (num_trees - k)) by lia. rewrite seq_app.
    apply mtf_loop_inverse with (enc := enc).
    + rewrite <- seq_app. apply seq_NoDup.
    + rewrite <- seq_app, seq_length. lia.
    + unfold mtf in E. destruct (@create_dict_spec sel) as (u2 & E2 & _ & _ & _).
      { apply Forall_forall; intros x Hx. apply HI in Hx. unfold is_byte; lia. }
      rewrite E2 in E. cbn [bind] in E. apply bind_ok in E as (e2 & E3 & E4).
      inversion E4; subst. exact E3.
Qed.

(** ** what the decoder makes of any selector list: ranks *)
Lemma find_pos_map f x dict : In x dict -> (forall a b, In a dict -> In b dict -> f a = f b -> a = b) ->
  find_pos (f x) (map f dict) = find_pos x dict.
Proof.
  induction dict as [|d dict IH]; intros Hin Hf; [easy|]. cbn [find_pos map].
  destruct (Nat.eqb_spec d x) as [->|Hne]; [rewrite Nat.eqb_refl; reflexivity|].
  destruct (Nat.eqb_spec (f d) (f x)) as [E|_]; [apply Hf in E; [congruence|left; auto|auto]|].
  destruct Hin as [->|Hin]; [congruence|]. rewrite IH; auto. intros a b Ha Hb. apply Hf; right; auto.
Qed.
Lemma mtf_loop_map f input : forall dict, (forall x, In x input -> In x dict) ->
  (forall a b, In a dict -> In b dict -> f a = f b -> a = b) -> mtf_loop (map f input) (map f dict) = mtf_loop input dict.
Proof.
  induction input as [|v input IH]; intros dict HI Hf; [reflexivity|]. cbn [map mtf_loop].
  rewrite find_pos_map by (auto; apply HI; left; auto).
  destruct (@find_pos_spec v dict) as (k & -> & Hk & Hlt); [apply HI; left; auto|]. cbn [bind].
  rewrite (bring_ok dict k Hk). cbn [bind].
  assert (nth_error (map f dict) k = Some (f v)) as Hk' by (rewrite nth_error_map, Hk; reflexivity).
  rewrite (bring_ok _ _ Hk'). cbn [bind].
  pose proof (bring_perm _ _ Hk) as HP.
  assert (f v :: firstn k (map f dict) ++ skipn (S k) (map f dict) = map f (v :: firstn k dict ++ skipn (S k) dict)) as ->.
  { cbn [map]. rewrite map_app, firstn_map, skipn_map. reflexivity. }
  rewrite IH; [reflexivity| |].
  - intros x Hx. eapply Permutation_in; [exact HP|]. apply HI. right; auto.
  - intros a b Ha Hb. apply Hf; (eapply Permutation_in; [apply Permutation_sym; exact HP|auto]).
Qed.

Definition below (used : list nat) (x : nat) : nat := length (filter (fun y => y <? x) used).
Lemma below_sorted used : StronglySorted lt used -> forall c, map (fun x => c + below used x) used = seq c (length used).
Proof.
  induction 1 as [|x used HS IH HX]; intros c; [reflexivity|]. cbn [map seq length]. f_equal.
  - unfold below. cbn [filter]. rewrite Nat.ltb_irrefl.
    replace (filter (fun y => y <? x) used) with (@nil nat); [cbn; lia|].
    symmetry. clear - HX. induction HX as [|y used Hy HX IH]; [reflexivity|]. cbn [filter].
    replace (y <? x) with false by (symmetry; apply Nat.ltb_ge; lia). auto.
  - rewrite <- (IH (S c)). apply map_ext_in. intros y Hy. unfold below. cbn [filter]. rewrite Forall_forall in HX. apply HX in Hy.
    replace (x <? y) with true by (symmetry; apply Nat.ltb_lt; lia). cbn [length]. lia.
Qed.
Lemma NoDup_map_inj (f : nat -> nat) l : NoDup (map f l) -> forall a b, In a l -> In b l -> f a = f b -> a = b.
Proof.
  induction l as [|x l IH]; intros HN a b Ha Hb E; [easy|]. cbn [map] in HN. apply NoDup_cons_iff in HN as (HX & HN).
  destruct Ha as [->|Ha], Hb as [->|Hb]; auto; exfalso; apply HX; [rewrite E|rewrite <- E]; apply in_map; auto.
Qed.

(** the number of different values in [sel] that are smaller than [x] *)
Definition rank_in (sel : list nat) (x : nat) : nat := below (nodup Nat.eq_dec sel) x.
Lemma below_perm a b x : Permutation a b -> below a x = below b x.
Proof.
  intros HP. unfold below. induction HP; cbn [filter]; auto.
  - destruct (_ <? _); cbn [length]; auto.
  - destruct (y <? x), (x0 <? x); cbn [length]; auto.
  - congruence.
Qed.
Theorem selectors_ranks sel num_trees : bytes sel -> length (nodup Nat.eq_dec sel) <= num_trees <= 256 ->
  exists enc, create_selectors sel = Ok (flat_map unary enc, length sel) /\
    length enc = length sel /\ Forall (fun x => x <= 255) enc /\
    inverse_mtf enc (seq 0 num_trees) = Ok (map (rank_in sel) sel).
Proof.
  intros HB Hn. unfold create_selectors.
  destruct (@mtf_spec sel HB) as (enc & used & E & HS & HU & HUL & HL & HF & _).
  rewrite E. cbn [bind]. exists enc.
  assert (Permutation (nodup Nat.eq_dec sel) used) as HP.
  { apply NoDup_Permutation; [apply NoDup_nodup|apply sorted_lt_NoDup; auto|]. intros x. rewrite nodup_In, HU. tauto. }
  assert (map (rank_in sel) used = seq 0 (length used)) as ER.
  { rewrite <- (below_sorted HS 0). apply map_ext. intros x. cbn [Nat.add]. unfold rank_in. apply below_perm; auto. }
  split; [reflexivity|]. split; [auto|]. split.
  - eapply Forall_impl; [|exact HF]. cbv beta; intros; lia.
  - rewrite (Permutation_length HP) in Hn.
    replace num_trees with (length used + (num_trees - length used)) by lia. rewrite seq_app.
    apply mtf_loop_inverse with (enc := enc).
    + rewrite <- seq_app. apply seq_NoDup.
    + rewrite <- seq_app, seq_length. lia.
    + rewrite <- ER. rewrite mtf_loop_map.
      * unfold mtf in E. destruct (@create_dict_spec sel HB) as (u2 & E2 & _ & _ & _).
        rewrite E2 in E. cbn [bind] in E. apply bind_ok in E as (e2 & E3 & E4). inversion E4; subst. exact E3.
      * intros x Hx. apply HU; auto.
      * apply NoDup_map_inj. rewrite ER. apply seq_NoDup.
Qed.
Lemma ranks_same sel : bytes sel -> (map (rank_in sel) sel = sel <-> exists m, forall x, In x sel <-> x < m).
Proof.
  intros HB. destruct (@mtf_spec sel HB) as (enc & used & E & HS & HU & _).
  assert (Permutation (nodup Nat.eq_dec sel) used) as HP.
  { apply NoDup_Permutation; [apply NoDup_nodup|apply sorted_lt_NoDup; auto|]. intros x. rewrite nodup_In, HU. tauto. }
  assert (map (rank_in sel) used = seq 0 (length used)) as ER.
  { rewrite <- (below_sorted HS 0). apply map_ext. intros x. cbn [Nat.add]. unfold rank_in. apply below_perm; auto. }
  split.
  - intros H. exists (length used). intros x. rewrite <- HU. rewrite <- (map_id sel) in H at 3.
    assert (used = seq 0 (length used)) as ->.
    { rewrite <- ER. rewrite <- (map_id used) at 1. apply map_ext_in. intros y Hy. apply HU in Hy.
      apply (@map_ext_in_iff _ _ (rank_in sel) (fun x => x)) in Hy; auto. }
    rewrite in_seq, seq_length. lia.
  - intros (m & Hm). rewrite <- (map_id sel) at 3. apply map_ext_in. intros x Hx. apply HU in Hx.
    assert (used = seq 0 m) as EU.
    { assert (forall a n, StronglySorted lt (seq a n)) as Hseq.
      { intros a n; revert a; induction n as [|n IHn]; intros a; cbn [seq]; constructor; auto.
        apply Forall_forall; intros y Hy; apply in_seq in Hy; lia. }
      apply sorted_perm_unique with (R := lt); auto; [intros; lia|].
      apply NoDup_Permutation; [apply sorted_lt_NoDup; auto | apply seq_NoDup |].
      intros y. rewrite HU, Hm, in_seq. lia. }
    rewrite EU in ER, Hx. rewrite seq_length in ER. rewrite <- (map_id (seq 0 m)) in ER at 2.
    apply (@map_ext_in_iff _ _ (rank_in sel) (fun x => x)) in Hx; auto.
Qed.

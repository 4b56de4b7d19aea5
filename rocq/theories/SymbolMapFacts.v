(** * Facts about SymbolMap.v: the used-symbol map round trips *)
From Verif Require Import Base BaseFacts Bitwise BitwiseFacts MtfFacts SymbolMap.

Lemma update_map_seq {A} (f g : nat -> A) a n i : i < n -> (forall j, j <> a + i -> g j = f j) ->
  update (map f (seq a n)) i (g (a + i)) = Some (map g (seq a n)).
Proof.
  revert a i; induction n as [|n IH]; intros a i Hi H; [lia|].
  destruct i as [|i]; cbn [seq map update].
  - rewrite Nat.add_0_r. do 2 f_equal. apply map_ext_in. intros j Hj. apply in_seq in Hj.
    symmetry; apply H; lia.
  - replace (a + S i) with (S a + i) by lia. rewrite IH; [|lia|].
    + rewrite H by lia. reflexivity.
    + intros j Hj; apply H; lia.
Qed.

(** the table of details for the symbols that satisfy [m] *)
Definition region_used (m : nat -> bool) (r : nat) : bool := existsb m (seq (16 * r) 16).
Definition detail (m : nat -> bool) (r : nat) : option (list bool) :=
  if region_used m r then Some (map m (seq (16 * r) 16)) else None.
Definition details (m : nat -> bool) : list (option (list bool)) := map (detail m) (seq 0 16).

Definition add_sym (m : nat -> bool) (v x : nat) : bool := m x || (x =? v).

Lemma map_seq_shift {A} (f : nat -> A) a n : map f (seq a n) = map (fun k => f (a + k)) (seq 0 n).
Proof.
  revert a; induction n as [|n IH]; intros a; [reflexivity|].
  cbn [seq map]. rewrite Nat.add_0_r. f_equal. rewrite (IH (S a)).
  rewrite <- seq_shift, map_map. apply map_ext. intros; f_equal; lia.
Qed.

Lemma mark_symbol_details m v : v < 256 ->
  mark_symbol (details m) v = Ok (details (add_sym m v)).
Proof.
  intros Hv. unfold mark_symbol.
  pose proof (Nat.div_mod v 16 ltac:(lia)) as HD.
  pose proof (Nat.mod_upper_bound v 16 ltac:(lia)) as HM.
  assert (v / 16 < 16) as Hq by (apply Nat.div_lt_upper_bound; lia).
  set (q := v / 16) in *. set (k := v mod 16) in *.
  assert (nth_error (details m) q = Some (detail m q)) as HN.
  { unfold details. rewrite nth_error_map, nth_error_seq.
    replace (q <? 16) with true by (symmetry; apply Nat.ltb_lt; auto). reflexivity. }
  rewrite (get_at_some _ _ HN). cbn [bind].
  set (given := match detail m q with Some given => given | None => repeat false 16 end).
  assert (given = map m (seq (16 * q) 16)) as ->.
  { unfold given, detail. destruct (region_used m q) eqn:E; auto.
    unfold region_used in E. rewrite map_seq_shift.
    change (repeat false 16) with (map (fun _ : nat => false) (seq 0 16)).
    apply map_ext_in. intros j Hj. apply in_seq in Hj.
    destruct (m (16 * q + j)) eqn:Em; auto.
    rewrite <- E. apply existsb_exists. exists (16 * q + j); split; auto.
    apply in_seq; lia. }
  unfold set_at at 1.
  assert (v = 16 * q + k) as Hvk by (subst q k; lia).
  replace true with (add_sym m v (16 * q + k))
    by (unfold add_sym; rewrite <- Hvk, Nat.eqb_refl, orb_true_r; reflexivity).
  rewrite update_map_seq; [|auto|].
  2: { intros j Hj. unfold add_sym. replace (j =? v) with false; [rewrite orb_false_r; auto|].
       symmetry; apply Nat.eqb_neq; lia. }
  cbn [of_option bind]. unfold set_at, details.
  replace (Some (map (add_sym m v) (seq (16 * q) 16))) with (detail (add_sym m v) (0 + q)).
  2: { cbn [Nat.add]. unfold detail.
       replace (region_used (add_sym m v) q) with true; [reflexivity|].
       symmetry. apply existsb_exists. exists v. split; [apply in_seq; lia|].
       unfold add_sym. rewrite Nat.eqb_refl, orb_true_r; reflexivity. }
  rewrite update_map_seq; [reflexivity|auto|].
  intros j Hj. cbn [Nat.add] in Hj.
  assert (forall x, In x (seq (16 * j) 16) -> add_sym m v x = m x) as HE.
  { intros x Hx. apply in_seq in Hx. unfold add_sym.
    replace (x =? v) with false; [apply orb_false_r|]. symmetry; apply Nat.eqb_neq; lia. }
  unfold detail, region_used.
  replace (existsb (add_sym m v) (seq (16 * j) 16)) with (existsb m (seq (16 * j) 16)).
  - destruct (existsb m (seq (16 * j) 16)); auto. f_equal. apply map_ext_in; auto.
  - revert HE. generalize (seq (16 * j) 16). induction l as [|x tl IH]; intros HE; [reflexivity|].
    cbn [existsb]. rewrite HE by (left; auto). rewrite IH; auto. intros y Hy; apply HE; right; auto.
Qed.

Definition mem (l : list nat) (x : nat) : bool := existsb (Nat.eqb x) l.
Lemma mem_In l x : mem l x = true <-> In x l.
Proof.
  unfold mem. rewrite existsb_exists. split.
  - intros (y & Hy & E). apply Nat.eqb_eq in E; subst; auto.
  - intros H; exists x; split; auto. apply Nat.eqb_refl.
Qed.

Lemma fold_mark table m : bytes table ->
  exists m', fold_res mark_symbol table (details m) = Ok (details m') /\
    forall x, m' x = m x || mem table x.
Proof.
  revert m; induction table as [|v tl IH]; intros m HB.
  - exists m; split; [reflexivity|]. intros x; rewrite orb_false_r; reflexivity.
  - inversion HB; subst. cbn [fold_res]. rewrite mark_symbol_details by auto. cbn [bind].
    destruct (IH (add_sym m v)) as (m' & -> & Hm'); auto. exists m'; split; auto.
    intros x. rewrite Hm'. unfold add_sym, mem. cbn [existsb]. rewrite orb_assoc. reflexivity.
Qed.

Definition map_bits (m : nat -> bool) : list bool :=
  map (region_used m) (seq 0 16) ++
  flat_map (fun r => if region_used m r then map m (seq (16 * r) 16) else []) (seq 0 16).

Lemma write_symbol_table_spec table : bytes table ->
  write_symbol_table table = Ok (map_bits (mem table)).
Proof.
  intros HB. unfold write_symbol_table.
  change (repeat None 16) with (details (fun _ => false)).
  destruct (@fold_mark table (fun _ => false) HB) as (m' & -> & Hm'). cbn [bind]. f_equal.
  assert (forall r, map m' r = map (mem table) r) as HE.
  { intros l; apply map_ext; intros x; rewrite Hm'; reflexivity. }
  assert (forall r, region_used m' r = region_used (mem table) r) as HR.
  { intros r; unfold region_used. generalize (seq (16 * r) 16).
    induction l as [|x tl IH]; [reflexivity|]. cbn [existsb]. rewrite IH, Hm'. reflexivity. }
  unfold map_bits, details. f_equal.
  - rewrite map_map. apply map_ext. intros r. unfold detail. rewrite HR.
    destruct (region_used (mem table) r); reflexivity.
  - generalize (seq 0 16). induction l as [|r tl IH]; [reflexivity|].
    cbn [map flat_map]. rewrite IH. f_equal. unfold detail. rewrite HR.
    destruct (region_used (mem table) r); auto.
Qed.

(** ** reading *)
Lemma filter_enumerate (f : nat -> bool) a n :
  map fst (filter (fun x => snd x) (enumerate_from a (map f (seq a n)))) = filter f (seq a n).
Proof.
  revert a; induction n as [|n IH]; intros a; [reflexivity|].
  cbn [seq map enumerate_from filter snd]. destruct (f a); cbn [map fst]; rewrite IH; reflexivity.
Qed.

Lemma regions_symbols (m : nat -> bool) rs :
  get_used_symbols_from_regions rs (flat_map (fun r => map m (seq (16 * r) 16)) rs) =
  flat_map (fun r => filter m (seq (16 * r) 16)) rs.
Proof.
  unfold get_used_symbols_from_regions. induction rs as [|r tl IH]; [reflexivity|].
  cbn [flat_map].
  assert (forall (X Y : list (nat * nat)) (U V : list bool), length X = length U ->
            combine (X ++ Y) (U ++ V) = combine X U ++ combine Y V) as HC.
  { induction X as [|x X IHX]; intros Y [|u U] V HL; try discriminate; [reflexivity|].
    cbn [app combine]. rewrite IHX by (simpl in HL; lia). reflexivity. }
  rewrite HC by (rewrite !map_length, !seq_length; reflexivity). rewrite flat_map_app, IH. f_equal.
  assert (forall n a, flat_map (fun x : nat * nat * bool =>
              let '(position, region, used) := x in
              if used then [region * 16 + position] else [])
             (combine (map (fun position => (position, r)) (seq a n))
                      (map m (seq (16 * r + a) n))) = filter m (seq (16 * r + a) n)) as HG.
  { induction n as [|n IHn]; intros a; [reflexivity|].
    cbn [seq map combine flat_map filter].
    replace (S (16 * r + a)) with (16 * r + S a) by lia. rewrite IHn.
    replace (r * 16 + a) with (16 * r + a) by lia.
    destruct (m (16 * r + a)); reflexivity. }
  specialize (HG 16 0). rewrite Nat.add_0_r in HG. exact HG.
Qed.

Lemma filter_seq_app (m : nat -> bool) a n k :
  filter m (seq a (n + k)) = filter m (seq a n) ++ filter m (seq (a + n) k).
Proof. rewrite seq_app, filter_app. reflexivity. Qed.

Lemma flat_map_regions (m : nat -> bool) a n :
  flat_map (fun r => filter m (seq (16 * r) 16)) (seq a n) = filter m (seq (16 * a) (16 * n)).
Proof.
  revert a; induction n as [|n IH]; intros a; [reflexivity|].
  cbn [seq flat_map]. rewrite IH. replace (16 * S n) with (16 + 16 * n) by lia.
  rewrite filter_seq_app. do 3 f_equal. lia.
Qed.

Lemma unused_region m r : region_used m r = false -> filter m (seq (16 * r) 16) = [].
Proof.
  unfold region_used. generalize (seq (16 * r) 16). induction l as [|x tl IH]; [reflexivity|].
  cbn [existsb filter]. intros H. apply orb_false_iff in H as [-> H]. auto.
Qed.

Lemma flat_map_filter_regions {B} (m : nat -> bool) (f : nat -> list B) rs :
  (forall r, region_used m r = false -> f r = []) ->
  flat_map f (filter (region_used m) rs) = flat_map f rs.
Proof.
  intros H. induction rs as [|r tl IH]; [reflexivity|]. cbn [filter flat_map].
  destruct (region_used m r) eqn:E; cbn [flat_map]; rewrite IH; auto.
  rewrite H; auto.
Qed.

Lemma filter_mem_sorted used : StronglySorted lt used -> bytes used ->
  filter (mem used) (seq 0 256) = used.
Proof.
  intros HS HB.
  assert (forall a n, StronglySorted lt (filter (mem used) (seq a n)) /\
                      Forall (fun x => a <= x) (filter (mem used) (seq a n))) as HF.
  { intros a n; revert a; induction n as [|n IH]; intros a; cbn [seq filter]; [split; constructor|].
    destruct (IH (S a)) as [H1 H2].
    assert (Forall (fun x => a < x) (filter (mem used) (seq (S a) n))) as H3
      by (eapply Forall_impl; [|exact H2]; simpl; intros; lia).
    destruct (mem used a); split; auto; try constructor; auto;
      eapply Forall_impl; try exact H3; simpl; intros; lia. }
  apply sorted_perm_unique with (R := lt).
  - intros; lia.
  - apply HF.
  - exact HS.
  - apply NoDup_Permutation.
    + apply sorted_lt_NoDup, HF.
    + apply sorted_lt_NoDup, HS.
    + intros x. rewrite filter_In, in_seq, mem_In. split; [tauto|].
      intros Hx; split; auto. unfold bytes in HB. rewrite Forall_forall in HB.
      apply HB in Hx. unfold is_byte in Hx. lia.
Qed.

Lemma reads_symbol_table used : StronglySorted lt used -> bytes used ->
  reads read_symbol_table (map_bits (mem used)) used.
Proof.
  intros HS HB r rest E. unfold map_bits in E. rewrite <- app_assoc in E.
  set (m := mem used) in *.
  assert (length (map (region_used m) (seq 0 16)) = 16) as H16 by reflexivity.
  destruct (reads_bits _ H16 r _ E) as (r1 & E1 & H1).
  unfold read_symbol_table. rewrite E1. cbn [bind]. unfold get_used_regions, enumerate.
  rewrite filter_enumerate.
  assert (flat_map (fun r => if region_used m r then map m (seq (16 * r) 16) else []) (seq 0 16) =
          flat_map (fun r => map m (seq (16 * r) 16)) (filter (region_used m) (seq 0 16))) as HE.
  { rewrite <- (@flat_map_filter_regions _ m
                  (fun r => if region_used m r then map m (seq (16 * r) 16) else [])).
    - generalize (seq 0 16). induction l as [|x tl IH]; [reflexivity|]. cbn [filter].
      destruct (region_used m x) eqn:Ex; cbn [flat_map]; rewrite ?Ex, ?IH; auto.
    - intros r0 ->; reflexivity. }
  rewrite HE in H1.
  assert (length (flat_map (fun r => map m (seq (16 * r) 16)) (filter (region_used m) (seq 0 16)))
          = 16 * length (filter (region_used m) (seq 0 16))) as HL.
  { generalize (filter (region_used m) (seq 0 16)). induction l as [|x tl IH]; [reflexivity|].
    cbn [flat_map]. rewrite app_length, IH, map_length, seq_length. cbn [length]. lia. }
  destruct (reads_bits _ HL r1 _ H1) as (r2 & E2 & H2). rewrite E2. cbn [bind].
  exists r2; split; auto. do 2 f_equal.
  rewrite regions_symbols. rewrite flat_map_filter_regions by apply unused_region.
  rewrite flat_map_regions. apply filter_mem_sorted; auto.
Qed.

(** * The reference decoder reads what the encoder writes *)
From Coq Require Import Permutation Sorted.
From Verif Require Import Base BaseFacts Bitwise BitwiseFacts SpecBits SpecCrc SpecRle SpecBzip2
  Rle RleFacts Mtf MtfFacts Crc32 Crc32Facts SpecBwt LexFacts Bwt BwtFacts RestoreFacts UnsortFacts Zle ZleFacts
  PackageMerge PackageMergeFacts SymbolStatistics Huffman HuffmanFacts GroupFacts CodeTable CodeTableFacts
  SymbolMap SymbolMapFacts Selectors BlockEncoder BlockFacts Stream StreamFacts RoundTripFacts.

Definition gets {A} (f : list bool -> option (A * list bool)) (bits : list bool) (a : A) : Prop :=
  forall rest, f (bits ++ rest) = Some (a, rest).

Lemma gets_bits n l : length l = n -> gets (get_bits n) l l.
Proof.
  intros <- rest. unfold get_bits. rewrite app_length.
  replace (length l <=? length l + length rest) with true by (symmetry; apply Nat.leb_le; lia).
  rewrite firstn_app, firstn_all, Nat.sub_diag, firstn_O, app_nil_r.
  rewrite skipn_app, skipn_all, Nat.sub_diag. reflexivity.
Qed.

Lemma gets_number n v : n <= 64 -> (v < 2 ^ N.of_nat n)%N -> gets (get_number n) (pad v n) v.
Proof.
  intros Hn Hv rest. unfold get_number. rewrite gets_bits by (apply pad_n_length; auto).
  rewrite number_bval, pad_n_value. reflexivity.
Qed.

(** ** symbol map *)
Lemma flagged_spec (m : nat -> bool) a n : flagged a (map m (seq a n)) = filter m (seq a n).
Proof.
  revert a; induction n as [|n IH]; intros a; [reflexivity|]. cbn [seq map flagged filter].
  rewrite IH. destruct (m a); reflexivity.
Qed.

Lemma gets_ranges (m : nat -> bool) rs :
  gets (get_ranges rs) (flat_map (fun r => map m (seq (16 * r) 16)) rs)
       (flat_map (fun r => filter m (seq (16 * r) 16)) rs).
Proof.
  induction rs as [|r rs IH]; intros rest; cbn [get_ranges flat_map]; [reflexivity|].
  rewrite <- app_assoc. rewrite gets_bits by (rewrite map_length, seq_length; auto).
  rewrite IH, flagged_spec. reflexivity.
Qed.

Lemma flat_map_ext_in' {A B} (f g : A -> list B) l : (forall x, In x l -> f x = g x) -> flat_map f l = flat_map g l.
Proof.
  induction l as [|x l IH]; intros H; [reflexivity|]. cbn [flat_map]. rewrite H by (left; auto).
  rewrite IH; auto. intros; apply H; right; auto.
Qed.

Lemma gets_used used : StronglySorted lt used -> bytes used -> gets get_used (map_bits (mem used)) used.
Proof.
  intros HS HB rest. unfold get_used, map_bits. rewrite <- app_assoc.
  rewrite gets_bits by (rewrite map_length, seq_length; auto).
  rewrite (flagged_spec (region_used (mem used)) 0 16).
  rewrite <- (@flat_map_filter_regions _ (mem used)
     (fun r => if region_used (mem used) r then map (mem used) (seq (16 * r) 16) else [])).
  2:{ intros r ->. auto. }
  rewrite (@flat_map_ext_in' _ _ _ (fun r => map (mem used) (seq (16 * r) 16))).
  2:{ intros r Hr. apply filter_In in Hr as (_ & ->). auto. }
  rewrite gets_ranges. do 2 f_equal.
  rewrite flat_map_filter_regions by (intros; apply unused_region; auto).
  rewrite flat_map_regions. apply filter_mem_sorted; auto.
Qed.

(** ** selectors *)
Lemma gets_unary k : gets get_unary (unary k) k.
Proof.
  unfold unary. induction k as [|k IH]; intros rest; [reflexivity|]. cbn [repeat app get_unary]. rewrite IH. auto.
Qed.
Lemma gets_unaries ks : gets (get_unaries (length ks)) (flat_map unary ks) ks.
Proof.
  induction ks as [|k ks IH]; intros rest; [reflexivity|]. cbn [length flat_map get_unaries].
  rewrite <- app_assoc, gets_unary, IH. auto.
Qed.

Lemma unmove_inverse ks dict out : NoDup dict -> inverse_mtf ks dict = Ok out -> unmove ks dict = Some out.
Proof.
  revert dict out; induction ks as [|k ks IH]; intros dict out ND H; cbn [inverse_mtf unmove] in *.
  - injection H as <-. auto.
  - apply bind_ok in H as (v & Hv & H). apply bind_ok in H as (pos & Hp & H).
    unfold get_at in Hv. destruct (nth_error dict k) as [w|] eqn:E; [|discriminate]. injection Hv as ->.
    rewrite (@find_pos_nodup _ _ _ ND E) in Hp. injection Hp as <-.
    destruct (255 <? k); [discriminate|]. rewrite (bring_ok _ _ E) in H. cbn [bind] in H.
    apply bind_ok in H as (o & Ho & H). injection H as <-.
    rewrite (IH (v :: firstn k dict ++ skipn (S k) dict) o); auto.
    eapply Permutation_NoDup; [|exact ND]. apply bring_perm; auto.
Qed.

(** ** code lengths *)
Lemma get_length_inc k cur bs : 1 <= cur -> cur + k <= 20 ->
  get_length cur (dbits (repeat Increase k) ++ false :: bs) = Some (cur + k, bs).
Proof.
  revert cur; induction k as [|k IH]; intros cur H1 H2; cbn [repeat].
  - cbn [dbits flat_map app get_length].
    replace ((1 <=? cur) && (cur <=? 20)) with true; [do 2 f_equal; lia|].
    symmetry. apply andb_true_iff. split; apply Nat.leb_le; lia.
  - cbn [dbits flat_map app delta_bits get_length].
    replace ((1 <=? cur) && (cur <=? 20)) with true by (symmetry; apply andb_true_iff; split; apply Nat.leb_le; lia).
    fold (dbits (repeat Increase k)). rewrite IH by lia. do 2 f_equal. lia.
Qed.
Lemma get_length_dec k cur bs : cur <= 20 -> 1 <= cur - k ->
  get_length cur (dbits (repeat Decrease k) ++ false :: bs) = Some (cur - k, bs).
Proof.
  revert cur; induction k as [|k IH]; intros cur H1 H2; cbn [repeat].
  - cbn [dbits flat_map app get_length].
    replace ((1 <=? cur) && (cur <=? 20)) with true; [do 2 f_equal; lia|].
    symmetry. apply andb_true_iff. split; apply Nat.leb_le; lia.
  - cbn [dbits flat_map app delta_bits get_length].
    replace ((1 <=? cur) && (cur <=? 20)) with true by (symmetry; apply andb_true_iff; split; apply Nat.leb_le; lia).
    fold (dbits (repeat Decrease k)). rewrite IH by lia. do 2 f_equal. lia.
Qed.

Definition legal (l : nat) : Prop := 1 <= l <= 17.

Lemma gets_delta ls : Forall legal ls -> forall cur, legal cur ->
  gets (get_lengths (length ls) cur) (dbits (delta_loop cur ls)) ls.
Proof.
  unfold legal. induction 1 as [|l ls Hl HF IH]; intros cur Hc rest; [reflexivity|].
  cbn [length get_lengths delta_loop]. rewrite dbits_app, <- app_assoc.
  unfold delta_step. rewrite dbits_app, <- app_assoc. change (dbits [Stop]) with [false]. cbn [app].
  assert (get_length cur (dbits (match cur ?= l with Gt => repeat Decrease (cur - l) | Lt => repeat Increase (l - cur) | Eq => [] end)
            ++ false :: dbits (delta_loop l ls) ++ rest) = Some (l, dbits (delta_loop l ls) ++ rest)) as ->.
  { destruct (Nat.compare_spec cur l) as [->|H|H].
    - pose proof (@get_length_inc 0 l (dbits (delta_loop l ls) ++ rest)) as G. rewrite Nat.add_0_r in G. apply G; lia.
    - rewrite get_length_inc by lia. do 2 f_equal. lia.
    - rewrite get_length_dec by lia. do 2 f_equal. lia. }
  rewrite IH by auto. reflexivity.
Qed.

Lemma gets_table ls : ls <> [] -> Forall legal ls -> gets (get_table (length ls)) (encode_bit_lengths ls) ls.
Proof.
  intros Hne HF rest. destruct ls as [|v tl]; [congruence|]. inversion HF as [|? ? Hv HF']; subst.
  unfold encode_bit_lengths, encode_delta. rewrite delta_loop_self.
  change (flat_map delta_bits (delta_loop v (v :: tl))) with (dbits (delta_loop v (v :: tl))).
  unfold get_table. rewrite <- app_assoc. rewrite gets_number; [|lia|unfold legal in Hv; change (2 ^ N.of_nat 5)%N with 32%N; lia].
  rewrite Nat2N.id. apply gets_delta; auto.
Qed.

Lemma gets_tables used tables : 1 <= used -> good_tables used tables ->
  gets (get_tables (length tables) (used + 2))
    (flat_map (fun T => encode_bit_lengths (code_lengths T)) tables) (map code_lengths tables).
Proof.
  intros Hu. unfold good_tables. induction 1 as [|T tables HT HF IH]; intros rest; [reflexivity|].
  destruct HT as (A & B & _). cbn [length get_tables flat_map map]. rewrite <- app_assoc.
  assert (length (code_lengths T) = used + 2) as HL.
  { unfold code_lengths. rewrite map_length, <- (map_length snd), A. apply alphabet_length; auto. }
  rewrite <- HL at 1. rewrite gets_table; auto.
  - rewrite IH. reflexivity.
  - intros E. rewrite E in HL. cbn [length] in HL. lia.
Qed.

(** ** the codes the format prescribes are the ones the encoder uses *)
Lemma canon_value L V es cs c s : canon L V es cs -> In (c, s) cs ->
  exists pre post, es = pre ++ (length c, s) :: post /\
    (bval c * 2 ^ N.of_nat (L - length c) = V + kraftN L pre)%N.
Proof.
  revert V cs; induction es as [|[l s1] es IH]; intros V [|[c1 s1'] cs] H Hin; try contradiction.
  destruct H as (-> & <- & HV & H). destruct Hin as [Heq|Hin].
  - injection Heq as -> ->. exists [], es. split; auto. unfold kraftN. cbn [map sumN fold_right]. lia.
  - destruct (IH _ _ H Hin) as (pre & post & -> & E). exists ((length c1, s1) :: pre), post. split; auto.
    rewrite E. unfold kraftN. cbn [map fst]. change (sumN (?a :: ?b)) with (a + sumN b)%N. lia.
Qed.

Definition beforeb (y x : nat * hsym) : bool := entry_order y x && negb (entry_order x y).

Lemma beforeb_spec y x : beforeb y x = true <-> entle y x /\ y <> x.
Proof.
  unfold beforeb. rewrite andb_true_iff, negb_true_iff, entry_order_entle. split.
  - intros (H & E). split; auto. intros ->. assert (entry_order x x = true); [|congruence].
    apply entry_order_entle. destruct (entle_total x x); auto.
  - intros (H & E). split; auto. destruct (entry_order x y) eqn:G; auto.
    apply entry_order_entle in G. exfalso. apply E. apply entle_anti; auto.
Qed.

Lemma filter_all {A} (f : A -> bool) l : Forall (fun x => f x = true) l -> filter f l = l.
Proof. induction 1 as [|x l Hx H IH]; [reflexivity|]. cbn [filter]. rewrite Hx, IH. auto. Qed.
Lemma filter_none {A} (f : A -> bool) l : Forall (fun x => f x = false) l -> filter f l = [].
Proof. induction 1 as [|x l Hx H IH]; [reflexivity|]. cbn [filter]. rewrite Hx, IH. auto. Qed.

Lemma sorted_filter pre x post : StronglySorted entle (pre ++ x :: post) -> NoDup (pre ++ x :: post) ->
  filter (fun y => beforeb y x) (pre ++ x :: post) = pre.
Proof.
  intros HS ND. rewrite filter_app. cbn [filter].
  apply NoDup_remove_2 in ND.
  replace (beforeb x x) with false.
  2:{ symmetry. destruct (beforeb x x) eqn:E; auto. apply beforeb_spec in E. tauto. }
  rewrite filter_all, filter_none, app_nil_r; auto.
  - assert (StronglySorted entle (x :: post)) as H2.
    { clear ND. induction pre as [|z pre IH]; auto. inversion HS; auto. }
    inversion H2 as [|? ? _ HF]; subst. eapply Forall_impl; [|exact HF]. intros y Hy.
    destruct (beforeb y x) eqn:E; auto. apply beforeb_spec in E as (E1 & E2). exfalso. apply E2.
    apply entle_anti; auto.
  - apply Forall_forall. intros y Hy. apply beforeb_spec. split.
    + clear ND. induction pre as [|z pre IH]; [destruct Hy|]. inversion HS as [|? ? HS' HF]; subst.
      destruct Hy as [->|Hy]; auto. rewrite Forall_forall in HF. apply HF. apply in_or_app. right; left; auto.
    + intros ->. apply ND. apply in_or_app; auto.
Qed.

Lemma kraftN_app L a b : kraftN L (a ++ b) = (kraftN L a + kraftN L b)%N.
Proof. unfold kraftN. rewrite map_app. apply sumN_app. Qed.
Lemma kraftN_perm L a b : Permutation a b -> kraftN L a = kraftN L b.
Proof. intros P. unfold kraftN. apply sumN_perm, Permutation_map; auto. Qed.
Lemma filter_perm {A} (f : A -> bool) a b : Permutation a b -> Permutation (filter f a) (filter f b).
Proof.
  induction 1 as [|x a b H IH|x y a|a b c H IH H' IH']; cbn [filter]; auto.
  - destruct (f x); auto.
  - destruct (f x), (f y); auto. apply perm_swap.
  - eapply perm_trans; eauto.
Qed.

(** the code space used by lengths below [l] *)
Definition below (L l : nat) (ls : list nat) : N :=
  sumN (map (fun a => if a <? l then (2 ^ N.of_nat (L - a))%N else 0%N) ls).
Lemma below_app L l a b : below L l (a ++ b) = (below L l a + below L l b)%N.
Proof. unfold below. rewrite map_app. apply sumN_app. Qed.

Lemma below_succ L l ls : below L (S l) ls = (below L l ls + count_length ls l * 2 ^ N.of_nat (L - l))%N.
Proof.
  unfold below, count_length. induction ls as [|a ls IH]; [reflexivity|].
  cbn [map count_occ]. change (sumN (?a :: ?b)) with (a + sumN b)%N. rewrite IH.
  destruct (Nat.eq_dec a l) as [->|Hne].
  - replace (l <? S l) with true by (symmetry; apply Nat.ltb_lt; lia).
    replace (l <? l) with false by (symmetry; apply Nat.ltb_ge; lia).
    rewrite Nat2N.inj_succ. lia.
  - destruct (Nat.ltb_spec a (S l)), (Nat.ltb_spec a l); lia.
Qed.

Lemma first_code_below L ls l : l <= L -> (first_code ls l * 2 ^ N.of_nat (L - l) = below L l ls)%N.
Proof.
  induction l as [|l IH]; intros H; cbn [first_code].
  - unfold below. induction ls as [|a ls IHl]; [reflexivity|]. cbn [map]. change (sumN (?a :: ?b)) with (a + sumN b)%N.
    rewrite <- IHl. reflexivity.
  - rewrite below_succ, <- IH by lia.
    replace (L - l) with (S (L - S l)) by lia. rewrite Nat2N.inj_succ, N.pow_succ_r'. lia.
Qed.

(** the code space before one entry, by index *)
Lemma kraft_filter_le L l (P : nat * hsym -> bool) (ls : list nat) ss : length ls = length ss ->
  (forall a s, In s ss -> P (a, s) = (a <=? l)) ->
  kraftN L (filter P (combine ls ss)) = below L (S l) ls.
Proof.
  revert ss; induction ls as [|a ls IH]; intros [|s ss] HL HP; try discriminate; [reflexivity|].
  cbn [combine filter]. rewrite HP by (left; auto). unfold below in *. cbn [map]. change (sumN (?a :: ?b)) with (a + sumN b)%N.
  rewrite <- (IH ss); [|cbn [length] in HL; lia|intros; apply HP; right; auto].
  destruct (Nat.leb_spec a l), (Nat.ltb_spec a (S l)); try lia; reflexivity.
Qed.
Lemma kraft_filter_lt L l (P : nat * hsym -> bool) (ls : list nat) ss : length ls = length ss ->
  (forall a s, In s ss -> P (a, s) = (a <? l)) ->
  kraftN L (filter P (combine ls ss)) = below L l ls.
Proof.
  revert ss; induction ls as [|a ls IH]; intros [|s ss] HL HP; try discriminate; [reflexivity|].
  cbn [combine filter]. rewrite HP by (left; auto). unfold below in *. cbn [map]. change (sumN (?a :: ?b)) with (a + sumN b)%N.
  rewrite <- (IH ss); [|cbn [length] in HL; lia|intros; apply HP; right; auto].
  destruct (Nat.ltb_spec a l); try lia; reflexivity.
Qed.

Lemma combine_app {A B} (a a' : list A) (b b' : list B) : length a = length b ->
  combine (a ++ a') (b ++ b') = combine a b ++ combine a' b'.
Proof.
  revert b; induction a as [|x a IH]; intros [|y b] H; try discriminate; [reflexivity|].
  cbn [app combine]. f_equal. apply IH. cbn [length] in H; lia.
Qed.

Lemma beforeb_order a s l s' : s <> s' -> hle s s' -> beforeb (a, s) (l, s') = (a <=? l).
Proof.
  intros Hne Hs. destruct (Nat.leb_spec a l) as [H|H].
  - apply beforeb_spec. split; [|intros E; injection E as _ E; auto].
    unfold entle. cbn [fst snd]. destruct (Nat.eq_dec a l); auto. left. lia.
  - destruct (beforeb (a, s) (l, s')) eqn:E; auto. apply beforeb_spec in E as (E & _). unfold entle in E. cbn [fst snd] in E. lia.
Qed.
Lemma beforeb_order' a s l s' : s <> s' -> hle s' s -> beforeb (a, s) (l, s') = (a <? l).
Proof.
  intros Hne Hs. destruct (Nat.ltb_spec a l) as [H|H].
  - apply beforeb_spec. split; [|intros E; injection E as _ E; auto].
    unfold entle. cbn [fst snd]. left. lia.
  - destruct (beforeb (a, s) (l, s')) eqn:E; auto. apply beforeb_spec in E as (E & _). unfold entle in E. cbn [fst snd] in E.
    destruct E as [E|(E1 & E2)]; [lia|]. exfalso. apply Hne. apply hle_anti; auto.
Qed.

Lemma ssorted_split (pre post : list hsym) s : StronglySorted hle (pre ++ s :: post) ->
  (forall y, In y pre -> hle y s) /\ (forall y, In y post -> hle s y).
Proof.
  induction pre as [|z pre IH]; cbn [app]; intros H; inversion H as [|? ? H1 HF]; subst.
  - split; [intros y []|]. rewrite Forall_forall in HF. auto.
  - destruct (IH H1) as (A & B). split; auto. intros y [->|Hy]; auto.
    rewrite Forall_forall in HF. apply HF. apply in_or_app; right; left; auto.
Qed.

Definition canonical_for (T : canonical_table) : Prop :=
  forall i c s, nth_error T i = Some (c, s) -> bval c = code_of (code_lengths T) i.

Lemma nth_error_split_combine {A B} (l : list A) (l' : list B) : length l = length l' ->
  forall i x y, nth_error l i = Some x -> nth_error l' i = Some y ->
  exists a a' b b', l = a ++ x :: a' /\ l' = b ++ y :: b' /\ length a = i /\ length b = i /\ length a' = length b'.
Proof.
  intros HL i x y Hx Hy. apply nth_error_split in Hx as (a & a' & -> & E1).
  apply nth_error_split in Hy as (b & b' & -> & E2). exists a, a', b, b'.
  rewrite !app_length in HL. cbn [length] in HL. repeat split; auto. lia.
Qed.

Theorem codes_canonical_gen L used T t' : L < 64 -> 1 <= used -> map snd T = alphabet used ->
  Forall (fun l => 1 <= l <= L) (code_lengths T) -> from_weights (code_lengths T) = Ok t' ->
  (kraftN L t' <= 2 ^ N.of_nat L)%N -> canonicalize Checked t' = Ok T -> canonical_for T.
Proof.
  intros HL64 Hu A B Et HK Ec.
  assert (length (code_lengths T) = used + 2) as HL.
  { unfold code_lengths. rewrite map_length, <- (map_length snd), A. apply alphabet_length; auto. }
  assert (t' = combine (code_lengths T) (alphabet used)) as ET'.
  { unfold from_weights in Et. rewrite HL in Et.
    destruct (used + 2 <? 3); [discriminate|]. destruct (258 <? used + 2); [discriminate|].
    injection Et as <-. f_equal. unfold alphabet. replace (used + 2 - 3) with (used - 1) by lia. auto. }
  assert (map snd t' = alphabet used) as Es by (rewrite ET'; apply map_snd_combine; rewrite alphabet_length; lia).
  assert (map fst t' = code_lengths T) as Ef by (rewrite ET'; apply map_fst_combine; rewrite alphabet_length; lia).
  assert (Forall (fun x => fst x <= L) t') as F17.
  { rewrite <- Ef in B. rewrite Forall_map in B. eapply Forall_impl; [|exact B]. cbv beta. intros; lia. }
  destruct (@canonicalize_ok Checked L t') as (T' & E' & _ & _ & _ & cs & CC & PC); auto.
  { intros E. rewrite E in Ef. cbn [map] in Ef. rewrite <- Ef in HL. cbn [length] in HL. lia. }
  rewrite Ec in E'. injection E' as <-.
  intros i c s Hi. 
  assert (In (c, s) cs) as Hcs by (eapply Permutation_in; [symmetry; exact PC|eapply nth_error_In; eauto]).
  destruct (@canon_value _ _ _ _ _ _ CC Hcs) as (pre & post & Ees & EV).
  assert (NoDup t') as NDt.
  { apply (NoDup_map_inv snd). rewrite Es. apply alphabet_NoDup. }
  assert (NoDup (pre ++ (length c, s) :: post)) as ND.
  { rewrite <- Ees. eapply Permutation_NoDup; [apply sort_by_perm|auto]. }
  pose proof (entry_order_sorted t') as SS. rewrite Ees in SS.
  rewrite <- (sorted_filter _ _ _ SS ND) in EV. rewrite <- Ees in EV.
  rewrite (kraftN_perm L (filter_perm _ (Permutation_sym (sort_by_perm entry_order t')))) in EV.
  rewrite ET' in EV.
  assert (nth_error (code_lengths T) i = Some (length c)) as N1 by (unfold code_lengths; rewrite nth_error_map, Hi; auto).
  assert (nth_error (alphabet used) i = Some s) as N2 by (rewrite <- A, nth_error_map, Hi; auto).
  destruct (@nth_error_split_combine _ _ (code_lengths T) (alphabet used)) with (i := i) (x := length c) (y := s)
    as (a & a' & b & b' & Ea & Eb & La & Lb & Lab); auto.
  { rewrite alphabet_length; lia. }
  pose proof (alphabet_sorted used) as AS. pose proof (alphabet_NoDup used) as AN.
  rewrite Eb in AS, AN, EV. destruct (ssorted_split _ _ _ AS) as (S1 & S2).
  apply NoDup_remove_2 in AN.
  rewrite Ea in EV. rewrite combine_app in EV by lia. cbn [combine] in EV. rewrite filter_app in EV. cbn [filter] in EV.
  replace (beforeb (length c, s) (length c, s)) with false in EV.
  2:{ symmetry. destruct (beforeb (length c, s) (length c, s)) eqn:E; auto. apply beforeb_spec in E. tauto. }
  rewrite kraftN_app in EV.
  rewrite (@kraft_filter_le L (length c)) in EV; [|lia|].
  2:{ intros x y Hy. apply beforeb_order; auto. intros ->. apply AN. apply in_or_app; auto. }
  rewrite (@kraft_filter_lt L (length c)) in EV; [|lia|].
  2:{ intros x y Hy. apply beforeb_order'; auto. intros ->. apply AN. apply in_or_app; auto. }
  assert (1 <= length c <= L) as Hc.
  { rewrite Forall_forall in B. apply B. rewrite Ea. apply in_or_app; right; left; auto. }
  assert (below L (length c) (code_lengths T) = below L (length c) a + below L (length c) a')%N as EB.
  { rewrite Ea, below_app. unfold below at 2. cbn [map]. change (sumN (?a :: ?b)) with (a + sumN b)%N.
    replace (length c <? length c) with false by (symmetry; apply Nat.ltb_ge; lia). reflexivity. }
  rewrite below_succ in EV.
  unfold code_of. rewrite (nth_error_nth _ _ 0 N1).
  replace (firstn i (code_lengths T)) with a.
  2:{ rewrite Ea, <- La, firstn_app, firstn_all, Nat.sub_diag, firstn_O, app_nil_r. auto. }
  pose proof (@first_code_below L (code_lengths T) (length c) ltac:(lia)) as FC.
  assert (0 < 2 ^ N.of_nat (L - length c))%N as Hp by (apply N.neq_0_lt_0, N.pow_nonzero; discriminate).
  apply N.mul_cancel_r with (p := (2 ^ N.of_nat (L - length c))%N); lia.
Qed.

Theorem codes_canonical used T tables : 1 <= used -> good_tables used tables -> In T tables -> canonical_for T.
Proof.
  intros Hu HG Hin. unfold good_tables in HG. rewrite Forall_forall in HG.
  destruct (HG T Hin) as (A & B & C & D & t' & Et & Ec). clear HG Hin tables.
  apply (@codes_canonical_gen 17 used T t'); auto; [lia|].
  assert (length (code_lengths T) = used + 2) as HL.
  { unfold code_lengths. rewrite map_length, <- (map_length snd), A. apply alphabet_length; auto. }
  assert (map fst t' = code_lengths T) as Ef.
  { unfold from_weights in Et. rewrite HL in Et.
    destruct (used + 2 <? 3); [discriminate|]. destruct (258 <? used + 2); [discriminate|].
    injection Et as <-. apply map_fst_combine. rewrite HL. cbn [app length].
    rewrite app_length, map_length, seq_length. cbn [length]. lia. }
  assert (Forall (fun x => fst x <= 17) t') as F17.
  { rewrite <- Ef in B. rewrite Forall_map in B. eapply Forall_impl; [|exact B]. cbv beta. intros; lia. }
  rewrite <- kraft_kraftN by auto. rewrite Ef, C. vm_compute. discriminate.
Qed.

(** ** reading symbols *)
Definition zindex (s : zsym) : nat := match s with RunA => 0 | RunB => 1 | Number v => S v end.
Definition hindex (used : nat) (s : hsym) : nat := match s with Normal z => zindex z | EoB => used + 1 end.

Lemma bval_inj a b : length a = length b -> bval a = bval b -> a = b.
Proof.
  intros HL HV. rewrite <- (@pad_eq (bval a) (length a) a), <- (@pad_eq (bval b) (length b) b); auto.
  rewrite HL, HV. auto.
Qed.

Lemma symbol_with_none T c0 : canonical_for T -> prefix_free T ->
  (forall c s, In (c, s) T -> c <> c0) -> symbol_with (code_lengths T) (length c0) (bval c0) = None.
Proof.
  intros HC PF HN. unfold symbol_with. destruct (find _ _) as [j|] eqn:E; auto. exfalso.
  apply find_some in E as (Hj & E). apply in_seq in Hj. apply andb_true_iff in E as (E1 & E2).
  apply Nat.eqb_eq in E1. apply N.eqb_eq in E2.
  destruct (nth_error T j) as [[c s]|] eqn:EJ.
  2:{ apply nth_error_None in EJ. unfold code_lengths in Hj. rewrite map_length in Hj. lia. }
  apply (HN c s); [eapply nth_error_In; eauto|]. apply bval_inj.
  - assert (nth_error (code_lengths T) j = Some (length c)) as G by (unfold code_lengths; rewrite nth_error_map, EJ; auto).
    rewrite <- E1. symmetry. apply nth_error_nth; auto.
  - rewrite (HC _ _ _ EJ). auto.
Qed.

Lemma symbol_with_hit T i c s : canonical_for T -> prefix_free T -> NoDup (map snd T) ->
  nth_error T i = Some (c, s) -> symbol_with (code_lengths T) (length c) (bval c) = Some i.
Proof.
  intros HC PF ND Hi. unfold symbol_with. destruct (find _ _) as [j|] eqn:E.
  - apply find_some in E as (Hj & E). apply in_seq in Hj. apply andb_true_iff in E as (E1 & E2).
    apply Nat.eqb_eq in E1. apply N.eqb_eq in E2.
    destruct (nth_error T j) as [[c' s']|] eqn:EJ.
    2:{ apply nth_error_None in EJ. unfold code_lengths in Hj. rewrite map_length in Hj. lia. }
    assert (c' = c) as ->.
    { apply bval_inj.
      - assert (nth_error (code_lengths T) j = Some (length c')) as G by (unfold code_lengths; rewrite nth_error_map, EJ; auto).
        rewrite <- E1. symmetry. apply nth_error_nth; auto.
      - rewrite (HC _ _ _ EJ). auto. }
    assert ((c, s) = (c, s')) as G.
    { apply (PF _ _ []); try (eapply nth_error_In; eauto). rewrite app_nil_r. auto. }
    injection G as <-. f_equal.
    eapply (proj1 (NoDup_nth_error (map snd T)) ND).
    + rewrite map_length. apply nth_error_Some. rewrite EJ. discriminate.
    + rewrite !nth_error_map, EJ, Hi. auto.
  - exfalso. eapply find_none in E; [|apply in_seq; split; [lia|]].
    + cbv beta in E. assert (nth_error (code_lengths T) i = Some (length c)) as G by (unfold code_lengths; rewrite nth_error_map, Hi; auto).
      rewrite (nth_error_nth _ _ 0 G), Nat.eqb_refl, (HC _ _ _ Hi), N.eqb_refl in E. discriminate.
    + cbn [Nat.add]. unfold code_lengths. rewrite map_length. apply nth_error_Some. congruence.
Qed.

Lemma gets_symbol T i c s : canonical_for T -> prefix_free T -> NoDup (map snd T) -> 1 <= length c ->
  nth_error T i = Some (c, s) -> gets (get_symbol (code_lengths T) 0 0) c i.
Proof.
  intros HC PF ND Hl Hi rest.
  assert (forall c2 c1, c = c1 ++ c2 -> c2 <> [] ->
            get_symbol (code_lengths T) (length c1) (bval c1) (c2 ++ rest) = Some (i, rest)) as G.
  { induction c2 as [|b c2 IH]; intros c1 E Hne; [congruence|]. cbn [app get_symbol].
    assert (S (length c1) = length (c1 ++ [b])) as EL by (rewrite app_length; cbn [length]; lia).
    assert ((2 * bval c1 + (if b then 1 else 0))%N = bval (c1 ++ [b])) as EV.
    { unfold bval. rewrite fold_left_app. cbn [fold_left]. destruct b; reflexivity || (cbn; lia). }
    rewrite EL, EV. destruct c2 as [|b2 c2].
    - rewrite <- E. rewrite (@symbol_with_hit T i c s) by auto. reflexivity.
    - rewrite symbol_with_none; auto.
      + apply IH; [|discriminate]. rewrite <- app_assoc. auto.
      + intros c' s' Hin ->. assert ((c1 ++ [b], s') = (c, s)) as G.
        { apply (PF _ _ (b2 :: c2)); auto; [eapply nth_error_In; eauto|]. cbn [fst]. rewrite E, <- app_assoc. auto. }
        injection G as G _. rewrite <- G in E. 
        apply (f_equal (@length _)) in E. rewrite !app_length in E. cbn [length] in E. lia. }
  apply (G c []); auto. intros ->. cbn [length] in Hl. lia.
Qed.

Lemma alphabet_nth used s : 1 <= used -> match s with Normal (Number v) => 1 <= v < used | _ => True end ->
  nth_error (alphabet used) (hindex used s) = Some s.
Proof.
  intros Hu Hs. rewrite alphabet_indices by auto. destruct s as [z|]; cbn [hindex].
  - assert (zindex z < used + 1) as Hz by (destruct z; cbn [zindex]; lia).
    rewrite nth_error_app1 by (rewrite map_length, seq_length; auto).
    rewrite nth_error_map. rewrite (nth_error_nth' _ 0) by (rewrite seq_length; auto).
    rewrite seq_nth by auto. cbn [option_map Nat.add]. destruct z as [| |v]; cbn [zindex alphabet_index]; auto.
    destruct v as [|v]; [lia|]. cbn; do 2 f_equal.
  - rewrite nth_error_app2 by (rewrite map_length, seq_length; auto). rewrite map_length, seq_length, Nat.sub_diag. auto.
Qed.

(** the alphabet, its codes, and what the group reader needs *)
Definition table_spec (used : nat) (T : canonical_table) : Prop :=
  canonical_for T /\ good_table T /\ map snd T = alphabet used.

Lemma good_spec used tables T : 1 <= used -> good_tables used tables -> In T tables -> table_spec used T.
Proof.
  intros Hu HG Hin. split; [eapply codes_canonical; eauto|]. split; [eapply good_table_of; eauto|].
  unfold good_tables in HG. rewrite Forall_forall in HG. apply HG; auto.
Qed.

Lemma symbol_code_in T s : In s (map snd T) -> NoDup (map snd T) -> In (symbol_code T s, s) T.
Proof.
  intros Hin ND. apply in_map_iff in Hin as ([c s'] & E & Hin). cbn [snd] in E; subst s'.
  unfold symbol_code. rewrite (@find_symbol T c s); auto.
Qed.

Lemma gets_coded used T s : 1 <= used -> table_spec used T ->
  match s with Normal (Number v) => 1 <= v < used | _ => True end ->
  gets (get_symbol (code_lengths T) 0 0) (symbol_code T s) (hindex used s).
Proof.
  intros Hu (HC & (PF & ND & HL) & A) Hs.
  pose proof (@alphabet_nth used s Hu Hs) as HN. rewrite <- A in HN.
  assert (In (symbol_code T s, s) T) as Hin.
  { apply symbol_code_in; auto. eapply nth_error_In; eauto. }
  rewrite nth_error_map in HN. destruct (nth_error T (hindex used s)) as [[c s']|] eqn:E; [|discriminate].
  cbn [option_map snd] in HN. injection HN as ->.
  assert (symbol_code T s = c) as ->.
  { apply nth_error_In in E. pose proof (@find_symbol T c s) as F. unfold symbol_code. rewrite F; auto. }
  eapply gets_symbol; eauto. rewrite Forall_forall in HL. apply nth_error_In in E. apply (HL _ E).
Qed.

Lemma group_full used T ss : 1 <= used -> table_spec used T -> Forall (sym_below used) ss ->
  forall rest, get_group (length ss) (code_lengths T) (used + 1) (concat (map (fun s => symbol_code T (Normal s)) ss) ++ rest)
    = Some (map zindex ss, false, rest).
Proof.
  intros Hu HT. induction 1 as [|s ss Hs HF IH]; intros rest; [reflexivity|].
  cbn [length map concat get_group]. rewrite <- app_assoc.
  rewrite (@gets_coded used T (Normal s)); auto.
  cbn [hindex]. replace (zindex s =? used + 1) with false.
  2:{ symmetry. apply Nat.eqb_neq. destruct s; cbn in *; lia. }
  rewrite IH. reflexivity.
Qed.

Lemma group_last used T ss n : 1 <= used -> table_spec used T -> Forall (sym_below used) ss -> length ss < n ->
  forall rest, get_group n (code_lengths T) (used + 1)
    (concat (map (fun s => symbol_code T (Normal s)) ss) ++ symbol_code T EoB ++ rest) = Some (map zindex ss, true, rest).
Proof.
  intros Hu HT HF. revert n; induction HF as [|s ss Hs HF IH]; intros n Hn rest;
    (destruct n as [|n]; [cbn [length] in Hn; lia|]); cbn [length map concat get_group app].
  - rewrite (@gets_coded used T EoB); auto. cbn [hindex]. rewrite Nat.eqb_refl. auto.
  - rewrite <- app_assoc. rewrite (@gets_coded used T (Normal s)); auto.
    cbn [hindex]. replace (zindex s =? used + 1) with false.
    2:{ symmetry. apply Nat.eqb_neq. destruct s; cbn in *; lia. }
    rewrite IH by (cbn [length] in Hn; lia). reflexivity.
Qed.

Lemma groups_spec used tables : 1 <= used -> good_tables used tables -> forall sel k zle full,
  (forall i, nth_error sel i = nth_error full (k + i)) ->
  length sel = length zle / 50 + 1 ->
  Forall (fun s => s < length tables) sel ->
  Forall (sym_below used) zle ->
  exists codes T e, map_res (code_at tables full) (enumerate_from (50 * k) zle) = Ok codes /\
    table_at tables full (50 * k + length zle) = Ok T /\
    find_first (fun e => hsym_eqb (snd e) EoB) T = Some e /\
    gets (get_symbols sel (map code_lengths tables) (used + 1)) (concat codes ++ fst e) (map zindex zle, 0).
Proof.
  intros Hu HG. induction sel as [|s sel IH]; intros k zle full Hfull HL HS HC; [simpl in HL; lia|].
  inversion HS as [|? ? Hs HS']; subst.
  destruct (nth_error tables s) as [T|] eqn:ET; [|apply nth_error_None in ET; lia].
  assert (nth_error full k = Some s) as Hk by (rewrite <- (Nat.add_0_r k), <- Hfull; auto).
  assert (In T tables) as HinT by (eapply nth_error_In; eauto).
  pose proof (@good_spec used tables T Hu HG HinT) as TS.
  assert (nth_error (map code_lengths tables) s = Some (code_lengths T)) as ETL by (rewrite nth_error_map, ET; auto).
  destruct (Nat.lt_ge_cases (length zle) 50) as [Hlt|Hge].
  - rewrite Nat.div_small in HL by auto. destruct sel; [|simpl in HL; lia].
    pose proof (@code_group tables full T k s zle 0 Hk ET ltac:(lia)) as E.
    rewrite Nat.add_0_r in E.
    pose proof TS as (_ & (_ & ND & _) & A).
    pose proof (@symbol_code_in T EoB) as Hin. rewrite A in Hin at 1. specialize (Hin (alphabet_eob used) ND).
    exists (map (fun s => symbol_code T (Normal s)) zle), T, (symbol_code T EoB, EoB).
    split; auto. split.
    { unfold table_at. rewrite (Nat.mul_comm 50 k), Nat.add_comm, Nat.div_add, Nat.div_small by lia.
      rewrite Nat.add_0_l. rewrite (get_at_some _ _ Hk). cbn [bind]. apply get_at_some; auto. }
    split. { apply find_symbol; auto. }
    intros rest. cbn [get_symbols fst]. rewrite ETL, <- app_assoc, (@group_last used T zle 50) by auto. auto.
  - set (a := firstn 50 zle). set (b := skipn 50 zle).
    assert (zle = a ++ b) as Ez by (symmetry; apply firstn_skipn).
    assert (length a = 50) as Ha by (unfold a; rewrite firstn_length; lia).
    assert (length zle = 50 + length b) as Hlen by (rewrite Ez, app_length; lia).
    assert (length zle / 50 = length b / 50 + 1) as Hdiv.
    { rewrite Hlen. replace (50 + length b) with (length b + 1 * 50) by lia.
      rewrite Nat.div_add; lia. }
    rewrite Ez in HC. apply Forall_app in HC as (HCa & HCb).
    destruct (IH (S k) b full) as (codes & T' & e & E1 & E2 & E3 & E4); auto.
    { intros i. replace (S k + i) with (k + S i) by lia. rewrite <- Hfull. reflexivity. }
    { cbn [length] in HL. lia. }
    pose proof (@code_group tables full T k s a 0 Hk ET ltac:(lia)) as Ea.
    rewrite Nat.add_0_r in Ea.
    exists (map (fun s => symbol_code T (Normal s)) a ++ codes), T', e.
    split.
    { rewrite Ez at 1. rewrite enumerate_from_app. rewrite (map_res_app _ _ _ Ea).
      replace (50 * k + length a) with (50 * S k) by lia. rewrite E1. reflexivity. }
    split. { replace (50 * k + length zle) with (50 * S k + length b) by lia. auto. }
    split; auto.
    rewrite concat_app, <- app_assoc.
    intros rest. rewrite <- app_assoc. cbn [get_symbols]. rewrite ETL.
    pose proof (@group_full used T a Hu TS HCa) as GF. rewrite Ha in GF. rewrite GF.
    rewrite E4. rewrite Ez, map_app. auto.
Qed.

Theorem data_spec used tables sel zle bits : 1 <= used -> good_tables used tables ->
  length sel = length zle / 50 + 1 -> Forall (fun s => s < length tables) sel -> Forall (sym_below used) zle ->
  encode_data tables sel zle = Ok bits ->
  gets (get_symbols sel (map code_lengths tables) (used + 1)) bits (map zindex zle, 0).
Proof.
  intros Hu HG HL HS HC E.
  destruct (@groups_spec used tables Hu HG sel 0 zle sel) as (codes & T & e & E1 & E2 & E3 & E4); auto.
  unfold encode_data in E. change (enumerate zle) with (enumerate_from (50 * 0) zle) in E.
  unfold code_at in E1. rewrite E1 in E. cbn [bind] in E.
  change (50 * 0 + length zle) with (length zle) in E2. rewrite E2 in E. cbn [bind] in E.
  rewrite E3 in E. cbn [of_option bind] in E. injection E as <-. auto.
Qed.

(** ** zero runs *)
Lemma unrun_digits l tl w r :
  unrun (map zindex (map convert_remainder l) ++ tl) w r =
  unrun tl (w * 2 ^ length l) (r + w * (N.to_nat (lval l) + 2 ^ length l - 1)).
Proof.
  revert w r; induction l as [|b l IH]; intros w r.
  - cbn [map app length lval]. change (N.to_nat 0 + 2 ^ 0 - 1) with 0. rewrite Nat.mul_0_r, Nat.add_0_r.
    change (2 ^ 0) with 1. rewrite Nat.mul_1_r. auto.
  - cbn [map app unrun]. assert (1 <= 2 ^ length l) as Hp by (apply Nat.neq_0_lt_0, Nat.pow_nonzero; lia).
    cbn [length lval]. rewrite Nat.pow_succ_r'. destruct b; cbn [convert_remainder zindex Nat.eqb b2n]; rewrite IH; f_equal; nia.
Qed.

Lemma unrun_run z tl w : unrun (map zindex (run_syms z) ++ tl) 1 0 = unrun tl (if 0 <? z then w else 1) z \/
  exists w', unrun (map zindex (run_syms z) ++ tl) 1 0 = unrun tl w' z.
Proof.
  right. unfold run_syms. destruct (Nat.ltb_spec 0 z) as [H|H].
  - destruct (encode_zero_split z) as (l & E & ->). rewrite unrun_digits.
    pose proof (lval_low_bits (N.of_nat z + 1)) as HV. rewrite E, lval_app in HV.
    cbn [lval b2n] in HV. eexists. f_equal.
    assert (N.to_nat (2 ^ N.of_nat (length l)) = 2 ^ length l) as EP.
    { rewrite N2Nat.inj_pow, Nat2N.id. reflexivity. }
    lia.
  - exists 1. replace z with 0 by lia. reflexivity.
Qed.

Lemma unrun_zsyms input z : unrun (map zindex (zsyms z input)) 1 0 = repeat 0 z ++ input.
Proof.
  revert z; induction input as [|i tl IH]; intros z; cbn [zsyms].
  - destruct (unrun_run z [] 1) as [E|(w & E)]; rewrite app_nil_r in E; rewrite E; cbn [unrun]; rewrite app_nil_r; auto.
  - destruct (Nat.eqb_spec i 0) as [->|Hi].
    + rewrite IH. rewrite repeat_app, <- app_assoc. reflexivity.
    + rewrite map_app. destruct (unrun_run z (map zindex (Number i :: zsyms 0 tl)) 1) as [E|(w & E)]; rewrite E;
        cbn [map zindex unrun]; destruct i as [|i]; try lia; cbn [Nat.eqb]; rewrite IH; cbn [repeat app];
        rewrite Nat.sub_succ, Nat.sub_0_r; auto.
Qed.

(** ** blocks *)

Lemma good_tables_prefix used tables : good_tables used tables -> forallb prefix_lengths (map code_lengths tables) = true.
Proof.
  intros H. rewrite forallb_forall. intros ls Hls. apply in_map_iff in Hls as (T & <- & HT).
  unfold good_tables in H. rewrite Forall_forall in H. destruct (H T HT) as (_ & B & C & _).
  unfold prefix_lengths. apply N.leb_le.
  assert (forall l, Forall (fun x => 1 <= x <= 17) l ->
    (fold_right (fun l sum => 2 ^ N.of_nat (20 - l) + sum) 0 l = 8 * N.of_nat (kraft 17 l))%N) as G.
  { clear. induction 1 as [|x l Hx _ IH]; [reflexivity|]. cbn [fold_right]. rewrite IH.
    change (kraft 17 (x :: l)) with (2 ^ (17 - x) + kraft 17 l). rewrite Nat2N.inj_add, N.mul_add_distr_l. f_equal.
    replace (20 - x) with (3 + (17 - x)) by lia. rewrite Nat2N.inj_add, N.pow_add_r.
    change (2 ^ N.of_nat 3)%N with 8%N. f_equal. rewrite Nat2N.inj_pow. reflexivity. }
  rewrite (G _ B), C. vm_compute. discriminate.
Qed.

(** up to the block size test *)
Lemma block_spec_size level p st q b rest : bytes q -> encodes p st q b -> (N.of_nat (length (coded q)) <= 1000000)%N ->
  2 <= length (bp_tables b) <= 6 ->
  exists col, bwt_spec (coded q) col (bp_ptr b) /\
  get_block level (block_body (crc32 q) b ++ rest) =
    if (N.of_nat (length (coded q)) <=? 100000 * level)%N
    then get! block := unsort col (bp_ptr b) in
         get! _ := guard (crc32_bzip2 (rle1_expand block) =? crc32 q)%N in
         Some (mk_parsed (rle1_expand block) (crc32 q) block 0, rest)
    else None.
Proof.
  intros HB (_ & PO) HL HT6.
  destruct PO as (col & enc & SP & SU & IU & LU & BU & LE & FE & IE & EZ & HT & GT & LS & FS & LN & FN & IN & ED & _).
  pose proof (bwt_length SP) as LC.
  assert (bp_ptr b < length (coded q)) as HP by (destruct SP as (i & sa & SP'); cbv zeta in SP'; tauto).
  pose proof (crc32_lt HB) as HC.
  assert (N.of_nat (length (bp_sel b)) < 32768)%N as HSel.
  { rewrite LS. pose proof (zsyms_length 0 enc) as LZ. rewrite <- EZ in LZ.
    pose proof (Nat.mul_div_le (length (bp_syms b)) 50 ltac:(lia)) as LS'. lia. }
  assert (Forall (sym_below (length (bp_used b))) (bp_syms b)) as FB by (rewrite EZ; apply zsyms_below; auto).
  exists col. split; auto.
  unfold get_block, block_body. rewrite <- !app_assoc.
  rewrite gets_number; [|lia|exact HC].
  change ([false] ++ ?x) with (pad 0 1 ++ x). rewrite gets_number; [|lia|reflexivity]. cbn [guard N.eqb].
  rewrite gets_number; [|lia|change (2 ^ N.of_nat 24)%N with 16777216%N; lia].
  rewrite gets_used by auto.
  replace (1 <=? length (bp_used b)) with true by (symmetry; apply Nat.leb_le; lia). cbn [guard].
  rewrite gets_number; [|lia|change (2 ^ N.of_nat 3)%N with 8%N; lia].
  replace ((2 <=? N.of_nat (length (bp_tables b))) && (N.of_nat (length (bp_tables b)) <=? 6))%N with true.
  2:{ symmetry. apply andb_true_iff. split; apply N.leb_le; lia. }
  cbn [guard].
  rewrite gets_number; [|lia|change (2 ^ N.of_nat 15)%N with 32768%N; lia].
  replace (1 <=? N.of_nat (length (bp_sel b)))%N with true by (symmetry; apply N.leb_le; lia). cbn [guard].
  rewrite !Nat2N.id. rewrite <- LN. rewrite gets_unaries.
  rewrite (@unmove_inverse _ _ (bp_sel b)); auto using seq_NoDup.
  rewrite (@gets_tables (length (bp_used b))) by (auto; lia).
  replace (forallb prefix_lengths (map code_lengths (bp_tables b))) with true
    by (symmetry; eapply good_tables_prefix; exact GT). cbn [guard].
  rewrite (@data_spec (length (bp_used b)) (bp_tables b) (bp_sel b) (bp_syms b) (bp_data b)) by (auto; lia).
  rewrite EZ, unrun_zsyms. cbn [repeat app].
  rewrite (@unmove_inverse _ _ col); auto using sorted_lt_NoDup.
  rewrite LC. destruct (_ <=? _)%N; reflexivity.
Qed.

Theorem block_spec level p st q b rest : bytes q -> encodes p st q b -> reversible (coded q) ->
  (N.of_nat (length (coded q)) <= 1000000)%N -> (N.of_nat (length (coded q)) <= 100000 * level)%N ->
  2 <= length (bp_tables b) <= 6 ->
  get_block level (block_body (crc32 q) b ++ rest) = Some (mk_parsed q (crc32 q) (coded q) 0, rest).
Proof.
  intros HB HE HS HL HL' HT6. destruct (@block_spec_size level p st q b rest HB HE HL HT6) as (col & SP & ->).
  replace (_ <=? _)%N with true by (symmetry; apply N.leb_le; lia).
  rewrite (unsort_reversible SP HS). cbv zeta.
  assert (rle1_expand (coded q) = q) as ->.
  { pose proof (rle_lossless q) as H. rewrite rle_runs in H. exact H. }
  rewrite <- crc32_correct, N.eqb_refl by auto. reflexivity.
Qed.

(** ** the stream *)
Lemma magic_bits : bytes_bits block_magic = pad BLOCK_MAGIC 48.
Proof. reflexivity. Qed.
Lemma footer_magic_bits : bytes_bits footer_magic = pad FOOTER_MAGIC 48.
Proof. reflexivity. Qed.

Definition block_readable (level : N) (q : list nat) (b : block_parts) : Prop :=
  forall rest, get_block level (block_body (crc32 q) b ++ rest) = Some (mk_parsed q (crc32 q) (coded q) 0, rest).

Lemma get_blocks_ok level ps bs : Forall2 (block_readable level) ps bs -> forall fuel crcs rest total,
  combined_crc (crcs ++ map crc32 ps) = total -> (total < M32)%N -> length ps < fuel ->
  get_blocks fuel level crcs (concat (map (fun x => block_bits (crc32 (fst x)) (snd x)) (combine ps bs))
     ++ bytes_bits footer_magic ++ pad total 32 ++ rest) = Some (map (fun q => mk_parsed q (crc32 q) (coded q) 0) ps, rest).
Proof.
  induction 1 as [|q b ps bs HR HF IH]; intros fuel crcs rest total HT HM HL;
    (destruct fuel as [|fuel]; [lia|]); cbn [get_blocks combine map concat app fst snd].
  - rewrite footer_magic_bits, gets_number by (auto; try lia; reflexivity).
    change (FOOTER_MAGIC =? BLOCK_MAGIC)%N with false. rewrite N.eqb_refl.
    rewrite gets_number; [|lia|exact HM]. cbn [map] in HT. rewrite app_nil_r in HT. rewrite HT, N.eqb_refl. reflexivity.
  - rewrite block_bits_body, <- !app_assoc. rewrite magic_bits, gets_number by (auto; try lia; reflexivity).
    rewrite N.eqb_refl. rewrite HR. rewrite IH; auto.
    + rewrite <- app_assoc. exact HT.
    + cbn [length] in HL. lia.
Qed.

Lemma bytes_prefix h l rest : bytes h -> bytes l -> bytes_bits l = bytes_bits h ++ rest ->
  exists tl, l = h ++ tl /\ bytes_bits tl = rest.
Proof.
  intros Hh; revert l. induction Hh as [|x h Hx Hh IH]; intros l Hl E.
  - exists l. auto.
  - destruct l as [|y l].
    { apply (f_equal (@length _)) in E. rewrite app_length, !bytes_bits_length in E. cbn [length] in E. lia. }
    inversion Hl; subst. cbn [bytes_bits flat_map] in E. rewrite <- app_assoc in E.
    assert (x = y /\ bytes_bits l = bytes_bits h ++ rest) as (-> & E').
    { assert (length (byte_bits y) = length (byte_bits x)) as LB by reflexivity.
      assert (byte_bits y = byte_bits x) as EB.
      { apply (f_equal (firstn 8)) in E. exact E. }
      split.
      - symmetry. apply byte_bits_inj; auto.
      - rewrite EB in E. apply app_inv_head in E. exact E. }
    destruct (IH l) as (tl & -> & Et); auto. exists tl. auto.
Qed.

Theorem stream_readable ps bs w k : Forall2 (block_readable 9) ps bs -> Forall bytes ps -> bytes w -> k < 8 ->
  bytes_bits w = stream_bits ps bs ++ repeat false k -> bunzip2 w = Some (concat ps).
Proof.
  intros HF HB HW Hk E. unfold stream_bits in E. rewrite <- app_assoc in E.
  assert (bytes [66; 90; 104; 57]) as H9 by (unfold bytes; repeat (apply Forall_cons; [unfold is_byte; lia|]); apply Forall_nil).
  destruct (bytes_prefix _ H9 HW E) as (tl & -> & Et).
  unfold bunzip2. cbn [app bunzip2_blocks]. change ((49 <=? 57) && (57 <=? 57)) with true. cbn [guard].
  rewrite bits_of_bytes, Et. rewrite <- !app_assoc. cbv zeta.
  change (N.of_nat (57 - 48)) with 9%N.
  rewrite get_blocks_ok with (ps := ps); auto.
  - rewrite repeat_length. replace (k <? 8) with true by (symmetry; apply Nat.ltb_lt; auto).
    cbn [guard]. unfold contents_of. rewrite map_map. cbn [pb_contents]. rewrite map_id. reflexivity.
  - cbn [app]. assert (Forall (fun c => c < M32)%N (map crc32 ps)) as HC.
    { rewrite Forall_map. eapply Forall_impl; [|exact HB]. intros; apply crc32_lt; auto. }
    unfold combined_crc. rewrite <- total_crc_combined; auto; [|reflexivity]. apply total_crc_lt; auto. reflexivity.
  - rewrite app_length. pose proof (Forall2_len HF) as L2. pose proof (blocks_length _ _ L2). lia.
Qed.

Theorem reference_pieces p st data ps bs w k : bytes data -> cuts data ps -> Forall2 (encodes p st) ps bs ->
  Forall (fun q => reversible (coded q) /\ fits_level9 q) ps ->
  Forall (fun b => 2 <= length (bp_tables b) <= 6) bs ->
  bytes w -> k < 8 -> bytes_bits w = stream_bits ps bs ++ repeat false k -> bunzip2 w = Some data.
Proof.
  intros HB HC H2 HS HT HW Hk E. destruct (cuts_pieces HC) as (EC & _ & _).
  assert (Forall bytes ps) as HBP by (apply Forall_concat; rewrite EC; auto).
  rewrite <- EC. apply stream_readable with (bs := bs) (k := k); auto.
  clear - H2 HBP HS HT. induction H2 as [|q b ps bs HQ H2 IH]; [constructor|].
  inversion HBP; inversion HS as [|? ? (S1 & S2)]; inversion HT; subst. constructor; auto.
  intros rest. unfold fits_level9 in *. eapply block_spec; eauto; lia.
Qed.

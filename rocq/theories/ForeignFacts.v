(** * The decoder on streams made by other encoders *)
From Coq Require Import Sorting.Sorted Sorting.Permutation Wellfounded.
From Verif Require Import Base BaseFacts SpecBits SpecCrc SpecRle SpecBwt SpecBzip2 SpecStream Bitwise BitwiseFacts Rle RleFacts
  Mtf MtfFacts Crc32 Crc32Facts LexFacts Bwt BwtFacts UnsortFacts Zle ZleFacts SymbolStatistics PackageMerge PackageMergeFacts
  Huffman HuffmanFacts CodeTable CodeTableFacts SymbolMap SymbolMapFacts Selectors SelectorsFacts BlockEncoder BlockDecoder
  BlockFacts Stream StreamFacts RoundTripFacts DecodeFacts ReferenceFacts.

(** ** run-length code *)
(** In the last three cases the decoder is ahead by one: it counts the last count byte as
    the first byte of a run. *)
Lemma irle_plain l :
  (forall out last run, 1 <= run <= 4 -> plain_counts_from last run l = true ->
     ir_out (fold_left irle_step l (mk_irle out (run - 1) (Some last))) = out ++ rle1_expand_from last run l) /\
  (forall out c, plain_counts_from 0 0 l = true -> three_more c l = false ->
     ir_out (fold_left irle_step l (mk_irle out 0 (Some c))) = out ++ rle1_expand_from 0 0 l) /\
  (forall out c, plain_counts_from c 1 l = true -> three_more c (c :: l) = false ->
     ir_out (fold_left irle_step l (mk_irle out 1 (Some c))) = out ++ rle1_expand_from c 1 l) /\
  (forall out c, plain_counts_from c 2 l = true -> three_more c (c :: c :: l) = false ->
     ir_out (fold_left irle_step l (mk_irle out 2 (Some c))) = out ++ rle1_expand_from c 2 l).
Proof.
  induction l as [|x l (IH1 & IH2 & IH3 & IH4)].
  { cbn [fold_left ir_out rle1_expand_from]. repeat split; intros; rewrite app_nil_r; reflexivity. }
  cbn [fold_left plain_counts_from rle1_expand_from]. unfold irle_step at 2 4 6 8. cbn [ir_prev ir_equal ir_out].
  split; [|split; [|split]].
  - intros out last run Hr. destruct (Nat.eqb_spec run 4) as [->|Hne].
    + cbn [Nat.sub Nat.eqb]. intros H. apply andb_true_iff in H as (H1 & H2). apply negb_true_iff in H1.
      rewrite (IH2 _ _ H2 H1), <- app_assoc. reflexivity.
    + replace (run - 1 =? 3) with false by (symmetry; apply Nat.eqb_neq; lia).
      replace (1 <=? run) with true by (symmetry; apply Nat.leb_le; lia). cbn [andb].
      rewrite (Nat.eqb_sym last x). destruct (Nat.eqb_spec x last) as [->|Hx]; intros H.
      * replace (S (run - 1)) with (S run - 1) by lia. rewrite IH1 by (auto; lia). rewrite <- app_assoc. reflexivity.
      * change 0 with (1 - 1) at 1. rewrite IH1 by (auto; lia). rewrite <- app_assoc. reflexivity.
  - intros out c. cbn [Nat.eqb Nat.leb andb]. intros H HT. destruct (Nat.eqb_spec c x) as [->|Hx].
    + rewrite IH3; auto. 
      * rewrite <- app_assoc. reflexivity.
      
    + change 0 with (1 - 1) at 1. rewrite IH1 by (auto; lia). rewrite <- app_assoc. reflexivity.
  - intros out c. cbn [Nat.eqb Nat.leb andb]. rewrite (Nat.eqb_sym c x). destruct (Nat.eqb_spec x c) as [->|Hx]; intros H HT.
    + rewrite IH4; auto. rewrite <- app_assoc. reflexivity.
    + change 0 with (1 - 1) at 1. rewrite IH1 by (auto; lia). rewrite <- app_assoc. reflexivity.
  - intros out c. cbn [Nat.eqb Nat.leb andb]. rewrite (Nat.eqb_sym c x). destruct (Nat.eqb_spec x c) as [->|Hx]; intros H HT.
    + destruct l as [|y l].
      * cbn [fold_left ir_out rle1_expand_from]. reflexivity.
      * cbn [three_more] in HT. rewrite !Nat.eqb_refl in HT. discriminate.
    + change 0 with (1 - 1) at 1. rewrite IH1 by (auto; lia). rewrite <- app_assoc. reflexivity.
Qed.
Theorem inverse_rle_plain l : plain_counts l = true -> inverse_rle l = rle1_expand l.
Proof.
  unfold plain_counts, inverse_rle, rle1_expand. destruct l as [|x l]; [reflexivity|].
  cbn [plain_counts_from rle1_expand_from fold_left Nat.eqb Nat.leb andb]. unfold irle_step at 2. cbn [ir_prev ir_out ir_equal app].
  intros H. change 0 with (1 - 1) at 1. rewrite (proj1 (irle_plain l)) by (auto; lia). reflexivity.
Qed.

(** ** the decoder follows the reference *)
Definition follows {A} (f : bit_reader -> res (A * bit_reader)) (bs : list bool) (a : A) (rest : list bool) : Prop :=
  forall r, rbits r = bs -> exists r', f r = Ok (a, r') /\ rbits r' = rest.

Lemma follows_reads {A} (f : bit_reader -> res (A * bit_reader)) u a rest : reads f u a -> follows f (u ++ rest) a rest.
Proof. intros H r E. apply H; auto. Qed.
Lemma follows_bind {A B} (f : bit_reader -> res (A * bit_reader)) (g : A -> bit_reader -> res (B * bit_reader)) bs a mid b rest :
  follows f bs a mid -> follows (g a) mid b rest -> follows (fun r => let! (x, r) := f r in g x r) bs b rest.
Proof. intros H1 H2 r E. destruct (H1 r E) as (r1 & -> & E1). cbn [bind]. apply H2; auto. Qed.
Lemma follows_unwrap {A} (f : bit_reader -> res (A * bit_reader)) bs a rest :
  follows f bs a rest -> follows (fun r => unwrap (f r)) bs a rest.
Proof. intros H r E. destruct (H r E) as (r1 & -> & E1). cbn [unwrap]. eauto. Qed.
Lemma follows_pure {A B} (m : res A) (g : A -> bit_reader -> res (B * bit_reader)) bs a b rest :
  m = Ok a -> follows (g a) bs b rest -> follows (fun r => let! x := m in g x r) bs b rest.
Proof. intros -> H. exact H. Qed.
Lemma follows_ret {A} (a : A) bs : follows (fun r => Ok (a, r)) bs a bs.
Proof. intros r E. eauto. Qed.

Lemma get_bits_inv n bs x rest : get_bits n bs = Some (x, rest) -> bs = x ++ rest /\ length x = n.
Proof.
  unfold get_bits. destruct (Nat.leb_spec n (length bs)); [|discriminate]. intros E. injection E as <- <-.
  rewrite firstn_skipn, firstn_length. split; auto. lia.
Qed.
Lemma follows_bits n bs x rest : get_bits n bs = Some (x, rest) -> follows (fun r => read_bits r n) bs x rest.
Proof. intros H. apply get_bits_inv in H as (-> & H). apply follows_reads, reads_bits; auto. Qed.
Lemma get_number_inv n bs v rest : get_number n bs = Some (v, rest) ->
  exists x, bs = x ++ rest /\ length x = n /\ v = bval x.
Proof.
  unfold get_number. destruct (get_bits n bs) as [[x r]|] eqn:E; [|discriminate]. intros H. injection H as <- <-.
  apply get_bits_inv in E as (-> & E). exists x. rewrite number_bval. auto.
Qed.
Lemma follows_number n bs v rest : n <= 64 -> get_number n bs = Some (v, rest) -> follows (fun r => read_number r n) bs v rest.
Proof.
  intros Hn H. apply get_number_inv in H as (x & -> & Hx & ->). apply follows_reads.
  rewrite <- (@pad_eq (bval x) n x) at 1 by auto. apply reads_number; auto.
  rewrite <- Hx. apply bval_lt.
Qed.
Lemma get_number_lt n bs v rest : get_number n bs = Some (v, rest) -> (v < 2 ^ N.of_nat n)%N.
Proof. intros H. apply get_number_inv in H as (x & -> & <- & ->). apply bval_lt. Qed.

(** ** symbol map *)
Lemma flagged_enumerate base flags : flagged base flags = map fst (filter (fun x => snd x) (enumerate_from base flags)).
Proof.
  revert base; induction flags as [|b flags IH]; intros base; [reflexivity|]. cbn [flagged enumerate_from filter snd].
  destruct b; cbn [map fst app]; rewrite IH; auto.
Qed.
Lemma flagged_sorted base flags : StronglySorted lt (flagged base flags) /\
  Forall (fun x => base <= x < base + length flags) (flagged base flags).
Proof.
  revert base; induction flags as [|b flags IH]; intros base; [split; constructor|]. cbn [flagged length].
  destruct (IH (S base)) as (A & B).
  assert (Forall (fun x => base <= x < base + S (length flags)) (flagged (S base) flags)) as C.
  { eapply Forall_impl; [|exact B]. cbv beta. intros; lia. }
  destruct b; cbn [app]; [|split; auto]. split.
  - constructor; auto. eapply Forall_impl; [|exact B]. cbv beta; intros; lia.
  - constructor; auto. lia.
Qed.

Definition use_region (x : nat * nat * bool) : list nat :=
  let '(position, region, used) := x in if used then [region * 16 + position] else [].
Lemma region_symbols r x : forall a,
  flat_map use_region (combine (map (fun position => (position, r)) (seq a (length x))) x) = flagged (16 * r + a) x.
Proof.
  induction x as [|b x IH]; intros a; [reflexivity|]. cbn [length seq map combine flat_map flagged].
  rewrite IH, Nat.add_succ_r. unfold use_region. rewrite (Nat.mul_comm r 16). reflexivity.
Qed.
Lemma ranges_symbols rs : forall bs u rest, get_ranges rs bs = Some (u, rest) ->
  exists x, bs = x ++ rest /\ length x = 16 * length rs /\ get_used_symbols_from_regions rs x = u.
Proof.
  induction rs as [|r rs IH]; intros bs u rest E; cbn [get_ranges] in E.
  - injection E as <- <-. exists []. auto.
  - destruct (get_bits 16 bs) as [[x bs1]|] eqn:E1; [|discriminate]. apply get_bits_inv in E1 as (-> & L1).
    destruct (get_ranges rs bs1) as [[u' bs2]|] eqn:E2; [|discriminate]. injection E as <- <-.
    destruct (IH _ _ _ E2) as (y & -> & L2 & E3). exists (x ++ y). split; [apply app_assoc|]. split.
    { rewrite app_length. cbn [length]. lia. }
    unfold get_used_symbols_from_regions in *. cbn [flat_map].
    rewrite combine_app by (rewrite map_length, seq_length; auto). rewrite flat_map_app, E3. f_equal.
    pose proof (@region_symbols r x 0) as G. rewrite L1, Nat.add_0_r in G. exact G.
Qed.
Lemma ranges_sorted rs : forall bs u rest lo, get_ranges rs bs = Some (u, rest) -> StronglySorted lt rs ->
  Forall (fun r => lo <= r < 16) rs -> StronglySorted lt u /\ Forall (fun x => 16 * lo <= x < 256) u.
Proof.
  induction rs as [|r rs IH]; intros bs u rest lo E HS HF; cbn [get_ranges] in E.
  - injection E as <- <-. split; constructor.
  - destruct (get_bits 16 bs) as [[x bs1]|] eqn:E1; [|discriminate]. apply get_bits_inv in E1 as (-> & L1).
    destruct (get_ranges rs bs1) as [[u' bs2]|] eqn:E2; [|discriminate].
    assert (u = flagged (16 * r) x ++ u') as -> by congruence. clear E.
    apply Forall_cons_iff in HF as (Hr & HF). inversion HS as [|? ? HS' HF']; subst.
    destruct (IH _ _ _ (S r) E2 HS') as (A & B).
    { rewrite Forall_forall in *. intros z Hz. specialize (HF z Hz). specialize (HF' z Hz). lia. }
    destruct (flagged_sorted (16 * r) x) as (C & D). rewrite L1 in D. split.
    + clear - A B C D. revert C D. generalize (flagged (16 * r) x) as l.
      induction l as [|y l IH]; intros C D; cbn [app]; [exact A|]. inversion C as [|? ? C1 C2]; subst.
      apply Forall_cons_iff in D as (D1 & D2). constructor; auto. apply Forall_app. split; auto.
      eapply Forall_impl; [|exact B]. cbv beta. intros; lia.
    + apply Forall_app. split; [eapply Forall_impl; [|exact D]|eapply Forall_impl; [|exact B]]; cbv beta; intros; lia.
Qed.

Lemma follows_used bs u rest : get_used bs = Some (u, rest) -> follows read_symbol_table bs u rest.
Proof.
  unfold get_used. destruct (get_bits 16 bs) as [[x bs1]|] eqn:E1; [|discriminate]. intros E.
  unfold read_symbol_table. eapply follows_bind; [apply follows_bits; eauto|].
  apply ranges_symbols in E as (y & -> & L & E).
  assert (get_used_regions x = flagged 0 x) as -> by (symmetry; apply flagged_enumerate).
  rewrite E || idtac. intros r Hr. destruct (@reads_bits _ y L r rest Hr) as (r' & -> & E').
  cbn [bind]. rewrite E. eauto.
Qed.
Lemma get_used_sorted bs u rest : get_used bs = Some (u, rest) -> StronglySorted lt u /\ bytes u.
Proof.
  unfold get_used. destruct (get_bits 16 bs) as [[x bs1]|] eqn:E1; [|discriminate]. intros E.
  apply get_bits_inv in E1 as (_ & L). destruct (flagged_sorted 0 x) as (A & B). rewrite L in B.
  destruct (@ranges_sorted _ _ _ _ 0 E A) as (C & D); [exact B|]. split; auto.
  eapply Forall_impl; [|exact D]. unfold is_byte. cbv beta. intros; lia.
Qed.

(** ** selectors *)
Lemma get_unary_inv bs : forall k rest, get_unary bs = Some (k, rest) -> bs = unary k ++ rest.
Proof.
  induction bs as [|b bs IH]; intros k rest E; cbn [get_unary] in E; [discriminate|]. destruct b.
  - destruct (get_unary bs) as [[k' r]|] eqn:E1; [|discriminate]. injection E as <- <-.
    rewrite (IH _ _ eq_refl). reflexivity.
  - injection E as <- <-. reflexivity.
Qed.
Lemma get_unaries_inv n : forall bs ks rest, get_unaries n bs = Some (ks, rest) ->
  bs = flat_map unary ks ++ rest /\ length ks = n.
Proof.
  induction n as [|n IH]; intros bs ks rest E; cbn [get_unaries] in E.
  - injection E as <- <-. auto.
  - destruct (get_unary bs) as [[k bs1]|] eqn:E1; [|discriminate]. apply get_unary_inv in E1 as ->.
    destruct (get_unaries n bs1) as [[ks' bs2]|] eqn:E2; [|discriminate]. injection E as <- <-.
    destruct (IH _ _ _ E2) as (-> & <-). cbn [flat_map length]. rewrite app_assoc. auto.
Qed.
Lemma follows_unaries p n bs ks rest : 1 <= n -> Forall (fun k => k <= 255) ks -> get_unaries n bs = Some (ks, rest) ->
  follows (fun r => read_unary p r n) bs ks rest.
Proof.
  intros Hn HF E. apply get_unaries_inv in E as (-> & <-). apply follows_reads. apply reads_unary; auto.
  intros ->. cbn [length] in Hn. lia.
Qed.

(** ** move to front *)
Lemma unmove_spec ks : forall dict out, NoDup dict -> length dict <= 256 -> unmove ks dict = Some out ->
  inverse_mtf ks dict = Ok out /\ Forall (fun k => k < length dict) ks /\ length out = length ks /\ (forall x, In x out -> In x dict).
Proof.
  induction ks as [|k ks IH]; intros dict out ND HL E; cbn [unmove inverse_mtf] in *.
  - injection E as <-. split; [auto|]. split; [constructor|]. split; [auto|]. intros x [].  
  - destruct (nth_error dict k) as [v|] eqn:Ek; [|discriminate].
    destruct (unmove ks _) as [o|] eqn:E1; [|discriminate]. injection E as <-.
    pose proof (nth_error_lt _ _ Ek) as Hk.
    rewrite (get_at_some _ _ Ek). cbn [bind]. rewrite (@find_pos_nodup _ _ _ ND Ek). cbn [bind].
    replace (255 <? k) with false by (symmetry; apply Nat.ltb_ge; lia).
    rewrite (bring_ok _ _ Ek). cbn [bind].
    pose proof (bring_perm _ _ Ek) as P.
    destruct (IH _ _ (Permutation_NoDup P ND) ltac:(rewrite <- (Permutation_length P); auto) E1) as (A & B & C & D).
    rewrite A. cbn [bind]. rewrite <- (Permutation_length P) in B. split; auto. split; auto. split; [cbn [length]; auto|].
    intros x [<-|Hx]; [eapply nth_error_In; eauto|]. eapply Permutation_in; [symmetry; exact P|]. auto.
Qed.

(** ** code lengths *)
Lemma get_length_range bs : forall cur l rest, get_length cur bs = Some (l, rest) -> 1 <= l <= 20.
Proof.
  induction bs as [bs IH] using (well_founded_induction (wf_inverse_image _ _ _ (@length bool) lt_wf)).
  intros cur l rest E. destruct bs as [|[] bs]; cbn [get_length] in E;
    (destruct ((1 <=? cur) && (cur <=? 20)) eqn:EC; [|discriminate]); try discriminate.
  - destruct bs as [|[] bs]; try discriminate; eapply IH; try exact E; cbn [length]; lia.
  - injection E as <- <-. apply andb_true_iff in EC as (A & B). apply Nat.leb_le in A, B. lia.
Qed.
Lemma get_lengths_range n : forall cur bs ls rest, get_lengths n cur bs = Some (ls, rest) ->
  Forall (fun l => 1 <= l <= 20) ls /\ length ls = n.
Proof.
  induction n as [|n IH]; intros cur bs ls rest E; cbn [get_lengths] in E.
  - injection E as <- <-. auto.
  - destruct (get_length cur bs) as [[l bs1]|] eqn:E1; [|discriminate]. apply get_length_range in E1.
    destruct (get_lengths n l bs1) as [[ls' bs2]|] eqn:E2; [|discriminate]. injection E as <- <-.
    destruct (IH _ _ _ _ E2). split; [constructor; auto|cbn [length]; auto].
Qed.

Lemma delta_follows p amount bs : forall n cur ls rest out fuel r,
  get_lengths (S n) cur bs = Some (ls, rest) -> rbits r = bs -> length bs < fuel -> amount = length out + S n ->
  exists r', read_delta_loop p fuel r amount (N.of_nat cur) out = Ok (out ++ ls, r') /\ rbits r' = rest.
Proof.
  induction bs as [bs IH] using (well_founded_induction (wf_inverse_image _ _ _ (@length bool) lt_wf)).
  intros n cur ls rest out fuel r E ER HF HA. destruct fuel as [|fuel]; [lia|].
  cbn [get_lengths] in E. cbn [read_delta_loop].
  destruct bs as [|b bs]; cbn [get_length] in E;
    (destruct ((1 <=? cur) && (cur <=? 20)) eqn:EC; [|discriminate]); try discriminate.
  apply andb_true_iff in EC as (C1 & C2). apply Nat.leb_le in C1, C2.
  destruct (read_bit_cons _ ER) as (r1 & -> & ER1). cbn [bind]. cbn [length] in HF. destruct b.
  - destruct bs as [|b' bs]; [discriminate|].
    destruct (read_bit_cons _ ER1) as (r2 & -> & ER2). cbn [bind]. cbn [length] in HF. destruct b'.
    + rewrite start_dec_ok by lia. cbn [bind].
      replace (length out =? amount) with false by (symmetry; apply Nat.eqb_neq; lia).
      replace (N.of_nat cur - 1)%N with (N.of_nat (cur - 1)) by lia.
      apply (IH bs ltac:(cbn [length]; lia) n (cur - 1) ls rest out fuel r2 E ER2); lia.
    + rewrite start_inc_ok by (unfold two64; lia). cbn [bind].
      replace (length out =? amount) with false by (symmetry; apply Nat.eqb_neq; lia).
      replace (N.of_nat cur + 1)%N with (N.of_nat (cur + 1)) by lia.
      apply (IH bs ltac:(cbn [length]; lia) n (cur + 1) ls rest out fuel r2 E ER2); lia.
  - cbn [bind]. rewrite app_length. cbn [length].
    assert (N.to_nat (N.of_nat cur mod 256) = cur) as -> by (rewrite N.mod_small; lia).
    destruct n as [|n].
    + cbn [get_lengths] in E. injection E as <- <-. replace (length out + 1 =? amount) with true by (symmetry; apply Nat.eqb_eq; lia).
      eauto.
    + replace (length out + 1 =? amount) with false by (symmetry; apply Nat.eqb_neq; lia).
      destruct (get_lengths (S n) cur bs) as [[ls' bs2]|] eqn:E2; [|discriminate]. injection E as <- <-.
      destruct (IH bs ltac:(cbn [length]; lia) n cur ls' bs2 (out ++ [cur]) fuel r1 E2 ER1) as (r' & -> & E').
      * lia.
      * rewrite app_length. cbn [length]. lia.
      * rewrite <- app_assoc. eauto.
Qed.
Lemma follows_table p n bs ls rest : 1 <= n -> get_table n bs = Some (ls, rest) -> follows (fun r => read_delta p r n) bs ls rest.
Proof.
  intros Hn. unfold get_table. destruct (get_number 5 bs) as [[start bs1]|] eqn:E1; [|discriminate]. intros E.
  unfold read_delta. apply get_number_inv in E1 as (x & -> & Hx & ->).
  eapply follows_bind; [apply follows_reads, reads_bits; exact Hx|].
  eapply follows_pure; [apply convert_to_number_ok; lia|]. intros r ER. destruct n as [|n]; [lia|].
  destruct (@delta_follows p (S n) bs1 n _ ls rest [] (S (bits_left r)) r E) as (r' & E2 & E3); auto.
  - rewrite bits_left_rbits, ER. lia.
  - rewrite N2Nat.id in E2. cbn [app] in E2. rewrite E2. eauto.
Qed.
Lemma follows_trees p k : forall n bs ts rest, 1 <= n -> get_tables k n bs = Some (ts, rest) ->
  follows (fun r => read_trees p k r n) bs ts rest /\ length ts = k /\
  Forall (fun ls => Forall (fun l => 1 <= l <= 20) ls /\ length ls = n) ts.
Proof.
  induction k as [|k IH]; intros n bs ts rest Hn E; cbn [get_tables read_trees] in *.
  - injection E as <- <-. split; [apply follows_ret|]. auto.
  - destruct (get_table n bs) as [[t bs1]|] eqn:E1; [|discriminate].
    destruct (get_tables k n bs1) as [[ts' bs2]|] eqn:E2; [|discriminate]. injection E as <- <-.
    destruct (IH _ _ _ _ Hn E2) as (A & B & C). split; [|split].
    + eapply follows_bind; [apply follows_unwrap, follows_table; eauto|].
      eapply follows_bind; [exact A|]. apply follows_ret.
    + cbn [length]; auto.
    + constructor; auto. unfold get_table in E1. destruct (get_number 5 bs) as [[start b]|]; [|discriminate].
      eapply get_lengths_range; eauto.
Qed.

(** ** code tables *)
Lemma hle_sorted_unique used (T : canonical_table) : Permutation (map snd T) (alphabet used) -> StronglySorted hle (map snd T) ->
  map snd T = alphabet used.
Proof. intros P HS. eapply sorted_perm_unique; [apply hle_anti | exact HS | apply alphabet_sorted | exact P]. Qed.

Lemma pairs_unique {A B} (l l' : list (A * B)) : Permutation l l' -> map snd l = map snd l' -> NoDup (map snd l) -> l = l'.
Proof.
  revert l'; induction l as [|[a b] l IH]; intros l' P E ND.
  - apply Permutation_nil in P. auto.
  - destruct l' as [|[a' b'] l']; [discriminate|]. cbn [map snd] in E, ND. injection E as <- E.
    inversion ND as [|? ? N1 N2]; subst.
    assert (In (a, b) ((a', b) :: l')) as Hin by (eapply Permutation_in; [exact P|left; auto]).
    destruct Hin as [Hin|Hin].
    + injection Hin as ->. f_equal. apply IH; auto. eapply Permutation_cons_inv; eauto.
    + exfalso. apply N1. rewrite E. apply (in_map snd) in Hin. exact Hin.
Qed.

Definition foreign_table (used : nat) (ls : list nat) (T : canonical_table) : Prop :=
  map snd T = alphabet used /\ code_lengths T = ls /\ prefix_free T /\ canonical_for T /\
  forall p, (let! t := from_weights ls in canonicalize p t) = Ok T.

Lemma table_rebuilt used ls : 1 <= used <= 256 -> length ls = used + 2 -> Forall (fun l => 1 <= l <= 20) ls ->
  prefix_lengths ls = true -> exists T, foreign_table used ls T.
Proof.
  intros Hu HL HF HP.
  pose proof (@alphabet_length used ltac:(lia)) as AL.
  set (t := combine ls (alphabet used)).
  assert (map fst t = ls) as Ef by (apply map_fst_combine; lia).
  assert (map snd t = alphabet used) as Es by (apply map_snd_combine; lia).
  assert (from_weights ls = Ok t) as Et.
  { unfold from_weights. rewrite HL. destruct (Nat.ltb_spec (used + 2) 3); [lia|].
    destruct (Nat.ltb_spec 258 (used + 2)); [lia|]. unfold t, alphabet. replace (used + 2 - 3) with (used - 1) by lia. auto. }
  assert (kraftN 20 t <= 2 ^ N.of_nat 20)%N as HK.
  { unfold prefix_lengths in HP. apply N.leb_le in HP. change (2 ^ N.of_nat 20)%N with (2 ^ 20)%N.
    refine (N.le_trans _ _ _ _ HP). unfold kraftN. rewrite <- Ef. clear. generalize t as u.
    induction u as [|x u IH]; [reflexivity|]. cbn [map fold_right]. change (sumN (?a :: ?b)) with (a + sumN b)%N. lia. }
  destruct (@canonicalize_ok Checked 20 t) as (T & ET & PF & PT & ST & _); auto; [lia| | |].
  { intros E. rewrite E in Ef. cbn [map] in Ef. rewrite <- Ef in HL. cbn [length] in HL. lia. }
  { rewrite <- Ef in HF. rewrite Forall_map in HF. eapply Forall_impl; [|exact HF]. cbv beta. intros; lia. }
  assert (map snd T = alphabet used) as HT.
  { apply hle_sorted_unique; auto. rewrite <- Es, <- PT, map_map. cbn [snd]. auto. }
  assert (code_lengths T = ls) as HC.
  { rewrite <- Ef, <- (@pairs_unique _ _ (map (fun x => (length (fst x), snd x)) T) t PT).
    - rewrite map_map. reflexivity.
    - rewrite map_map. cbn [snd]. rewrite Es. exact HT.
    - rewrite map_map. cbn [snd]. change (NoDup (map snd T)). rewrite HT. apply alphabet_NoDup. }
  exists T. split; [|split; [|split; [|split]]]; auto.
  - eapply codes_canonical_gen with (L := 20) (used := used) (t' := t); auto; [lia|lia| |]; rewrite HC; auto.
  - intros p. rewrite Et. cbn [bind]. apply canonicalize_checked; auto.
Qed.

Lemma tables_rebuilt used ts : 1 <= used <= 256 ->
  Forall (fun ls => Forall (fun l => 1 <= l <= 20) ls /\ length ls = used + 2) ts -> forallb prefix_lengths ts = true ->
  exists Ts, Forall2 (foreign_table used) ts Ts /\
    forall p, map_res (fun tree => let! t := from_weights tree in canonicalize p t) ts = Ok Ts.
Proof.
  intros Hu. induction 1 as [|ls ts (HF & HL) H IH]; cbn [forallb map_res]; intros HP.
  - exists []. auto.
  - apply andb_true_iff in HP as (P1 & P2). destruct (IH P2) as (Ts & A & B).
    destruct (table_rebuilt Hu HL HF P1) as (T & HT). exists (T :: Ts). split; [constructor; auto|].
    intros p. destruct HT as (_ & _ & _ & _ & HT). rewrite HT. cbn [bind]. rewrite B. reflexivity.
Qed.

(** ** symbols *)
Definition zsym_at (i : nat) : zsym := match i with 0 => RunA | 1 => RunB | S v => Number v end.
Definition hsym_at (used i : nat) : hsym := if i =? used + 1 then EoB else Normal (zsym_at i).

Lemma alphabet_at used i : 1 <= used -> i < used + 2 -> nth_error (alphabet used) i = Some (hsym_at used i).
Proof.
  intros Hu Hi. unfold hsym_at. destruct (Nat.eqb_spec i (used + 1)) as [->|Hne].
  - exact (@alphabet_nth used EoB Hu I).
  - assert (hindex used (Normal (zsym_at i)) = i) as E.
    { cbn [hindex]. destruct i as [|[|i]]; reflexivity. }
    rewrite <- E at 1. apply alphabet_nth; auto. destruct i as [|[|i]]; cbn [zsym_at]; auto. lia.
Qed.

Lemma table_lookup used ls T cur : 1 <= used -> foreign_table used ls T ->
  read_from_table T cur = option_map (hsym_at used) (symbol_with ls (length cur) (bval cur)).
Proof.
  intros Hu (A & <- & PF & CF & _). destruct (symbol_with (code_lengths T) (length cur) (bval cur)) as [i|] eqn:E.
  - pose proof E as E0. unfold symbol_with in E. apply find_some in E as (Hi & E). apply in_seq in Hi.
    assert (length (code_lengths T) = used + 2) as HL.
    { unfold code_lengths. rewrite map_length, <- (map_length snd), A. apply alphabet_length; auto. }
    apply andb_true_iff in E as (E1 & E2). apply Nat.eqb_eq in E1. apply N.eqb_eq in E2.
    destruct (nth_error T i) as [[c s]|] eqn:EI.
    2:{ apply nth_error_None in EI. unfold code_lengths in Hi. rewrite map_length in Hi. lia. }
    assert (nth_error (code_lengths T) i = Some (length c)) as G by (unfold code_lengths; rewrite nth_error_map, EI; auto).
    assert (c = cur) as ->.
    { apply ReferenceFacts.bval_inj; [rewrite <- E1; symmetry; apply nth_error_nth; auto|]. rewrite (CF _ _ _ EI). auto. }
    rewrite (@read_from_table_hit T cur s) by (auto; eapply nth_error_In; eauto). cbn [option_map].
    rewrite <- (@alphabet_at used i) by lia. rewrite <- A, nth_error_map, EI. auto.
  - unfold read_from_table. replace (find_first _ T) with (@None (list bool * hsym)); [reflexivity|]. symmetry.
    apply find_first_none. intros [c s] Hin. destruct (bits_eqb cur (fst (c, s))) eqn:Eb; auto.
    apply bits_eqb_eq in Eb. cbn [fst] in Eb. subst c. exfalso.
    apply In_nth_error in Hin as (i & Hi).
    rewrite (@symbol_with_hit T i cur s) in E; auto; [discriminate|]. rewrite A. apply alphabet_NoDup.
Qed.

Lemma bval_snoc (c : list bool) (b : bool) : (2 * bval c + (if b then 1 else 0))%N = bval (c ++ [b]).
Proof. rewrite bval_app. destruct b; cbn; lia. Qed.

(** one symbol of a group *)
Lemma symbol_follows used ls T : 1 <= used -> foreign_table used ls T -> forall bs cur i rest max all k fuel r,
  get_symbol ls (length cur) (bval cur) bs = Some (i, rest) -> k < max -> rbits r = bs -> length bs < fuel ->
  exists r' fuel', rbits r' = rest /\ length rest < length bs /\ fuel' + length bs = fuel + length rest /\
    read_symbols_loop fuel r T max all cur k =
      if i =? used + 1 then Ok (all, r')
      else if S k =? max then Ok (all ++ [zsym_at i], r')
      else read_symbols_loop fuel' r' T max (all ++ [zsym_at i]) [] (S k).
Proof.
  intros Hu HT. induction bs as [|b bs IH]; intros cur i rest max all k fuel r E Hk ER HF; cbn [get_symbol] in E; [discriminate|].
  destruct fuel as [|fuel]; [lia|]. cbn [length] in HF. cbn [read_symbols_loop].
  destruct (@read_one_bit r b bs ER) as (r1 & -> & ER1). cbn [bind].
  rewrite (@table_lookup used ls T) by auto.
  assert (S (length cur) = length (cur ++ [b])) as EL by (rewrite app_length; cbn [length]; lia).
  rewrite EL, bval_snoc in E.
  destruct (symbol_with ls (length (cur ++ [b])) (bval (cur ++ [b]))) as [j|].
  - injection E as -> ->. cbn [option_map]. unfold hsym_at. exists r1, fuel.
    split; auto. split; [cbn [length]; lia|]. split; [cbn [length]; lia|].
    destruct (i =? used + 1); reflexivity.
  - cbn [option_map]. replace (k =? max) with false by (symmetry; apply Nat.eqb_neq; lia).
    destruct (IH _ _ _ max all k fuel r1 E Hk ER1 ltac:(lia)) as (r' & fuel' & A & B & C & D).
    exists r', fuel'. split; auto. cbn [length]. split; [lia|]. split; [lia|]. exact D.
Qed.

Lemma group_follows used ls T max : 1 <= used -> foreign_table used ls T -> forall n bs ss ended rest all k fuel r,
  get_group (S n) ls (used + 1) bs = Some (ss, ended, rest) -> rbits r = bs -> length bs < fuel -> max = k + S n ->
  exists r', read_symbols_loop fuel r T max all [] k = Ok (all ++ map zsym_at ss, r') /\ rbits r' = rest.
Proof.
  intros Hu HT. induction n as [|n IH]; intros bs ss ended rest all k fuel r E ER HF HM.
  - cbn [get_group] in E. destruct (get_symbol ls 0 0 bs) as [[i bs1]|] eqn:E1; [|discriminate].
    destruct (@symbol_follows used ls T Hu HT bs [] i bs1 max all k fuel r E1 ltac:(lia) ER HF) as (r1 & f1 & A & B & C & D).
    rewrite D. destruct (i =? used + 1).
    + injection E as <- <- <-. exists r1. cbn [map]. rewrite app_nil_r. auto.
    + injection E as <- <- <-. replace (S k =? max) with true by (symmetry; apply Nat.eqb_eq; lia). eauto.
  - cbn [get_group] in E. destruct (get_symbol ls 0 0 bs) as [[i bs1]|] eqn:E1; [|discriminate].
    destruct (@symbol_follows used ls T Hu HT bs [] i bs1 max all k fuel r E1 ltac:(lia) ER HF) as (r1 & f1 & A & B & C & D).
    rewrite D. destruct (i =? used + 1).
    + injection E as <- <- <-. exists r1. cbn [map]. rewrite app_nil_r. auto.
    + match type of E with (match ?g with _ => _ end) = _ => destruct g as [[[ss' en'] bs2]|] eqn:E2; [|discriminate] end.
      injection E as <- <- <-. replace (S k =? max) with false by (symmetry; apply Nat.eqb_neq; lia).
      destruct (IH bs1 ss' en' bs2 (all ++ [zsym_at i]) (S k) f1 r1 E2 A ltac:(lia) ltac:(lia)) as (r' & -> & E3).
      exists r'. rewrite <- app_assoc. auto.
Qed.
Lemma follows_group used ls T n bs ss ended rest : 1 <= used -> foreign_table used ls T -> 1 <= n ->
  get_group n ls (used + 1) bs = Some (ss, ended, rest) ->
  follows (fun r => read_symbols r T n) bs (map zsym_at ss) rest.
Proof.
  intros Hu HT Hn E r ER. destruct n as [|n]; [lia|]. unfold read_symbols.
  destruct (@group_follows used ls T (S n) Hu HT n bs ss ended rest [] 0 (S (bits_left r)) r E ER) as (r' & -> & E'); auto.
  - rewrite bits_left_rbits, ER. lia.
  - eauto.
Qed.

Lemma Forall2_nth_error {A B} (R : A -> B -> Prop) l l' : Forall2 R l l' -> forall i x, nth_error l i = Some x ->
  exists y, nth_error l' i = Some y /\ R x y.
Proof.
  induction 1 as [|a b l l' H1 H IH]; intros [|i] x E; cbn [nth_error] in *; try discriminate; eauto.
  injection E as <-. eauto.
Qed.
Lemma follows_groups used ts Ts : 1 <= used -> Forall2 (foreign_table used) ts Ts -> forall sel bs syms rest,
  get_symbols sel ts (used + 1) bs = Some (syms, 0, rest) -> follows (read_groups sel Ts) bs (map zsym_at syms) rest.
Proof.
  intros Hu HT. induction sel as [|s sel IH]; intros bs syms rest E; cbn [get_symbols] in E; [discriminate|].
  destruct (nth_error ts s) as [ls|] eqn:Es; [|discriminate].
  destruct (@Forall2_nth_error _ _ _ _ _ HT _ _ Es) as (T & ET & FT).
  destruct (get_group 50 ls (used + 1) bs) as [[[ss ended] bs1]|] eqn:EG; [|discriminate].
  pose proof (@follows_group used ls T 50 bs ss ended bs1 Hu FT ltac:(lia) EG) as FG.
  cbn [read_groups]. eapply follows_pure; [apply get_at_some; exact ET|].
  eapply follows_bind; [apply follows_unwrap; exact FG|]. destruct ended.
  - injection E as <- EL <-. destruct sel; [|discriminate]. cbn [read_groups].
    intros r ER. cbn [bind]. rewrite app_nil_r. eauto.
  - destruct (get_symbols sel ts (used + 1) bs1) as [[[rest' u] bs2]|] eqn:E2; [|discriminate].
    injection E as <- -> <-. eapply follows_bind; [eapply IH; eauto|]. rewrite map_app. apply follows_ret.
Qed.

(** ** zero runs *)

(** [zeros] collects the digits read, least significant first *)
Definition run_of (zeros : list zsym) (weight run : nat) : Prop :=
  N.of_nat weight = (2 ^ N.of_nat (length zeros))%N /\
  (N.of_nat run + 1 = N.of_nat weight + bval (map zbit (rev zeros)))%N.
Lemma run_of_step zeros weight run s : run_of zeros weight run -> s < 2 ->
  run_of (zeros ++ [zsym_at s]) (2 * weight) (run + (s + 1) * weight).
Proof.
  intros (A & B) Hs. unfold run_of. rewrite app_length. cbn [length]. rewrite Nat.add_1_r, Nat2N.inj_succ, N.pow_succ_r', <- A.
  split; [lia|]. rewrite rev_app_distr. cbn [rev app map]. rewrite bval_cons, map_length, rev_length, <- A.
  destruct s as [|[|s]]; [| |lia]; cbn [zsym_at zbit b2n]; lia.
Qed.
Lemma run_decodes zeros weight run out : run_of zeros weight run -> (N.of_nat run < two63)%N ->
  flush_zeros zeros out = Ok (out ++ repeat 0 run).
Proof.
  intros (A & B) HR. unfold flush_zeros. destruct zeros as [|z zs].
  - cbn in A, B. assert (run = 0) as -> by lia. cbn [repeat]. rewrite app_nil_r. auto.
  - set (zeros := z :: zs) in *. unfold decode_zero_amount.
    assert (N.of_nat run + 1 < two64)%N as HR2 by (unfold two64, two63 in *; lia).
    assert (fold_left dza_step (RunB :: rev zeros) 0%N = N.of_nat run + 1)%N as ->.
    { rewrite dza_fold; [cbn [map]; rewrite bval_cons, map_length, rev_length, <- A; cbn [zbit b2n]; lia|].
      cbn [map]. rewrite bval_cons, map_length, rev_length, <- A. cbn [zbit b2n]. lia. }
    replace (N.of_nat run + 1 =? 0)%N with false by (symmetry; apply N.eqb_neq; lia).
    replace (two63 <=? N.of_nat run + 1 - 1)%N with false by (symmetry; apply N.leb_gt; lia).
    cbn [bind]. do 2 f_equal. f_equal. lia.
Qed.
Lemma unrun_follows syms : forall zeros weight run out, run_of zeros weight run ->
  (N.of_nat (length (unrun syms weight run)) < two63)%N ->
  decode_zle_loop (map zsym_at syms) out zeros = Ok (out ++ unrun syms weight run).
Proof.
  induction syms as [|s syms IH]; intros zeros weight run out HR HL; cbn [unrun map decode_zle_loop] in *.
  - rewrite repeat_length in HL. eapply run_decodes; eauto.
  - destruct s as [|[|s]]; cbn [Nat.eqb zsym_at] in *.
    + rewrite (IH (zeros ++ [RunA]) (2 * weight) (run + weight)); auto.
      pose proof (@run_of_step _ _ _ 0 HR ltac:(lia)) as G. cbn [zsym_at] in G.
      replace (run + weight) with (run + (0 + 1) * weight) by lia. exact G.
    + rewrite (IH (zeros ++ [RunB]) (2 * weight) (run + 2 * weight)); auto.
      pose proof (@run_of_step _ _ _ 1 HR ltac:(lia)) as G. exact G.
    + rewrite app_length, repeat_length in HL. cbn [length] in HL.
      rewrite (@run_decodes zeros weight run out HR) by lia. cbn [bind].
      rewrite (IH [] 1 0); [|split; reflexivity|lia].
      rewrite <- !app_assoc. cbn [Nat.sub app]. auto.
Qed.
Theorem unrun_decodes syms : (N.of_nat (length (unrun syms 1 0)) < two63)%N ->
  decode_zle (map zsym_at syms) = Ok (unrun syms 1 0).
Proof. intros H. unfold decode_zle. rewrite (@unrun_follows syms [] 1 0 []); auto. split; reflexivity. Qed.

(** ** blocks and streams *)
Definition plain_block (b : parsed) : Prop := pb_unused b = 0 /\ plain_counts (pb_coded b) = true.

Lemma guard_true b : guard b = Some tt -> b = true.
Proof. destruct b; [reflexivity|discriminate]. Qed.

Theorem block_follows p level bs b rest : (100000 * level < two63)%N -> get_block level bs = Some (b, rest) -> pb_unused b = 0 ->
  follows (decode_block_data p) bs (inverse_rle (pb_coded b), pb_crc b) rest /\
  crc32_bzip2 (pb_contents b) = pb_crc b /\ pb_contents b = rle1_expand (pb_coded b).
Proof.
  intros HL E HU. unfold get_block in E.
  destruct (get_number 32 bs) as [[crc b1]|] eqn:E1; [|discriminate].
  destruct (get_number 1 b1) as [[rand b2]|] eqn:E2; [|discriminate].
  destruct (guard (rand =? 0)%N) as [[]|]; [|discriminate].
  destruct (get_number 24 b2) as [[ptr b3]|] eqn:E3; [|discriminate].
  destruct (get_used b3) as [[used b4]|] eqn:E4; [|discriminate].
  destruct (guard (1 <=? length used)) as [[]|] eqn:G4; [|discriminate]. apply guard_true, Nat.leb_le in G4.
  destruct (get_number 3 b4) as [[tables b5]|] eqn:E5; [|discriminate].
  destruct (guard ((2 <=? tables) && (tables <=? 6))%N) as [[]|] eqn:G5; [|discriminate].
  apply guard_true, andb_true_iff in G5 as (G5 & G6). apply N.leb_le in G5, G6.
  destruct (get_number 15 b5) as [[nsel b6]|] eqn:E6; [|discriminate].
  destruct (guard (1 <=? nsel)%N) as [[]|] eqn:G7; [|discriminate]. apply guard_true, N.leb_le in G7.
  destruct (get_unaries (N.to_nat nsel) b6) as [[moved b7]|] eqn:E7; [|discriminate].
  destruct (unmove moved (seq 0 (N.to_nat tables))) as [sel|] eqn:E8; [|discriminate].
  destruct (get_tables (N.to_nat tables) (length used + 2) b7) as [[ts b8]|] eqn:E9; [|discriminate].
  destruct (guard (forallb prefix_lengths ts)) as [[]|] eqn:G9; [|discriminate]. apply guard_true in G9.
  destruct (get_symbols sel ts (length used + 1) b8) as [[[syms unused] b9]|] eqn:E10; [|discriminate].
  destruct (unmove (unrun syms 1 0) used) as [col|] eqn:E11; [|discriminate].
  destruct (guard (N.of_nat (length col) <=? 100000 * level)%N) as [[]|] eqn:G11; [|discriminate].
  apply guard_true, N.leb_le in G11.
  destruct (unsort col (N.to_nat ptr)) as [block|] eqn:E12; [|discriminate]. cbv zeta in E.
  destruct (guard (crc32_bzip2 (rle1_expand block) =? crc)%N) as [[]|] eqn:G12; [|discriminate].
  apply guard_true, N.eqb_eq in G12. injection E as <- <-. cbn [pb_contents pb_crc pb_coded pb_unused] in *. subst unused.
  split; [|split; [exact G12|reflexivity]].
  destruct (get_used_sorted _ E4) as (US & UB).
  assert (NoDup used) as UN by (apply sorted_lt_NoDup; auto).
  assert (length used <= 256) as UL by (apply (@sorted_lt_length used 256); auto).
  destruct (@unmove_spec moved (seq 0 (N.to_nat tables)) sel (seq_NoDup _ _) ltac:(rewrite seq_length; lia) E8) as (M1 & M2 & _ & _). rewrite seq_length in M2.
  destruct (@unmove_spec _ _ _ UN UL E11) as (C1 & _ & C2 & _).
  destruct (@follows_trees p (N.to_nat tables) (length used + 2) b7 ts b8 ltac:(lia) E9) as (T1 & T2 & T3).
  destruct (@tables_rebuilt (length used) ts ltac:(lia) T3 G9) as (Ts & TF & TR).
  unfold decode_block_data.
  eapply follows_bind; [apply follows_number; [lia|exact E1]|].
  unfold get_number in E2. destruct (get_bits 1 b1) as [[x b2']|] eqn:E2'; [|discriminate].
  assert (b2' = b2) as -> by congruence.
  eapply follows_bind; [apply follows_bits; exact E2'|].
  eapply follows_bind; [apply follows_number; [lia|exact E3]|].
  eapply follows_bind; [apply follows_unwrap, follows_used; exact E4|].
  eapply follows_bind; [apply follows_number; [lia|exact E5]|].
  eapply follows_bind; [apply follows_number; [lia|exact E6]|].
  eapply follows_bind; [apply follows_unwrap, follows_unaries; [lia| |exact E7]|].
  { eapply Forall_impl; [|exact M2]. cbv beta. intros; lia. }
  eapply follows_pure; [exact M1|].
  eapply follows_bind; [exact T1|].
  eapply follows_pure; [apply TR|].
  eapply follows_bind; [eapply follows_groups; eauto; lia|].
  eapply follows_pure; [apply unrun_decodes; rewrite <- C2; lia|].
  eapply follows_pure; [exact C1|].
  eapply follows_pure; [apply unsort_inverse; exact E12|].
  apply follows_ret.
Qed.

Lemma magic_inv n bs v rest magic : get_number n bs = Some (v, rest) -> v = bval magic -> length magic = n -> bs = magic ++ rest.
Proof.
  intros E -> HL. apply get_number_inv in E as (x & -> & Hx & E). f_equal. apply ReferenceFacts.bval_inj; [lia|auto].
Qed.
Definition passes (b : parsed) : Prop := crc32_bzip2 (inverse_rle (pb_coded b)) = pb_crc b.
Lemma plain_passes b : pb_contents b = rle1_expand (pb_coded b) -> plain_counts (pb_coded b) = true ->
  inverse_rle (pb_coded b) = pb_contents b.
Proof. intros -> H. apply inverse_rle_plain; auto. Qed.

(** either every block passes, or the first that does not stops the decoder *)
Lemma blocks_follow p level : (100000 * level < two63)%N -> forall fuel crcs bs blocks rest,
  get_blocks fuel level crcs bs = Some (blocks, rest) -> Forall (fun b => pb_unused b = 0) blocks ->
  Forall (fun b => crc32_bzip2 (pb_contents b) = pb_crc b /\ pb_contents b = rle1_expand (pb_coded b)) blocks /\
  forall fuel2 r, rbits r = bs -> fuel <= fuel2 ->
    (Forall passes blocks /\ exists r' tail, trace fuel2 p r = (map (fun b => inverse_rle (pb_coded b)) blocks, Ok r') /\
       rbits r' = tail ++ rest /\ length tail = 32) \/
    (exists pre b post, blocks = pre ++ b :: post /\ Forall passes pre /\ ~ passes b /\
       trace fuel2 p r = (map (fun b => inverse_rle (pb_coded b)) pre, Err)).
Proof.
  intros HL. induction fuel as [|fuel IH]; intros crcs bs blocks rest E HF; cbn [get_blocks] in E; [discriminate|].
  destruct (get_number 48 bs) as [[magic b1]|] eqn:E1; [|discriminate].
  destruct (N.eqb_spec magic BLOCK_MAGIC) as [->|Hm].
  - destruct (get_block level b1) as [[b b2]|] eqn:E2; [|discriminate].
    destruct (get_blocks fuel level _ b2) as [[bl b3]|] eqn:E3; [|discriminate]. injection E as <- <-.
    apply Forall_cons_iff in HF as (HB & HF).
    destruct (@block_follows p _ _ _ _ HL E2 HB) as (F & C).
    destruct (IH _ _ _ _ E3 HF) as (IHC & IH').
    split; [constructor; auto|]. intros fuel2 r ER Hf. destruct fuel2 as [|fuel2]; [lia|].
    rewrite (@magic_inv _ _ _ _ (bytes_bits block_magic) E1) in ER by (vm_compute; reflexivity).
    cbn [trace map]. destruct (what_next_block _ ER) as (r1 & -> & ER1).
    destruct (F r1 ER1) as (r2 & EB & ER2). rewrite EB.
    rewrite crc32_correct by (eapply block_bytes; exact EB).
    destruct (N.eqb_spec (crc32_bzip2 (inverse_rle (pb_coded b))) (pb_crc b)) as [Hp|Hp].
    + destruct (IH' fuel2 r2 ER2 ltac:(lia)) as [(PS & r3 & tail & -> & ER3)|(pre & b' & post & -> & PS & NP & ->)].
      * left. split; [constructor; auto|]. eauto.
      * right. exists (b :: pre), b', post. split; [reflexivity|]. split; [constructor; auto|]. split; auto.
    + right. exists [], b, bl. split; [reflexivity|]. split; [constructor|]. split; auto.
  - destruct (N.eqb_spec magic FOOTER_MAGIC) as [->|Hm2]; [|discriminate].
    destruct (get_number 32 b1) as [[crc b2]|] eqn:E2; [|discriminate].
    destruct (guard _); [|discriminate]. injection E as <- <-. split; [constructor|].
    intros fuel2 r ER Hf. destruct fuel2 as [|fuel2]; [lia|].
    rewrite (@magic_inv _ _ _ _ (bytes_bits footer_magic) E1) in ER by (vm_compute; reflexivity).
    left. split; [constructor|]. cbn [trace map]. destruct (what_next_footer _ ER) as (r1 & -> & ER1).
    apply get_number_inv in E2 as (x & -> & Hx & _). eauto.
Qed.

Lemma header_form file bs : bunzip2_blocks file = Some bs ->
  exists d tl rest, file = 66 :: 90 :: 104 :: d :: tl /\ 49 <= d <= 57 /\
    get_blocks (S (length (bits_of tl))) (N.of_nat (d - 48)) [] (bits_of tl) = Some (bs, rest) /\ length rest < 8.
Proof.
  unfold bunzip2_blocks. intros E.
  destruct file as [|b1 file]; [discriminate|]. do 66 (destruct b1 as [|b1]; [discriminate|]). destruct b1; [|discriminate].
  destruct file as [|b2 file]; [discriminate|]. do 90 (destruct b2 as [|b2]; [discriminate|]). destruct b2; [|discriminate].
  destruct file as [|b3 file]; [discriminate|]. do 104 (destruct b3 as [|b3]; [discriminate|]). destruct b3; [|discriminate].
  destruct file as [|d tl]; [discriminate|].
  destruct (guard ((49 <=? d) && (d <=? 57))) as [[]|] eqn:G; [|discriminate].
  apply guard_true, andb_true_iff in G as (G1 & G2). apply Nat.leb_le in G1, G2.
  destruct (get_blocks _ _ [] _) as [[bl rest]|] eqn:EB; [|discriminate].
  destruct (guard (length rest <? 8)) as [[]|] eqn:G; [|discriminate]. injection E as <-.
  apply guard_true, Nat.ltb_lt in G. exists d, tl, rest. auto.
Qed.
Theorem reference_follows p file blocks : bytes file -> bunzip2_blocks file = Some blocks ->
  Forall (fun b => pb_unused b = 0) blocks ->
  Forall (fun b => crc32_bzip2 (pb_contents b) = pb_crc b /\ pb_contents b = rle1_expand (pb_coded b)) blocks /\
  ((Forall passes blocks /\ decompressed p file (concat (map (fun b => inverse_rle (pb_coded b)) blocks))) \/
   (exists pre b post, blocks = pre ++ b :: post /\ Forall passes pre /\ ~ passes b /\
     decode_stream p file (good_sink []) = (Err, good_sink (concat (map (fun b => inverse_rle (pb_coded b)) pre))))).
Proof.
  intros HB E HF. apply header_form in E as (d & tl & rest & -> & Hd & E & _).
  rewrite bits_of_bytes in E.
  destruct (@blocks_follow p (N.of_nat (d - 48)) ltac:(unfold two63; lia) _ _ _ _ _ E HF) as (A & B). split; auto.
  unfold decompressed. rewrite decode_stream_trace. unfold stream_trace.
  destruct (@read_file_header_ok d (br_from_reader (66 :: 90 :: 104 :: d :: tl)) (bytes_bits tl)) as (r & -> & ER).
  - unfold is_byte; lia.
  - rewrite rbits_from_reader. reflexivity.
  - destruct (B (S (bits_left r)) r ER) as [(PS & r' & tail & -> & _)|(pre & b & post & -> & PS & NP & ->)].
    + rewrite bits_left_rbits, ER. lia.
    + left. split; auto. cbn [w_script w_out good_sink]. rewrite offer_nil. reflexivity.
    + right. exists pre, b, post. split; auto. split; auto. split; auto.
      cbn [w_script w_out good_sink]. rewrite offer_nil. reflexivity.
Qed.
(** a valid file with plain blocks, as the decoder's trace *)
Theorem reference_trace p file blocks : bytes file -> bunzip2_blocks file = Some blocks -> Forall plain_block blocks ->
  exists r, stream_trace p file = (map pb_contents blocks, Ok r) /\ 32 <= length (rbits r) < 40.
Proof.
  intros HB E HF. apply header_form in E as (d & tl & rest & -> & Hd & E & HR).
  rewrite bits_of_bytes in E.
  destruct (@blocks_follow p (N.of_nat (d - 48)) ltac:(unfold two63; lia) _ _ _ _ _ E) as (A & B).
  { eapply Forall_impl; [|exact HF]. intros b (H & _); auto. }
  assert (map (fun b => inverse_rle (pb_coded b)) blocks = map pb_contents blocks /\ Forall passes blocks) as (EC & EP).
  { clear - A HF. induction blocks as [|b bl IH]; [split; [reflexivity|constructor]|].
    apply Forall_cons_iff in HF as ((HU & HP) & HF). apply Forall_cons_iff in A as ((C1 & C2) & A).
    destruct (IH HF A) as (IH1 & IH2). cbn [map]. pose proof (plain_passes _ C2 HP) as EP. rewrite EP, IH1.
    split; [auto|]. constructor; auto. unfold passes. rewrite EP. auto. }
  unfold stream_trace.
  destruct (@read_file_header_ok d (br_from_reader (66 :: 90 :: 104 :: d :: tl)) (bytes_bits tl)) as (r & -> & ER).
  { unfold is_byte; lia. }
  { rewrite rbits_from_reader. reflexivity. }
  destruct (B (S (bits_left r)) r ER) as [(_ & r' & tail & -> & ER' & LT)|(pre & b & post & -> & _ & NP & _)].
  - rewrite bits_left_rbits, ER. lia.
  - exists r'. rewrite EC. split; auto. rewrite ER', app_length. lia.
  - exfalso. apply NP. rewrite Forall_forall in EP. apply EP. apply in_or_app. right; left; auto.
Qed.
Theorem reference_decodes p file blocks : bytes file -> bunzip2_blocks file = Some blocks -> Forall plain_block blocks ->
  decompressed p file (contents_of blocks).
Proof.
  intros HB E HF. destruct (@reference_trace p _ _ HB E HF) as (r & ET & _).
  unfold decompressed. rewrite decode_stream_trace, ET. cbn [w_script w_out good_sink]. rewrite offer_nil. reflexivity.
Qed.

(** * C02, C63: k-means on inputs with at most as many groups of symbols as tables

    Words used in the statements: [statistics] (PropertiesKMeans): the symbols coded, how
    many byte values occur, and the table chosen for each group of 50; [group_counts]
    (SpecKMeans); [tables_gap_free], [tables_safe], [whole_groups] (PropertiesTables,
    PropertiesStream); [compressed], [decompressed] (SpecStream), [run_exact] (SpecRle). *)
From Coq Require Import ZArith NArith Reals Lia Lra.
From Verif Require Import Base BaseFacts SpecRle SpecBwt SpecStream SpecKMeans Rle RleFacts Bwt BwtFacts Mtf Zle ZleFacts Float32 KMeans SymbolStatistics
  BlockEncoder BlockFacts RoundTripFacts EncodeFacts HistogramFacts Stream StreamFacts DecodeFacts LosslessFacts KMeansFacts FewFacts PropertiesStream PropertiesOwn PropertiesTables PropertiesKMeans UnsortFacts RestoreFacts.
Open Scope nat_scope.

Lemma statistics_det st q s u w l s' u' w' l' : statistics st q s u w l -> statistics st q s' u' w' l' -> s = s' /\ u = u' /\ l = l'.
Proof.
  intros (c & p & e & v & A & B & C & D) (c' & p' & e' & v' & A' & B' & C' & D'). rewrite A in A'. injection A' as <- <-.
  rewrite B in B'. injection B' as <- <-. subst. rewrite D in D'. injection D' as -> _ ->. auto.
Qed.
Lemma statistics_chooses st q s u w l : statistics st q s u w l -> chooses st q s l.
Proof. intros (c & p & e & v & A & B & C & D). subst u. exists c, p, e, v, w. auto. Qed.
Lemma statistics_symbols st q s u w l : bytes q -> q <> [] -> statistics st q s u w l -> 1 <= u <= 256 /\ Forall (sym_below u) s /\ length s <= length (coded q).
Proof.
  intros HB Hne (c & p & e & v & A & B & C & D). destruct (front HB Hne) as (c' & p' & e' & v' & A' & B' & LU & FF & LE).
  rewrite A in A'. injection A' as <- <-. rewrite B in B'. injection B' as <- <-. subst u.
  assert (s = zsyms 0 e) as ->.
  { destruct st as [k it|]; cbn [zle_with_strategy] in D; rewrite zle_transform_eq in D.
    - destruct (fold_res _ _ _) as [m| | |]; try discriminate. cbn [bind] in D. destruct (blockwise_finalize m) as [r| | |]; try discriminate. cbn [bind] in D. congruence.
    - destruct (fold_res _ _ _) as [m| | |]; try discriminate. cbn [bind] in D. congruence. }
  split; [lia|]. split; [apply zsyms_below; auto|]. pose proof (zsyms_length 0 e). lia.
Qed.

(** The table of each group when there are at most as many groups as tables and the end of
    block does not complete a group: the first table started at a group with the same
    counts.  Table [t] of [k] is started at group [t * groups / k]. *)
Theorem C02_few_groups : forall k iterations q, 1 <= k <= 7 -> 1 <= iterations -> bytes q -> q <> [] -> (N.of_nat (length (coded q)) <= 900005)%N ->
  exists symbols used weights selectors, statistics (BlockWise k iterations) q symbols used weights selectors /\
    let rows := group_counts (symbols ++ [RunA]) (used + 1) in
    (length rows <= k -> (length symbols + 1) mod 50 <> 0 ->
     length selectors = length rows /\ forall g, g < length rows ->
       let t := nth g selectors 0 in
       t < k /\ nth (t * length rows / k) rows [] = nth g rows [] /\ forall t', t' < t -> nth (t' * length rows / k) rows [] <> nth g rows []).
Proof.
  intros k it q Hk Hit HB Hne HL. destruct (@C64_kmeans_lloyd k it q ltac:(lia) HB Hne HL) as (symbols & used & weights & sel & HS & HK).
  exists symbols, used, weights, sel. split; auto. cbv zeta. intros Hm Hmod.
  destruct (statistics_symbols HB Hne HS) as (LU & FS & _).
  set (rows := group_counts (symbols ++ [RunA]) (used + 1)) in *.
  assert (length rows = (length symbols + 1) / 50 + 1) as LR.
  { unfold rows, group_counts. rewrite map_length, seq_length, app_length. reflexivity. }
  apply (@few_rows (used + 1) k it rows sel weights); auto; [lia|lia|lia|].
  apply Forall_forall. intros r Hr. unfold rows, group_counts in Hr. apply in_map_iff in Hr as (g & <- & Hg). apply in_seq in Hg.
  rewrite app_length in Hg. cbn [length] in Hg. split; [rewrite map_length, seq_length; auto|].
  assert (Forall (fun x => sym_number x < used + 1) (symbols ++ [RunA])) as FB.
  { apply Forall_app. split; [|repeat constructor; cbn [sym_number]; lia]. eapply Forall_impl; [|exact FS].
    intros x Hx. destruct x; cbn [sym_below sym_number] in *; lia. }
  assert (50 * g < length (symbols ++ [RunA])) as HG.
  { rewrite app_length. cbn [length]. pose proof (Nat.div_mod (length symbols + 1) 50 ltac:(lia)) as D. lia. }
  unfold group. destruct (skipn (50 * g) (symbols ++ [RunA])) as [|x rest] eqn:ES.
  { apply (f_equal (@length zsym)) in ES. rewrite skipn_length in ES. cbn [length] in ES. lia. }
  assert (sym_number x < used + 1) as HX.
  { rewrite Forall_forall in FB. apply FB. rewrite <- (firstn_skipn (50 * g)), ES. apply in_or_app. right. left. auto. }
  exists (sym_number x). split; auto. rewrite nth_indep with (d' := occurs (firstn 50 (x :: rest)) 0) by (rewrite map_length, seq_length; auto).
  rewrite map_nth, seq_nth by auto. cbn [Nat.add firstn]. unfold occurs. cbn [filter]. rewrite Nat.eqb_refl. cbn [length]. lia.
Qed.

(** Two or more groups, fewer than tables, with pairwise different counts: a table number
    is always left out, so the list of tables that is read back is not the one used. *)
Theorem C02_few_groups_gap_refuted : forall k iterations q, 1 <= k <= 7 -> 1 <= iterations -> bytes q -> q <> [] -> (N.of_nat (length (coded q)) <= 900005)%N ->
  exists symbols used weights selectors, statistics (BlockWise k iterations) q symbols used weights selectors /\
    let rows := group_counts (symbols ++ [RunA]) (used + 1) in
    (2 <= length rows < k -> NoDup rows -> (length symbols + 1) mod 50 <> 0 -> ~ tables_gap_free k iterations q).
Proof.
  intros k it q Hk Hit HB Hne HL. destruct (C02_few_groups Hk Hit HB Hne HL) as (symbols & used & weights & sel & HS & HF).
  exists symbols, used, weights, sel. split; auto. cbv zeta in *. intros Hm ND Hmod HG.
  destruct (HF ltac:(lia) Hmod) as (LS & HF'). clear HF. set (rows := group_counts (symbols ++ [RunA]) (used + 1)) in *.
  destruct (HG _ _ (statistics_chooses HS)) as (m & _ & HM).
  set (n := length rows) in *. specialize (HF' (n - 1) ltac:(lia)) as (Ht & E & _). set (t := nth (n - 1) sel 0) in *.
  assert (t * n / k < n) as HI by (apply Nat.div_lt_upper_bound; [lia|nia]).
  assert (t * n / k = n - 1) as EI.
  { apply (proj1 (NoDup_nth rows []) ND); auto. fold n. lia. }
  assert (n <= t) as HT.
  { pose proof (Nat.mul_div_le (t * n) k ltac:(lia)) as B. rewrite EI in B. nia. }
  assert (t < m) as Htm by (apply HM; apply nth_In; lia).
  pose proof (@NoDup_incl_length nat (seq 0 m) sel (seq_NoDup m 0)) as L. rewrite seq_length in L.
  assert (m <= length sel); [|lia]. apply L. intros x Hx. apply HM. apply in_seq in Hx. lia.
Qed.
(** As many groups as tables, with pairwise different counts: each gets its own table. *)
Theorem C02_own_tables : forall k iterations q, 1 <= k <= 7 -> 1 <= iterations -> bytes q -> q <> [] -> (N.of_nat (length (coded q)) <= 900005)%N ->
  exists symbols used weights selectors, statistics (BlockWise k iterations) q symbols used weights selectors /\
    let rows := group_counts (symbols ++ [RunA]) (used + 1) in
    (length rows = k -> NoDup rows -> (length symbols + 1) mod 50 <> 0 -> selectors = seq 0 k /\ tables_safe k iterations q).
Proof.
  intros k it q Hk Hit HB Hne HL. destruct (C02_few_groups Hk Hit HB Hne HL) as (symbols & used & weights & sel & HS & HF).
  exists symbols, used, weights, sel. split; auto. cbv zeta in *. intros Hm ND Hmod.
  destruct (HF ltac:(lia) Hmod) as (LS & HF'). clear HF. set (rows := group_counts (symbols ++ [RunA]) (used + 1)) in *.
  assert (sel = seq 0 k) as ES.
  { apply nth_ext with (d := 0) (d' := 0); [rewrite seq_length; lia|]. intros g Hg. rewrite seq_nth by lia.
    specialize (HF' g ltac:(lia)) as (Ht & E & _). rewrite Hm, Nat.div_mul in E by lia.
    apply (proj1 (NoDup_nth rows []) ND) in E; lia. }
  split; auto. intros s' l' CH. destruct (chooses_det CH (statistics_chooses HS)) as (-> & ->). split; auto.
  exists k. split; auto. intros t. rewrite ES, in_seq. lia.
Qed.

(** At most 38 bytes: one group, so any number of tables and iterations is safe. *)
Theorem C02_short_safe : forall k iterations q, 1 <= k <= 7 -> bytes q -> q <> [] -> length q <= 38 -> tables_safe k iterations q.
Proof.
  intros k it q Hk HB Hne HQ. pose proof (coded_growth q) as HC. fold (coded q) in HC.
  assert (N.of_nat (length (coded q)) <= 900005)%N as HL by lia.
  intros s' l' CH. destruct (@C64_kmeans_lloyd k it q ltac:(lia) HB Hne HL) as (symbols & used & weights & sel & HS & _).
  destruct (statistics_symbols HB Hne HS) as (LU & FS & LS). destruct (chooses_det CH (statistics_chooses HS)) as (-> & ->).
  assert ((length symbols + 1) mod 50 <> 0) as Hmod by (rewrite Nat.mod_small; lia). split; auto.
  destruct (Nat.eq_dec it 0) as [->|Nit].
  { assert (tables_gap_free k 0 q) as G by (apply C02_degenerate_gap_free; auto; unfold RLE_LIMIT; lia). exact (G _ _ CH). }
  destruct (@C02_few_groups k it q Hk ltac:(lia) HB Hne HL) as (s2 & u2 & w2 & l2 & HS2 & HF).
  destruct (statistics_det HS HS2) as (<- & <- & <-). cbv zeta in HF.
  assert (length (group_counts (symbols ++ [RunA]) (used + 1)) = 1) as LR.
  { unfold group_counts. rewrite map_length, seq_length, app_length. cbn [length]. rewrite Nat.div_small; lia. }
  rewrite LR in HF. destruct (HF ltac:(lia) Hmod) as (LL & HF0). specialize (HF0 0 ltac:(lia)) as (Ht & E & N).
  assert (nth 0 sel 0 = 0) as E0.
  { destruct (nth 0 sel 0) as [|t] eqn:Et; auto. exfalso. apply (N 0); [lia|]. rewrite Nat.div_small by lia. reflexivity. }
  destruct sel as [|x [|y sel]]; cbn [length] in LL; try discriminate. cbn [nth] in E0. subst x.
  exists 1. split; [lia|]. intros t. cbn [In]. lia.
Qed.
Lemma runs_from_count b n l x c : In (x, c) (runs_from b n l) -> c <= n + length l.
Proof.
  revert b n; induction l as [|y l IH]; intros b n H; cbn [runs_from length] in *.
  - destruct H as [H|[]]. injection H as _ <-. lia.
  - match type of H with In _ (if ?c then _ else _) => destruct c end.
    + apply IH in H. lia.
    + destruct H as [H|H]; [injection H as _ <-; lia|]. apply IH in H. lia.
Qed.
Theorem C02_short_exact_partial : forall k iterations data, 1 <= k <= 7 -> bytes data -> length data <= 38 -> reversible (coded data) ->
  exists out, (forall p n, 1 <= n -> compressed p n (BlockWise k iterations) data out) /\
    forall p, decompressed p out data <-> run_exact data = true.
Proof.
  intros k it data Hk HB HL HS. assert (data <> []) as Hne.
  { intros ->. destruct HS as (i & (Hi & _) & _). cbn in Hi. lia. }
  pose proof (@C02_short_safe k it data Hk HB Hne HL) as HT.
  destruct (@C02_round_trip_exact_partial k it data Hk HB) as (out & HO & HD); auto.
  - lia.
  - intros s l CH. apply (HT s l CH).
  - intros HI. destruct data as [|x data]; [congruence|]. apply runs_from_count in HI. cbn [length] in HL. lia.
  - exists out. split; auto. intros p. rewrite HD. split; [tauto|]. intros HR. split; auto.
    intros (s & l & CH & E). apply (HT s l CH). exact E.
Qed.
(** C63: and such inputs have different streams, whatever the options. *)
Theorem C63_short : forall k k' iterations iterations' p p' n n' data data' out, 1 <= k <= 7 -> 1 <= k' <= 7 ->
  bytes data -> bytes data' -> length data <= 38 -> length data' <= 38 -> 1 <= n -> 1 <= n' ->
  compressed p n (BlockWise k iterations) data out -> compressed p' n' (BlockWise k' iterations') data' out -> data = data'.
Proof.
  intros k k' it it' p p' n n' data data' out Hk Hk' HB HB' HL HL' Hn Hn' H H'.
  assert (forall k i d ps, 1 <= k <= 7 -> bytes d -> length d <= 38 -> cuts d ps -> Forall (tables_gap_free k i) ps) as G.
  { intros k0 i d ps K B L C. destruct (cuts_pieces C) as (EC & HN & _). assert (Forall bytes ps) as HBP by (apply Forall_concat; rewrite EC; auto).
    rewrite Forall_forall in *. intros q Hq. assert (length q <= 38) as LQ.
    { apply in_split in Hq as (a & b & ->). rewrite <- EC, concat_app, app_length in L. cbn [concat] in L. rewrite app_length in L. lia. }
    intros s l CH. apply (@C02_short_safe k0 i q K (HBP q Hq) (HN q Hq) LQ s l CH). }
  destruct (cuts_exists data) as (ps & HC). destruct (cuts_exists data') as (ps' & HC').
  destruct (kmeans_kept Hk HB HC (G k it _ _ Hk HB HL HC)) as (bs & HK).
  destruct (kmeans_kept Hk' HB' HC' (G k' it' _ _ Hk' HB' HL' HC')) as (bs' & HK').
  destruct (kept_stream HB Hn HC (proj1 Hk : 1 <= table_count (BlockWise k it)) HK H) as (t & ES).
  destruct (kept_stream HB' Hn' HC' (proj1 Hk' : 1 <= table_count (BlockWise k' it')) HK' H') as (t' & ES').
  destruct (cuts_pieces HC) as (EC & _), (cuts_pieces HC') as (EC' & _).
  rewrite <- EC, <- EC'. f_equal. eapply UntilFacts.stream_kept with (5 := ES) (6 := ES'); eauto using cuts_sized.
Qed.
(** 60 different bytes, 6 tables, 3 iterations: two groups with different counts, tables 0
    and 3, and the decoder reports an error. *)
Example C02_few_case : (exists symbols used weights selectors, statistics (BlockWise 6 3) (seq 10 60) symbols used weights selectors /\
    let rows := group_counts (symbols ++ [RunA]) (used + 1) in
    length rows = 2 /\ NoDup rows /\ (length symbols + 1) mod 50 <> 0 /\ selectors = [0; 3]) /\
  ~ tables_gap_free 6 3 (seq 10 60) /\
  exists out, (forall p n, 1 <= n -> compressed p n (BlockWise 6 3) (seq 10 60) out) /\ forall p, fst (decode_stream p out (good_sink [])) = Err.
Proof.
  assert (bytes (seq 10 60)) as HB by (cbn [seq]; small_bytes).
  assert (seq 10 60 <> []) as Hne by discriminate.
  assert (N.of_nat (length (coded (seq 10 60))) <= 900005)%N as HL by (vm_compute; discriminate).
  destruct (@C02_few_groups_gap_refuted 6 3 (seq 10 60) ltac:(lia) ltac:(lia) HB Hne HL) as (symbols & used & weights & sel & HS & HG).
  assert (exists symbols used weights selectors, statistics (BlockWise 6 3) (seq 10 60) symbols used weights selectors /\
    let rows := group_counts (symbols ++ [RunA]) (used + 1) in
    length rows = 2 /\ NoDup rows /\ (length symbols + 1) mod 50 <> 0 /\ selectors = [0; 3]) as H.
  { destruct (front HB Hne) as (col & ptr & enc & u & E1 & E2 & LU & FF & LE).
    vm_compute in E1. injection E1 as <- <-. vm_compute in E2. injection E2 as <- <-.
    match type of LE with length ?e = _ => match type of LU with 1 <= length ?u <= 256 =>
      destruct (zle_with_strategy (BlockWise 6 3) e (length u)) as [[s2 [w2 l2]]| | |] eqn:EZ; try (vm_compute in EZ; discriminate);
      exists s2, (length u), w2, l2; split; [do 4 eexists; split; [vm_compute; reflexivity|split; [vm_compute; reflexivity|split; [reflexivity|exact EZ]]]|];
      assert (s2 = match zle_with_strategy (BlockWise 6 3) e (length u) with Ok (s, _) => s | _ => [] end) as -> by (rewrite EZ; reflexivity);
      assert (l2 = match zle_with_strategy (BlockWise 6 3) e (length u) with Ok (_, (_, s)) => s | _ => [] end) as -> by (rewrite EZ; reflexivity) end end.
    cbv zeta. split; [vm_compute; reflexivity|]. split; [|split; [vm_compute; discriminate|vm_compute; reflexivity]].
    match goal with |- NoDup ?l => let v := eval vm_compute in l in assert (l = v) as -> by (vm_compute; reflexivity) end.
    constructor; [intros [E|[]]; discriminate|]. constructor; [intros []|constructor]. }
  split; auto. split.
  - destruct H as (s2 & u2 & w2 & l2 & HS2 & L2 & ND & HM & _). destruct (statistics_det HS HS2) as (-> & -> & _). cbv zeta in *.
    apply HG; auto. lia.
  - eexists. split.
    + intros p n Hn. apply compressed_seq with (ps := [seq 10 60]); auto.
      * apply small_cuts; [discriminate|cbn; lia].
      * destruct p; vm_compute; reflexivity.
    + intros p. destruct p; vm_compute; reflexivity.
Qed.
(** The same input with 2 tables: as many groups as tables. *)
Example C02_own_case : tables_safe 2 3 (seq 10 60).
Proof.
  assert (bytes (seq 10 60)) as HB by (cbn [seq]; small_bytes).
  assert (seq 10 60 <> []) as Hne by discriminate.
  assert (N.of_nat (length (coded (seq 10 60))) <= 900005)%N as HL by (vm_compute; discriminate).
  destruct (@C02_own_tables 2 3 (seq 10 60) ltac:(lia) ltac:(lia) HB Hne HL) as (symbols & used & weights & sel & HS & HG).
  cbv zeta in HG.
  destruct HS as (col & ptr & enc & u & E1 & E2 & EU & EZ).
  vm_compute in E1. injection E1 as <- <-. vm_compute in E2. injection E2 as <- <-. subst used.
  vm_compute in EZ. injection EZ as <- <- <-. apply HG; [vm_compute; reflexivity| |vm_compute; discriminate].
  match goal with |- NoDup ?l => let v := eval vm_compute in l in assert (l = v) as -> by (vm_compute; reflexivity) end.
  constructor; [intros [E|[]]; discriminate|]. constructor; [intros []|constructor].
Qed.
(** 30 bytes with repetitions, among them a run: the conditions of the short theorems. *)
Example C02_short_case : let q := seq 10 20 ++ repeat 200 9 ++ [252] in
  bytes q /\ length q <= 38 /\ reversible (coded q) /\ run_exact q = true /\ tables_safe 6 3 q.
Proof.
  cbv zeta. assert (bytes (seq 10 20 ++ repeat 200 9 ++ [252])) as HB by (cbn [seq repeat app]; small_bytes).
  split; auto. split; [cbn; lia|]. split; [|split; [vm_compute; reflexivity|]].
  - apply reversible_ok; [discriminate|vm_compute; reflexivity].
  - apply C02_short_safe; auto; [lia|discriminate|cbn; lia].
Qed.
Print Assumptions C02_few_groups.
Print Assumptions C02_few_groups_gap_refuted.
Print Assumptions C02_own_tables.
Print Assumptions C02_short_safe.
Print Assumptions C02_short_exact_partial.
Print Assumptions C63_short.

(** * Facts about canonical codes, the coded symbols and the tables of a block *)
From Verif Require Import Base BaseFacts Bitwise BitwiseFacts Zle SymbolStatistics PackageMerge
  PackageMergeFacts Huffman.

(** ** orders *)
Definition hrank (s : hsym) : N :=
  match s with
  | Normal RunA => 0
  | Normal RunB => 1
  | Normal (Number v) => 2 + N.of_nat v
  | EoB => 0
  end.
Definition heob (s : hsym) : nat := match s with EoB => 1 | _ => 0 end.
Definition hle (a b : hsym) : Prop := heob a < heob b \/ (heob a = heob b /\ (hrank a <= hrank b)%N).

Lemma hsym_leb_hle a b : hsym_leb a b = true <-> hle a b.
Proof.
  unfold hsym_leb, hle.
  destruct a as [[| |x]|], b as [[| |y]|]; cbn [hsym_compare zsym_compare heob hrank];
    try (split; [intros; try discriminate; try lia | intros; auto; exfalso; lia]).
  - destruct (Nat.compare_spec x y); split; intros; auto; try lia; discriminate.
Qed.
Lemma hrank_inj a b : heob a = heob b -> hrank a = hrank b -> a = b.
Proof.
  destruct a as [[| |x]|], b as [[| |y]|]; cbn [heob hrank]; intros; try discriminate; try lia; auto.
  repeat f_equal; lia.
Qed.
Lemma hle_trans a b c : hle a b -> hle b c -> hle a c.
Proof. unfold hle; lia. Qed.
Lemma hle_anti a b : hle a b -> hle b a -> a = b.
Proof. unfold hle; intros. apply hrank_inj; lia. Qed.
Lemma hle_total a b : hle a b \/ hle b a.
Proof. unfold hle; lia. Qed.
Lemma hsym_leb_trans a b c : hsym_leb a b = true -> hsym_leb b c = true -> hsym_leb a c = true.
Proof. rewrite !hsym_leb_hle. apply hle_trans. Qed.
Lemma hsym_leb_total a b : hsym_leb a b = false -> hsym_leb b a = true.
Proof.
  intros H. apply hsym_leb_hle. destruct (hle_total a b) as [G|G]; auto.
  apply hsym_leb_hle in G; congruence.
Qed.

Definition entle (x y : nat * hsym) : Prop := fst x < fst y \/ (fst x = fst y /\ hle (snd x) (snd y)).
Lemma entry_order_entle x y : entry_order x y = true <-> entle x y.
Proof.
  unfold entry_order, entle. destruct (Nat.compare_spec (fst x) (fst y)) as [E|E|E].
  - rewrite hsym_leb_hle. split; intros; [right; auto | lia || (destruct H as [H|[_ H]]; [lia|auto])].
  - split; auto.
  - split; [discriminate|lia].
Qed.
Lemma entle_trans x y z : entle x y -> entle y z -> entle x z.
Proof.
  unfold entle. intros [H1|[H1 H2]] [H3|[H3 H4]]; try (left; lia).
  right; split; [lia|]. eapply hle_trans; eauto.
Qed.
Lemma entle_anti x y : entle x y -> entle y x -> x = y.
Proof.
  unfold entle. destruct x, y; cbn [fst snd]. intros [H1|[H1 H2]] [H3|[H3 H4]]; try lia.
  f_equal; auto. apply hle_anti; auto.
Qed.
Lemma entle_total x y : entle x y \/ entle y x.
Proof.
  unfold entle. destruct (hle_total (snd x) (snd y)); lia || (destruct (Nat.lt_trichotomy (fst x) (fst y)) as [?|[?|?]]; auto).
Qed.

Lemma entry_order_sorted t : StronglySorted entle (sort_by entry_order t).
Proof.
  assert (ssorted entry_order (sort_by entry_order t)) as H.
  { apply sort_by_sorted.
    - intros x y E. apply entry_order_entle. destruct (entle_total x y) as [G|G]; auto.
      apply entry_order_entle in G; congruence.
    - intros x y z. rewrite !entry_order_entle. apply entle_trans. }
  unfold ssorted in H. induction H as [|x l H IH HF]; constructor; auto.
  eapply Forall_impl; [|exact HF]. intros y; apply entry_order_entle.
Qed.

Lemma sort_entries_perm t1 t2 : Permutation t1 t2 ->
  sort_by entry_order t1 = sort_by entry_order t2.
Proof.
  intros P. eapply sorted_perm_unique; [apply entle_anti | apply entry_order_sorted.. |].
  rewrite <- !sort_by_perm. auto.
Qed.

(** The codes depend only on the set of (length, symbol) pairs. *)
Lemma canonicalize_perm p t1 t2 : Permutation t1 t2 -> canonicalize p t1 = canonicalize p t2.
Proof. intros P. unfold canonicalize. rewrite (sort_entries_perm P). reflexivity. Qed.

(** ** canonical code assignment *)
Definition kraftN (L : nat) (es : code_table) : N :=
  sumN (map (fun x => (2 ^ N.of_nat (L - fst x))%N) es).

Fixpoint canon (L : nat) (V : N) (es : code_table) (cs : canonical_table) : Prop :=
  match es, cs with
  | [], [] => True
  | (l, s) :: es', (c, s') :: cs' =>
      s' = s /\ length c = l /\ (bval c * 2 ^ N.of_nat (L - l) = V)%N /\
      canon L (V + 2 ^ N.of_nat (L - l)) es' cs'
  | _, _ => False
  end.

Lemma bval_repeat_false k : bval (repeat false k) = 0%N.
Proof.
  induction k as [|k IH]; [reflexivity|]. cbn [repeat]. rewrite bval_cons, IH. simpl; lia.
Qed.

Lemma pow_split L a b : a <= b <= L ->
  (2 ^ N.of_nat (L - a) = 2 ^ N.of_nat (b - a) * 2 ^ N.of_nat (L - b))%N.
Proof.
  intros H. rewrite <- N.pow_add_r. f_equal. lia.
Qed.

Lemma assign_ok p L : L < 64 -> forall es last, 
  StronglySorted (fun x y => fst x <= fst y) es ->
  Forall (fun x => length last <= fst x <= L) es -> length last <= L ->
  (bval last * 2 ^ N.of_nat (L - length last) + 2 ^ N.of_nat (L - length last) + kraftN L es
    <= 2 ^ N.of_nat L)%N ->
  exists cs, assign_codes p last es = Ok cs /\
    canon L (bval last * 2 ^ N.of_nat (L - length last) + 2 ^ N.of_nat (L - length last)) es cs.
Proof.
  intros HL. induction es as [|[l s] es IH]; intros last HS HF Hlast HK; [exists []; split; auto; exact I|].
  inversion HS as [|? ? HS' HS1]; subst. inversion HF as [|? ? H1 HF']; subst. cbn [fst] in *.
  cbn [assign_codes]. rewrite increment_ok by lia. cbn [bind].
  unfold kraftN in HK. cbn [map fst] in HK. change (sumN (?a :: ?b)) with (a + sumN b)%N in HK.
  pose proof (pow2_pos (L - l)) as Hp.
  assert (bval last + 1 < 2 ^ N.of_nat (length last))%N as Hlt.
  { apply N.mul_lt_mono_pos_r with (p := (2 ^ N.of_nat (L - length last))%N); [apply pow2_pos|].
    rewrite <- N.pow_add_r. replace (N.of_nat (length last) + N.of_nat (L - length last))%N
      with (N.of_nat L) by lia. nia. }
  set (u := convert_to_code_pad_to_n_bits (bval last + 1) (length last)).
  assert (length u = length last) as Hu by (apply pad_n_length; auto).
  assert (bval u = bval last + 1)%N as Hv by apply pad_n_value.
  set (c := u ++ repeat false (l - length u)).
  assert (length c = l) as Hc by (unfold c; rewrite app_length, repeat_length; lia).
  assert (bval c = (bval last + 1) * 2 ^ N.of_nat (l - length last))%N as Hb.
  { unfold c. rewrite bval_app, bval_repeat_false, repeat_length, Hv, Hu. lia. }
  assert (bval c * 2 ^ N.of_nat (L - l) = bval last * 2 ^ N.of_nat (L - length last) + 2 ^ N.of_nat (L - length last))%N as Hpos.
  { rewrite Hb, (@pow_split L (length last) l) by lia. nia. }
  destruct (IH c) as (cs & E & C); auto.
  - clear - HS1 HF' Hc. rewrite Hc. rewrite Forall_forall in *. intros x Hx.
    specialize (HS1 x Hx). specialize (HF' x Hx). cbn [fst] in *. lia.
  - lia.
  - rewrite Hc, Hpos. unfold kraftN. lia.
  - rewrite E. cbn [bind]. exists ((c, s) :: cs). split; auto.
    cbn [canon]. repeat split; auto. rewrite Hc, Hpos in C. exact C.
Qed.

Lemma canon_perm L V es cs : canon L V es cs ->
  map (fun x => (length (fst x), snd x)) cs = es.
Proof.
  revert V cs; induction es as [|[l s] es IH]; intros V [|[c s'] cs] H; try contradiction; auto.
  destruct H as (-> & <- & _ & H). cbn [map fst snd]. f_equal. eauto.
Qed.

Lemma canon_ge L V es cs c s : canon L V es cs -> In (c, s) cs ->
  (V <= bval c * 2 ^ N.of_nat (L - length c))%N.
Proof.
  revert V cs; induction es as [|[l s1] es IH]; intros V [|[c1 s1'] cs] H Hin; try contradiction.
  destruct H as (_ & <- & HV & H). destruct Hin as [Heq|Hin].
  - inversion Heq; subst. lia.
  - eapply IH in H; [|exact Hin]. lia.
Qed.

Definition prefix_free (t : canonical_table) : Prop :=
  forall e1 e2 rest, In e1 t -> In e2 t -> fst e2 = fst e1 ++ rest -> e1 = e2.

Lemma canon_prefix_free L V es cs : Forall (fun x => fst x <= L) es -> canon L V es cs -> prefix_free cs.
Proof.
  revert V cs; induction es as [|[l s] es IH]; intros V [|[c s'] cs] HF H; try contradiction.
  { intros e1 e2 r []. }
  inversion HF as [|? ? Hl HF']; subst. cbn [fst] in Hl.
  destruct H as (-> & Hc & HV & H). specialize (IH _ _ HF' H).
  assert (forall c2 s2 rest, In (c2, s2) cs -> c2 = c ++ rest -> False) as G1.
  { intros c2 s2 rest Hin E. pose proof (@canon_ge _ _ _ _ _ _ H Hin) as G.
    assert (length c2 <= L) as Hlen.
    { pose proof (@canon_perm _ _ _ _ H) as Hm. 
      apply (in_map (fun x => (length (fst x), snd x))) in Hin. rewrite Hm in Hin.
      rewrite Forall_forall in HF'. apply HF' in Hin. exact Hin. }
    subst c2. rewrite bval_app in G. rewrite app_length in *.
    pose proof (bval_lt rest) as Hr.
    rewrite (@pow_split L l (length c + length rest)) in G by lia.
    rewrite (@pow_split L l (length c + length rest)) in HV by lia.
    replace (length c + length rest - l) with (length rest) in * by lia.
    pose proof (pow2_pos (L - (length c + length rest))). nia. }
  assert (forall c2 s2 rest, In (c2, s2) cs -> c = c2 ++ rest -> False) as G2.
  { intros c2 s2 rest Hin E. pose proof (@canon_ge _ _ _ _ _ _ H Hin) as G.
    subst c. rewrite bval_app in *. rewrite app_length in *.
    rewrite (@pow_split L (length c2) l) in G by lia.
    replace (l - length c2) with (length rest) in * by lia.
    pose proof (pow2_pos (L - l)). nia. }
  intros [c1 s1] [c2 s2] rest H1 H2 E. cbn [fst] in E.
  destruct H1 as [H1|H1], H2 as [H2|H2].
  - congruence.
  - inversion H1; subst c1 s1. exfalso; eauto.
  - inversion H2; subst c2 s2. exfalso; eauto.
  - eapply IH; eauto.
Qed.

Lemma prefix_free_perm t1 t2 : Permutation t1 t2 -> prefix_free t1 -> prefix_free t2.
Proof.
  intros P H e1 e2 r H1 H2. apply H; eapply Permutation_in; try (symmetry; exact P); auto.
Qed.

Lemma map_sort_snd (t : canonical_table) :
  StronglySorted hle (map snd (sort_by (fun x y => hsym_leb (snd x) (snd y)) t)).
Proof.
  assert (ssorted (fun x y : list bool * hsym => hsym_leb (snd x) (snd y))
            (sort_by (fun x y => hsym_leb (snd x) (snd y)) t)) as H.
  { apply sort_by_sorted.
    - intros x y. apply hsym_leb_total.
    - intros x y z. apply hsym_leb_trans. }
  unfold ssorted in H. induction H as [|x l H IH HF]; cbn [map]; constructor; auto.
  apply Forall_forall; intros y Hy. apply in_map_iff in Hy as (z & <- & Hz).
  rewrite Forall_forall in HF. apply hsym_leb_hle; auto.
Qed.

Lemma canonicalize_ok p L t : L < 64 -> t <> [] -> Forall (fun x => fst x <= L) t ->
  (kraftN L t <= 2 ^ N.of_nat L)%N ->
  exists T, canonicalize p t = Ok T /\ prefix_free T /\
    Permutation (map (fun x => (length (fst x), snd x)) T) t /\
    StronglySorted hle (map snd T) /\
    exists cs, canon L 0 (sort_by entry_order t) cs /\ Permutation cs T.
Proof.
  intros HL Hne HF HK. unfold canonicalize.
  pose proof (sort_by_perm entry_order t) as P. pose proof (entry_order_sorted t) as S.
  destruct (sort_by entry_order t) as [|[l s] es] eqn:E.
  { apply Permutation_sym, Permutation_nil in P. congruence. }
  assert (Forall (fun x => fst x <= L) ((l, s) :: es)) as HF2.
  { apply Forall_forall; intros x Hx. rewrite Forall_forall in HF. apply HF.
    eapply Permutation_in; [symmetry; exact P|auto]. }
  assert (kraftN L ((l, s) :: es) <= 2 ^ N.of_nat L)%N as HK2.
  { unfold kraftN in *. rewrite <- (sumN_perm (Permutation_map _ P)). auto. }
  inversion S as [|? ? S1 S2]; subst. inversion HF2 as [|? ? Hl HF3]; subst. cbn [fst] in Hl.
  unfold kraftN in HK2; cbn [map fst] in HK2. change (sumN (?a :: ?b)) with (a + sumN b)%N in HK2.
  destruct (@assign_ok p L HL es (repeat false l)) as (cs & Ec & C).
  - clear - S1. induction S1 as [|x es H IH HF]; constructor; auto.
    eapply Forall_impl; [|exact HF]. unfold entle; intros; lia.
  - rewrite repeat_length. clear - S2 HF3. 
    rewrite Forall_forall in *. intros x Hx. specialize (S2 x Hx). specialize (HF3 x Hx).
    unfold entle in *; cbn [fst] in *; lia.
  - rewrite repeat_length; auto.
  - rewrite repeat_length, bval_repeat_false. unfold kraftN. lia.
  - rewrite Ec. cbn [bind]. eexists; split; [reflexivity|].
    rewrite repeat_length, bval_repeat_false in C.
    assert (canon L 0 ((l, s) :: es) ((repeat false l, s) :: cs)) as C0.
    { cbn [canon]. rewrite repeat_length, bval_repeat_false. repeat split; auto. }
    set (srt := sort_by _ _).
    pose proof (sort_by_perm (fun x y => hsym_leb (snd x) (snd y)) ((repeat false l, s) :: cs)) as P2.
    fold srt in P2.
    repeat split.
    + eapply prefix_free_perm; [exact P2|]. eapply canon_prefix_free; [|exact C0]. auto.
    + rewrite <- P2, (@canon_perm _ _ _ _ C0). symmetry; auto.
    + apply map_sort_snd.
    + exists ((repeat false l, s) :: cs). split; auto.
Qed.

(** ** the alphabet of a block *)
Definition alphabet (used : nat) : list hsym :=
  [Normal RunA; Normal RunB] ++ map (fun x => Normal (Number (x + 1))) (seq 0 (used - 1)) ++ [EoB].

Lemma alphabet_length used : 1 <= used -> length (alphabet used) = used + 2.
Proof.
  intros H. unfold alphabet. rewrite !app_length, map_length, seq_length. simpl; lia.
Qed.

Lemma alphabet_sorted used : StronglySorted hle (alphabet used).
Proof.
  unfold alphabet.
  assert (forall s k, StronglySorted hle (map (fun x => Normal (Number (x + 1))) (seq s k) ++ [EoB])) as G.
  { intros s k; revert s; induction k as [|k IH]; intros s; cbn [seq map app].
    - constructor; constructor.
    - constructor; auto. apply Forall_forall; intros y Hy. apply in_app_or in Hy as [Hy|[<-|[]]].
      + apply in_map_iff in Hy as (z & <- & Hz). apply in_seq in Hz. unfold hle; cbn [heob hrank]. lia.
      + unfold hle; cbn [heob]; lia. }
  cbn [app]. constructor; [constructor; auto|].
  - apply Forall_forall; intros y Hy. apply in_app_or in Hy as [Hy|[<-|[]]].
    + apply in_map_iff in Hy as (z & <- & Hz). unfold hle; cbn [heob hrank]. lia.
    + unfold hle; cbn [heob]; lia.
  - constructor; [unfold hle; cbn [heob hrank]; lia|].
    apply Forall_forall; intros y Hy. apply in_app_or in Hy as [Hy|[<-|[]]].
    + apply in_map_iff in Hy as (z & <- & Hz). unfold hle; cbn [heob hrank]. lia.
    + unfold hle; cbn [heob]; lia.
Qed.

Definition alphabet_index (i : nat) : hsym :=
  match i with 0 => Normal RunA | 1 => Normal RunB | x => Normal (Number (x - 1)) end.

Lemma alphabet_indices used : 1 <= used ->
  alphabet used = map alphabet_index (seq 0 (used + 1)) ++ [EoB].
Proof.
  intros H. unfold alphabet. rewrite app_assoc. f_equal.
  replace (used + 1) with (2 + (used - 1)) by lia. rewrite seq_app, map_app. cbn [seq map app alphabet_index].
  do 2 f_equal.
  assert (forall k s, map (fun x => Normal (Number (x + 1))) (seq s k) = map alphabet_index (seq (s + 2) k)) as G.
  { clear. induction k as [|k IH]; intros s; [reflexivity|].
    cbn [seq map]. rewrite (IH (S s)). f_equal.
    replace (s + 2) with (S (S s)) by lia. cbn [alphabet_index]. do 2 f_equal; lia. }
  apply (G _ 0).
Qed.

Lemma alphabet_NoDup used : NoDup (alphabet used).
Proof.
  assert (forall k s, NoDup (map (fun x => Normal (Number (x + 1))) (seq s k) ++ [EoB])) as G.
  { induction k as [|k IH]; intros s; cbn [seq map app].
    - constructor; [intros []|constructor].
    - constructor; auto. intros Hin. apply in_app_or in Hin as [Hin|[Hin|[]]]; [|discriminate].
      apply in_map_iff in Hin as (z & Hz & Hin). apply in_seq in Hin. inversion Hz; lia. }
  assert (forall s, s = Normal RunA \/ s = Normal RunB ->
    ~ In s (map (fun x => Normal (Number (x + 1))) (seq 0 (used - 1)) ++ [EoB])) as N.
  { intros s Hs Hin. apply in_app_or in Hin as [Hin|[Hin|[]]].
    - apply in_map_iff in Hin as (z & Hz & _). destruct Hs; subst s; discriminate.
    - destruct Hs; subst s; discriminate. }
  unfold alphabet; cbn [app]. constructor; [|constructor; auto].
  intros [H|H]; [discriminate|]. revert H. apply N; auto.
Qed.

Lemma alphabet_in used s : 1 <= used ->
  match s with Number v => 1 <= v < used | _ => True end -> In (Normal s) (alphabet used).
Proof.
  intros Hu Hs. unfold alphabet. destruct s as [| |v]; [left; auto|right; left; auto|].
  apply in_or_app; right; apply in_or_app; left.
  apply in_map_iff. exists (v - 1). split; [do 2 f_equal; lia|]. apply in_seq; lia.
Qed.

Lemma alphabet_eob used : In EoB (alphabet used).
Proof. unfold alphabet. apply in_or_app; right; apply in_or_app; right; left; auto. Qed.

(** ** weights *)
Lemma break_ties_fst o l : map fst (break_ties o l) = map fst l.
Proof. revert o; induction l as [|[s f] l IH]; intros o; cbn [break_ties map fst]; auto. rewrite IH; auto. Qed.

Lemma break_ties_increasing o l :
  strictly_increasing (map snd (break_ties o l)) /\
  match o with Some lf => Forall (fun w => lf < w)%N (map snd (break_ties o l)) | None => True end.
Proof.
  revert o; induction l as [|[s f] l IH]; intros o; cbn [break_ties map snd].
  - split; [constructor|]. destruct o; auto.
  - set (f' := match o with Some lf => if (f <=? lf)%N then (f + (lf - f + 1))%N else f | None => f end).
    destruct (IH (Some f')) as [H1 H2]. split; [constructor; auto|].
    destruct o as [lf|]; auto.
    assert (lf < f')%N by (unfold f'; destruct (N.leb_spec f lf); lia).
    constructor; auto. eapply Forall_impl; [|exact H2]. simpl; intros; lia.
Qed.

Lemma symbol_of_index_alphabet i : i <= 256 -> Normal (symbol_of_index i) = alphabet_index i.
Proof.
  intros H. destruct i as [|[|i]]; auto. cbn [symbol_of_index alphabet_index].
  rewrite Nat.mod_small by lia. reflexivity.
Qed.

Lemma iterate_alphabet (freqs : list N) : 2 <= length freqs <= 257 ->
  map fst (map (fun x => (Normal (fst x), snd x)) (iterate_frequencies freqs) ++ [(EoB, 0%N)])
  = alphabet (length freqs - 1).
Proof.
  intros H. rewrite alphabet_indices by lia. rewrite map_app, map_map. cbn [map fst]. f_equal.
  unfold iterate_frequencies. rewrite map_map. cbn [fst].
  replace (length freqs - 1 + 1) with (length freqs) by lia.
  rewrite <- (map_map fst (fun i => Normal (symbol_of_index i))).
  unfold enumerate. rewrite enumerate_from_fst. apply map_ext_in. intros i Hi. apply in_seq in Hi.
  apply symbol_of_index_alphabet; lia.
Qed.

Lemma map_snd_combine {A B} (l1 : list A) (l2 : list B) : length l1 = length l2 ->
  map snd (combine l1 l2) = l2.
Proof. revert l2; induction l1; intros [|y l2] H; try discriminate; simpl; f_equal; auto. Qed.
Lemma map_fst_combine {A B} (l1 : list A) (l2 : list B) : length l1 = length l2 ->
  map fst (combine l1 l2) = l1.
Proof. revert l2; induction l1; intros [|y l2] H; try discriminate; simpl; f_equal; auto. Qed.

(** the code lengths chosen for a frequency table *)
Lemma compute_huffman_ok freqs : 2 <= length freqs <= 257 ->
  exists t, compute_huffman freqs = Ok t /\
    Permutation (map snd t) (alphabet (length freqs - 1)) /\
    Forall (fun x => 1 <= fst x <= 17) t /\ kraft 17 (map fst t) = 2 ^ 17.
Proof.
  intros H. unfold compute_huffman.
  set (tb := map (fun x => (Normal (fst x), snd x)) (iterate_frequencies freqs) ++ [(EoB, 0%N)]).
  set (st := sort_by (fun x y : hsym * N => (snd x <=? snd y)%N) tb).
  assert (Permutation (map fst (break_ties None st)) (alphabet (length freqs - 1))) as P.
  { rewrite break_ties_fst, <- (iterate_alphabet _ H). apply Permutation_map. symmetry.
    apply sort_by_perm. }
  destruct (break_ties_increasing None st) as [S _].
  assert (length (map snd (break_ties None st)) = length freqs + 1) as HL.
  { rewrite map_length, <- (map_length fst), (Permutation_length P), alphabet_length; lia. }
  destruct (@compute_lis_spec _ S ltac:(lia)) as (ls & E & L & F & K).
  rewrite E. cbn [bind]. eexists; split; [reflexivity|].
  assert (length ls = length (map fst (break_ties None st))) as HLs
    by (rewrite L, !map_length; auto).
  rewrite map_snd_combine, map_fst_combine by auto. repeat split; auto.
  apply Forall_forall; intros [l s] Hx. apply in_combine_l in Hx.
  rewrite Forall_forall in F. apply F; auto.
Qed.

Lemma kraft_kraftN t : Forall (fun x => fst x <= 17) t ->
  N.of_nat (kraft 17 (map fst t)) = kraftN 17 t.
Proof.
  unfold kraft, kraftN. induction 1 as [|x t Hx H IH]; [reflexivity|].
  cbn [map]. change (list_sum (?x :: ?l)) with (x + list_sum l).
  change (sumN (?a :: ?b)) with (a + sumN b)%N. rewrite Nat2N.inj_add, IH. f_equal.
  change 2 with (N.to_nat 2). rewrite <- (Nat2N.id (17 - fst x)) at 1.
  rewrite <- N2Nat.inj_pow, N2Nat.id. reflexivity.
Qed.

Definition code_lengths (T : canonical_table) : list nat := map (fun e => length (fst e)) T.

Lemma combine_lengths T : combine (code_lengths T) (map snd T) = map (fun x => (length (fst x), snd x)) T.
Proof. unfold code_lengths. induction T as [|x T IH]; simpl; f_equal; auto. Qed.

(** what succeeds with overflow checks gives the same without *)
Lemma ctn_checked l v r : fold_res (ctn_step Checked) l v = Ok r -> fold_res (ctn_step Wrapping) l v = Ok r.
Proof.
  revert v; induction l as [|b l IH]; intros v H; cbn [fold_res] in *; auto.
  apply bind_ok in H as (x & Hx & H). unfold ctn_step in *.
  destruct (two64 <=? v * 2)%N; [discriminate|]. injection Hx as <-. cbn [bind]. auto.
Qed.
Lemma increment_checked l r : increment_symbol Checked l = Ok r -> increment_symbol Wrapping l = Ok r.
Proof.
  unfold increment_symbol, convert_to_number. intros H. apply bind_ok in H as (v & Hv & H).
  rewrite (@ctn_checked _ _ _ Hv). cbn [bind]. destruct (v + 1 =? two64)%N; [discriminate|auto].
Qed.
Lemma assign_checked es last r : assign_codes Checked last es = Ok r -> assign_codes Wrapping last es = Ok r.
Proof.
  revert last r; induction es as [|[l s] es IH]; intros last r H; cbn [assign_codes] in *; auto.
  apply bind_ok in H as (u & Hu & H). apply bind_ok in H as (rest & Hr & H).
  rewrite (@increment_checked _ _ Hu). cbn [bind]. rewrite (IH _ _ Hr). cbn [bind]. auto.
Qed.
Lemma canonicalize_checked t T : canonicalize Checked t = Ok T -> forall p, canonicalize p t = Ok T.
Proof.
  intros H [|]; auto. unfold canonicalize in *. destruct (sort_by entry_order t) as [|[l s] es]; [discriminate|].
  apply bind_ok in H as (rest & Hr & H). rewrite (assign_checked _ _ Hr). cbn [bind]. auto.
Qed.

(** The encoder's table, its shape, and the fact that the decoder rebuilds it. *)
Theorem tables_agree freqs : 2 <= length freqs <= 257 ->
  exists t T, compute_huffman freqs = Ok t /\ (forall p, canonicalize p t = Ok T) /\
    map snd T = alphabet (length freqs - 1) /\
    Forall (fun l => 1 <= l <= 17) (code_lengths T) /\
    kraft 17 (code_lengths T) = 2 ^ 17 /\
    prefix_free T /\
    exists t', from_weights (code_lengths T) = Ok t' /\ forall p, canonicalize p t' = Ok T.
Proof.
  intros H. destruct (compute_huffman_ok _ H) as (t & E & P & F & K).
  assert (Forall (fun x => fst x <= 17) t) as F' by (eapply Forall_impl; [|exact F]; simpl; intros; lia).
  destruct (@canonicalize_ok Checked 17 t) as (T & ET & PF & PT & ST & _); auto; try lia.
  { intros ->. apply Permutation_nil in P. pose proof (alphabet_eob (length freqs - 1)) as Q.
    rewrite P in Q; destruct Q. }
  { rewrite <- kraft_kraftN, K by auto. vm_compute. discriminate. }
  exists t, T. 
  assert (map snd T = alphabet (length freqs - 1)) as HT.
  { eapply sorted_perm_unique; [apply hle_anti | exact ST | apply alphabet_sorted |].
    rewrite <- P, <- PT, map_map. cbn [snd]. auto. }
  assert (length T = length freqs + 1) as HLT.
  { rewrite <- (map_length snd), HT, alphabet_length; lia. }
  repeat split; auto using canonicalize_checked.
  - apply Forall_forall; intros l Hl. unfold code_lengths in Hl. apply in_map_iff in Hl as (x & <- & Hx).
    apply (in_map (fun x => (length (fst x), snd x))) in Hx. eapply Permutation_in in Hx; [|exact PT].
    rewrite Forall_forall in F. apply F in Hx. exact Hx.
  - assert (Permutation (code_lengths T) (map fst t)) as Q.
    { unfold code_lengths. rewrite <- PT, map_map. cbn [fst]. auto. }
    rewrite <- K. unfold kraft. 
    assert (forall l1 l2, Permutation l1 l2 -> list_sum l1 = list_sum l2) as LS.
    { clear. induction 1; simpl; lia. }
    apply LS, Permutation_map; auto.
  - unfold from_weights. 
    assert (length (code_lengths T) = length freqs + 1) as HLc
      by (unfold code_lengths; rewrite map_length; auto).
    rewrite HLc. 
    replace (length freqs + 1 <? 3) with false by (symmetry; apply Nat.ltb_ge; lia).
    replace (258 <? length freqs + 1) with false by (symmetry; apply Nat.ltb_ge; lia).
    replace (length freqs + 1 - 3) with (length freqs - 1 - 1) by lia.
    fold (alphabet (length freqs - 1)). rewrite <- HT, combine_lengths.
    eexists; split; [reflexivity|]. apply canonicalize_checked. rewrite <- ET. apply canonicalize_perm; auto.
Qed.

(** ** reading coded symbols *)
Lemma bits_eqb_eq a b : bits_eqb a b = true <-> a = b.
Proof.
  revert b; induction a as [|x a IH]; intros [|y b]; simpl; split; intros H; auto; try discriminate.
  - apply andb_true_iff in H as [H1 H2]. apply eqb_prop in H1 as ->. f_equal; apply IH; auto.
  - inversion H; subst. rewrite eqb_reflx. apply IH; auto.
Qed.

Lemma read_from_table_hit T c s : prefix_free T -> In (c, s) T -> read_from_table T c = Some s.
Proof.
  intros PF Hin. unfold read_from_table.
  rewrite (@find_first_unique _ _ T (c, s)); auto.
  - cbn [fst]. apply bits_eqb_eq; auto.
  - intros [c' s'] Hy E. apply bits_eqb_eq in E. cbn [fst] in E. subst c'.
    symmetry. apply (PF (c, s) (c, s') []); auto. rewrite app_nil_r; auto.
Qed.

Lemma read_from_table_miss T c s c1 c2 : prefix_free T -> In (c, s) T -> c = c1 ++ c2 -> c2 <> [] ->
  read_from_table T c1 = None.
Proof.
  intros PF Hin E Hne. unfold read_from_table.
  assert (find_first (fun e => bits_eqb c1 (fst e)) T = None) as ->; [|reflexivity].
  apply find_first_none. intros [c' s'] Hy. destruct (bits_eqb c1 (fst (c', s'))) eqn:Eb; auto.
  apply bits_eqb_eq in Eb. cbn [fst] in Eb. subst c1.
  pose proof (PF _ _ c2 Hy Hin E) as Q. inversion Q; subst.
  rewrite <- (app_nil_r c') in H0 at 1. apply app_inv_head in H0. congruence.
Qed.

Lemma read_one_bit r b rest : rbits r = b :: rest ->
  exists r', read_bits r 1 = Ok ([b], r') /\ rbits r' = rest.
Proof.
  intros E. apply (@reads_bits 1 [b] eq_refl r rest E).
Qed.

Lemma read_one_symbol T s c : prefix_free T -> In (c, s) T -> 1 <= length c ->
  forall c2 c1 r rest max all k fuel, c = c1 ++ c2 -> c2 <> [] ->
    rbits r = c2 ++ rest -> length (c2 ++ rest) < fuel -> k < max ->
  exists r' fuel', rbits r' = rest /\ length rest < fuel' /\
    read_symbols_loop fuel r T max all c1 k =
    match s with
    | EoB => Ok (all, r')
    | Normal z => if S k =? max then Ok (all ++ [z], r')
                  else read_symbols_loop fuel' r' T max (all ++ [z]) [] (S k)
    end.
Proof.
  intros PF Hin Hlen. induction c2 as [|b c2 IH]; intros c1 r rest max all k fuel Ec Hne Er Hf Hk; [congruence|].
  destruct fuel as [|fuel]; [lia|]. cbn [read_symbols_loop].
  destruct (@read_one_bit r b (c2 ++ rest) Er) as (r' & -> & Er'). cbn [bind].
  destruct c2 as [|b2 c2].
  - rewrite <- Ec. rewrite (@read_from_table_hit T c s) by auto.
    exists r', fuel. cbn [app] in *. split; [auto|]. split; [simpl in Hf; lia|].
    destruct s; reflexivity.
  - rewrite (@read_from_table_miss T c s (c1 ++ [b]) (b2 :: c2)); auto.
    2:{ rewrite <- app_assoc; auto. } 2: discriminate.
    replace (k =? max) with false by (symmetry; apply Nat.eqb_neq; lia).
    apply IH; auto.
    + rewrite <- app_assoc; auto.
    + discriminate.
    + simpl in *; lia.
Qed.

(** [coded T s c]: the code of symbol [s] in table [T] *)
Definition good_table (T : canonical_table) : Prop :=
  prefix_free T /\ NoDup (map snd T) /\ Forall (fun e => 1 <= length (fst e)) T.

Inductive coded (T : canonical_table) : list hsym -> list bool -> Prop :=
| coded_nil : coded T [] []
| coded_cons s c ss bs : In (c, s) T -> coded T ss bs -> coded T (s :: ss) (c ++ bs).

Lemma read_coded T ss bs : good_table T -> coded T (map Normal ss) bs ->
  forall r rest max all k fuel, rbits r = bs ++ rest -> length (bs ++ rest) < fuel ->
    k + length ss < max ->
  exists r' fuel', rbits r' = rest /\ length rest < fuel' /\
    read_symbols_loop fuel r T max all [] k
    = read_symbols_loop fuel' r' T max (all ++ ss) [] (k + length ss).
Proof.
  intros (PF & ND & LN). revert bs; induction ss as [|s ss IH]; intros bs HC r rest max all k fuel Er Hf Hk;
    inversion HC as [|? c ? bs' Hin HC']; subst.
  - exists r, fuel. rewrite app_nil_r, Nat.add_0_r. auto.
  - rewrite <- app_assoc in Er, Hf.
    assert (1 <= length c) as Hl by (rewrite Forall_forall in LN; apply LN in Hin; auto).
    destruct (@read_one_symbol T (Normal s) c PF Hin Hl c [] r (bs' ++ rest) max all k fuel)
      as (r1 & f1 & Er1 & Hf1 & ->); auto.
    { intros ->; simpl in Hl; lia. } { lia. }
    cbn [length] in Hk.
    replace (S k =? max) with false by (symmetry; apply Nat.eqb_neq; lia).
    destruct (IH bs' HC' r1 rest max (all ++ [s]) (S k) f1) as (r2 & f2 & Er2 & Hf2 & ->); auto.
    { lia. }
    exists r2, f2. repeat split; auto. f_equal; [rewrite <- app_assoc; auto | simpl; lia].
Qed.

(** a full group of [max] symbols *)
Lemma reads_full_group T ss bs max : good_table T -> coded T (map Normal ss) bs ->
  length ss = max -> 1 <= max -> reads (fun r => read_symbols r T max) bs ss.
Proof.
  intros GT HC HL Hm r rest Er. unfold read_symbols.
  destruct (exists_last (l := ss)) as (ss0 & s & ->); [intros ->; simpl in HL; lia|].
  assert (exists b0 c, bs = b0 ++ c /\ coded T (map Normal ss0) b0 /\ In (c, Normal s) T) as (b0 & c & -> & HC0 & Hin).
  { clear - HC. revert bs HC; induction ss0 as [|x ss0 IH]; intros bs HC; cbn [map app] in HC;
      inversion HC as [|? c ? bs' Hin HC']; subst.
    - inversion HC'; subst. exists [], c. rewrite app_nil_r. split; [reflexivity|]. split; [constructor|auto].
    - destruct (IH _ HC') as (b0 & c' & -> & H1 & H2). exists (c ++ b0), c'.
      rewrite app_assoc. split; [reflexivity|]. split; [constructor; auto|auto]. }
  rewrite app_length in HL; cbn [length] in HL.
  assert (1 <= length c) as Hl.
  { destruct GT as (_ & _ & LN). rewrite Forall_forall in LN. apply LN in Hin. auto. }
  rewrite <- app_assoc in Er.
  destruct (@read_coded T ss0 b0 GT HC0 r (c ++ rest) max [] 0 (S (bits_left r)))
    as (r1 & f1 & Er1 & Hf1 & ->); auto.
  { rewrite bits_left_rbits, Er. lia. } { lia. }
  destruct GT as (PF & _ & _).
  destruct (@read_one_symbol T (Normal s) c PF Hin Hl c [] r1 rest max ([] ++ ss0) (0 + length ss0) f1)
    as (r2 & f2 & Er2 & Hf2 & ->); auto.
  { intros ->; simpl in Hl; lia. } { lia. }
  exists r2. replace (S (0 + length ss0) =? max) with true by (symmetry; apply Nat.eqb_eq; lia).
  auto.
Qed.

(** the last group: fewer than [max] symbols and the end-of-block marker *)
Lemma reads_last_group T ss bs c max : good_table T -> coded T (map Normal ss) bs -> In (c, EoB) T ->
  length ss < max -> reads (fun r => read_symbols r T max) (bs ++ c) ss.
Proof.
  intros GT HC Hin HL r rest Er. unfold read_symbols.
  assert (1 <= length c) as Hl.
  { destruct GT as (_ & _ & LN). rewrite Forall_forall in LN. apply LN in Hin. auto. }
  rewrite <- app_assoc in Er.
  destruct (@read_coded T ss bs GT HC r (c ++ rest) max [] 0 (S (bits_left r)))
    as (r1 & f1 & Er1 & Hf1 & ->); auto.
  { rewrite bits_left_rbits, Er. lia. }
  destruct GT as (PF & _ & _).
  destruct (@read_one_symbol T EoB c PF Hin Hl c [] r1 rest max ([] ++ ss) (0 + length ss) f1)
    as (r2 & f2 & Er2 & Hf2 & ->); auto.
  { intros ->; simpl in Hl; lia. }
  exists r2; auto.
Qed.

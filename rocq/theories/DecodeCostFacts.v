(** * The counted decompressor gives the same results; the steps it takes *)
From Coq Require Import ZArith.
From Verif Require Import Base BaseFacts Bitwise BitwiseFacts Rle Mtf MtfFacts Crc32 Bwt Zle SymbolStatistics Huffman HuffmanFacts CodeTable
  SymbolMap SymbolMapFacts Selectors BlockEncoder BlockDecoder BlockFacts Stream SpecStream StreamFacts EncodeFacts DecodeFacts
  Cost BwtCost BwtCostFacts EncodeCost EncodeCostFacts DecodeCost.

(** ** counted runs whose bound depends on the result *)
Definition spent {A} (m : counted A) (v : res A) (good : A -> Z) (bad : Z) : Prop :=
  fst m = v /\ (Z.of_nat (snd m) <= match v with Ok a => good a | _ => bad end)%Z.
Lemma spent_le {A} (m : counted A) v g b (g' : A -> Z) b' : spent m v g b ->
  (forall a, v = Ok a -> g a <= g' a)%Z -> (b <= b')%Z -> spent m v g' b'.
Proof. intros (H1 & H2) H3 H4. split; auto. destruct v; [specialize (H3 a eq_refl)|..]; lia. Qed.
Lemma spent_bind {A B} (m : counted A) v (f : A -> counted B) h g1 b1 (good : B -> Z) bad : spent m v g1 b1 -> (b1 <= bad)%Z ->
  (forall a, v = Ok a -> spent (f a) (h a) (fun x => good x - g1 a)%Z (bad - g1 a)%Z) -> spent (cbind m f) (bind v h) good bad.
Proof.
  intros (E & H1) HB H. destruct m as [[a| | |] c]; cbn [fst snd] in *; subst v; cbn [bind cbind].
  - destruct (H a eq_refl) as (H2 & H3). destruct (f a) as (r, c'). cbn [fst snd] in *. split; cbn [fst snd]; auto.
    rewrite <- H2 in *. destruct r; lia.
  - split; cbn; auto; lia.
  - split; cbn; auto; lia.
  - split; cbn; auto; lia.
Qed.
Lemma spent_pure {A B} (m : counted A) a (f : A -> counted B) v g1 b1 (good : B -> Z) bad : spent m (Ok a) g1 b1 ->
  spent (f a) v (fun x => good x - g1 a)%Z (bad - g1 a)%Z -> spent (cbind m f) v good bad.
Proof.
  intros (E & H1) (H2 & H3). destruct m as [r c]. cbn [fst snd] in *. subst r. cbn [cbind]. destruct (f a) as (r, c'). cbn [fst snd] in *.
  split; cbn [fst snd]; auto. destruct v; lia.
Qed.
Lemma spent_done {A} (a : A) good bad : (0 <= good a)%Z -> spent (done a) (Ok a) good bad.
Proof. intros H. split; cbn; auto. Qed.
Lemma spent_fail {A} (v : res A) good bad : (forall a, v <> Ok a) -> (0 <= bad)%Z -> spent (v, 0) v good bad.
Proof. intros H1 H2. split; auto. destruct v; [destruct (H1 a eq_refl)|..]; cbn; lia. Qed.
Lemma spent_takes {A} k (v : res A) good bad : (match v with Ok a => Z.of_nat k <= good a | _ => Z.of_nat k <= bad end)%Z ->
  spent (takes k v) v good bad.
Proof. intros H. split; auto. destruct v; cbn [snd takes]; lia. Qed.
Lemma spent_steps {A} j (m : counted A) v good bad : spent m v (fun x => good x - Z.of_nat j)%Z (bad - Z.of_nat j)%Z ->
  spent (steps j m) v good bad.
Proof. intros (H1 & H2). split; auto. unfold steps. cbn [snd]. destruct v; lia. Qed.
Lemma spent_within {A} (m : counted A) v k (good : A -> Z) bad : within m v k ->
  (forall a, v = Ok a -> Z.of_nat k <= good a)%Z -> (Z.of_nat k <= bad)%Z -> spent m v good bad.
Proof. intros (H1 & H2) H3 H4. split; auto. destruct v; [specialize (H3 a eq_refl)|..]; lia. Qed.
Lemma spent_unwrap {A} (m : counted A) v good bad : spent m v good bad -> spent (c_unwrap m) (unwrap v) good bad.
Proof. intros (H1 & H2). unfold c_unwrap. split; cbn [fst snd]; [congruence|]. destruct v; cbn [unwrap]; lia. Qed.
Ltac sb lem := eapply spent_bind; [apply lem|try lia|].

(** ** potential: the bits and answers still to come; every bit read pays [K] steps *)
Local Notation K := 4800%Z.
Definition phi (r : bit_reader) : Z := (K * Z.of_nat (length (rbits r)) + Z.of_nat (length (br_source r)))%Z.
Lemma phi_pos r : (0 <= phi r)%Z.
Proof. unfold phi. lia. Qed.

Lemma s_read_exact src : spent (c_read_exact_one src) (read_exact_one src)
  (fun x => Z.of_nat (length src) - Z.of_nat (length (snd x)))%Z (Z.of_nat (length src) + 1).
Proof.
  induction src as [|[b| |] src IH]; cbn [c_read_exact_one read_exact_one length].
  - split; cbn; auto. lia.
  - split; cbn [fst snd step]; auto. lia.
  - apply spent_steps. eapply spent_le; [exact IH| |lia]. intros; lia.
  - split; cbn [fst snd step]; auto. lia.
Qed.
Lemma s_fetch r : spent (c_br_fetch r) (br_fetch r)
  (fun x => Z.of_nat (length (br_source r)) - Z.of_nat (length (br_source x)))%Z (Z.of_nat (length (br_source r)) + 1).
Proof.
  unfold c_br_fetch, br_fetch. sb s_read_exact. intros (b, rest) E. apply spent_done. cbn [snd br_source]. lia.
Qed.
Lemma s_bit_raw r : spent (c_read_bit r) (read_bit r)
  (fun x => Z.of_nat (length (br_source r)) - Z.of_nat (length (br_source (snd x))) + 3)%Z (Z.of_nat (length (br_source r)) + 4).
Proof.
  unfold c_read_bit, read_bit. cbv zeta. apply spent_steps. destruct (br_current r) as [b|].
  - destruct (8 <=? br_cursor r).
    + sb s_fetch. intros r' _. destruct (br_current r').
      * apply spent_done. cbn [snd br_source]. lia.
      * apply spent_fail; [discriminate|]. lia.
    + apply spent_done. cbn [snd br_source]. lia.
  - sb s_fetch. intros r' _. destruct (br_current r').
    + apply spent_done. cbn [snd br_source]. lia.
    + apply spent_fail; [discriminate|]. lia.
Qed.
Lemma s_bit r : spent (c_read_bit r) (read_bit r) (fun x => phi r - phi (snd x) + 3 - K)%Z (phi r + 4).
Proof.
  eapply spent_le; [apply s_bit_raw| |unfold phi; lia]. intros (b, r') E. apply bit_shorter in E. unfold phi. cbn [snd]. lia.
Qed.
Lemma s_bits n : forall r, spent (c_read_bits r n) (read_bits r n) (fun x => phi r - phi (snd x) + Z.of_nat n * (3 - K))%Z (phi r + 4).
Proof.
  induction n as [|n IH]; intros r; cbn [c_read_bits read_bits]; [apply spent_done; cbn [snd]; lia|].
  sb s_bit. intros (b, r1) _. cbn [snd]. eapply spent_bind; [apply IH|lia|]. intros (bs, r2) _. apply spent_done. cbn [snd]. lia.
Qed.
Lemma read_bits_length r n bs r' : read_bits r n = Ok (bs, r') -> length bs = n.
Proof.
  intros E. destruct (read_bits_spec r n) as [(_ & E2)|(b & rest & r2 & _ & L & E2 & _)]; rewrite E in E2; [discriminate|].
  injection E2 as -> _. exact L.
Qed.
Lemma s_number r n : spent (c_read_number r n) (read_number r n) (fun x => phi r - phi (snd x) + Z.of_nat n * (5 - K))%Z (phi r + 4).
Proof.
  unfold c_read_number, read_number. eapply spent_bind; [apply spent_unwrap, s_bits|lia|]. intros (bs, r1) E. cbn [snd].
  assert (length bs = n) as L.
  { destruct (read_bits r n) as [(x, y)| | |] eqn:E2; try discriminate. cbn [unwrap] in E. injection E as -> ->. eapply read_bits_length; eauto. }
  pose proof (phi_pos r1).
  eapply spent_bind with (g1 := fun _ => (2 * Z.of_nat n)%Z) (b1 := (2 * Z.of_nat n)%Z).
  - apply spent_takes. rewrite L. destruct (convert_to_number Checked bs); lia.
  - lia.
  - intros v _. apply spent_done. cbn [snd]. lia.
Qed.
Lemma s_bytes n : forall r, spent (c_read_bytes r n) (read_bytes r n) (fun x => phi r - phi (snd x) + Z.of_nat n * (50 - 8 * K))%Z (phi r + 6).
Proof.
  induction n as [|n IH]; intros r; cbn [c_read_bytes read_bytes]; [apply spent_done; cbn [snd]; lia|].
  eapply spent_bind with (g1 := fun x => (phi r - phi (snd x) + 26 - 8 * K)%Z) (b1 := (phi r + 6)%Z); [|lia|].
  { apply spent_steps. eapply spent_le; [apply s_bits| |lia]. intros (x, y) _. cbn [snd]. lia. }
  intros (bs, r1) E. cbn [snd]. apply read_bits_length in E. pose proof (phi_pos r1).
  eapply spent_bind with (g1 := fun _ => 16%Z) (b1 := 16%Z).
  - apply spent_takes. rewrite E. destruct (convert_to_number Checked bs); lia.
  - lia.
  - intros v _. eapply spent_bind; [apply IH|lia|]. intros (vs, r2) _. apply spent_done. cbn [snd]. lia.
Qed.

(** ** symbol map, selectors, code lengths *)
Lemma used_regions_length l : length (get_used_regions l) <= length l.
Proof. unfold get_used_regions. rewrite map_length. etransitivity; [apply filter_length_le|]. rewrite enumerate_length. lia. Qed.
Lemma used_symbols_length u l : length (get_used_symbols_from_regions u l) <= length l.
Proof.
  unfold get_used_symbols_from_regions.
  match goal with |- length (flat_map ?f ?c) <= _ => assert (forall c', length (flat_map f c') <= length c') as H end.
  { induction c' as [|((a, b), c0) c' IH]; cbn [flat_map length]; [lia|]. rewrite app_length. destruct c0; cbn [length]; lia. }
  etransitivity; [apply H|]. rewrite combine_length. lia.
Qed.
Lemma s_symbol_table r : spent (c_read_symbol_table r) (read_symbol_table r) (fun x => phi r - phi (snd x) + 16 * (10 - K))%Z (phi r + 4).
Proof.
  unfold c_read_symbol_table, read_symbol_table. sb s_bits. intros (index, r1) E. cbn [snd]. apply read_bits_length in E.
  pose proof (phi_pos r1). pose proof (used_regions_length index) as HU. cbv zeta.
  eapply spent_pure with (g1 := fun _ => 48%Z) (b1 := 0%Z); [apply spent_takes; lia|].
  sb s_bits. intros (regions, r2) E2. cbn [snd]. apply read_bits_length in E2. pose proof (phi_pos r2).
  apply spent_takes. cbn [snd]. lia.
Qed.
Lemma symbol_table_length r s r' : read_symbol_table r = Ok (s, r') -> length s <= 256.
Proof.
  unfold read_symbol_table. intros E. apply bind_ok in E as ((i & r1) & E1 & E). apply read_bits_length in E1.
  apply bind_ok in E as ((g & r2) & E2 & E). apply read_bits_length in E2. injection E as <- _.
  pose proof (used_regions_length i). etransitivity; [apply used_symbols_length|]. lia.
Qed.

Lemma s_unary_loop p amount fuel : forall r c out, spent (c_read_unary_loop p fuel r amount c out) (read_unary_loop p fuel r amount c out)
  (fun x => phi r - phi (snd x) + (6 - K) * (Z.of_nat (length (fst x)) - Z.of_nat (length out)))%Z (phi r + 7).
Proof.
  induction fuel as [|fuel IH]; intros r c out; cbn [c_read_unary_loop read_unary_loop]; pose proof (phi_pos r);
    [apply spent_fail; [discriminate|lia]|].
  sb s_bit. intros (b, r1) _. cbn [snd]. pose proof (phi_pos r1).
  eapply spent_bind with (g1 := fun _ => 3%Z) (b1 := 3%Z); [|lia|].
  - apply spent_takes. match goal with |- context [match ?v with Ok _ => _ | _ => _ end] => destruct v end; lia.
  - intros (c', o') E.
    assert (length o' = length out \/ length o' = S (length out)) as L.
    { destruct b; [destruct (c =? 255); [destruct p; [discriminate|]|]|]; injection E as <- <-; auto.
      right. rewrite app_length. cbn [length]. lia. }
    destruct (amount <=? length o').
    + apply spent_done. cbn [fst snd]. lia.
    + eapply spent_le; [apply IH| |lia]. intros (x, y) _. cbn [fst snd]. lia.
Qed.
Lemma s_unary p r amount : spent (c_read_unary p r amount) (read_unary p r amount)
  (fun x => phi r - phi (snd x) + (6 - K) * Z.of_nat (length (fst x)))%Z (phi r + 7).
Proof.
  unfold c_read_unary, read_unary. eapply spent_le; [apply s_unary_loop| |lia]. intros. cbn [length]. lia.
Qed.

Lemma s_delta_loop p amount fuel : forall r s out, spent (c_read_delta_loop p fuel r amount s out) (read_delta_loop p fuel r amount s out)
  (fun x => phi r - phi (snd x) + (9 - K) * (Z.of_nat (length (fst x)) - Z.of_nat (length out)))%Z (phi r + 6).
Proof.
  induction fuel as [|fuel IH]; intros r s out; cbn [c_read_delta_loop read_delta_loop]; pose proof (phi_pos r);
    [apply spent_fail; [discriminate|lia]|].
  eapply spent_bind with (g1 := fun x => (phi r - phi (snd x) + 5 - K)%Z) (b1 := (phi r + 6)%Z); [|lia|].
  { apply spent_steps. eapply spent_le; [apply s_bit| |lia]. intros; lia. }
  intros (b, r1) _. cbn [snd]. pose proof (phi_pos r1).
  eapply spent_bind with (g1 := fun x => (phi r1 - phi (snd x) + 4)%Z) (b1 := (phi r1 + 5)%Z); [|lia|].
  - destruct b.
    + sb s_bit. intros (b', r2) _. cbn [snd]. pose proof (phi_pos r2).
      eapply spent_bind with (g1 := fun _ => 1%Z) (b1 := 1%Z); [|lia|].
      * apply spent_takes. destruct b'; [destruct (start_dec p s)|destruct (start_inc p s)]; lia.
      * intros s' _. apply spent_done. cbn [snd]. lia.
    + apply spent_takes. cbn [snd]. lia.
  - intros ((s', o'), r2) E. cbn [snd]. pose proof (phi_pos r2).
    assert (length o' = length out \/ length o' = S (length out)) as L.
    { destruct b.
      - apply bind_ok in E as ((b' & r3) & _ & E). apply bind_ok in E as (s1 & _ & E). injection E as _ <- _. auto.
      - injection E as _ <- _. right. rewrite app_length. cbn [length]. lia. }
    destruct (length o' =? amount).
    + apply spent_done. cbn [fst snd]. lia.
    + eapply spent_le; [apply IH| |lia]. intros (x, y) _. cbn [fst snd]. lia.
Qed.
Lemma s_delta p r amount : spent (c_read_delta p r amount) (read_delta p r amount)
  (fun x => phi r - phi (snd x) + (9 - K) * Z.of_nat (length (fst x)) - 1000)%Z (phi r + 6).
Proof.
  unfold c_read_delta, read_delta. sb s_bits. intros (bits, r1) E. cbn [snd]. apply read_bits_length in E. pose proof (phi_pos r1).
  eapply spent_bind with (g1 := fun _ => 10%Z) (b1 := 10%Z); [|lia|].
  - apply spent_takes. rewrite E. destruct (convert_to_number p bits); lia.
  - intros s _. eapply spent_le; [apply s_delta_loop| |lia]. intros (x, y) _. cbn [fst snd length]. lia.
Qed.
Definition lengths_ok (t : list nat) : Prop := Forall (fun l => l <= 255) t.
Lemma delta_loop_shape p amount fuel : forall r s out t r', read_delta_loop p fuel r amount s out = Ok (t, r') -> lengths_ok out ->
  length t = amount /\ lengths_ok t.
Proof.
  induction fuel as [|fuel IH]; intros r s out t r' E HO; cbn [read_delta_loop] in E; [discriminate|].
  apply bind_ok in E as ((b & r1) & _ & E). apply bind_ok in E as (((s' & o') & r2) & E2 & E).
  assert (lengths_ok o') as HO'.
  { destruct b.
    - apply bind_ok in E2 as ((b' & r3) & _ & E2). apply bind_ok in E2 as (s1 & _ & E2). injection E2 as _ <- _. auto.
    - injection E2 as _ <- _. apply Forall_app. split; auto. constructor; auto. pose proof (N.mod_lt s 256 ltac:(discriminate)). lia. }
  destruct (Nat.eqb_spec (length o') amount).
  - injection E as <- _. auto.
  - eapply IH; eauto.
Qed.
Lemma delta_shape p r amount t r' : read_delta p r amount = Ok (t, r') -> length t = amount /\ lengths_ok t.
Proof.
  unfold read_delta. intros E. apply bind_ok in E as ((bits & r1) & _ & E). apply bind_ok in E as (s & _ & E).
  eapply delta_loop_shape; [exact E|constructor].
Qed.
Lemma s_trees p k amount : forall r, spent (c_read_trees p k r amount) (read_trees p k r amount)
  (fun x => phi r - phi (snd x) + (9 - K) * Z.of_nat (k * amount))%Z (phi r + 8).
Proof.
  induction k as [|k IH]; intros r; cbn [c_read_trees read_trees]; [apply spent_done; cbn [snd]; lia|].
  eapply spent_bind with (g1 := fun x => (phi r - phi (snd x) + (9 - K) * Z.of_nat (length (fst x)) - 998)%Z) (b1 := (phi r + 8)%Z); [|lia|].
  { apply spent_steps, spent_unwrap. eapply spent_le; [apply s_delta| |lia]. intros; lia. }
  intros (t, r1) E. assert (length t = amount) as L.
  { destruct (read_delta p r amount) as [(x, y)| | |] eqn:E2; try discriminate. cbn [unwrap] in E. injection E as -> ->. eapply delta_shape; eauto. }
  cbn [fst snd]. pose proof (phi_pos r1). rewrite L. sb IH. intros (ts, r2) _. apply spent_done. cbn [snd]. lia.
Qed.
Lemma trees_shape p k amount : forall r ts r', read_trees p k r amount = Ok (ts, r') ->
  length ts = k /\ Forall (fun t => length t = amount /\ lengths_ok t) ts.
Proof.
  induction k as [|k IH]; intros r ts r' E; cbn [read_trees] in E; [injection E as <- _; auto|].
  apply bind_ok in E as ((t & r1) & E1 & E). apply bind_ok in E as ((ts' & r2) & E2 & E). injection E as <- _.
  destruct (IH _ _ _ E2) as (H1 & H2). cbn [length]. split; [lia|]. constructor; auto.
  destruct (read_delta p r amount) as [(x, y)| | |] eqn:E3; try discriminate. cbn [unwrap] in E1. injection E1 as -> ->. eapply delta_shape; eauto.
Qed.

(** ** tables *)
Definition tame (T : canonical_table) : Prop := Forall (fun e => length (fst e) <= 255) T.
Lemma number_lt p l v : convert_to_number p l = Ok v -> (v < two64)%N.
Proof.
  unfold convert_to_number. intros E.
  refine (@fold_res_inv _ _ (fun v => (v < two64)%N) (ctn_step p) l _ 0%N v _ E); [|reflexivity].
  intros s x s' _ H E1. unfold ctn_step in E1. cbv zeta in E1. destruct (N.leb_spec two64 (s * 2)).
  - destruct p; [discriminate|]. injection E1 as <-. pose proof (N.mod_lt (s * 2) two64 ltac:(discriminate)) as HM.
    assert ((s * 2) mod two64 = s * 2 - two64)%N as ->.
    { symmetry. apply N.mod_unique with (q := 1%N); unfold two64 in *; lia. }
    destruct x; unfold two64 in *; lia.
  - injection E1 as <-. destruct x; unfold two64 in *; lia.
Qed.
Lemma increment_length p l u : length l <= 255 -> increment_symbol p l = Ok u -> length u <= 255.
Proof.
  unfold increment_symbol. intros H E. apply bind_ok in E as (v & E1 & E). apply number_lt in E1.
  assert (forall w, (w < two64)%N -> length (convert_to_code_pad_to_n_bits w (length l)) <= 255) as G.
  { intros w Hw. rewrite pad_length. apply size_lt with (n := 64) in Hw. lia. }
  destruct (N.eqb_spec (v + 1) two64); [destruct p; [discriminate|]|]; injection E as <-; apply G; [reflexivity|lia].
Qed.
Lemma w_increment_any p l : length l <= 255 -> within (c_increment_symbol p l) (increment_symbol p l) (6 * 255).
Proof.
  intros HL. unfold c_increment_symbol, increment_symbol. wb (2 * 255); [apply within_takes; lia|].
  intros v E. apply number_lt in E.
  assert (forall w, (w < two64)%N -> length (convert_to_code_pad_to_n_bits w (length l)) <= 255) as G.
  { intros w Hw. rewrite pad_length. apply size_lt with (n := 64) in Hw. lia. }
  destruct (N.eqb_spec (v + 1) two64); [destruct p; [split; cbn; auto; lia|]|]; apply within_takes.
  - specialize (G 0%N eq_refl). lia.
  - assert (v + 1 < two64)%N as H by lia. specialize (G _ H). lia.
Qed.
Lemma w_assign_any p es : Forall (fun e => fst e <= 255) es -> forall last, length last <= 255 ->
  within (c_assign_codes p last es) (assign_codes p last es) (length es * 2298).
Proof.
  induction es as [|(len, s) es IH]; intros HF last HL; cbn [assign_codes c_assign_codes length]; [apply within_done|].
  apply Forall_cons_iff in HF as (HC & HF). cbn [fst] in HC. remember (length es * 2298) as X.
  wb (2 + 6 * 255); [apply within_steps; [lia|]; eapply within_le; [apply w_increment_any; auto|lia]|].
  intros u E. apply increment_length in E; auto. cbv zeta.
  wp (2 * 255); [apply within_takes; lia|]. wp 256; [apply within_takes; rewrite app_length, repeat_length; lia|].
  wb X; [apply IH; auto; rewrite app_length, repeat_length; lia|]. intros cs _. apply within_done.
Qed.
Lemma assign_any p es : Forall (fun e => fst e <= 255) es -> forall last cs, length last <= 255 -> assign_codes p last es = Ok cs ->
  tame cs /\ length cs = length es.
Proof.
  induction es as [|(len, s) es IH]; intros HF last cs HL E; cbn [assign_codes] in E; [injection E as <-; split; [constructor|reflexivity]|].
  apply Forall_cons_iff in HF as (HC & HF). cbn [fst] in HC. apply bind_ok in E as (u & E1 & E). apply increment_length in E1; auto. cbv zeta in E.
  apply bind_ok in E as (rest & E2 & E). injection E as <-.
  assert (length (u ++ repeat false (len - length u)) <= 255) as H by (rewrite app_length, repeat_length; lia).
  destruct (IH HF _ _ H E2) as (H1 & H2). split; [constructor; auto|cbn [length]; lia].
Qed.
Lemma sorted_lengths t : Forall (fun e : nat * hsym => fst e <= 255) t -> Forall (fun e => fst e <= 255) (sort_by entry_order t).
Proof. intros H. eapply Permutation_Forall; [|exact H]. apply sort_by_perm. Qed.
Lemma w_canonicalize_any p t : Forall (fun e => fst e <= 255) t -> length t <= 258 ->
  within (c_canonicalize p t) (canonicalize p t) (4362 * length t + 512).
Proof.
  intros HF HT. unfold c_canonicalize, canonicalize. apply sorted_lengths in HF. pose proof (@sort_by_length _ entry_order t) as LS.
  assert (length t * length t <= 258 * length t) as HQ by (apply Nat.mul_le_mono_r; auto).
  remember (length t * length t) as Q eqn:EQ.
  wp (4 * Q); [eapply within_le; [apply w_sort|lia]|].
  destruct (sort_by entry_order t) as [|(len, s) es]; [split; [reflexivity|apply Nat.le_0_l]|]. cbn [length] in LS.
  apply Forall_cons_iff in HF as (HL & HF). cbn [fst] in HL.
  wp 512; [apply within_takes; lia|].
  wb (length es * 2298); [apply w_assign_any; auto; rewrite repeat_length; auto|].
  intros cs E. apply assign_any in E as (_ & E); auto; [|rewrite repeat_length; auto].
  eapply within_le; [apply w_sort|]. cbn [length]. rewrite E, LS, <- EQ. lia.
Qed.
Lemma canonicalize_tame p t T : Forall (fun e => fst e <= 255) t -> canonicalize p t = Ok T -> tame T /\ length T = length t.
Proof.
  unfold canonicalize. intros HF E. apply sorted_lengths in HF. pose proof (@sort_by_length _ entry_order t) as LS.
  destruct (sort_by entry_order t) as [|(len, s) es]; [discriminate|]. apply Forall_cons_iff in HF as (HL & HF). cbn [fst length] in *.
  apply bind_ok in E as (cs & E & E2). apply assign_any in E as (H1 & H2); auto; [|rewrite repeat_length; auto].
  assert (T = sort_by (fun x y : list bool * hsym => hsym_leb (snd x) (snd y)) ((repeat false len, s) :: cs)) as -> by congruence.
  split; [|rewrite sort_by_length; cbn [length]; lia].
  eapply Permutation_Forall; [apply sort_by_perm|]. constructor; auto. cbn [fst]. rewrite repeat_length. auto.
Qed.
Lemma from_weights_shape t c : lengths_ok t -> from_weights t = Ok c -> length c = length t /\ length t <= 258 /\ Forall (fun e => fst e <= 255) c.
Proof.
  unfold from_weights. intros HF E. destruct (Nat.ltb_spec (length t) 3); [discriminate|]. destruct (Nat.ltb_spec 258 (length t)); [discriminate|].
  cbv zeta in E. assert (c = combine t ([Normal RunA; Normal RunB] ++ map (fun x => Normal (Number (x + 1))) (seq 0 (length t - 3)) ++ [EoB])) as -> by congruence.
  clear E. split; [rewrite combine_length, !app_length, map_length, seq_length; cbn [length]; lia|]. split; auto.
  apply Forall_forall. intros (l, s) H1. cbn [fst]. apply in_combine_l in H1. unfold lengths_ok in HF. rewrite Forall_forall in HF. auto.
Qed.
Lemma w_table_any p t : lengths_ok t -> 2 <= length t ->
  within (let? c := c_from_weights t in c_canonicalize p c) (let! c := from_weights t in canonicalize p c) (4700 * length t).
Proof.
  intros HF HL. wb (8 * length t); [apply within_takes; lia|]. intros c E. destruct (from_weights_shape HF E) as (L1 & L2 & H).
  eapply within_le; [apply w_canonicalize_any; auto; lia|lia].
Qed.
Lemma table_any_tame p t T : lengths_ok t -> (let! c := from_weights t in canonicalize p c) = Ok T -> tame T /\ length T <= 258.
Proof.
  intros HF E. apply bind_ok in E as (c & E1 & E). destruct (from_weights_shape HF E1) as (L1 & L2 & H).
  destruct (canonicalize_tame _ H E) as (H1 & H2). split; auto. lia.
Qed.

(** ** coded symbols *)
(** the codes of at most [c] bits: together they are compared with a symbol of [c] bits at
    most once each, when the symbol has their length *)
Definition compared (T : canonical_table) (c : nat) : nat :=
  list_sum (map (fun e : list bool * hsym => if length (fst e) <=? c then length (fst e) else 0) T).
Lemma compared_le T c : compared T c <= length T * c.
Proof.
  unfold compared. induction T as [|e T IH]; [cbn; lia|]. cbn [map length]. change (list_sum (?x :: ?l)) with (x + list_sum l).
  destruct (Nat.leb_spec (length (fst e)) c); lia.
Qed.
Lemma compared_0 T : compared T 0 = 0.
Proof. pose proof (compared_le T 0). lia. Qed.
Lemma compared_S T c : compared T c <= compared T (S c).
Proof.
  unfold compared. induction T as [|e T IH]; [cbn; lia|]. cbn [map]. change (list_sum (?x :: ?l)) with (x + list_sum l).
  destruct (Nat.leb_spec (length (fst e)) c), (Nat.leb_spec (length (fst e)) (S c)); lia.
Qed.
Lemma w_read_from_table T s c : length s = S c ->
  within (c_read_from_table T s) (Ok (read_from_table T s)) (2 * length T + (compared T (S c) - compared T c)).
Proof.
  intros HL. unfold read_from_table. induction T as [|e T IH]; cbn [c_read_from_table find_first length option_map]; [apply within_done|].
  assert (compared (e :: T) (S c) - compared (e :: T) c =
          (if length s =? length (fst e) then length s else 0) + (compared T (S c) - compared T c)) as HC.
  { pose proof (compared_S T c) as HM. unfold compared in *. cbn [map]. change (list_sum (?x :: ?l)) with (x + list_sum l).
    destruct (Nat.leb_spec (length (fst e)) c), (Nat.leb_spec (length (fst e)) (S c)), (Nat.eqb_spec (length s) (length (fst e))); lia. }
  rewrite HC. apply within_steps; [lia|]. destruct (bits_eqb s (fst e)); [apply within_done|]. eapply within_le; [apply IH; auto|lia].
Qed.
Definition slack (T : canonical_table) (c : nat) : Z := (258 * Z.of_nat c - Z.of_nat (compared T c))%Z.
Lemma slack_pos T c : length T <= 258 -> (0 <= slack T c)%Z.
Proof.
  intros H. unfold slack. pose proof (compared_le T c). assert (length T * c <= 258 * c) by (apply Nat.mul_le_mono_r; auto). lia.
Qed.
Lemma s_symbols_loop T max fuel : length T <= 258 -> forall r all cur k,
  spent (c_read_symbols_loop fuel r T max all cur k) (read_symbols_loop fuel r T max all cur k)
  (fun x => phi r - phi (snd x) + (780 - K) * (Z.of_nat (length (fst x)) - Z.of_nat (length all)) + slack T (length cur))%Z
  (phi r + 7 + slack T (length cur)).
Proof.
  intros HL. induction fuel as [|fuel IH]; intros r all cur k; cbn [c_read_symbols_loop read_symbols_loop]; pose proof (phi_pos r);
    pose proof (@slack_pos T (length cur) HL); [apply spent_fail; [discriminate|lia]|].
  eapply spent_bind with (g1 := fun x => (phi r - phi (snd x) + 6 - K)%Z) (b1 := (phi r + 7)%Z); [|lia|].
  { apply spent_steps. eapply spent_le; [apply s_bits| |lia]. intros (x, y) _. cbn [snd]. lia. }
  intros (b, r1) E. cbn [snd]. pose proof (phi_pos r1). cbv zeta. apply read_bits_length in E.
  assert (length (cur ++ b) = S (length cur)) as LC by (rewrite app_length; lia).
  pose proof (@slack_pos T (S (length cur)) HL) as HS1. pose proof (compared_S T (length cur)) as HM.
  assert (slack T 0 = 0)%Z as HS0 by (unfold slack; rewrite compared_0; lia).
  eapply spent_pure with (g1 := fun _ => (516 + 258 + slack T (length cur) - slack T (S (length cur)))%Z) (b1 := 0%Z).
  { split; [eapply w_read_from_table; exact LC|]. destruct (@w_read_from_table T (cur ++ b) (length cur) LC) as (_ & H'). unfold slack. lia. }
  destruct (read_from_table T (cur ++ b)) as [[s|]|].
  - assert (length (all ++ [s]) = S (length all)) as LA by (rewrite app_length; cbn [length]; lia).
    destruct (S k =? max).
    + apply spent_done. cbn [fst snd]. lia.
    + eapply spent_le; [apply IH| |cbn [length]; lia]. intros (x, y) _. cbn [fst snd length]. lia.
  - apply spent_done. cbn [fst snd]. lia.
  - destruct (k =? max).
    + apply spent_done. cbn [fst snd]. lia.
    + eapply spent_le; [apply IH| |rewrite LC; lia]. intros (x, y) _. cbn [fst snd]. rewrite LC. lia.
Qed.
Lemma s_groups sel tables : Forall (fun T => tame T /\ length T <= 258) tables -> forall r,
  spent (c_read_groups sel tables r) (read_groups sel tables r)
  (fun x => phi r - phi (snd x) + (781 - K) * Z.of_nat (length (fst x)) + 2 * Z.of_nat (length sel))%Z
  (phi r + 9 + 2 * Z.of_nat (length sel)).
Proof.
  intros HT. induction sel as [|s sel IH]; intros r; cbn [c_read_groups read_groups length]; [apply spent_done; cbn [fst snd length]; lia|].
  pose proof (phi_pos r).
  eapply spent_bind with (g1 := fun _ => 2%Z) (b1 := 2%Z); [|lia|].
  { apply spent_steps. unfold c_get, step. apply (@spent_takes _ 1). destruct (get_at tables s); lia. }
  intros T E. apply get_at_inv, nth_error_In in E. rewrite Forall_forall in HT. destruct (HT T E) as (HT1 & HT2).
  assert (slack T 0 = 0)%Z as HS0 by (unfold slack; rewrite compared_0; lia).
  eapply spent_bind; [apply spent_unwrap; unfold c_read_symbols, read_symbols; apply s_symbols_loop; auto|cbn [length]; lia|].
  intros (syms, r1) _. cbn [fst snd length]. pose proof (phi_pos r1).
  eapply spent_pure with (g1 := fun _ => Z.of_nat (length syms)) (b1 := 0%Z); [apply spent_takes; lia|].
  eapply spent_bind; [apply IH|lia|]. intros (rest, r2) _. apply spent_done. cbn [fst snd]. rewrite app_length. lia.
Qed.

(** ** zero runs *)
Lemma w_flush zeros out : within (c_flush_zeros zeros out) (flush_zeros zeros out) (6 * length zeros + 3 + 2 * run_values zeros).
Proof.
  unfold c_flush_zeros, flush_zeros, run_values. destruct zeros as [|z zeros]; [apply within_done|].
  remember (z :: zeros) as l. destruct (decode_zero_amount l) as [k| | |]; cbn [bind].
  - wp (6 * length l + 3); [apply within_takes; lia|]. apply within_takes. lia.
  - split; cbn; auto; lia.
  - split; cbn; auto; lia.
  - split; cbn; auto; lia.
Qed.
Lemma w_zle_loop_d input : forall out zeros, within (c_decode_zle_loop input out zeros) (decode_zle_loop input out zeros)
  (12 * length input + 6 * length zeros + 3 + 2 * zle_values input zeros).
Proof.
  induction input as [|s input IH]; intros out zeros; cbn [c_decode_zle_loop decode_zle_loop zle_values length].
  - eapply within_le; [apply w_flush|lia].
  - destruct s as [| |e].
    + apply within_steps; [lia|]. eapply within_le; [apply IH|]. rewrite app_length. cbn [length]. lia.
    + apply within_steps; [lia|]. eapply within_le; [apply IH|]. rewrite app_length. cbn [length]. lia.
    + wb (6 * length zeros + 6 + 2 * run_values zeros); [apply within_steps; [lia|]; eapply within_le; [apply w_flush|lia]|].
      intros o _. eapply within_le; [apply IH|]. cbn [length]. lia.
Qed.
Lemma flush_values zeros out o : flush_zeros zeros out = Ok o -> length o = length out + run_values zeros.
Proof.
  unfold flush_zeros, run_values. destruct zeros as [|z zeros]; intros E; [injection E as <-; lia|].
  apply bind_ok in E as (k & -> & E). assert (o = out ++ repeat 0 (N.to_nat k)) as -> by congruence. rewrite app_length, repeat_length. lia.
Qed.
Lemma zle_values_ok input : forall out zeros o, decode_zle_loop input out zeros = Ok o -> length o = length out + zle_values input zeros.
Proof.
  induction input as [|s input IH]; intros out zeros o E; cbn [decode_zle_loop zle_values] in *; [apply flush_values; auto|].
  destruct s as [| |e]; auto. apply bind_ok in E as (o1 & E1 & E). apply flush_values in E1. apply IH in E. rewrite E, app_length. cbn [length]. lia.
Qed.

(** ** the last three stages *)
Lemma w_inverse_mtf_loop l : forall d, within (c_inverse_mtf_loop l d) (inverse_mtf l d) (length l * (3 * length d + 6)).
Proof.
  induction l as [|i l IH]; intros d; cbn [c_inverse_mtf_loop inverse_mtf length]; [apply within_done|].
  remember (length l * (3 * length d + 6)) as X eqn:EX.
  replace (S (length l) * (3 * length d + 6)) with (3 * length d + 6 + X) by (rewrite EX; lia).
  wb 3; [apply within_steps; [lia|]; apply within_step; lia|]. intros v _.
  wb (2 * length d); [apply w_find_pos|]. intros pos E. apply EncodeCostFacts.find_pos_lt in E.
  destruct (255 <? pos); [split; cbn; auto; lia|].
  wb (length d + 2); [eapply within_le; [apply w_bring|lia]|]. intros d' E'. apply bring_length in E'.
  wb X; [rewrite EX, <- E'; apply IH|]. intros out _. apply within_done.
Qed.
Lemma inverse_mtf_length l : forall d out, inverse_mtf l d = Ok out -> length out = length l.
Proof.
  induction l as [|i l IH]; intros d out E; cbn [inverse_mtf] in E; [injection E as <-; auto|].
  apply bind_ok in E as (v & _ & E). apply bind_ok in E as (pos & _ & E). destruct (255 <? pos); [discriminate|].
  apply bind_ok in E as (d' & _ & E). apply bind_ok in E as (o & E1 & E). injection E as <-. apply IH in E1. cbn [length]. lia.
Qed.
Lemma w_inverse_mtf l d : within (c_inverse_mtf l d) (inverse_mtf l d) (length d + length l * (3 * length d + 6)).
Proof. unfold c_inverse_mtf. wp (length d); [apply w_copy|]. eapply within_le; [apply w_inverse_mtf_loop|lia]. Qed.
Lemma w_inverse_bwt_loop pairs k : forall start, within (c_inverse_bwt_loop k pairs start) (inverse_bwt_loop k pairs start) (3 * k).
Proof.
  induction k as [|k IH]; intros start; cbn [c_inverse_bwt_loop inverse_bwt_loop]; [apply within_done|].
  wb 3; [apply within_steps; [lia|]; apply within_step; lia|]. intros (next, v) _.
  wb (3 * k); [apply IH|]. intros out _. apply within_done.
Qed.
Lemma inverse_bwt_loop_length pairs k : forall start out, inverse_bwt_loop k pairs start = Ok out -> length out = k.
Proof.
  induction k as [|k IH]; intros start out E; cbn [inverse_bwt_loop] in E; [injection E as <-; auto|].
  apply bind_ok in E as ((next & v) & _ & E). apply bind_ok in E as (o & E1 & E). injection E as <-. apply IH in E1. cbn [length]. lia.
Qed.
Definition sort_cost (n : nat) : nat := 4 * n * (Nat.log2 n + 1).
Lemma w_inverse_bwt l ptr : within (c_inverse_bwt l ptr) (inverse_bwt l ptr) (7 * length l + sort_cost (length l) + 1).
Proof.
  unfold c_inverse_bwt, inverse_bwt. cbv zeta. pose proof (enumerate_length l) as LE.
  wp (2 * length l); [apply within_takes; lia|].
  wp (sort_cost (length l)); [apply within_takes; unfold sort_cost; rewrite LE; lia|].
  wp (2 * length l); [eapply within_le; [apply w_find_first|rewrite sort_by_length, LE; lia]|].
  wb 1; [apply within_step; lia|]. intros (start, x) _. eapply within_le; [apply w_inverse_bwt_loop|lia].
Qed.
Lemma inverse_bwt_length l ptr out : inverse_bwt l ptr = Ok out -> length out = length l.
Proof.
  unfold inverse_bwt. cbv zeta. intros E. apply bind_ok in E as ((start & x) & _ & E). apply inverse_bwt_loop_length in E. auto.
Qed.
Lemma irle_step_grows s e : length (ir_out s) <= length (ir_out (irle_step s e)).
Proof.
  unfold irle_step. destruct (ir_prev s); [destruct (_ =? 3); [|destruct (_ =? _)]|]; cbn [ir_out]; rewrite app_length; lia.
Qed.
Lemma w_irle l : forall s, within (cfold c_irle_step l s) (Ok (fold_left irle_step l s))
    (4 * length l + 2 * (length (ir_out (fold_left irle_step l s)) - length (ir_out s))) /\
  length (ir_out s) <= length (ir_out (fold_left irle_step l s)).
Proof.
  induction l as [|e l IH]; intros s; cbn [cfold fold_left length]; [split; [apply within_done|lia]|].
  destruct (IH (irle_step s e)) as (H1 & H2). pose proof (irle_step_grows s e) as H3. split; [|lia].
  wp (4 + 2 * (length (ir_out (irle_step s e)) - length (ir_out s))).
  - unfold c_irle_step. apply within_steps; [lia|]. apply within_takes. lia.
  - eapply within_le; [exact H1|lia].
Qed.
Lemma w_inverse_rle l : within (c_inverse_rle l) (Ok (inverse_rle l)) (4 * length l + 2 * length (inverse_rle l)).
Proof.
  unfold c_inverse_rle, inverse_rle. destruct (w_irle l (mk_irle [] 0 None)) as (H & _). cbn [ir_out length] in H.
  wp (4 * length l + 2 * length (ir_out (fold_left irle_step l (mk_irle [] 0 None)))); [eapply within_le; [exact H|lia]|].
  apply within_done.
Qed.
(** a count byte adds nothing to the contents only after three pushed bytes *)
Lemma irle_ratio l : forall s, ir_equal s <= 3 ->
  3 * length l + ir_equal (fold_left irle_step l s) + 4 * length (ir_out s)
    <= 4 * length (ir_out (fold_left irle_step l s)) + ir_equal s.
Proof.
  induction l as [|e l IH]; intros s HS; cbn [fold_left length]; [lia|].
  assert (ir_equal (irle_step s e) <= 3 /\ 3 + ir_equal (irle_step s e) + 4 * length (ir_out s) <= 4 * length (ir_out (irle_step s e)) + ir_equal s) as (H1 & H2).
  { unfold irle_step. destruct (ir_prev s); [destruct (Nat.eqb_spec (ir_equal s) 3); [|destruct (_ =? _)]|]; cbn [ir_out ir_equal];
      rewrite app_length, ?repeat_length; cbn [length]; lia. }
  specialize (IH _ H1). lia.
Qed.
Lemma inverse_rle_ratio l : 3 * length l <= 4 * length (inverse_rle l).
Proof. pose proof (@irle_ratio l (mk_irle [] 0 None) ltac:(cbn; lia)) as H. cbn [ir_out ir_equal length] in H. unfold inverse_rle. lia. Qed.

(** ** one block *)
Definition tail_cost (n : nat) : nat := 787 * n + sort_cost n.
Lemma tail_cost_le n : (0 <= Z.of_nat (tail_cost n))%Z.
Proof. lia. Qed.
Theorem s_block p r : spent (c_decode_block_data p r) (decode_block_data p r)
  (fun x => phi r - phi (snd x) - 2000 + Z.of_nat (tail_cost (block_values p r)) + 2 * Z.of_nat (length (fst (fst x))))%Z
  (phi r + 10 + Z.of_nat (tail_cost (block_values p r))).
Proof.
  unfold c_decode_block_data, decode_block_data. pose proof (phi_pos r) as P0.
  remember (block_values p r) as n eqn:EN. unfold block_values in EN.
  pose proof (tail_cost_le n) as HN.
  sb s_number. intros (crc, r1) E1. rewrite E1 in EN. cbn [bind fst snd] in EN |- *. pose proof (phi_pos r1).
  sb s_bits. intros (b, r2) E2. rewrite E2 in EN. cbn [bind fst snd] in EN |- *. pose proof (phi_pos r2).
  sb s_number. intros (ptr, r3) E3. rewrite E3 in EN. cbn [bind fst snd] in EN |- *. pose proof (phi_pos r3).
  eapply spent_bind; [apply spent_unwrap, s_symbol_table|lia|]. intros (symbols, r4) E4. rewrite E4 in EN. cbn [bind fst snd] in EN |- *. pose proof (phi_pos r4).
  assert (length symbols <= 256) as HS.
  { destruct (read_symbol_table r3) as [(x, y)| | |] eqn:E; try discriminate. cbn [unwrap] in E4. injection E4 as -> ->. eapply symbol_table_length; eauto. }
  sb s_number. intros (nt, r5) E5. rewrite E5 in EN. cbn [bind fst snd] in EN |- *. pose proof (phi_pos r5).
  assert (N.to_nat nt <= 7) as HT.
  { apply read_number_inv in E5; [|lia]. destruct E5 as (x & Ex & Lx & Ev). pose proof (bval_lt x) as HB. rewrite Lx in HB.
    change (2 ^ N.of_nat 3)%N with 8%N in HB. rewrite Crc32Facts.number_bval in Ev. rewrite <- Ev in HB. lia. }
  sb s_number. intros (ns, r6) E6. rewrite E6 in EN. cbn [bind fst snd] in EN |- *. pose proof (phi_pos r6).
  eapply spent_bind; [apply spent_unwrap, s_unary|lia|]. intros (sm, r7) E7. rewrite E7 in EN. cbn [bind fst snd] in EN |- *. pose proof (phi_pos r7).
  eapply spent_pure with (g1 := fun _ => 7%Z) (b1 := 7%Z).
  { eapply spent_within; [apply w_copy| |]; rewrite seq_length; intros; lia. }
  eapply spent_bind with (g1 := fun _ => (7 + 27 * Z.of_nat (length sm))%Z) (b1 := (7 + 27 * Z.of_nat (length sm))%Z); [|lia|].
  { eapply spent_within; [eapply within_le; [apply w_inverse_mtf|]| |]; [rewrite seq_length| |].
    - assert (length sm * (3 * N.to_nat nt + 6) <= length sm * 27) by (apply Nat.mul_le_mono_l; lia). instantiate (1 := 7 + length sm * 27). lia.
    - intros; lia.
    - lia. }
  intros sel E8. rewrite E8 in EN. cbn [bind fst snd] in EN |- *. apply inverse_mtf_length in E8.
  sb s_trees. intros (trees, r8) E9. rewrite E9 in EN. cbn [bind fst snd] in EN |- *. pose proof (phi_pos r8).
  apply trees_shape in E9 as (LT & FT). remember (N.to_nat nt * (length symbols + 2)) as A eqn:EA.
  eapply spent_bind with (g1 := fun _ => (7 + 4700 * Z.of_nat A)%Z) (b1 := (7 + 4700 * Z.of_nat A)%Z); [|lia|].
  { eapply spent_within with (k := 7 + 4700 * A).
    - eapply within_le; [apply within_map with (k := 4700 * (length symbols + 2))|].
      + intros t Ht. rewrite Forall_forall in FT. destruct (FT t Ht) as (L1 & L2). rewrite <- L1. apply w_table_any; auto. lia.
      + rewrite LT, EA. lia.
    - intros; lia.
    - lia. }
  intros tables E10. rewrite E10 in EN. cbn [bind fst snd] in EN |- *.
  assert (Forall (fun T => tame T /\ length T <= 258) tables) as HTB.
  { apply Forall_forall. intros T HI. destruct (map_res_In _ _ E10 _ HI) as (t & Ht & E). rewrite Forall_forall in FT.
    eapply table_any_tame; [apply (FT t Ht)|exact E]. }
  eapply spent_bind; [apply s_groups; exact HTB|lia|]. intros (zi, r9) E11. rewrite E11 in EN. cbn [bind fst snd] in EN |- *. pose proof (phi_pos r9).
  clear E1 E2 E3 E4 E5 E6 E7 E10 E11 FT HTB.
  eapply spent_bind with (g1 := fun _ => (12 * Z.of_nat (length zi) + 3 + 2 * Z.of_nat n)%Z) (b1 := (12 * Z.of_nat (length zi) + 3 + 2 * Z.of_nat n)%Z).
  { eapply spent_within; [apply w_zle_loop_d| |]; rewrite <- EN; cbn [length]; intros; lia. }
  { unfold tail_cost in *. lia. }
  intros mi E12. unfold decode_zle in E12. apply zle_values_ok in E12. cbn [length] in E12. rewrite <- EN in E12. cbn [plus] in E12.
  eapply spent_bind with (g1 := fun _ => (256 + 774 * Z.of_nat n)%Z) (b1 := (256 + 774 * Z.of_nat n)%Z).
  { eapply spent_within with (k := 256 + 774 * n); [|intros; lia|lia]. eapply within_le; [apply w_inverse_mtf|]. rewrite E12.
    assert (n * (3 * length symbols + 6) <= n * 774) by (apply Nat.mul_le_mono_l; lia). lia. }
  { unfold tail_cost in *. lia. }
  intros bi E13. apply inverse_mtf_length in E13. rewrite E12 in E13.
  eapply spent_bind with (g1 := fun _ => (7 * Z.of_nat n + Z.of_nat (sort_cost n) + 1)%Z) (b1 := (7 * Z.of_nat n + Z.of_nat (sort_cost n) + 1)%Z).
  { eapply spent_within; [apply w_inverse_bwt| |]; rewrite E13; intros; lia. }
  { unfold tail_cost in *. lia. }
  intros ri E14. apply inverse_bwt_length in E14. rewrite E13 in E14.
  eapply spent_pure with (g1 := fun _ => (4 * Z.of_nat n + 2 * Z.of_nat (length (inverse_rle ri)))%Z) (b1 := 0%Z).
  { split; [apply w_inverse_rle|]. destruct (w_inverse_rle ri) as (_ & H'). rewrite E14 in H'. lia. }
  apply spent_done. cbn [fst snd]. unfold tail_cost in *. lia.
Qed.
(** the contents of a block are at least three quarters of its values *)
Lemma block_ratio p r c crc r' : decode_block_data p r = Ok (c, crc, r') -> 3 * block_values p r <= 4 * length c.
Proof.
  unfold decode_block_data, block_values. intros E.
  apply bind_ok in E as ((a1 & r1) & -> & E). cbn [bind]. apply bind_ok in E as ((a2 & r2) & -> & E). cbn [bind].
  apply bind_ok in E as ((a3 & r3) & -> & E). cbn [bind]. apply bind_ok in E as ((a4 & r4) & -> & E). cbn [bind].
  apply bind_ok in E as ((a5 & r5) & -> & E). cbn [bind]. apply bind_ok in E as ((a6 & r6) & -> & E). cbn [bind].
  apply bind_ok in E as ((a7 & r7) & -> & E). cbn [bind]. apply bind_ok in E as (a8 & -> & E). cbn [bind].
  apply bind_ok in E as ((a9 & r9) & -> & E). cbn [bind]. apply bind_ok in E as (a10 & -> & E). cbn [bind].
  apply bind_ok in E as ((a11 & r11) & -> & E). cbn [bind]. apply bind_ok in E as (a12 & E12 & E).
  apply bind_ok in E as (a13 & E13 & E). apply bind_ok in E as (a14 & E14 & E). injection E as <- _ _.
  unfold decode_zle in E12. apply zle_values_ok in E12. apply inverse_mtf_length in E13. apply inverse_bwt_length in E14. cbn [length] in E12.
  pose proof (inverse_rle_ratio a14). lia.
Qed.

(** the contents are at most 255 times as many as the values *)
Lemma irle_growth l : Forall (fun x => x < 256) l -> forall s,
  length (ir_out (fold_left irle_step l s)) <= length (ir_out s) + 255 * length l.
Proof.
  induction 1 as [|e l He HF IH]; intros s; cbn [fold_left length]; [lia|]. specialize (IH (irle_step s e)).
  assert (length (ir_out (irle_step s e)) <= length (ir_out s) + 255).
  { unfold irle_step. destruct (ir_prev s); [destruct (_ =? 3); [|destruct (_ =? _)]|]; cbn [ir_out]; rewrite app_length, ?repeat_length; cbn [length]; lia. }
  lia.
Qed.
Lemma block_growth p r c crc r' : decode_block_data p r = Ok (c, crc, r') -> length c <= 255 * block_values p r.
Proof.
  unfold decode_block_data, block_values. intros E.
  apply bind_ok in E as ((a1 & r1) & -> & E). cbn [bind]. apply bind_ok in E as ((a2 & r2) & -> & E). cbn [bind].
  apply bind_ok in E as ((a3 & r3) & -> & E). cbn [bind]. apply bind_ok in E as ((a4 & r4) & E4 & E). rewrite E4. cbn [bind].
  apply bind_ok in E as ((a5 & r5) & -> & E). cbn [bind]. apply bind_ok in E as ((a6 & r6) & -> & E). cbn [bind].
  apply bind_ok in E as ((a7 & r7) & -> & E). cbn [bind]. apply bind_ok in E as (a8 & -> & E). cbn [bind].
  apply bind_ok in E as ((a9 & r9) & -> & E). cbn [bind]. apply bind_ok in E as (a10 & -> & E). cbn [bind].
  apply bind_ok in E as ((a11 & r11) & -> & E). cbn [bind]. apply bind_ok in E as (a12 & E12 & E).
  apply bind_ok in E as (a13 & E13 & E). apply bind_ok in E as (a14 & E14 & E). injection E as <- _ _.
  assert (bytes a4) as HB.
  { destruct (read_symbol_table r3) as [(x, y)| | |] eqn:E; try discriminate. cbn [unwrap] in E4. injection E4 as -> ->. eapply symbol_table_bytes; eauto. }
  pose proof (@inverse_mtf_from _ _ _ E13 _ HB) as H1. pose proof (@inverse_bwt_from _ _ _ E14 _ H1) as H2.
  unfold decode_zle in E12. apply zle_values_ok in E12. apply inverse_mtf_length in E13. apply inverse_bwt_length in E14. cbn [length] in E12.
  pose proof (irle_growth H2 (mk_irle [] 0 None)) as HG. cbn [ir_out length] in HG. unfold inverse_rle. lia.
Qed.

(** ** the stream *)
Lemma block_bound n L M : 3 * n <= 4 * L -> L <= M -> tail_cost n + 6 * L <= L * (1080 + 6 * Nat.log2 M).
Proof.
  intros H HM. unfold tail_cost, sort_cost. destruct (Nat.eq_dec L 0) as [->|HL].
  - assert (n = 0) as -> by lia. cbn. lia.
  - assert (Nat.log2 n <= S (Nat.log2 M)) as HG.
    { etransitivity; [apply Nat.log2_le_mono with (b := 2 * L); lia|]. rewrite Nat.log2_double by lia. apply le_n_S, Nat.log2_le_mono. auto. }
    remember (Nat.log2 M) as g eqn:Eg. remember (Nat.log2 n) as h eqn:Eh. clear Eg Eh.
    assert (4 * n * (h + 1) <= 4 * n * (g + 2)) as H1 by (apply Nat.mul_le_mono_l; lia).
    assert (3 * n * (g + 2) <= 4 * L * (g + 2)) as H2 by (apply Nat.mul_le_mono_r; lia).
    remember (4 * n * (h + 1)) as A eqn:EA. remember (n * (g + 2)) as B eqn:EB. remember (L * g) as C eqn:EC.
    assert (4 * n * (g + 2) = 4 * B) by (rewrite EB; lia). assert (3 * n * (g + 2) = 3 * B) by (rewrite EB; lia).
    assert (4 * L * (g + 2) = 4 * C + 8 * L) by (rewrite EC; lia). assert (L * (1080 + 6 * g) = 1080 * L + 6 * C) by (rewrite EC; lia). lia.
Qed.
(** what the failing block adds *)
Definition fail_cost (n : nat) : nat := 2100 * n + sort_cost n.
Lemma s_what_next r : spent (c_what_next r) (what_next r) (fun x => phi r - phi (snd x) - 1000)%Z (phi r + 18).
Proof.
  unfold c_what_next, what_next. sb s_bytes. intros (bs, r1) _. cbn [snd]. pose proof (phi_pos r1).
  apply spent_takes. destruct (nats_eqb bs block_magic); [cbn [snd]; lia|]. destruct (nats_eqb bs footer_magic); [cbn [snd]; lia|lia].
Qed.
Lemma s_header r : spent (c_read_file_header r) (read_file_header r) (fun x => phi r - phi x - 1000)%Z (phi r + 18).
Proof.
  unfold c_read_file_header, read_file_header. sb s_bytes. intros (bs, r1) _. cbn [snd]. pose proof (phi_pos r1).
  apply spent_takes. destruct (nats_eqb _ _); lia.
Qed.
Definition later (r1 r : bit_reader) : Prop := exists pre, rbits r = pre ++ rbits r1.
Lemma later_refl r : later r r.
Proof. exists []. auto. Qed.
Lemma later_trans a b c : later a b -> later b c -> later a c.
Proof. intros (x & E1) (y & E2). exists (y ++ x). rewrite E2, E1. apply app_assoc. Qed.
Lemma loop_cost p fuel : forall r out, exists got,
  snd (decode_loop fuel p r (good_sink out)) = good_sink (out ++ got) /\
  exists t, c_decode_loop fuel p r (good_sink out) = (decode_loop fuel p r (good_sink out), t) /\
    forall M, length got <= M ->
    match fst (decode_loop fuel p r (good_sink out)) with
    | Ok r' => Z.of_nat t + phi r' <= phi r + Z.of_nat (length got * (1080 + 6 * Nat.log2 M))
    | _ => exists r1, later r1 r /\
        Z.of_nat t <= phi r + 300 + Z.of_nat (length got * (1080 + 6 * Nat.log2 M)) + Z.of_nat (fail_cost (block_values p r1))
    end%Z.
Proof.
  induction fuel as [|fuel IH]; intros r out; cbn [decode_loop c_decode_loop].
  { exists []. rewrite app_nil_r. split; auto. exists 0. split; auto. intros M _. cbn [fst]. exists r. split; [apply later_refl|].
    pose proof (phi_pos r). lia. }
  pose proof (s_what_next r) as HW. destruct (c_what_next r) as [wn t1]. destruct HW as (E1 & HW). cbn [fst snd] in E1, HW. subst wn.
  pose proof (phi_pos r) as P0.
  destruct (what_next r) as [([|], r1)| | |] eqn:EW.
  - exists []. rewrite app_nil_r. split; auto. exists (t1 + 1). split; auto. intros M _. cbn [fst snd length] in *. lia.
  - cbn [snd] in HW. assert (later r1 r) as LR by (exists (bytes_bits block_magic); apply (what_next_inv _ EW)).
    unfold c_decode_block, decode_block. pose proof (s_block p r1) as HB.
    destruct (c_decode_block_data p r1) as [bd t2]. destruct HB as (E2 & HB). cbn [fst snd] in E2, HB. subst bd.
    destruct (decode_block_data p r1) as [((c, crc), r2)| | |] eqn:EB.
    + cbn [fst snd] in HB. pose proof (block_ratio _ _ EB) as HR. pose proof (block_growth _ _ EB) as HG.
      unfold c_crc32, takes.
      destruct (crc32 c =? crc)%N.
      * unfold w_write. cbn [good_sink w_script w_out].
        change (mk_writer [] (out ++ c)) with (good_sink (out ++ c)).
        destruct (IH r2 (out ++ c)) as (got & HO & t3 & EC & HT). exists (c ++ got). rewrite app_assoc. split; auto.
        rewrite EC. destruct (decode_loop fuel p r2 (good_sink (out ++ c))) as [res w'] eqn:ED. cbn [fst snd] in *.
        eexists. split; [reflexivity|]. intros M HM. rewrite app_length in *.
        specialize (HT M ltac:(lia)). pose proof (@block_bound (block_values p r1) (length c) M HR ltac:(lia)) as HBB.
        assert (later r2 r) as LR2.
        { eapply later_trans; [|exact LR]. destruct (regular_block p) as (_ & _ & R3). destruct (R3 _ _ _ EB) as (used & EU & _). exists used. exact EU. }
        rewrite Nat.mul_add_distr_r. remember (length c * (1080 + 6 * Nat.log2 M)) as A. remember (length got * (1080 + 6 * Nat.log2 M)) as B.
        destruct res as [r'| | |]; [lia|..]; destruct HT as (r3 & H3 & HT); exists r3; (split; [eapply later_trans; eauto|lia]).
      * exists []. rewrite app_nil_r. split; auto. eexists. split; [reflexivity|]. intros M _. cbn [fst]. exists r1. split; auto.
        unfold fail_cost. unfold tail_cost in HB. pose proof (phi_pos r2). lia.
    + exists []. rewrite app_nil_r. split; auto. eexists. split; [reflexivity|]. intros M _. cbn [fst]. exists r1. split; auto.
      unfold fail_cost. unfold tail_cost in HB. lia.
    + exists []. rewrite app_nil_r. split; auto. eexists. split; [reflexivity|]. intros M _. cbn [fst]. exists r1. split; auto.
      unfold fail_cost. unfold tail_cost in HB. lia.
    + exists []. rewrite app_nil_r. split; auto. eexists. split; [reflexivity|]. intros M _. cbn [fst]. exists r1. split; auto.
      unfold fail_cost. unfold tail_cost in HB. lia.
  - exists []. rewrite app_nil_r. split; auto. eexists. split; [reflexivity|]. intros M _. cbn [fst]. exists r. split; [apply later_refl|lia].
  - exists []. rewrite app_nil_r. split; auto. eexists. split; [reflexivity|]. intros M _. cbn [fst]. exists r. split; [apply later_refl|lia].
  - exists []. rewrite app_nil_r. split; auto. eexists. split; [reflexivity|]. intros M _. cbn [fst]. exists r. split; [apply later_refl|lia].
Qed.
Theorem source_cost p source out : exists got t,
  c_decode_source p source (good_sink out) = (decode_source p source (good_sink out), t) /\
  snd (decode_source p source (good_sink out)) = good_sink (out ++ got) /\
  match fst (decode_source p source (good_sink out)) with
  | Ok _ => (N.of_nat t <= 38400 * N.of_nat (length (delivered source)) + N.of_nat (length source)
      + N.of_nat (length got * (1080 + 6 * Nat.log2 (length got))))%N
  | _ => exists r1, later r1 (br_from_source source) /\
      (N.of_nat t <= 38400 * N.of_nat (length (delivered source)) + N.of_nat (length source) + 300
        + N.of_nat (length got * (1080 + 6 * Nat.log2 (length got))) + N.of_nat (fail_cost (block_values p r1)))%N
  end.
Proof.
  unfold c_decode_source, decode_source. pose proof (s_header (br_from_source source)) as HH.
  assert (phi (br_from_source source) = 38400 * Z.of_nat (length (delivered source)) + Z.of_nat (length source))%Z as HP.
  { unfold phi. rewrite rbits_from_source, bytes_bits_length. cbn [br_from_source br_source]. lia. }
  destruct (c_read_file_header (br_from_source source)) as [hd t1]. destruct HH as (E1 & HH). cbn [fst snd] in E1, HH. subst hd.
  destruct (read_file_header (br_from_source source)) as [r| | |] eqn:EH.
  - assert (later r (br_from_source source)) as LR by (apply read_file_header_inv in EH as (d & Hd & E); eexists; exact E).
    destruct (loop_cost p (S (bits_left r)) r out) as (got & HO & t2 & EC & HT). exists got. rewrite EC.
    destruct (decode_loop (S (bits_left r)) p r (good_sink out)) as [res w']. cbn [fst snd] in *. subst w'. specialize (HT _ (le_n _)).
    remember (length got * (1080 + 6 * Nat.log2 (length got))) as A.
    destruct res as [r'| | |]; exists (t1 + t2); (split; [reflexivity|]); (split; [reflexivity|]); cbn [fst].
    + pose proof (phi_pos r'). lia.
    + destruct HT as (r1 & H1 & HT). exists r1. split; [eapply later_trans; eauto|lia].
    + destruct HT as (r1 & H1 & HT). exists r1. split; [eapply later_trans; eauto|lia].
    + destruct HT as (r1 & H1 & HT). exists r1. split; [eapply later_trans; eauto|lia].
  - exists [], t1. rewrite app_nil_r. split; [reflexivity|]. split; [reflexivity|]. cbn [fst]. exists (br_from_source source). split; [apply later_refl|]. lia.
  - exists [], t1. rewrite app_nil_r. split; [reflexivity|]. split; [reflexivity|]. cbn [fst]. exists (br_from_source source). split; [apply later_refl|]. lia.
  - exists [], t1. rewrite app_nil_r. split; [reflexivity|]. split; [reflexivity|]. cbn [fst]. exists (br_from_source source). split; [apply later_refl|]. lia.
Qed.

Lemma log2_N n : N.of_nat (Nat.log2 n) = N.log2 (N.of_nat n).
Proof.
  destruct n as [|n]; [reflexivity|].
  assert (forall k, N.of_nat (2 ^ k) = 2 ^ N.of_nat k)%N as HP.
  { induction k as [|k IH]; [reflexivity|]. rewrite Nat2N.inj_succ, N.pow_succ_r', <- IH, Nat.pow_succ_r'. lia. }
  symmetry. apply N.log2_unique; [lia|]. pose proof (Nat.log2_spec (S n) ltac:(lia)) as (H1 & H2).
  rewrite <- Nat2N.inj_succ, <- !HP. split; lia.
Qed.

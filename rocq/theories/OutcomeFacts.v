(** * Which inputs end in [Err] and which in a panic *)
From Verif Require Import Base BaseFacts Bitwise BitwiseFacts SpecBits SpecCrc SpecBzip2 SpecOutcome Rle Mtf Crc32 Crc32Facts Bwt Zle
  SymbolStatistics Huffman CodeTable SymbolMap Selectors BlockEncoder BlockDecoder BlockFacts Stream SpecStream
  RoundTripFacts ReferenceFacts EncodeFacts DecodeFacts.

(** ** steps that never return [Err] *)
Definition no_err {A} (m : res A) : Prop := m <> Err.
Lemma no_err_bind {A B} (m : res A) (f : A -> res B) : no_err m -> (forall a, no_err (f a)) -> no_err (bind m f).
Proof. unfold no_err. intros H1 H2. destruct m; cbn [bind]; auto; discriminate. Qed.
Lemma no_err_unwrap {A} (m : res A) : no_err (unwrap m).
Proof. unfold no_err. destruct m; discriminate. Qed.
Lemma no_err_ok {A} (a : A) : no_err (Ok a).
Proof. discriminate. Qed.
Lemma no_err_panic {A} : no_err (@Panic A).
Proof. discriminate. Qed.
Lemma no_err_option {A} (o : option A) : no_err (of_option o).
Proof. destruct o; discriminate. Qed.
Lemma no_err_fold {A S} (f : S -> A -> res S) l : (forall s a, no_err (f s a)) -> forall s, no_err (fold_res f l s).
Proof.
  intros H. induction l as [|a l IH]; intros s; cbn [fold_res]; [apply no_err_ok|]. apply no_err_bind; auto.
Qed.
Lemma no_err_map {A B} (f : A -> res B) l : (forall a, no_err (f a)) -> no_err (map_res f l).
Proof.
  intros H. induction l as [|a l IH]; cbn [map_res]; [apply no_err_ok|]. apply no_err_bind; auto.
  intros b. apply no_err_bind; auto. intros; apply no_err_ok.
Qed.
Lemma no_err_number p l : no_err (convert_to_number p l).
Proof.
  apply no_err_fold. intros s b. unfold ctn_step. destruct (_ <=? _)%N; [destruct p|]; discriminate.
Qed.
Lemma no_err_find_pos x d : no_err (find_pos x d).
Proof.
  induction d as [|y d IH]; cbn [find_pos]; [discriminate|]. destruct (_ =? _); [discriminate|].
  apply no_err_bind; auto. intros; apply no_err_ok.
Qed.
Lemma no_err_inverse_mtf l : forall d, no_err (inverse_mtf l d).
Proof.
  induction l as [|i l IH]; intros d; cbn [inverse_mtf]; [apply no_err_ok|].
  apply no_err_bind; [apply no_err_option|]. intros v. apply no_err_bind; [apply no_err_find_pos|]. intros pos.
  destruct (_ <? _); [apply no_err_panic|]. apply no_err_bind.
  { unfold bring_to_front_of_dict. apply no_err_bind; [apply no_err_option|]. intros; apply no_err_ok. }
  intros d'. apply no_err_bind; [apply IH|]. intros; apply no_err_ok.
Qed.
Lemma no_err_from_weights t : no_err (from_weights t).
Proof. unfold from_weights. destruct (_ <? _); [discriminate|]. destruct (_ <? _); discriminate. Qed.
Lemma no_err_assign p l : forall last, no_err (assign_codes p last l).
Proof.
  induction l as [|[len s] l IH]; intros last; cbn [assign_codes]; [apply no_err_ok|]. apply no_err_bind.
  - unfold increment_symbol. apply no_err_bind; [apply no_err_number|]. intros v. destruct (_ =? _)%N; [destruct p|]; discriminate.
  - intros u. apply no_err_bind; [apply IH|]. intros; apply no_err_ok.
Qed.
Lemma no_err_canonicalize p t : no_err (canonicalize p t).
Proof.
  unfold canonicalize. destruct (sort_by _ _) as [|[len s] tl]; [discriminate|].
  apply no_err_bind; [apply no_err_assign|]. intros; apply no_err_ok.
Qed.
Lemma no_err_trees p k : forall r n, no_err (read_trees p k r n).
Proof.
  induction k as [|k IH]; intros r n; cbn [read_trees]; [apply no_err_ok|].
  apply no_err_bind; [apply no_err_unwrap|]. intros [t r']. apply no_err_bind; [apply IH|]. intros []; apply no_err_ok.
Qed.
Lemma no_err_groups s : forall t r, no_err (read_groups s t r).
Proof.
  induction s as [|i s IH]; intros t r; cbn [read_groups]; [apply no_err_ok|].
  apply no_err_bind; [apply no_err_option|]. intros table. apply no_err_bind; [apply no_err_unwrap|]. intros [y r'].
  apply no_err_bind; [apply IH|]. intros []; apply no_err_ok.
Qed.
Lemma no_err_read_number r n : no_err (read_number r n).
Proof.
  unfold read_number. apply no_err_bind; [apply no_err_unwrap|]. intros [b r']. apply no_err_bind; [apply no_err_number|]. intros; apply no_err_ok.
Qed.
Lemma no_err_zle l : no_err (decode_zle l).
Proof.
  assert (forall z o, no_err (flush_zeros z o)) as HF.
  { intros z o. unfold flush_zeros. destruct z; [discriminate|]. apply no_err_bind; [|intros; apply no_err_ok].
    unfold decode_zero_amount. destruct (_ =? _)%N; [discriminate|]. destruct (_ <=? _)%N; discriminate. }
  unfold decode_zle. generalize (@nil nat) as o, (@nil zsym) as z. induction l as [|s l IH]; intros o z; cbn [decode_zle_loop]; auto.
  destruct s; auto. apply no_err_bind; auto.
Qed.
Lemma no_err_bwt l ptr : no_err (inverse_bwt l ptr).
Proof.
  unfold inverse_bwt. apply no_err_bind; [apply no_err_option|]. intros [start x].
  generalize (sort_by (fun x y : nat * nat => snd x <=? snd y) (enumerate l)) as pairs.
  intros pairs. revert start. generalize (length l) as k. induction k as [|k IH]; intros start; cbn [inverse_bwt_loop]; [apply no_err_ok|].
  apply no_err_bind; [apply no_err_option|]. intros [next value]. apply no_err_bind; auto. intros; apply no_err_ok.
Qed.

(** after the checksum, only a missing bit directly behind it is reported as an error *)
Lemma rest_err p r : block_rest p r = Err -> rbits r = [].
Proof.
  intros E. unfold block_rest in E.
  destruct (read_bits_spec r 1) as [(H & ER)|(y & rest' & r1 & H & HL' & ER & ER1)].
  - destruct (rbits r); auto. cbn [length] in H. lia.
  - rewrite ER in E. cbn [bind] in E. revert E.
    match goal with |- ?m = Err -> _ => assert (no_err m) as G end; [|intros E; contradiction].
    apply no_err_bind; [apply no_err_read_number|]. intros [ptr r2].
    apply no_err_bind; [apply no_err_unwrap|]. intros [symbols r3].
    apply no_err_bind; [apply no_err_read_number|]. intros [nt r4].
    apply no_err_bind; [apply no_err_read_number|]. intros [ns r5].
    apply no_err_bind; [apply no_err_unwrap|]. intros [sm r6].
    apply no_err_bind; [apply no_err_inverse_mtf|]. intros sel.
    apply no_err_bind; [apply no_err_trees|]. intros [ts r7].
    apply no_err_bind; [apply no_err_map; intros t; apply no_err_bind; [apply no_err_from_weights|intros; apply no_err_canonicalize]|].
    intros cts. apply no_err_bind; [apply no_err_groups|]. intros [z r8].
    apply no_err_bind; [apply no_err_zle|]. intros mi. apply no_err_bind; [apply no_err_inverse_mtf|]. intros bi.
    apply no_err_bind; [apply no_err_bwt|]. intros; apply no_err_ok.
Qed.
Lemma rest_nil p r : rbits r = [] -> block_rest p r = Err.
Proof. intros E. unfold block_rest. rewrite read_bits_short; auto. rewrite E. cbn [length]. lia. Qed.

(** ** the body of one block as a function on bits *)
Fixpoint to_bytes (n : nat) (bits : list bool) : list nat :=
  match n with O => [] | S n' => byte_of_bits (firstn 8 bits) :: to_bytes n' (skipn 8 bits) end.
Lemma to_bytes_bits n : forall bits, length bits = 8 * n -> bytes_bits (to_bytes n bits) = bits.
Proof.
  induction n as [|n IH]; intros bits H; cbn [to_bytes].
  - destruct bits; [reflexivity|discriminate].
  - change (bytes_bits (byte_of_bits (firstn 8 bits) :: to_bytes n (skipn 8 bits)))
      with (byte_bits (byte_of_bits (firstn 8 bits)) ++ bytes_bits (to_bytes n (skipn 8 bits))).
    rewrite byte_of_bits_bits by (rewrite firstn_length; lia). rewrite IH by (rewrite skipn_length; lia). apply firstn_skipn.
Qed.
Definition bits_reader (bits : list bool) : bit_reader :=
  let k := length bits mod 8 in
  mk_br (map AByte (to_bytes (length bits / 8) (skipn k bits))) (8 - k) (Some (byte_of_bits (repeat false (8 - k) ++ firstn k bits))).
Lemma bits_reader_bits bits : rbits (bits_reader bits) = bits.
Proof.
  unfold bits_reader, rbits. cbv zeta. cbn [br_current br_cursor]. unfold br_bytes. cbn [br_source].
  pose proof (Nat.mod_upper_bound (length bits) 8 ltac:(lia)) as HK.
  pose proof (Nat.div_mod (length bits) 8 ltac:(lia)) as HD. rewrite delivered_bytes.
  rewrite to_bytes_bits by (rewrite skipn_length; lia).
  rewrite byte_of_bits_bits by (rewrite app_length, repeat_length, firstn_length; lia).
  rewrite skipn_app, skipn_all2, repeat_length, Nat.sub_diag by (rewrite repeat_length; lia). cbn [app skipn]. apply firstn_skipn.
Qed.
Definition body_of (p : profile) (bits : list bool) : option (list nat * list bool) :=
  match block_rest p (bits_reader bits) with Ok (x, r) => Some (x, rbits r) | _ => None end.
Lemma body_of_ok p r : match block_rest p r with
  | Ok (x, r') => body_of p (rbits r) = Some (x, rbits r')
  | _ => body_of p (rbits r) = None
  end.
Proof.
  destruct (regular_rest p) as (R & _ & _). specialize (R r (bits_reader (rbits r)) (eq_sym (bits_reader_bits _))).
  unfold body_of. destruct (block_rest p r) as [[x r1]| | |], (block_rest p (bits_reader (rbits r))) as [[y r2]| | |];
    cbn [outcome] in R; try discriminate; auto. injection R as -> ->. auto.
Qed.
Lemma body_of_delimited p : self_delimiting (body_of p).
Proof.
  intros body x after E. unfold body_of in E. destruct (block_rest p (bits_reader body)) as [[y r]| | |] eqn:EB; try discriminate.
  injection E as -> <-. destruct (regular_rest p) as (_ & _ & R3). destruct (R3 _ _ _ EB) as (used & EU & RD).
  rewrite bits_reader_bits in EU. exists used. split; [|split; [exact EU|]].
  - intros ->. destruct (RD (bits_reader []) []) as (r' & E & _); [apply bits_reader_bits|].
    rewrite rest_nil in E; [discriminate|]. apply bits_reader_bits.
  - intros after'. unfold body_of. destruct (RD (bits_reader (used ++ after')) after') as (r' & -> & ->); auto. apply bits_reader_bits.
Qed.

(** ** markers *)
Lemma block_magic_bits : be_bits 48 BLOCK_MAGIC = bytes_bits block_magic.
Proof. reflexivity. Qed.
Lemma footer_magic_bits : be_bits 48 FOOTER_MAGIC = bytes_bits footer_magic.
Proof. reflexivity. Qed.
Lemma what_next_err r : what_next r = Err <->
  ~ starts_with (rbits r) (be_bits 48 FOOTER_MAGIC) /\ ~ starts_with (rbits r) (be_bits 48 BLOCK_MAGIC).
Proof.
  rewrite block_magic_bits, footer_magic_bits. split.
  - intros E. split; intros (rest & H).
    + destruct (what_next_footer _ H) as (r' & E' & _). congruence.
    + destruct (what_next_block _ H) as (r' & E' & _). congruence.
  - intros (H1 & H2). destruct (what_next r) as [[[|] r']| | |] eqn:E; auto.
    + apply what_next_inv in E. exfalso. apply H1. eexists; exact E.
    + apply what_next_inv in E. exfalso. apply H2. eexists; exact E.
    + exfalso. unfold what_next in E. destruct (read_bytes r 6) as [[bs r1]| | |] eqn:EB; try discriminate.
      * cbn [bind] in E. destruct (nats_eqb bs block_magic); [discriminate|]. destruct (nats_eqb bs footer_magic); discriminate.
      * revert EB. apply read_bytes_no_panic.
    + exfalso. destruct regular_what_next as (_ & W & _). apply (W r). auto.
Qed.

Lemma crc_bits x crc : bytes x -> length crc = 32 -> ((crc32 x =? number crc)%N = true <-> crc = be_bits 32 (crc32_bzip2 x)).
Proof.
  intros HB HL. assert (crc32 x < 2 ^ N.of_nat 32)%N as HC.
  { apply crc32_lt; auto. }
  rewrite N.eqb_eq, <- (crc32_correct HB). split.
  - intros E. apply BitwiseFacts.bval_inj; [unfold be_bits; rewrite map_length, seq_length; auto|].
    rewrite <- !number_bval, be_bits_number; auto.
  - intros ->. rewrite be_bits_number; auto.
Qed.

Theorem trace_ends p fuel : forall r, length (rbits r) < fuel ->
  ends (body_of p) (rbits r) (fst (trace fuel p r)) (status (snd (trace fuel p r))).
Proof.
  induction fuel as [|fuel IH]; intros r HF; [lia|]. cbn [trace].
  destruct (what_next r) as [[[|] r1]| | |] eqn:EW.
  - apply what_next_inv in EW. rewrite EW, <- footer_magic_bits. apply ends_footer.
  - apply what_next_inv in EW. rewrite EW in HF |- *. rewrite app_length in HF.
    change (length (bytes_bits block_magic)) with 48 in HF. rewrite <- block_magic_bits in *.
    rewrite block_split. pose proof (@no_err_read_number r1 32) as NE.
    destruct (le_lt_dec 32 (length (rbits r1))) as [H32|H32].
    + destruct (@read_number_ok r1 32 (firstn 32 (rbits r1)) (skipn 32 (rbits r1))) as (r2 & EN & E2);
        [symmetry; apply firstn_skipn|rewrite firstn_length; lia|lia|]. rewrite EN. cbn [bind].
      assert (length (firstn 32 (rbits r1)) = 32) as HC by (rewrite firstn_length; lia).
      rewrite <- (firstn_skipn 32 (rbits r1)) at 1. rewrite <- E2.
      remember (firstn 32 (rbits r1)) as crc eqn:DC. clear DC.
      pose proof (body_of_ok p r2) as HB.
      destruct (block_rest p r2) as [[x r3]| | |] eqn:ER; cbn [bind].
      * assert (bytes x) as HX.
        { apply (@block_bytes p r1 x (number crc) r3). rewrite block_split, EN. cbn [bind]. rewrite ER. reflexivity. }
        destruct (crc32 x =? number crc)%N eqn:EC.
        -- apply (@crc_bits x crc HX HC) in EC. rewrite EC.
           assert (length (rbits r3) < fuel) as H3.
           { destruct (regular_rest p) as (_ & _ & R3). destruct (R3 _ _ _ ER) as (used & EU & _).
             apply (f_equal (@length bool)) in E2, EU. rewrite app_length in EU. rewrite skipn_length in E2. lia. }
           specialize (IH r3 H3). destruct (trace fuel p r3) as [bs e]. cbn [fst snd] in *. eapply ends_block; eauto.
        -- cbn [fst snd status]. eapply ends_mismatch; eauto. intros E. apply (@crc_bits x crc HX HC) in E. congruence.
      * apply rest_err in ER. rewrite ER, app_nil_r. cbn [fst snd status]. apply ends_after_checksum; auto.
      * cbn [fst snd status]. apply ends_malformed; auto. intros E. rewrite (rest_nil p _ E) in ER. discriminate.
      * exfalso. destruct (regular_rest p) as (_ & R2 & _). apply (R2 r2); auto.
    + unfold read_number. rewrite read_bits_short by lia. cbn [unwrap bind fst snd status]. apply ends_in_checksum; auto.
  - apply what_next_err in EW as (E1 & E2). apply ends_unknown; auto.
  - exfalso. unfold what_next in EW. destruct (read_bytes r 6) as [[bs r1]| | |] eqn:EB; try discriminate.
    + cbn [bind] in EW. destruct (nats_eqb bs block_magic); [discriminate|]. destruct (nats_eqb bs footer_magic); discriminate.
    + revert EB. apply read_bytes_no_panic.
  - exfalso. destruct regular_what_next as (_ & W & _). apply (W r). auto.
Qed.

(** ** the outcome is determined *)
Lemma be_length' n v : length (be_bits n v) = n.
Proof. unfold be_bits. rewrite map_length, seq_length. auto. Qed.
Lemma magics_differ a b : be_bits 48 FOOTER_MAGIC ++ a = be_bits 48 BLOCK_MAGIC ++ b -> False.
Proof.
  intros E. apply app_inv_length in E as (E & _); [|rewrite !be_length'; auto]. apply (f_equal number) in E.
  rewrite !be_bits_number in E by reflexivity. discriminate.
Qed.
Lemma crc_bits_inj x y : bytes x -> bytes y -> be_bits 32 (crc32_bzip2 x) = be_bits 32 (crc32_bzip2 y) -> crc32_bzip2 x = crc32_bzip2 y.
Proof.
  intros Hx Hy E. apply (f_equal number) in E. rewrite <- !crc32_correct in * by auto.
  rewrite !be_bits_number in E; auto; apply crc32_lt; auto.
Qed.
Lemma delimited_nil read : self_delimiting read -> read [] = None.
Proof.
  intros H. destruct (read []) as [[x after]|] eqn:E; auto. destruct (H _ _ _ E) as (used & HU & EU & _).
  destruct used; [congruence|discriminate].
Qed.
Theorem ends_det read : self_delimiting read -> forall bits blocks1 e1, ends read bits blocks1 e1 ->
  forall blocks2 e2, ends read bits blocks2 e2 -> blocks1 = blocks2 /\ e1 = e2.
Proof.
  intros HD. pose proof (delimited_nil HD) as HN0.
  assert (forall crc crc' body body' : list bool, length crc = 32 -> length crc' = 32 ->
    crc ++ body = crc' ++ body' -> crc = crc' /\ body = body') as G1.
  { intros crc crc' body body' H1 H2 E. apply app_inv_length in E; auto. lia. }
  assert (forall crc crc' body : list bool, length crc <= 32 -> length crc' = 32 -> crc = crc' ++ body -> body = [] /\ length crc = 32) as G2.
  { intros crc crc' body H1 H2 E. apply (f_equal (@length bool)) in E. rewrite app_length in E.
    split; [|lia]. destruct body; auto. cbn [length] in E. lia. }
  pose proof (be_length' 32) as HB.
  assert (forall a b, be_bits 48 FOOTER_MAGIC ++ a = be_bits 48 BLOCK_MAGIC ++ b -> False) as MD by (intros a b; apply magics_differ).
  assert (forall n a b, be_bits 48 n ++ a = be_bits 48 n ++ b -> a = b) as MI by (intros n a b E; apply app_inv_head in E; exact E).
  assert (forall n a, starts_with (be_bits 48 n ++ a) (be_bits 48 n)) as SW by (intros n a; exists a; reflexivity).
  induction 1 as [after|bits N1 N2|crc HL|crc HL|crc body HL HN HR|crc body x after HL HR HC|body x after blocks e HR HE IH];
    intros blocks2 e2 H2;
    (match type of H2 with ends _ ?b _ _ => remember b as bits2 eqn:E end);
    destruct H2 as [after'|bits' N1' N2'|crc' HL'|crc' HL'|crc' body' HL' HN' HR'|crc' body' x' after' HL' HR' HC'|body' x' after' blocks' e' HR' HE'];
    try (split; reflexivity);
    try (exfalso; exact (MD _ _ E));
    try (exfalso; exact (MD _ _ (eq_sym E)));
    try (exfalso; match goal with H : ~ starts_with _ _ |- _ => first [apply H, SW | rewrite E in H; apply H, SW | rewrite <- E in H; apply H, SW] end);
    apply MI in E;
    try (exfalso; pose proof (f_equal (@length bool) E) as EL; rewrite ?app_length, ?HB in EL; lia);
    try (apply G1 in E as (E1 & E2); [|auto; fail|auto; fail]; congruence);
    try (exfalso; apply G2 in E as (E1 & _); [|lia|auto; fail]; congruence);
    try (exfalso; symmetry in E; apply G2 in E as (E1 & _); [|lia|auto; fail]; congruence).
  apply G1 in E as (_ & E); auto. subst body'. rewrite HR in HR'. assert (x = x' /\ after = after') as (<- & <-) by (split; congruence).
  destruct (IH _ _ HE') as (<- & <-). auto.
Qed.

(** ** the whole stream *)
Lemma header_err p input : bytes input -> firstn 3 input <> [66; 90; 104] \/ length input < 4 -> stream_trace p input = ([], Err).
Proof.
  intros HB HN. unfold stream_trace. destruct (read_file_header (br_from_reader input)) as [r| | |] eqn:E; auto; exfalso.
  - apply read_file_header_inv in E as (d & Hd & E). rewrite rbits_from_reader in E.
    assert (length input >= 4) as HL.
    { apply (f_equal (@length bool)) in E. rewrite app_length, !bytes_bits_length in E. cbn [length] in E. lia. }
    destruct HN as [HN|HN]; [|lia]. apply HN.
    rewrite <- (firstn_skipn 4 input), bytes_bits_app in E. apply app_inv_length in E as (E & _).
    2: { rewrite !bytes_bits_length, firstn_length. cbn [length]. lia. }
    apply bytes_bits_inj in E.
    + replace (firstn 3 input) with (firstn 3 (firstn 4 input)) by (rewrite firstn_firstn; reflexivity).
      rewrite E. reflexivity.
    + rewrite <- (firstn_skipn 4 input) in HB. apply Forall_app in HB. tauto.
    + repeat (apply Forall_cons; [first [exact Hd | unfold is_byte; lia]|]). apply Forall_nil.
  - unfold read_file_header in E. destruct (read_bytes (br_from_reader input) 4) as [[bs r']| | |] eqn:EB; try discriminate.
    + cbn [bind] in E. destruct (nats_eqb _ _); discriminate.
    + revert EB. apply read_bytes_no_panic.
  - revert E. apply read_file_header_halts.
Qed.
Theorem stream_ends p d tl : is_byte d ->
  ends (body_of p) (bits_of tl) (fst (stream_trace p ([66; 90; 104; d] ++ tl))) (status (snd (stream_trace p ([66; 90; 104; d] ++ tl)))).
Proof.
  intros Hd. unfold stream_trace.
  destruct (@read_file_header_ok d (br_from_reader ([66; 90; 104; d] ++ tl)) (bytes_bits tl) Hd) as (r & -> & ER).
  { rewrite rbits_from_reader, bytes_bits_app. reflexivity. }
  rewrite bits_of_bytes, <- ER. apply trace_ends. rewrite bits_left_rbits. lia.
Qed.

(** ** cuts *)
Lemma short_start bits n v : length bits < n -> ~ starts_with bits (be_bits n v).
Proof. intros H (rest & ->). rewrite app_length, be_length' in H. lia. Qed.
Lemma firstn_app_ge {A} (a b : list A) k : length a <= k -> firstn k (a ++ b) = a ++ firstn (k - length a) b.
Proof. intros H. rewrite firstn_app, firstn_all2; auto. Qed.
Lemma delimited_prefix read used contents after j : self_delimiting read -> read (used ++ after) = Some (contents, after) ->
  (forall after', read (used ++ after') = Some (contents, after')) -> j < length used -> read (firstn j used) = None.
Proof.
  intros HD E HU HJ. destruct (read (firstn j used)) as [[y a]|] eqn:E2; auto. exfalso.
  destruct (HD _ _ _ E2) as (u2 & _ & EU & R2). specialize (R2 (a ++ skipn j used ++ after)).
  rewrite (app_assoc u2), <- EU, app_assoc, firstn_skipn, E in R2.
  injection R2 as _ R2. apply (f_equal (@length bool)) in R2. rewrite !app_length, skipn_length in R2. lia.
Qed.
Theorem ends_cut read : self_delimiting read -> forall bits blocks e, ends read bits blocks e -> e = Ok tt ->
  exists sizes, length sizes = length blocks /\ Forall (fun s => 80 < s) sizes /\ list_sum sizes + 48 <= length bits /\
    forall k, exists got e', cut k (combine sizes blocks) got e' /\ ends read (firstn k bits) got e'.
Proof.
  intros HD. induction 1 as [after|bits N1 N2|crc HL|crc HL|crc body HL HN HR|crc body x after HL HR HC|body x after blocks e HR HE IH];
    intros E; try discriminate.
  - exists []. split; auto. split; [constructor|]. split; [rewrite app_length, be_length'; change (list_sum []) with 0; lia|].
    intros k. destruct (le_lt_dec 48 k) as [H|H].
    + exists [], (Ok tt). split; [apply cut_footer; auto|]. rewrite firstn_app_ge by (rewrite be_length'; auto). apply ends_footer.
    + exists [], Err. split; [apply cut_marker; auto|].
      apply ends_unknown; apply short_start; rewrite firstn_length; lia.
  - destruct (IH E) as (sizes & L1 & L2 & L3 & HK). destruct (HD _ _ _ HR) as (used & HU & EU & RU).
    exists (80 + length used :: sizes). subst body. split; [cbn [length]; auto|].
    assert (1 <= length used) as H1 by (destruct used; [congruence|cbn [length]; lia]).
    split; [constructor; auto; lia|]. split.
    { rewrite !app_length, !be_length'. change (list_sum (80 + length used :: sizes)) with (80 + length used + list_sum sizes). lia. }
    intros k. change (combine (80 + length used :: sizes) (x :: blocks)) with ((80 + length used, x) :: combine sizes blocks).
    destruct (le_lt_dec 48 k) as [H48|H48].
    2: { exists [], Err. split; [apply cut_marker; auto|]. apply ends_unknown; apply short_start; rewrite firstn_length; lia. }
    rewrite firstn_app_ge, be_length' by (rewrite be_length'; auto).
    destruct (le_lt_dec 80 k) as [H80|H80].
    2: { exists [], Panic. split; [apply cut_in_block; lia|]. apply ends_in_checksum. rewrite firstn_length. lia. }
    rewrite firstn_app_ge, be_length' by (rewrite be_length'; lia).
    destruct (Nat.eq_dec k 80) as [->|H].
    { exists [], Err. split; [apply cut_after_checksum; lia|]. change (80 - 48 - 32) with 0. rewrite firstn_O, app_nil_r.
      apply ends_after_checksum. apply be_length'. }
    destruct (le_lt_dec (80 + length used) k) as [HL|HL].
    + destruct (HK (k - (80 + length used))) as (got & e' & C & EN). exists (x :: got), e'. split; [apply cut_later; auto|].
      rewrite firstn_app_ge by lia. replace (k - 48 - 32 - length used) with (k - (80 + length used)) by lia.
      eapply ends_block; [apply RU|exact EN].
    + exists [], Panic. split; [apply cut_in_block; lia|]. rewrite firstn_app.
      replace (k - 48 - 32 - length used) with 0 by lia. rewrite firstn_O, app_nil_r.
      apply ends_malformed; [apply be_length'| |].
      * intros E0. apply (f_equal (@length bool)) in E0. rewrite firstn_length in E0. cbn [length] in E0. lia.
      * apply (@delimited_prefix read used x after); auto. lia.
Qed.

(** * More about compression: one-block inputs, framing, termination, profiles *)
From Verif Require Import Base BaseFacts Bitwise BitwiseFacts SpecBits SpecCrc SpecRle Rle RleFacts Crc32 Crc32Facts
  SpecBwt Bwt BwtFacts Mtf MtfFacts Zle ZleFacts KMeans SymbolStatistics PackageMerge Huffman HuffmanFacts CodeTable
  SymbolMap SymbolMapFacts Selectors SelectorsFacts GroupFacts BlockEncoder BlockDecoder BlockFacts Stream StreamFacts
  RoundTripFacts SpecBzip2 ReferenceFacts.

(** ** inputs of at most 720000 bytes form one block *)
Lemma growth_zero : growth (rle_state []) = 0.
Proof. reflexivity. Qed.

Lemma coded_growth l : 4 * length (coded l) <= 5 * length l.
Proof.
  rewrite coded_aug. pose proof (@aug_growth _ (rle_state_ok l)) as G1.
  pose proof (growth_fold l (rle_state_ok [])) as G2. rewrite growth_zero in G2.
  change (rle_data (rle_state [])) with (@nil nat) in G2. cbn [length] in G2.
  change (rle_state l) with (fold_left rle_step l (rle_state [])) in *. lia.
Qed.

Lemma small_cut data : (N.of_nat (length data) <= 720000)%N -> exists fin, cut data = (data, [], fin).
Proof.
  intros H. unfold cut. cbn [cut_loop]. rewrite coded_nil.
  change (request []) with 720000%N. change (N.of_nat 0 <? RLE_LIMIT)%N with true. cbn iota.
  rewrite firstn_all2, skipn_all2 by lia. destruct data as [|x data]; [eauto|].
  cbn [app]. set (d := x :: data) in *.
  assert (length d = S (length data)) as L by reflexivity. rewrite L. cbn [cut_loop].
  match goal with |- context [if ?b then _ else _] => destruct b eqn:E end; [|eauto]. rewrite firstn_nil. eauto.
Qed.

Lemma small_cuts data : data <> [] -> (N.of_nat (length data) <= 720000)%N -> cuts data [data].
Proof. intros Hne H. destruct (small_cut data H) as (fin & E). econstructor; eauto. constructor. Qed.

Lemma small_fits data : (N.of_nat (length data) <= 720000)%N -> fits_level9 data.
Proof. intros H. unfold fits_level9. pose proof (coded_growth data). lia. Qed.

(** ** returns *)
Lemma returns_seq p rd w n st data ps : delivers rd data -> cuts data ps -> 1 <= n ->
  encode_returns p rd w n st (seq_encode p st ps w).
Proof.
  intros HD HC Hn. exists (S (length data)). intros fuel Hf. apply encode_stream_seq with (data := data); auto; lia.
Qed.
Lemma returns_det p rd w n st r1 r2 : encode_returns p rd w n st r1 -> encode_returns p rd w n st r2 -> r1 = r2.
Proof. intros (e1 & H1) (e2 & H2). rewrite <- (H1 (e1 + e2)), <- (H2 (e1 + e2)) by lia. reflexivity. Qed.

(** ** framing *)
Lemma number_app a : forall acc b, number_from acc (a ++ b) = number_from (number_from acc a) b.
Proof. induction a as [|x a IH]; intros acc b; cbn [app number_from]; auto. Qed.

Lemma be_bits_S n v : be_bits (S n) v = be_bits n (N.div2 v) ++ [N.testbit v 0].
Proof.
  unfold be_bits. rewrite seq_S. rewrite map_app. cbn [map Nat.add]. f_equal.
  - apply map_ext_in. intros i Hi. apply in_seq in Hi.
    rewrite N.div2_spec, N.shiftr_spec by lia. f_equal. lia.
  - do 2 f_equal. lia.
Qed.

Lemma be_bits_number n : forall v, (v < 2 ^ N.of_nat n)%N -> number (be_bits n v) = v.
Proof.
  induction n as [|n IH]; intros v Hv.
  - change (2 ^ N.of_nat 0)%N with 1%N in Hv. assert (v = 0%N) as -> by lia. reflexivity.
  - rewrite be_bits_S. unfold number in *. rewrite number_app. rewrite IH.
    + cbn [number_from]. rewrite N.bit0_odd. rewrite (N.div2_odd v) at 3.
      unfold N.b2n. destruct (N.odd v); lia.
    + rewrite Nat2N.inj_succ, N.pow_succ_r' in Hv. rewrite N.div2_div.
      apply N.div_lt_upper_bound; lia.
Qed.
Lemma pad_be n v : (v < 2 ^ N.of_nat n)%N -> convert_to_code_pad_to_n_bits v n = be_bits n v.
Proof.
  intros H. apply bval_inj.
  - rewrite pad_n_length by auto. unfold be_bits. rewrite map_length, seq_length. auto.
  - rewrite pad_n_value, <- number_bval, be_bits_number; auto.
Qed.

Lemma ok_pair_inv {A B} (a c : A) (b d : B) : Ok (a, b) = Ok (c, d) -> a = c /\ b = d.
Proof. intros H. injection H; auto. Qed.

Lemma block_frame p crc data st bits c : generate_block_data p crc data st = Ok (bits, c) -> (crc < 4294967296)%N ->
  c = crc /\ exists body, bits = bytes_bits block_magic ++ be_bits 32 crc ++ body.
Proof.
  intros H Hc. unfold generate_block_data in H.
  destruct (bwt data) as [[col ptr]| | |]; try discriminate. cbn [bind] in H.
  destruct (mtf col) as [[enc used]| | |]; try discriminate. cbn [bind] in H.
  destruct (zle_with_strategy st enc (length used)) as [[syms [freqs sel]]| | |]; try discriminate. cbn [bind] in H.
  match type of H with context [map_res ?f freqs] => destruct (map_res f freqs) as [tables| | |]; try discriminate end.
  cbn [bind] in H. destruct (create_selectors sel) as [[sb k]| | |]; try discriminate. cbn [bind] in H.
  destruct (write_symbol_table used) as [sm| | |]; try discriminate. cbn [bind] in H.
  destruct (convert_to_code_pad_to_15_bits _) as [sf| | |]; try discriminate. cbn [bind] in H.
  destruct (encode_data tables sel syms) as [d| | |]; try discriminate. cbn [bind] in H.
  apply ok_pair_inv in H. destruct H as (<- & <-). split; auto. unfold block_header.
  rewrite pad_bytes_bits by (repeat constructor).
  assert (convert_to_code_pad_to_bytes (crc_as_bytes crc) = be_bits 32 crc) as ->.
  { rewrite <- pad_be by exact Hc. rewrite <- crc_bits by auto. reflexivity. }
  eexists. rewrite <- !app_assoc. reflexivity.
Qed.

Definition framed (x : list nat * list bool) : list bool :=
  bytes_bits block_magic ++ be_bits 32 (crc32 (fst x)) ++ snd x.

(** the block made from piece [q] is the magic, the checksum of [q] and [body] *)
Definition made (p : profile) (st : strategy) (q : list nat) (body : list bool) : Prop :=
  generate_block_data p (crc32 q) (coded q) st = Ok (framed (q, body), crc32 q).

Lemma flush_frames p st ps : Forall bytes ps -> forall e e', enc_ok e ->
  flush_round p st (map piece_work ps) e = (Ok tt, e') -> enc_ok e' /\
  exists bodies, Forall2 (made p st) ps bodies /\
    wbits (en_bw e') = wbits (en_bw e) ++ concat (map framed (combine ps bodies)) /\
    en_crc e' = total_crc (map crc32 ps) (en_crc e).
Proof.
  induction 1 as [|q ps HB HF IH]; intros e e' He H; cbn [map flush_round] in H.
  - injection H as <-. split; auto. exists []. cbn. rewrite app_nil_r. auto.
  - unfold piece_work at 1 in H.
    destruct (generate_block_data p (crc32 q) (coded q) st) as [[bits c]| | |] eqn:EG; try discriminate.
    destruct (@block_frame p (crc32 q) (coded q) st bits c EG (crc32_lt HB)) as (-> & body & ->).
    destruct (write_or_panic_ok (bytes_bits block_magic ++ be_bits 32 (crc32 q) ++ body) He) as (e1 & E1 & H1 & B1 & C1).
    rewrite E1 in H. apply IH in H; [|exact H1]. destruct H as (H2 & bodies & L & B2 & C2). split; auto.
    exists (body :: bodies). cbn [length combine map concat en_bw en_crc] in *. split; [constructor; auto|]. split.
    + rewrite B2, B1. unfold framed at 2. cbn [fst snd]. rewrite <- !app_assoc. reflexivity.
    + rewrite C2, C1. reflexivity.
Qed.

Definition frame_bits (ps : list (list nat)) (bodies : list (list bool)) : list bool :=
  bytes_bits [66; 90; 104; 57] ++ concat (map framed (combine ps bodies)) ++
  bytes_bits footer_magic ++ be_bits 32 (combined_crc (map crc32 ps)).

Theorem seq_frames p st ps w : Forall bytes ps -> seq_encode p st ps (mk_writer [] []) = (Ok tt, w) ->
  perfect w /\ exists bodies k, Forall2 (made p st) ps bodies /\ k < 8 /\ bytes (w_out w) /\
    bytes_bits (w_out w) = frame_bits ps bodies ++ repeat false k.
Proof.
  intros HB H. unfold seq_encode in H.
  assert (enc_ok (mk_enc (bw_from_writer (mk_writer [] [])) 0)) as H0.
  { repeat split; cbn [en_bw bw_from_writer bw_pending length bw_sink w_out]; try lia; constructor. }
  destruct (write_or_panic_ok file_header H0) as (e1 & E1 & H1 & B1 & C1). rewrite E1 in H.
  destruct (flush_round p st (map piece_work ps) e1) as [[u| | |] e2] eqn:EF; try discriminate. destruct u.
  destruct (@flush_frames p st ps HB e1 e2 H1 EF) as (H2 & bodies & L & B2 & C2).
  assert (Forall (fun c => c < M32)%N (map crc32 ps)) as HC.
  { rewrite Forall_map. eapply Forall_impl; [|exact HB]. intros q Hq. apply crc32_lt; auto. }
  cbn [en_crc] in C1. rewrite C1 in C2.
  assert (en_crc e2 = combined_crc (map crc32 ps)) as EC.
  { rewrite C2. unfold combined_crc. apply total_crc_combined; auto. reflexivity. }
  assert (en_crc e2 < M32)%N as HL by (rewrite C2; apply total_crc_lt; auto; reflexivity).
  destruct (write_or_panic_ok (stream_footer (en_crc e2)) H2) as (e3 & E3 & (H3 & H3') & B3 & C3).
  rewrite E3 in H.
  destruct (@finalize_ok (en_bw e3) H3 H3') as (bw & k & EB & Hk & BK & HK).
  rewrite EB in H. injection H as <-. split.
  { destruct H3 as (P3 & _). unfold bw_finalize in EB. destruct (bw_pending (en_bw e3)); [injection EB as <-; auto|].
    unfold w_write in EB. rewrite P3 in EB. injection EB as <-. reflexivity. }
  exists bodies, k. split; auto. split; auto. split; auto.
  rewrite BK. f_equal. rewrite B3, B2, B1. rewrite footer_bits by exact HL.
  unfold wbits at 1. cbn [en_bw bw_from_writer bw_sink w_out bw_pending app]. cbn [bytes_bits flat_map app].
  unfold frame_bits. rewrite file_header_bits, EC, <- !app_assoc. rewrite pad_be; [reflexivity|].
  rewrite <- EC. exact HL.
Qed.

(** ** compressing a block always comes to an end *)
Definition halts {A} (m : res A) : Prop := m <> NoFuel.

Lemma halts_bind {A B} (m : res A) (k : A -> res B) : halts m -> (forall a, m = Ok a -> halts (k a)) -> halts (bind m k).
Proof. unfold halts. destruct m; cbn [bind]; intros H1 H2; try discriminate; auto. Qed.
Lemma halts_ok {A} (a : A) : halts (Ok a).
Proof. discriminate. Qed.
Lemma halts_option {A} (o : option A) : halts (of_option o).
Proof. destruct o; discriminate. Qed.
Lemma halts_map {A B} (f : A -> res B) l : (forall a, halts (f a)) -> halts (map_res f l).
Proof.
  intros H. induction l as [|x l IH]; cbn [map_res]; [apply halts_ok|].
  apply halts_bind; auto. intros. apply halts_bind; auto. intros. apply halts_ok.
Qed.
Lemma halts_fold {A S} (f : S -> A -> res S) l : (forall s a, halts (f s a)) -> forall s, halts (fold_res f l s).
Proof.
  intros H. induction l as [|x l IH]; intros s; cbn [fold_res]; [apply halts_ok|]. apply halts_bind; auto.
Qed.

Ltac halt := repeat first
  [ apply halts_ok | apply halts_option | discriminate
  | apply halts_bind; [|intros] | apply halts_map; intros | apply halts_fold; intros | assumption ].

Lemma halts_find_pos x l : halts (find_pos x l).
Proof. induction l as [|y l IH]; cbn [find_pos]; [discriminate|]. destruct (y =? x); halt. Qed.
Lemma halts_mtf_loop l : forall dict, halts (mtf_loop l dict).
Proof.
  induction l as [|x l IH]; intros dict; cbn [mtf_loop]; halt; auto using halts_find_pos.
Qed.
Lemma halts_mtf l : halts (mtf l).
Proof.
  unfold mtf, create_dict. halt. destruct a as [d u]. halt. apply halts_mtf_loop.
Qed.

Lemma halts_zle_loop {R} (report : R -> zsym -> res R) : (forall r s, halts (report r s)) ->
  forall l z st, halts (zle_loop report l z st).
Proof.
  intros H. induction l as [|x l IH]; intros z st; cbn [zle_loop]; [halt|].
  destruct (x =? 0); auto. apply halts_bind.
  - destruct (0 <? z); unfold emit_all; halt. apply H.
  - intros. apply halts_bind; auto. unfold emit_all. halt. apply H.
Qed.
Lemma halts_zle {R} (report : R -> zsym -> res R) l r : (forall r s, halts (report r s)) -> halts (zle_transform report l r).
Proof.
  intros H. unfold zle_transform. apply halts_bind; [apply halts_zle_loop; auto|].
  intros [z st] _. apply halts_bind.
  - destruct (0 <? z); unfold emit_all; halt. apply H.
  - intros [out r'] _. halt. apply H.
Qed.

Lemma halts_kmeans dim data it k : halts (kmeans_solve dim data it k).
Proof.
  unfold kmeans_solve. apply halts_bind.
  - unfold initial_center. halt.
  - intros centers _. apply halts_bind.
    + apply halts_fold. intros st _. unfold kmeans_iteration. apply halts_bind; [|intros [c s] _; halt].
      apply halts_fold. intros [c s] [pt a]. unfold update_step. unfold get_at, set_at. halt.
    + intros [c a] _. halt.
Qed.

Lemma halts_strategy st enc used : halts (zle_with_strategy st enc used).
Proof.
  destruct st as [k it|]; cbn [zle_with_strategy].
  - apply halts_bind.
    + apply halts_zle. intros m s. unfold blockwise_report, get_at, set_at. halt. destruct (50 <=? _); halt.
    + intros [syms r] _. unfold blockwise_finalize. apply halts_bind; [apply halts_kmeans|]. intros; halt.
  - apply halts_bind.
    + apply halts_zle. intros m s. unfold single_report, get_at, set_at. halt.
    + intros [syms r] _. halt.
Qed.

Lemma halts_increment p l : halts (increment_symbol p l).
Proof.
  unfold increment_symbol, convert_to_number. halt.
  - unfold ctn_step. destruct (_ <=? _)%N; [destruct p|]; halt.
  - destruct (_ =? _)%N; [destruct p|]; halt.
Qed.
Lemma halts_assign p es : forall last, halts (assign_codes p last es).
Proof.
  induction es as [|[len s] es IH]; intros last; cbn [assign_codes]; [halt|].
  apply halts_bind.
  - apply halts_increment.
  - intros. apply halts_bind; [|intros; apply halts_ok]. apply IH.
Qed.
Lemma halts_canonicalize p t : halts (canonicalize p t).
Proof.
  unfold canonicalize. destruct (sort_by entry_order t) as [|[len s] tl]; halt. apply halts_assign.
Qed.
Lemma halts_huffman f : halts (compute_huffman f).
Proof.
  unfold compute_huffman. apply halts_bind; [|intros; halt]. unfold compute_lis. apply halts_bind; [|intros; halt].
  unfold package_merge. destruct (make_coins _ _); halt.
Qed.

Lemma halts_symbol_table l : halts (write_symbol_table l).
Proof. unfold write_symbol_table. halt. Qed.

Lemma halts_encode_data tables sel syms : halts (encode_data tables sel syms).
Proof.
  unfold encode_data. apply halts_bind.
  - apply halts_map. intros [i s]. unfold table_at, get_at. halt.
  - intros. unfold table_at, get_at. halt.
Qed.

Theorem halts_block p crc data st : bytes data -> data <> [] -> halts (generate_block_data p crc data st).
Proof.
  intros HB Hne. unfold generate_block_data. destruct (bwt_ok HB Hne) as (col & ptr & -> & _). cbn [bind].
  apply halts_bind; [apply halts_mtf|]. intros [enc used] _.
  apply halts_bind; [apply halts_strategy|]. intros [syms [freqs sel]] _.
  apply halts_bind.
  { apply halts_map. intros f. apply halts_bind; [apply halts_huffman|]. intros; apply halts_canonicalize. }
  intros tables _. apply halts_bind.
  { unfold create_selectors. apply halts_bind; [apply halts_mtf|]. intros [? ?] _; halt. }
  intros [sb k] _. apply halts_bind; [apply halts_symbol_table|]. intros sm _.
  apply halts_bind; [unfold convert_to_code_pad_to_15_bits; destruct (_ <=? _); halt|]. intros sf _.
  apply halts_bind; [apply halts_encode_data|]. intros; halt.
Qed.

Lemma write_or_panic_halts bits e : halts (fst (write_or_panic bits e)).
Proof. unfold write_or_panic. destruct (write_bits (en_bw e) bits) as [[u| | |] bw]; discriminate. Qed.

Lemma flush_halts p st ps : Forall bytes ps -> Forall (fun q => q <> []) ps -> forall e,
  halts (fst (flush_round p st (map piece_work ps) e)).
Proof.
  intros HB. induction HB as [|q ps HB HF IH]; intros HN e; cbn [map flush_round]; [discriminate|].
  inversion HN; subst. unfold piece_work at 1.
  pose proof (@halts_block p (crc32 q) (coded q) st (coded_bytes HB) (@coded_nonempty q H1)) as HH.
  destruct (generate_block_data p (crc32 q) (coded q) st) as [[bits c]| | |]; try discriminate; [|contradiction].
  pose proof (write_or_panic_halts bits e) as HW.
  destruct (write_or_panic bits e) as [[u| | |] e']; auto.
Qed.

Theorem seq_encode_halts p st data ps w : bytes data -> cuts data ps -> halts (fst (seq_encode p st ps w)).
Proof.
  intros HB HC. destruct (cuts_pieces HC) as (EC & HN & _).
  assert (Forall bytes ps) as HBP by (apply Forall_concat; rewrite EC; auto).
  unfold seq_encode. pose proof (write_or_panic_halts file_header (mk_enc (bw_from_writer w) 0)) as H1.
  destruct (write_or_panic file_header _) as [[u| | |] e1]; try discriminate; [|exact H1].
  pose proof (@flush_halts p st ps HBP HN e1) as H2.
  destruct (flush_round p st (map piece_work ps) e1) as [[u2| | |] e2]; try discriminate; [|exact H2].
  pose proof (write_or_panic_halts (stream_footer (en_crc e2)) e2) as H3.
  destruct (write_or_panic (stream_footer (en_crc e2)) e2) as [[u3| | |] e3]; try discriminate; [|exact H3].
  unfold bw_finalize. destruct (bw_pending (en_bw e3)); [discriminate|].
  destruct (w_write _ _) as [[?| | |] w']; discriminate.
Qed.

(** ** the build profile makes no difference *)
Lemma update_fold_dims dim pairs : forall centers sizes centers' sizes',
  fold_res update_step pairs (centers, sizes) = Ok (centers', sizes') ->
  Forall (fun c => length c = dim) centers -> Forall (fun c => length c = dim) centers'.
Proof.
  induction pairs as [|[pt a] pairs IH]; intros c s c' s' E H; cbn [fold_res] in E.
  - injection E as <- <-. auto.
  - unfold update_step at 1 in E.
    destruct (get_at s a) as [sz| | |]; try discriminate. cbn [bind] in E.
    destruct (get_at c a) as [ce| | |] eqn:EC; try discriminate. cbn [bind] in E.
    destruct (set_at c a _) as [c1| | |] eqn:ES; try discriminate. cbn [bind] in E.
    destruct (set_at s a _) as [s1| | |]; try discriminate. cbn [bind] in E.
    eapply IH; [exact E|]. eapply Forall_set_at; [exact H| |exact ES]. cbv beta. rewrite mean_update_length.
    unfold get_at in EC. destruct (nth_error c a) eqn:EN; [|discriminate]. injection EC as <-.
    eapply Forall_nth_error in EN; [|exact H]. exact EN.
Qed.

Lemma kmeans_dims dim data it k means sel : kmeans_solve dim data it k = Ok (means, sel) ->
  Forall (fun row => length row = dim) data -> Forall (fun m => length m = dim) means.
Proof.
  intros E HD. unfold kmeans_solve in E.
  destruct (map_res (initial_center data k) (seq 0 k)) as [centers| | |] eqn:EC; try discriminate. cbn [bind] in E.
  assert (Forall (fun c => length c = dim) centers) as HC.
  { clear E. revert centers EC. generalize (seq 0 k) as l. induction l as [|i l IH]; intros cs EC; cbn [map_res] in EC.
    - injection EC as <-. constructor.
    - unfold initial_center at 1 in EC. destruct (get_at data _) as [row| | |] eqn:EG; try discriminate. cbn [bind] in EC.
      destruct (map_res (initial_center data k) l) as [cs'| | |]; try discriminate. cbn [bind] in EC. injection EC as <-.
      constructor; auto. rewrite map_length. unfold get_at in EG. destruct (nth_error data _) eqn:EN; [|discriminate].
      injection EG as <-. eapply Forall_nth_error in EN; [|exact HD]. exact EN. }
  assert (forall n st st', fold_res (fun st _ => kmeans_iteration dim k data st) (repeat tt n) st = Ok st' ->
    Forall (fun c => length c = dim) (fst st) -> Forall (fun c => length c = dim) (fst st')) as G.
  { clear. induction n as [|n IH]; intros st st' E H; cbn [repeat fold_res] in E.
    - injection E as <-. auto.
    - unfold kmeans_iteration at 1 in E.
      destruct (fold_res update_step _ _) as [[c s]| | |] eqn:EF; try discriminate. cbn [bind] in E.
      apply IH in E; auto. cbn [fst]. eapply update_fold_dims; [exact EF|].
      apply Forall_forall. intros x Hx. apply in_map_iff in Hx as (? & <- & _). apply repeat_length. }
  destruct (fold_res _ (repeat tt it) _) as [[c a]| | |] eqn:EF; try discriminate. cbn [bind] in E. injection E as <- <-.
  apply G in EF; auto. cbn [fst] in EF. apply Forall_forall. intros m Hm. apply in_map_iff in Hm as (y & <- & Hy).
  rewrite map_length. rewrite Forall_forall in EF. auto.
Qed.

Lemma strategy_dims st enc used syms freqs sel : 1 <= used -> Forall (fun i => i < used) enc ->
  (N.of_nat (length enc) <= 1000000)%N ->
  zle_with_strategy st enc used = Ok (syms, (freqs, sel)) -> Forall (fun f => length f = used + 1) freqs.
Proof.
  intros Hu HF HL E. destruct st as [k it|].
  - cbn [zle_with_strategy] in E. rewrite zle_transform_eq in E.
    destruct (@blockwise_fold used (zsyms 0 enc ++ [RunA])) with (m := blockwise_create used k it) (n := 0)
      as (m & E1 & MO & MI & MC); auto.
    { apply sym_below_app, zsyms_below; auto. }
    { unfold bmap_ok, blockwise_create. cbn [bm_current bm_maps bm_size bm_counter].
      rewrite repeat_length. repeat split; auto; cbn [length]; lia. }
    rewrite E1 in E. cbn [bind] in E. unfold blockwise_finalize in E. destruct MO as (M1 & M2 & M3 & M4 & M5).
    rewrite M3 in E. destruct (kmeans_solve _ _ _ _) as [[means s]| | |] eqn:EK; try discriminate. cbn [bind] in E.
    injection E as _ <- <-. eapply kmeans_dims; [exact EK|]. apply Forall_app; split; auto.
  - destruct (@single_stats used enc Hu HF HL) as (f & s & E' & (H & _) & _). rewrite E in E'. injection E' as -> -> ->. auto.
Qed.

Theorem block_profile p p' crc data st : bytes data -> data <> [] -> (N.of_nat (length data) <= 1000000)%N ->
  generate_block_data p crc data st = generate_block_data p' crc data st.
Proof.
  intros HB Hne HL. destruct (front_end_ok HB Hne) as (ptr & col & enc & used & E & SP & EM & SU & IU & LU & BU & LE & LC & FE & IE).
  unfold generate_block_data. rewrite E. cbn [bind]. rewrite EM. cbn [bind].
  destruct (zle_with_strategy st enc (length used)) as [[syms [freqs sel]]| | |] eqn:EZ; auto. cbn [bind].
  apply strategy_dims in EZ; auto; try lia.
  destruct (tables_ok LU EZ) as (tables & ET & _ & _). unfold tables_of in ET. rewrite (ET p), (ET p'). reflexivity.
Qed.

Lemma flush_profile p p' st ps : Forall bytes ps -> Forall (fun q => q <> []) ps ->
  Forall (fun q => (N.of_nat (length (coded q)) <= RLE_LIMIT + 5)%N) ps -> forall e,
  flush_round p st (map piece_work ps) e = flush_round p' st (map piece_work ps) e.
Proof.
  induction ps as [|q ps IH]; intros HB HN HL e; cbn [map flush_round]; auto.
  apply Forall_cons_iff in HB as (HB & HB'). apply Forall_cons_iff in HN as (HN & HN').
  apply Forall_cons_iff in HL as (HL & HL'). unfold piece_work at 1 3.
  rewrite (@block_profile p p'); [|apply coded_bytes; auto|apply coded_nonempty; auto|unfold RLE_LIMIT in *; lia].
  destruct (generate_block_data p' (crc32 q) (coded q) st) as [[bits c]| | |]; auto.
  destruct (write_or_panic bits e) as [[u| | |] e']; auto.
Qed.

Theorem seq_encode_profile p p' st data ps w : bytes data -> cuts data ps -> seq_encode p st ps w = seq_encode p' st ps w.
Proof.
  intros HB HC. destruct (cuts_pieces HC) as (EC & HN & HL).
  assert (Forall bytes ps) as HBP by (apply Forall_concat; rewrite EC; auto).
  unfold seq_encode. destruct (write_or_panic file_header _) as [[u| | |] e1]; auto.
  rewrite (@flush_profile p p') by auto. reflexivity.
Qed.

(** ** producing a stream *)
Lemma good_sink_of w : perfect w -> w = mk_writer [] (w_out w).
Proof. destruct w as [s o]. unfold perfect. cbn [w_script w_out]. intros ->. reflexivity. Qed.

Lemma compressed_seq p n st data ps out : cuts data ps -> 1 <= n ->
  seq_encode p st ps (good_sink []) = (Ok tt, good_sink out) -> compressed p n st data out.
Proof. intros HC Hn E rd HD. rewrite <- E. eapply returns_seq; eauto. Qed.

Lemma compressed_inv p n st data ps out : cuts data ps -> 1 <= n -> compressed p n st data out ->
  seq_encode p st ps (good_sink []) = (Ok tt, good_sink out).
Proof.
  intros HC Hn H. destruct (delivers_exists data) as (rd & HD). specialize (H rd HD).
  eapply returns_det; [|exact H]. eapply returns_seq; eauto.
Qed.

Lemma stream_made st data ps : bytes data -> cuts data ps ->
  Forall (fun q => exists b, encodes Wrapping st q b) ps ->
  exists bs out k, Forall2 (encodes Wrapping st) ps bs /\ k < 8 /\ bytes out /\
    (forall p n, 1 <= n -> compressed p n st data out) /\
    bytes_bits out = stream_bits ps bs ++ repeat false k.
Proof.
  intros HB HC HE. destruct (cuts_pieces HC) as (EC & HN & HL).
  assert (Forall bytes ps) as HBP by (apply Forall_concat; rewrite EC; auto).
  destruct (@Forall2_exists _ _ _ ps HE) as (bs & H2).
  destruct (@seq_encode_ok Wrapping st ps bs H2 HBP) as (w & k & E & Hk & HW & BW).
  destruct (@seq_frames Wrapping st ps w HBP E) as (HP & _).
  exists bs, (w_out w), k. split; auto. split; auto. split; auto. split; auto.
  intros p n Hn. eapply compressed_seq; eauto. rewrite (seq_encode_profile p Wrapping st _ HB HC).
  unfold good_sink. rewrite <- good_sink_of by exact HP. exact E.
Qed.

Lemma single_encodable data ps : bytes data -> cuts data ps -> Forall (fun q => exists b, encodes Wrapping Single q b) ps.
Proof.
  intros HB HC. destruct (cuts_pieces HC) as (EC & HN & HL).
  assert (Forall bytes ps) as HBP by (apply Forall_concat; rewrite EC; auto).
  rewrite Forall_forall in *. intros q Hq. apply single_encodes; auto.
Qed.

(** what decompression needs *)
Theorem made_decompresses st data ps bs out k : bytes data -> cuts data ps -> Forall2 (encodes Wrapping st) ps bs ->
  Forall piece_safe ps -> bytes_bits out = stream_bits ps bs ++ repeat false k ->
  forall p, decompressed p out data.
Proof.
  intros HB HC H2 HS E p. destruct (cuts_pieces HC) as (EC & HN & HL).
  assert (Forall bytes ps) as HBP by (apply Forall_concat; rewrite EC; auto).
  unfold decompressed, good_sink. rewrite <- EC. eapply decode_stream_ok; [|exact E].
  clear - H2 HBP HS HL. induction H2 as [|q b ps bs HQ H2 IH]; [constructor|].
  inversion HBP; inversion HS; inversion HL; subst. constructor; auto. eapply encodes_decodes; eauto.
Qed.

(** the number of tables *)
Lemma kmeans_count dim data it k means sel : kmeans_solve dim data it k = Ok (means, sel) -> length means = k.
Proof.
  intros E. unfold kmeans_solve in E.
  destruct (map_res (initial_center data k) (seq 0 k)) as [centers| | |] eqn:EC; try discriminate. cbn [bind] in E.
  apply map_res_inv_length in EC. rewrite seq_length in EC.
  assert (forall pairs c s c' s', fold_res update_step pairs (c, s) = Ok (c', s') -> length c' = length c) as GU.
  { clear. induction pairs as [|[pt a] pairs IH]; intros c s c' s' E; cbn [fold_res] in E.
    - injection E as <- <-. auto.
    - unfold update_step at 1 in E.
      destruct (get_at s a) as [sz| | |]; try discriminate. cbn [bind] in E.
      destruct (get_at c a) as [ce| | |]; try discriminate. cbn [bind] in E.
      destruct (set_at c a _) as [c1| | |] eqn:ES; try discriminate. cbn [bind] in E.
      destruct (set_at s a _) as [s1| | |]; try discriminate. cbn [bind] in E.
      apply set_at_inv in ES. apply IH in E. lia. }
  assert (forall n st st', fold_res (fun st _ => kmeans_iteration dim k data st) (repeat tt n) st = Ok st' ->
    length (fst st') = length (fst st)) as G.
  { clear - GU. induction n as [|n IH]; intros st st' E; cbn [repeat fold_res] in E.
    - injection E as <-. auto.
    - unfold kmeans_iteration at 1 in E.
      destruct (fold_res update_step _ _) as [[c s]| | |] eqn:EF; try discriminate. cbn [bind] in E.
      apply IH in E. apply GU in EF. cbn [fst] in E. rewrite map_length in EF. lia. }
  destruct (fold_res _ (repeat tt it) _) as [[c a]| | |] eqn:EF; try discriminate. cbn [bind] in E. injection E as <- <-.
  apply G in EF. cbn [fst] in EF. rewrite map_length. lia.
Qed.

Definition table_count (st : strategy) : nat := match st with BlockWise k _ => k | Single => 2 end.

(** the number the first three bits of a number written with at least three bits stand for *)
Definition three_bits (v : N) : N := if (v <? 8)%N then v else (v / 2 ^ (N.log2 v - 2))%N.
(** what the first three bits of a field of at least three bits say *)
Lemma gets_three v rest : (get! (tables, _) := get_number 3 (convert_to_code_pad_to_n_bits v 3 ++ rest) in Some tables) = Some (three_bits v).
Proof.
  unfold three_bits. destruct (N.ltb_spec v 8) as [H|H].
  - rewrite gets_number; [reflexivity|lia|exact H].
  - remember (convert_to_code_pad_to_n_bits v 3) as field eqn:EF.
    assert (length field = N.to_nat (N.log2 v) + 1) as L.
    { subst field. unfold convert_to_code_pad_to_n_bits. pose proof (@size_ge v 3 H) as HG.
      destruct (N.log2_spec v ltac:(lia)) as (X1 & X2).
      pose proof (@size_ge v (N.to_nat (N.log2 v)) ltac:(rewrite N2Nat.id; exact X1)) as Y1.
      pose proof (@size_lt v (N.to_nat (N.log2 v) + 1) ltac:(replace (N.of_nat (N.to_nat (N.log2 v) + 1)) with (N.succ (N.log2 v)) by lia; exact X2)) as Y2.
      rewrite rev_length, app_length, repeat_length. lia. }
    assert (bval field = v) as HV by (subst field; apply pad_n_value).
    assert (field = firstn 3 field ++ skipn 3 field) as ES by (symmetry; apply firstn_skipn).
    assert (3 <= N.to_nat (N.log2 v)) as HL by (pose proof (@N.log2_le_mono 8 v H) as X; change (N.log2 8) with 3%N in X; lia).
    assert (length (firstn 3 field) = 3) as L3 by (rewrite firstn_length; lia).
    assert (length (skipn 3 field) = N.to_nat (N.log2 v - 2)) as LR by (rewrite skipn_length; lia).
    rewrite ES, <- app_assoc. unfold get_number. rewrite gets_bits by exact L3. rewrite number_bval. apply f_equal.
    rewrite ES, bval_app, LR in HV. pose proof (bval_lt (skipn 3 field)) as HB. rewrite LR, N2Nat.id in *.
    apply N.div_unique with (r := bval (skipn 3 field)); [exact HB|lia].
Qed.
Lemma block_announces_any p crc data st bits c : bytes data -> data <> [] ->
  (N.of_nat (length data) <= 1000000)%N -> (crc < 4294967296)%N ->
  generate_block_data p crc data st = Ok (bits, c) ->
  exists rest, bits = bytes_bits block_magic ++ be_bits 32 crc ++ rest /\
    announced_tables (be_bits 32 crc ++ rest) = Some (three_bits (N.of_nat (table_count st))).
Proof.
  intros HB Hne HL Hc E.
  destruct (front_end_ok HB Hne) as (ptr & col & enc & used & EB & SP & EM & SU & IU & LU & BU & LE & LC & FE & IE).
  unfold generate_block_data in E. rewrite EB in E. cbn [bind] in E. rewrite EM in E. cbn [bind] in E.
  destruct (zle_with_strategy st enc (length used)) as [[syms [freqs sel]]| | |] eqn:EZ; try discriminate. cbn [bind] in E.
  assert (length freqs = table_count st) as LF.
  { destruct st as [k it|]; cbn [table_count] in *.
    - cbn [zle_with_strategy] in EZ.
      destruct (zle_transform blockwise_report enc _) as [[zs m]| | |] eqn:EM'; try discriminate. cbn [bind] in EZ.
      rewrite zle_transform_eq in EM'.
      destruct (@blockwise_fold (length used) (zsyms 0 enc ++ [RunA])) with (m := blockwise_create (length used) k it) (n := 0)
        as (m' & E1 & MO & MI & MC); [lia|apply sym_below_app, zsyms_below; auto; lia| |].
      { unfold bmap_ok, blockwise_create. cbn [bm_current bm_maps bm_size bm_counter].
        rewrite repeat_length. repeat split; auto; cbn [length]; lia. }
      rewrite E1 in EM'. cbn [bind] in EM'. injection EM' as <- <-.
      unfold blockwise_finalize in EZ. rewrite MC in EZ. cbn [blockwise_create bm_clusters] in EZ.
      destruct (kmeans_solve _ _ _ k) as [[means s]| | |] eqn:EK; try discriminate. cbn [bind] in EZ.
      injection EZ as _ <- <-. eapply kmeans_count; eauto.
    - destruct (@single_stats (length used) enc) as (f & s & E' & _ & L & _); auto; [lia|lia|].
      rewrite EZ in E'. injection E' as -> -> ->. auto. }
  apply strategy_dims in EZ; auto; try lia.
  destruct (tables_ok LU EZ) as (tables & ET & LT & _). unfold tables_of in ET. rewrite ET in E. cbn [bind] in E.
  destruct (create_selectors sel) as [[sb k]| | |]; try discriminate. cbn [bind] in E.
  rewrite write_symbol_table_spec in E by auto. cbn [bind] in E.
  destruct (convert_to_code_pad_to_15_bits _) as [sf| | |]; try discriminate. cbn [bind] in E.
  destruct (encode_data tables sel syms) as [d| | |]; try discriminate. cbn [bind] in E.
  apply ok_pair_inv in E. destruct E as (<- & <-).
  assert (ptr < length data) as HP by (destruct SP as (i & sa & SP); cbv zeta in SP; tauto).
  rewrite N.mod_small by lia. rewrite block_header_bits by lia. rewrite <- !app_assoc.
  rewrite <- pad_be by exact Hc. eexists. split; [reflexivity|].
  unfold announced_tables. rewrite gets_number; [|lia|exact Hc].
  change ([false] ++ ?x) with (pad 0 1 ++ x). rewrite gets_number; [|lia|reflexivity].
  rewrite gets_number; [|lia|change (2 ^ N.of_nat 24)%N with 16777216%N; lia].
  rewrite gets_used by auto. rewrite gets_three. do 3 f_equal. congruence.
Qed.
Lemma block_announces p crc data st bits c : bytes data -> data <> [] ->
  (N.of_nat (length data) <= 1000000)%N -> (crc < 4294967296)%N -> table_count st < 8 ->
  generate_block_data p crc data st = Ok (bits, c) ->
  exists rest, bits = bytes_bits block_magic ++ be_bits 32 crc ++ rest /\
    announced_tables (be_bits 32 crc ++ rest) = Some (N.of_nat (table_count st)).
Proof.
  intros HB Hne HL Hc Hk E. destruct (@block_announces_any p crc data st bits c HB Hne HL Hc E) as (rest & ER & EA).
  exists rest. split; auto. rewrite EA. unfold three_bits. destruct (N.ltb_spec (N.of_nat (table_count st)) 8); [reflexivity|lia].
Qed.

Lemma encodes_tables p st q b : bytes q -> q <> [] -> (N.of_nat (length (coded q)) <= RLE_LIMIT + 5)%N ->
  table_count st < 8 -> encodes p st q b -> length (bp_tables b) = table_count st.
Proof.
  intros HB Hne HL Hk (HQ & PO). unfold RLE_LIMIT in HL. pose proof (crc32_lt HB) as HCR.
  assert (N.of_nat (length (coded q)) <= 1000000)%N as HL' by lia.
  destruct (@block_announces p (crc32 q) (coded q) st _ _ (coded_bytes HB) (coded_nonempty Hne) HL' HCR Hk HQ)
    as (rest & ER & EA).
  rewrite block_bits_body in ER. apply app_inv_head in ER.
  assert (announced_tables (block_body (crc32 q) b ++ []) = Some (N.of_nat (length (bp_tables b)))) as EB.
  { destruct PO as (col & enc & SP & SU & IU & LU & BU & LE & FE & IE & EZ & HT & _).
    assert (bp_ptr b < length (coded q)) as HP by (destruct SP as (i & sa & SP'); cbv zeta in SP'; tauto).
    unfold announced_tables, block_body. rewrite <- !app_assoc.
    rewrite gets_number; [|lia|exact HCR].
    change ([false] ++ ?x) with (pad 0 1 ++ x). rewrite gets_number; [|lia|reflexivity].
    rewrite gets_number; [|lia|change (2 ^ N.of_nat 24)%N with 16777216%N; lia].
    rewrite gets_used by auto. rewrite gets_number; [|lia|change (2 ^ N.of_nat 3)%N with 8%N; lia]. reflexivity. }
  rewrite app_nil_r, ER, EA in EB. injection EB as EB. lia.
Qed.

Theorem stream_readable_by_format st data ps : bytes data -> cuts data ps -> 2 <= table_count st <= 6 ->
  Forall (fun q => exists b, encodes Wrapping st q b) ps ->
  Forall (fun q => reversible (coded q) /\ fits_level9 q) ps ->
  exists out, (forall p n, 1 <= n -> compressed p n st data out) /\ bunzip2 out = Some data.
Proof.
  intros HB HC Hk HE HS. destruct (cuts_pieces HC) as (EC & HN & HL).
  destruct (@stream_made st data ps HB HC HE) as (bs & out & k & H2 & Hk' & HO & HR & E).
  exists out. split; auto. eapply reference_pieces; eauto.
  assert (Forall bytes ps) as HBP by (apply Forall_concat; rewrite EC; auto).
  clear - H2 HBP HN HL Hk. induction H2 as [|q b ps bs HQ H2 IH]; [constructor|].
  apply Forall_cons_iff in HBP as (B1 & B2). apply Forall_cons_iff in HN as (N1 & N2).
  apply Forall_cons_iff in HL as (L1 & L2). constructor; auto.
  erewrite encodes_tables; eauto. lia.
Qed.

Theorem single_readable data ps : bytes data -> cuts data ps ->
  Forall (fun q => reversible (coded q) /\ fits_level9 q) ps ->
  exists out, (forall p n, 1 <= n -> compressed p n Single data out) /\ bunzip2 out = Some data.
Proof.
  intros HB HC HS. eapply stream_readable_by_format; eauto; [cbn [table_count]; lia|]. apply single_encodable with data; auto.
Qed.

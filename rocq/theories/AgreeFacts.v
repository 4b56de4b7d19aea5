(** * The checked and the wrapping build of the decoder *)
From Verif Require Import Base BaseFacts SpecStream Bitwise BitwiseFacts Rle Mtf Crc32 Bwt Zle SymbolStatistics PackageMerge
  Huffman HuffmanFacts CodeTable SymbolMap Selectors BlockDecoder BlockFacts Stream StreamFacts DecodeFacts.

(** the checked build panics, or both builds do the same *)
Definition agree {A} (c w : res A) : Prop := c = Panic \/ c = w.

Lemma agree_refl {A} (m : res A) : agree m m.
Proof. right; auto. Qed.
Lemma agree_bind {A B} (c w : res A) (f g : A -> res B) : agree c w -> (forall a, agree (f a) (g a)) ->
  agree (bind c f) (bind w g).
Proof.
  intros [->| ->] H; [left; reflexivity|]. destruct w as [a| | |]; cbn [bind]; auto using agree_refl.
Qed.
Lemma agree_unwrap {A} (c w : res A) : agree c w -> agree (unwrap c) (unwrap w).
Proof. intros [->| ->]; [left; reflexivity|apply agree_refl]. Qed.
Lemma agree_map_res {A B} (f g : A -> res B) l : (forall a, agree (f a) (g a)) -> agree (map_res f l) (map_res g l).
Proof.
  intros H. induction l as [|a l IH]; cbn [map_res]; [apply agree_refl|].
  apply agree_bind; auto. intros b. apply agree_bind; auto. intros; apply agree_refl.
Qed.

Lemma convert_agree l : agree (convert_to_number Checked l) (convert_to_number Wrapping l).
Proof.
  unfold convert_to_number. generalize 0%N as a. induction l as [|b l IH]; intros a; [apply agree_refl|].
  cbn [fold_res]. apply agree_bind; auto. unfold ctn_step. cbv zeta. destruct (_ <=? _)%N; [left; auto|apply agree_refl].
Qed.
Lemma increment_agree l : agree (increment_symbol Checked l) (increment_symbol Wrapping l).
Proof.
  unfold increment_symbol. apply agree_bind; [apply convert_agree|]. intros v.
  destruct (_ =? _)%N; [left; auto|apply agree_refl].
Qed.
Lemma assign_agree es : forall last, agree (assign_codes Checked last es) (assign_codes Wrapping last es).
Proof.
  induction es as [|[len s] es IH]; intros last; cbn [assign_codes]; [apply agree_refl|].
  apply agree_bind; [apply increment_agree|]. intros u. apply agree_bind; [apply IH|]. intros; apply agree_refl.
Qed.
Lemma canonicalize_agree t : agree (canonicalize Checked t) (canonicalize Wrapping t).
Proof.
  unfold canonicalize. destruct (sort_by entry_order t) as [|[len s] es]; [apply agree_refl|].
  apply agree_bind; [apply assign_agree|]. intros; apply agree_refl.
Qed.
Lemma unary_agree fuel : forall r amount c o,
  agree (read_unary_loop Checked fuel r amount c o) (read_unary_loop Wrapping fuel r amount c o).
Proof.
  induction fuel as [|fuel IH]; intros r amount c o; cbn [read_unary_loop]; [apply agree_refl|].
  apply agree_bind; [apply agree_refl|]. intros [b r1]. apply agree_bind.
  - destruct b; [|apply agree_refl]. destruct (_ =? _); [left; auto|apply agree_refl].
  - intros [c1 o1]. destruct (_ <=? _); [apply agree_refl|]. apply IH.
Qed.
Lemma delta_agree fuel : forall r amount c o,
  agree (read_delta_loop Checked fuel r amount c o) (read_delta_loop Wrapping fuel r amount c o).
Proof.
  induction fuel as [|fuel IH]; intros r amount c o; cbn [read_delta_loop]; [apply agree_refl|].
  apply agree_bind; [apply agree_refl|]. intros [b r1]. apply agree_bind.
  - destruct b; [|apply agree_refl]. apply agree_bind; [apply agree_refl|]. intros [b' r2].
    apply agree_bind; [|intros; apply agree_refl]. unfold start_dec, start_inc.
    destruct b'; (destruct (_ =? _)%N; [left; auto|apply agree_refl]).
  - intros [[c1 o1] r2]. destruct (_ =? _); [apply agree_refl|]. apply IH.
Qed.
Lemma trees_agree k : forall r amount, agree (read_trees Checked k r amount) (read_trees Wrapping k r amount).
Proof.
  induction k as [|k IH]; intros r amount; cbn [read_trees]; [apply agree_refl|].
  apply agree_bind.
  - apply agree_unwrap. unfold read_delta. apply agree_bind; [apply agree_refl|]. intros [bits r1].
    apply agree_bind; [apply convert_agree|]. intros start. apply delta_agree.
  - intros [t r1]. apply agree_bind; [apply IH|]. intros; apply agree_refl.
Qed.
Theorem block_agree r : agree (decode_block_data Checked r) (decode_block_data Wrapping r).
Proof.
  unfold decode_block_data.
  apply agree_bind; [apply agree_refl|]. intros [crc r1].
  apply agree_bind; [apply agree_refl|]. intros [b r2].
  apply agree_bind; [apply agree_refl|]. intros [ptr r3].
  apply agree_bind; [apply agree_refl|]. intros [symbols r4].
  apply agree_bind; [apply agree_refl|]. intros [nt r5].
  apply agree_bind; [apply agree_refl|]. intros [ns r6].
  apply agree_bind; [apply agree_unwrap, unary_agree|]. intros [sm r7].
  apply agree_bind; [apply agree_refl|]. intros sel.
  apply agree_bind; [apply trees_agree|]. intros [trees r8].
  apply agree_bind; [apply agree_map_res|].
  { intros tree. apply agree_bind; [apply agree_refl|]. intros t. apply canonicalize_agree. }
  intros; apply agree_refl.
Qed.
Lemma trace_agree fuel : forall r,
  trace fuel Checked r = trace fuel Wrapping r \/
  snd (trace fuel Checked r) = Panic /\ exists more, fst (trace fuel Wrapping r) = fst (trace fuel Checked r) ++ more.
Proof.
  induction fuel as [|fuel IH]; intros r; cbn [trace]; auto.
  destruct (what_next r) as [[[|] r1]| | |]; auto.
  destruct (block_agree r1) as [->| ->].
  - right. cbn [fst snd app]. eauto.
  - destruct (decode_block_data Wrapping r1) as [[[c crc] r2]| | |]; auto.
    destruct (crc32 c =? crc)%N; auto. destruct (IH r2) as [->|(A & more & B)]; auto. right.
    destruct (trace fuel Checked r2) as [bc ec]. destruct (trace fuel Wrapping r2) as [bw ew]. cbn [fst snd] in *.
    subst. split; auto. exists more. reflexivity.
Qed.
Lemma offer_more blocks more : forall script, exists extra,
  fst (fst (offer script (blocks ++ more))) = fst (fst (offer script blocks)) ++ extra /\
  (snd (offer script blocks) = false -> offer script (blocks ++ more) = offer script blocks).
Proof.
  induction blocks as [|b blocks IH]; intros script; cbn [app offer].
  - destruct (offer script more) as [[g s] ok]. exists g. split; auto. discriminate.
  - destruct script as [|[k|] script].
    + exists (concat more). rewrite concat_app, app_assoc. split; auto. discriminate.
    + destruct (IH script) as (extra & E1 & E2). destruct (offer script (blocks ++ more)) as [[g s] ok].
      destruct (offer script blocks) as [[g' s'] ok']. cbn [fst snd] in *. subst g. exists extra. split.
      * rewrite app_assoc. reflexivity.
      * intros H. specialize (E2 H). congruence.
    + exists []. auto.
Qed.
Theorem stream_agree input w :
  decode_stream Checked input w = decode_stream Wrapping input w \/
  fst (decode_stream Checked input w) = Panic /\
  exists more, w_out (snd (decode_stream Wrapping input w)) = w_out (snd (decode_stream Checked input w)) ++ more.
Proof.
  rewrite !decode_stream_trace. unfold stream_trace.
  destruct (read_file_header (br_from_reader input)) as [r| | |]; auto.
  destruct (trace_agree (S (bits_left r)) r) as [->|(A & more & B)]; auto.
  destruct (trace (S (bits_left r)) Checked r) as [bc ec]. destruct (trace (S (bits_left r)) Wrapping r) as [bw ew].
  cbn [fst snd] in *. subst ec bw.
  destruct (offer_more bc more (w_script w)) as (extra & E1 & E2).
  destruct (offer (w_script w) (bc ++ more)) as [[g s] ok]. destruct (offer (w_script w) bc) as [[g' s'] ok'].
  cbn [fst snd w_out status] in *. subst g. destruct ok'.
  - right. split; auto. exists extra. rewrite app_assoc. reflexivity.
  - left. specialize (E2 eq_refl). injection E2 as E -> ->. rewrite E. reflexivity.
Qed.

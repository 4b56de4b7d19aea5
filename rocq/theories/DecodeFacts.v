(** * Decompression of arbitrary input: termination, locality, verified output *)
From Verif Require Import Base BaseFacts Bitwise BitwiseFacts SpecBits SpecCrc SpecBzip2 Rle Mtf Crc32 Crc32Facts Bwt Zle
  SymbolStatistics Huffman CodeTable SymbolMap Selectors BlockEncoder BlockDecoder BlockFacts Stream SpecStream
  RoundTripFacts ReferenceFacts EncodeFacts.

(** ** regular readers: the outcome depends on the bits that are left only, there is
    always one, and a success uses up a prefix of them and depends on nothing else *)
Definition outcome {A} (m : res (A * bit_reader)) : res (A * list bool) :=
  match m with
  | Ok (a, r) => Ok (a, rbits r)
  | Err => Err
  | Panic => Panic
  | NoFuel => NoFuel
  end.

Definition regular {A} (f : bit_reader -> res (A * bit_reader)) : Prop :=
  (forall r1 r2, rbits r1 = rbits r2 -> outcome (f r1) = outcome (f r2)) /\
  (forall r, f r <> NoFuel) /\
  (forall r a r', f r = Ok (a, r') -> exists used, rbits r = used ++ rbits r' /\ reads f used a).

Lemma regular_ext {A} (f g : bit_reader -> res (A * bit_reader)) : (forall r, f r = g r) -> regular f -> regular g.
Proof.
  intros H (R1 & R2 & R3). split; [|split].
  - intros r1 r2 E. rewrite <- !H. auto.
  - intros r. rewrite <- H. auto.
  - intros r a r' E. rewrite <- H in E. destruct (R3 _ _ _ E) as (used & E1 & E2). exists used. split; auto.
    intros r2 rest ER. rewrite <- H. auto.
Qed.

Lemma regular_ret {A} (a : A) : regular (fun r => Ok (a, r)).
Proof.
  split; [|split].
  - intros r1 r2 E. cbn [outcome]. rewrite E. auto.
  - discriminate.
  - intros r x r' E. injection E as <- <-. exists []. split; auto. apply reads_ret.
Qed.
Lemma regular_const {A} (m : res (A * bit_reader)) : m = Err \/ m = Panic -> regular (fun _ => m).
Proof.
  intros H. split; [|split].
  - auto.
  - intros _. destruct H as [-> | ->]; discriminate.
  - intros r a r' E. destruct H as [-> | ->]; discriminate.
Qed.

Lemma regular_bind {A B} (f : bit_reader -> res (A * bit_reader)) (g : A -> bit_reader -> res (B * bit_reader)) :
  regular f -> (forall a, regular (g a)) -> regular (fun r => let! (x, r) := f r in g x r).
Proof.
  intros (F1 & F2 & F3) HG. split; [|split].
  - intros r1 r2 E. specialize (F1 r1 r2 E).
    destruct (f r1) as [[a r1']| | |]; destruct (f r2) as [[b r2']| | |]; cbn [outcome] in F1; try discriminate; auto.
    injection F1 as <- E'. cbn [bind]. apply (HG a); auto.
  - intros r. pose proof (F2 r) as H. destruct (f r) as [[a r']| | |]; cbn [bind]; try discriminate; [|congruence].
    apply (HG a).
  - intros r b r' E. destruct (f r) as [[a r1]| | |] eqn:E1; try discriminate. cbn [bind] in E.
    destruct (F3 _ _ _ E1) as (u1 & U1 & R1). destruct (HG a) as (_ & _ & G3).
    destruct (G3 _ _ _ E) as (u2 & U2 & R2). exists (u1 ++ u2). split.
    + rewrite U1, U2, app_assoc. auto.
    + eapply reads_bind; eauto.
Qed.
Lemma regular_pure {A B} (m : res A) (g : A -> bit_reader -> res (B * bit_reader)) :
  m <> NoFuel -> (forall a, regular (g a)) -> regular (fun r => let! x := m in g x r).
Proof.
  intros H HG. destruct m as [a| | |]; cbn [bind]; auto; [apply regular_const; auto|apply regular_const; auto|congruence].
Qed.
Lemma regular_unwrap {A} (f : bit_reader -> res (A * bit_reader)) : regular f -> regular (fun r => unwrap (f r)).
Proof.
  intros (F1 & F2 & F3). split; [|split].
  - intros r1 r2 E. specialize (F1 r1 r2 E).
    destruct (f r1) as [[a r1']| | |]; destruct (f r2) as [[b r2']| | |]; cbn [outcome] in F1; try discriminate; auto.
  - intros r. pose proof (F2 r). destruct (f r) as [[a r']| | |]; cbn [unwrap]; congruence.
  - intros r a r' E. destruct (f r) as [[b r1]| | |] eqn:E1; try discriminate. cbn [unwrap] in E.
    injection E as -> ->. destruct (F3 _ _ _ E1) as (u1 & U1 & R1). exists u1. split; auto.
    apply reads_unwrap. auto.
Qed.

Lemma regular_bit : regular read_bit.
Proof.
  split; [|split].
  - intros r1 r2 E. pose proof (read_bit_spec r1) as S1. pose proof (read_bit_spec r2) as S2. rewrite <- E in S2.
    destruct (rbits r1) as [|b rest].
    + rewrite S1, S2. auto.
    + destruct S1 as (r1' & -> & A). destruct S2 as (r2' & -> & B). cbn [outcome]. congruence.
  - intros r. pose proof (read_bit_spec r) as S1. destruct (rbits r) as [|b rest].
    + rewrite S1. discriminate.
    + destruct S1 as (r1' & -> & A). discriminate.
  - intros r a r' E. pose proof (read_bit_spec r) as S1. destruct (rbits r) as [|b rest].
    + rewrite S1 in E. discriminate.
    + destruct S1 as (r1' & E1 & A). rewrite E in E1. injection E1 as -> ->. exists [b]. rewrite A. split; auto. apply reads_bit.
Qed.
Lemma regular_bits n : regular (fun r => read_bits r n).
Proof.
  induction n as [|n IH]; cbn [read_bits]; [apply regular_ret|].
  apply regular_bind; [apply regular_bit|]. intros b.
  apply regular_bind; [exact IH|]. intros bs. apply regular_ret.
Qed.
Lemma convert_halts p l : convert_to_number p l <> NoFuel.
Proof.
  unfold convert_to_number. apply halts_fold. intros s a. unfold ctn_step. destruct (_ <=? _)%N; [destruct p|]; discriminate.
Qed.
Lemma regular_bytes n : regular (fun r => read_bytes r n).
Proof.
  induction n as [|n IH]; cbn [read_bytes]; [apply regular_ret|].
  apply regular_bind; [apply regular_bits|]. intros b.
  apply regular_pure; [apply convert_halts|]. intros v.
  apply regular_bind; [exact IH|]. intros bs. apply regular_ret.
Qed.

(** ** loops that consume input *)
Fixpoint iter {S A} (step : S -> bit_reader -> res ((S + A) * bit_reader)) (fuel : nat) (s : S) (r : bit_reader)
  : res (A * bit_reader) :=
  match fuel with
  | O => NoFuel
  | S fuel' =>
      let! (x, r) := step s r in
      match x with
      | inl s' => iter step fuel' s' r
      | inr a => Ok (a, r)
      end
  end.

Section Iter.
  Context {S A : Type} (step : S -> bit_reader -> res ((S + A) * bit_reader)).
  Hypothesis regular_step : forall s, regular (step s).
  Hypothesis consuming : forall s r x r', step s r = Ok (x, r') -> length (rbits r') < length (rbits r).

  Lemma iter_outcome fuel1 : forall fuel2 s r1 r2, rbits r1 = rbits r2 -> length (rbits r1) < fuel1 ->
    length (rbits r2) < fuel2 -> outcome (iter step fuel1 s r1) = outcome (iter step fuel2 s r2).
  Proof.
    induction fuel1 as [|fuel1 IH]; intros fuel2 s r1 r2 E H1 H2; [lia|]. destruct fuel2 as [|fuel2]; [lia|].
    cbn [iter]. destruct (regular_step s) as (R1 & _ & _). specialize (R1 r1 r2 E).
    destruct (step s r1) as [[x r1']| | |] eqn:E1; destruct (step s r2) as [[y r2']| | |] eqn:E2;
      cbn [outcome] in R1; try discriminate; auto.
    injection R1 as <- E'. cbn [bind]. pose proof (consuming E1). pose proof (consuming E2).
    destruct x as [s'|a]; [apply IH; auto; lia|cbn [outcome]; congruence].
  Qed.
  Lemma iter_halts fuel : forall s r, length (rbits r) < fuel -> iter step fuel s r <> NoFuel.
  Proof.
    induction fuel as [|fuel IH]; intros s r H; [lia|]. cbn [iter].
    destruct (regular_step s) as (_ & R2 & _). specialize (R2 r).
    destruct (step s r) as [[x r']| | |] eqn:E; cbn [bind]; try discriminate; [|congruence].
    pose proof (consuming E). destruct x as [s'|a]; [apply IH; lia|discriminate].
  Qed.
  Lemma iter_reads fuel : forall s r a r', iter step fuel s r = Ok (a, r') ->
    exists used, rbits r = used ++ rbits r' /\
      forall fuel2 r2 rest, length used < fuel2 -> rbits r2 = used ++ rest ->
        exists r2', iter step fuel2 s r2 = Ok (a, r2') /\ rbits r2' = rest.
  Proof.
    induction fuel as [|fuel IH]; intros s r a r' E; [discriminate|]. cbn [iter] in E.
    destruct (step s r) as [[x r1]| | |] eqn:E1; try discriminate. cbn [bind] in E.
    destruct (regular_step s) as (_ & _ & R3). destruct (R3 _ _ _ E1) as (u1 & U1 & RD).
    pose proof (consuming E1) as HC. rewrite U1, app_length in HC.
    destruct x as [s'|b].
    - destruct (IH _ _ _ _ E) as (u2 & U2 & RI). exists (u1 ++ u2). split; [rewrite U1, U2, app_assoc; auto|].
      intros fuel2 r2 rest HL ER. destruct fuel2 as [|fuel2]; [lia|]. rewrite <- app_assoc in ER.
      destruct (RD r2 _ ER) as (r3 & E3 & ER3). cbn [iter]. rewrite E3. cbn [bind].
      rewrite app_length in HL. apply RI; auto. lia.
    - injection E as -> ->. exists u1. split; auto. intros fuel2 r2 rest HL ER. destruct fuel2 as [|fuel2]; [lia|].
      destruct (RD r2 _ ER) as (r3 & E3 & ER3). cbn [iter]. rewrite E3. cbn [bind]. eauto.
  Qed.
  Lemma iter_regular s : regular (fun r => iter step (Datatypes.S (bits_left r)) s r).
  Proof.
    split; [|split].
    - intros r1 r2 E. apply iter_outcome; auto; rewrite bits_left_rbits; lia.
    - intros r. apply iter_halts. rewrite bits_left_rbits; lia.
    - intros r a r' E. destruct (iter_reads _ _ _ E) as (used & U & RD). exists used. split; auto.
      intros r2 rest ER. apply RD; auto. rewrite bits_left_rbits, ER, app_length. lia.
  Qed.
End Iter.

Lemma reads_shorter {A} (f : bit_reader -> res (A * bit_reader)) r a r' : regular f -> f r = Ok (a, r') ->
  length (rbits r') <= length (rbits r).
Proof. intros (_ & _ & R) E. destruct (R _ _ _ E) as (u & -> & _). rewrite app_length. lia. Qed.
Lemma bit_shorter r b r' : read_bit r = Ok (b, r') -> length (rbits r') < length (rbits r).
Proof.
  intros E. pose proof (read_bit_spec r) as H. destruct (rbits r) as [|x rest].
  - rewrite H in E. discriminate.
  - destruct H as (r1 & E1 & <-). rewrite E in E1. injection E1 as -> ->. cbn [length]. lia.
Qed.

(** unary numbers (selectors.rs) *)
Definition unary_step (p : profile) (amount : nat) (s : nat * list nat) (r : bit_reader)
  : res ((nat * list nat + list nat) * bit_reader) :=
  let! (b, r) := read_bit r in
  let! (current_symbol, output) :=
    if b
    then if fst s =? 255
         then match p with Checked => Panic | Wrapping => Ok (0, snd s) end
         else Ok (fst s + 1, snd s)
    else Ok (0, snd s ++ [fst s]) in
  if amount <=? length output then Ok (inr output, r) else Ok (inl (current_symbol, output), r).
Lemma unary_loop_iter p amount fuel : forall r c o,
  read_unary_loop p fuel r amount c o = iter (unary_step p amount) fuel (c, o) r.
Proof.
  induction fuel as [|fuel IH]; intros r c o; [reflexivity|]. cbn [read_unary_loop iter]. unfold unary_step at 1.
  destruct (read_bit r) as [[b r']| | |]; cbn [bind]; auto. cbn [fst snd].
  destruct (if b then _ else _) as [[c' o']| | |]; cbn [bind]; auto.
  destruct (amount <=? length o'); cbn [bind]; auto.
Qed.
Lemma regular_unary p amount : regular (fun r => read_unary p r amount).
Proof.
  apply regular_ext with (f := fun r => iter (unary_step p amount) (S (bits_left r)) (0, []) r).
  { intros r. unfold read_unary. symmetry. apply unary_loop_iter. }
  apply iter_regular.
  - intros s. unfold unary_step. apply regular_bind; [apply regular_bit|]. intros b.
    apply (@regular_pure (nat * list nat)).
    + destruct b; [|discriminate]. destruct (fst s =? 255); [destruct p|]; discriminate.
    + intros [c o]. destruct (amount <=? length o); apply regular_ret.
  - intros s r x r' E. unfold unary_step in E. destruct (read_bit r) as [[b r1]| | |] eqn:E1; try discriminate. cbn [bind] in E.
    apply bit_shorter in E1. destruct (if b then _ else _) as [[c o]| | |]; try discriminate. cbn [bind] in E.
    destruct (amount <=? length o); injection E as <- <-; auto.
Qed.

(** code lengths (code_table.rs) *)
Definition delta_read_step (p : profile) (amount : nat) (s : N * list nat) (r : bit_reader)
  : res ((N * list nat + list nat) * bit_reader) :=
  let! (b, r) := read_bit r in
  let! (start, out, r) :=
    if b
    then
      let! (b', r) := read_bit r in
      let! start := if b' then start_dec p (fst s) else start_inc p (fst s) in
      Ok (start, snd s, r)
    else Ok (fst s, snd s ++ [N.to_nat (fst s mod 256)], r) in
  if length out =? amount then Ok (inr out, r) else Ok (inl (start, out), r).
Lemma delta_loop_iter p amount fuel : forall r s o,
  read_delta_loop p fuel r amount s o = iter (delta_read_step p amount) fuel (s, o) r.
Proof.
  induction fuel as [|fuel IH]; intros r c o; [reflexivity|]. cbn [read_delta_loop iter]. unfold delta_read_step at 1.
  destruct (read_bit r) as [[b r']| | |]; cbn [bind]; auto. cbn [fst snd].
  destruct (if b then _ else _) as [[[c' o'] r1]| | |]; cbn [bind]; auto.
  destruct (length o' =? amount); cbn [bind]; auto.
Qed.
Lemma start_dec_halts p n : start_dec p n <> NoFuel.
Proof. unfold start_dec. destruct (_ =? _)%N; [destruct p|]; discriminate. Qed.
Lemma start_inc_halts p n : start_inc p n <> NoFuel.
Proof. unfold start_inc. destruct (_ =? _)%N; [destruct p|]; discriminate. Qed.
Lemma regular_delta p amount : regular (fun r => read_delta p r amount).
Proof.
  unfold read_delta. apply regular_bind; [apply regular_bits|]. intros bits.
  apply regular_pure; [apply convert_halts|]. intros start.
  apply regular_ext with (f := fun r => iter (delta_read_step p amount) (S (bits_left r)) (start, []) r).
  { intros r. symmetry. apply delta_loop_iter. }
  apply iter_regular.
  - intros s. unfold delta_read_step. apply regular_bind; [apply regular_bit|]. intros b.
    apply regular_ext with (f := fun r => let! (x, r) :=
      (if b then let! (b', r) := read_bit r in
                 let! start := if b' then start_dec p (fst s) else start_inc p (fst s) in Ok ((start, snd s), r)
       else Ok ((fst s, snd s ++ [N.to_nat (fst s mod 256)]), r)) in
      (fun x r => if length (snd x) =? amount then Ok (inr (snd x), r) else Ok (inl x, r)) x r).
    { intros r. destruct b; cbn [bind].
      - destruct (read_bit r) as [[b' r1]| | |]; cbn [bind]; auto.
        destruct (if b' then _ else _); cbn [bind]; auto.
      - reflexivity. }
    apply regular_bind.
    + destruct b; [|apply regular_ret]. apply regular_bind; [apply regular_bit|]. intros b'.
      apply regular_pure; [destruct b'; [apply start_dec_halts|apply start_inc_halts]|]. intros; apply regular_ret.
    + intros [st o]. cbn [snd]. destruct (length o =? amount); apply regular_ret.
  - intros s r x r' E. unfold delta_read_step in E. destruct (read_bit r) as [[b r1]| | |] eqn:E1; try discriminate. cbn [bind] in E.
    apply bit_shorter in E1. destruct b.
    + destruct (read_bit r1) as [[b' r2]| | |] eqn:E2; try discriminate. cbn [bind] in E. apply bit_shorter in E2.
      destruct (if b' then _ else _) as [st| | |]; try discriminate. cbn [bind] in E.
      destruct (length (snd s) =? amount); injection E as <- <-; lia.
    + cbn [bind] in E. destruct (length _ =? amount); injection E as <- <-; lia.
Qed.

(** coded symbols (reader.rs) *)
Definition symbols_step (table : canonical_table) (max_number : nat) (s : list zsym * list bool * nat) (r : bit_reader)
  : res ((list zsym * list bool * nat + list zsym) * bit_reader) :=
  let '(all_symbols, current_symbol, symbols_read) := s in
  let! (read, r') := read_bits r 1 in
  let current_symbol := current_symbol ++ read in
  match read_from_table table current_symbol with
  | Some EoB => Ok (inr all_symbols, r')
  | Some (Normal s) =>
      let all_symbols := all_symbols ++ [s] in
      if S symbols_read =? max_number then Ok (inr all_symbols, r')
      else Ok (inl (all_symbols, [], S symbols_read), r')
  | None =>
      if symbols_read =? max_number then Ok (inr all_symbols, r')
      else Ok (inl (all_symbols, current_symbol, symbols_read), r')
  end.
Lemma symbols_loop_iter table max fuel : forall r a c k,
  read_symbols_loop fuel r table max a c k = iter (symbols_step table max) fuel (a, c, k) r.
Proof.
  induction fuel as [|fuel IH]; intros r a c k; [reflexivity|]. cbn [read_symbols_loop iter]. unfold symbols_step at 1.
  destruct (read_bits r 1) as [[b r']| | |]; cbn [bind]; auto. cbv zeta.
  destruct (read_from_table table (c ++ b)) as [[s|]|]; cbn [bind]; auto.
  - destruct (S k =? max); cbn [bind]; auto.
  - destruct (k =? max); cbn [bind]; auto.
Qed.
Lemma regular_symbols table max : regular (fun r => read_symbols r table max).
Proof.
  apply regular_ext with (f := fun r => iter (symbols_step table max) (S (bits_left r)) ([], [], 0) r).
  { intros r. symmetry. apply symbols_loop_iter. }
  apply iter_regular.
  - intros [[a c] k]. unfold symbols_step. apply regular_bind; [apply regular_bits|]. intros b.
    destruct (read_from_table table (c ++ b)) as [[s|]|]; [| apply regular_ret |].
    + destruct (S k =? max); apply regular_ret.
    + destruct (k =? max); apply regular_ret.
  - intros [[a c] k] r x r' E. unfold symbols_step in E.
    destruct (read_bits r 1) as [[b r1]| | |] eqn:E1; try discriminate. cbn [bind] in E.
    cbn [read_bits] in E1. destruct (read_bit r) as [[b0 r0]| | |] eqn:E0; try discriminate. cbn [bind] in E1.
    injection E1 as <- <-. apply bit_shorter in E0.
    destruct (read_from_table table _) as [[s|]|]; [destruct (S k =? max)| |destruct (k =? max)]; injection E as <- <-; auto.
Qed.

(** ** one block *)
Lemma regular_trees p k amount : regular (fun r => read_trees p k r amount).
Proof.
  induction k as [|k IH]; cbn [read_trees]; [apply regular_ret|].
  apply regular_bind; [apply regular_unwrap, regular_delta|]. intros t.
  apply regular_bind; [exact IH|]. intros ts. apply regular_ret.
Qed.
Lemma regular_groups sel tables : regular (fun r => read_groups sel tables r).
Proof.
  induction sel as [|s sel IH]; cbn [read_groups]; [apply regular_ret|].
  apply regular_pure; [apply halts_option|]. intros T.
  apply regular_bind; [apply regular_unwrap, regular_symbols|]. intros syms.
  apply regular_bind; [exact IH|]. intros rest. apply regular_ret.
Qed.
Lemma regular_number n : regular (fun r => read_number r n).
Proof.
  unfold read_number. apply regular_bind; [apply regular_unwrap, regular_bits|]. intros bits.
  apply regular_pure; [apply convert_halts|]. intros; apply regular_ret.
Qed.
Lemma regular_symbol_table : regular read_symbol_table.
Proof.
  unfold read_symbol_table. apply regular_bind; [apply regular_bits|]. intros index.
  apply regular_bind; [apply regular_bits|]. intros regions. apply regular_ret.
Qed.
Lemma inverse_mtf_halts l : forall d, inverse_mtf l d <> NoFuel.
Proof.
  induction l as [|i l IH]; intros d; cbn [inverse_mtf]; [discriminate|].
  apply halts_bind; [apply halts_option|]. intros v _. apply halts_bind; [apply halts_find_pos|]. intros pos _.
  destruct (255 <? pos); [discriminate|]. apply halts_bind.
  { unfold bring_to_front_of_dict. apply halts_bind; [apply halts_option|]. discriminate. }
  intros d' _. apply halts_bind; [apply IH|]. discriminate.
Qed.
Lemma flush_zeros_halts z o : flush_zeros z o <> NoFuel.
Proof.
  unfold flush_zeros. destruct z; [discriminate|]. unfold decode_zero_amount.
  destruct (_ =? 0)%N; [discriminate|]. destruct (_ <=? _)%N; discriminate.
Qed.
Lemma decode_zle_halts l : decode_zle l <> NoFuel.
Proof.
  unfold decode_zle. generalize (@nil nat) as o, (@nil zsym) as z. induction l as [|s l IH]; intros o z; cbn [decode_zle_loop].
  - apply flush_zeros_halts.
  - destruct s; auto. apply halts_bind; [apply flush_zeros_halts|]. intros; apply IH.
Qed.
Lemma inverse_bwt_halts l ptr : inverse_bwt l ptr <> NoFuel.
Proof.
  unfold inverse_bwt. apply halts_bind; [apply halts_option|]. intros [start x] _.
  generalize (sort_by (fun x y : nat * nat => snd x <=? snd y) (enumerate l)) as pairs.
  intros pairs. revert start. generalize (length l) as k. induction k as [|k IH]; intros start; cbn [inverse_bwt_loop]; [discriminate|].
  apply halts_bind; [apply halts_option|]. intros [next value] _. apply halts_bind; [apply IH|]. discriminate.
Qed.

(** everything after the checksum *)
Definition block_rest (p : profile) (r : bit_reader) : res (list nat * bit_reader) :=
  let! (_, r) := read_bits r 1 in
  let! (orig_ptr, r) := read_number r 24 in
  let! (symbols, r) := unwrap (read_symbol_table r) in
  let! (num_trees, r) := read_number r 3 in
  let! (num_selectors, r) := read_number r 15 in
  let! (selectors_mtf, r) := unwrap (read_unary p r (N.to_nat num_selectors)) in
  let! selectors := inverse_mtf selectors_mtf (seq 0 (N.to_nat num_trees)) in
  let! (trees, r) := read_trees p (N.to_nat num_trees) r (length symbols + 2) in
  let! code_tables :=
    map_res (fun tree => let! t := from_weights tree in canonicalize p t) trees in
  let! (zle_input, r) := read_groups selectors code_tables r in
  let! mtf_input := decode_zle zle_input in
  let! bwt_input := inverse_mtf mtf_input symbols in
  let! rle_input := inverse_bwt bwt_input (N.to_nat orig_ptr) in
  Ok (inverse_rle rle_input, r).
Lemma block_split p r : decode_block_data p r =
  let! (crc, r) := read_number r 32 in let! (c, r) := block_rest p r in Ok (c, crc, r).
Proof.
  unfold decode_block_data, block_rest. destruct (read_number r 32) as [[crc r1]| | |]; auto. cbn [bind].
  repeat match goal with
  | |- bind ?m _ = _ => first [destruct m as [[? ?]| | |] | destruct m as [?| | |]]; cbn [bind]; auto
  end.
Qed.
Lemma regular_rest p : regular (block_rest p).
Proof.
  unfold block_rest.
  apply regular_bind; [apply regular_bits|]. intros _.
  apply regular_bind; [apply regular_number|]. intros ptr.
  apply regular_bind; [apply regular_unwrap, regular_symbol_table|]. intros symbols.
  apply regular_bind; [apply regular_number|]. intros trees.
  apply regular_bind; [apply regular_number|]. intros nsel.
  apply regular_bind; [apply regular_unwrap, regular_unary|]. intros um.
  apply regular_pure; [apply inverse_mtf_halts|]. intros sel.
  apply regular_bind; [apply regular_trees|]. intros ts.
  apply regular_pure.
  { apply halts_map. intros t. apply halts_bind; [|intros; apply halts_canonicalize].
    unfold from_weights. destruct (_ <? _); [discriminate|]. destruct (_ <? _); discriminate. }
  intros tables. apply regular_bind; [apply regular_groups|]. intros zle.
  apply regular_pure; [apply decode_zle_halts|]. intros mtf_input.
  apply regular_pure; [apply inverse_mtf_halts|]. intros bwt_input.
  apply regular_pure; [apply inverse_bwt_halts|]. intros rle_input. apply regular_ret.
Qed.
Theorem regular_block p : regular (decode_block_data p).
Proof.
  apply regular_ext with (f := fun r => let! (crc, r) := read_number r 32 in
    (fun crc r => let! (c, r) := block_rest p r in Ok ((c, crc), r)) crc r).
  { intros r. symmetry. apply block_split. }
  apply regular_bind; [apply regular_number|]. intros crc.
  apply regular_bind; [apply regular_rest|]. intros c. apply regular_ret.
Qed.
Lemma app_inv_length {A} (a : list A) : forall b x y, a ++ x = b ++ y -> length a = length b -> a = b /\ x = y.
Proof.
  induction a as [|h a IH]; intros [|k b] x y E H; try discriminate; auto.
  cbn [app] in E. injection E as -> E. cbn [length] in H. destruct (IH b x y E ltac:(lia)) as (-> & ->). auto.
Qed.
Lemma read_number_ok r n x rest : rbits r = x ++ rest -> length x = n -> n <= 64 ->
  exists r', read_number r n = Ok (number x, r') /\ rbits r' = rest.
Proof.
  intros E HL HN. unfold read_number.
  destruct (read_bits_spec r n) as [(H & ER)|(y & rest' & r1 & H & HL' & ER & ER1)].
  - rewrite E, app_length in H. lia.
  - rewrite E in H. apply app_inv_length in H as (-> & ->); [|lia]. rewrite ER. cbn [unwrap bind].
    rewrite convert_to_number_ok by lia. cbn [bind]. rewrite number_bval. eauto.
Qed.
Lemma read_number_inv r n v r' : n <= 64 -> read_number r n = Ok (v, r') ->
  exists x, rbits r = x ++ rbits r' /\ length x = n /\ v = number x.
Proof.
  intros HN E. unfold read_number in E.
  destruct (read_bits_spec r n) as [(H & ER)|(y & rest' & r1 & H & HL' & ER & ER1)]; rewrite ER in E; [discriminate|].
  cbn [unwrap bind] in E. rewrite convert_to_number_ok in E by lia. cbn [bind] in E. injection E as <- <-.
  exists y. rewrite ER1, number_bval. auto.
Qed.

(** the checksum returned is the number of the first 32 bits *)
Lemma block_starts p r c crc r' : decode_block_data p r = Ok (c, crc, r') ->
  exists x r1 used, rbits r = x ++ rbits r1 /\ length x = 32 /\ crc = number x /\
    rbits r1 = used ++ rbits r' /\ block_rest p r1 = Ok (c, r').
Proof.
  intros E. rewrite block_split in E. destruct (read_number r 32) as [[v r1]| | |] eqn:EN; try discriminate. cbn [bind] in E.
  destruct (block_rest p r1) as [[c' r2]| | |] eqn:ER; try discriminate. cbn [bind] in E. injection E as <- <- <-.
  apply read_number_inv in EN as (x & E1 & E2 & E3); [|lia].
  destruct (regular_rest p) as (_ & _ & R3). destruct (R3 _ _ _ ER) as (used & EU & _). exists x, r1, used. auto.
Qed.

(** ** decoded blocks consist of bytes *)
Lemma find_pos_lt x d : forall k, find_pos x d = Ok k -> k < length d.
Proof.
  induction d as [|y d IH]; intros k E; cbn [find_pos] in E; [discriminate|]. destruct (y =? x).
  - injection E as <-. cbn [length]. lia.
  - destruct (find_pos x d) as [j| | |]; try discriminate. cbn [bind] in E. injection E as <-.
    specialize (IH j eq_refl). cbn [length]. lia.
Qed.
Lemma inverse_mtf_from l : forall d out, inverse_mtf l d = Ok out -> forall P : nat -> Prop, Forall P d -> Forall P out.
Proof.
  induction l as [|i l IH]; intros d out E P HP; cbn [inverse_mtf] in E.
  - injection E as <-. constructor.
  - unfold get_at in E. destruct (nth_error d i) as [v|] eqn:EN; try discriminate. cbn [of_option bind] in E.
    destruct (find_pos v d) as [pos| | |]; try discriminate. cbn [bind] in E.
    destruct (255 <? pos); try discriminate. unfold bring_to_front_of_dict, get_at in E.
    destruct (nth_error d pos) as [el|] eqn:EP; try discriminate. cbn [of_option bind] in E.
    match type of E with context [inverse_mtf l ?d'] => destruct (inverse_mtf l d') as [out'| | |] eqn:EI; try discriminate end.
    cbn [bind] in E. injection E as <-. constructor.
    + eapply Forall_nth_error; eauto.
    + eapply IH; [exact EI|]. constructor; [eapply Forall_nth_error; eauto|].
      apply Forall_app; split; rewrite Forall_forall in *; intros x Hx; apply HP.
      * rewrite <- (firstn_skipn pos d). apply in_or_app; auto.
      * rewrite <- (firstn_skipn (S pos) d). apply in_or_app; auto.
Qed.
Lemma inverse_bwt_from l ptr out : inverse_bwt l ptr = Ok out -> forall P : nat -> Prop, Forall P l -> Forall P out.
Proof.
  unfold inverse_bwt. intros E P HP.
  destruct (find_first _ _) as [[start x]|]; try discriminate. cbn [of_option bind] in E.
  assert (Forall (fun x => P (snd x)) (sort_by (fun x y : nat * nat => snd x <=? snd y) (enumerate l))) as HS.
  { assert (forall (A : Type) (Q : A -> Prop) leb (y : A) s, Q y -> Forall Q s -> Forall Q (insert_by leb y s)) as GI.
    { clear. intros A Q leb y s Hy. induction 1 as [|z s Hz HF IH]; cbn [insert_by]; [repeat constructor; auto|].
      destruct (leb y z); repeat constructor; auto. }
    assert (forall (A : Type) (Q : A -> Prop) leb (s : list A), Forall Q s -> Forall Q (sort_by leb s)) as GS.
    { clear - GI. intros A Q leb s. induction 1; cbn [sort_by]; [constructor|]. apply GI; auto. }
    apply GS. unfold enumerate. clear - HP. generalize 0. induction HP; intros k; cbn [enumerate_from]; constructor; auto. }
  revert start out E. generalize (length l). induction n as [|n IH]; intros start out E; cbn [inverse_bwt_loop] in E.
  - injection E as <-. constructor.
  - unfold get_at in E. destruct (nth_error _ start) as [[next v]|] eqn:EN; try discriminate. cbn [of_option bind] in E.
    destruct (inverse_bwt_loop n _ next) as [o| | |] eqn:EL; try discriminate. cbn [bind] in E. injection E as <-.
    constructor; eauto. eapply Forall_nth_error in EN; [|exact HS]. exact EN.
Qed.
Lemma inverse_rle_from l (P : nat -> Prop) : Forall P l -> Forall P (inverse_rle l).
Proof.
  intros H. unfold inverse_rle.
  assert (forall s, Forall P (ir_out s) -> (forall b, ir_prev s = Some b -> P b) -> Forall P (ir_out (fold_left irle_step l s))) as G.
  { induction H as [|x l Hx HF IH]; intros s H1 H2; cbn [fold_left]; auto.
    unfold irle_step at 2. destruct (ir_prev s) as [b|] eqn:EP.
    - specialize (H2 b eq_refl). destruct (ir_equal s =? 3); [|destruct (b =? x)]; apply IH; cbn [ir_out ir_prev];
        try (intros c E; injection E as <-; auto); apply Forall_app; split; auto.
      apply Forall_forall. intros y Hy. apply repeat_spec in Hy. subst; auto.
    - apply IH; cbn [ir_out ir_prev]; [apply Forall_app; split; auto|]. intros c E; injection E as <-; auto. }
  apply G; cbn [ir_out ir_prev]; [constructor|discriminate].
Qed.
Lemma symbol_table_bytes r l r' : read_symbol_table r = Ok (l, r') -> bytes l.
Proof.
  unfold read_symbol_table. intros E.
  destruct (read_bits_spec r 16) as [(H & ER)|(x & rest & r1 & H & HL & ER & ER1)]; rewrite ER in E; [discriminate|].
  cbn [bind] in E. destruct (read_bits r1 _) as [[y r2]| | |]; try discriminate. cbn [bind] in E. injection E as <- <-.
  assert (Forall (fun g => g < 16) (get_used_regions x)) as HR.
  { unfold get_used_regions. apply Forall_forall. intros g Hg. apply in_map_iff in Hg as ([i b] & <- & Hg).
    apply filter_In in Hg as (Hg & _). cbn [fst].
    assert (forall (l : list bool) k i b, In (i, b) (enumerate_from k l) -> i < k + length l) as GE.
    { clear. induction l as [|z l IH]; intros k i b Hi; cbn [enumerate_from] in Hi; [destruct Hi|].
      cbn [length]. destruct Hi as [Hi|Hi]; [injection Hi as <- <-; lia|]. apply IH in Hi. lia. }
    apply GE in Hg. lia. }
  unfold get_used_symbols_from_regions. apply Forall_forall. intros v Hv. apply in_flat_map in Hv as ([[pos g] b] & Hi & Hv).
  apply in_combine_l in Hi. apply in_flat_map in Hi as (g' & Hg' & Hi). apply in_map_iff in Hi as (pos' & E' & Hp).
  injection E' as -> ->. apply in_seq in Hp. rewrite Forall_forall in HR. specialize (HR g Hg').
  destruct b; [|destruct Hv]. destruct Hv as [<-|[]]. unfold is_byte. lia.
Qed.
Lemma block_bytes p r c crc r' : decode_block_data p r = Ok (c, crc, r') -> bytes c.
Proof.
  intros E. unfold decode_block_data in E.
  destruct (read_number r 32) as [[n1 r1]| | |]; try discriminate. cbn [bind] in E.
  destruct (read_bits r1 1) as [[n2 r2]| | |]; try discriminate. cbn [bind] in E.
  destruct (read_number r2 24) as [[n3 r3]| | |]; try discriminate. cbn [bind] in E.
  destruct (read_symbol_table r3) as [[symbols r4]| | |] eqn:ES; try discriminate. cbn [bind unwrap] in E.
  destruct (read_number r4 3) as [[n5 r5]| | |]; try discriminate. cbn [bind] in E.
  destruct (read_number r5 15) as [[n6 r6]| | |]; try discriminate. cbn [bind] in E.
  destruct (unwrap (read_unary p r6 _)) as [[um r7]| | |]; try discriminate. cbn [bind] in E.
  destruct (inverse_mtf um _) as [sel| | |]; try discriminate. cbn [bind] in E.
  destruct (read_trees p _ r7 _) as [[ts r8]| | |]; try discriminate. cbn [bind] in E.
  destruct (map_res _ ts) as [tables| | |]; try discriminate. cbn [bind] in E.
  destruct (read_groups sel tables r8) as [[zle r9]| | |]; try discriminate. cbn [bind] in E.
  destruct (decode_zle zle) as [mi| | |]; try discriminate. cbn [bind] in E.
  destruct (inverse_mtf mi symbols) as [bi| | |] eqn:EM; try discriminate. cbn [bind] in E.
  destruct (inverse_bwt bi _) as [ri| | |] eqn:EB; try discriminate. cbn [bind] in E.
  injection E as <- _ _. apply symbol_table_bytes in ES. apply inverse_rle_from.
  eapply inverse_bwt_from; [exact EB|]. eapply inverse_mtf_from; [exact EM|]. exact ES.
Qed.

(** ** the blocks of a stream, and how it ends, independent of the sink *)
Fixpoint trace (fuel : nat) (p : profile) (r : bit_reader) : list (list nat) * res bit_reader :=
  match fuel with
  | O => ([], NoFuel)
  | S fuel' =>
      match what_next r with
      | Ok (StreamFooter, r) => ([], Ok r)
      | Ok (BlockHeader, r) =>
          match decode_block_data p r with
          | Ok (c, crc, r) =>
              if (crc32 c =? crc)%N then let (bs, e) := trace fuel' p r in (c :: bs, e) else ([], Err)
          | Err => ([], Err)
          | Panic => ([], Panic)
          | NoFuel => ([], NoFuel)
          end
      | Err => ([], Err)
      | Panic => ([], Panic)
      | NoFuel => ([], NoFuel)
      end
  end.
Lemma offer_nil blocks : offer [] blocks = (concat blocks, [], true).
Proof. destruct blocks; reflexivity. Qed.

Lemma decode_loop_trace p fuel : forall r w, decode_loop fuel p r w =
  let (blocks, e) := trace fuel p r in
  let '(got, script, ok) := offer (w_script w) blocks in
  (if ok then e else Err, mk_writer script (w_out w ++ got)).
Proof.
  induction fuel as [|fuel IH]; intros r w; cbn [decode_loop trace].
  - destruct w as [s o]. cbn [offer status w_script w_out]. rewrite app_nil_r. auto.
  - destruct (what_next r) as [[[|] r1]| | |];
      try (destruct w as [s o]; cbn [offer status w_script w_out]; rewrite app_nil_r; reflexivity).
    unfold decode_block. destruct (decode_block_data p r1) as [[[c crc] r2]| | |];
      try (destruct w as [s o]; cbn [offer status w_script w_out]; rewrite app_nil_r; reflexivity).
    destruct (crc32 c =? crc)%N; [|destruct w as [s o]; cbn [offer status w_script w_out]; rewrite app_nil_r; reflexivity].
    specialize (IH r2). destruct (trace fuel p r2) as [blocks e]. cbn [offer].
    unfold w_write. destruct (w_script w) as [|[k|] script] eqn:EW.
    + rewrite IH. cbn [w_script w_out]. rewrite offer_nil, <- app_assoc. reflexivity.
    + rewrite IH. cbn [w_script w_out]. destruct (offer script blocks) as [[got s'] ok]. rewrite <- app_assoc. reflexivity.
    + rewrite app_nil_r. reflexivity.
Qed.

(** the whole stream *)
Definition stream_trace (p : profile) (input : list nat) : list (list nat) * res bit_reader :=
  match read_file_header (br_from_reader input) with
  | Ok r => trace (S (bits_left r)) p r
  | Err => ([], Err)
  | Panic => ([], Panic)
  | NoFuel => ([], NoFuel)
  end.
(** ... for any reader *)
Definition source_trace (p : profile) (source : list answer) : list (list nat) * res bit_reader :=
  match read_file_header (br_from_source source) with
  | Ok r => trace (S (bits_left r)) p r
  | Err => ([], Err)
  | Panic => ([], Panic)
  | NoFuel => ([], NoFuel)
  end.
Definition left_over (e : res bit_reader) : res (list answer) :=
  match e with Ok r => Ok (br_source r) | Err => Err | Panic => Panic | NoFuel => NoFuel end.
Theorem decode_source_trace p source w : decode_source p source w =
  let (blocks, e) := source_trace p source in
  let '(got, script, ok) := offer (w_script w) blocks in
  (if ok then left_over e else Err, mk_writer script (w_out w ++ got)).
Proof.
  unfold decode_source, source_trace. destruct (read_file_header _) as [r| | |];
    [|cbn [offer left_over]; destruct w as [s o]; cbn [w_script w_out]; rewrite app_nil_r; auto..].
  rewrite decode_loop_trace. destruct (trace (S (bits_left r)) p r) as [blocks e].
  destruct (offer (w_script w) blocks) as [[got s] ok]. destruct ok; [destruct e|]; reflexivity.
Qed.
Theorem decode_stream_trace p input w : decode_stream p input w =
  let (blocks, e) := stream_trace p input in
  let '(got, script, ok) := offer (w_script w) blocks in
  (if ok then status e else Err, mk_writer script (w_out w ++ got)).
Proof.
  unfold decode_stream. rewrite decode_source_trace. change (source_trace p (map AByte input)) with (stream_trace p input).
  destruct (stream_trace p input) as [blocks e]. destruct (offer (w_script w) blocks) as [[got s] ok].
  destruct ok; [destruct e|]; reflexivity.
Qed.

(** ** what the bytes read were *)
Lemma read_bytes_inv n : forall r bs r', read_bytes r n = Ok (bs, r') ->
  rbits r = bytes_bits bs ++ rbits r' /\ length bs = n /\ bytes bs.
Proof.
  induction n as [|n IH]; intros r bs r' E; cbn [read_bytes] in E.
  - injection E as <- <-. repeat split. constructor.
  - destruct (read_bits_spec r 8) as [(H & ER)|(x & rest & r1 & H & HL & ER & ER1)]; rewrite ER in E; [discriminate|].
    cbn [bind] in E. rewrite convert_to_number_ok in E by lia. cbn [bind] in E.
    destruct (read_bytes r1 n) as [[bs' r2]| | |] eqn:EB; try discriminate. cbn [bind] in E. injection E as <- <-.
    destruct (IH _ _ _ EB) as (A & B & C). pose proof (bval_lt x) as HV. rewrite HL in HV.
    change (2 ^ N.of_nat 8)%N with 256%N in HV. split; [|split].
    + cbn [bytes_bits flat_map]. rewrite H, <- app_assoc. unfold bytes_bits in A. rewrite <- A, <- ER1. f_equal.
      apply bval_inj; [rewrite HL; reflexivity|].
      rewrite byte_bits_val; lia.
    + cbn [length]. lia.
    + constructor; auto. unfold is_byte. lia.
Qed.

Lemma nats_eqb_eq a : forall b, nats_eqb a b = true -> a = b.
Proof.
  induction a as [|x a IH]; intros [|y b] H; cbn [nats_eqb] in H; try discriminate; auto.
  apply andb_true_iff in H as (H1 & H2). apply Nat.eqb_eq in H1 as ->. f_equal; auto.
Qed.
Lemma what_next_inv r t r' : what_next r = Ok (t, r') ->
  rbits r = bytes_bits (match t with BlockHeader => block_magic | StreamFooter => footer_magic end) ++ rbits r'.
Proof.
  unfold what_next. intros E. destruct (read_bytes r 6) as [[bs r1]| | |] eqn:EB; try discriminate. cbn [bind] in E.
  apply read_bytes_inv in EB as (EB & _ & _).
  destruct (nats_eqb bs block_magic) eqn:E1.
  - injection E as <- <-. apply nats_eqb_eq in E1 as ->. auto.
  - destruct (nats_eqb bs footer_magic) eqn:E2; try discriminate. injection E as <- <-. apply nats_eqb_eq in E2 as ->. auto.
Qed.
Lemma regular_what_next : regular what_next.
Proof.
  unfold what_next. apply regular_bind; [apply regular_bytes|]. intros bs.
  destruct (nats_eqb bs block_magic); [apply regular_ret|].
  destruct (nats_eqb bs footer_magic); [apply regular_ret|apply regular_const; auto].
Qed.
Lemma magic_length t : length (bytes_bits (match t with BlockHeader => block_magic | StreamFooter => footer_magic end)) = 48.
Proof. destruct t; reflexivity. Qed.

(** ** the decoder ends *)
Lemma trace_halts p fuel : forall r, length (rbits r) < fuel -> snd (trace fuel p r) <> NoFuel.
Proof.
  induction fuel as [|fuel IH]; intros r H; [lia|]. cbn [trace].
  destruct (regular_what_next) as (_ & WN & _). specialize (WN r).
  destruct (what_next r) as [[[|] r1]| | |] eqn:EW; try discriminate; [|congruence].
  apply what_next_inv in EW.
  assert (length (rbits r1) < length (rbits r)) as HL.
  { rewrite EW, app_length. change (length (bytes_bits block_magic)) with 48. lia. }
  destruct (regular_block p) as (_ & BN & BR). specialize (BN r1).
  destruct (decode_block_data p r1) as [[[c crc] r2]| | |] eqn:EB; try discriminate; [|congruence].
  destruct (crc32 c =? crc)%N; try discriminate.
  destruct (BR _ _ _ EB) as (used & E2 & _). rewrite E2, app_length in HL. specialize (IH r2 ltac:(lia)).
  destruct (trace fuel p r2) as [bs e]. exact IH.
Qed.

(** ** every block written is followed in the stream by its checksum *)
Lemma spaced_weaken l : forall a b, b <= a -> spaced a l -> spaced b l.
Proof. destruct l as [|x l]; cbn [spaced]; intros a b H; auto. intros (A & B). split; auto. lia. Qed.

Lemma trace_checked p fuel : forall r bits pre, bits = pre ++ rbits r ->
  exists positions, spaced (length pre) positions /\
    Forall2 (checksum_stored_at bits) positions (fst (trace fuel p r)) /\
    Forall bytes (fst (trace fuel p r)).
Proof.
  induction fuel as [|fuel IH]; intros r bits pre E; cbn [trace].
  - exists []. repeat split; constructor.
  - assert (exists positions, spaced (length pre) positions /\ Forall2 (checksum_stored_at bits) positions [] /\ Forall bytes []) as G0.
    { exists []. repeat split; constructor. }
    destruct (what_next r) as [[[|] r1]| | |] eqn:EW; auto. apply what_next_inv in EW.
    destruct (decode_block_data p r1) as [[[c crc] r2]| | |] eqn:EB; auto.
    destruct (crc32 c =? crc)%N eqn:EC; auto. apply N.eqb_eq in EC.
    pose proof (block_bytes _ _ EB) as HB.
    destruct (block_starts _ _ EB) as (x & r1' & used & ER & LX & -> & EU & _).
    destruct (IH r2 bits (pre ++ bytes_bits block_magic ++ x ++ used)) as (pos & P1 & P2 & P3).
    { rewrite E, EW, ER, EU, <- !app_assoc. auto. }
    exists (length pre :: pos). destruct (trace fuel p r2) as [bs e]. cbn [fst] in *. split; [|split]; auto.
    + cbn [spaced]. split; auto. eapply spaced_weaken; [|exact P1]. rewrite !app_length.
      change (length (bytes_bits block_magic)) with 48. lia.
    + constructor; auto. rewrite E, EW, ER. unfold checksum_stored_at. split; [|split].
      * rewrite !app_length. change (length (bytes_bits block_magic)) with 48. lia.
      * rewrite skipn_app, skipn_all, Nat.sub_diag. cbn [app skipn].
        rewrite firstn_app. change (length (bytes_bits block_magic)) with 48. rewrite Nat.sub_diag. cbn [firstn].
        rewrite app_nil_r. reflexivity.
      * replace (length pre + 48) with (length (pre ++ bytes_bits block_magic)).
        2: { rewrite app_length. reflexivity. }
        rewrite app_assoc, skipn_app, skipn_all, Nat.sub_diag. cbn [app skipn].
        rewrite firstn_app, LX, Nat.sub_diag, firstn_O, app_nil_r, firstn_all2 by lia.
        rewrite <- EC. apply crc32_correct. auto.
Qed.

(** ** an accepted stream is read up to the footer magic and no further *)
Lemma trace_accepts p fuel : forall r blocks r', trace fuel p r = (blocks, Ok r') ->
  exists used, rbits r = used ++ bytes_bits footer_magic ++ rbits r' /\
    forall fuel2 r2 rest, length used < fuel2 -> rbits r2 = used ++ bytes_bits footer_magic ++ rest ->
      exists r2', trace fuel2 p r2 = (blocks, Ok r2') /\ rbits r2' = rest.
Proof.
  induction fuel as [|fuel IH]; intros r blocks r' E; cbn [trace] in E; [discriminate|].
  destruct (what_next r) as [[[|] r1]| | |] eqn:EW; try discriminate; apply what_next_inv in EW.
  - injection E as <- <-. exists []. split; auto. intros fuel2 r2 rest HL ER. destruct fuel2 as [|fuel2]; [lia|].
    cbn [trace]. cbn [app] in ER. destruct (what_next_footer _ ER) as (r3 & -> & ER3). eauto.
  - destruct (decode_block_data p r1) as [[[c crc] r2]| | |] eqn:EB; try discriminate.
    destruct (crc32 c =? crc)%N eqn:EC; try discriminate.
    destruct (trace fuel p r2) as [bs e] eqn:ET. injection E as <- ->.
    destruct (IH _ _ _ ET) as (u2 & U2 & RD). destruct (regular_block p) as (_ & _ & BR).
    destruct (BR _ _ _ EB) as (u1 & U1 & RB). exists (bytes_bits block_magic ++ u1 ++ u2). split.
    { rewrite EW, U1, U2, <- !app_assoc. auto. }
    intros fuel2 r3 rest HL ER. destruct fuel2 as [|fuel2]; [lia|]. cbn [trace].
    rewrite <- !app_assoc in ER. destruct (what_next_block _ ER) as (r4 & -> & ER4).
    destruct (RB r4 _ ER4) as (r5 & -> & ER5). rewrite EC.
    rewrite !app_length in HL. change (length (bytes_bits block_magic)) with 48 in HL.
    destruct (RD fuel2 r5 rest ltac:(lia) ER5) as (r6 & -> & ER6). eauto.
Qed.

(** the outcome depends on the bits left only *)
Lemma trace_outcome p fuel1 : forall fuel2 r1 r2, rbits r1 = rbits r2 -> length (rbits r1) < fuel1 ->
  length (rbits r2) < fuel2 ->
  fst (trace fuel1 p r1) = fst (trace fuel2 p r2) /\ status (snd (trace fuel1 p r1)) = status (snd (trace fuel2 p r2)).
Proof.
  induction fuel1 as [|fuel1 IH]; intros fuel2 r1 r2 E H1 H2; [lia|]. destruct fuel2 as [|fuel2]; [lia|]. cbn [trace].
  destruct regular_what_next as (W1 & _ & _). specialize (W1 r1 r2 E).
  destruct (what_next r1) as [[t1 r1']| | |] eqn:E1; destruct (what_next r2) as [[t2 r2']| | |] eqn:E2;
    cbn [outcome] in W1; try discriminate; auto.
  injection W1 as <- E'. pose proof (what_next_inv _ E1) as L1. pose proof (what_next_inv _ E2) as L2.
  apply (f_equal (@length bool)) in L1, L2. rewrite app_length, magic_length in L1, L2.
  destruct t1; auto.
  destruct (regular_block p) as (B1 & _ & B3). specialize (B1 r1' r2' E').
  destruct (decode_block_data p r1') as [[[c1 n1] r1'']| | |] eqn:F1; destruct (decode_block_data p r2') as [[[c2 n2] r2'']| | |] eqn:F2;
    cbn [outcome] in B1; try discriminate; auto.
  injection B1 as <- <- E''. destruct (crc32 c1 =? n1)%N; auto.
  destruct (B3 _ _ _ F1) as (u1 & M1 & _). destruct (B3 _ _ _ F2) as (u2 & M2 & _).
  apply (f_equal (@length bool)) in M1, M2. rewrite app_length in M1, M2.
  destruct (IH fuel2 r1'' r2'' E'' ltac:(lia) ltac:(lia)) as (A & B).
  destruct (trace fuel1 p r1''), (trace fuel2 p r2''). cbn [fst snd] in *. split; auto. congruence.
Qed.

(** the blocks of a stream made of pieces that decode *)
Lemma trace_pieces p ps bs : Forall2 (decodes p) ps bs -> forall fuel r rest,
  rbits r = concat (map (fun x => block_bits (crc32 (fst x)) (snd x)) (combine ps bs)) ++ bytes_bits footer_magic ++ rest ->
  length ps < fuel ->
  exists r', trace fuel p r = (ps, Ok r') /\ rbits r' = rest.
Proof.
  induction 1 as [|q b ps bs HD HF IH]; intros fuel r rest HR HL; (destruct fuel as [|fuel]; [lia|]); cbn [trace].
  - cbn [combine map concat app] in HR. destruct (what_next_footer _ HR) as (r' & -> & HR'). eauto.
  - cbn [combine map concat fst snd] in HR. rewrite block_bits_body, <- !app_assoc in HR.
    destruct (what_next_block _ HR) as (r1 & -> & HR1). destruct (HD r1 _ HR1) as (r2 & -> & HR2). rewrite N.eqb_refl.
    destruct (IH fuel r2 rest HR2) as (r3 & -> & HR3); [cbn [length] in HL; lia|]. eauto.
Qed.

(** ** the header *)
Lemma read_file_header_inv r r' : read_file_header r = Ok r' ->
  exists d, is_byte d /\ rbits r = bytes_bits [66; 90; 104; d] ++ rbits r'.
Proof.
  unfold read_file_header. intros E. destruct (read_bytes r 4) as [[bs r1]| | |] eqn:EB; try discriminate. cbn [bind] in E.
  apply read_bytes_inv in EB as (EB & LB & BB).
  destruct (nats_eqb (firstn 3 bs) [66; 90; 104]) eqn:E1; try discriminate. injection E as <-.
  apply nats_eqb_eq in E1. destruct bs as [|b0 [|b1 [|b2 [|b3 [|? ?]]]]]; try discriminate.
  injection E1 as -> -> ->. exists b3. split; auto. apply Forall_forall with (x := b3) in BB; auto. cbn; auto.
Qed.
Lemma read_file_header_ok d r rest : is_byte d -> rbits r = bytes_bits [66; 90; 104; d] ++ rest ->
  exists r', read_file_header r = Ok r' /\ rbits r' = rest.
Proof.
  intros Hd HR. unfold read_file_header.
  assert (bytes [66; 90; 104; d]) as HB.
  { repeat (apply Forall_cons; [first [exact Hd | unfold is_byte; lia]|]). apply Forall_nil. }
  destruct (@reads_bytes _ HB _ _ HR) as (r1 & E & HR1).
  change (length [66; 90; 104; d]) with 4 in E. rewrite E. cbn [bind firstn nats_eqb Nat.eqb andb]. eauto.
Qed.
Lemma read_file_header_halts r : read_file_header r <> NoFuel.
Proof.
  unfold read_file_header. destruct (regular_bytes 4) as (_ & H & _). specialize (H r).
  destruct (read_bytes r 4) as [[bs r']| | |]; cbn [bind]; try discriminate; [|congruence].
  destruct (nats_eqb _ _); discriminate.
Qed.

(** ** the whole stream *)
Theorem stream_trace_halts p input : snd (stream_trace p input) <> NoFuel.
Proof.
  unfold stream_trace. pose proof (@read_file_header_halts (br_from_reader input)) as H.
  destruct (read_file_header _) as [r| | |]; try discriminate; [|congruence].
  apply trace_halts. rewrite bits_left_rbits. lia.
Qed.
Theorem stream_trace_checked p input :
  exists positions, spaced 32 positions /\
    Forall2 (checksum_stored_at (bits_of input)) positions (fst (stream_trace p input)) /\
    Forall bytes (fst (stream_trace p input)).
Proof.
  unfold stream_trace. destruct (read_file_header _) as [r| | |] eqn:E;
    try (exists []; repeat split; constructor; fail).
  apply read_file_header_inv in E as (d & Hd & E). rewrite rbits_from_reader, <- bits_of_bytes in E.
  destruct (@trace_checked p (S (bits_left r)) r (bits_of input) _ E) as (pos & P1 & P2 & P3). exists pos. auto.
Qed.
Theorem stream_trace_accepts p input blocks r' : stream_trace p input = (blocks, Ok r') ->
  exists d used, is_byte d /\ bytes_bits input = bytes_bits [66; 90; 104; d] ++ used ++ bytes_bits footer_magic ++ rbits r' /\
    forall d2 input2 rest, is_byte d2 -> bytes_bits input2 = bytes_bits [66; 90; 104; d2] ++ used ++ bytes_bits footer_magic ++ rest ->
      exists r2', stream_trace p input2 = (blocks, Ok r2') /\ rbits r2' = rest.
Proof.
  unfold stream_trace. destruct (read_file_header (br_from_reader input)) as [r| | |] eqn:E; try discriminate. intros ET.
  apply read_file_header_inv in E as (d & Hd & E). rewrite rbits_from_reader in E.
  destruct (@trace_accepts _ _ _ _ _ ET) as (used & U & RD). exists d, used. split; auto. split; [rewrite E, U; auto|].
  intros d2 input2 rest Hd2 E2. rewrite <- rbits_from_reader in E2.
  destruct (@read_file_header_ok _ _ _ Hd2 E2) as (r2 & -> & ER2). apply RD; auto.
  rewrite bits_left_rbits, ER2, app_length. lia.
Qed.
Lemma read_bytes_no_panic n : forall r, read_bytes r n <> Panic.
Proof.
  induction n as [|n IH]; intros r; cbn [read_bytes]; [discriminate|].
  destruct (read_bits_spec r 8) as [(H & ER)|(x & rest & r1 & H & HL & ER & ER1)]; rewrite ER; [discriminate|].
  cbn [bind]. rewrite convert_to_number_ok by lia. cbn [bind]. specialize (IH r1).
  destruct (read_bytes r1 n) as [[bs r2]| | |]; cbn [bind]; congruence.
Qed.

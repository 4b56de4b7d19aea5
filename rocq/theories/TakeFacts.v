(** * How much of the reader decompression takes *)
From Verif Require Import Base BaseFacts Bitwise BitwiseFacts SpecBits SpecBzip2 SpecStream Mtf Zle Bwt Rle SymbolStatistics Huffman CodeTable
  SymbolMap Selectors BlockEncoder BlockDecoder Crc32 Stream RoundTripFacts ReferenceFacts DecodeFacts.

(** the answers [taken] hold no failure *)
Definition clean (taken : list answer) : Prop := forall more, delivered (taken ++ more) = delivered taken ++ delivered more.
(** the current byte, if any, has been begun *)
Definition begun (r : bit_reader) : Prop := match br_current r with Some _ => 1 <= br_cursor r | None => True end.
Definition took (r r' : bit_reader) : Prop :=
  (exists taken, br_source r = taken ++ br_source r' /\ clean taken) /\ (begun r -> begun r').

Lemma clean_nil : clean [].
Proof. intros more. reflexivity. Qed.
Lemma clean_app a b : clean a -> clean b -> clean (a ++ b).
Proof. intros A B more. rewrite <- app_assoc, A, B, A, <- app_assoc. reflexivity. Qed.
Lemma took_refl r : took r r.
Proof. split; auto. exists []. split; auto using clean_nil. Qed.
Lemma took_trans a b c : took a b -> took b c -> took a c.
Proof.
  intros ((k1 & E1 & C1) & G1) ((k2 & E2 & C2) & G2). split; auto. exists (k1 ++ k2). split; auto using clean_app.
  rewrite E1, E2, app_assoc. reflexivity.
Qed.

Definition takes {A} (f : bit_reader -> res (A * bit_reader)) : Prop := forall r a r', f r = Ok (a, r') -> took r r'.

Lemma one_took source : forall b rest, read_exact_one source = Ok (b, rest) -> exists taken, source = taken ++ rest /\ clean taken.
Proof.
  induction source as [|[c| |] source IH]; intros b rest E; cbn [read_exact_one] in E; try discriminate.
  - injection E as -> ->. exists [AByte b]. split; auto. intros more. reflexivity.
  - destruct (IH _ _ E) as (k & -> & C). exists (AInterrupted :: k). split; [reflexivity|exact C].
Qed.
Lemma fetch_took r r' : br_fetch r = Ok r' -> (exists taken, br_source r = taken ++ br_source r' /\ clean taken).
Proof.
  unfold br_fetch. destruct (read_exact_one (br_source r)) as [[b rest]| | |] eqn:E; try discriminate.
  cbn [bind]. intros H. injection H as <-. apply one_took in E. exact E.
Qed.
Lemma takes_bit : takes read_bit.
Proof.
  assert (forall r b r', (let! r' := br_fetch r in
      match br_current r' with
      | Some b' => Ok (Nat.testbit b' (8 - br_cursor r' - 1), mk_br (br_source r') (S (br_cursor r')) (br_current r'))
      | None => Panic
      end) = Ok (b, r') -> took r r') as G.
  { intros r b r'. destruct (br_fetch r) as [r1| | |] eqn:E; try discriminate. cbn [bind].
    destruct (br_current r1) as [c|] eqn:EC; [|discriminate]. intros H. injection H as _ <-.
    split; [apply fetch_took in E; exact E|]. intros _. unfold begun. cbn [br_current br_cursor]. lia. }
  intros r b r'. unfold read_bit. destruct (br_current r) as [c|] eqn:EC; [|apply G].
  destruct (8 <=? br_cursor r); [apply G|]. intros H. injection H as _ <-. split.
  - exists []. split; auto using clean_nil.
  - unfold begun. cbn [br_current br_cursor]. destruct (Some c); lia.
Qed.

Lemma takes_bits n : takes (fun r => read_bits r n).
Proof.
  induction n as [|n IH]; intros r a r' E; cbn [read_bits] in E.
  - injection E as _ <-. apply took_refl.
  - destruct (read_bit r) as [[b r1]| | |] eqn:E1; try discriminate. cbn [bind] in E.
    destruct (read_bits r1 n) as [[bs r2]| | |] eqn:E2; try discriminate. cbn [bind] in E. injection E as _ <-.
    eapply took_trans; [eapply takes_bit; eauto|eapply IH; eauto].
Qed.
Lemma takes_bytes n : takes (fun r => read_bytes r n).
Proof.
  induction n as [|n IH]; intros r a r' E; cbn [read_bytes] in E.
  - injection E as _ <-. apply took_refl.
  - destruct (read_bits r 8) as [[b r1]| | |] eqn:E1; try discriminate. cbn [bind] in E.
    destruct (convert_to_number Checked b) as [v| | |]; try discriminate. cbn [bind] in E.
    destruct (read_bytes r1 n) as [[bs r2]| | |] eqn:E2; try discriminate. cbn [bind] in E. injection E as _ <-.
    eapply took_trans; [eapply takes_bits; eauto|eapply IH; eauto].
Qed.
Lemma takes_unwrap {A} (f : bit_reader -> res (A * bit_reader)) : takes f -> takes (fun r => unwrap (f r)).
Proof. intros H r a r' E. destruct (f r) as [[x y]| | |] eqn:E1; try discriminate. cbn [unwrap] in E. injection E as <- <-. exact (H _ _ _ E1). Qed.
Lemma takes_number n : takes (fun r => read_number r n).
Proof.
  intros r a r' E. unfold read_number in E. destruct (read_bits r n) as [[b r1]| | |] eqn:E1; try discriminate. cbn [bind unwrap] in E.
  destruct (convert_to_number Checked b); try discriminate. cbn [bind] in E. injection E as _ <-. eapply takes_bits; eauto.
Qed.
Lemma takes_unary p n : takes (fun r => read_unary p r n).
Proof.
  intros r a r'. unfold read_unary. generalize (S (bits_left r)), 0, (@nil nat). intros fuel. revert r.
  induction fuel as [|fuel IH]; intros r c o E; cbn [read_unary_loop] in E; [discriminate|].
  destruct (read_bit r) as [[b r1]| | |] eqn:E1; try discriminate. cbn [bind] in E.
  match type of E with bind ?m _ = _ => destruct m as [[c1 o1]| | |]; try discriminate end. cbn [bind] in E.
  eapply took_trans; [eapply takes_bit; eauto|].
  destruct (n <=? length o1); [injection E as _ <-; apply took_refl|]. eapply IH; eauto.
Qed.
Lemma takes_delta p n : takes (fun r => read_delta p r n).
Proof.
  intros r a r'. unfold read_delta. destruct (read_bits r 5) as [[b0 r0]| | |] eqn:E0; try discriminate. cbn [bind].
  destruct (convert_to_number p b0) as [s| | |]; try discriminate. cbn [bind]. intros E.
  eapply took_trans; [eapply takes_bits; eauto|]. clear E0 r b0. revert E.
  generalize (S (bits_left r0)), s, (@nil nat). clear s. intros fuel. revert r0.
  induction fuel as [|fuel IH]; intros r c o E; cbn [read_delta_loop] in E; [discriminate|].
  destruct (read_bit r) as [[b r1]| | |] eqn:E1; try discriminate. cbn [bind] in E.
  eapply took_trans; [eapply takes_bit; eauto|]. destruct b.
  - destruct (read_bit r1) as [[b' r2]| | |] eqn:E2; try discriminate. cbn [bind] in E.
    destruct (if b' then start_dec p c else start_inc p c) as [c2| | |]; try discriminate. cbn [bind] in E.
    eapply took_trans; [eapply takes_bit; eauto|].
    destruct (length o =? n); [injection E as _ <-; apply took_refl|]. eapply IH; eauto.
  - cbn [bind] in E.
    match type of E with (if ?c then _ else _) = _ => destruct c end; [injection E as _ <-; apply took_refl|]. eapply IH; eauto.
Qed.
Lemma takes_symbols T n : takes (fun r => read_symbols r T n).
Proof.
  intros r a r'. unfold read_symbols. generalize (S (bits_left r)), (@nil zsym), (@nil bool), 0. intros fuel. revert r.
  induction fuel as [|fuel IH]; intros r al c k E; cbn [read_symbols_loop] in E; [discriminate|].
  destruct (read_bits r 1) as [[b r1]| | |] eqn:E1; try discriminate. cbn [bind] in E.
  eapply took_trans; [eapply takes_bits; eauto|]. cbv zeta in E.
  destruct (read_from_table T (c ++ b)) as [[s|]|].
  - match type of E with (if ?c then _ else _) = _ => destruct c end; [injection E as _ <-; apply took_refl|]. eapply IH; eauto.
  - injection E as _ <-. apply took_refl.
  - match type of E with (if ?c then _ else _) = _ => destruct c end; [injection E as _ <-; apply took_refl|]. eapply IH; eauto.
Qed.
Lemma takes_trees p k n : takes (fun r => read_trees p k r n).
Proof.
  induction k as [|k IH]; intros r a r' E; cbn [read_trees] in E.
  - injection E as _ <-. apply took_refl.
  - destruct (unwrap (read_delta p r n)) as [[t r1]| | |] eqn:E1; try discriminate. cbn [bind] in E.
    destruct (read_trees p k r1 n) as [[ts r2]| | |] eqn:E2; try discriminate. cbn [bind] in E. injection E as _ <-.
    eapply took_trans; [exact (@takes_unwrap _ _ (takes_delta p n) _ _ _ E1)|eapply IH; eauto].
Qed.
Lemma takes_groups sel Ts : takes (fun r => read_groups sel Ts r).
Proof.
  induction sel as [|s sel IH]; intros r a r' E; cbn [read_groups] in E.
  - injection E as _ <-. apply took_refl.
  - destruct (get_at Ts s) as [T| | |]; try discriminate. cbn [bind] in E.
    destruct (unwrap (read_symbols r T 50)) as [[t r1]| | |] eqn:E1; try discriminate. cbn [bind] in E.
    destruct (read_groups sel Ts r1) as [[ts r2]| | |] eqn:E2; try discriminate. cbn [bind] in E. injection E as _ <-.
    eapply took_trans; [exact (@takes_unwrap _ _ (takes_symbols T 50) _ _ _ E1)|eapply IH; eauto].
Qed.
Lemma takes_symbol_table : takes read_symbol_table.
Proof.
  intros r a r' E. unfold read_symbol_table in E.
  destruct (read_bits r 16) as [[x r1]| | |] eqn:E1; try discriminate. cbn [bind] in E. cbv zeta in E.
  destruct (read_bits r1 _) as [[y r2]| | |] eqn:E2; try discriminate. cbn [bind] in E. injection E as _ <-.
  eapply took_trans; eapply takes_bits; eauto.
Qed.
Lemma takes_block p : takes (decode_block_data p).
Proof.
  intros r [c crc] r' E. unfold decode_block_data in E.
  destruct (read_number r 32) as [[v1 r1]| | |] eqn:E1; try discriminate. cbn [bind] in E.
  destruct (read_bits r1 1) as [[v2 r2]| | |] eqn:E2; try discriminate. cbn [bind] in E.
  destruct (read_number r2 24) as [[v3 r3]| | |] eqn:E3; try discriminate. cbn [bind] in E.
  destruct (unwrap (read_symbol_table r3)) as [[v4 r4]| | |] eqn:E4; try discriminate. cbn [bind] in E.
  destruct (read_number r4 3) as [[v5 r5]| | |] eqn:E5; try discriminate. cbn [bind] in E.
  destruct (read_number r5 15) as [[v6 r6]| | |] eqn:E6; try discriminate. cbn [bind] in E.
  destruct (unwrap (read_unary p r6 _)) as [[v7 r7]| | |] eqn:E7; try discriminate. cbn [bind] in E.
  destruct (inverse_mtf v7 _) as [sel| | |]; try discriminate. cbn [bind] in E.
  destruct (read_trees p _ r7 _) as [[v8 r8]| | |] eqn:E8; try discriminate. cbn [bind] in E.
  destruct (map_res _ v8) as [Ts| | |]; try discriminate. cbn [bind] in E.
  destruct (read_groups sel Ts r8) as [[v9 r9]| | |] eqn:E9; try discriminate. cbn [bind] in E.
  destruct (decode_zle v9) as [z| | |]; try discriminate. cbn [bind] in E.
  destruct (inverse_mtf z v4) as [b| | |]; try discriminate. cbn [bind] in E.
  destruct (inverse_bwt b _) as [l| | |]; try discriminate. cbn [bind] in E. injection E as _ _ <-.
  eapply took_trans; [eapply takes_number; eauto|]. eapply took_trans; [eapply takes_bits; eauto|].
  eapply took_trans; [eapply takes_number; eauto|]. eapply took_trans; [exact (@takes_unwrap _ _ takes_symbol_table _ _ _ E4)|].
  eapply took_trans; [eapply takes_number; eauto|]. eapply took_trans; [eapply takes_number; eauto|].
  eapply took_trans; [exact (@takes_unwrap _ _ (takes_unary p _) _ _ _ E7)|]. eapply took_trans; [eapply takes_trees; eauto|].
  eapply takes_groups; eauto.
Qed.
Lemma takes_next : takes what_next.
Proof.
  intros r a r' E. unfold what_next in E. destruct (read_bytes r 6) as [[bs r1]| | |] eqn:E1; try discriminate. cbn [bind] in E.
  destruct (nats_eqb bs block_magic); [|destruct (nats_eqb bs footer_magic); [|discriminate]]; injection E as _ <-; eapply takes_bytes; eauto.
Qed.
Lemma takes_header r r' : read_file_header r = Ok r' -> took r r'.
Proof.
  intros E. unfold read_file_header in E. destruct (read_bytes r 4) as [[bs r1]| | |] eqn:E1; try discriminate. cbn [bind] in E.
  destruct (nats_eqb _ _); [|discriminate]. injection E as <-. eapply takes_bytes; eauto.
Qed.
Lemma takes_trace p fuel : forall r bs r', trace fuel p r = (bs, Ok r') -> took r r'.
Proof.
  induction fuel as [|fuel IH]; intros r bs r' E; cbn [trace] in E; [discriminate|].
  destruct (what_next r) as [[[|] r1]| | |] eqn:E1; try discriminate.
  - injection E as _ <-. eapply takes_next; eauto.
  - destruct (decode_block_data p r1) as [[[c crc] r2]| | |] eqn:E2; try discriminate.
    destruct (crc32 c =? crc)%N; [|discriminate]. destruct (trace fuel p r2) as [b2 e2] eqn:E3. injection E as _ ->.
    eapply took_trans; [eapply takes_next; eauto|]. eapply took_trans; [eapply takes_block; eauto|]. eapply IH; eauto.
Qed.

(** the bits taken and those of the last byte that were not looked at *)
Lemma begun_unread r : begun r -> exists unread, rbits r = unread ++ bytes_bits (delivered (br_source r)) /\ length unread < 8.
Proof.
  intros H. unfold rbits, br_bytes. eexists. split; [reflexivity|]. unfold begun in H. destruct (br_current r); cbn [length]; [|lia].
  rewrite skipn_length, byte_bits_length. lia.
Qed.
Theorem source_trace_took p source bs r : source_trace p source = (bs, Ok r) ->
  exists taken front unread, source = taken ++ br_source r /\ delivered source = delivered taken ++ delivered (br_source r) /\
    bytes_bits (delivered taken) = front ++ bytes_bits footer_magic ++ unread /\ length unread < 8 /\
    rbits r = unread ++ bytes_bits (delivered (br_source r)).
Proof.
  unfold source_trace. destruct (read_file_header (br_from_source source)) as [r0| | |] eqn:E0; try discriminate. intros ET.
  pose proof (took_trans (takes_header _ E0) (takes_trace _ _ _ ET)) as ((taken & ES & C) & G). cbn [br_from_source br_source] in ES.
  destruct (@begun_unread r) as (unread & EU & LU). { apply G. exact I. }
  apply read_file_header_inv in E0 as (d & Hd & E0). rewrite rbits_from_source in E0.
  destruct (@trace_accepts _ _ _ _ _ ET) as (used & U & _). rewrite U in E0.
  exists taken, (bytes_bits [66; 90; 104; d] ++ used), unread. split; auto. split; [rewrite ES at 1; apply C|].
  split; [|split; auto]. rewrite ES, C, bytes_bits_app, EU in E0.
  assert (forall (x y z : list bool), x ++ z = y ++ z -> x = y) as CA by (intros x y z; apply app_inv_tail).
  apply (CA _ _ (bytes_bits (delivered (br_source r)))). rewrite E0, <- !app_assoc. reflexivity.
Qed.

(** * Facts about Bitwise.v: readers and writers refine lists of bits *)
From Verif Require Import Base BaseFacts Bitwise.

(** ** numbers *)
Definition b2n (b : bool) : N := if b then 1%N else 0%N.

(** value, most significant bit first *)
Definition bval (l : list bool) : N := fold_left (fun a b => (2 * a + b2n b)%N) l 0%N.
(** value, least significant bit first *)
Fixpoint lval (l : list bool) : N :=
  match l with [] => 0%N | b :: tl => (b2n b + 2 * lval tl)%N end.

Lemma pow2_S n : (2 ^ N.of_nat (S n) = 2 * 2 ^ N.of_nat n)%N.
Proof. rewrite Nat2N.inj_succ, N.pow_succ_r'; reflexivity. Qed.
Lemma pow2_pos n : (0 < 2 ^ N.of_nat n)%N.
Proof. apply N.neq_0_lt_0. apply N.pow_nonzero; discriminate. Qed.
Lemma pow2_mono a b : a <= b -> (2 ^ N.of_nat a <= 2 ^ N.of_nat b)%N.
Proof. intros H; apply N.pow_le_mono_r; [discriminate | lia]. Qed.

Lemma b2n_le b : (b2n b <= 1)%N.
Proof. destruct b; simpl; lia. Qed.

Lemma bval_app l1 l2 : bval (l1 ++ l2) = (bval l1 * 2 ^ N.of_nat (length l2) + bval l2)%N.
Proof.
  unfold bval. rewrite fold_left_app. generalize (fold_left (fun a b => (2 * a + b2n b)%N) l1 0%N).
  revert l1. induction l2 as [|b tl IH] using rev_ind; intros l1 v.
  - simpl. lia.
  - rewrite !fold_left_app, app_length; cbn [fold_left length].
    rewrite IH by exact l1. rewrite Nat.add_1_r, pow2_S. lia.
Qed.

Lemma bval_cons b l : bval (b :: l) = (b2n b * 2 ^ N.of_nat (length l) + bval l)%N.
Proof. change (b :: l) with ([b] ++ l). rewrite bval_app. unfold bval at 1; simpl. lia. Qed.

Lemma bval_lt l : (bval l < 2 ^ N.of_nat (length l))%N.
Proof.
  induction l as [|b tl IH]; [reflexivity|].
  rewrite bval_cons. simpl length. rewrite pow2_S.
  pose proof (b2n_le b). nia.
Qed.

Lemma bval_inj l1 l2 : length l1 = length l2 -> bval l1 = bval l2 -> l1 = l2.
Proof.
  revert l2; induction l1 as [|b tl IH]; intros [|c tl2] HL HV; simpl in *; try discriminate; auto.
  injection HL as HL. rewrite !bval_cons, HL in HV.
  pose proof (bval_lt tl) as H1; pose proof (bval_lt tl2) as H2. rewrite HL in H1.
  assert (b = c) as ->.
  { destruct b, c; unfold b2n in HV; auto; exfalso; lia. }
  f_equal; apply IH; auto. lia.
Qed.

Lemma bval_rev l : bval (rev l) = lval l.
Proof.
  induction l as [|b tl IH]; simpl; [reflexivity|].
  rewrite bval_app, IH. simpl length. change (2 ^ N.of_nat 1)%N with 2%N.
  unfold bval; simpl. lia.
Qed.

Lemma lval_app_false l k : lval (l ++ repeat false k) = lval l.
Proof.
  induction l as [|b tl IH]; simpl; [|rewrite IH; auto].
  induction k as [|k IHk]; simpl; auto. rewrite IHk; reflexivity.
Qed.

Lemma lval_pos_bits q : lval (pos_bits q) = Npos q.
Proof. induction q as [q IH|q IH|]; simpl; rewrite ?IH; reflexivity. Qed.
Lemma lval_low_bits v : lval (low_bits v) = v.
Proof. destruct v; [reflexivity | apply lval_pos_bits]. Qed.

Lemma pos_bits_size q : length (pos_bits q) = Pos.size_nat q.
Proof. induction q; simpl; auto. Qed.
Lemma low_bits_size v : length (low_bits v) = N.size_nat v.
Proof. destruct v; [reflexivity | apply pos_bits_size]. Qed.

Lemma pos_bits_last q : exists l, pos_bits q = l ++ [true].
Proof.
  induction q as [q [l IH]|q [l IH]|]; simpl.
  - exists (true :: l); rewrite IH; reflexivity.
  - exists (false :: l); rewrite IH; reflexivity.
  - exists []; reflexivity.
Qed.

Lemma lval_app l1 l2 : lval (l1 ++ l2) = (lval l1 + 2 ^ N.of_nat (length l1) * lval l2)%N.
Proof.
  induction l1 as [|b tl IH]; simpl lval; simpl length; [simpl; lia|].
  simpl app. simpl lval. rewrite IH, pow2_S. lia.
Qed.

Lemma size_lt v n : (v < 2 ^ N.of_nat n)%N -> length (low_bits v) <= n.
Proof.
  intros H. destruct v as [|q]; simpl; [lia|].
  destruct (pos_bits_last q) as (l & E).
  pose proof (lval_pos_bits q) as HV. rewrite E in *. rewrite app_length; simpl.
  rewrite lval_app in HV. simpl in HV.
  destruct (le_lt_dec n (length l)) as [Hle|]; [|lia].
  apply pow2_mono in Hle. lia.
Qed.

Lemma size_ge v n : (2 ^ N.of_nat n <= v)%N -> n < length (low_bits v).
Proof.
  intros H. destruct (le_lt_dec (length (low_bits v)) n) as [Hle|]; auto.
  exfalso. pose proof (bval_lt (rev (low_bits v))) as HB.
  rewrite bval_rev, lval_low_bits, rev_length in HB. apply pow2_mono in Hle. lia.
Qed.

Lemma pad_n_value v n : bval (convert_to_code_pad_to_n_bits v n) = v.
Proof.
  unfold convert_to_code_pad_to_n_bits.
  rewrite bval_rev, lval_app_false, lval_low_bits; reflexivity.
Qed.
Lemma pad_n_length v n : (v < 2 ^ N.of_nat n)%N ->
  length (convert_to_code_pad_to_n_bits v n) = n.
Proof.
  intros H. unfold convert_to_code_pad_to_n_bits.
  rewrite rev_length, app_length, repeat_length. apply size_lt in H. lia.
Qed.
Lemma pad_n_bval l : convert_to_code_pad_to_n_bits (bval l) (length l) = l.
Proof.
  apply bval_inj; [apply pad_n_length, bval_lt | apply pad_n_value].
Qed.

Lemma pad15_ok v : (v < 32768)%N -> convert_to_code_pad_to_15_bits v =
  Ok (convert_to_code_pad_to_n_bits v 15).
Proof.
  intros H. unfold convert_to_code_pad_to_15_bits, convert_to_code_pad_to_n_bits.
  assert (length (low_bits v) <= 15) as HL by (apply size_lt; exact H).
  apply Nat.leb_le in HL; rewrite HL; reflexivity.
Qed.

Lemma pad_byte_n b : convert_to_code_pad_to_byte b = convert_to_code_pad_to_n_bits (N.of_nat b) 8.
Proof. reflexivity. Qed.

(** [convert_to_number] is the value as long as at most 64 bits are read, in both
    profiles *)
Lemma ctn_fold p l v : (v * 2 ^ N.of_nat (length l) + bval l < two64)%N ->
  fold_res (ctn_step p) l v = Ok (v * 2 ^ N.of_nat (length l) + bval l)%N.
Proof.
  revert v; induction l as [|b tl IH]; intros v H.
  - simpl. f_equal. unfold bval; simpl. lia.
  - rewrite bval_cons in *. simpl length in *. rewrite pow2_S in *.
    cbn [fold_res]. unfold ctn_step at 1.
    pose proof (pow2_pos (length tl)) as HP.
    assert (v * 2 < two64)%N as Hlt by (pose proof (N.le_0_l (bval tl)); nia).
    apply N.leb_gt in Hlt. rewrite Hlt. cbn [bind].
    replace (if b then v * 2 + 1 else v * 2)%N with (v * 2 + b2n b)%N
      by (destruct b; simpl; lia).
    rewrite IH; [f_equal; lia | lia].
Qed.

Lemma convert_to_number_ok p l : length l <= 64 -> convert_to_number p l = Ok (bval l).
Proof.
  intros H. unfold convert_to_number. rewrite ctn_fold; [simpl; reflexivity|].
  simpl. pose proof (bval_lt l) as HB. apply pow2_mono in H.
  change (2 ^ N.of_nat 64)%N with two64 in H. lia.
Qed.

Lemma increment_ok p l : length l < 64 ->
  increment_symbol p l = Ok (convert_to_code_pad_to_n_bits (bval l + 1) (length l)).
Proof.
  intros H. unfold increment_symbol. rewrite convert_to_number_ok by lia. cbn [bind].
  pose proof (bval_lt l) as HB. assert (length l <= 63) as H63 by lia.
  apply pow2_mono in H63. change (2 ^ N.of_nat 63)%N with two63 in H63.
  replace (bval l + 1 =? two64)%N with false; [reflexivity|].
  symmetry; apply N.eqb_neq. unfold two64, two63 in *. lia.
Qed.

(** ** bytes *)
Definition byte_bits (b : nat) : list bool :=
  map (fun i => Nat.testbit b (8 - i - 1)) (seq 0 8).

Lemma byte_bits_length b : length (byte_bits b) = 8.
Proof. reflexivity. Qed.

Fixpoint bools_eqb (a b : list bool) : bool :=
  match a, b with
  | [], [] => true
  | x :: ta, y :: tb => Bool.eqb x y && bools_eqb ta tb
  | _, _ => false
  end.
Lemma bools_eqb_eq a b : bools_eqb a b = true -> a = b.
Proof.
  revert b; induction a as [|x ta IH]; intros [|y tb] H; simpl in *; try discriminate; auto.
  apply andb_true_iff in H as [H1 H2]. apply eqb_prop in H1 as ->. f_equal; auto.
Qed.

Lemma pad_byte_bits b : b < 256 -> convert_to_code_pad_to_byte b = byte_bits b.
Proof.
  intros H.
  assert (forallb (fun b => bools_eqb (convert_to_code_pad_to_byte b) (byte_bits b)) (seq 0 256)
          = true) as HF by (vm_compute; reflexivity).
  rewrite forallb_forall in HF. apply bools_eqb_eq, HF. apply in_seq; lia.
Qed.

Lemma byte_of_bits_8 b0 b1 b2 b3 b4 b5 b6 b7 :
  byte_bits (byte_of_bits [b0; b1; b2; b3; b4; b5; b6; b7]) = [b0; b1; b2; b3; b4; b5; b6; b7].
Proof. destruct b0, b1, b2, b3, b4, b5, b6, b7; reflexivity. Qed.

Lemma bits8 (l : list bool) : length l = 8 ->
  exists b0 b1 b2 b3 b4 b5 b6 b7, l = [b0; b1; b2; b3; b4; b5; b6; b7].
Proof.
  intros H. destruct l as [|b0 [|b1 [|b2 [|b3 [|b4 [|b5 [|b6 [|b7 [|? ?]]]]]]]]]; try discriminate.
  repeat eexists.
Qed.

Lemma byte_of_bits_bits l : length l = 8 -> byte_bits (byte_of_bits l) = l.
Proof.
  intros H; destruct (bits8 l H) as (? & ? & ? & ? & ? & ? & ? & ? & ->). apply byte_of_bits_8.
Qed.

Lemma byte_of_bits_lt l : byte_of_bits l < 256.
Proof.
  unfold byte_of_bits. destruct (convert_to_number Wrapping l) as [v| | |]; try lia.
  assert (v mod 256 < 256)%N by (apply N.mod_lt; discriminate). lia.
Qed.

Definition bytes_bits (l : list nat) : list bool := flat_map byte_bits l.
Lemma bytes_bits_app a b : bytes_bits (a ++ b) = bytes_bits a ++ bytes_bits b.
Proof. apply flat_map_app. Qed.
Lemma bytes_bits_length l : length (bytes_bits l) = 8 * length l.
Proof.
  induction l as [|x tl IH]; [reflexivity|].
  change (bytes_bits (x :: tl)) with (byte_bits x ++ bytes_bits tl).
  rewrite app_length, IH, byte_bits_length. simpl length. lia.
Qed.
Lemma pad_bytes_bits l : bytes l -> flat_map convert_to_code_pad_to_byte l = bytes_bits l.
Proof.
  induction l as [|x tl IH]; intros H; [reflexivity|].
  inversion H; subst. cbn [flat_map bytes_bits]. rewrite pad_byte_bits by auto.
  rewrite IH by auto. reflexivity.
Qed.

Lemma byte_bits_val b : b < 256 -> bval (byte_bits b) = N.of_nat b.
Proof. intros H. rewrite <- pad_byte_bits by auto. rewrite pad_byte_n. apply pad_n_value. Qed.

Lemma byte_bits_inj a b : a < 256 -> b < 256 -> byte_bits a = byte_bits b -> a = b.
Proof.
  intros Ha Hb E. apply (f_equal bval) in E. rewrite !byte_bits_val in E by auto. lia.
Qed.

Lemma bytes_bits_inj a b : bytes a -> bytes b -> bytes_bits a = bytes_bits b -> a = b.
Proof.
  revert b; induction a as [|x ta IH]; intros [|y tb] Ha Hb E; auto; try discriminate.
  inversion Ha; inversion Hb; subst.
  change (byte_bits x ++ bytes_bits ta = byte_bits y ++ bytes_bits tb) in E.
  assert (byte_bits x = byte_bits y /\ bytes_bits ta = bytes_bits tb) as [E1 E2].
  { apply (f_equal (firstn 8)) in E as E1. apply (f_equal (skipn 8)) in E as E2.
    split; [exact E1 | exact E2]. }
  f_equal; [apply byte_bits_inj; auto | apply IH; auto].
Qed.

(** ** reader *)
Definition rbits (r : bit_reader) : list bool :=
  match br_current r with
  | Some b => skipn (br_cursor r) (byte_bits b)
  | None => []
  end ++ bytes_bits (br_bytes r).

Lemma delivered_bytes bs : delivered (map AByte bs) = bs.
Proof. induction bs as [|b bs IH]; [reflexivity|]. cbn [map delivered]. rewrite IH. auto. Qed.
Lemma rbits_from_source src : rbits (br_from_source src) = bytes_bits (delivered src).
Proof. reflexivity. Qed.
Lemma rbits_from_reader bs : rbits (br_from_reader bs) = bytes_bits bs.
Proof. unfold br_from_reader. rewrite rbits_from_source, delivered_bytes. auto. Qed.
Lemma read_exact_one_spec src :
  match delivered src with
  | [] => read_exact_one src = Err
  | b :: tl => exists rest, read_exact_one src = Ok (b, rest) /\ delivered rest = tl
  end.
Proof. induction src as [|[b| |] src IH]; cbn [delivered read_exact_one]; eauto. Qed.

Lemma bits_left_rbits r : bits_left r = length (rbits r).
Proof.
  unfold bits_left, rbits. rewrite app_length, bytes_bits_length.
  destruct (br_current r); rewrite ?skipn_length, ?byte_bits_length; simpl; lia.
Qed.

Lemma skipn_byte_bits b c : c < 8 ->
  skipn c (byte_bits b) = Nat.testbit b (8 - c - 1) :: skipn (S c) (byte_bits b).
Proof.
  intros H. unfold byte_bits.
  do 8 (destruct c as [|c]; [reflexivity|]). lia.
Qed.

Lemma fetch_spec r :
  match br_bytes r with
  | [] => br_fetch r = Err
  | x :: tl => exists src, br_fetch r = Ok (mk_br src 0 (Some x)) /\ delivered src = tl
  end.
Proof.
  unfold br_bytes, br_fetch. pose proof (read_exact_one_spec (br_source r)) as H.
  destruct (delivered (br_source r)) as [|x tl]; [rewrite H; reflexivity|]. destruct H as (src & -> & H). exists src. split; auto.
Qed.
Lemma read_bit_cons r b rest : rbits r = b :: rest ->
  exists r', read_bit r = Ok (b, r') /\ rbits r' = rest.
Proof.
  intros E.
  assert (forall bs, br_bytes r = bs -> bytes_bits bs = b :: rest -> exists r', (let! r' := br_fetch r in
      match br_current r' with
      | Some b' => Ok (Nat.testbit b' (8 - br_cursor r' - 1), mk_br (br_source r') (S (br_cursor r')) (br_current r'))
      | None => Panic
      end) = Ok (b, r') /\ rbits r' = rest) as G.
  { intros bs HB EB. pose proof (fetch_spec r) as HF. rewrite HB in HF. destruct bs as [|x tl]; [discriminate|].
    destruct HF as (src & -> & HD). cbn [bind br_current br_cursor br_source].
    change (bytes_bits (x :: tl)) with (byte_bits x ++ bytes_bits tl) in EB.
    change (byte_bits x) with (skipn 0 (byte_bits x)) in EB. rewrite skipn_byte_bits in EB by lia. cbn [app] in EB.
    injection EB as E1 E2. eexists. split; [rewrite <- E1; reflexivity|].
    unfold rbits. cbn [br_current br_cursor]. unfold br_bytes. cbn [br_source]. rewrite HD. exact E2. }
  unfold rbits in E. unfold read_bit. destruct (br_current r) as [cur|] eqn:EC.
  - destruct (Nat.leb_spec 8 (br_cursor r)) as [Hc|Hc].
    + rewrite skipn_all2 in E by (rewrite byte_bits_length; lia). eapply G; [reflexivity|exact E].
    + rewrite skipn_byte_bits in E by auto. cbn [app] in E. injection E as E1 E2.
      eexists. split; [rewrite <- E1; reflexivity|]. unfold rbits. cbn [br_current br_cursor]. exact E2.
  - eapply G; [reflexivity|exact E].
Qed.

Lemma read_bit_nil r : rbits r = [] -> read_bit r = Err.
Proof.
  unfold rbits, read_bit. intros E. apply app_eq_nil in E as [E1 E2].
  pose proof (fetch_spec r) as HF. destruct (br_bytes r) as [|x tl]; [|discriminate].
  destruct (br_current r) as [cur|].
  - destruct (Nat.leb_spec 8 (br_cursor r)) as [Hc|Hc]; [rewrite HF; reflexivity|].
    rewrite skipn_byte_bits in E1 by auto; discriminate.
  - rewrite HF. reflexivity.
Qed.

(** reading fails or succeeds according to the remaining bits only *)
Lemma read_bit_spec r :
  match rbits r with
  | [] => read_bit r = Err
  | b :: rest => exists r', read_bit r = Ok (b, r') /\ rbits r' = rest
  end.
Proof.
  destruct (rbits r) as [|b rest] eqn:E; [apply read_bit_nil | apply read_bit_cons]; auto.
Qed.

(** [reads f bs a]: whenever the remaining bits start with [bs], [f] returns [a]
    and consumes exactly [bs]. *)
Definition reads {A} (f : bit_reader -> res (A * bit_reader)) (bs : list bool) (a : A) : Prop :=
  forall r rest, rbits r = bs ++ rest -> exists r', f r = Ok (a, r') /\ rbits r' = rest.

Lemma reads_bind {A B} (f : bit_reader -> res (A * bit_reader))
  (g : A -> bit_reader -> res (B * bit_reader)) b1 b2 a b :
  reads f b1 a -> reads (g a) b2 b ->
  reads (fun r => let! (x, r) := f r in g x r) (b1 ++ b2) b.
Proof.
  intros Hf Hg r rest E. rewrite <- app_assoc in E.
  destruct (Hf r _ E) as (r1 & -> & E1); simpl.
  destruct (Hg r1 _ E1) as (r2 & -> & E2); eauto.
Qed.

Lemma reads_ret {A} (a : A) : reads (fun r => Ok (a, r)) [] a.
Proof. intros r rest E; eauto. Qed.

Lemma reads_bit b : reads read_bit [b] b.
Proof. intros r rest E; apply read_bit_cons; exact E. Qed.

Lemma reads_unwrap {A} (f : bit_reader -> res (A * bit_reader)) bs a :
  reads f bs a -> reads (fun r => unwrap (f r)) bs a.
Proof. intros H r rest E. destruct (H r rest E) as (r' & -> & E'). simpl; eauto. Qed.

Lemma reads_ext {A} (f g : bit_reader -> res (A * bit_reader)) bs a :
  (forall r, f r = g r) -> reads f bs a -> reads g bs a.
Proof. intros Hfg H r rest E. rewrite <- Hfg; auto. Qed.

Lemma reads_bits n bs : length bs = n -> reads (fun r => read_bits r n) bs bs.
Proof.
  revert bs; induction n as [|n IH]; intros [|b bs] H; try discriminate.
  - apply reads_ret.
  - cbn [read_bits]. change (b :: bs) with ([b] ++ bs) at 1.
    apply (reads_bind (f := read_bit)
             (fun b r => let! (bs, r'') := read_bits r n in Ok (b :: bs, r'')) (a := b)).
    + apply reads_bit.
    + rewrite <- (app_nil_r bs) at 1.
      apply (reads_bind (f := fun r => read_bits r n) (fun bs r => Ok (b :: bs, r)) (a := bs)).
      * apply IH; auto.
      * apply reads_ret.
Qed.

Lemma read_bits_short r n : length (rbits r) < n -> read_bits r n = Err.
Proof.
  revert r; induction n as [|n IH]; intros r H; [lia|]. cbn [read_bits].
  pose proof (read_bit_spec r) as HS. destruct (rbits r) as [|b rest] eqn:E.
  - rewrite HS; reflexivity.
  - destruct HS as (r' & -> & E'); simpl. rewrite IH; [reflexivity|].
    rewrite E'; simpl in H; lia.
Qed.

Lemma read_bits_spec r n :
  (length (rbits r) < n /\ read_bits r n = Err) \/
  (exists bs rest r', rbits r = bs ++ rest /\ length bs = n /\
     read_bits r n = Ok (bs, r') /\ rbits r' = rest).
Proof.
  destruct (le_lt_dec n (length (rbits r))) as [H|H]; [right | left; split; auto using read_bits_short].
  exists (firstn n (rbits r)), (skipn n (rbits r)).
  assert (length (firstn n (rbits r)) = n) as HL by (rewrite firstn_length; lia).
  destruct (reads_bits _ HL r (skipn n (rbits r))) as (r' & E1 & E2).
  { symmetry; apply firstn_skipn. }
  exists r'. rewrite firstn_skipn. auto.
Qed.

Lemma reads_bytes bs : bytes bs -> reads (fun r => read_bytes r (length bs)) (bytes_bits bs) bs.
Proof.
  induction bs as [|b tl IH]; intros H; [apply reads_ret|].
  inversion H; subst. cbn [length read_bytes].
  change (bytes_bits (b :: tl)) with (byte_bits b ++ bytes_bits tl).
  intros r rest E. rewrite <- app_assoc in E.
  destruct (reads_bits _ (byte_bits_length b) r _ E) as (r1 & -> & E1). cbn [bind].
  rewrite convert_to_number_ok by (rewrite byte_bits_length; lia). cbn [bind].
  rewrite byte_bits_val by auto.
  destruct (IH ltac:(auto) r1 rest E1) as (r2 & -> & E2). cbn [bind].
  rewrite Nat2N.id. eauto.
Qed.

(** ** writer *)
Definition perfect (w : writer) : Prop := w_script w = [].

(** the bits handed over so far *)
Definition wbits (bw : bit_writer) : list bool := bytes_bits (w_out (bw_sink bw)) ++ bw_pending bw.

Lemma write_chunks_perfect l w : perfect w ->
  exists rem w', write_chunks l w = (Ok rem, w') /\ perfect w' /\ length rem < 8 /\
    bytes_bits (w_out w') ++ rem = bytes_bits (w_out w) ++ l /\
    (exists out, w_out w' = w_out w ++ out /\ bytes out).
Proof.
  remember (length l) as n eqn:Hn. revert l w Hn.
  induction n as [n IH] using lt_wf_ind; intros l w Hn Hp.
  destruct l as [|b0 [|b1 [|b2 [|b3 [|b4 [|b5 [|b6 [|b7 rest]]]]]]]];
    try (simpl write_chunks; eexists; exists w; split; [reflexivity|];
         split; [exact Hp|]; split; [simpl; lia|]; split; [reflexivity|];
         exists []; split; [rewrite app_nil_r; reflexivity | constructor]).
  cbn [write_chunks].
  unfold w_write at 1. rewrite Hp.
  destruct (IH (length rest)) with (l := rest)
    (w := mk_writer [] (w_out w ++ [byte_of_bits [b0; b1; b2; b3; b4; b5; b6; b7]]))
    as (rem & w' & E & Hp' & HL & HB & (out & Ho & Hby)); try reflexivity.
  { subst n; simpl; lia. }
  exists rem, w'. split; [exact E|]. split; [exact Hp'|]. split; [exact HL|]. split.
  - rewrite HB. simpl w_out. rewrite bytes_bits_app, <- app_assoc. f_equal.
    change (bytes_bits [byte_of_bits [b0; b1; b2; b3; b4; b5; b6; b7]])
      with (byte_bits (byte_of_bits [b0; b1; b2; b3; b4; b5; b6; b7]) ++ []).
    rewrite byte_of_bits_8. reflexivity.
  - exists ([byte_of_bits [b0; b1; b2; b3; b4; b5; b6; b7]] ++ out). split.
    + rewrite Ho. simpl w_out. rewrite <- app_assoc; reflexivity.
    + constructor; auto. apply byte_of_bits_lt.
Qed.

(** a bit writer over a sink that accepts everything *)
Definition bw_ok (bw : bit_writer) : Prop := perfect (bw_sink bw) /\ length (bw_pending bw) < 8.

Lemma write_bits_ok bw bits : bw_ok bw -> bytes (w_out (bw_sink bw)) ->
  exists bw', write_bits bw bits = (Ok tt, bw') /\ bw_ok bw' /\ wbits bw' = wbits bw ++ bits /\
    bytes (w_out (bw_sink bw')).
Proof.
  intros [Hp HL] Hby. unfold write_bits.
  destruct (write_chunks_perfect (bw_pending bw ++ bits) Hp)
    as (rem & w' & -> & Hp' & HL' & HB & (out & Ho & Hb)).
  eexists; split; [reflexivity|]. split; [split; auto|]. split.
  - unfold wbits; simpl. rewrite HB, app_assoc; reflexivity.
  - simpl. rewrite Ho. apply Forall_app; auto.
Qed.

Lemma finalize_ok bw : bw_ok bw -> bytes (w_out (bw_sink bw)) ->
  exists bw' pad, bw_finalize bw = (Ok tt, bw') /\ pad < 8 /\
    bytes_bits (w_out (bw_sink bw')) = wbits bw ++ repeat false pad /\
    bytes (w_out (bw_sink bw')).
Proof.
  intros [Hp HL] Hby. unfold bw_finalize.
  destruct (bw_pending bw) as [|b tl] eqn:E.
  - exists bw, 0. split; [reflexivity|]; split; [lia|]; split; auto. unfold wbits; rewrite E, !app_nil_r; reflexivity.
  - unfold w_write. rewrite Hp. eexists; exists (8 - length (b :: tl)); split; [reflexivity|].
    split; [cbn [length]; lia|]. split.
    + cbn [bw_sink w_out]. rewrite bytes_bits_app. unfold wbits; rewrite E, <- app_assoc. f_equal.
      unfold bytes_bits. cbn [flat_map]. rewrite app_nil_r.
      apply byte_of_bits_bits. rewrite app_length, repeat_length. cbn [length] in *; lia.
    + cbn [bw_sink w_out]. apply Forall_app; split; auto. constructor; [apply byte_of_bits_lt | auto].
Qed.

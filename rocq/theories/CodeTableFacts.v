(** * Facts about CodeTable.v: length tables round trip *)
From Verif Require Import Base BaseFacts Bitwise BitwiseFacts CodeTable.

Definition dbits (ds : list delta_symbol) : list bool := flat_map delta_bits ds.
Lemma dbits_app a b : dbits (a ++ b) = dbits a ++ dbits b.
Proof. apply flat_map_app. Qed.

Lemma start_inc_ok p v : (v + 1 < two64)%N -> start_inc p v = Ok (v + 1)%N.
Proof.
  intros H. unfold start_inc.
  replace (v + 1 =? two64)%N with false by (symmetry; apply N.eqb_neq; lia). reflexivity.
Qed.
Lemma start_dec_ok p v : (0 < v)%N -> start_dec p v = Ok (v - 1)%N.
Proof.
  intros H. unfold start_dec.
  replace (v =? 0)%N with false by (symmetry; apply N.eqb_neq; lia). reflexivity.
Qed.

Lemma delta_inc_loop p k r amount start out rest :
  rbits r = dbits (repeat Increase k) ++ rest -> length out <> amount ->
  (N.of_nat (start + k) < two64)%N ->
  exists r', rbits r' = rest /\ forall fuel,
    read_delta_loop p (k + fuel) r amount (N.of_nat start) out =
    read_delta_loop p fuel r' amount (N.of_nat (start + k)) out.
Proof.
  revert r start; induction k as [|k IH]; intros r start E Hout Hb.
  - exists r; simpl in *. rewrite Nat.add_0_r. auto.
  - cbn [repeat] in E. change (dbits (Increase :: repeat Increase k)) with
      (true :: false :: dbits (repeat Increase k)) in E. cbn [app] in E.
    destruct (read_bit_cons _ E) as (r1 & E1 & H1).
    destruct (read_bit_cons _ H1) as (r2 & E2 & H2).
    destruct (IH r2 (S start) H2 Hout) as (r' & Hr' & E'); [lia|].
    exists r'; split; auto. intros fuel.
    cbn [Nat.add read_delta_loop]. rewrite E1. cbn [bind]. rewrite E2. cbn [bind].
    rewrite start_inc_ok by lia. cbn [bind].
    apply Nat.eqb_neq in Hout. rewrite Hout.
    replace (N.of_nat start + 1)%N with (N.of_nat (S start)) by lia.
    rewrite E'. f_equal. lia.
Qed.

Lemma delta_dec_loop p k r amount start out rest :
  rbits r = dbits (repeat Decrease k) ++ rest -> length out <> amount -> k <= start ->
  exists r', rbits r' = rest /\ forall fuel,
    read_delta_loop p (k + fuel) r amount (N.of_nat start) out =
    read_delta_loop p fuel r' amount (N.of_nat (start - k)) out.
Proof.
  revert r start; induction k as [|k IH]; intros r start E Hout Hb.
  - exists r; simpl in *. rewrite Nat.sub_0_r. auto.
  - cbn [repeat] in E. change (dbits (Decrease :: repeat Decrease k)) with
      (true :: true :: dbits (repeat Decrease k)) in E. cbn [app] in E.
    destruct (read_bit_cons _ E) as (r1 & E1 & H1).
    destruct (read_bit_cons _ H1) as (r2 & E2 & H2).
    destruct (IH r2 (start - 1) H2 Hout) as (r' & Hr' & E'); [lia|].
    exists r'; split; auto. intros fuel.
    cbn [Nat.add read_delta_loop]. rewrite E1. cbn [bind]. rewrite E2. cbn [bind].
    rewrite start_dec_ok by lia. cbn [bind].
    apply Nat.eqb_neq in Hout. rewrite Hout.
    replace (N.of_nat start - 1)%N with (N.of_nat (start - 1)) by lia.
    rewrite E'. f_equal. lia.
Qed.

Lemma dbits_repeat_length d k : length (delta_bits d) = 2 -> length (dbits (repeat d k)) = 2 * k.
Proof.
  intros H. induction k as [|k IH]; [reflexivity|].
  cbn [repeat]. change (dbits (d :: repeat d k)) with (delta_bits d ++ dbits (repeat d k)).
  rewrite app_length, IH, H. lia.
Qed.

(** one table entry *)
Lemma delta_step_read p cur next r amount out rest :
  rbits r = dbits (delta_step cur next) ++ rest -> length out < amount ->
  cur < 256 -> next < 256 ->
  exists r' k, rbits r' = rest /\ k <= length (dbits (delta_step cur next)) /\ forall fuel,
    read_delta_loop p (k + fuel) r amount (N.of_nat cur) out =
    (if length (out ++ [next]) =? amount then Ok (out ++ [next], r')
     else read_delta_loop p fuel r' amount (N.of_nat next) (out ++ [next])).
Proof.
  intros E Hout Hc Hn.
  (* the changes, then a stop *)
  assert (exists r1 k, rbits r1 = [false] ++ rest /\ S k <= length (dbits (delta_step cur next)) /\
    forall f, read_delta_loop p (k + f) r amount (N.of_nat cur) out =
              read_delta_loop p f r1 amount (N.of_nat next) out) as (r1 & k & H1 & Hk & HL).
  { unfold delta_step in *. rewrite dbits_app, <- app_assoc in E. rewrite dbits_app, app_length in *.
    change (dbits [Stop]) with [false] in *. cbn [length] in *.
    destruct (Nat.compare_spec cur next) as [H|H|H].
    - subst next. exists r, 0. cbn in E. split; [exact E|]. split; [simpl; lia|]. reflexivity.
    - destruct (@delta_inc_loop p (next - cur) r amount cur out ([false] ++ rest) E) as (r1 & H1 & HL).
      { lia. } { unfold two64; lia. }
      exists r1, (next - cur). split; auto.
      rewrite (@dbits_repeat_length Increase) in * by reflexivity. split; [lia|].
      intros f. rewrite HL. do 2 f_equal. lia.
    - destruct (@delta_dec_loop p (cur - next) r amount cur out ([false] ++ rest) E) as (r1 & H1 & HL).
      { lia. } { lia. }
      exists r1, (cur - next). split; auto.
      rewrite (@dbits_repeat_length Decrease) in * by reflexivity. split; [lia|].
      intros f. rewrite HL. do 2 f_equal. lia. }
  destruct (read_bit_cons _ H1) as (r2 & E2 & H2).
  exists r2, (S k). split; auto. split; auto. intros fuel.
  replace (S k + fuel) with (k + S fuel) by lia. rewrite HL.
  cbn [read_delta_loop]. rewrite E2. cbn [bind].
  rewrite N.mod_small by lia. rewrite Nat2N.id. reflexivity.
Qed.

Lemma delta_loop_read p ls cur fuel r amount out rest :
  rbits r = dbits (delta_loop cur ls) ++ rest -> ls <> [] -> length out + length ls = amount ->
  cur < 256 -> Forall (fun l => l < 256) ls -> length (dbits (delta_loop cur ls)) < fuel ->
  exists r', rbits r' = rest /\
    read_delta_loop p fuel r amount (N.of_nat cur) out = Ok (out ++ ls, r').
Proof.
  revert cur fuel r out; induction ls as [|l tl IH]; intros cur fuel r out E Hne HL Hc HF Hfuel;
    [congruence|].
  inversion HF; subst. cbn [delta_loop length] in *. rewrite dbits_app in *.
  rewrite <- app_assoc in E. rewrite app_length in Hfuel.
  destruct (@delta_step_read p cur l r (length out + S (length tl)) out _ E) as (r1 & k & H1' & Hk & HE);
    auto; [lia|].
  replace fuel with (k + (fuel - k)) by lia. rewrite HE. clear HE.
  rewrite app_length. cbn [length].
  destruct tl as [|l2 tl].
  - cbn [length]. rewrite Nat.eqb_refl. exists r1. split; auto.
  - replace (length out + 1 =? length out + S (length (l2 :: tl))) with false
      by (symmetry; apply Nat.eqb_neq; cbn [length]; lia).
    destruct (IH l (fuel - k) r1 (out ++ [l])) as (r' & Hr' & E'); auto.
    + congruence.
    + rewrite app_length; cbn [length]; lia.
    + lia.
    + exists r'; split; auto. rewrite E', <- app_assoc. reflexivity.
Qed.

Lemma delta_loop_self v tl : Stop :: delta_loop v tl = delta_loop v (v :: tl).
Proof. cbn [delta_loop]. unfold delta_step. rewrite Nat.compare_refl. reflexivity. Qed.

Lemma reads_delta p ls : ls <> [] -> Forall (fun l => l < 32) ls ->
  reads (fun r => read_delta p r (length ls)) (encode_bit_lengths ls) ls.
Proof.
  intros Hne HF r rest E. destruct ls as [|v tl]; [congruence|].
  unfold encode_bit_lengths, encode_delta in E. rewrite delta_loop_self in E.
  change (flat_map delta_bits (delta_loop v (v :: tl))) with (dbits (delta_loop v (v :: tl))) in E.
  inversion HF; subst.
  assert (length (convert_to_code_pad_to_n_bits (N.of_nat v) 5) = 5) as H5.
  { apply pad_n_length. change (2 ^ N.of_nat 5)%N with 32%N. lia. }
  rewrite <- app_assoc in E.
  destruct (reads_bits _ H5 r _ E) as (r1 & E1 & H1').
  unfold read_delta. rewrite E1. cbn [bind].
  rewrite convert_to_number_ok by (rewrite H5; lia). cbn [bind]. rewrite pad_n_value.
  destruct (@delta_loop_read p (v :: tl) v (S (bits_left r1)) r1 (length (v :: tl)) [] rest H1')
    as (r' & Hr' & E'); auto.
  - lia.
  - eapply Forall_impl; [|exact HF]. simpl; intros; lia.
  - rewrite bits_left_rbits, H1', app_length. lia.
  - exists r'; split; auto.
Qed.

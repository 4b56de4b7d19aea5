(** * Code lengths and selectors of any bits *)
From Coq Require Import ZArith Znumtheory.
From Verif Require Import Base BaseFacts Bitwise BitwiseFacts SpecBits SpecFields Crc32Facts CodeTable CodeTableFacts Selectors.
Open Scope nat_scope.

Definition W64 : Z := 18446744073709551616%Z.
Lemma two64_Z : Z.of_N two64 = W64.
Proof. reflexivity. Qed.
Definition word (z : Z) : N := Z.to_N (z mod W64).
Lemma word_byte z : N.to_nat (word z mod 256) = as_byte z.
Proof.
  unfold word, as_byte. pose proof (Z.mod_pos_bound z W64 eq_refl) as H.
  rewrite (Zmod_div_mod 256 W64 z) by (try reflexivity; exists 72057594037927936%Z; reflexivity).
  apply Nat2Z.inj. rewrite N_nat_Z, N2Z.inj_mod, Z2N.id by lia. change (Z.of_N 256) with 256%Z.
  rewrite Z2Nat.id; [reflexivity|]. apply Z.mod_pos_bound. reflexivity.
Qed.
Lemma word_inc z : start_inc Wrapping (word z) = Ok (word (z + 1)).
Proof.
  unfold start_inc, word. pose proof (Z.mod_pos_bound z W64 eq_refl) as H.
  rewrite <- (Zplus_mod_idemp_l z 1). remember (z mod W64)%Z as m eqn:E. clear E.
  destruct (N.eqb_spec (Z.to_N m + 1) two64) as [E|E]; apply f_equal.
  - assert (m + 1 = W64)%Z as -> by (apply (f_equal Z.of_N) in E; rewrite two64_Z in E; lia). reflexivity.
  - assert (m + 1 <> W64)%Z by (intros E2; apply E; apply N2Z.inj; rewrite two64_Z; lia).
    rewrite Z.mod_small by lia. lia.
Qed.
Lemma word_dec z : start_dec Wrapping (word z) = Ok (word (z - 1)).
Proof.
  unfold start_dec, word. pose proof (Z.mod_pos_bound z W64 eq_refl) as H.
  rewrite <- (Zminus_mod_idemp_l z 1). remember (z mod W64)%Z as m eqn:E. clear E.
  destruct (N.eqb_spec (Z.to_N m) 0) as [E|E]; apply f_equal.
  - assert (m = 0)%Z as -> by lia. reflexivity.
  - rewrite Z.mod_small by lia. lia.
Qed.
Definition valid (z : Z) : Prop := (0 <= z < W64)%Z.
Definition validb (z : Z) : bool := ((0 <=? z) && (z <? W64))%Z.
Lemma checked_inc z : valid z -> start_inc Checked (Z.to_N z) = if validb (z + 1) then Ok (Z.to_N (z + 1)) else Panic.
Proof.
  unfold valid, validb, start_inc. intros H. destruct (Z.leb_spec 0 (z + 1)); [|lia]. cbn [andb].
  destruct (N.eqb_spec (Z.to_N z + 1) two64) as [E|E], (Z.ltb_spec (z + 1) W64) as [L|L]; auto.
  - apply (f_equal Z.of_N) in E; rewrite two64_Z in E. lia.
  - apply f_equal. lia.
  - exfalso. apply E. apply N2Z.inj. rewrite two64_Z. lia.
Qed.
Lemma checked_dec z : valid z -> start_dec Checked (Z.to_N z) = if validb (z - 1) then Ok (Z.to_N (z - 1)) else Panic.
Proof.
  unfold valid, validb, start_dec. intros H. destruct (Z.ltb_spec (z - 1) W64); [|lia]. rewrite andb_true_r.
  destruct (N.eqb_spec (Z.to_N z) 0), (Z.leb_spec 0 (z - 1)); auto; try lia. apply f_equal. lia.
Qed.

Lemma loop_release fuel : forall r amount z out, length (rbits r) < fuel -> length out < amount ->
  match lengths (amount - length out) z (rbits r) with
  | Some (ls, _, rest) => exists r', read_delta_loop Wrapping fuel r amount (word z) out = Ok (out ++ map as_byte ls, r') /\ rbits r' = rest
  | None => read_delta_loop Wrapping fuel r amount (word z) out = Err
  end.
Proof.
  induction fuel as [|fuel IH]; intros r amount z out HF HO; [lia|]. cbn [read_delta_loop].
  destruct (amount - length out) as [|c] eqn:EC; [lia|]. pose proof (read_bit_spec r) as HR.
  destruct (rbits r) as [|[|] bits] eqn:EB; [cbn [lengths]; rewrite HR; reflexivity| |]; destruct HR as (r1 & -> & E1); cbn [bind lengths].
  - pose proof (read_bit_spec r1) as HR1. rewrite E1 in HR1. destruct bits as [|d bits]; [rewrite HR1; reflexivity|].
    destruct HR1 as (r2 & -> & E2). cbn [bind].
    assert ((if d then start_dec Wrapping (word z) else start_inc Wrapping (word z)) = Ok (word (if d then z - 1 else z + 1)%Z)) as ->
      by (destruct d; [apply word_dec|apply word_inc]).
    cbn [bind]. destruct (Nat.eqb_spec (length out) amount); [lia|].
    assert (length (rbits r2) < fuel) as HL by (rewrite E2; cbn [length] in HF; lia).
    specialize (IH r2 amount (if d then z - 1 else z + 1)%Z out HL HO). rewrite EC, E2 in IH.
    destruct (lengths (S c) _ bits) as [((ls & ch) & rest)|]; exact IH.
  - cbn [bind]. rewrite app_length. cbn [length]. rewrite word_byte. destruct (Nat.eqb_spec (length out + 1) amount) as [E|E].
    + assert (c = 0) as -> by lia. destruct bits; cbn [lengths map]; exists r1; auto.
    + assert (length (rbits r1) < fuel) as HL by (rewrite E1; cbn [length] in HF; lia).
      assert (length (out ++ [as_byte z]) < amount) as HO' by (rewrite app_length; cbn [length]; lia).
      specialize (IH r1 amount z _ HL HO'). rewrite app_length, E1 in IH. cbn [length] in IH.
      replace (amount - (length out + 1)) with c in IH by lia.
      destruct (lengths c z bits) as [((ls & ch) & rest)|]; [|exact IH].
      destruct IH as (r' & -> & ER). exists r'. split; auto. rewrite <- app_assoc. reflexivity.
Qed.
Lemma loop_debug fuel : forall r amount z out, length (rbits r) < fuel -> length out < amount -> valid z ->
  match lengths (amount - length out) z (rbits r) with
  | Some (ls, changes, rest) =>
      (Forall valid changes /\ exists r', read_delta_loop Checked fuel r amount (Z.to_N z) out = Ok (out ++ map as_byte ls, r') /\ rbits r' = rest) \/
      (~ Forall valid changes /\ read_delta_loop Checked fuel r amount (Z.to_N z) out = Panic)
  | None => read_delta_loop Checked fuel r amount (Z.to_N z) out = Err \/ read_delta_loop Checked fuel r amount (Z.to_N z) out = Panic
  end.
Proof.
  induction fuel as [|fuel IH]; intros r amount z out HF HO HV; [lia|]. cbn [read_delta_loop].
  destruct (amount - length out) as [|c] eqn:EC; [lia|]. pose proof (read_bit_spec r) as HR.
  destruct (rbits r) as [|[|] bits] eqn:EB; [cbn [lengths]; rewrite HR; auto| |]; destruct HR as (r1 & -> & E1); cbn [bind lengths].
  - pose proof (read_bit_spec r1) as HR1. rewrite E1 in HR1. destruct bits as [|d bits]; [rewrite HR1; auto|].
    destruct HR1 as (r2 & -> & E2). cbn [bind]. remember (if d then z - 1 else z + 1)%Z as z' eqn:Ez.
    assert ((if d then start_dec Checked (Z.to_N z) else start_inc Checked (Z.to_N z)) = if validb z' then Ok (Z.to_N z') else Panic) as ->
      by (subst z'; destruct d; [apply checked_dec|apply checked_inc]; auto).
    unfold validb. destruct (Z.leb_spec 0 z') as [H1|H1], (Z.ltb_spec z' W64) as [H2|H2]; cbn [andb bind].
    + destruct (Nat.eqb_spec (length out) amount); [lia|].
      assert (length (rbits r2) < fuel) as HL by (rewrite E2; cbn [length] in HF; lia).
      assert (valid z') as HV' by (split; auto).
      specialize (IH r2 amount z' out HL HO HV'). rewrite EC, E2 in IH.
      destruct (lengths (S c) z' bits) as [((ls & ch) & rest)|]; auto.
      destruct IH as [(F & IH)|(F & IH)]; [left|right]; split; auto. intros F'. apply Forall_cons_iff in F'. tauto.
    + destruct (lengths (S c) z' bits) as [((ls & ch) & rest)|]; auto. right. split; auto. intros F'. apply Forall_cons_iff in F' as ((_ & F') & _). lia.
    + destruct (lengths (S c) z' bits) as [((ls & ch) & rest)|]; auto. right. split; auto. intros F'. apply Forall_cons_iff in F' as ((F' & _) & _). lia.
    + destruct (lengths (S c) z' bits) as [((ls & ch) & rest)|]; auto. right. split; auto. intros F'. apply Forall_cons_iff in F' as ((F' & _) & _). lia.
  - cbn [bind]. rewrite app_length. cbn [length].
    assert (N.to_nat (Z.to_N z mod 256) = as_byte z) as ->.
    { rewrite <- word_byte. unfold word. rewrite Z.mod_small by exact HV. reflexivity. }
    destruct (Nat.eqb_spec (length out + 1) amount) as [E|E].
    + assert (c = 0) as -> by lia. destruct bits; cbn [lengths map]; left; (split; [constructor|]); exists r1; auto.
    + assert (length (rbits r1) < fuel) as HL by (rewrite E1; cbn [length] in HF; lia).
      assert (length (out ++ [as_byte z]) < amount) as HO' by (rewrite app_length; cbn [length]; lia).
      specialize (IH r1 amount z _ HL HO' HV). rewrite app_length, E1 in IH. cbn [length] in IH.
      replace (amount - (length out + 1)) with c in IH by lia.
      destruct (lengths c z bits) as [((ls & ch) & rest)|]; [|exact IH].
      destruct IH as [(F & r' & -> & ER)|(F & IH)]; [left|right]; split; auto. exists r'. split; auto. rewrite <- app_assoc. reflexivity.
Qed.
Lemma read_start p r : length (rbits r) < 5 /\ (forall amount, read_delta p r amount = Err) \/
  exists r1, rbits r1 = skipn 5 (rbits r) /\ 5 <= length (rbits r) /\ valid (Z.of_N (number (firstn 5 (rbits r)))) /\
    forall amount, read_delta p r amount = read_delta_loop p (S (bits_left r1)) r1 amount (number (firstn 5 (rbits r))) [].
Proof.
  unfold read_delta. destruct (read_bits_spec r 5) as [(H & ER)|(x & rest & r1 & H & HL & ER & ER1)].
  - left. split; auto. intros amount. rewrite ER. reflexivity.
  - right. exists r1. rewrite H, skipn_app, firstn_app, HL, skipn_all2, firstn_all2, Nat.sub_diag, app_length by lia. cbn [app skipn firstn]. rewrite app_nil_r.
    split; auto. split; [lia|]. split.
    { rewrite number_bval. pose proof (bval_lt x) as HB. rewrite HL in HB. change (2 ^ N.of_nat 5)%N with 32%N in HB. unfold valid, W64. lia. }
    intros amount. rewrite ER. cbn [bind]. rewrite convert_to_number_ok by lia. cbn [bind]. rewrite number_bval. reflexivity.
Qed.
Theorem delta_release r amount : 1 <= amount ->
  match table amount (rbits r) with
  | Some (ls, _, rest) => exists r', read_delta Wrapping r amount = Ok (map as_byte ls, r') /\ rbits r' = rest
  | None => read_delta Wrapping r amount = Err
  end.
Proof.
  intros HA. unfold table. destruct (read_start Wrapping r) as [(H & E)|(r1 & E1 & H & HV & E)].
  - apply Nat.ltb_lt in H. rewrite H. apply E.
  - destruct (Nat.ltb_spec (length (rbits r)) 5); [lia|]. rewrite E.
    pose proof (@loop_release (S (bits_left r1)) r1 amount (Z.of_N (number (firstn 5 (rbits r)))) []) as HL.
    rewrite bits_left_rbits in *. specialize (HL ltac:(lia) ltac:(cbn [length]; lia)). cbn [length] in HL. rewrite Nat.sub_0_r, E1 in HL.
    assert (word (Z.of_N (number (firstn 5 (rbits r)))) = number (firstn 5 (rbits r))) as HW.
    { unfold word. rewrite Z.mod_small by exact HV. apply N2Z.id. }
    rewrite HW in HL. rewrite E1. destruct (lengths amount _ _) as [((ls & ch) & rest)|]; exact HL.
Qed.
Theorem delta_debug r amount : 1 <= amount ->
  match table amount (rbits r) with
  | Some (ls, changes, rest) =>
      (Forall valid changes /\ exists r', read_delta Checked r amount = Ok (map as_byte ls, r') /\ rbits r' = rest) \/
      (~ Forall valid changes /\ read_delta Checked r amount = Panic)
  | None => read_delta Checked r amount = Err \/ read_delta Checked r amount = Panic
  end.
Proof.
  intros HA. unfold table. destruct (read_start Checked r) as [(H & E)|(r1 & E1 & H & HV & E)].
  - apply Nat.ltb_lt in H. rewrite H. left. apply E.
  - destruct (Nat.ltb_spec (length (rbits r)) 5); [lia|]. rewrite E.
    pose proof (@loop_debug (S (bits_left r1)) r1 amount (Z.of_N (number (firstn 5 (rbits r)))) []) as HL.
    rewrite bits_left_rbits in *. specialize (HL ltac:(lia) ltac:(cbn [length]; lia) HV). cbn [length] in HL. rewrite Nat.sub_0_r, E1, N2Z.id in HL.
    rewrite E1. destruct (lengths amount _ _) as [((ls & ch) & rest)|]; exact HL.
Qed.

(** ** selectors *)
Lemma mod_inc k : (if k mod 256 =? 255 then 0 else k mod 256 + 1) = S k mod 256.
Proof.
  pose proof (Nat.mod_upper_bound k 256 ltac:(lia)) as H. rewrite (Nat.div_mod k 256) at 3 by lia.
  destruct (Nat.eqb_spec (k mod 256) 255) as [E|E].
  - rewrite E. replace (S (256 * (k / 256) + 255)) with (0 + (k / 256 + 1) * 256) by lia. rewrite Nat.mod_add by lia. reflexivity.
  - replace (S (256 * (k / 256) + k mod 256)) with (k mod 256 + 1 + (k / 256) * 256) by lia. rewrite Nat.mod_add by lia.
    symmetry. apply Nat.mod_small. lia.
Qed.
Lemma unary_release_loop fuel : forall r amount k out, length (rbits r) < fuel -> length out < amount ->
  match unary_numbers (amount - length out) k (rbits r) with
  | Some (ns, rest) => exists r', read_unary_loop Wrapping fuel r amount (k mod 256) out = Ok (out ++ map (fun n => n mod 256) ns, r') /\ rbits r' = rest
  | None => read_unary_loop Wrapping fuel r amount (k mod 256) out = Err
  end.
Proof.
  induction fuel as [|fuel IH]; intros r amount k out HF HO; [lia|]. cbn [read_unary_loop].
  destruct (amount - length out) as [|c] eqn:EC; [lia|]. pose proof (read_bit_spec r) as HR.
  destruct (rbits r) as [|[|] bits] eqn:EB; [cbn [unary_numbers]; rewrite HR; reflexivity| |]; destruct HR as (r1 & -> & E1); cbn [bind unary_numbers].
  - assert ((if k mod 256 =? 255 then Ok (0, out) else Ok (k mod 256 + 1, out)) = Ok (S k mod 256, out)) as ->
      by (rewrite <- mod_inc; destruct (k mod 256 =? 255); reflexivity).
    cbn [bind]. destruct (Nat.leb_spec amount (length out)); [lia|].
    assert (length (rbits r1) < fuel) as HL by (rewrite E1; cbn [length] in HF; lia).
    specialize (IH r1 amount (S k) out HL HO). rewrite EC, E1 in IH. exact IH.
  - rewrite app_length. cbn [length]. destruct (Nat.leb_spec amount (length out + 1)) as [E|E].
    + assert (c = 0) as -> by lia. destruct bits; cbn [unary_numbers map]; exists r1; auto.
    + assert (length (rbits r1) < fuel) as HL by (rewrite E1; cbn [length] in HF; lia).
      assert (length (out ++ [k mod 256]) < amount) as HO' by (rewrite app_length; cbn [length]; lia).
      specialize (IH r1 amount 0 _ HL HO'). rewrite app_length, E1 in IH. cbn [length] in IH.
      replace (amount - (length out + 1)) with c in IH by lia. rewrite Nat.mod_0_l in IH by lia.
      destruct (unary_numbers c 0 bits) as [(ns & rest)|]; [|exact IH].
      destruct IH as (r' & -> & ER). exists r'. split; auto. rewrite <- app_assoc. reflexivity.
Qed.
Lemma unary_debug_loop fuel : forall r amount k out, length (rbits r) < fuel -> length out < amount -> k < 256 ->
  match unary_numbers (amount - length out) k (rbits r) with
  | Some (ns, rest) =>
      (bytes ns /\ exists r', read_unary_loop Checked fuel r amount k out = Ok (out ++ ns, r') /\ rbits r' = rest) \/
      (~ bytes ns /\ read_unary_loop Checked fuel r amount k out = Panic)
  | None => read_unary_loop Checked fuel r amount k out = Err \/ read_unary_loop Checked fuel r amount k out = Panic
  end.
Proof.
  assert (forall c bits k ns rest, 256 <= k -> unary_numbers (S c) k bits = Some (ns, rest) -> ~ bytes ns) as HBIG.
  { intros c bits. induction bits as [|[|] bits IH]; intros k ns rest HK E; cbn [unary_numbers] in E; [discriminate| |].
    - apply (IH (S k) ns rest); [lia|exact E].
    - destruct (unary_numbers c 0 bits) as [(ms & rest')|]; [|discriminate]. injection E as <- _. intros F. apply Forall_cons_iff in F as (F & _).
      unfold is_byte in F. lia. }
  induction fuel as [|fuel IH]; intros r amount k out HF HO HK; [lia|]. cbn [read_unary_loop].
  destruct (amount - length out) as [|c] eqn:EC; [lia|]. pose proof (read_bit_spec r) as HR.
  destruct (rbits r) as [|[|] bits] eqn:EB; [cbn [unary_numbers]; rewrite HR; auto| |]; destruct HR as (r1 & -> & E1); cbn [bind unary_numbers].
  - destruct (Nat.eqb_spec k 255) as [->|HN]; cbn [bind].
    + destruct (unary_numbers (S c) 256 bits) as [(ns & rest)|] eqn:EU; auto. right. split; auto. eapply HBIG; [|exact EU]. lia.
    + destruct (Nat.leb_spec amount (length out)); [lia|].
      assert (length (rbits r1) < fuel) as HL by (rewrite E1; cbn [length] in HF; lia).
      specialize (IH r1 amount (k + 1) out HL HO ltac:(lia)). rewrite EC, E1 in IH. replace (S k) with (k + 1) by lia. exact IH.
  - rewrite app_length. cbn [length]. destruct (Nat.leb_spec amount (length out + 1)) as [E|E].
    + assert (c = 0) as -> by lia. destruct bits; cbn [unary_numbers map]; left; (split; [constructor; auto|exists r1; auto]).
    + assert (length (rbits r1) < fuel) as HL by (rewrite E1; cbn [length] in HF; lia).
      assert (length (out ++ [k]) < amount) as HO' by (rewrite app_length; cbn [length]; lia).
      specialize (IH r1 amount 0 _ HL HO' ltac:(lia)). rewrite app_length, E1 in IH. cbn [length] in IH.
      replace (amount - (length out + 1)) with c in IH by lia.
      destruct (unary_numbers c 0 bits) as [(ns & rest)|]; [|exact IH].
      destruct IH as [(F & r' & -> & ER)|(F & IH)]; [left|right]; split; auto.
      * constructor; auto.
      * exists r'. split; auto. rewrite <- app_assoc. reflexivity.
      * intros F'. apply Forall_cons_iff in F'. tauto.
Qed.

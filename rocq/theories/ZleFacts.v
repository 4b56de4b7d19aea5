(** * Facts about Zle.v *)
From Verif Require Import Base BaseFacts Bitwise BitwiseFacts Zle.

(** ** the emitted symbols, without the reporter *)
Definition run_syms (z : nat) : list zsym := if 0 <? z then encode_zero_amount z else [].
Fixpoint zsyms (z : nat) (input : list nat) : list zsym :=
  match input with
  | [] => run_syms z
  | i :: tl => if i =? 0 then zsyms (z + 1) tl
               else run_syms z ++ Number i :: zsyms 0 tl
  end.

Lemma emit_all_eq R (report : R -> zsym -> res R) out r syms :
  emit_all report (out, r) syms = let! r' := fold_res report syms r in Ok (out ++ syms, r').
Proof. reflexivity. Qed.

Lemma emit_if R (report : R -> zsym -> res R) z out r :
  (if 0 <? z then emit_all report (out, r) (encode_zero_amount z) else Ok (out, r)) =
  let! r' := fold_res report (run_syms z) r in Ok (out ++ run_syms z, r').
Proof.
  unfold run_syms. destruct (0 <? z); [reflexivity|]. simpl. rewrite app_nil_r; reflexivity.
Qed.

Lemma zle_loop_eq R (report : R -> zsym -> res R) input z out r :
  (let! (zc, st) := zle_loop report input z (out, r) in
   (if 0 <? zc then emit_all report st (encode_zero_amount zc) else Ok st)) =
  let! r' := fold_res report (zsyms z input) r in Ok (out ++ zsyms z input, r').
Proof.
  revert z out r; induction input as [|i tl IH]; intros z out r.
  - cbn [zle_loop bind zsyms]. apply emit_if.
  - cbn [zle_loop zsyms]. destruct (i =? 0); [apply IH|].
    rewrite emit_if. rewrite fold_res_app.
    destruct (fold_res report (run_syms z) r) as [r1| | |]; try reflexivity. cbn [bind].
    rewrite emit_all_eq. cbn [fold_res].
    destruct (report r1 (Number i)) as [r2| | |]; try reflexivity. cbn [bind].
    rewrite IH. destruct (fold_res report (zsyms 0 tl) r2); try reflexivity. cbn [bind].
    rewrite <- !app_assoc. reflexivity.
Qed.

Lemma zle_transform_eq R (report : R -> zsym -> res R) input r :
  zle_transform report input r =
  let! r' := fold_res report (zsyms 0 input ++ [RunA]) r in Ok (zsyms 0 input, r').
Proof.
  unfold zle_transform.
  pose proof (zle_loop_eq report input 0 [] r) as H.
  destruct (zle_loop report input 0 ([], r)) as [[zc [o r1]]| | |]; cbn [bind] in *.
  2-4: destruct (fold_res report (zsyms 0 input) r) eqn:E; cbn [bind] in H; try discriminate;
       rewrite fold_res_app, E; reflexivity.
  rewrite H. rewrite fold_res_app.
  destruct (fold_res report (zsyms 0 input) r) as [r2| | |]; cbn [bind]; try reflexivity.
  cbn [fold_res app]. destruct (report r2 RunA); reflexivity.
Qed.

(** ** zero runs *)
Lemma low_bits_succ z : exists l, low_bits (N.of_nat z + 1) = l ++ [true].
Proof.
  destruct (N.of_nat z + 1)%N as [|q] eqn:E; [lia|]. apply pos_bits_last.
Qed.

Definition zbit (s : zsym) : bool := match s with RunB => true | _ => false end.

Lemma dza_fold l v : (v * 2 ^ N.of_nat (length l) + bval (map zbit l) < two64)%N ->
  fold_left dza_step l v = (v * 2 ^ N.of_nat (length l) + bval (map zbit l))%N.
Proof.
  revert v; induction l as [|s tl IH]; intros v H.
  - simpl. unfold bval; simpl. change (N.of_nat 0) with 0%N. rewrite N.pow_0_r. lia.
  - cbn [map length fold_left] in *. rewrite bval_cons, map_length, pow2_S in *.
    pose proof (pow2_pos (length tl)) as HP.
    assert (v * 2 < two64)%N as Hlt by nia.
    assert (dza_step v s = v * 2 + b2n (zbit s))%N as ->.
    { unfold dza_step. rewrite N.mod_small by auto. destruct s; simpl; unfold b2n; lia. }
    rewrite IH; lia.
Qed.

Lemma zbit_convert l : map zbit (map convert_remainder l) = l.
Proof. rewrite map_map. rewrite <- (map_id l) at 2. apply map_ext. intros []; reflexivity. Qed.

Lemma encode_zero_split z : exists l, low_bits (N.of_nat z + 1) = l ++ [true] /\
  encode_zero_amount z = map convert_remainder l.
Proof.
  destruct (low_bits_succ z) as (l & E). exists l; split; auto.
  unfold encode_zero_amount. rewrite E, map_app. cbn [map]. apply removelast_last.
Qed.

Lemma decode_encode_zero z : (N.of_nat z < two63)%N ->
  decode_zero_amount (encode_zero_amount z) = Ok (N.of_nat z).
Proof.
  intros Hz. destruct (encode_zero_split z) as (l & E & ->).
  unfold decode_zero_amount.
  assert (bval (map zbit (RunB :: rev (map convert_remainder l))) = N.of_nat z + 1)%N as HV.
  { cbn [map]. rewrite map_rev, zbit_convert.
    change (zbit RunB :: rev l) with ([true] ++ rev l).
    replace ([true] ++ rev l) with (rev (l ++ [true])) by (rewrite rev_app_distr; reflexivity).
    rewrite bval_rev, <- E. apply lval_low_bits. }
  rewrite dza_fold; rewrite HV; unfold two64, two63 in *; [|lia].
  rewrite N.mul_0_l, N.add_0_l.
  replace (N.of_nat z + 1 =? 0)%N with false by (symmetry; apply N.eqb_neq; lia).
  replace (N.of_nat z + 1 - 1)%N with (N.of_nat z) by lia.
  replace (9223372036854775808 <=? N.of_nat z)%N with false by (symmetry; apply N.leb_gt; lia).
  reflexivity.
Qed.

Lemma encode_zero_length z : length (encode_zero_amount z) <= z.
Proof.
  destruct (encode_zero_split z) as (l & E & ->). rewrite map_length.
  pose proof (lval_low_bits (N.of_nat z + 1)) as HV. rewrite E, lval_app in HV.
  cbn [lval] in HV. unfold b2n in HV.
  assert (N.of_nat (length l) < 2 ^ N.of_nat (length l))%N by (apply N.pow_gt_lin_r; lia).
  lia.
Qed.

Lemma encode_zero_nonempty z : 0 < z -> encode_zero_amount z <> [].
Proof.
  intros Hz H. destruct (encode_zero_split z) as (l & E & E2). rewrite H in E2.
  symmetry in E2. apply map_eq_nil in E2. subst l. simpl in E.
  pose proof (lval_low_bits (N.of_nat z + 1)) as HV. rewrite E in HV. simpl in HV. lia.
Qed.

(** only [RunA]/[RunB] *)
Definition is_run (s : zsym) : Prop := s = RunA \/ s = RunB.
Lemma encode_zero_runs z : Forall is_run (encode_zero_amount z).
Proof.
  destruct (encode_zero_split z) as (l & E & ->). apply Forall_forall. intros s Hs.
  apply in_map_iff in Hs as (b & <- & _). destruct b; unfold is_run; simpl; auto.
Qed.

(** ** decoding *)
Lemma decode_loop_runs runs rest out zeros : Forall is_run runs ->
  decode_zle_loop (runs ++ rest) out zeros = decode_zle_loop rest out (zeros ++ runs).
Proof.
  revert zeros; induction runs as [|s tl IH]; intros zeros H; cbn [app].
  - rewrite app_nil_r; reflexivity.
  - inversion H as [|? ? Hs Htl]; subst.
    destruct Hs as [->| ->]; cbn [decode_zle_loop]; rewrite IH by auto;
      rewrite <- app_assoc; reflexivity.
Qed.

Lemma flush_run_syms z out : (N.of_nat z < two63)%N ->
  flush_zeros (run_syms z) out = Ok (out ++ repeat 0 z).
Proof.
  intros Hz. unfold run_syms. destruct (Nat.ltb_spec 0 z) as [H|H].
  - pose proof (encode_zero_nonempty H) as Hne. pose proof (decode_encode_zero z Hz) as HD.
    destruct (encode_zero_amount z) as [|s tl] eqn:E; [congruence|].
    unfold flush_zeros. rewrite HD. cbn [bind]. rewrite Nat2N.id. reflexivity.
  - replace z with 0 by lia. simpl. rewrite app_nil_r. reflexivity.
Qed.

Lemma run_syms_runs z : Forall is_run (run_syms z).
Proof. unfold run_syms. destruct (0 <? z); [apply encode_zero_runs | constructor]. Qed.

Lemma decode_zsyms input z out : (N.of_nat (z + length input) < two63)%N ->
  decode_zle_loop (zsyms z input) out [] = Ok (out ++ repeat 0 z ++ input).
Proof.
  revert z out; induction input as [|i tl IH]; intros z out H; cbn [zsyms length] in *.
  - rewrite <- (app_nil_r (run_syms z)). rewrite decode_loop_runs by apply run_syms_runs.
    cbn [app decode_zle_loop]. rewrite flush_run_syms by lia. rewrite app_nil_r; reflexivity.
  - destruct (Nat.eqb_spec i 0) as [->|Hi].
    + rewrite IH by lia. rewrite repeat_app, <- app_assoc. reflexivity.
    + rewrite decode_loop_runs by apply run_syms_runs. cbn [app decode_zle_loop].
      rewrite flush_run_syms by lia. cbn [bind]. rewrite IH by lia.
      rewrite <- !app_assoc. reflexivity.
Qed.

Lemma zle_round_trip input : (N.of_nat (length input) < two63)%N ->
  decode_zle (zsyms 0 input) = Ok input.
Proof. intros H. unfold decode_zle. rewrite decode_zsyms by auto. reflexivity. Qed.

(** ** the alphabet and the number of symbols *)
Definition sym_below (k : nat) (s : zsym) : Prop :=
  match s with Number v => 1 <= v < k | _ => True end.

Lemma zsyms_below k input z : Forall (fun i => i < k) input -> Forall (sym_below k) (zsyms z input).
Proof.
  assert (forall z, Forall (sym_below k) (run_syms z)) as HR.
  { intros z'. eapply Forall_impl; [|apply run_syms_runs]. intros s [->| ->]; exact I. }
  revert z; induction input as [|i tl IH]; intros z H; cbn [zsyms]; auto.
  inversion H; subst. destruct (Nat.eqb_spec i 0); auto.
  apply Forall_app; split; auto. constructor; auto. simpl; lia.
Qed.

Lemma zsyms_length z input : length (zsyms z input) <= z + length input.
Proof.
  assert (forall z, length (run_syms z) <= z) as HR.
  { intros z'. unfold run_syms. destruct (0 <? z'); [apply encode_zero_length | simpl; lia]. }
  revert z; induction input as [|i tl IH]; intros z; cbn [zsyms length].
  - specialize (HR z); lia.
  - destruct (i =? 0).
    + specialize (IH (z + 1)); lia.
    + rewrite app_length. cbn [length]. specialize (HR z); specialize (IH 0); lia.
Qed.

Lemma zsyms_nonempty z input : 0 < z + length input -> zsyms z input <> [].
Proof.
  revert z; induction input as [|i tl IH]; intros z H; cbn [zsyms length] in *.
  - unfold run_syms. replace (0 <? z) with true by (symmetry; apply Nat.ltb_lt; lia).
    apply encode_zero_nonempty; lia.
  - destruct (i =? 0); [apply IH; lia|].
    intros E; apply app_eq_nil in E as [_ E]; discriminate.
Qed.

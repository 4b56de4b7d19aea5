(** * The coded data of a block: groups of fifty symbols *)
From Verif Require Import Base BaseFacts Bitwise BitwiseFacts Zle ZleFacts Huffman HuffmanFacts
  BlockEncoder BlockDecoder.

Lemma map_res_app {A B} (f : A -> res B) l1 l2 r1 :
  map_res f l1 = Ok r1 -> map_res f (l1 ++ l2) = let! r2 := map_res f l2 in Ok (r1 ++ r2).
Proof.
  revert r1; induction l1 as [|x l1 IH]; intros r1 H; cbn [map_res app] in *.
  - inversion H. destruct (map_res f l2); reflexivity.
  - apply bind_ok in H as (y & -> & H). apply bind_ok in H as (ys & Hys & H). inversion H; subst.
    cbn [bind]. rewrite (IH _ Hys). destruct (map_res f l2); reflexivity.
Qed.

Lemma hsym_eqb_eq a b : hsym_eqb a b = true <-> a = b.
Proof.
  destruct a as [[| |x]|], b as [[| |y]|]; cbn [hsym_eqb zsym_eqb]; split; intros H;
    auto; try discriminate.
  - apply Nat.eqb_eq in H; subst; auto.
  - inversion H; apply Nat.eqb_refl.
Qed.

Lemma find_symbol (T : canonical_table) c s : NoDup (map snd T) -> In (c, s) T ->
  find_first (fun e => hsym_eqb (snd e) s) T = Some (c, s).
Proof.
  intros ND Hin. apply find_first_unique; auto.
  - apply hsym_eqb_eq; auto.
  - intros [c' s'] Hy E. apply hsym_eqb_eq in E. cbn [snd] in E. subst s'.
    clear - ND Hin Hy. induction T as [|e T IH]; [destruct Hin|].
    cbn [map] in ND. inversion ND as [|? ? Hn ND']; subst.
    destruct Hin as [->|Hin], Hy as [Hy|Hy]; auto.
    + exfalso; apply Hn. apply in_map_iff; exists (c', s); auto.
    + subst e. exfalso; apply Hn. apply in_map_iff; exists (c, s); auto.
Qed.

Lemma symbol_code_in (T : canonical_table) s : NoDup (map snd T) -> In s (map snd T) -> In (symbol_code T s, s) T.
Proof.
  intros ND Hin. apply in_map_iff in Hin as ([c s'] & E & Hin). cbn [snd] in E; subst s'.
  unfold symbol_code. rewrite (@find_symbol T c s); auto.
Qed.

Definition covers (T : canonical_table) (ss : list zsym) : Prop :=
  Forall (fun s => In (Normal s) (map snd T)) ss /\ In EoB (map snd T).

Lemma coded_symbols T ss : good_table T -> Forall (fun s => In (Normal s) (map snd T)) ss ->
  coded T (map Normal ss) (concat (map (fun s => symbol_code T (Normal s)) ss)).
Proof.
  intros (PF & ND & LN) H. induction H as [|s ss Hs H IH]; cbn [map concat]; constructor; auto.
  apply symbol_code_in; auto.
Qed.

(** one symbol, as block_encoder.rs:86-96 encodes it *)
Definition code_at (tables : list canonical_table) (sel : list nat) (x : nat * zsym) : res (list bool) :=
  let! table := table_at tables sel (fst x) in Ok (symbol_code table (Normal (snd x))).

Lemma code_group tables sel T k s ss off : nth_error sel k = Some s -> nth_error tables s = Some T ->
  off + length ss <= 50 ->
  map_res (code_at tables sel) (enumerate_from (50 * k + off) ss)
  = Ok (map (fun s => symbol_code T (Normal s)) ss).
Proof.
  intros Hs HT. revert off; induction ss as [|x ss IH]; intros off Hoff; [reflexivity|].
  cbn [enumerate_from map_res map length] in *. unfold code_at at 1, table_at. cbn [fst snd].
  replace ((50 * k + off) / 50) with k.
  2:{ symmetry. rewrite (Nat.mul_comm 50 k), Nat.add_comm, Nat.div_add by lia.
      rewrite Nat.div_small by lia. lia. }
  rewrite (get_at_some _ _ Hs). cbn [bind]. rewrite (get_at_some _ _ HT). cbn [bind].
  replace (S (50 * k + off)) with (50 * k + S off) by lia. rewrite IH by lia. reflexivity.
Qed.

Lemma groups_read tables : Forall good_table tables -> forall sel k zle full,
  (forall i, nth_error sel i = nth_error full (k + i)) ->
  length sel = length zle / 50 + 1 ->
  Forall (fun s => s < length tables) sel ->
  Forall (fun T => covers T zle) tables ->
  exists codes T e, map_res (code_at tables full) (enumerate_from (50 * k) zle) = Ok codes /\
    table_at tables full (50 * k + length zle) = Ok T /\
    find_first (fun e => hsym_eqb (snd e) EoB) T = Some e /\
    reads (read_groups sel tables) (concat codes ++ fst e) zle.
Proof.
  intros HG. induction sel as [|s sel IH]; intros k zle full Hfull HL HS HC; [simpl in HL; lia|].
  inversion HS as [|? ? Hs HS']; subst.
  destruct (nth_error tables s) as [T|] eqn:ET; [|apply nth_error_None in ET; lia].
  assert (nth_error full k = Some s) as Hk by (rewrite <- (Nat.add_0_r k), <- Hfull; auto).
  assert (In T tables) as HinT by (eapply nth_error_In; eauto).
  assert (good_table T) as GT by (rewrite Forall_forall in HG; auto).
  assert (covers T zle) as (CT & CE) by (rewrite Forall_forall in HC; auto).
  destruct (Nat.lt_ge_cases (length zle) 50) as [Hlt|Hge].
  - rewrite Nat.div_small in HL by auto. destruct sel; [|simpl in HL; lia].
    pose proof (@code_group tables full T k s zle 0 Hk ET ltac:(lia)) as E.
    rewrite Nat.add_0_r in E.
    apply in_map_iff in CE as ([c e'] & Ee & Hin). cbn [snd] in Ee; subst e'.
    exists (map (fun s => symbol_code T (Normal s)) zle), T, (c, EoB).
    split; auto. split.
    { unfold table_at. rewrite (Nat.mul_comm 50 k), Nat.add_comm, Nat.div_add, Nat.div_small by lia.
      rewrite Nat.add_0_l. rewrite (get_at_some _ _ Hk). cbn [bind]. apply get_at_some; auto. }
    split. { destruct GT as (_ & ND & _). apply find_symbol; auto. }
    cbn [fst]. intros r rest Er. cbn [read_groups].
    rewrite (get_at_some _ _ ET). cbn [bind].
    destruct (@reads_last_group T zle _ c 50 GT (coded_symbols GT CT) Hin Hlt r rest Er) as (r' & -> & Er').
    cbn [unwrap bind]. rewrite app_nil_r. exists r'; auto.
  - set (a := firstn 50 zle). set (b := skipn 50 zle).
    assert (zle = a ++ b) as Ez by (symmetry; apply firstn_skipn).
    assert (length a = 50) as Ha by (unfold a; rewrite firstn_length; lia).
    assert (length zle = 50 + length b) as Hlen by (rewrite Ez, app_length; lia).
    assert (length zle / 50 = length b / 50 + 1) as Hdiv.
    { rewrite Hlen. replace (50 + length b) with (length b + 1 * 50) by lia.
      rewrite Nat.div_add; lia. }
    assert (Forall (fun T => covers T b) tables) as HCb.
    { eapply Forall_impl; [|exact HC]. intros T' (C1 & C2). split; auto.
      rewrite Ez in C1. apply Forall_app in C1. tauto. }
    destruct (IH (S k) b full) as (codes & T' & e & E1 & E2 & E3 & E4); auto.
    { intros i. replace (S k + i) with (k + S i) by lia. rewrite <- Hfull. reflexivity. }
    { cbn [length] in HL. lia. }
    assert (Forall (fun s => In (Normal s) (map snd T)) a) as CTa
      by (rewrite Ez in CT; apply Forall_app in CT; tauto).
    pose proof (@code_group tables full T k s a 0 Hk ET ltac:(lia)) as Ea.
    rewrite Nat.add_0_r in Ea.
    exists (map (fun s => symbol_code T (Normal s)) a ++ codes), T', e.
    split.
    { rewrite Ez at 1. rewrite enumerate_from_app. rewrite (map_res_app _ _ _ Ea).
      replace (50 * k + length a) with (50 * S k) by lia. rewrite E1. reflexivity. }
    split. { replace (50 * k + length zle) with (50 * S k + length b) by lia. auto. }
    split; auto.
    rewrite concat_app, <- app_assoc.
    intros r rest Er. rewrite <- app_assoc in Er. cbn [read_groups].
    rewrite (get_at_some _ _ ET). cbn [bind].
    destruct (@reads_full_group T a _ 50 GT (coded_symbols GT CTa) Ha ltac:(lia) r _ Er) as (r' & -> & Er').
    cbn [unwrap bind].
    destruct (E4 r' rest Er') as (r2 & -> & Er2). cbn [bind].
    exists r2. rewrite <- Ez. auto.
Qed.

Theorem data_round_trip tables sel zle : Forall good_table tables ->
  length sel = length zle / 50 + 1 -> Forall (fun s => s < length tables) sel ->
  Forall (fun T => covers T zle) tables ->
  exists bits, encode_data tables sel zle = Ok bits /\ reads (read_groups sel tables) bits zle.
Proof.
  intros HG HL HS HC.
  destruct (@groups_read tables HG sel 0 zle sel) as (codes & T & e & E1 & E2 & E3 & E4); auto.
  exists (concat codes ++ fst e). split; auto.
  unfold encode_data. change (enumerate zle) with (enumerate_from (50 * 0) zle).
  unfold code_at in E1. rewrite E1. cbn [bind].
  change (50 * 0 + length zle) with (length zle) in E2. rewrite E2. cbn [bind].
  rewrite E3. reflexivity.
Qed.

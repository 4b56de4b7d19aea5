(** * duval returns the start of the smallest suffix *)
From Verif Require Import Base BaseFacts SpecBwt LexFacts Sais SaisBase SaisSort Bwt.

Section Duval.
  Variable s : list nat.
  Notation n := (length s).
  Notation c := (ch s).

  (** [s[i..i+p)] is smaller than each of its proper suffixes, at a position inside *)
  Definition lyndon (i p : nat) : Prop :=
    forall t, 0 < t < p -> exists e, t + e < p /\ c (i + e) < c (i + t + e) /\
      forall e', e' < e -> c (i + t + e') = c (i + e').

  Definition periodic (i j p : nat) : Prop := forall m, i <= m -> m + p < j -> c m = c (m + p).

  Lemma periodic_mult i j p a m : periodic i j p -> i <= m -> m + a * p < j -> c m = c (m + a * p).
  Proof.
    intros HP Hm. induction a as [|a IH]; intros H; [rewrite Nat.mul_0_l, Nat.add_0_r; auto|].
    rewrite IH by lia. rewrite (HP (m + a * p)) by lia. f_equal. lia.
  Qed.

  Definition invI (i j k : nat) : Prop :=
    i <= k < j /\ j <= n /\ periodic i j (j - k) /\ lyndon i (j - k).

  Lemma invI_init i : i < n -> invI i (i + 1) i.
  Proof.
    intros H. unfold invI. split; [lia|]. split; [lia|]. replace (i + 1 - i) with 1 by lia. split.
    - intros m H1 H2. lia.
    - intros t Ht. lia.
  Qed.

  Lemma invI_eq i j k : invI i j k -> j < n -> c k = c j -> invI i (j + 1) (k + 1).
  Proof.
    intros (H1 & H2 & H3 & H4) Hj E. unfold invI. replace (j + 1 - (k + 1)) with (j - k) by lia.
    split; [lia|]. split; [lia|]. split; auto.
    intros m Hm Hlt. destruct (Nat.eq_dec (m + (j - k)) j) as [Ej|].
    - rewrite Ej. assert (m = k) as -> by lia. auto.
    - apply H3; auto; lia.
  Qed.

  Lemma invI_lt i j k : invI i j k -> j < n -> c k < c j -> invI i (j + 1) i.
  Proof.
    intros (H1 & H2 & H3 & H4) Hj E. unfold invI.
    split; [lia|]. split; [lia|]. split; [intros m Hm Hlt; lia|].
    set (p := j - k) in *. assert (1 <= p) as Hp by lia.
    assert (j - i >= p) as Hjp by lia.
    intros t Ht.
    pose proof (Nat.div_mod t p ltac:(lia)) as DM. set (a := t / p) in *. set (b := t mod p) in *.
    assert (b < p) as Hb by (apply Nat.mod_upper_bound; lia).
    (* positions of the shifted copy repeat the period *)
    assert (forall e, i + t + e < j -> c (i + t + e) = c (i + b + e)) as PER.
    { intros e He. symmetry. replace (i + t + e) with ((i + b + e) + a * p) by lia.
      apply (@periodic_mult i j); auto; lia. }
    assert (forall e, i + t + e = j -> 1 <= a -> c (i + b + e) = c k) as LAST.
    { intros e He Ha. replace k with ((i + b + e) + (a - 1) * p).
      - apply (@periodic_mult i j); auto; [lia|]. rewrite Nat.mul_sub_distr_r. lia.
      - rewrite Nat.mul_sub_distr_r. unfold p in *. nia. }
    destruct (Nat.eq_dec b 0) as [B0|B0].
    - exists (j - i - t). split; [lia|].
      assert (1 <= a) as Ha by (destruct a; lia).
      split.
      + replace (i + t + (j - i - t)) with j by lia.
        replace (i + (j - i - t)) with (i + b + (j - i - t)) by lia. rewrite LAST; auto; lia.
      + intros e' He'. rewrite PER by lia. f_equal. lia.
    - destruct (H4 b) as (e0 & E1 & E2 & E3); [lia|].
      destruct (Nat.lt_ge_cases (i + t + e0) j) as [G|G].
      + exists e0. split; [lia|]. split.
        * rewrite PER by auto. auto.
        * intros e' He'. rewrite PER by lia. apply E3; auto.
      + exists (j - i - t). split; [lia|].
        assert (1 <= a) as Ha.
        { destruct a; [|lia]. rewrite Nat.mul_0_r in DM. lia. }
        split.
        * replace (i + t + (j - i - t)) with j by lia.
          assert (c (i + b + (j - i - t)) = c k) as EK by (apply LAST; auto; lia).
          destruct (Nat.eq_dec (j - i - t) e0) as [<-|].
          -- rewrite EK in E2. lia.
          -- rewrite E3 in EK by lia. lia.
        * intros e' He'. rewrite PER by lia. apply E3; lia.
  Qed.

  Lemma compare_ok fuel i j k : n + 1 <= fuel + j -> 1 <= fuel -> invI i j k ->
    exists j' k', duval_compare fuel s i j k = Ok (j', k') /\ invI i j' k' /\
      (j' = n \/ (j' < n /\ c j' < c k')).
  Proof.
    revert j k; induction fuel as [|fuel IH]; intros j k Hf Hf1 HI; [lia|]. cbn [duval_compare].
    pose proof HI as (H1 & H2 & _).
    destruct (Nat.ltb_spec j n) as [Hj|Hj].
    - rewrite !get_ch by lia. cbn [bind].
      destruct (Nat.leb_spec (c k) (c j)) as [Hle|Hgt].
      + apply IH; try lia. destruct (Nat.ltb_spec (c k) (c j)) as [Hlt|Hge].
        * eapply invI_lt; eauto.
        * apply invI_eq; auto. lia.
      + exists j, k. auto.
    - exists j, k. split; auto. split; auto. left; lia.
  Qed.

  Lemma advance_ok fuel i j k fs p : k + p = j -> 1 <= p -> k + 2 <= fuel + i -> 1 <= fuel ->
    exists i' fs' a, duval_advance fuel i j k fs = Ok (i', fs') /\ i' = i + a * p /\ k < i' /\
      (a = 0 -> fs' = fs) /\ (1 <= a -> fs' = i + (a - 1) * p /\ fs' <= k).
  Proof.
    intros Hj Hp. revert i fs; induction fuel as [|fuel IH]; intros i fs Hf Hf1; [lia|].
    cbn [duval_advance]. destruct (Nat.leb_spec i k) as [Hle|Hgt].
    - replace (j - k) with p by lia.
      destruct (IH (i + p) i) as (i' & fs' & a & E & E1 & E2 & E3 & E4); [lia|lia|].
      exists i', fs', (S a). split; auto. split; [lia|]. split; auto. split; [lia|]. intros _.
      destruct a as [|a].
      + rewrite E3 by auto. split; [lia|auto].
      + destruct E4 as (E4 & E5); [lia|]. split; auto. rewrite E4. replace (S a - 1) with a by lia.
        replace (S (S a) - 1) with (S a) by lia. lia.
    - exists i, fs, 0. repeat split; auto; lia.
  Qed.

  (** comparing suffixes position by position *)
  Lemma lex_at x y e : x + e <= n -> y + e < n ->
    (forall e', e' < e -> c (x + e') = c (y + e')) ->
    (x + e = n \/ c (x + e) < c (y + e)) ->
    lexlt (suffix s x) (suffix s y).
  Proof.
    revert x y; induction e as [|e IH]; intros x y Hx Hy HE HL.
    - rewrite !Nat.add_0_r in *. rewrite (@suffix_cons s y Hy).
      destruct HL as [->|HL]; [rewrite suffix_end; constructor|].
      destruct (Nat.eq_dec x n) as [->|]; [rewrite suffix_end; constructor|].
      rewrite (@suffix_cons s x) by lia. apply lex_head; auto.
    - rewrite (@suffix_cons s x), (@suffix_cons s y) by lia.
      pose proof (HE 0 ltac:(lia)) as H0. rewrite !Nat.add_0_r in H0. rewrite H0. apply lex_tail.
      apply IH; try lia.
      + intros e' He'. specialize (HE (S e') ltac:(lia)).
        replace (x + 1 + e') with (x + S e') by lia. replace (y + 1 + e') with (y + S e') by lia. auto.
      + replace (x + 1 + e) with (x + S e) by lia. replace (y + 1 + e) with (y + S e) by lia. auto.
  Qed.

  Definition invO (i fs : nat) : Prop :=
    i <= n /\ fs <= i /\
    (i < n -> forall t, t < i -> lexlt (suffix s i) (suffix s t)) /\
    (i = n -> 0 < n -> fs < n /\ forall t, t < n -> t <> fs -> lexlt (suffix s fs) (suffix s t)).

  (** what one outer round establishes *)
  Lemma round_ok i j k a fs : (forall t, t < i -> lexlt (suffix s i) (suffix s t)) ->
    invI i j k -> (j = n \/ (j < n /\ c j < c k)) -> 1 <= a ->
    k < i + a * (j - k) -> fs = i + (a - 1) * (j - k) -> fs <= k ->
    invO (i + a * (j - k)) fs.
  Proof.
    intros HB (H1 & H2 & H3 & H4) HE Ha Hk Hfs Hfk. set (p := j - k) in *.
    set (i' := i + a * p) in *.
    assert (i' = fs + p) as Ei by (unfold i'; rewrite Hfs; rewrite Nat.mul_sub_distr_r; nia).
    assert (i' <= j) as Hij by lia.
    assert (1 <= p) as Hp by lia.
    (* every position of [i, i') is a multiple of the period plus an offset *)
    assert (forall t, i <= t < i' -> exists b q, t = i + b + q * p /\ b < p) as DEC.
    { intros t Ht. exists ((t - i) mod p), ((t - i) / p).
      pose proof (Nat.div_mod (t - i) p ltac:(lia)). split; [lia|]. apply Nat.mod_upper_bound; lia. }
    split; [lia|]. split; [lia|]. split.
    - intros Hn'.
      (* w' = s[i'..j), then either the end or a smaller character *)
      set (d := j - i') in *.
      assert (forall e, i' + e < j -> c (i' + e) = c (i + e)) as PW.
      { intros e He. symmetry. replace (i' + e) with ((i + e) + a * p) by (unfold i'; lia).
        apply (@periodic_mult i j); auto; [lia|]. unfold i' in He. lia. }
      assert (i' + d = n \/ c (i' + d) < c (i + d)) as PE.
      { unfold d. replace (i' + (j - i')) with j by lia. destruct HE as [->|[_ HE]]; auto. right.
        replace (c (i + (j - i'))) with (c k); auto. symmetry.
        replace k with ((i + (j - i')) + (a - 1) * p).
        - apply (@periodic_mult i j); auto; [lia|]. lia.
        - lia. }
      assert (d < p) as Hd by (unfold d; lia).
      assert (forall t, i <= t < i' -> lexlt (suffix s i') (suffix s t)) as IN.
      { intros t Ht. destruct (DEC t Ht) as (b & q & Et & Hb).
        assert (forall e, t + e < j -> c (t + e) = c (i + b + e)) as PT.
        { intros e He. symmetry. replace (t + e) with ((i + b + e) + q * p) by lia.
          apply (@periodic_mult i j); auto; lia. }
        assert (forall e, e < p - b -> t + e < j) as TJ.
        { intros e He. assert (t + (p - b) <= i'); [|lia].
          assert (q * p + p <= a * p); [|unfold i'; lia].
          assert (q < a); [|nia]. destruct (Nat.lt_ge_cases q a); auto. unfold i' in Ht. nia. }
        destruct (Nat.eq_dec b 0) as [->|B0].
        - apply (@lex_at i' t d); [unfold d; lia| | |].
          + assert (t + d < j); [|lia]. apply TJ; lia.
          + intros e' He'. rewrite PW by (unfold d in He'; lia). rewrite PT by (apply TJ; lia).
            f_equal. lia.
          + rewrite (PT d) by (apply TJ; lia). rewrite Nat.add_0_r. exact PE.
        - destruct (H4 b) as (e0 & E1 & E2 & E3); [lia|].
          destruct (Nat.lt_ge_cases e0 d) as [G|G].
          + apply (@lex_at i' t e0); [unfold d in G; lia| | |].
            * assert (t + e0 < j); [|lia]. apply TJ; lia.
            * intros e' He'. rewrite PW by (unfold d in G; lia). rewrite PT by (apply TJ; lia).
              symmetry. apply E3; auto.
            * right. rewrite PW by (unfold d in G; lia). rewrite PT by (apply TJ; lia). auto.
          + apply (@lex_at i' t d); [unfold d; lia| | |].
            * assert (t + d < j); [|lia]. apply TJ; lia.
            * intros e' He'. rewrite PW by (unfold d in He'; lia). rewrite PT by (apply TJ; lia).
              symmetry. apply E3; lia.
            * destruct PE as [PE|PE]; auto. right. rewrite PT by (apply TJ; lia).
              destruct (Nat.eq_dec d e0) as [->|]; [lia|]. rewrite E3 by lia. auto. }
      intros t Ht. destruct (Nat.lt_ge_cases t i) as [G|G]; [|apply IN; lia].
      eapply lexlt_trans; [apply (IN i)|apply HB; auto].
      unfold i'. nia.
    - intros En Hn. split; [lia|].
      assert (j = n) as Ej by lia.
      (* the last factor is smaller than everything from i on *)
      assert (forall t, i <= t < n -> t <> fs -> lexlt (suffix s fs) (suffix s t)) as IN.
      { intros t Ht Hne. destruct (DEC t) as (b & q & Et & Hb); [lia|].
        assert (forall e, t + e < j -> c (t + e) = c (i + b + e)) as PT.
        { intros e He. symmetry. replace (t + e) with ((i + b + e) + q * p) by lia.
          apply (@periodic_mult i j); auto; lia. }
        assert (forall e, fs + e < j -> c (fs + e) = c (i + e)) as PF.
        { intros e He. symmetry. replace (fs + e) with ((i + e) + (a - 1) * p) by lia.
          apply (@periodic_mult i j); auto; lia. }
        assert (forall e, e < p - b -> t + e < j) as TJ.
        { intros e He. assert (t + (p - b) <= i'); [|lia].
          assert (q * p + p <= a * p); [|unfold i'; lia].
          assert (q < a); [|nia]. destruct (Nat.lt_ge_cases q a); auto. unfold i' in *. nia. }
        destruct (Nat.eq_dec b 0) as [->|B0].
        - (* a longer power: the last factor is a proper prefix *)
          assert (t < fs) as Htf.
          { destruct (Nat.lt_trichotomy t fs) as [|[|G]]; auto; [lia|]. exfalso.
            assert (a - 1 < q) by (rewrite Hfs in G; nia). assert (q < a); [|lia].
            destruct (Nat.lt_ge_cases q a); auto. unfold i' in *. nia. }
          apply (@lex_at fs t p); [lia| | |left; lia].
          + assert (q < a - 1) by (rewrite Hfs in Htf; nia). 
            assert (q * p + p <= (a - 1) * p) by nia. lia.
          + intros e' He'. rewrite PF by lia. rewrite PT by (apply TJ; lia). f_equal; lia.
        - destruct (H4 b) as (e0 & E1 & E2 & E3); [lia|].
          apply (@lex_at fs t e0); [lia| | |].
          + assert (t + e0 < j); [|lia]. apply TJ; lia.
          + intros e' He'. rewrite PF by lia. rewrite PT by (apply TJ; lia). symmetry. apply E3; auto.
          + right. rewrite PF by lia. rewrite PT by (apply TJ; lia). auto. }
      intros t Ht Hne. destruct (Nat.lt_ge_cases t i) as [G|G]; [|apply IN; auto].
      destruct (Nat.eq_dec fs i) as [->|Hfi]; [apply HB; auto|].
      eapply lexlt_trans; [apply (IN i); lia|apply HB; auto].
  Qed.

  Lemma loop_ok fuel i fs : n + 1 <= fuel + i -> 1 <= fuel -> invO i fs ->
    exists r, duval_loop fuel s i fs = Ok r /\ invO n r.
  Proof.
    revert i fs; induction fuel as [|fuel IH]; intros i fs Hf Hf1 HI; [lia|]. cbn [duval_loop].
    pose proof HI as (O1 & O2 & O3 & O4).
    destruct (Nat.ltb_spec i n) as [Hi|Hi].
    - destruct (@compare_ok (S n) i (i + 1) i) as (j & k & E & HC & HX); [lia|lia|apply invI_init; auto|].
      rewrite E. cbn [bind]. pose proof HC as (C1 & C2 & _).
      destruct (@advance_ok (S (S n)) i j k fs (j - k)) as (i' & fs' & a & EA & E1 & E2 & E3 & E4); try lia.
      rewrite EA. cbn [bind].
      assert (1 <= a) as Ha by (destruct a; lia).
      destruct (E4 Ha) as (E5 & E6).
      assert (invO i' fs') as HO by (rewrite E1; eapply round_ok; eauto; lia).
      apply IH; auto; nia.
    - assert (i = n) as -> by lia. eauto.
  Qed.

  Theorem duval_smallest : exists r, duval s = Ok r /\ r <= n /\
    (0 < n -> r < n /\ forall t, t < n -> t <> r -> lexlt (suffix s r) (suffix s t)).
  Proof.
    unfold duval. destruct (@loop_ok (S n) 0 0) as (r & E & (H1 & H2 & H3 & H4)); [lia|lia| |].
    - split; [lia|]. split; [lia|]. split.
      + intros _ t Ht; lia.
      + intros; lia.
    - exists r. split; auto.
  Qed.
End Duval.

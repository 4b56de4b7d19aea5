(** * SA-IS: correctness of the induced sorting passes *)
From Verif Require Import Base BaseFacts SpecBwt LexFacts Sais SaisBase.

Section Induce.
  Variable text : list nat.
  Variable types : list suffix_type.
  Variable alpha : nat.
  Hypothesis HT : types_ok text types.
  Hypothesis HA : Forall (fun x => x < alpha) text.

  Notation n := (length text).
  Notation c := (ch text).
  Notation tails := (map (tail_of text) (seq 0 alpha)).
  Notation heads := (map (head_of text) (seq 0 alpha)).

  Definition isS (i : nat) : bool := type_eqb (nth i types TL) TS.
  Definition isL (i : nat) : bool := negb (isS i).
  Definition lms (i : nat) : bool :=
    match i with O => false | S p => isS i && isL p end.

  Lemma type_TL i : type_eqb (nth i types TL) TL = isL i.
  Proof. unfold isL, isS. destruct (nth i types TL); reflexivity. Qed.

  Lemma c_lt i : i < n -> c i < alpha.
  Proof. intros H. rewrite Forall_forall in HA. apply HA. apply nth_In; auto. Qed.

  Lemma S_facts i : i < n -> isS i = true ->
    i + 1 < n /\ c i <= c (i + 1) /\ (c i = c (i + 1) -> isS (i + 1) = true).
  Proof.
    intros Hi HS. unfold isS in *.
    destruct (Nat.eq_dec (i + 1) n) as [E|E].
    { rewrite (ty_last HT i E) in HS; discriminate. }
    assert (i + 1 < n) as Hi2 by lia. split; auto.
    destruct (Nat.lt_trichotomy (c i) (c (i + 1))) as [H|[H|H]].
    - split; [lia|]. lia.
    - split; [lia|]. intros _. rewrite <- (ty_eq HT i Hi2 H); auto.
    - rewrite (ty_gt HT i Hi2 H) in HS; discriminate.
  Qed.

  Lemma L_facts i : i + 1 < n -> isL i = true ->
    c (i + 1) <= c i /\ (c i = c (i + 1) -> isL (i + 1) = true).
  Proof.
    intros Hi HL. unfold isL, isS in *.
    destruct (Nat.lt_trichotomy (c i) (c (i + 1))) as [H|[H|H]].
    - rewrite (ty_lt HT i Hi H) in HL; discriminate.
    - split; [lia|]. intros _. rewrite <- (ty_eq HT i Hi H); auto.
    - split; lia.
  Qed.

  Lemma last_L : 0 < n -> isL (n - 1) = true.
  Proof. intros H. unfold isL, isS. rewrite (ty_last HT (n - 1)) by lia. reflexivity. Qed.
  Lemma end_L : isS n = false.
  Proof. unfold isS. rewrite (ty_end HT). reflexivity. Qed.

  Lemma is_lms_ok i : i <= n -> is_lms_character i types = Ok (lms i).
  Proof.
    intros H. pose proof (ty_len HT) as L. destruct i as [|p]; [reflexivity|].
    unfold is_lms_character. rewrite (@get_at_lt _ types (S p) TL) by lia. cbn [bind].
    rewrite (@get_at_lt _ types p TL) by lia. cbn [bind]. rewrite type_TL.
    unfold lms. fold (isS (S p)). destruct (isS (S p)); reflexivity.
  Qed.

  Lemma lms_S i : lms i = true -> isS i = true.
  Proof. destruct i; [discriminate|]. simpl. intros H; apply andb_true_iff in H; tauto. Qed.

  Definition code (i : nat) : nat := if i <? n then 2 * c i + (if isS i then 2 else 1) else 0.

  Lemma code_lt i : i < n -> code i = 2 * c i + (if isS i then 2 else 1).
  Proof. intros H. unfold code. apply Nat.ltb_lt in H; rewrite H; auto. Qed.
  Lemma code_end : code n = 0.
  Proof. unfold code. rewrite Nat.ltb_irrefl; auto. Qed.

  (** ** target positions *)
  Section Pos.
    Variable M : nat -> bool.          (* the S positions taken into account *)
    Variable K : nat -> list nat.      (* sort keys *)
    Hypothesis MS : forall i, i < n -> M i = true -> isS i = true.

    Definition dom (x : nat) : Prop := x = n \/ (x < n /\ (isL x = true \/ M x = true)).
    Hypothesis K_code : forall x, dom x -> exists t, K x = code x :: t.
    Hypothesis K_inj : forall x y, dom x -> dom y -> K x = K y -> x = y.

    Definition nL (x : nat) : nat :=
      cntb n (fun y => isL y && (c y =? c x) && lexltb (K y) (K x)).
    Definition nM (x : nat) : nat :=
      cntb n (fun y => M y && (c y =? c x) && lexltb (K x) (K y)).
    Definition pos (x : nat) : nat :=
      if x <? n then
        if isL x then head_of text (c x) + nL x else tail_of text (c x) - nM x
      else 0.

    Lemma pos_end : pos n = 0.
    Proof. unfold pos. rewrite Nat.ltb_irrefl; auto. Qed.

    Definition cL (ch : nat) := cntb n (fun y => isL y && (c y =? ch)).
    Definition cM (ch : nat) := cntb n (fun y => M y && (c y =? ch)).

    Lemma cL_cM d : cL d + cM d <= size_of text d.
    Proof.
      apply cntb_disj; intros i Hi H.
      - apply andb_true_iff in H; tauto.
      - apply andb_true_iff in H; tauto.
      - intros H2. apply andb_true_iff in H as [H _]. apply andb_true_iff in H2 as [H2 _].
        apply MS in H2; auto. unfold isL in H. rewrite H2 in H; discriminate.
    Qed.

    Lemma nL_lt x : x < n -> isL x = true -> nL x < cL (c x).
    Proof.
      intros Hx HL. apply cntb_lt with (w := x); auto.
      - intros i _ H. apply andb_true_iff in H; tauto.
      - rewrite lexltb_irrefl, andb_false_r; auto.
      - rewrite HL, Nat.eqb_refl; auto.
    Qed.
    Lemma nM_lt x : x < n -> M x = true -> nM x < cM (c x).
    Proof.
      intros Hx HM. apply cntb_lt with (w := x); auto.
      - intros i _ H. apply andb_true_iff in H; tauto.
      - rewrite lexltb_irrefl, andb_false_r; auto.
      - rewrite HM, Nat.eqb_refl; auto.
    Qed.

    Lemma pos_L x : x < n -> isL x = true -> pos x = head_of text (c x) + nL x.
    Proof. intros Hx HL. unfold pos. apply Nat.ltb_lt in Hx; rewrite Hx, HL; auto. Qed.
    Lemma pos_M x : x < n -> M x = true -> pos x = tail_of text (c x) - nM x.
    Proof.
      intros Hx HM. unfold pos, isL. rewrite (MS Hx HM). apply Nat.ltb_lt in Hx; rewrite Hx; auto.
    Qed.

    Lemma head_pos d : 1 <= head_of text d.
    Proof. unfold head_of; lia. Qed.

    (** position of an element of bucket [d] *)
    Lemma pos_range x : dom x -> x < n -> head_of text (c x) <= pos x <= tail_of text (c x).
    Proof.
      intros [->|[Hx [HL|HM]]] Hlt; [lia| |].
      - rewrite pos_L by auto. pose proof (nL_lt Hx HL). pose proof (cL_cM (c x)).
        pose proof (tail_head text (c x)). lia.
      - rewrite pos_M by auto. pose proof (nM_lt Hx HM). pose proof (cL_cM (c x)).
        pose proof (tail_head text (c x)). lia.
    Qed.

    Lemma pos_le x : dom x -> pos x <= n.
    Proof.
      intros [->|[Hx HD]]; [rewrite pos_end; lia|].
      pose proof (@pos_range x (or_intror (conj Hx HD)) Hx). pose proof (tail_bound text (c x)). lia.
    Qed.

    Lemma pos_mono x y : dom x -> dom y -> lexlt (K x) (K y) -> pos x < pos y.
    Proof.
      intros Dx Dy HK.
      destruct (K_code Dx) as (tx & Ex). destruct (K_code Dy) as (ty & Ey).
      assert (code x < code y \/ code x = code y) as Hcode.
      { rewrite Ex, Ey in HK. apply lexlt_cons_inv in HK. lia. }
      destruct Dy as [->|[Hy Dy]].
      { rewrite code_end in Hcode. destruct Hcode as [|Hcode]; [lia|].
        destruct Dx as [->|[Hx Dx]]; [exfalso; eapply lexlt_irrefl; eauto|].
        rewrite code_lt in Hcode by auto. destruct (isS x); lia. }
      assert (dom y) as Dy' by (right; auto).
      pose proof (pos_range Dy' Hy) as Ry. pose proof (head_pos (c y)).
      destruct Dx as [->|[Hx Dx]]; [rewrite pos_end; lia|].
      assert (dom x) as Dx' by (right; auto).
      pose proof (pos_range Dx' Hx) as Rx.
      rewrite !code_lt in Hcode by auto.
      destruct (Nat.lt_trichotomy (c x) (c y)) as [Hc|[Hc|Hc]].
      - pose proof (tail_lt_head text Hc). lia.
      - (* same bucket *)
        destruct (isS x) eqn:Sx, (isS y) eqn:Sy; try (exfalso; lia).
        + assert (M x = true) as HMx by (unfold isL in Dx; rewrite Sx in Dx; destruct Dx; [discriminate|auto]).
          assert (M y = true) as HMy by (unfold isL in Dy; rewrite Sy in Dy; destruct Dy; [discriminate|auto]).
          rewrite !pos_M by auto.
          assert (nM y < nM x).
          { apply cntb_lt with (w := y); auto.
            - intros i Hi H1. apply andb_true_iff in H1 as [H1 H2]. apply lexltb_lexlt in H2.
              apply andb_true_iff. split; [rewrite Hc; auto|]. apply lexltb_lexlt.
              eapply lexlt_trans; eauto.
            - rewrite lexltb_irrefl, andb_false_r; auto.
            - rewrite HMy, Hc, Nat.eqb_refl. apply lexltb_lexlt; auto. }
          pose proof (nM_lt Hx HMx). pose proof (nM_lt Hy HMy).
          pose proof (cL_cM (c x)). pose proof (tail_head text (c x)).
          pose proof (head_pos (c x)). rewrite <- Hc in *. lia.
        + assert (isL x = true) as HLx by (unfold isL; rewrite Sx; auto).
          assert (M y = true) as HMy by (unfold isL in Dy; rewrite Sy in Dy; destruct Dy; [discriminate|auto]).
          rewrite pos_L, pos_M by auto.
          pose proof (nL_lt Hx HLx). pose proof (nM_lt Hy HMy).
          pose proof (cL_cM (c x)). pose proof (tail_head text (c x)). rewrite <- Hc in *. lia.
        + assert (isL x = true) as HLx by (unfold isL; rewrite Sx; auto).
          assert (isL y = true) as HLy by (unfold isL; rewrite Sy; auto).
          rewrite !pos_L by auto. rewrite Hc.
          assert (nL x < nL y); [|lia].
          apply cntb_lt with (w := x); auto.
          * intros i Hi H1. apply andb_true_iff in H1 as [H1 H2]. apply lexltb_lexlt in H2.
            apply andb_true_iff. split; [rewrite <- Hc; auto|]. apply lexltb_lexlt.
            eapply lexlt_trans; eauto.
          * rewrite lexltb_irrefl, andb_false_r; auto.
          * rewrite HLx, Hc, Nat.eqb_refl. apply lexltb_lexlt; auto.
      - exfalso. destruct (isS x), (isS y); lia.
    Qed.

    Lemma pos_iff x y : dom x -> dom y -> (lexlt (K x) (K y) <-> pos x < pos y).
    Proof.
      intros Dx Dy. split; [apply pos_mono; auto|]. intros H.
      destruct (lexlt_total (K x) (K y)) as [G|[G|G]]; auto.
      - apply K_inj in G; auto. subst; lia.
      - apply pos_mono in G; auto; lia.
    Qed.

    Lemma pos_inj x y : dom x -> dom y -> pos x = pos y -> x = y.
    Proof.
      intros Dx Dy H.
      destruct (lexlt_total (K x) (K y)) as [G|[G|G]].
      - apply pos_mono in G; auto; lia.
      - apply K_inj in G; auto.
      - apply pos_mono in G; auto; lia.
    Qed.
  End Pos.

  (** ** access to the bucket pointers *)
  Lemma nth_map_seq {A} (f : nat -> A) k i d : i < k -> nth i (map f (seq 0 k)) d = f i.
  Proof.
    intros H. apply nth_of_error. rewrite nth_error_map, nth_error_seq.
    apply Nat.ltb_lt in H; rewrite H; reflexivity.
  Qed.

  Definition bucket_map (f : nat -> nat) (l : list nat) : Prop :=
    length l = alpha /\ forall d, d < alpha -> nth d l 0 = f d.

  Lemma heads_map : bucket_map (head_of text) heads.
  Proof. split; [rewrite map_length, seq_length; auto|]. intros; apply nth_map_seq; auto. Qed.
  Lemma tails_map : bucket_map (tail_of text) tails.
  Proof. split; [rewrite map_length, seq_length; auto|]. intros; apply nth_map_seq; auto. Qed.

  Lemma place_head_ok sa hs f x : bucket_map f hs -> x < n -> f (c x) < length sa ->
    exists sa' hs', place_at_head (sa, hs) (c x) x = Ok (sa', hs') /\
      length sa' = length sa /\
      (forall p, nth p sa' None = if p =? f (c x) then Some x else nth p sa None) /\
      bucket_map (fun d => if d =? c x then f d + 1 else f d) hs'.
  Proof.
    intros (HL & HN) Hx Hf. unfold place_at_head.
    pose proof (c_lt Hx) as Hc.
    rewrite (@get_at_lt _ hs (c x) 0) by lia. cbn [bind]. rewrite HN by auto.
    destruct (@set_at_do _ sa (f (c x)) (Some x) None Hf) as (sa' & -> & L1 & N1). cbn [bind].
    destruct (@set_at_do _ hs (c x) (f (c x) + 1) 0 ltac:(lia)) as (hs' & -> & L2 & N2). cbn [bind].
    exists sa', hs'. repeat split; auto; [lia|].
    intros d Hd. rewrite N2. destruct (Nat.eqb_spec d (c x)) as [->|]; auto.
  Qed.

  Lemma place_tail_ok sa hs f x : bucket_map f hs -> x < n -> 1 <= f (c x) < length sa ->
    exists sa' hs', place_at_tail (sa, hs) (c x) x = Ok (sa', hs') /\
      length sa' = length sa /\
      (forall p, nth p sa' None = if p =? f (c x) then Some x else nth p sa None) /\
      bucket_map (fun d => if d =? c x then f d - 1 else f d) hs'.
  Proof.
    intros (HL & HN) Hx Hf. unfold place_at_tail.
    pose proof (c_lt Hx) as Hc.
    rewrite (@get_at_lt _ hs (c x) 0) by lia. cbn [bind]. rewrite HN by auto.
    destruct (@set_at_do _ sa (f (c x)) (Some x) None) as (sa' & -> & L1 & N1); [lia|]. cbn [bind].
    destruct (f (c x)) as [|t] eqn:E; [lia|].
    destruct (@set_at_do _ hs (c x) t 0 ltac:(lia)) as (hs' & -> & L2 & N2). cbn [bind].
    exists sa', hs'. repeat split; auto; [lia|].
    intros d Hd. rewrite N2. destruct (Nat.eqb_spec d (c x)) as [->|]; [lia|]; auto.
  Qed.

  (** ** keys *)
  Variable tk : nat -> list nat.   (* what follows the code of an LMS position in its initial key *)

  Fixpoint k1 (d j : nat) : list nat :=
    match d with
    | O => [0]
    | S d' => if lms j then code j :: tk j else code j :: k1 d' (S j)
    end.
  Definition K1 (j : nat) : list nat := k1 (n - j) j.

  Fixpoint k2 (d j : nat) : list nat :=
    match d with
    | O => [0]
    | S d' => if isL j then K1 j else code j :: k2 d' (S j)
    end.
  Definition K2 (j : nat) : list nat := k2 (n - j) j.

  Lemma K1_end : K1 n = [0].
  Proof. unfold K1. rewrite Nat.sub_diag; auto. Qed.
  Lemma K2_end : K2 n = [0].
  Proof. unfold K2. rewrite Nat.sub_diag; auto. Qed.
  Lemma K1_lms j : j < n -> lms j = true -> K1 j = code j :: tk j.
  Proof. intros H E. unfold K1. replace (n - j) with (S (n - S j)) by lia. cbn [k1]. rewrite E; auto. Qed.
  Lemma K1_L j : j < n -> isL j = true -> K1 j = code j :: K1 (j + 1).
  Proof.
    intros H E. unfold K1. replace (n - j) with (S (n - (j + 1))) by lia. cbn [k1].
    destruct (lms j) eqn:El.
    - apply lms_S in El. unfold isL in E; rewrite El in E; discriminate.
    - rewrite Nat.add_1_r; auto.
  Qed.
  Lemma K2_L j : isL j = true -> K2 j = K1 j.
  Proof.
    intros E. unfold K2. destruct (n - j) as [|d] eqn:Ed; cbn [k2].
    - unfold K1. rewrite Ed; auto.
    - rewrite E; auto.
  Qed.
  Lemma K2_S j : j < n -> isS j = true -> K2 j = code j :: K2 (j + 1).
  Proof.
    intros H E. unfold K2. replace (n - j) with (S (n - (j + 1))) by lia. cbn [k2].
    unfold isL. rewrite E. cbn [negb]. rewrite Nat.add_1_r; auto.
  Qed.

  Notation dom1 := (dom lms).
  Notation dom2 := (dom isS).

  Lemma dom2_all x : x <= n -> dom2 x.
  Proof.
    intros H. unfold dom, isL. destruct (Nat.eq_dec x n); auto. right. split; [lia|].
    destruct (isS x); auto.
  Qed.

  Lemma dom1_succ j : j < n -> isL j = true -> dom1 (j + 1).
  Proof.
    intros Hj HL. unfold dom. destruct (Nat.eq_dec (j + 1) n); auto. right. split; [lia|].
    unfold isL. destruct (isS (j + 1)) eqn:E; auto. right.
    rewrite Nat.add_1_r in *. simpl. rewrite E, HL; auto.
  Qed.

  Lemma K1_code x : dom1 x -> exists t, K1 x = code x :: t.
  Proof.
    intros [->|[Hx [HL|HM]]].
    - rewrite K1_end, code_end; eauto.
    - rewrite K1_L by auto; eauto.
    - rewrite K1_lms by auto; eauto.
  Qed.
  Lemma K2_code x : dom2 x -> exists t, K2 x = code x :: t.
  Proof.
    intros [->|[Hx [HL|HM]]].
    - rewrite K2_end, code_end; eauto.
    - rewrite K2_L, K1_L by auto; eauto.
    - rewrite K2_S by auto; eauto.
  Qed.

  Hypothesis K1_inj : forall x y, dom1 x -> dom1 y -> K1 x = K1 y -> x = y.
  Hypothesis K2_inj : forall x y, dom2 x -> dom2 y -> K2 x = K2 y -> x = y.

  (** an L suffix is larger than its successor, an S suffix smaller *)
  Lemma L_descends j : j < n -> isL j = true -> lexlt (K1 (j + 1)) (K1 j).
  Proof.
    intros Hj. remember (n - j) as d eqn:Hd. revert j Hj Hd.
    induction d as [d IH] using lt_wf_ind. intros j Hj Hd HL.
    rewrite (K1_L Hj HL).
    destruct (Nat.eq_dec (j + 1) n) as [E|E].
    - rewrite E, K1_end. constructor. rewrite code_lt by auto. destruct (isS j); lia.
    - destruct (@L_facts j) as (F1 & F2); auto; [lia|].
      destruct (K1_code (dom1_succ Hj HL)) as (t & Et).
      destruct (Nat.eq_dec (c j) (c (j + 1))) as [Ec|Ec].
      + specialize (F2 Ec). rewrite (@K1_L (j + 1)) at 1 by (auto; lia).
        rewrite !code_lt by lia. unfold isL in HL, F2.
        assert (isS j = false) as -> by (destruct (isS j); auto).
        assert (isS (j + 1) = false) as -> by (destruct (isS (j + 1)); auto).
        rewrite Ec. apply lex_tail. apply (IH (n - (j + 1))); auto; lia.
      + rewrite Et at 1. apply lex_head. rewrite !code_lt by lia. destruct (isS (j + 1)), (isS j); lia.
  Qed.

  Lemma S_ascends j : j < n -> isS j = true -> lexlt (K2 j) (K2 (j + 1)).
  Proof.
    intros Hj. remember (n - j) as d eqn:Hd. revert j Hj Hd.
    induction d as [d IH] using lt_wf_ind. intros j Hj Hd HS.
    rewrite (K2_S Hj HS).
    destruct (S_facts Hj HS) as (F0 & F1 & F2).
    destruct (@K2_code (j + 1)) as (t & Et); [apply dom2_all; lia|].
    destruct (Nat.eq_dec (c j) (c (j + 1))) as [Ec|Ec].
    - specialize (F2 Ec). rewrite (@K2_S (j + 1)) at 2 by (auto; lia).
      rewrite !code_lt by lia. rewrite HS, F2, Ec. apply lex_tail. apply (IH (n - (j + 1))); auto; lia.
    - rewrite Et at 2. apply lex_head. rewrite !code_lt by lia. destruct (isS (j + 1)), (isS j); lia.
  Qed.

  Notation pos1 := (pos lms K1).
  Notation pos2 := (pos isS K2).

  Lemma lmsS i : i < n -> lms i = true -> isS i = true.
  Proof. intros _; apply lms_S. Qed.
  Lemma SS i : i < n -> isS i = true -> isS i = true.
  Proof. auto. Qed.

  Lemma pos_L_same x : x < n -> isL x = true -> pos2 x = pos1 x.
  Proof.
    intros Hx HL. rewrite !pos_L by auto. f_equal. apply cntb_ext. intros i Hi.
    destruct (isL i) eqn:E; auto. rewrite !K2_L by auto. auto.
  Qed.

  (** two L positions of one bucket compare as their successors *)
  Lemma L_pair x y : x < n -> y < n -> isL x = true -> isL y = true -> c x = c y ->
    (lexlt (K1 x) (K1 y) <-> lexlt (K1 (x + 1)) (K1 (y + 1))).
  Proof.
    intros Hx Hy Lx Ly E. rewrite (K1_L Hx Lx), (K1_L Hy Ly), lexlt_cons_inv.
    rewrite !code_lt by auto. unfold isL in Lx, Ly.
    destruct (isS x), (isS y); try discriminate. rewrite E. split; [intros [H|[_ H]]; [lia|auto] | auto].
  Qed.
  Lemma S_pair x y : x < n -> y < n -> isS x = true -> isS y = true -> c x = c y ->
    (lexlt (K2 x) (K2 y) <-> lexlt (K2 (x + 1)) (K2 (y + 1))).
  Proof.
    intros Hx Hy Lx Ly E. rewrite (K2_S Hx Lx), (K2_S Hy Ly), lexlt_cons_inv.
    rewrite !code_lt, Lx, Ly by auto. rewrite E. split; [intros [H|[_ H]]; [lia|auto] | auto].
  Qed.

  (** ** the scan for L suffixes *)
  Definition initial (sa : list (option nat)) : Prop :=
    length sa = n + 1 /\
    (forall x, x = n \/ (x < n /\ lms x = true) -> nth (pos1 x) sa None = Some x) /\
    (forall p x, nth p sa None = Some x -> (x = n \/ (x < n /\ lms x = true)) /\ p = pos1 x).

  Definition doneL (i : nat) (y : nat) : bool := isL y && (pos1 (y + 1) <? i).

  Definition invL (i : nat) (st : list (option nat) * list nat) : Prop :=
    length (fst st) = n + 1 /\
    (forall x, (x = n \/ (x < n /\ lms x = true)) -> nth (pos1 x) (fst st) None = Some x) /\
    (forall x, x < n -> doneL i x = true -> nth (pos1 x) (fst st) None = Some x) /\
    (forall p x, nth p (fst st) None = Some x -> dom1 x /\ p = pos1 x) /\
    bucket_map (fun d => head_of text d + cntb n (fun y => doneL i y && (c y =? d))) (snd st).

  Lemma scan_l sa : initial sa ->
    exists sa' hs, fold_res (induce_l_step text types) (seq 0 (length sa)) (sa, heads) = Ok (sa', hs) /\
      length sa' = n + 1 /\ forall x, dom1 x -> nth (pos1 x) sa' None = Some x.
  Proof.
    intros (I1 & I2 & I3).
    destruct (@fold_res_ind _ _ (induce_l_step text types) invL (seq 0 (length sa)) (sa, heads))
      as ([sa' hs] & E & V).
    - split; [exact I1|]. split; [exact I2|]. split; [|split].
      + intros x _ H. unfold doneL in H. apply andb_true_iff in H as [_ H]. apply Nat.ltb_lt in H; lia.
      + intros p x H. apply I3 in H as [H ->]. split; auto. unfold dom. tauto.
      + destruct heads_map as (H1 & H2). split; [exact H1|]. intros d Hd. cbn [snd]. rewrite H2 by auto.
        rewrite (@cntb_ext n _ (fun _ => false)).
        * unfold cntb. induction (seq 0 n); auto.
        * intros y _. unfold doneL. replace (pos1 (y + 1) <? 0) with false by (symmetry; apply Nat.ltb_ge; lia).
          rewrite andb_false_r; auto.
    - intros k i [s hs] Hk (V1 & V2 & V3 & V4 & V5). cbn [fst snd] in *.
      rewrite nth_error_seq in Hk. destruct (Nat.ltb_spec k (length sa)) as [Hlt|]; [|discriminate].
      injection Hk as Hk. assert (i = k) as -> by lia. clear Hk.
      assert (forall x, dom1 x -> pos1 x = k -> nth k s None = Some x) as OCC.
      { intros x [->|[Hx [HL|HM]]] Hp; rewrite <- Hp.
        - apply V2; auto.
        - apply V3; auto. unfold doneL. rewrite HL. cbn [andb]. apply Nat.ltb_lt.
          rewrite <- Hp. apply pos_mono; auto using lmsS, K1_code, dom1_succ, L_descends.
          right; auto.
        - apply V2; auto. }
      (* nothing changes unless an L suffix precedes the entry *)
      assert ((forall y, y < n -> isL y = true -> pos1 (y + 1) <> k) -> invL (S k) (s, hs)) as SAME.
      { intros HN.
        assert (forall y, y < n -> doneL (S k) y = doneL k y) as DE.
        { intros y Hy. unfold doneL. destruct (isL y) eqn:EL; auto. cbn [andb].
          specialize (HN y Hy EL).
          destruct (Nat.ltb_spec (pos1 (y + 1)) (S k)), (Nat.ltb_spec (pos1 (y + 1)) k); auto; lia. }
        split; [exact V1|]. split; [exact V2|]. split; [|split].
        - intros x Hx H. rewrite DE in H by auto. apply V3; auto.
        - exact V4.
        - destruct V5 as (V5a & V5b). split; [exact V5a|]. intros d Hd. cbn [snd]. rewrite V5b by auto. f_equal.
          apply cntb_ext. intros y Hy. rewrite DE; auto. }
      unfold induce_l_step. cbn [fst]. rewrite (@get_at_lt _ s k None) by lia. cbn [bind].
      destruct (nth k s None) as [x|] eqn:Ex.
      + destruct (V4 k x Ex) as (Dx & Hp).
        destruct x as [|j].
        * exists (s, hs). split; auto. apply SAME. intros y Hy HL Hq.
          rewrite <- Hq in Hp. symmetry in Hp.
          apply (@pos_inj lms K1 lmsS K1_code K1_inj) in Hp; auto using dom1_succ. lia.
        * assert (j < n) as Hj by (destruct Dx as [Dx|[Dx _]]; lia).
          rewrite (@get_at_lt _ types j TL) by (pose proof (ty_len HT); lia). cbn [bind].
          rewrite type_TL. destruct (isL j) eqn:EL.
          2:{ exists (s, hs). split; auto. apply SAME. intros y Hy HL Hq.
              rewrite <- Hq in Hp.
              apply (@pos_inj lms K1 lmsS K1_code K1_inj) in Hp; auto using dom1_succ.
              assert (y = j) by lia. congruence. }
          rewrite get_ch by auto. cbn [bind].
          assert (dom1 j) as Dj by (right; auto).
          assert (S j = j + 1) as Sj by lia. rewrite Sj in *.
          (* the head pointer is at the target *)
          assert (head_of text (c j) + cntb n (fun y => doneL k y && (c y =? c j)) = pos1 j) as HP.
          { rewrite pos_L by auto. f_equal. apply cntb_ext. intros y Hy. unfold doneL.
            destruct (isL y) eqn:ELy; auto. cbn [andb].
            destruct (Nat.eqb_spec (c y) (c j)) as [Ec|Ec]; [|rewrite !andb_false_r; auto].
            rewrite !andb_true_r. cbn [andb].
            destruct (lexltb (K1 y) (K1 j)) eqn:Elex.
            - apply Nat.ltb_lt. rewrite Hp. apply lexltb_lexlt in Elex. apply L_pair in Elex; auto.
              apply (@pos_mono lms K1 lmsS K1_code); auto using dom1_succ.
            - apply Nat.ltb_ge. destruct (Nat.lt_ge_cases (pos1 (y + 1)) k) as [Hlt2|]; auto.
              rewrite Hp in Hlt2. apply (@pos_iff lms K1 lmsS K1_code K1_inj) in Hlt2; auto using dom1_succ.
              apply L_pair in Hlt2; auto. apply lexltb_lexlt in Hlt2. congruence. }
          destruct (@place_head_ok s hs _ j V5 Hj) as (s' & hs' & -> & L' & N' & B').
          { rewrite HP, V1. pose proof (@pos_le lms K1 lmsS j Dj). lia. }
          rewrite HP in N'.
          exists (s', hs'). split; auto.
          assert (doneL k j = false) as DJ.
          { unfold doneL. rewrite EL. cbn [andb]. apply Nat.ltb_ge. lia. }
          assert (forall y, y < n -> doneL (S k) y = doneL k y || (y =? j)) as DE.
          { intros y Hy. unfold doneL. destruct (isL y) eqn:ELy; cbn [andb orb].
            - destruct (Nat.eqb_spec y j) as [->|Hne].
              + rewrite orb_true_r. apply Nat.ltb_lt; lia.
              + rewrite orb_false_r.
                assert (pos1 (y + 1) <> k).
                { intros Hq. rewrite <- Hq in Hp.
                  apply (@pos_inj lms K1 lmsS K1_code K1_inj) in Hp; auto using dom1_succ. lia. }
                destruct (Nat.ltb_spec (pos1 (y + 1)) (S k)), (Nat.ltb_spec (pos1 (y + 1)) k); auto; lia.
            - destruct (Nat.eqb_spec y j); auto; congruence. }
          split; [cbn [fst]; lia|]. split; [|split; [|split]]; cbn [fst snd].
          -- intros x Hx. rewrite N'. destruct (Nat.eqb_spec (pos1 x) (pos1 j)) as [Eq|Ne]; [|apply V2; auto].
             apply (@pos_inj lms K1 lmsS K1_code K1_inj) in Eq; [congruence| |auto]. unfold dom; tauto.
          -- intros x Hx H. rewrite N'. rewrite DE in H by auto.
             destruct (Nat.eqb_spec (pos1 x) (pos1 j)) as [Eq|Ne].
             ++ apply (@pos_inj lms K1 lmsS K1_code K1_inj) in Eq; [congruence| |auto].
                right. split; auto. left. apply orb_true_iff in H as [H|H].
                ** unfold doneL in H. apply andb_true_iff in H; tauto.
                ** apply Nat.eqb_eq in H; congruence.
             ++ apply V3; auto. apply orb_true_iff in H as [H|H]; auto.
                apply Nat.eqb_eq in H; congruence.
          -- intros p x. rewrite N'. destruct (Nat.eqb_spec p (pos1 j)) as [->|Ne]; auto.
             intros H; inversion H; subst; auto.
          -- destruct B' as (B1 & B2). split; [exact B1|]. intros d Hd. rewrite B2 by auto.
             destruct (Nat.eqb_spec d (c j)) as [->|Hne].
             ++ rewrite <- Nat.add_assoc. f_equal.
                rewrite (@cntb_ext n (fun y => doneL (S k) y && (c y =? c j))
                          (fun y => (doneL k y && (c y =? c j)) || (y =? j))).
                ** rewrite cntb_add; auto; [lia|]. rewrite DJ; auto.
                ** intros y Hy. rewrite DE by auto. destruct (Nat.eqb_spec y j) as [->|]; [|rewrite !orb_false_r; auto].
                   rewrite !orb_true_r, Nat.eqb_refl; auto.
             ++ f_equal. apply cntb_ext. intros y Hy. rewrite DE by auto.
                destruct (Nat.eqb_spec y j) as [->|]; [|rewrite orb_false_r; auto].
                replace (c j =? d) with false by (symmetry; apply Nat.eqb_neq; auto).
                rewrite !andb_false_r; auto.
      + exists (s, hs). split; auto. apply SAME. intros y Hy HL Hq.
        discriminate (@OCC (y + 1) (dom1_succ Hy HL) Hq).
    - rewrite E. exists sa', hs. split; auto.
      destruct V as (V1 & V2 & V3 & V4 & V5). cbn [fst] in *. split; auto.
      intros x [->|[Hx [HL|HM]]]; auto. apply V3; auto.
      unfold doneL. rewrite HL. cbn [andb]. apply Nat.ltb_lt. rewrite seq_length, I1.
      pose proof (@pos_le lms K1 lmsS (x + 1) (dom1_succ Hx HL)). lia.
  Qed.

  (** ** the scan for S suffixes *)
  Lemma pos2_surj p : p <= n -> exists x, x <= n /\ pos2 x = p.
  Proof.
    intros Hp.
    assert (incl (seq 0 (n + 1)) (map pos2 (seq 0 (n + 1)))) as HI.
    { apply NoDup_length_incl.
      - apply NoDup_map_in; [|apply seq_NoDup]. intros x y Hx Hy H.
        apply in_seq in Hx, Hy.
        apply (@pos_inj isS K2 SS K2_code K2_inj) in H; auto; apply dom2_all; lia.
      - rewrite map_length; auto.
      - intros q Hq. apply in_map_iff in Hq as (x & <- & Hx). apply in_seq in Hx.
        apply in_seq. pose proof (@pos_le isS K2 SS x). 
        assert (pos2 x <= n); [|lia]. apply H, dom2_all; lia. }
    specialize (HI p). rewrite in_seq in HI. specialize (HI ltac:(lia)).
    apply in_map_iff in HI as (x & Hx & Hin). apply in_seq in Hin. exists x. split; auto; lia.
  Qed.

  Definition doneS (k : nat) (y : nat) : bool := isS y && (n <? pos2 (y + 1) + k).

  Definition invS (k : nat) (st : list (option nat) * list nat) : Prop :=
    length (fst st) = n + 1 /\
    (forall x, (x = n \/ (x < n /\ isL x = true)) -> nth (pos2 x) (fst st) None = Some x) /\
    (forall x, x < n -> doneS k x = true -> nth (pos2 x) (fst st) None = Some x) /\
    bucket_map (fun d => tail_of text d - cntb n (fun y => doneS k y && (c y =? d))) (snd st).

  Lemma scan_s sa : length sa = n + 1 -> (forall x, dom1 x -> nth (pos1 x) sa None = Some x) ->
    exists sa' hs, fold_res (induce_s_step text types) (rev (seq 0 (length sa))) (sa, tails) = Ok (sa', hs) /\
      length sa' = n + 1 /\ forall x, x <= n -> nth (pos2 x) sa' None = Some x.
  Proof.
    intros I1 I2.
    destruct (@fold_res_ind _ _ (induce_s_step text types) invS (rev (seq 0 (length sa))) (sa, tails))
      as ([sa' hs] & E & V).
    - split; [exact I1|]. split; [|split].
      + intros x [->|[Hx HL]]; cbn [fst].
        * rewrite pos_end. rewrite <- (@pos_end lms K1). apply I2. left; auto.
        * rewrite pos_L_same by auto. apply I2. right; auto.
      + intros x Hx H. unfold doneS in H. apply andb_true_iff in H as [HS H]. apply Nat.ltb_lt in H.
        destruct (S_facts Hx HS) as (F0 & _).
        pose proof (@pos_le isS K2 SS (x + 1) (@dom2_all (x + 1) ltac:(lia))). lia.
      + destruct tails_map as (H1 & H2). split; [exact H1|]. intros d Hd. cbn [snd]. rewrite H2 by auto.
        rewrite (@cntb_ext n _ (fun _ => false)).
        * assert (cntb n (fun _ => false) = 0) as ->; [|lia]. unfold cntb. induction (seq 0 n); auto.
        * intros y Hy. unfold doneS. destruct (isS y) eqn:HS; auto. cbn [andb].
          destruct (S_facts Hy HS) as (F0 & _).
          pose proof (@pos_le isS K2 SS (y + 1) (@dom2_all (y + 1) ltac:(lia))).
          replace (n <? pos2 (y + 1) + 0) with false by (symmetry; apply Nat.ltb_ge; lia). auto.
    - intros k i [s hs] Hk (V1 & V2 & V3 & V5). cbn [fst snd] in *.
      assert (k < length sa /\ i = n - k) as (Hlt & Hi).
      { assert (k < length (rev (seq 0 (length sa)))) as Hl by (apply nth_error_Some; congruence).
        rewrite rev_length, seq_length in Hl. split; auto.
        apply (nth_of_error _ _ 0) in Hk. rewrite rev_nth in Hk by (rewrite seq_length; auto).
        rewrite seq_length, seq_nth in Hk by lia. lia. }
      clear Hk. rewrite I1 in Hlt.
      assert (exists x, x <= n /\ pos2 x = i /\ nth i s None = Some x) as (x & Hxn & Hp & Ex).
      { destruct (@pos2_surj i) as (x & Hx & Hp); [lia|]. exists x. split; auto. split; auto.
        rewrite <- Hp. destruct (@dom2_all x Hx) as [->|[Hx' [HL|HS]]]; [apply V2; auto|apply V2; auto|].
        apply V3; auto. unfold doneS. rewrite HS. cbn [andb]. apply Nat.ltb_lt.
        destruct (S_facts Hx' HS) as (F0 & _).
        pose proof (@pos_mono isS K2 SS K2_code x (x + 1) (@dom2_all x Hx) (@dom2_all (x + 1) ltac:(lia))
                     (S_ascends Hx' HS)). lia. }
      assert (forall y, y < n -> isS y = true -> y + 1 <= n) as YN by (intros; lia).
      assert ((forall y, y < n -> isS y = true -> pos2 (y + 1) <> i) -> invS (S k) (s, hs)) as SAME.
      { intros HN.
        assert (forall y, y < n -> doneS (S k) y = doneS k y) as DE.
        { intros y Hy. unfold doneS. destruct (isS y) eqn:ES; auto. cbn [andb].
          specialize (HN y Hy ES).
          destruct (Nat.ltb_spec n (pos2 (y + 1) + S k)), (Nat.ltb_spec n (pos2 (y + 1) + k)); auto; lia. }
        split; [exact V1|]. split; [exact V2|]. split.
        - intros z Hz H. rewrite DE in H by auto. apply V3; auto.
        - destruct V5 as (V5a & V5b). split; [exact V5a|]. intros d Hd. cbn [snd]. rewrite V5b by auto. f_equal.
          apply cntb_ext. intros y Hy. rewrite DE; auto. }
      unfold induce_s_step. cbn [fst]. rewrite (@get_at_lt _ s i None) by lia. cbn [bind].
      rewrite Ex. destruct x as [|j].
      + exists (s, hs). split; auto. apply SAME. intros y Hy HS Hq.
        rewrite <- Hq in Hp.
        apply (@pos_inj isS K2 SS K2_code K2_inj) in Hp; [lia| |]; apply dom2_all; lia.
      + assert (j < n) as Hj by lia.
        rewrite (@get_at_lt _ types j TL) by (pose proof (ty_len HT); lia). cbn [bind].
        fold (isS j). destruct (isS j) eqn:ES.
        2:{ exists (s, hs). split; auto. apply SAME. intros y Hy HS Hq.
            rewrite <- Hq in Hp.
            apply (@pos_inj isS K2 SS K2_code K2_inj) in Hp; [|apply dom2_all; lia|apply dom2_all; lia].
            assert (y = j) by lia. congruence. }
        rewrite get_ch by auto. cbn [bind].
        assert (dom2 j) as Dj by (apply dom2_all; lia).
        assert (S j = j + 1) as Sj by lia. rewrite Sj in *.
        assert (cntb n (fun y => doneS k y && (c y =? c j)) = nM isS K2 j) as HC.
        { apply cntb_ext. intros y Hy. unfold doneS.
          destruct (isS y) eqn:ESy; auto. cbn [andb].
          destruct (Nat.eqb_spec (c y) (c j)) as [Ec|Ec]; [|rewrite !andb_false_r; auto].
          rewrite !andb_true_r. cbn [andb]. symmetry in Ec.
          assert (dom2 (j + 1)) as D1 by (apply dom2_all; lia).
          assert (dom2 (y + 1)) as D2 by (apply dom2_all; lia).
          destruct (lexltb (K2 j) (K2 y)) eqn:Elex.
          - apply Nat.ltb_lt. apply lexltb_lexlt in Elex. apply S_pair in Elex; auto.
            apply (@pos_mono isS K2 SS K2_code) in Elex; auto. lia.
          - apply Nat.ltb_ge. destruct (Nat.lt_ge_cases n (pos2 (y + 1) + k)) as [Hlt2|]; auto.
            assert (pos2 (j + 1) < pos2 (y + 1)) as Hlt3 by lia.
            apply (@pos_iff isS K2 SS K2_code K2_inj) in Hlt3; auto.
            apply S_pair in Hlt3; auto. apply lexltb_lexlt in Hlt3. congruence. }
        assert (tail_of text (c j) - cntb n (fun y => doneS k y && (c y =? c j)) = pos2 j) as HP.
        { rewrite (@pos_M isS K2 SS) by auto. rewrite HC; auto. }
        pose proof (@pos_range isS K2 SS j Dj Hj) as RG. pose proof (head_pos (c j)).
        pose proof (@pos_le isS K2 SS j Dj).
        destruct (@place_tail_ok s hs _ j V5 Hj) as (s' & hs' & -> & L' & N' & B').
        { rewrite HP, V1. lia. }
        rewrite HP in N'.
        exists (s', hs'). split; auto.
        assert (doneS k j = false) as DJ.
        { unfold doneS. rewrite ES. cbn [andb]. apply Nat.ltb_ge. lia. }
        assert (forall y, y < n -> doneS (S k) y = doneS k y || (y =? j)) as DE.
        { intros y Hy. unfold doneS. destruct (isS y) eqn:ESy; cbn [andb orb].
          - destruct (Nat.eqb_spec y j) as [->|Hne].
            + rewrite orb_true_r. apply Nat.ltb_lt; lia.
            + rewrite orb_false_r.
              assert (pos2 (y + 1) <> i).
              { intros Hq. rewrite <- Hq in Hp.
                apply (@pos_inj isS K2 SS K2_code K2_inj) in Hp; [lia| |]; apply dom2_all; lia. }
              destruct (Nat.ltb_spec n (pos2 (y + 1) + S k)), (Nat.ltb_spec n (pos2 (y + 1) + k)); auto; lia.
          - destruct (Nat.eqb_spec y j); auto; congruence. }
        split; [cbn [fst]; lia|]. split; [|split]; cbn [fst snd].
        * intros x Hx. rewrite N'. destruct (Nat.eqb_spec (pos2 x) (pos2 j)) as [Eq|Ne]; [|apply V2; auto].
          apply (@pos_inj isS K2 SS K2_code K2_inj) in Eq; [congruence| |auto]. apply dom2_all; lia.
        * intros x Hx H'. rewrite N'. rewrite DE in H' by auto.
          destruct (Nat.eqb_spec (pos2 x) (pos2 j)) as [Eq|Ne].
          -- apply (@pos_inj isS K2 SS K2_code K2_inj) in Eq; [congruence| |auto]. apply dom2_all; lia.
          -- apply V3; auto. apply orb_true_iff in H' as [H'|H']; auto.
             apply Nat.eqb_eq in H'; congruence.
        * destruct B' as (B1 & B2). split; [exact B1|]. intros d Hd. rewrite B2 by auto.
          destruct (Nat.eqb_spec d (c j)) as [->|Hne].
          -- rewrite <- Nat.sub_add_distr. f_equal.
             rewrite (@cntb_ext n (fun y => doneS (S k) y && (c y =? c j))
                       (fun y => (doneS k y && (c y =? c j)) || (y =? j))).
             ++ rewrite cntb_add; auto; [lia|]. rewrite DJ; auto.
             ++ intros y Hy. rewrite DE by auto. destruct (Nat.eqb_spec y j) as [->|]; [|rewrite !orb_false_r; auto].
                rewrite !orb_true_r, Nat.eqb_refl; auto.
          -- f_equal. apply cntb_ext. intros y Hy. rewrite DE by auto.
             destruct (Nat.eqb_spec y j) as [->|]; [|rewrite orb_false_r; auto].
             replace (c j =? d) with false by (symmetry; apply Nat.eqb_neq; auto).
             rewrite !andb_false_r; auto.
    - rewrite E. exists sa', hs. split; auto.
      destruct V as (V1 & V2 & V3 & V5). cbn [fst] in *. split; auto.
      intros x Hx. destruct (@dom2_all x Hx) as [->|[Hx' [HL|HS]]]; auto. apply V3; auto.
      unfold doneS. rewrite HS. cbn [andb]. apply Nat.ltb_lt. rewrite rev_length, seq_length, I1. lia.
  Qed.

  (** ** both scans together *)
  Lemma induce_ok sa sizes : initial sa -> sizes = map (size_of text) (seq 0 alpha) ->
    exists sa1 sa2, induction_sort_l sa text types sizes = Ok sa1 /\
      induction_sort_s sa1 text types sizes = Ok sa2 /\
      length sa2 = n + 1 /\ (forall x, x <= n -> nth (pos2 x) sa2 None = Some x).
  Proof.
    intros HI ->. destruct (scan_l HI) as (sa1 & hs1 & E1 & L1 & N1).
    destruct (@scan_s sa1 L1 N1) as (sa2 & hs2 & E2 & L2 & N2).
    exists sa1, sa2. unfold induction_sort_l, induction_sort_s.
    rewrite bucket_heads_ok, bucket_tails_ok, E1, E2. cbn [bind]. auto.
  Qed.

  (** the result as a list sorted by K2 *)
  Lemma sorted_result sa : length sa = n + 1 -> (forall x, x <= n -> nth (pos2 x) sa None = Some x) ->
    exists l, sa = map Some l /\ length l = n + 1 /\ (forall x, In x l <-> x <= n) /\ NoDup l /\
      (forall a b, a < b <= n -> lexlt (K2 (nth a l 0)) (K2 (nth b l 0))) /\ nth 0 l 0 = n.
  Proof.
    intros HL HN.
    assert (forall p, p <= n -> exists x, x <= n /\ pos2 x = p /\ nth p sa None = Some x) as HP.
    { intros p Hp. destruct (pos2_surj Hp) as (x & Hx & <-). eauto. }
    set (l := map (fun o => match o with Some x => x | None => 0 end) sa).
    assert (sa = map Some l) as El.
    { apply (nth_ext _ _ None None); [unfold l; rewrite !map_length; auto|].
      intros p Hp. destruct (HP p) as (x & Hx & Hpos & E); [lia|]. rewrite E.
      symmetry. apply nth_of_error. unfold l. rewrite !nth_error_map.
      rewrite (nth_error_nth' sa None) by auto. rewrite E; auto. }
    assert (length l = n + 1) as Ll by (unfold l; rewrite map_length; auto).
    assert (forall p, p <= n -> nth p l 0 <= n /\ pos2 (nth p l 0) = p) as Hl.
    { intros p Hp. destruct (HP p Hp) as (x & Hx & Hpos & E).
      assert (nth p l 0 = x) as ->; [|auto].
      apply nth_of_error. unfold l. rewrite nth_error_map.
      rewrite (nth_error_nth' sa None) by lia. rewrite E; auto. }
    exists l. split; [exact El|]. split; [exact Ll|]. split; [|split; [|split]].
    - intros x. split.
      + intros Hin. apply (In_nth _ _ 0) in Hin as (p & Hp & <-). apply Hl; lia.
      + intros Hx. pose proof (HN x Hx) as Hn.
        pose proof (@pos_le isS K2 SS x (@dom2_all x Hx)).
        assert (nth (pos2 x) l 0 = x) as <-; [|apply nth_In; lia].
        apply nth_of_error. unfold l. rewrite nth_error_map.
        rewrite (nth_error_nth' sa None) by lia. rewrite Hn; auto.
    - apply (NoDup_nth l 0). intros a b Ha Hb E.
      destruct (Hl a) as (_ & <-); [lia|]. destruct (Hl b) as (_ & <-); [lia|]. congruence.
    - intros a b Hab. destruct (Hl a) as (Ha1 & Ha2); [lia|]. destruct (Hl b) as (Hb1 & Hb2); [lia|].
      apply (@pos_iff isS K2 SS K2_code K2_inj); try (apply dom2_all; auto). lia.
    - destruct (Hl 0) as (H1 & H2); [lia|].
      apply (@pos_inj isS K2 SS K2_code K2_inj); try (apply dom2_all; auto). rewrite H2, pos_end; auto.
  Qed.

  (** ** placing the LMS suffixes *)
  Definition place_step (st : list (option nat) * list nat) (x : nat) : res (list (option nat) * list nat) :=
    let! d := get_at text x in place_at_tail st d x.

  Definition lmsP (x : nat) : Prop := x < n /\ lms x = true.

  Definition invP (order : list nat) (k : nat) (st : list (option nat) * list nat) : Prop :=
    length (fst st) = n + 1 /\
    (forall x, x = n \/ In x (firstn k order) -> nth (pos1 x) (fst st) None = Some x) /\
    (forall p x, nth p (fst st) None = Some x -> (x = n \/ In x (firstn k order)) /\ p = pos1 x) /\
    bucket_map (fun d => tail_of text d - length (filter (fun y => c y =? d) (firstn k order))) (snd st).

  Lemma place_all order sa0 :
    (forall x, In x order <-> lmsP x) ->
    NoDup order ->
    (forall a b, a < b < length order -> c (nth a order 0) = c (nth b order 0) ->
       lexlt (K1 (nth b order 0)) (K1 (nth a order 0))) ->
    length sa0 = n + 1 -> (forall p, nth p sa0 None = if p =? 0 then Some n else None) ->
    exists sa hs, fold_res place_step order (sa0, tails) = Ok (sa, hs) /\ initial sa.
  Proof.
    intros HI ND HO HL H0.
    destruct (@fold_res_ind _ _ place_step (invP order) order (sa0, tails)) as ([sa hs] & E & V).
    - split; [exact HL|]. split; [|split]; cbn [fst snd].
      + intros x [->|[]]. rewrite pos_end, H0; auto.
      + intros p x. rewrite H0. destruct (Nat.eqb_spec p 0) as [->|]; [|discriminate].
        intros H. injection H as <-. rewrite pos_end; auto.
      + destruct tails_map as (H1 & H2). split; [exact H1|]. intros d Hd. rewrite H2 by auto. simpl; lia.
    - intros k x [s hs] Hk (V1 & V2 & V4 & V5). cbn [fst snd] in *.
      assert (k < length order) as Hko by (apply nth_error_Some; congruence).
      pose proof (nth_of_error _ _ 0 Hk) as Hnth.
      assert (lmsP x) as (Hx & Hlx) by (apply HI; eapply nth_error_In; eauto).
      assert (firstn (S k) order = firstn k order ++ [x]) as HF by (apply firstn_snoc; auto).
      unfold place_step. rewrite get_ch by auto. cbn [bind].
      assert (dom1 x) as Dx by (right; auto).
      assert (forall y, In y (firstn k order) -> lmsP y) as HinP.
      { intros y Hy. apply HI. eapply firstn_In; eauto. }
      assert (forall y, lmsP y -> c y = c x -> (In y (firstn k order) <-> lexlt (K1 x) (K1 y))) as HIN.
      { intros y Hy Hcc. split.
        - intros Hin. apply (In_nth _ _ 0) in Hin as (a & Ha & Ea). rewrite firstn_length in Ha.
          rewrite nth_firstn_lt in Ea by lia. rewrite <- Ea, <- Hnth. apply HO; [lia|]. congruence.
        - intros Hlt. apply HI in Hy. apply (In_nth _ _ 0) in Hy as (a & Ha & Ea).
          destruct (Nat.lt_trichotomy a k) as [Hak|[Hak|Hak]].
          + rewrite <- Ea. rewrite <- (@nth_firstn_lt _ order k a 0) by auto. apply nth_In.
            rewrite firstn_length; lia.
          + subst a. rewrite Hnth in Ea. subst y. exfalso; eapply lexlt_irrefl; eauto.
          + exfalso. apply (lexlt_asym Hlt). rewrite <- Ea, <- Hnth. apply HO; [lia|]. congruence. }
      assert (length (filter (fun y => c y =? c x) (firstn k order)) = nM lms K1 x) as HC.
      { apply cntb_list.
        - apply NoDup_filter. apply NoDup_firstn; auto.
        - intros y. rewrite filter_In. split.
          + intros (Hin & Hc). pose proof (HinP y Hin) as (Hy & Hly). split; auto.
            rewrite Hly, Hc. apply lexltb_lexlt. apply HIN; auto. apply Nat.eqb_eq; auto.
          + intros (Hy & H). apply andb_true_iff in H as [H H3]. apply andb_true_iff in H as [H1 H2].
            split; auto. apply HIN; [split; auto|apply Nat.eqb_eq; auto|]. apply lexltb_lexlt; auto. }
      assert (tail_of text (c x) - length (filter (fun y => c y =? c x) (firstn k order)) = pos1 x) as HP.
      { rewrite (@pos_M lms K1 lmsS) by auto. rewrite HC; auto. }
      pose proof (@pos_range lms K1 lmsS x Dx Hx) as RG. pose proof (head_pos (c x)).
      pose proof (@pos_le lms K1 lmsS x Dx).
      destruct (@place_tail_ok s hs _ x V5 Hx) as (s' & hs' & -> & L' & N' & B').
      { rewrite HP, V1. lia. }
      rewrite HP in N'. exists (s', hs'). split; auto.
      assert (forall y, y = n \/ In y (firstn k order) -> dom1 y) as DD.
      { intros y [->|Hy]; [left; auto|]. right. destruct (HinP y Hy). auto. }
      split; [cbn [fst]; lia|]. rewrite HF. split; [|split]; cbn [fst snd].
      + intros y Hy. rewrite N'. destruct (Nat.eqb_spec (pos1 y) (pos1 x)) as [Eq|Ne].
        * apply (@pos_inj lms K1 lmsS K1_code K1_inj) in Eq; [congruence| |auto].
          destruct Hy as [Hy|Hy]; [left; auto|]. apply in_app_iff in Hy as [Hy|[->|[]]]; auto.
        * apply V2. destruct Hy as [Hy|Hy]; auto. apply in_app_iff in Hy as [Hy|[->|[]]]; auto. congruence.
      + intros p y. rewrite N'. destruct (Nat.eqb_spec p (pos1 x)) as [->|Ne].
        * intros Hs. injection Hs as <-. split; auto. right. apply in_app_iff; right; left; auto.
        * intros Hs. apply V4 in Hs as [[Hs|Hs] ->]; split; auto. right. apply in_app_iff; auto.
      + destruct B' as (B1 & B2). split; [exact B1|]. intros d Hd. rewrite B2 by auto.
        rewrite filter_app, app_length. cbn [filter].
        destruct (Nat.eqb_spec d (c x)) as [->|Hne].
        * rewrite Nat.eqb_refl. cbn [length]. lia.
        * replace (c x =? d) with false by (symmetry; apply Nat.eqb_neq; auto). cbn [length]. lia.
    - exists sa, hs. split; auto. destruct V as (V1 & V2 & V4 & V5). cbn [fst snd] in *.
      rewrite firstn_all in *. split; auto. split.
      + intros x [->|Hx]; apply V2; auto. right. apply HI; auto.
      + intros p x Hp. apply V4 in Hp as [[Hs|Hs] ->]; split; auto. right. apply HI in Hs; auto.
  Qed.
End Induce.

(** * Exactly which blocks the inverse block sort restores *)
From Verif Require Import Base BaseFacts SpecBwt SpecBzip2 LexFacts Sais SaisBase SaisSort SaisFacts Bwt BwtFacts UnsortFacts InjectFacts ExactBwtFacts.

Section Hits.
  Variable w rows : list nat.
  Notation n := (length w).
  Hypothesis n_pos : 0 < n.
  Hypothesis HL : length rows = n.
  Hypothesis HN : NoDup rows.
  Hypothesis HI : forall x, In x rows <-> x < n.
  Hypothesis HO : forall a b, a < b < n -> lexlt (suffix w (nth a rows 0)) (suffix w (nth b rows 0)).
  Notation c := (col w rows).
  Notation row := (row rows).
  Notation x0 := (nth (n - 1) w 0).

  (** the positions where the inverse goes wrong: a suffix below the word, after its last letter *)
  Definition hit (j : nat) : Prop := 0 < j < n /\ nth (j - 1) w 0 = x0 /\ row j < row 0.
  Lemma hit_dec j : {hit j} + {~ hit j}.
  Proof.
    unfold hit. destruct (lt_dec 0 j) as [e1|e1]; [|right; lia]. destruct (lt_dec j n) as [e2|e2]; [|right; lia].
    destruct (Nat.eq_dec (nth (j - 1) w 0) x0) as [e3|e3]; [|right; tauto]. destruct (lt_dec (row j) (row 0)) as [e4|e4]; [left; auto|right; tauto].
  Qed.
  Lemma least_hit : (forall j, ~ hit j) \/ exists j1, hit j1 /\ forall j, hit j -> j1 <= j.
  Proof.
    assert (forall k, (forall j, j < k -> ~ hit j) \/ exists j1, hit j1 /\ forall j, hit j -> j1 <= j) as G.
    { induction k as [|k [IH|IH]]; auto; [left; lia|]. destruct (hit_dec k) as [H|H].
      - right. exists k. split; auto. intros j Hj. destruct (Nat.le_gt_cases k j); auto. exfalso. eapply IH; eauto.
      - left. intros j Hj. destruct (Nat.eq_dec j k) as [->|]; auto. apply IH. lia. }
    destruct (G n) as [H|H]; auto. left. intros j Hj. apply (H j); auto. destruct Hj; lia.
  Qed.
  Lemma row_lex i j : i < n -> j < n -> (row i < row j <-> lexlt (skipn i w) (skipn j w)).
  Proof.
    intros Hi Hj. split; [|apply (@row_order w rows HL HI HO); auto]. intros H.
    destruct (lexlt_total (skipn i w) (skipn j w)) as [G|[G|G]]; auto; exfalso.
    - apply (f_equal (@length nat)) in G. rewrite !skipn_length in G. assert (i = j) by lia. subst. lia.
    - apply (@row_order w rows HL HI HO) in G; auto. lia.
  Qed.

  Lemma Q_zero x : In x (Q w rows) -> fst x = row 0 -> snd x = x0.
  Proof.
    intros H E. unfold Q in H. apply in_map_iff in H as (p & <- & Hp). cbn [fst snd] in *. apply HI in Hp.
    destruct (@nxt_prev w rows n_pos HL p Hp) as (_ & Hn'). apply (@row_inj w rows HI) in E; auto. unfold next_index in E.
    destruct (Nat.eqb_spec (S p) n) as [e1|e1]; [|lia]. f_equal. lia.
  Qed.
  Lemma Q_fst_nodup : NoDup (map fst (Q w rows)).
  Proof.
    unfold Q. rewrite map_map. cbn [fst]. apply NoDup_map_in; auto. intros a b Ha Hb E. apply HI in Ha, Hb.
    destruct (@nxt_prev w rows n_pos HL a Ha) as (_ & A2). destruct (@nxt_prev w rows n_pos HL b Hb) as (_ & B2).
    apply (@row_inj w rows HI) in E; auto. unfold next_index in E. destruct (Nat.eqb_spec (S a) n) as [e1|e1], (Nat.eqb_spec (S b) n) as [e2|e2]; lia.
  Qed.
  Lemma gr_other r a b : a <> r -> b <> r -> (gr r a <? gr r b) = (a <? b).
  Proof. intros A B. unfold gr. rewrite (proj2 (Nat.eqb_neq _ _) A), (proj2 (Nat.eqb_neq _ _) B). reflexivity. Qed.

  Lemma next_S i : S i < n -> next_index w i = S i.
  Proof. intros H. unfold next_index. destruct (Nat.eqb_spec (S i) n) as [e1|e1]; lia. Qed.
  Lemma links_plain i : S i < n -> ~ hit (S i) -> nth (row i) (links c) (0, 0) = (row (S i), nth i w 0).
  Proof.
    intros Hi NH. assert (i < n) as Hi' by lia. pose proof (next_S Hi) as EN.
    assert (row (S i) <> row 0) as NR by (intros X; apply (@row_inj w rows HI) in X; lia).
    destruct (Nat.lt_ge_cases (row 0) (row (S i))) as [G|G].
    - pose proof (@links_above w rows n_pos HL HN HI HO i Hi') as A. rewrite EN in A. auto.
    - assert (nth i w 0 <> x0) as NX.
      { intros E. apply NH. split; [lia|]. split; [|lia]. replace (S i - 1) with i by lia. auto. }
      destruct (@links_find w rows n_pos HL HN HI HO i Hi') as (f & Hf & E & Ef & Er). rewrite EN in *. rewrite <- E. f_equal. rewrite Er, Ef.
      f_equal. apply filter_ext_in. intros y Hy. unfold ltb_g. cbn [fst snd].
      destruct (Nat.eq_dec (fst y) (row 0)) as [Ey|Ny].
      + rewrite (@Q_zero y Hy Ey). replace (x0 =? nth i w 0) with false by (symmetry; apply Nat.eqb_neq; auto). reflexivity.
      + rewrite gr_other by auto. reflexivity.
  Qed.
  Lemma links_hit i : S i < n -> hit (S i) -> row (S i) < nxt (links c) (row i).
  Proof.
    intros Hi (_ & HX & HR). replace (S i - 1) with i in HX by lia. assert (i < n) as Hi' by lia. pose proof (next_S Hi) as EN.
    assert (row (S i) <> row 0) as NR by lia.
    destruct (@links_find w rows n_pos HL HN HI HO i Hi') as (f & Hf & E & Ef & Er). rewrite EN in *.
    assert (S f = row i) as ES.
    { assert (In (row 0, x0) (Q w rows)) as Hin.
      { assert (n - 1 < n) as Hn1 by lia. pose proof (@Q_row w rows n_pos HL HI (n - 1) Hn1) as E1. unfold next_index in E1.
        replace (S (n - 1)) with n in E1 by lia. rewrite Nat.eqb_refl in E1. rewrite <- E1. apply nth_In.
        rewrite (@Q_length w rows HL). apply (@row_lt w rows HL HI); auto. }
      pose proof Q_fst_nodup as ND. apply in_split in Hin as (A & B & EQ). rewrite Er, Ef. clear Er Ef. rewrite EQ in *.
      rewrite !filter_app, !app_length. cbn [filter].
      assert (ltb_g (fun x => x) (row 0, x0) (row (S i), nth i w 0) = false) as ->.
      { unfold ltb_g. cbn [fst snd]. rewrite HX, Nat.eqb_refl, Nat.ltb_irrefl. cbn [orb andb]. apply Nat.ltb_ge. lia. }
      assert (ltb_g (gr (row 0)) (row 0, x0) (row (S i), nth i w 0) = true) as ->.
      { unfold ltb_g. cbn [fst snd]. rewrite HX, Nat.eqb_refl, Nat.ltb_irrefl. cbn [orb andb]. apply Nat.ltb_lt.
        unfold gr. rewrite Nat.eqb_refl, (proj2 (Nat.eqb_neq _ _) NR). lia. }
      cbn [length]. rewrite map_app in ND. cbn [map fst] in ND. apply NoDup_remove_2 in ND.
      assert (forall l, (forall y, In y l -> fst y <> row 0) -> filter (fun x => ltb_g (fun x => x) x (row (S i), nth i w 0)) l =
        filter (fun x => ltb_g (gr (row 0)) x (row (S i), nth i w 0)) l) as G.
      { intros l H. apply filter_ext_in. intros y Hy. unfold ltb_g. cbn [fst snd]. rewrite gr_other by auto. reflexivity. }
      rewrite (G A), (G B).
      - lia.
      - intros y Hy Ey. apply ND, in_or_app. right. rewrite <- Ey. apply in_map; auto.
      - intros y Hy Ey. apply ND, in_or_app. left. rewrite <- Ey. apply in_map; auto. }
    pose proof (@row_lt w rows HL HI i Hi') as HRi.
    pose proof (@links_order w rows HL f (row i) ltac:(lia)) as X. rewrite E in X. unfold lt_g in X. cbn [fst snd] in X.
    pose proof (@ltr_row w rows n_pos HL HN HI HO i Hi') as EL. unfold ltr in EL. unfold nxt. lia.
  Qed.
  (** where the inverse goes from such a place *)
  Lemma links_target i : i < n -> i = n - 1 \/ hit (S i) -> exists q, q < n /\ nxt (links c) (row i) = row q /\ (q = 0 \/ hit q).
  Proof.
    intros Hi Hor. assert (length c = n) as LC by (apply col_length; auto). pose proof (@row_lt w rows HL HI i Hi) as HRi.
    pose proof (@nxt_bound c (row i) ltac:(lia)) as HB. rewrite LC in HB. set (k := nxt (links c) (row i)) in *.
    assert (nth k rows 0 < n) as Hq by (apply HI, nth_In; lia).
    pose proof (@row_of_nth w rows n_pos HL HN k HB) as EK. exists (nth k rows 0). split; auto. split; auto. set (q := nth k rows 0) in *.
    destruct (Nat.eq_dec q 0) as [|Nq]; auto. right. assert (nth i w 0 = x0) as EX.
    { destruct Hor as [-> | (_ & H & _)]; auto. replace (S i - 1) with i in H by lia. auto. }
    assert (S (q - 1) < n) as Hp by lia. assert (q - 1 < n) as Hp' by lia. pose proof (next_S Hp) as EN. replace (S (q - 1)) with q in EN by lia.
    destruct (@links_find w rows n_pos HL HN HI HO (q - 1) Hp') as (f & Hf & E & _). rewrite EN in E.
    assert (f = row i) as ->.
    { apply (@nxt_inj c); try lia. fold k. unfold nxt. rewrite E. cbn [fst]. auto. }
    assert (nth (q - 1) w 0 = x0) as EL.
    { pose proof (@ltr_row w rows n_pos HL HN HI HO i Hi) as X. unfold ltr in X. rewrite E in X. cbn [snd] in X. congruence. }
    split; [lia|]. split; auto. destruct (Nat.lt_trichotomy (row q) (row 0)) as [G|[G|G]]; auto; exfalso.
    - apply (@row_inj w rows HI) in G; auto; lia.
    - pose proof (@links_above w rows n_pos HL HN HI HO (q - 1) Hp') as A. rewrite EN in A. specialize (A G).
      assert (row (q - 1) = row i) as X.
      { apply (@nxt_inj c); try lia; [rewrite LC; apply (@row_lt w rows HL HI); auto|]. unfold nxt. rewrite A, E. reflexivity. }
      apply (@row_inj w rows HI) in X; auto. destruct Hor as [-> | (_ & _ & H)]; [lia|]. replace (S i) with q in H by lia. lia.
  Qed.

  Lemma word_plain m : forall i, i + m < n -> (forall j, i < j <= i + m -> ~ hit j) ->
    word (links c) m (row i) = firstn m (skipn i w) /\ walk (links c) m (row i) = row (i + m).
  Proof.
    induction m as [|m IH]; intros i Hm HR; [rewrite Nat.add_0_r; split; reflexivity|]. cbn [word walk].
    assert (i < n) as Hi by lia. assert (S i < n) as HSi by lia.
    pose proof (links_plain HSi (HR (S i) ltac:(lia))) as A.
    unfold ltr, nxt. rewrite A. cbn [fst snd]. destruct (IH (S i)) as (I1 & I2); [lia|intros; apply HR; lia|].
    rewrite I1, I2, (@skipn_S w i Hi). cbn [firstn]. split; [reflexivity|]. f_equal. lia.
  Qed.
  Lemma word_plain_to m i : 0 < m -> i + m <= n -> (forall j, i < j < i + m -> ~ hit j) ->
    word (links c) m (row i) = firstn m (skipn i w) /\ walk (links c) m (row i) = nxt (links c) (row (i + m - 1)).
  Proof.
    intros Hm Hn HR. destruct (@word_plain (m - 1) i) as (W1 & W2); [lia|intros; apply HR; lia|].
    replace m with ((m - 1) + 1) at 1 3 by lia. rewrite word_add, walk_add, W1, W2. cbn [word walk].
    assert (i + (m - 1) < n) as Hi by lia. rewrite (@ltr_row w rows n_pos HL HN HI HO _ Hi).
    replace m with (S (m - 1)) at 3 by lia. replace (i + m - 1) with (i + (m - 1)) by lia. split; [|auto].
    symmetry. apply firstn_snoc. rewrite (nth_error_nth' _ 0) by (rewrite skipn_length; lia). rewrite nth_skipn. reflexivity.
  Qed.
End Hits.

(** ** the criterion *)
Lemma firstn_plus a b : forall l : list nat, firstn (a + b) l = firstn a l ++ firstn b (skipn a l).
Proof.
  induction a as [|a IH]; intros l; [reflexivity|]. destruct l as [|x l]; [cbn [skipn]; rewrite !firstn_nil; reflexivity|].
  cbn [Nat.add firstn skipn app]. rewrite IH. reflexivity.
Qed.
Section Exact.
  Variable v t rows : list nat.
  Notation w := (v ++ t).
  Notation n := (length w).
  Notation d := (length v).
  Hypothesis HL : length rows = n.
  Hypothesis HN : NoDup rows.
  Hypothesis HI : forall x, In x rows <-> x < n.
  Hypothesis HO : forall a b, a < b < n -> lexlt (suffix w (nth a rows 0)) (suffix w (nth b rows 0)).
  Hypothesis d_pos : 0 < d.
  Hypothesis HV : forall j, 0 < j < d -> lexlt v (skipn j v).
  Hypothesis HT : forall j, j < length t -> lexlt v (skipn j t ++ v).
  Hypothesis NT : 0 < length t.
  Hypothesis HB : lexlt w t.
  Notation c := (col w rows).
  Notation row := (row rows).
  Notation hit := (hit w rows).

  Lemma len_w : n = d + length t.
  Proof. apply app_length. Qed.
  Lemma w_pos : 0 < n.
  Proof. rewrite len_w. lia. Qed.
  Lemma suffix_d : skipn d w = t.
  Proof. rewrite skipn_app, skipn_all, Nat.sub_diag. reflexivity. Qed.
  Lemma hit_below j : hit j -> 0 < j < n /\ lexlt (skipn j w) w.
  Proof.
    pose proof w_pos as NP. intros (Hj & _ & HR). split; auto. apply (@row_lex w rows NP HL HI HO j 0) in HR; auto; lia.
  Qed.
  Lemma hit_starts j : hit j -> d < j /\ j + d <= n /\ skipn j w = v ++ skipn (j + d) w.
  Proof.
    intros H. pose proof (hit_below H) as (Hj & HLt). pose proof len_w as LW.
    assert (d < j) as Hd.
    { destruct (Nat.lt_trichotomy d j) as [G|[G|G]]; auto; exfalso.
      - subst j. rewrite suffix_d in HLt. eapply lexlt_asym; eauto.
      - eapply lexlt_asym; [exact HLt|]. apply inner_above; auto. lia. }
    split; auto. pose proof (@suffix_ge v t d_pos HV HT j) as G. rewrite <- LW in G. specialize (G (proj2 Hj)).
    assert (v = firstn d (skipn j w)) as E.
    { destruct G as [G|G]; auto. exfalso. eapply lexlt_asym; [exact HLt|]. rewrite <- (firstn_skipn d (skipn j w)).
      apply lexlt_cut_app; auto. rewrite firstn_length. lia. }
    split.
    - apply (f_equal (@length nat)) in E. rewrite firstn_length, skipn_length in E. lia.
    - rewrite <- (firstn_skipn d (skipn j w)), <- E, skipn_add. f_equal. f_equal. lia.
  Qed.
  Lemma hits_apart j j' : hit j -> j < j' < j + d -> ~ hit j'.
  Proof.
    intros H Hj' H'. destruct (hit_starts H) as (Hd & Hn & E). destruct (hit_below H') as (_ & L).
    replace j' with ((j' - j) + j) in L by lia. rewrite <- skipn_add, E, skipn_app_le in L by lia.
    eapply lexlt_asym; [exact L|]. apply lexlt_cut_app; [apply HV; lia|rewrite skipn_length; lia].
  Qed.
  Lemma word_d q : q = 0 \/ hit q -> word (links c) d (row q) = v.
  Proof.
    pose proof w_pos as NP. pose proof len_w as LW. intros [->|H].
    - destruct (@word_plain_to w rows NP HL HN HI HO d 0) as (W & _); [auto|lia| |rewrite W; cbn [skipn]; apply firstn_skipn_len].
      intros j Hj Hh. destruct (hit_starts Hh). lia.
    - destruct (hit_starts H) as (Hd & Hn & E).
      destruct (@word_plain_to w rows NP HL HN HI HO d q) as (W & _); [auto|lia|intros j Hj; apply (hits_apart H); lia|].
      rewrite W, E. apply firstn_skipn_len.
  Qed.
  Lemma walk_d : walk (links c) d (row 0) = row d.
  Proof.
    pose proof w_pos as NP. pose proof len_w as LW. destruct (@word_plain w rows NP HL HN HI HO d 0) as (_ & W); [lia| |exact W].
    intros j Hj Hh. destruct (hit_starts Hh). lia.
  Qed.

  Definition repeats : Prop := forall j, hit j -> skipn j w ++ v = firstn (n - j + d) w.
  Definition restored : Prop := word (links c) n (row d) = t ++ v.

  Lemma no_hits : (forall j, ~ hit j) -> restored.
  Proof.
    pose proof w_pos as NP. pose proof len_w as LW. intros H. unfold restored.
    replace n with ((n - d) + d) at 1 by lia. rewrite word_add.
    destruct (@word_plain_to w rows NP HL HN HI HO (n - d) d) as (W1 & W2); [lia|lia|intros; apply H|].
    rewrite W1, W2, suffix_d. rewrite firstn_all2 by lia. f_equal. replace (d + (n - d) - 1) with (n - 1) by lia.
    destruct (@links_target w rows NP HL HN HI HO (n - 1)) as (q & Hq & -> & Hor); [lia|auto|]. apply word_d; auto.
  Qed.

  Section Least.
    Variable j1 : nat.
    Hypothesis H1 : hit j1.
    Hypothesis HLe : forall j, hit j -> j1 <= j.
    Lemma first_jump : exists q, q < n /\ (q = 0 \/ hit q) /\ row j1 < row q /\ nxt (links c) (row (j1 - 1)) = row q /\
      (restored <-> word (links c) (n - j1 + d) (row q) = skipn j1 w ++ v).
    Proof.
      pose proof w_pos as NP. pose proof len_w as LW. destruct (hit_starts H1) as (Hd & Hn & E).
      assert (S (j1 - 1) = j1) as ES by lia. assert (j1 - 1 < n) as Hp by lia.
      destruct (@links_target w rows NP HL HN HI HO (j1 - 1) Hp) as (q & Hq & EQ & Hor); [right; rewrite ES; auto|].
      exists q. split; auto. split; auto. split; [|split; auto].
      - rewrite <- EQ. pose proof (@links_hit w rows NP HL HN HI HO (j1 - 1)) as X. rewrite ES in X. apply X; auto. lia.
      - unfold restored. replace n with ((j1 - d) + (n - j1 + d)) at 1 by lia. rewrite word_add.
        destruct (@word_plain_to w rows NP HL HN HI HO (j1 - d) d) as (W1 & W2); [lia|lia| |].
        { intros j Hj Hh. pose proof (HLe Hh). lia. }
        rewrite W1, W2, suffix_d. replace (d + (j1 - d) - 1) with (j1 - 1) by lia. rewrite EQ.
        assert (t ++ v = firstn (j1 - d) t ++ (skipn j1 w ++ v)) as ->.
        { rewrite (skipn_app j1 v t), (skipn_all2 v) by lia. cbn [app]. rewrite app_assoc, firstn_skipn. reflexivity. }
        split; [apply app_inv_head|intros ->; auto].
    Qed.

    (** what the first hit says about the later ones *)
    Lemma period_back : skipn j1 w ++ v = firstn (n - j1 + d) w -> forall r, j1 + r < n ->
      (exists rest, skipn r w = (skipn (j1 + r) w ++ v) ++ rest) /\ (0 < r -> nth (r - 1) w 0 = nth (j1 + r - 1) w 0).
    Proof.
      intros E r Hr. assert (w = (skipn j1 w ++ v) ++ skipn (n - j1 + d) w) as EW by (rewrite E; symmetry; apply firstn_skipn).
      remember (skipn (n - j1 + d) w) as R eqn:ER. clear ER. assert (length (skipn j1 w) = n - j1) as LS by apply skipn_length. split.
      - exists R. rewrite EW at 1. rewrite <- !app_assoc. rewrite skipn_app_le by lia. rewrite skipn_add, (Nat.add_comm r j1). reflexivity.
      - intros Hp. rewrite EW at 1. rewrite <- app_assoc, app_nth1 by lia. rewrite nth_skipn. f_equal. lia.
    Qed.
    Lemma later j : hit j -> skipn j1 w ++ v = firstn (n - j1 + d) w -> skipn j w ++ v = firstn (n - j + d) w.
    Proof.
      pose proof w_pos as NP. pose proof len_w as LW. intros Hh E. destruct (hit_starts Hh) as (Hd & Hn & _). destruct (hit_below Hh) as (Hj & HLt).
      destruct Hh as (_ & HX & HR). pose proof (hit_below H1) as (Hj1 & _).
      assert (length (skipn j w) = n - j) as LS by apply skipn_length.
      assert (forall k r, r < k -> r < n -> (0 < r -> nth (r - 1) w 0 = nth (n - 1) w 0) -> (exists rest, skipn r w = (skipn j w ++ v) ++ rest) ->
        exists rest, w = (skipn j w ++ v) ++ rest) as G.
      { induction k as [|k IH]; intros r Hk Hr HXr (rest & ER); [lia|]. destruct (Nat.eq_dec r 0) as [->|NR]; [exists rest; exact ER|].
        destruct (Nat.lt_trichotomy (row r) (row 0)) as [G|[G|G]].
        - assert (hit r) as Hhr by (split; [lia|split; auto; apply HXr; lia]). pose proof (HLe Hhr) as Hle.
          destruct (@period_back E (r - j1)) as ((rest' & ER') & EX); [lia|]. replace (j1 + (r - j1)) with r in * by lia.
          apply (IH (r - j1)); [lia|lia|intros Hp; rewrite EX by auto; apply HXr; lia|].
          rewrite ER', ER. exists (rest ++ v ++ rest'). rewrite <- !app_assoc. reflexivity.
        - apply (@row_inj w rows HI) in G; auto. lia.
        - apply (@row_lex w rows NP HL HI HO 0 r) in G; auto. cbn [skipn] in G. rewrite ER, <- app_assoc in G.
          destruct (lexlt_prefix_cases HLt) as [(w' & EW)|X].
          + rewrite EW in G at 1. apply lexlt_cancel in G.
            assert (w' = skipn (n - j) w) as EW'.
            { pose proof (f_equal (skipn (n - j)) EW) as X. rewrite (skipn_app (n - j) (skipn j w) w'), LS, Nat.sub_diag in X.
              rewrite (skipn_all2 (skipn j w)) in X by lia. cbn [skipn app] in X. auto. }
            pose proof (@suffix_ge v t d_pos HV HT (n - j) ltac:(lia)) as GE. rewrite <- EW' in GE. destruct GE as [GE|GE].
            * exists (skipn d w'). rewrite <- app_assoc. rewrite EW at 1. f_equal. rewrite GE at 1. symmetry. apply firstn_skipn.
            * exfalso. eapply lexlt_asym; [exact G|]. rewrite <- (firstn_skipn d w'). apply lexlt_cut_app; auto. rewrite firstn_length. lia.
          + exfalso. pose proof (X (v ++ rest) []) as Y. rewrite app_nil_r in Y. eapply lexlt_asym; [exact G|exact Y]. }
      assert (exists rest, w = (skipn j w ++ v) ++ rest) as (rest & EW).
      { assert (hit j) as Hhj by (split; auto). pose proof (HLe Hhj) as Hle. destruct (@period_back E (j - j1)) as (P & EX); [lia|].
        replace (j1 + (j - j1)) with j in * by lia. apply (G (S n) (j - j1)); [lia|lia| |exact P].
        intros Hp. rewrite EX; auto. }
      rewrite EW at 3. rewrite <- LS, <- app_length. symmetry. apply firstn_skipn_len.
    Qed.
  End Least.

  Theorem restored_iff : restored <-> repeats.
  Proof.
    pose proof w_pos as NP. pose proof len_w as LW.
    destruct (@least_hit w rows NP HL) as [H|(j1 & H1 & HLe)].
    { split; [intros _ j Hj; exfalso; eapply H; eauto|intros _; apply no_hits; auto]. }
    destruct (hit_starts H1) as (Hd1 & Hn1 & E1). destruct (first_jump H1 HLe) as (q & Hq & Hor & HRq & EQ & HIff).
    assert (length (skipn j1 w) = n - j1) as LS1 by apply skipn_length.
    split.
    - intros HR. pose proof (proj1 HIff HR) as HW. assert (q = 0) as ->.
      { destruct Hor as [|Hq']; auto. exfalso. pose proof (HLe _ Hq') as Hle. assert (q <> j1) by (intros ->; lia).
        assert (length (skipn q w) = n - q) as LSq by apply skipn_length.
        pose proof (@suffix_le w rows NP HL HN HI HO (n - q) q (row q) Hq ltac:(split; [lia|apply (@row_lt w rows HL HI); auto])) as X.
        rewrite firstn_all2 in X by lia. rewrite <- (@word_firstn _ (n - q) (n - j1 + d)) in X by lia. rewrite HW, firstn_app in X.
        replace (n - q - length (skipn j1 w)) with 0 in X by lia. cbn [firstn] in X. rewrite app_nil_r in X.
        apply (@row_lex w rows NP HL HI HO j1 q) in HRq; auto; [|lia]. pose proof (lexlt_cut HRq ltac:(lia)) as Y. rewrite LSq in Y.
        destruct X as [X|X]; [rewrite <- X in Y; eapply lexlt_irrefl; eauto|eapply lexlt_asym; eauto]. }
      intros j Hj. apply (@later j1 H1 HLe j Hj). rewrite <- HW. rewrite (Nat.add_comm (n - j1) d), word_add, (@word_d 0) by auto. rewrite walk_d.
      rewrite firstn_app_ge by lia. f_equal. replace (d + (n - j1) - d) with (n - j1) by lia.
      rewrite <- (@word_firstn _ (n - j1) n) by lia. unfold restored in HR. rewrite HR, firstn_app.
      replace (n - j1 - length t) with 0 by lia. cbn [firstn]. rewrite app_nil_r. reflexivity.
    - intros HC. apply HIff. assert (q = 0) as ->.
      { destruct Hor as [|Hq']; auto. exfalso. pose proof (HLe _ Hq') as Hle. assert (q <> j1) by (intros ->; lia).
        assert (length (skipn q w) = n - q) as LSq by apply skipn_length. pose proof (HC _ Hq') as Cq. pose proof (HC _ H1) as C1.
        apply (f_equal (firstn (n - q))) in Cq, C1. rewrite firstn_firstn, Nat.min_l in Cq, C1 by lia.
        rewrite firstn_app in Cq, C1. replace (n - q - length (skipn q w)) with 0 in Cq by lia. replace (n - q - length (skipn j1 w)) with 0 in C1 by lia.
        cbn [firstn] in Cq, C1. rewrite app_nil_r in Cq, C1. rewrite firstn_all2 in Cq by lia.
        apply (@row_lex w rows NP HL HI HO j1 q) in HRq; auto; [|lia]. pose proof (lexlt_cut HRq ltac:(lia)) as Y. rewrite LSq in Y.
        rewrite C1, <- Cq in Y. eapply lexlt_irrefl; eauto. }
      pose proof (HC _ H1) as C1. rewrite C1.
      assert (forall k m, m < k -> m <= n - j1 + d -> word (links c) m (row 0) = firstn m w) as G.
      { induction k as [|k IH]; intros m Hk Hm; [lia|]. destruct (Nat.eq_dec m 0) as [->|Nm]; [reflexivity|].
        destruct (Nat.le_gt_cases m j1) as [Gm|Gm].
        - destruct (@word_plain_to w rows NP HL HN HI HO m 0) as (W & _); [lia|lia| |exact W].
          intros j Hj Hh. pose proof (HLe _ Hh). lia.
        - destruct (@word_plain_to w rows NP HL HN HI HO j1 0) as (W1 & W2); [lia|lia| |].
          { intros j Hj Hh. pose proof (HLe _ Hh). lia. }
          cbn [skipn Nat.add] in W1, W2. rewrite EQ in W2.
          replace m with (j1 + (m - j1)) at 1 by lia. rewrite word_add, W1, W2, (IH (m - j1)) by lia.
          apply (f_equal (firstn (m - j1))) in C1. rewrite firstn_firstn, Nat.min_l, firstn_app in C1 by lia.
          replace (m - j1 - length (skipn j1 w)) with 0 in C1 by lia. cbn [firstn] in C1. rewrite app_nil_r in C1. rewrite <- C1.
          pose proof (@firstn_plus j1 (m - j1) w) as F. replace (j1 + (m - j1)) with m in F by lia. symmetry. exact F. }
      apply (G (S (n - j1 + d))); lia.
  Qed.
End Exact.

(** ** powers of the smallest suffix *)
Lemma power_reversible v m : 0 < length v -> (forall j, 0 < j < length v -> lexlt v (skipn j v)) ->
  let w := concat (repeat v (S m)) in forall j, 0 < j < length w -> lexlt (skipn j w) w -> exists rest, w = skipn j w ++ v ++ rest.
Proof.
  intros Hd HV w j Hj HLt. pose proof (power_length v (S m)) as LP. fold w in LP.
  destruct (@power_cases v (S m) Hd HV j ltac:(lia)) as [(q & Hq & ->)|H].
  - assert (0 < q) as Hq0 by (destruct q; lia).
    assert (w = concat (repeat v q) ++ concat (repeat v (S m - q))) as E by (rewrite <- power_add; unfold w; do 2 f_equal; lia).
    assert (skipn (q * length v) w = concat (repeat v (S m - q))) as ES.
    { rewrite E, <- (power_length v q), skipn_app, skipn_all, Nat.sub_diag. reflexivity. }
    rewrite ES. exists (concat (repeat v (q - 1))). change (v ++ concat (repeat v (q - 1))) with (concat (repeat v (S (q - 1)))).
    rewrite <- power_add. unfold w. do 2 f_equal. lia.
  - exfalso. specialize (H (concat (repeat v m)) []). rewrite app_nil_r in H. eapply lexlt_asym; [exact HLt|]. exact H.
Qed.

(** what a block sorted like its rotations has at such a place *)
Lemma safe_place v t : 0 < length v -> (forall j, 0 < j < length v -> lexlt v (skipn j v)) ->
  (forall j, j < length t -> lexlt v (skipn j t ++ v)) -> lexlt (v ++ t) t -> suffixes_sort_rotations (v ++ t) ->
  let w := v ++ t in forall j, 0 < j < length w -> nth (j - 1) w 0 = last w 0 -> lexlt (skipn j w) w -> exists rest, w = skipn j w ++ v ++ rest.
Proof.
  intros Hd HV HT HB HS w j Hj HX HLt. assert (length w = length v + length t) as LW by apply app_length.
  assert (skipn (length v) w = t) as ED by (unfold w; rewrite skipn_app, skipn_all, Nat.sub_diag; reflexivity).
  assert (length v < j) as Hdj.
  { destruct (Nat.lt_trichotomy (length v) j) as [G|[G|G]]; auto; exfalso.
    - subst j. rewrite ED in HLt. eapply lexlt_asym; eauto.
    - eapply lexlt_asym; [exact HLt|]. apply inner_above; auto. lia. }
  assert (last w 0 = nth (length w - 1) w 0) as EL by (apply (@last_last_of w (length w)); lia).
  assert (skipn (length w - 1) w = [last w 0]) as S1.
  { rewrite (@skipn_S w (length w - 1)) by lia. rewrite <- EL. replace (S (length w - 1)) with (length w) by lia. rewrite skipn_all. reflexivity. }
  assert (skipn (j - 1) w = last w 0 :: skipn j w) as S2.
  { rewrite (@skipn_S w (j - 1)) by lia. rewrite HX. replace (S (j - 1)) with j by lia. reflexivity. }
  assert (lexle (rotation w (length w - 1)) (rotation w (j - 1))) as HR.
  { apply HS; fold w; try lia. unfold suffix. rewrite S1, S2. apply lex_tail. destruct (skipn j w) eqn:E; [|constructor].
    apply (f_equal (@length nat)) in E. rewrite skipn_length in E. cbn [length] in E. lia. }
  unfold rotation in HR. rewrite S1, S2 in HR. cbn [app] in HR. apply (@lexle_cancel [last w 0]) in HR.
  assert (length (skipn j w) = length w - j) as LS by apply skipn_length.
  destruct (lexlt_prefix_cases HLt) as [(w' & EW)|X].
  - assert (w' = skipn (length w - j) w) as EW'.
    { pose proof (f_equal (skipn (length w - j)) EW) as X. rewrite (skipn_app (length w - j) (skipn j w) w'), LS, Nat.sub_diag in X.
      rewrite (skipn_all2 (skipn j w)) in X by lia. cbn [skipn app] in X. auto. }
    pose proof (@suffix_ge v t Hd HV HT (length w - j) ltac:(lia)) as GE. fold w in GE. rewrite <- EW' in GE.
    rewrite EW in HR at 2. rewrite firstn_app_ge in HR by lia. apply lexle_cancel in HR. apply (lexle_cut (length v)) in HR.
    rewrite !firstn_firstn, !Nat.min_l in HR by lia.
    replace (firstn (length v) w) with v in HR by (symmetry; apply firstn_skipn_len).
    assert (v = firstn (length v) w') as E by (apply lexle_antisym; auto).
    exists (skipn (length v) w'). rewrite EW at 1. f_equal. rewrite E at 1. symmetry. apply firstn_skipn.
  - exfalso. assert (lexlt (skipn j w ++ firstn (j - 1) w) w) as Y by (rewrite <- (app_nil_r w) at 3; apply X).
    assert (length (skipn j w ++ firstn (j - 1) w) = length w - 1) as LA by (rewrite app_length, LS, firstn_length; lia).
    assert (skipn j w ++ firstn (j - 1) w = firstn (length w - 1) w) as E.
    { apply lexle_antisym; auto. rewrite <- (firstn_all (skipn j w ++ firstn (j - 1) w)), LA. apply lexle_cut. right; auto. }
    pose proof (X (firstn (j - 1) w ++ skipn (length w - 1) w) []) as Z. rewrite app_nil_r, app_assoc, E, firstn_skipn in Z.
    eapply lexlt_irrefl; eauto.
Qed.

(** ** the theorems *)
Theorem safe_reversible u : rotation_safe u -> reversible u.
Proof.
  intros (i & Hmin & HS). exists i. split; auto. cbv zeta. pose proof (smallest_parts Hmin) as (HV & HT). destruct Hmin as (Hi & _).
  unfold suffix. assert (rotation u i = skipn i u ++ firstn i u) as ER by reflexivity. rewrite ER in *.
  set (v := skipn i u) in *. set (t := firstn i u) in *. assert (length v = length u - i) as LV by apply skipn_length.
  assert (0 < length v) as Hd by lia. intros j Hj HX HLt.
  destruct (list_eq_dec Nat.eq_dec t []) as [ET|NT].
  { exfalso. rewrite ET, app_nil_r in *. eapply lexlt_asym; [exact HLt|]. apply HV; auto. }
  destruct (@tail_above v t Hd HV HT NT) as [HB|(m & EM)].
  - apply (@safe_place v t Hd HV HT HB HS j Hj HX HLt).
  - rewrite EM in *. exact (@power_reversible v (S m) Hd HV j Hj HLt).
Qed.

Theorem word_reversible u c ptr : bwt_spec u c ptr -> (word (links c) (length c) ptr = u <-> reversible u).
Proof.
  intros HSP. pose proof HSP as (i & sa & Hmin & HSA & EC & HP & EP). cbv zeta in *.
  assert (reversible u <-> (let w := rotation u i in
    forall j, 0 < j < length w -> nth (j - 1) w 0 = last w 0 -> lexlt (suffix w j) w ->
      exists rest, w = suffix w j ++ suffix u i ++ rest)) as HRV.
  { split; [|exists i; split; auto]. intros (i' & Hmin' & H). rewrite (@smallest_suffix_unique u i i' Hmin Hmin'). exact H. }
  pose proof (smallest_parts Hmin) as (HV & HT). pose proof Hmin as (Hi & _).
  assert (length (rotation u i) = length u) as RL by apply rotation_length.
  destruct (filtered_sa HSA) as (F1 & F2 & F3 & F4). cbv zeta in *. rewrite RL in F1, F2, F3, F4.
  set (rows := filter (fun x => x <? length u) sa) in *. clearbody rows.
  unfold suffix in HRV. set (v := skipn i u) in *. set (t := firstn i u) in *.
  assert (u = t ++ v) as EU by (symmetry; apply firstn_skipn).
  assert (length v = length u - i) as LV by apply skipn_length.
  assert (length t = i) as LT by (apply firstn_length_le; lia).
  assert (0 < length v) as Hd by lia.
  assert (rotation u i = v ++ t) as ER by reflexivity.
  assert (suffixes_sort_rotations (rotation u i) -> word (links c) (length c) ptr = u <-> reversible u) as HSafe.
  { intros HS. split; [intros _; apply safe_reversible; exists i; auto|]. intros _.
    pose proof (@bwt_inverse_safe u c ptr HSP ltac:(exists i; auto)) as E. rewrite inverse_path in E by (rewrite (bwt_length HSP); auto).
    rewrite path_word in E. congruence. }
  destruct (list_eq_dec Nat.eq_dec t []) as [ET|NT].
  { apply HSafe, minimal_sorts. intros j Hj. rewrite RL in Hj. rewrite ER, ET, app_nil_r. unfold rotation.
    destruct (Nat.eq_dec j 0) as [->|N]; [left; cbn [skipn firstn]; rewrite app_nil_r; auto|]. right.
    rewrite <- (app_nil_r v) at 1. apply lexlt_cut_app; [apply HV; rewrite ET in LT; cbn [length] in LT; lia|rewrite skipn_length; lia]. }
  destruct (@tail_above v t Hd HV HT NT) as [HB|(m & EM)].
  2:{ apply HSafe, minimal_sorts. rewrite ER, EM. change (v ++ concat (repeat v (S m))) with (concat (repeat v (S (S m)))).
      intros j Hj. apply power_minimal; auto. }
  clear HSafe. rewrite ER in *. assert (0 < length t) as NT' by (destruct t; [congruence|cbn [length]; lia]).
  rewrite <- RL in F1, F3, F4. assert (length (v ++ t) = length v + length t) as LW by apply app_length.
  assert (0 < length (v ++ t)) as Hn by lia.
  assert (c = col (v ++ t) rows) as -> by (unfold col; rewrite RL; exact EC).
  assert (nth ptr rows 0 = length v) as EP' by (rewrite EP, <- LV; apply Nat.mod_small; lia).
  assert (ptr = row rows (length v)) as ->.
  { rewrite <- EP'. symmetry. apply (@row_of_nth (v ++ t) rows); auto. lia. }
  assert (length (col (v ++ t) rows) = length (v ++ t)) as -> by (apply col_length; auto).
  pose proof (@restored_iff v t rows F1 F2 F3 F4 Hd HV HT NT' HB) as R. unfold restored in R. rewrite EU at 1. rewrite R, HRV. clear R HRV. cbv zeta.
  assert (last (v ++ t) 0 = nth (length (v ++ t) - 1) (v ++ t) 0) as EL by (apply (@last_last_of (v ++ t) (length (v ++ t))); lia).
  assert (forall j, hit (v ++ t) rows j <-> 0 < j < length (v ++ t) /\ nth (j - 1) (v ++ t) 0 = last (v ++ t) 0 /\ lexlt (skipn j (v ++ t)) (v ++ t)) as HH.
  { intros j. unfold hit. rewrite EL. split; intros (A & B & C); (split; [auto|]); (split; [auto|]).
    - apply (@row_lex (v ++ t) rows Hn F1 F3 F4 j 0) in C; auto; lia.
    - apply (@row_lex (v ++ t) rows Hn F1 F3 F4 j 0); auto; lia. }
  unfold repeats. split.
  - intros H j Hj HX HLt. specialize (H j (proj2 (HH j) (conj Hj (conj HX HLt)))).
    exists (skipn (length (v ++ t) - j + length v) (v ++ t)). rewrite app_assoc, H. symmetry. apply firstn_skipn.
  - intros H j Hh. apply HH in Hh as (Hj & HX & HLt). destruct (H j Hj HX HLt) as (rest & E).
    assert (length (skipn j (v ++ t)) = length (v ++ t) - j) as LS by apply skipn_length.
    rewrite E at 3. rewrite <- LS, <- app_length, app_assoc. symmetry. apply firstn_skipn_len.
Qed.

Theorem inverse_reversible u c ptr : bwt_spec u c ptr -> (inverse_bwt c ptr = Ok u <-> reversible u).
Proof.
  intros H. rewrite <- (word_reversible H). rewrite inverse_path.
  - rewrite path_word. split; intros E; [congruence|rewrite E; auto].
  - rewrite (bwt_length H). destruct H as (i & sa & H). cbv zeta in H. tauto.
Qed.
Lemma unsort_word c ptr : ptr < length c -> unsort c ptr = Some (word (links c) (length c) ptr).
Proof.
  intros HP. unfold unsort. rewrite (proj1 (rebuild_paths c (length c))).
  rewrite nth_error_map, (nth_error_nth' _ 0) by (rewrite seq_length; auto). rewrite seq_nth by auto. cbn [option_map Nat.add].
  rewrite path_word. reflexivity.
Qed.
Theorem unsort_reversible_iff u c ptr : bwt_spec u c ptr -> (unsort c ptr = Some u <-> reversible u).
Proof.
  intros H. rewrite <- (word_reversible H). rewrite unsort_word.
  - split; intros E; [congruence|rewrite E; auto].
  - rewrite (bwt_length H). destruct H as (i & sa & H). cbv zeta in H. tauto.
Qed.
Lemma bwt_inverse_reversible u c ptr : bwt_spec u c ptr -> reversible u -> inverse_bwt c ptr = Ok u.
Proof. intros H. apply inverse_reversible; auto. Qed.
Lemma unsort_reversible u c ptr : bwt_spec u c ptr -> reversible u -> unsort c ptr = Some u.
Proof. intros H. apply unsort_reversible_iff; auto. Qed.
Lemma reversible_ok u : u <> [] -> rotation_safe_b u = true -> reversible u.
Proof. intros H E. apply safe_reversible, rotation_safe_ok; auto. Qed.

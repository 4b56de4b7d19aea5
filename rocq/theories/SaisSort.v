(** * SA-IS: the two sorting passes, block comparison and naming *)
From Verif Require Import Base BaseFacts SpecBwt LexFacts Sais SaisBase SaisInduce.

(** ** generic list facts *)
Lemma lexlt_sandwich w a b z : lexlt (w ++ a) z -> lexlt z (w ++ b) -> exists r, z = w ++ r.
Proof.
  revert z; induction w as [|h w IH]; intros z H1 H2; [eexists; reflexivity|].
  destruct z as [|y z]; [inversion H1|]. cbn [app] in *.
  apply lexlt_cons_inv in H1, H2.
  destruct H1 as [H1|[-> H1]]; destruct H2 as [H2|[E2 H2]]; try lia.
  destruct (IH z H1 H2) as (r & ->). exists r; reflexivity.
Qed.

Lemma lexlt_app_cases a b r s : lexlt (a ++ r) (b ++ s) ->
  (forall r' s', lexlt (a ++ r') (b ++ s')) \/ (exists t, b = a ++ t) \/ (exists t, a = b ++ t).
Proof.
  revert b; induction a as [|x a IH]; intros b H; [right; left; exists b; reflexivity|].
  destruct b as [|y b]; [right; right; eexists; reflexivity|].
  cbn [app] in H. apply lexlt_cons_inv in H as [H|[-> H]].
  - left. intros. apply lex_head; auto.
  - destruct (IH b H) as [G|[(t & ->)|(t & ->)]].
    + left. intros. apply lex_tail; auto.
    + right; left. eexists; reflexivity.
    + right; right. eexists; reflexivity.
Qed.

Lemma fold_res_filter {A S} (f g : S -> A -> res S) (P : A -> bool) l s :
  (forall s x, In x l -> f s x = if P x then g s x else Ok s) ->
  fold_res f l s = fold_res g (filter P l) s.
Proof.
  revert s; induction l as [|x l IH]; intros s H; [reflexivity|]. cbn [fold_res filter].
  rewrite H by (left; auto). destruct (P x).
  - cbn [fold_res]. destruct (g s x); cbn [bind]; auto. apply IH; intros; apply H; right; auto.
  - cbn [bind]. apply IH; intros; apply H; right; auto.
Qed.

Lemma fold_res_map_in {A B S} (f : S -> A -> res S) (g : S -> B -> res S) (h : A -> B) l s :
  (forall s x, In x l -> f s x = g s (h x)) -> fold_res f l s = fold_res g (map h l) s.
Proof.
  revert s; induction l as [|x l IH]; intros s H; [reflexivity|]. cbn [fold_res map].
  rewrite H by (left; auto). destruct (g s (h x)); cbn [bind]; auto. apply IH; intros; apply H; right; auto.
Qed.

Lemma seq_split_at a k i : i <= k -> seq a k = seq a i ++ seq (a + i) (k - i).
Proof. intros H. rewrite <- seq_app. f_equal; lia. Qed.

Lemma filter_rev_eq {A} (P : A -> bool) l : filter P (rev l) = rev (filter P l).
Proof.
  induction l as [|x l IH]; [reflexivity|]. cbn [rev filter]. rewrite filter_app, IH. cbn [filter].
  destruct (P x); cbn [rev]; [reflexivity|apply app_nil_r].
Qed.

Lemma filter_seq_incr (P : nat -> bool) a k i j :
  i < j < length (filter P (seq a k)) -> nth i (filter P (seq a k)) 0 < nth j (filter P (seq a k)) 0.
Proof.
  revert a i j; induction k as [|k IH]; intros a i j; cbn [seq filter]; [cbn [length]; lia|].
  destruct (P a); [|apply IH]. cbn [length]. intros H.
  destruct j as [|j]; [lia|]. cbn [nth].
  destruct i as [|i]; [|apply IH; lia].
  assert (In (nth j (filter P (seq (S a) k)) 0) (filter P (seq (S a) k))) as Hin by (apply nth_In; lia).
  apply filter_In in Hin as (Hin & _). apply in_seq in Hin. lia.
Qed.

Section Sort.
  Variable text : list nat.
  Variable types : list suffix_type.
  Variable alpha : nat.
  Hypothesis HT : types_ok text types.
  Hypothesis HA : Forall (fun x => x < alpha) text.

  Notation n := (length text).
  Notation c := (ch text).
  Notation isS := (isS types).
  Notation isL := (isL types).
  Notation lms := (lms types).
  Notation code := (code text types).
  Notation sizes := (map (size_of text) (seq 0 alpha)).

  (** ** injectivity of the keys *)
  Lemma code_inj x y : x < n -> y < n -> code x = code y -> c x = c y /\ isS x = isS y.
  Proof.
    intros Hx Hy. rewrite !(@code_lt text types) by auto. destruct (isS x), (isS y); intros; split; auto; lia.
  Qed.
  Lemma code_pos x : x < n -> 0 < code x.
  Proof. intros Hx. rewrite (@code_lt text types) by auto. destruct (isS x); lia. Qed.
  Lemma code_n : code n = 0.
  Proof. apply code_end. Qed.

  Section Inj.
    Variable tk : nat -> list nat.
    Hypothesis tk_inj : forall x y, x < n -> y < n -> lms x = true -> lms y = true -> tk x = tk y -> x = y.

    Lemma K1_inj_gen x y : dom text types lms x -> dom text types lms y ->
      K1 text types tk x = K1 text types tk y -> x = y.
    Proof.
      remember (n - x) as d eqn:Hd. revert x y Hd.
      induction d as [d IH] using lt_wf_ind. intros x y Hd Dx Dy E.
      destruct (K1_code tk Dx) as (tx & Ex). destruct (K1_code tk Dy) as (ty & Ey).
      assert (code x = code y) as Ec by congruence.
      destruct Dx as [->|[Hx Dx]], Dy as [->|[Hy Dy]]; auto.
      - rewrite code_n in Ec. pose proof (code_pos Hy). lia.
      - rewrite code_n in Ec. pose proof (code_pos Hx). lia.
      - destruct (@code_inj x y Hx Hy Ec) as (_ & ES).
        destruct Dx as [Lx|Mx].
        + assert (isL y = true) as Ly by (unfold isL in *; congruence).
          rewrite (@K1_L text types tk x Hx Lx), (@K1_L text types tk y Hy Ly), Ec in E. injection E as E.
          assert (x + 1 = y + 1); [|lia].
          apply (IH (n - (x + 1))); auto; try lia; apply (@dom1_succ text types); auto.
        + pose proof (@lms_S types x Mx) as Sx.
          assert (lms y = true) as My.
          { destruct Dy as [Ly|]; auto. unfold SaisInduce.isL in Ly. rewrite <- ES, Sx in Ly. discriminate. }
          rewrite (@K1_lms text types tk x Hx Mx), (@K1_lms text types tk y Hy My), Ec in E. injection E as E. auto.
    Qed.

    Lemma K2_inj_gen x y : dom text types isS x -> dom text types isS y ->
      K2 text types tk x = K2 text types tk y -> x = y.
    Proof.
      remember (n - x) as d eqn:Hd. revert x y Hd.
      induction d as [d IH] using lt_wf_ind. intros x y Hd Dx Dy E.
      destruct (K2_code tk Dx) as (tx & Ex). destruct (K2_code tk Dy) as (ty & Ey).
      assert (code x = code y) as Ec by congruence.
      destruct Dx as [->|[Hx Dx]], Dy as [->|[Hy Dy]]; auto.
      - rewrite code_n in Ec. pose proof (code_pos Hy). lia.
      - rewrite code_n in Ec. pose proof (code_pos Hx). lia.
      - destruct (@code_inj x y Hx Hy Ec) as (_ & ES).
        destruct (isS x) eqn:Sx.
        + rewrite (@K2_S text types tk x Hx Sx), (@K2_S text types tk y Hy (eq_sym ES)), Ec in E. injection E as E.
          assert (x + 1 = y + 1); [|lia].
          apply (IH (n - (x + 1))); auto; try lia; apply (@dom2_all text types); lia.
        + assert (isL x = true) as Lx by (unfold SaisInduce.isL; rewrite Sx; auto).
          assert (isL y = true) as Ly by (unfold SaisInduce.isL; rewrite <- ES; auto).
          rewrite !K2_L in E by auto. apply K1_inj_gen in E; auto; right; auto.
    Qed.
  End Inj.

  (** ** full coded suffixes and their order *)
  Definition C (j : nat) : list nat := map code (seq j (n + 1 - j)).

  Lemma C_cons j : j <= n -> C j = code j :: C (j + 1).
  Proof.
    intros H. unfold C. destruct (n + 1 - j) as [|k] eqn:E; [lia|].
    cbn [seq map]. f_equal. f_equal. f_equal; lia.
  Qed.
  Lemma C_n : C n = [0].
  Proof. unfold C. replace (n + 1 - n) with 1 by lia. cbn [seq map]. rewrite code_n; auto. Qed.
  Lemma C_length j : length (C j) = n + 1 - j.
  Proof. unfold C. rewrite map_length, seq_length; auto. Qed.
  Lemma C_seg j p : j <= p <= n -> C j = map code (seq j (p - j)) ++ C p.
  Proof.
    intros H. unfold C. rewrite (@seq_split_at j (n + 1 - j) (p - j)) by lia. rewrite map_app.
    f_equal. f_equal. f_equal; lia.
  Qed.

  Lemma suffix_cons i : i < n -> suffix text i = c i :: suffix text (i + 1).
  Proof.
    intros H. unfold suffix, ch. rewrite Nat.add_1_r. clear HT HA.
    revert i H. induction text as [|x t IH]; intros i H; [simpl in H; lia|].
    destruct i; [reflexivity|]. cbn [skipn nth]. apply IH. simpl in H; lia.
  Qed.
  Lemma suffix_end : suffix text n = [].
  Proof. apply skipn_all. Qed.

  Lemma LS_order i j : i < n -> j < n -> c i = c j -> isS i = true -> isL j = true ->
    lexlt (suffix text j) (suffix text i).
  Proof.
    remember (n - i) as d eqn:Hd. revert i j Hd.
    induction d as [d IH] using lt_wf_ind. intros i j Hd Hi Hj Ec HS HL.
    destruct (@S_facts text types HT i Hi HS) as (S0 & S1 & S2).
    rewrite (@suffix_cons i Hi), (@suffix_cons j Hj), Ec. apply lex_tail.
    destruct (Nat.eq_dec (j + 1) n) as [E|E].
    - rewrite E, suffix_end, (@suffix_cons (i + 1) S0). constructor.
    - assert (j + 1 < n) as J1 by lia.
      destruct (@L_facts text types HT j J1 HL) as (L1 & L2).
      destruct (Nat.lt_ge_cases (c (j + 1)) (c (i + 1))) as [Hlt|Hge].
      + rewrite (@suffix_cons (i + 1) S0), (@suffix_cons (j + 1) J1). apply lex_head; auto.
      + apply (IH (n - (i + 1))); auto; try lia.
        * apply S2; lia.
        * apply L2; lia.
  Qed.

  Lemma C_mono i j : i <= n -> j <= n -> lexlt (suffix text i) (suffix text j) -> lexlt (C i) (C j).
  Proof.
    remember (n - i) as d eqn:Hd. revert i j Hd.
    induction d as [d IH] using lt_wf_ind. intros i j Hd Hi Hj H.
    destruct (Nat.eq_dec j n) as [->|Hjn]; [rewrite suffix_end in H; inversion H|].
    destruct (Nat.eq_dec i n) as [->|Hin].
    { rewrite C_n, (@C_cons j Hj). apply lex_head. apply code_pos; lia. }
    rewrite (@C_cons i Hi), (@C_cons j Hj).
    assert (i < n) as Hi' by lia. assert (j < n) as Hj' by lia.
    pose proof H as H0. rewrite (@suffix_cons i Hi'), (@suffix_cons j Hj') in H0.
    apply lexlt_cons_inv in H0.
    apply lexlt_cons_inv. rewrite !(@code_lt text types) by auto.
    destruct H0 as [Hc|[Ec Hs]].
    - left. destruct (isS i), (isS j); lia.
    - destruct (isS i) eqn:Si, (isS j) eqn:Sj; rewrite Ec.
      + right. split; auto. apply (IH (n - (i + 1))); auto; lia.
      + exfalso. apply (lexlt_asym H). apply LS_order; auto. unfold SaisInduce.isL; rewrite Sj; auto.
      + left; lia.
      + right. split; auto. apply (IH (n - (i + 1))); auto; lia.
  Qed.

  Lemma suffix_length i : length (suffix text i) = n - i.
  Proof. apply skipn_length. Qed.

  Lemma C_iff i j : i <= n -> j <= n -> (lexlt (C i) (C j) <-> lexlt (suffix text i) (suffix text j)).
  Proof.
    intros Hi Hj. split; [|apply C_mono; auto]. intros H.
    destruct (lexlt_total (suffix text i) (suffix text j)) as [G|[G|G]]; auto.
    - apply (f_equal (@length nat)) in G. rewrite !suffix_length in G. assert (i = j) by lia. subst.
      exfalso; eapply lexlt_irrefl; eauto.
    - apply C_mono in G; auto. exfalso; eapply lexlt_asym; eauto.
  Qed.

  (** ** the second pass: keys are full suffixes *)
  Definition tkB (s : nat) : list nat := C (s + 1).
  Lemma tkB_inj x y : x < n -> y < n -> lms x = true -> lms y = true -> tkB x = tkB y -> x = y.
  Proof.
    intros Hx Hy _ _ E. apply (f_equal (@length nat)) in E. unfold tkB in E. rewrite !C_length in E. lia.
  Qed.

  Lemma K1B j : j <= n -> K1 text types tkB j = C j.
  Proof.
    remember (n - j) as d eqn:Hd. revert j Hd. induction d as [|d IH]; intros j Hd Hj.
    - assert (j = n) as -> by lia. rewrite K1_end, C_n; auto.
    - unfold K1. rewrite <- Hd. cbn [k1]. rewrite (@C_cons j Hj).
      destruct (lms j); [reflexivity|]. f_equal. rewrite <- (IH (j + 1)) by lia.
      unfold K1. f_equal; lia.
  Qed.
  Lemma K2B j : j <= n -> K2 text types tkB j = C j.
  Proof.
    remember (n - j) as d eqn:Hd. revert j Hd. induction d as [|d IH]; intros j Hd Hj.
    - assert (j = n) as -> by lia. rewrite K2_end, C_n; auto.
    - unfold K2. rewrite <- Hd. cbn [k2].
      destruct (isL j); [apply K1B; auto|]. rewrite (@C_cons j Hj).
      f_equal. rewrite <- (IH (j + 1)) by lia.
      unfold K2. f_equal; lia.
  Qed.

  Lemma initial_row : exists sa0, set_at (repeat None (n + 1)) 0 (Some n) = Ok sa0 /\
    length sa0 = n + 1 /\ forall p, nth p sa0 None = if p =? 0 then Some n else None.
  Proof.
    destruct (@set_at_do _ (repeat None (n + 1)) 0 (Some n) None) as (sa0 & E & L & N).
    { rewrite repeat_length; lia. }
    exists sa0. split; auto. rewrite repeat_length in L. split; auto.
    intros p. rewrite N. destruct (p =? 0); auto. apply nth_repeat.
  Qed.

  Lemma second_pass summary offsets order :
    (forall x, In x order <-> x < n /\ lms x = true) ->
    (forall a b, a < b < length order -> lexlt (suffix text (nth a order 0)) (suffix text (nth b order 0))) ->
    length summary = length order + 2 ->
    (forall k, k < length order -> exists e, nth_error summary (k + 2) = Some (Some e) /\
        nth_error offsets e = Some (nth k order 0)) ->
    exists sa sa1 l, place_lms_characters (repeat None (n + 1)) text sizes summary offsets = Ok sa /\
      induction_sort_l sa text types sizes = Ok sa1 /\
      induction_sort_s sa1 text types sizes = Ok (map Some l) /\ is_suffix_array text l.
  Proof.
    intros HI HO HL HS.
    pose proof (@K1_inj_gen tkB tkB_inj) as I1. pose proof (@K2_inj_gen tkB tkB_inj) as I2.
    destruct initial_row as (sa0 & E0 & L0 & N0).
    destruct (@place_all text types alpha HA tkB I1 (rev order) sa0) as (sa & hs & EP & IN); auto.
    - intros x. rewrite <- in_rev. apply HI.
    - apply NoDup_rev. apply (NoDup_nth order 0). intros a b Ha Hb Eab.
      destruct (Nat.lt_trichotomy a b) as [G|[G|G]]; auto; exfalso.
      + apply (@lexlt_irrefl (suffix text (nth a order 0))). rewrite Eab at 2. apply HO; lia.
      + apply (@lexlt_irrefl (suffix text (nth a order 0))). rewrite Eab at 1. apply HO; lia.
    - rewrite rev_length. intros a b Hab _. rewrite !rev_nth by lia.
      assert (nth (length order - S b) order 0 < n) as H1.
      { apply (HI (nth (length order - S b) order 0)). apply nth_In; lia. }
      assert (nth (length order - S a) order 0 < n) as H2.
      { apply (HI (nth (length order - S a) order 0)). apply nth_In; lia. }
      rewrite !K1B by lia. apply C_iff; [lia|lia|]. apply HO; lia.
    - destruct (@induce_ok text types alpha HT HA tkB I1 I2 sa sizes IN eq_refl)
        as (sa1 & sa2 & E1 & E2 & L2 & N2).
      destruct (@sorted_result text types tkB I2 sa2 L2 N2) as (l & El & Ll & Il & NDl & Ol & _).
      exists sa, sa1, l. split; [|split; [|split]]; auto.
      + unfold place_lms_characters. rewrite E0. cbn [bind]. rewrite bucket_tails_ok.
        rewrite (@fold_res_map_in _ _ _ _ (place_step text)
                   (fun i => nth (i - 2) order 0)).
        * assert (map (fun i => nth (i - 2) order 0) (rev (seq 2 (length summary - 2))) = rev order) as ->;
            [|rewrite EP; reflexivity].
          rewrite map_rev. f_equal. rewrite HL. replace (length order + 2 - 2) with (length order) by lia.
          apply (nth_ext _ _ 0 0); [rewrite map_length, seq_length; auto|].
          intros i Hi. rewrite map_length, seq_length in Hi.
          apply nth_of_error. rewrite nth_error_map, nth_error_seq.
          apply Nat.ltb_lt in Hi; rewrite Hi. cbn [option_map]. f_equal. f_equal. lia.
        * intros s i Hi. apply in_rev in Hi. apply in_seq in Hi.
          destruct (HS (i - 2)) as (e & He1 & He2); [lia|].
          replace (i - 2 + 2) with i in He1 by lia.
          unfold place_lms_step, place_step. rewrite (get_at_some _ _ He1). cbn [bind of_option].
          rewrite (get_at_some _ _ He2). cbn [bind]. reflexivity.
      + subst; auto.
      + split; [exact Ll|]. split.
        * intros i Hi. apply Il; auto.
        * intros a b i j Hab Ha Hb.
          pose proof (nth_error_lt _ _ Ha) as La. pose proof (nth_error_lt _ _ Hb) as Lb.
          pose proof (nth_error_In _ _ Ha) as Ia. pose proof (nth_error_In _ _ Hb) as Ib.
          apply Il in Ia, Ib.
          apply (nth_of_error _ _ 0) in Ha, Hb.
          assert (lexlt (K2 text types tkB i) (K2 text types tkB j)) as H.
          { rewrite <- Ha, <- Hb. apply Ol. lia. }
          rewrite !K2B in H by auto. apply C_iff in H; auto.
  Qed.

  (** ** the first pass: keys are LMS substrings with the position as tie break *)
  Definition tkA (s : nat) : list nat := [s].
  Lemma tkA_inj x y : x < n -> y < n -> lms x = true -> lms y = true -> tkA x = tkA y -> x = y.
  Proof. intros _ _ _ _ E. injection E as E; auto. Qed.

  Notation KA := (K2 text types tkA).
  Notation KA1 := (K1 text types tkA).

  Lemma first_pass : exists sa sa1 l,
    identify_lms_characters (repeat None (n + 1)) text types sizes = Ok sa /\
    induction_sort_l sa text types sizes = Ok sa1 /\
    induction_sort_s sa1 text types sizes = Ok (map Some l) /\
    length l = n + 1 /\ (forall x, In x l <-> x <= n) /\ NoDup l /\
    (forall a b, a < b <= n -> lexlt (KA (nth a l 0)) (KA (nth b l 0))) /\ nth 0 l 0 = n.
  Proof.
    pose proof (@K1_inj_gen tkA tkA_inj) as I1. pose proof (@K2_inj_gen tkA tkA_inj) as I2.
    destruct initial_row as (sa0 & E0 & L0 & N0).
    (* the LMS positions of a bucket are met from the right, which is descending key order *)
    assert (exists sa hs, fold_res (identify_step text types) (rev (seq 0 n))
              (sa0, map (tail_of text) (seq 0 alpha)) = Ok (sa, hs) /\ initial text types tkA sa) as (sa & hs & EP & IN).
    { rewrite (@fold_res_filter _ _ _ (place_step text) lms).
      2:{ intros s x Hx. apply in_rev in Hx. apply in_seq in Hx.
          unfold identify_step. rewrite (@is_lms_ok text types HT x) by lia. cbn [bind].
          destruct (lms x); reflexivity. }
      rewrite filter_rev_eq.
      apply (@place_all text types alpha HA tkA I1); auto.
      - intros x. rewrite <- in_rev, filter_In, in_seq. unfold lmsP. split; intros [A B]; split; auto; lia.
      - apply NoDup_rev, NoDup_filter, seq_NoDup.
      - rewrite rev_length. intros a b Hab Ec. rewrite !rev_nth in * by lia.
        set (F := filter lms (seq 0 n)) in *.
        assert (forall k, k < length F -> nth k F 0 < n /\ lms (nth k F 0) = true) as HF.
        { intros k Hk. assert (In (nth k F 0) F) as Hin by (apply nth_In; auto).
          apply filter_In in Hin as (H1 & H2). apply in_seq in H1. split; auto; lia. }
        destruct (HF (length F - S a)) as (A1 & A2); [lia|].
        destruct (HF (length F - S b)) as (B1 & B2); [lia|].
        rewrite (@K1_lms text types tkA _ A1 A2), (@K1_lms text types tkA _ B1 B2).
        rewrite !(@code_lt text types) by auto. rewrite Ec, (@lms_S types _ A2), (@lms_S types _ B2).
        apply lex_tail. apply lex_head. apply filter_seq_incr. fold F. lia. }
    destruct (@induce_ok text types alpha HT HA tkA I1 I2 sa sizes IN eq_refl)
      as (sa1 & sa2 & E1 & E2 & L2 & N2).
    destruct (@sorted_result text types tkA I2 sa2 L2 N2) as (l & El & Ll & Il & NDl & Ol & Z).
    exists sa, sa1, l. split; [|split; [auto|split; [subst; auto|auto 10]]].
    unfold identify_lms_characters. rewrite E0. cbn [bind]. rewrite bucket_tails_ok, EP. reflexivity.
  Qed.

  (** ** the next LMS position *)
  Fixpoint nxt (d j : nat) : nat :=
    match d with O => j | S d' => if lms j then j else nxt d' (S j) end.
  Definition next (x : nat) : nat := nxt (n - S x) (S x).

  Lemma nxt_spec d j : j <= nxt d j <= j + d /\ (nxt d j < j + d -> lms (nxt d j) = true) /\
    forall y, j <= y < nxt d j -> lms y = false.
  Proof.
    revert j; induction d as [|d IH]; intros j; cbn [nxt].
    - repeat split; try lia.
    - destruct (lms j) eqn:E; [repeat split; auto; try lia|].
      destruct (IH (S j)) as (H1 & H2 & H3). repeat split; try lia.
      + intros H. apply H2; lia.
      + intros y Hy. destruct (Nat.eq_dec y j) as [->|]; auto. apply H3; lia.
  Qed.

  Lemma next_spec x : x < n -> x < next x <= n /\ (next x < n -> lms (next x) = true) /\
    forall y, x < y < next x -> lms y = false.
  Proof.
    intros H. unfold next. destruct (nxt_spec (n - S x) (S x)) as (H1 & H2 & H3).
    repeat split; try lia; intros; [apply H2|apply H3]; lia.
  Qed.

  Lemma next_unique x p : x < n -> x < p <= n -> (p < n -> lms p = true) ->
    (forall y, x < y < p -> lms y = false) -> next x = p.
  Proof.
    intros Hx Hp H1 H2. destruct (next_spec Hx) as (N1 & N2 & N3).
    destruct (Nat.lt_trichotomy (next x) p) as [G|[G|G]]; auto.
    - rewrite (H2 (next x)) in N2 by lia. specialize (N2 ltac:(lia)). discriminate.
    - rewrite (N3 p) in H1 by lia. specialize (H1 ltac:(lia)). discriminate.
  Qed.

  Lemma K1_seg j p : j <= p <= n -> (forall y, j <= y < p -> lms y = false) ->
    KA1 j = map code (seq j (p - j)) ++ KA1 p.
  Proof.
    remember (p - j) as d eqn:Hd. revert j Hd. induction d as [|d IH]; intros j Hd Hj HL.
    - assert (j = p) as -> by lia. reflexivity.
    - unfold K1 at 1. replace (n - j) with (S (n - S j)) by lia. cbn [k1 seq map app].
      rewrite HL by lia. f_equal. rewrite <- (IH (S j)); [reflexivity|lia|lia|]. intros; apply HL; lia.
  Qed.

  Lemma K2_seg j p : isS j = true -> j < p <= n -> (forall y, j < y < p -> lms y = false) ->
    (p < n -> lms p = true) -> KA j = map code (seq j (p - j)) ++ KA1 p.
  Proof.
    remember (p - j) as d eqn:Hd. revert j Hd. induction d as [|d IH]; intros j Hd HS Hj HL HP; [lia|].
    assert (j < n) as Hjn by lia.
    rewrite (@K2_S text types tkA j Hjn HS). cbn [seq map app]. f_equal.
    destruct (@S_facts text types HT j Hjn HS) as (F0 & _).
    assert (lms (j + 1) = false) as HN.
    { rewrite Nat.add_1_r. cbn [SaisInduce.lms]. unfold SaisInduce.isL. rewrite HS. cbn [negb].
      apply andb_false_r. }
    assert (j + 1 < p) as Hp1.
    { destruct (Nat.eq_dec (j + 1) p) as [E|]; [|lia]. rewrite <- E in HP. rewrite HP in HN by lia. discriminate. }
    rewrite Nat.add_1_r in *.
    destruct (isS (S j)) eqn:S1.
    - apply IH; auto; try lia. intros; apply HL; lia.
    - rewrite K2_L by (unfold SaisInduce.isL; rewrite S1; auto).
      rewrite (@K1_seg (S j) p); [|lia|intros; apply HL; lia]. f_equal. f_equal. f_equal. lia.
  Qed.

  Definition wd (x : nat) : list nat := map code (seq x (S (next x - x))).

  Lemma wd_eq x : x < n -> wd x = map code (seq x (next x - x)) ++ [code (next x)].
  Proof.
    intros Hx. destruct (next_spec Hx) as (N1 & N2 & N3).
    unfold wd. rewrite seq_S, map_app. cbn [map]. replace (x + (next x - x)) with (next x) by lia. auto.
  Qed.

  Lemma KA_block x : x < n -> lms x = true ->
    exists r, KA x = wd x ++ r.
  Proof.
    intros Hx Hl. destruct (next_spec Hx) as (N1 & N2 & N3).
    rewrite (@K2_seg x (next x)) by (auto using lms_S; lia).
    rewrite (wd_eq Hx).
    destruct (Nat.eq_dec (next x) n) as [E|E].
    - rewrite E, K1_end, code_n. exists []. rewrite app_nil_r; reflexivity.
    - rewrite (@K1_lms text types tkA (next x)); [|lia|apply N2; lia]. exists (tkA (next x)).
      rewrite <- app_assoc; reflexivity.
  Qed.

  Lemma C_block x : x < n -> exists r, C x = wd x ++ r.
  Proof.
    intros Hx. destruct (next_spec Hx) as (N1 & N2 & N3).
    rewrite (@C_seg x (next x)) by lia. rewrite (@C_cons (next x)) by lia.
    rewrite (wd_eq Hx). exists (C (next x + 1)). rewrite <- app_assoc; reflexivity.
  Qed.

  (** ** equality of LMS blocks (the closing LMS character excluded) *)
  Definition P (x y d : nat) : Prop :=
    1 <= d /\ x + d < n /\ y + d < n /\ lms (x + d) = true /\ lms (y + d) = true /\
    (forall t, 1 <= t < d -> lms (x + t) = false /\ lms (y + t) = false) /\
    (forall t, t < d -> c (x + t) = c (y + t)).

  Lemma P_sym x y d : P x y d -> P y x d.
  Proof.
    intros (A & B & D & E & F & G & H). repeat split; auto; intros.
    - apply G; auto.
    - apply G; auto.
    - symmetry; auto.
  Qed.
  Lemma P_next x y d : P x y d -> next x = x + d.
  Proof.
    intros (A & B & D & E & F & G & H). apply next_unique; auto; try lia.
    intros z Hz. replace z with (x + (z - x)) by lia. apply G; lia.
  Qed.
  Lemma P_trans x y z d d' : P x y d -> P y z d' -> d = d' /\ P x z d.
  Proof.
    intros H1 H2. pose proof (P_next (P_sym H1)). pose proof (P_next H2).
    assert (d' = d) as -> by lia. split; auto.
    destruct H1 as (A & B & D & E & F & G & H'). destruct H2 as (A2 & B2 & D2 & E2 & F2 & G2 & H2').
    repeat split; auto; intros.
    - apply G; auto.
    - apply G2; auto.
    - rewrite H', H2' by auto; auto.
  Qed.

  Lemma P_types x y d : P x y d -> forall t, t < d -> isS (x + t) = isS (y + t).
  Proof.
    intros (A & B & D & E & F & G & H) t Ht.
    remember (d - 1 - t) as k eqn:Hk. revert t Ht Hk. induction k as [|k IH]; intros t Ht Hk.
    - assert (t = d - 1) as -> by lia.
      replace (x + d) with (S (x + (d - 1))) in E by lia. replace (y + d) with (S (y + (d - 1))) in F by lia.
      cbn [SaisInduce.lms] in E, F. apply andb_true_iff in E as [_ E], F as [_ F].
      unfold SaisInduce.isL in *. destruct (isS (x + (d - 1))), (isS (y + (d - 1))); auto; discriminate.
    - specialize (IH (t + 1) ltac:(lia) ltac:(lia)).
      pose proof (H t Ht) as C0. pose proof (H (t + 1) ltac:(lia)) as C1.
      rewrite !Nat.add_assoc in *. unfold SaisInduce.isS in *.
      destruct (Nat.lt_trichotomy (c (x + t)) (c (x + t + 1))) as [L|[L|L]].
      + rewrite (ty_lt HT (x + t)), (ty_lt HT (y + t)) by lia. auto.
      + rewrite (ty_eq HT (x + t)), (ty_eq HT (y + t)) by lia. auto.
      + rewrite (ty_gt HT (x + t)), (ty_gt HT (y + t)) by lia. auto.
  Qed.

  Lemma P_codes x y d : P x y d -> map code (seq x d) = map code (seq y d).
  Proof.
    intros H. pose proof (P_types H) as HS. destruct H as (A & B & D & E & F & G & H).
    apply (nth_ext _ _ 0 0); [rewrite !map_length, !seq_length; auto|].
    intros t Ht. rewrite map_length, seq_length in Ht.
    assert (forall z, nth t (map code (seq z d)) 0 = code (z + t)) as N.
    { intros z. apply nth_of_error. rewrite nth_error_map, nth_error_seq.
      apply Nat.ltb_lt in Ht; rewrite Ht; auto. }
    rewrite !N. rewrite !(@code_lt text types) by lia. rewrite H, HS by auto. auto.
  Qed.

  Lemma seq_nth_code z k t : t < k -> nth_error (map code (seq z k)) t = Some (code (z + t)).
  Proof. intros H. rewrite nth_error_map, nth_error_seq. apply Nat.ltb_lt in H; rewrite H; auto. Qed.

  (** a key that starts with the closed block of [x] has an equal block *)
  Lemma block_prefix x z r : x < n -> z < n -> lms x = true -> lms z = true -> next x < n ->
    KA z = wd x ++ r -> P x z (next x - x).
  Proof.
    intros Hx Hz Lx Lz Hn E.
    destruct (next_spec Hx) as (N1 & N2 & N3). destruct (next_spec Hz) as (M1 & M2 & M3).
    specialize (N2 Hn).
    set (d := next x - x) in *. set (e := next z - z) in *.
    destruct (KA_block Hz Lz) as (r' & E'). rewrite E' in E.
    assert (forall t, t <= d -> t <= e -> code (z + t) = code (x + t)) as HC.
    { intros t Hd He. apply (f_equal (fun l => nth_error l t)) in E.
      rewrite !nth_error_app1 in E by (unfold wd; rewrite map_length, seq_length; fold d e; lia).
      unfold wd in E. rewrite !seq_nth_code in E by (fold d e; lia). congruence. }
    assert (forall t, t <= d -> t <= e -> z + t < n) as ZN.
    { intros t Hd He. destruct (Nat.eq_dec (z + t) n) as [En|]; [|lia].
      specialize (HC t Hd He). rewrite En, code_n in HC. pose proof (@code_pos (x + t) ltac:(lia)). lia. }
    assert (forall t, 1 <= t -> t <= d -> t <= e -> lms (z + t) = lms (x + t)) as HLM.
    { intros t H1 H2 H3.
      destruct (@code_inj (z + t) (x + t) (ZN t H2 H3) ltac:(lia) (HC t H2 H3)) as (_ & S1).
      destruct (@code_inj (z + (t - 1)) (x + (t - 1)) (ZN (t - 1) ltac:(lia) ltac:(lia)) ltac:(lia)
                  (HC (t - 1) ltac:(lia) ltac:(lia))) as (_ & S2).
      replace (z + t) with (S (z + (t - 1))) in * by lia. replace (x + t) with (S (x + (t - 1))) in * by lia.
      cbn [SaisInduce.lms]. unfold SaisInduce.isL. rewrite S1, S2; auto. }
    assert (e = d) as Hed.
    { destruct (Nat.lt_trichotomy e d) as [G|[G|G]]; auto; exfalso.
      - assert (z + e < n) by (apply ZN; lia).
        assert (z + e = next z) as Ez by lia. rewrite Ez in *.
        rewrite <- Ez, HLM, N3 in M2 by lia. specialize (M2 ltac:(lia)). discriminate.
      - assert (x + d = next x) as Ex by lia.
        pose proof (M3 (z + d) ltac:(lia)) as M. rewrite HLM, Ex, N2 in M by lia. discriminate. }
    assert (x + d = next x) as Ex by lia. assert (z + d = next z) as Ez by lia.
    split; [lia|]. split; [lia|].
    assert (z + d < n) as Zd by (apply ZN; lia). split; auto. split; [rewrite Ex; auto|].
    split; [rewrite Ez; apply M2; lia|]. split.
    - intros t Ht. split; [apply N3; lia|apply M3; lia].
    - intros t Ht. destruct (@code_inj (z + t) (x + t)); [apply ZN; lia|lia|apply HC; lia|]. auto.
  Qed.

  (** comparing two sort keys decides the order of the suffixes, or finds equal blocks *)
  Lemma key_order x y : (x = n \/ (x < n /\ lms x = true)) -> (y = n \/ (y < n /\ lms y = true)) ->
    lexlt (KA x) (KA y) ->
    lexlt (C x) (C y) \/
    (x < n /\ y < n /\ exists u rx ry, ((u = x /\ next x < n) \/ (u = y /\ next y < n)) /\
       KA x = wd u ++ rx /\ KA y = wd u ++ ry).
  Proof.
    intros [->|[Hx Lx]] [->|[Hy Ly]] H.
    - exfalso; eapply lexlt_irrefl; eauto.
    - left. rewrite C_n, (@C_cons y) by lia. apply lex_head. apply code_pos; auto.
    - exfalso. rewrite K2_end in H. destruct (KA_block Hx Lx) as (r & E). rewrite E in H.
      unfold wd in H. cbn [seq map app] in H. apply lexlt_cons_inv in H.
      pose proof (code_pos Hx). destruct H as [H|[H _]]; lia.
    - destruct (KA_block Hx Lx) as (rx & Ex). destruct (KA_block Hy Ly) as (ry & Ey).
      destruct (C_block Hx) as (sx & Fx). destruct (C_block Hy) as (sy & Fy).
      destruct (next_spec Hx) as (N1 & N2 & N3). destruct (next_spec Hy) as (M1 & M2 & M3).
      rewrite Ex, Ey in H. pose proof H as H0. apply lexlt_app_cases in H as [H|[(t & H)|(t & H)]].
      + left. rewrite Fx, Fy. apply H.
      + destruct (Nat.eq_dec (next x) n) as [E|E].
        * exfalso.
          (* the terminating code 0 fixes the position *)
          apply (f_equal (fun l => nth_error l (next x - x))) in H.
          rewrite nth_error_app1 in H by (unfold wd; rewrite map_length, seq_length; lia).
          unfold wd in H. rewrite (@seq_nth_code x) in H by lia.
          replace (x + (next x - x)) with n in H by lia. rewrite code_n in H.
          destruct (Nat.lt_ge_cases (next x - x) (S (next y - y))) as [G|G].
          -- rewrite seq_nth_code in H by auto. injection H as H.
             destruct (Nat.eq_dec (y + (next x - x)) n) as [E2|E2].
             ++ assert (x = y) by lia. subst y. eapply lexlt_irrefl. rewrite <- Ex in H0 at 1.
                rewrite <- Ey in H0. exact H0.
             ++ pose proof (@code_pos (y + (next x - x)) ltac:(lia)). lia.
          -- rewrite (proj2 (nth_error_None _ _)) in H by (rewrite map_length, seq_length; lia). discriminate.
        * right. split; auto. split; auto. exists x, rx, (t ++ ry). split; [left; split; auto; lia|].
          split; auto. rewrite Ey, H, app_assoc; auto.
      + destruct (Nat.eq_dec (next y) n) as [E|E].
        * exfalso.
          apply (f_equal (fun l => nth_error l (next y - y))) in H.
          rewrite nth_error_app1 in H by (unfold wd; rewrite map_length, seq_length; lia).
          unfold wd in H. rewrite (@seq_nth_code y) in H by lia.
          replace (y + (next y - y)) with n in H by lia. rewrite code_n in H.
          destruct (Nat.lt_ge_cases (next y - y) (S (next x - x))) as [G|G].
          -- rewrite seq_nth_code in H by auto. injection H as H.
             destruct (Nat.eq_dec (x + (next y - y)) n) as [E2|E2].
             ++ assert (x = y) by lia. subst y. eapply lexlt_irrefl. rewrite <- Ex in H0 at 1.
                rewrite <- Ey in H0. exact H0.
             ++ pose proof (@code_pos (x + (next y - y)) ltac:(lia)). lia.
          -- rewrite (proj2 (nth_error_None _ _)) in H by (rewrite map_length, seq_length; lia). discriminate.
        * right. split; auto. split; auto. exists y, (t ++ rx), ry. split; [right; split; auto; lia|].
          split; auto. rewrite Ex, H, app_assoc; auto.
  Qed.

  (** ** the comparison loop *)
  Lemma blocks_loop fuel x y i : fuel + i >= n + 1 -> 1 <= fuel -> 1 <= i ->
    (forall t, 1 <= t < i -> lms (x + t) = false /\ lms (y + t) = false) ->
    (forall t, t < i -> c (x + t) = c (y + t)) ->
    exists b, lms_blocks_loop fuel text x y i types = Ok b /\ (b = true <-> exists d, P x y d).
  Proof.
    revert i; induction fuel as [|fuel IH]; intros i Hf Hf1 Hi HL HC; [lia|]. cbn [lms_blocks_loop].
    assert (forall d, P x y d -> i <= d) as GE.
    { intros d (A & B & D & E & F & G & H). destruct (Nat.le_gt_cases i d); auto.
      destruct (HL d) as (H1 & _); [lia|]. congruence. }
    destruct (Nat.ltb_spec (i + y) n) as [Hy|Hy]; [destruct (Nat.ltb_spec (i + x) n) as [Hx|Hx]|]; cbn [andb].
    2,3: exists false; split; auto; split; [discriminate|]; intros (d & HP); exfalso;
      specialize (GE d HP); destruct HP as (A & B & D & _); lia.
    rewrite (@is_lms_ok text types HT (x + i)), (@is_lms_ok text types HT (y + i)) by lia. cbn [bind].
    destruct (lms (x + i)) eqn:Lx, (lms (y + i)) eqn:Ly; cbn [andb Bool.eqb negb].
    - exists true. split; auto. split; auto. intros _. exists i. repeat split; auto; try lia; apply HL; auto.
    - exists false. split; auto. split; [discriminate|]. intros (d & HP). specialize (GE d HP).
      destruct HP as (A & B & D & E & F & G & H).
      destruct (Nat.eq_dec d i) as [->|]; [congruence|]. destruct (G i); [lia|]. congruence.
    - exists false. split; auto. split; [discriminate|]. intros (d & HP). specialize (GE d HP).
      destruct HP as (A & B & D & E & F & G & H).
      destruct (Nat.eq_dec d i) as [->|]; [congruence|]. destruct (G i); [lia|]. congruence.
    - rewrite !get_ch by lia. cbn [bind].
      destruct (Nat.eqb_spec (c (x + i)) (c (y + i))) as [Ec|Ec]; cbn [negb].
      + apply IH; try lia.
        * intros t Ht. destruct (Nat.eq_dec t i) as [->|]; auto. apply HL; lia.
        * intros t Ht. destruct (Nat.eq_dec t i) as [->|]; auto. apply HC; lia.
      + exists false. split; auto. split; [discriminate|]. intros (d & HP). specialize (GE d HP).
        destruct HP as (A & B & D & E & F & G & H).
        destruct (Nat.eq_dec d i) as [->|]; [congruence|]. exfalso. apply Ec, H; lia.
  Qed.

  Lemma blocks_equal x y : x <= n -> y <= n ->
    exists b, are_lms_blocks_equal text x y types = Ok b /\ (b = true <-> exists d, P x y d).
  Proof.
    intros Hx Hy. unfold are_lms_blocks_equal.
    destruct (Nat.eqb_spec x n) as [->|Nx]; cbn [orb].
    { exists false. split; auto. split; [discriminate|]. intros (d & A & B & _). lia. }
    destruct (Nat.eqb_spec y n) as [->|Ny]; cbn [orb].
    { exists false. split; auto. split; [discriminate|]. intros (d & A & B & D & _). lia. }
    rewrite !get_ch by lia. cbn [bind].
    destruct (Nat.eqb_spec (c x) (c y)) as [Ec|Ec]; cbn [negb].
    - apply blocks_loop; try lia. intros t Ht. assert (t = 0) as -> by lia. rewrite !Nat.add_0_r; auto.
    - exists false. split; auto. split; [discriminate|].
      intros (d & A & B & D & E & F & G & H). specialize (H 0 ltac:(lia)). rewrite !Nat.add_0_r in H. exfalso; auto.
  Qed.
End Sort.

(** * SA-IS builds the suffix array *)
From Verif Require Import Base BaseFacts SpecBwt LexFacts Sais SaisBase SaisInduce SaisSort.

(** ** the directly solved case *)
Lemma summary_direct_ok R : NoDup R -> Forall (fun v => v < length R) R -> 0 < length R ->
  exists l, summary_direct R = Ok (map Some l) /\ is_suffix_array R l.
Proof.
  intros ND HF HM. set (M := length R).
  assert (forall i, i < M -> nth i R 0 < M) as HB.
  { intros i Hi. rewrite Forall_forall in HF. apply HF. apply nth_In; auto. }
  unfold summary_direct. fold M.
  destruct (@set_at_do _ (repeat (Some 0) (M + 1)) 0 (Some M) None) as (sa0 & E0 & L0 & N0).
  { rewrite repeat_length; lia. }
  rewrite repeat_length in L0. rewrite E0. cbn [bind].
  destruct (@fold_res_ind _ _ (summary_step R)
     (fun k sa => length sa = M + 1 /\ nth 0 sa None = Some M /\
        (forall i, 1 <= i <= k -> nth (nth i R 0 + 1) sa None = Some i) /\
        (forall p, 1 <= p <= M -> (forall i, 1 <= i <= k -> p <> nth i R 0 + 1) -> nth p sa None = Some 0))
     (seq 1 (M - 1)) sa0) as (sa & E & V1 & V2 & V3 & V4).
  - repeat split; auto.
    + rewrite N0. auto.
    + intros; lia.
    + intros p Hp _. rewrite N0. destruct (Nat.eqb_spec p 0); [lia|].
      apply nth_of_error. rewrite nth_error_repeat by lia. auto.
  - intros k i s Hk (V1 & V2 & V3 & V4). rewrite nth_error_seq in Hk.
    destruct (Nat.ltb_spec k (M - 1)) as [Hlt|]; [|discriminate]. injection Hk as Hk.
    assert (i = S k) as -> by lia. clear Hk. unfold summary_step.
    assert (S k < M) as HSk by lia.
    rewrite (@get_at_lt _ R (S k) 0) by auto. cbn [bind].
    pose proof (HB (S k) HSk) as HBk.
    destruct (@set_at_do _ s (nth (S k) R 0 + 1) (Some (S k)) None) as (s' & Es & Ls & Ns); [lia|].
    rewrite Es. exists s'. split; auto. repeat split; [lia| | |].
    + rewrite Ns. destruct (Nat.eqb_spec 0 (nth (S k) R 0 + 1)); auto; lia.
    + intros j Hj. rewrite Ns. destruct (Nat.eqb_spec (nth j R 0 + 1) (nth (S k) R 0 + 1)) as [Eq|Ne].
      * assert (j = S k) as ->; auto. apply (proj1 (NoDup_nth R 0) ND); fold M; lia.
      * destruct (Nat.eq_dec j (S k)) as [->|]; [lia|]. apply V3; lia.
    + intros p Hp Hn. rewrite Ns. destruct (Nat.eqb_spec p (nth (S k) R 0 + 1)) as [Eq|Ne].
      * exfalso. apply (Hn (S k)); auto; lia.
      * apply V4; auto. intros j Hj. apply Hn; lia.
  - rewrite seq_length in *. rewrite E.
    assert (forall v, v < M -> exists i, i < M /\ nth i R 0 = v) as SURJ.
    { intros v Hv. assert (incl (seq 0 M) R) as HI.
      { apply NoDup_length_incl; auto; [rewrite seq_length; auto|].
        intros x Hx. apply in_seq. rewrite Forall_forall in HF. specialize (HF x Hx). fold M in HF. lia. }
      specialize (HI v). rewrite in_seq in HI. specialize (HI ltac:(lia)).
      apply (In_nth _ _ 0) in HI as (i & Hi & Ev). exists i; auto. }
    assert (forall i, i < M -> nth (nth i R 0 + 1) sa None = Some i) as V.
    { intros i Hi. destruct i as [|i]; [|apply V3; lia].
      apply V4; [pose proof (HB 0 Hi); lia|]. intros j Hj Eq.
      assert (0 = j); [|lia]. apply (proj1 (NoDup_nth R 0) ND); fold M; lia. }
    set (l := map (fun o => match o with Some x => x | None => 0 end) sa).
    assert (length l = M + 1) as Ll by (unfold l; rewrite map_length; auto).
    assert (forall p x, nth p sa None = Some x -> nth_error l p = Some x) as NL.
    { intros p x H. unfold l. rewrite nth_error_map. rewrite (nth_error_nth' sa None).
      - rewrite H; auto.
      - destruct (Nat.lt_ge_cases p (length sa)); auto. rewrite nth_overflow in H by auto. discriminate. }
    assert (forall p, p <= M -> exists x, nth p sa None = Some x) as TOT.
    { intros p Hp. destruct p as [|p]; [eauto|].
      destruct (SURJ p) as (i & Hi & <-); [lia|]. exists i. rewrite <- (Nat.add_1_r (nth i R 0)). auto. }
    exists l. split; [|split; [|split]].
    + f_equal. apply (nth_ext _ _ None None); [unfold l; rewrite !map_length; auto|].
      intros p Hp. destruct (TOT p) as (x & Hx); [lia|]. rewrite Hx.
      symmetry. apply nth_of_error. rewrite nth_error_map, (NL p x Hx). auto.
    + exact Ll.
    + fold M. intros i Hi. destruct (Nat.eq_dec i M) as [->|].
      * apply (nth_error_In _ 0). apply NL; auto.
      * apply (nth_error_In _ (nth i R 0 + 1)). apply NL. apply V; lia.
    + intros a b i j Hab Ha Hb.
      assert (forall p x, nth_error l p = Some x -> (p = 0 /\ x = M) \/ (x < M /\ p = nth x R 0 + 1)) as INV.
      { intros p x Hp. pose proof (nth_error_lt _ _ Hp) as Lp. rewrite Ll in Lp.
        destruct p as [|p]; [left; split; auto; rewrite (NL 0 M V2) in Hp; congruence|].
        destruct (SURJ p) as (k & Hk & Ek); [lia|]. right.
        rewrite <- Ek in Hp. rewrite <- Nat.add_1_r in Hp. rewrite (NL _ _ (V k Hk)) in Hp.
        injection Hp as <-. split; auto. lia. }
      apply INV in Ha, Hb. destruct Hb as [[-> _]|[Hj ->]]; [lia|].
      assert (forall i, i < M -> suffix R i = nth i R 0 :: suffix R (i + 1)) as SC.
      { intros k Hk. apply (suffix_cons R); auto. }
      destruct Ha as [[-> ->]|[Hi ->]].
      * unfold M. rewrite suffix_end, SC by auto. constructor.
      * rewrite (SC i Hi), (SC j Hj). apply lex_head. lia.
Qed.

  Lemma sorted_filter (f : nat -> bool) (K : nat -> list nat) (t : list nat) :
    (forall a b, a < b < length t -> lexlt (K (nth a t 0)) (K (nth b t 0))) ->
    forall a b, a < b < length (filter f t) -> lexlt (K (nth a (filter f t) 0)) (K (nth b (filter f t) 0)).
  Proof.
    induction t as [|x t IH]; intros H a b; cbn [filter]; [cbn [length]; lia|].
    assert (forall a b, a < b < length t -> lexlt (K (nth a t 0)) (K (nth b t 0))) as H'.
    { intros a' b' Hab. apply (H (S a') (S b')). cbn [length]; lia. }
    destruct (f x); [|apply IH; auto]. cbn [length]. intros Hab.
    destruct b as [|b]; [lia|]. destruct a as [|a].
    - cbn [nth]. assert (In (nth b (filter f t) 0) (filter f t)) as Hin by (apply nth_In; lia).
      apply filter_In in Hin as (Hin & _). apply (In_nth _ _ 0) in Hin as (k & Hk & <-).
      apply (H 0 (S k)). cbn [length]; lia.
    - cbn [nth]. apply IH; auto. lia.
  Qed.

Section Reduce.
  Variable text : list nat.
  Variable types : list suffix_type.
  Hypothesis HT : types_ok text types.
  Variable l : list nat.

  Notation n := (length text).
  Notation c := (ch text).
  Notation isS := (isS types).
  Notation isL := (isL types).
  Notation lms := (lms types).
  Notation KA := (K2 text types tkA).
  Notation C := (C text types).
  Notation next := (next text types).
  Notation P := (P text types).

  Hypothesis Ll : length l = n + 1.
  Hypothesis Il : forall x, In x l <-> x <= n.
  Hypothesis NDl : NoDup l.
  Hypothesis Ol : forall a b, a < b <= n -> lexlt (KA (nth a l 0)) (KA (nth b l 0)).
  Hypothesis Zl : nth 0 l 0 = n.

  Definition q : list nat := filter lms (tl l).
  Definition Q : list nat := n :: q.
  Notation m := (length q).

  Lemma l_cons : l = n :: tl l.
  Proof. destruct l as [|x t]; [simpl in Ll; lia|]. simpl in Zl. subst; auto. Qed.

  Lemma lms_n : lms n = false.
  Proof.
    destruct (lms n) eqn:E; auto. apply lms_S in E. rewrite (@end_L text types HT) in E. discriminate.
  Qed.

  Lemma q_in x : In x q <-> x < n /\ lms x = true.
  Proof.
    unfold q. rewrite filter_In. split.
    - intros [H1 H2]. split; auto. assert (x <= n) by (apply Il; rewrite l_cons; right; auto).
      destruct (Nat.eq_dec x n) as [->|]; [rewrite lms_n in H2; discriminate|lia].
    - intros [H1 H2]. split; auto. assert (In x l) as H by (apply Il; lia). rewrite l_cons in H.
      destruct H as [H|H]; [lia|auto].
  Qed.

  Lemma Q_in x : In x Q <-> x = n \/ (x < n /\ lms x = true).
  Proof. unfold Q. simpl. rewrite q_in. split; intros [H|H]; auto. Qed.

  Lemma Q_NoDup : NoDup Q.
  Proof.
    unfold Q, q. rewrite l_cons in NDl. inversion NDl; subst. constructor.
    - intros H. apply filter_In in H. tauto.
    - apply NoDup_filter; auto.
  Qed.

  Lemma Q_filter : Q = filter (fun x => lms x || (x =? n)) l.
  Proof.
    rewrite l_cons. cbn [filter]. rewrite Nat.eqb_refl, orb_true_r. unfold Q, q. f_equal.
    apply filter_ext_in. intros x Hx. destruct (Nat.eqb_spec x n) as [->|]; [|rewrite orb_false_r; auto].
    exfalso. rewrite l_cons in NDl. inversion NDl; auto.
  Qed.


  Lemma Q_sorted a b : a < b <= m -> lexlt (KA (nth a Q 0)) (KA (nth b Q 0)).
  Proof.
    intros H. rewrite Q_filter. apply sorted_filter.
    - intros; apply Ol; lia.
    - rewrite <- Q_filter. unfold Q. cbn [length]. lia.
  Qed.

  Lemma Q_nth a : a <= m -> nth a Q 0 = n \/ (nth a Q 0 < n /\ lms (nth a Q 0) = true).
  Proof. intros H. apply Q_in. apply nth_In. unfold Q; cbn [length]; lia. Qed.
  Lemma Q_le a : a <= m -> nth a Q 0 <= n.
  Proof. intros H. destruct (Q_nth H) as [->|[H1 _]]; lia. Qed.

  (** ** names *)
  Definition beq (x y : nat) : bool :=
    match are_lms_blocks_equal text x y types with Ok b => b | _ => false end.
  Lemma beq_ok x y : x <= n -> y <= n -> are_lms_blocks_equal text x y types = Ok (beq x y).
  Proof. intros Hx Hy. unfold beq. destruct (@blocks_equal text types HT x y Hx Hy) as (b & -> & _); auto. Qed.
  Lemma beq_P x y : x <= n -> y <= n -> (beq x y = true <-> exists d, P x y d).
  Proof. intros Hx Hy. unfold beq. destruct (@blocks_equal text types HT x y Hx Hy) as (b & -> & H); auto. Qed.

  Fixpoint nms (k : nat) : nat :=
    match k with
    | O => 0
    | S k' => if beq (nth k' Q 0) (nth k Q 0) then nms k' else nms k' + 1
    end.

  Lemma nms_mono a b : a <= b -> nms a <= nms b.
  Proof.
    induction 1 as [|b H IH]; auto. cbn [nms]. destruct (beq _ _); lia.
  Qed.
  Lemma nms_le k : nms k <= k.
  Proof. induction k as [|k IH]; [cbn; lia|]. cbn [nms]. destruct (beq _ _); lia. Qed.

  Lemma nms_pos k : 1 <= k <= m -> 1 <= nms k.
  Proof.
    intros H. apply Nat.le_trans with (nms 1); [|apply nms_mono; lia]. cbn [nms].
    destruct (beq (nth 0 Q 0) (nth 1 Q 0)) eqn:E; [|lia].
    apply beq_P in E as (d & HP); [|apply Q_le; lia|apply Q_le; lia].
    destruct HP as (A & B & _). change (nth 0 Q 0) with n in B. lia.
  Qed.

  Lemma nms_eq_P a b : a < b <= m -> nms a = nms b -> exists d, P (nth a Q 0) (nth b Q 0) d.
  Proof.
    intros Hab. remember (b - a) as k eqn:Hk. revert b Hab Hk.
    induction k as [|k IH]; intros b Hab Hk E; [lia|].
    destruct b as [|b]; [lia|].
    pose proof (@nms_mono a b ltac:(lia)) as M1. pose proof (@nms_mono b (S b) ltac:(lia)) as M2.
    assert (beq (nth b Q 0) (nth (S b) Q 0) = true) as B.
    { cbn [nms] in E. destruct (beq (nth b Q 0) (nth (S b) Q 0)); auto; lia. }
    apply beq_P in B as (d & HP); [|apply Q_le; lia|apply Q_le; lia].
    destruct (Nat.eq_dec a b) as [->|Hne]; [eauto|].
    destruct (IH b) as (d' & HP'); try lia.
    exists d'. apply (P_trans HP' HP).
  Qed.

  Lemma chain_eq a b : a <= b ->
    (forall k, a <= k < b -> beq (nth k Q 0) (nth (S k) Q 0) = true) -> nms a = nms b.
  Proof.
    induction 1 as [|b H IH]; intros HB; auto.
    rewrite IH by (intros; apply HB; lia). cbn [nms]. rewrite (HB b) by lia. auto.
  Qed.

  Lemma nms_lt_C a b : a <= m -> b <= m -> nms a < nms b -> lexlt (C (nth a Q 0)) (C (nth b Q 0)).
  Proof.
    intros Ha Hb H.
    assert (a < b) as Hab.
    { destruct (Nat.lt_ge_cases a b) as [|G]; auto. pose proof (nms_mono G). lia. }
    destruct (@key_order text types HT (nth a Q 0) (nth b Q 0) (Q_nth Ha) (Q_nth Hb))
      as [G|(Hx & Hy & u & rx & ry & HU & EX & EY)]; auto.
    { apply Q_sorted; lia. }
    exfalso.
    assert (u < n /\ lms u = true /\ next u < n) as (U1 & U2 & U3).
    { destruct (Q_nth Ha) as [|[? ?]]; [lia|]. destruct (Q_nth Hb) as [|[? ?]]; [lia|].
      destruct HU as [[-> HU]|[-> HU]]; auto. }
    assert (forall k, a <= k <= b -> exists r, KA (nth k Q 0) = wd text types u ++ r) as PRE.
    { intros k Hk. destruct (Nat.eq_dec k a) as [->|]; [eauto|]. destruct (Nat.eq_dec k b) as [->|]; [eauto|].
      apply lexlt_sandwich with (a := rx) (b := ry).
      - rewrite <- EX. apply Q_sorted; lia.
      - rewrite <- EY. apply Q_sorted; lia. }
    assert (forall k, a <= k <= b -> P u (nth k Q 0) (next u - u)) as PK.
    { intros k Hk. destruct (PRE k Hk) as (r & Er).
      assert (nth k Q 0 < n /\ lms (nth k Q 0) = true) as (K1 & K2).
      { destruct (@Q_nth k) as [E|]; auto; [lia|]. exfalso.
        rewrite E, K2_end in Er. unfold wd in Er. cbn [seq map app] in Er. injection Er as Er _.
        pose proof (@code_pos text types u U1). lia. }
      eapply (@block_prefix text types HT); eauto. }
    assert (nms a = nms b); [|lia].
    apply chain_eq; [lia|]. intros k Hk. apply beq_P; try (apply Q_le; lia).
    destruct (P_trans (P_sym (PK k ltac:(lia))) (PK (S k) ltac:(lia))) as (_ & HP). eauto.
  Qed.

  (** ** the naming loop *)
  Definition name_step (st : naming) (x : nat) : res naming :=
    let! prev := of_option (nm_previous st) in
    let! eq := are_lms_blocks_equal text prev x types in
    let name := if eq then nm_current st else nm_current st + 1 in
    let! names := set_at (nm_names st) x (Some name) in
    Ok (mk_naming names name (nm_count st + 1) (Some x)).

  Lemma naming_loop : exists names0 names,
    set_at (repeat None (n + 1)) n (Some 0) = Ok names0 /\
    fold_res (naming_step text types) (tl (map Some l)) (mk_naming names0 0 1 (Some n))
      = Ok (mk_naming names (nms m) (m + 1) (Some (nth m Q 0))) /\
    length names = n + 1 /\
    (forall a, a <= m -> nth (nth a Q 0) names None = Some (nms a)) /\
    (forall x, nth x names None <> None -> In x Q).
  Proof.
    destruct (@set_at_do _ (repeat None (n + 1)) n (Some 0) None) as (names0 & E0 & L0 & N0).
    { rewrite repeat_length; lia. }
    rewrite repeat_length in L0. exists names0.
    assert (tl (map Some l) = map Some (tl l)) as -> by (destruct l; auto).
    rewrite <- (@fold_res_map_in _ _ _ (fun st x => naming_step text types st (Some x))) by auto.
    rewrite (@fold_res_filter _ _ _ name_step lms).
    2:{ intros s x Hx. unfold naming_step. cbn [of_option bind].
        rewrite (@is_lms_ok text types HT) by (apply Il; rewrite l_cons; right; auto). cbn [bind].
        destruct (lms x); reflexivity. }
    fold q.
    destruct (@fold_res_ind _ _ name_step
       (fun k st => length (nm_names st) = n + 1 /\
          (forall a, a <= k -> nth (nth a Q 0) (nm_names st) None = Some (nms a)) /\
          (forall x, nth x (nm_names st) None <> None -> In x (firstn (S k) Q)) /\
          nm_current st = nms k /\ nm_count st = k + 1 /\ nm_previous st = Some (nth k Q 0))
       q (mk_naming names0 0 1 (Some n))) as ([nn cur cnt prev] & E & V1 & V2 & V3 & V4 & V5 & V6).
    - cbn [nm_names nm_current nm_count nm_previous]. repeat split; auto.
      + intros a Ha. assert (a = 0) as -> by lia. rewrite N0. change (nth 0 Q 0) with n.
        rewrite Nat.eqb_refl. auto.
      + intros x. rewrite N0. destruct (Nat.eqb_spec x n) as [->|].
        * intros _. left; auto.
        * rewrite nth_repeat. congruence.
    - intros k x [nn cur cnt prev] Hk (V1 & V2 & V3 & V4 & V5 & V6).
      cbn [nm_names nm_current nm_count nm_previous] in *. subst cur cnt prev.
      pose proof (nth_error_lt _ _ Hk) as Hlt.
      assert (nth (S k) Q 0 = x) as Ex by (unfold Q; cbn [nth]; apply nth_of_error; auto).
      assert (x < n) as Hx by (apply q_in; eapply nth_error_In; eauto).
      unfold name_step. cbn [nm_names nm_current nm_count nm_previous of_option bind].
      rewrite beq_ok by (try (apply Q_le); lia). cbn [bind].
      set (name := if beq (nth k Q 0) x then nms k else nms k + 1).
      assert (nms (S k) = name) as En by (cbn [nms]; rewrite Ex; auto).
      destruct (@set_at_do _ nn x (Some name) None) as (nn' & En' & Ln & Nn); [lia|].
      rewrite En'. cbn [bind]. eexists; split; [reflexivity|].
      cbn [nm_names nm_current nm_count nm_previous]. repeat split; auto; try lia.
      + intros a Ha. rewrite Nn. destruct (Nat.eqb_spec (nth a Q 0) x) as [Eq|Ne].
        * assert (a = S k) as ->; [|congruence].
          apply (proj1 (NoDup_nth Q 0) Q_NoDup); try (unfold Q; cbn [length]; lia). congruence.
        * destruct (Nat.eq_dec a (S k)) as [->|]; [congruence|]. apply V2; lia.
      + intros z. rewrite Nn. rewrite (@firstn_snoc _ Q (S k) x).
        2:{ unfold Q. cbn [nth_error]. auto. }
        rewrite in_app_iff. destruct (Nat.eqb_spec z x) as [->|]; [intros _; right; left; auto|].
        intros Hz. left. apply V3; auto.
    - cbn [nm_names nm_current nm_count nm_previous] in *. subst. exists nn. split; auto. rewrite E.
      split; auto. split; auto. split; auto.
      intros x Hx. apply V3 in Hx. eapply firstn_In; eauto.
  Qed.

  (** ** the reduced problem *)
  Definition PP : list nat := filter lms (seq 0 n) ++ [n].

  Lemma PP_in x : In x PP <-> x = n \/ (x < n /\ lms x = true).
  Proof.
    unfold PP. rewrite in_app_iff, filter_In, in_seq. simpl. intuition lia.
  Qed.
  Lemma PP_filter : PP = filter (fun x => lms x || (x =? n)) (seq 0 (n + 1)).
  Proof.
    rewrite seq_app, filter_app. unfold PP. f_equal.
    - apply filter_ext_in. intros x Hx. apply in_seq in Hx.
      replace (x =? n) with false by (symmetry; apply Nat.eqb_neq; lia). rewrite orb_false_r; auto.
    - cbn [seq filter]. rewrite Nat.add_0_l, Nat.eqb_refl, orb_true_r. auto.
  Qed.
  Lemma PP_NoDup : NoDup PP.
  Proof. rewrite PP_filter. apply NoDup_filter, seq_NoDup. Qed.
  Lemma PP_length : length PP = m + 1.
  Proof.
    replace (m + 1) with (length Q) by (unfold Q; cbn [length]; lia).
    apply Permutation_length. apply NoDup_Permutation; auto using PP_NoDup, Q_NoDup.
    intros x. rewrite PP_in, Q_in. tauto.
  Qed.
  Lemma PP_incr a b : a < b <= m -> nth a PP 0 < nth b PP 0.
  Proof.
    intros H. rewrite PP_filter. apply filter_seq_incr. rewrite <- PP_filter, PP_length. lia.
  Qed.
  Lemma PP_last : nth m PP 0 = n.
  Proof.
    assert (length (filter lms (seq 0 n)) = m) as HL.
    { pose proof PP_length as H. unfold PP in H. rewrite app_length in H. cbn [length] in H. lia. }
    unfold PP. rewrite app_nth2 by lia. rewrite HL, Nat.sub_diag. auto.
  Qed.
  Lemma PP_nth a : a < m -> nth a PP 0 < n /\ lms (nth a PP 0) = true.
  Proof.
    intros H. pose proof (@PP_incr a m ltac:(lia)) as HI. rewrite PP_last in HI.
    assert (In (nth a PP 0) PP) as Hin by (apply nth_In; rewrite PP_length; lia).
    apply PP_in in Hin as [Hin|Hin]; [lia|auto].
  Qed.
  Lemma PP_next a : a < m -> next (nth a PP 0) = nth (a + 1) PP 0.
  Proof.
    intros H. destruct (PP_nth H) as (H1 & H2). pose proof (@PP_incr a (a + 1) ltac:(lia)) as HI.
    assert (In (nth (a + 1) PP 0) PP) as Hin by (apply nth_In; rewrite PP_length; lia).
    apply PP_in in Hin. apply next_unique; auto; try lia.
    - intros; destruct Hin as [|[? ?]]; [lia|auto].
    - intros z Hz. destruct (lms z) eqn:Lz; auto. exfalso.
      assert (In z PP) as Hz' by (apply PP_in; right; split; auto; destruct Hin as [|[? ?]]; lia).
      apply (In_nth _ _ 0) in Hz' as (b & Hb & <-). rewrite PP_length in Hb.
      destruct (Nat.le_gt_cases b a) as [G|G].
      + destruct (Nat.eq_dec b a) as [->|]; [lia|]. pose proof (@PP_incr b a ltac:(lia)). lia.
      + destruct (Nat.eq_dec b (a + 1)) as [->|]; [lia|]. pose proof (@PP_incr (a + 1) b ltac:(lia)). lia.
  Qed.

  Lemma named_entries_eq i names :
    named_entries i names =
    map (fun x => (x, match nth (x - i) names None with Some v => v | None => 0 end))
      (filter (fun x => match nth (x - i) names None with Some _ => true | None => false end)
         (seq i (length names))).
  Proof.
    revert i; induction names as [|e names IH]; intros i; [reflexivity|].
    cbn [named_entries length seq filter]. rewrite Nat.sub_diag. change (nth 0 (e :: names) None) with e.
    assert (filter (fun x => match nth (x - i) (e :: names) None with Some _ => true | None => false end)
              (seq (S i) (length names)) =
            filter (fun x => match nth (x - S i) names None with Some _ => true | None => false end)
              (seq (S i) (length names))) as EF.
    { apply filter_ext_in. intros x Hx. apply in_seq in Hx.
      replace (x - i) with (S (x - S i)) by lia. reflexivity. }
    assert (forall g, map (fun x => (x, match nth (x - i) (e :: names) None with Some v => v | None => 0 end))
              (filter g (seq (S i) (length names))) =
            map (fun x => (x, match nth (x - S i) names None with Some v => v | None => 0 end))
              (filter g (seq (S i) (length names)))) as EM.
    { intros g. apply map_ext_in. intros x Hx. apply filter_In in Hx as (Hx & _). apply in_seq in Hx.
      replace (x - i) with (S (x - S i)) by lia. reflexivity. }
    rewrite EF. destruct e as [v|].
    - cbn [map]. rewrite Nat.sub_diag. change (nth 0 (Some v :: names) None) with (Some v). f_equal.
      rewrite EM. apply IH.
    - rewrite EM. apply IH.
  Qed.

  Lemma reduce_ok : exists nmx,
    reduce_problem (map Some l) text types = Ok (mk_reduced (map nmx PP) PP (nms m + 1)) /\
    (forall a, a <= m -> nmx (nth a Q 0) = nms a).
  Proof.
    destruct naming_loop as (names0 & names & E0 & E1 & LN & HN & HI).
    exists (fun x => match nth x names None with Some v => v | None => 0 end). split.
    - unfold reduce_problem.
      assert (get_at (map Some l) 0 = Ok (Some n)) as ->.
      { apply get_at_some. rewrite l_cons. reflexivity. }
      cbn [bind of_option]. rewrite E0. cbn [bind]. rewrite E1.
      cbn [bind nm_names nm_current nm_count nm_previous].
      rewrite named_entries_eq.
      assert (filter (fun x => match nth (x - 0) names None with Some _ => true | None => false end)
                (seq 0 (length names)) = PP) as ->.
      { rewrite LN, PP_filter. apply filter_ext_in. intros x Hx. apply in_seq in Hx. rewrite Nat.sub_0_r.
        destruct (lms x || (x =? n)) eqn:E.
        - assert (In x Q) as HQ.
          { apply Q_in. apply orb_true_iff in E as [E|E].
            - destruct (Nat.eq_dec x n); auto. right. split; auto; lia.
            - apply Nat.eqb_eq in E; auto. }
          apply (In_nth _ _ 0) in HQ as (a & Ha & <-). rewrite HN; auto. unfold Q in Ha; cbn [length] in Ha; lia.
        - destruct (nth x names None) eqn:E2; auto. exfalso.
          assert (In x Q) as HQ by (apply HI; congruence). apply Q_in in HQ as [->|[H1 H2]].
          + rewrite Nat.eqb_refl, orb_true_r in E. discriminate.
          + rewrite H2 in E. discriminate. }
      rewrite !map_map. cbn [fst snd].
      assert (forall t, length t = length PP -> fill_reduced (m + 1) t = Ok t) as FR.
      { intros t Ht. unfold fill_reduced. rewrite Ht, PP_length, Nat.leb_refl, Nat.sub_diag.
        cbn [repeat]. rewrite app_nil_r. auto. }
      rewrite !FR by (rewrite map_length; auto). cbn [bind].
      rewrite map_id. f_equal. f_equal. apply map_ext. intros x. rewrite Nat.sub_0_r. auto.
    - intros a Ha. rewrite HN by auto. auto.
  Qed.

  (** ** order of the reduced suffixes *)
  Section Order.
    Variable nmx : nat -> nat.
    Hypothesis NM : forall a, a <= m -> nmx (nth a Q 0) = nms a.
    Notation R := (map nmx PP).

    Lemma in_Q_nth x : In x PP -> exists a, a <= m /\ nth a Q 0 = x.
    Proof.
      intros H. apply PP_in in H. apply Q_in in H. apply (In_nth _ _ 0) in H as (a & Ha & E).
      exists a. split; auto. unfold Q in Ha; cbn [length] in Ha; lia.
    Qed.

    Lemma nmx_lt x y : In x PP -> In y PP -> nmx x < nmx y -> lexlt (C x) (C y).
    Proof.
      intros Hx Hy. destruct (@in_Q_nth x Hx) as (a & Ha & <-). destruct (@in_Q_nth y Hy) as (b & Hb & <-).
      rewrite !NM by auto. apply nms_lt_C; auto.
    Qed.
    Lemma nmx_eq x y : In x PP -> In y PP -> x <> y -> nmx x = nmx y -> exists d, P x y d.
    Proof.
      intros Hx Hy Hne. destruct (@in_Q_nth x Hx) as (a & Ha & <-). destruct (@in_Q_nth y Hy) as (b & Hb & <-).
      rewrite !NM by auto. intros E. destruct (Nat.lt_trichotomy a b) as [G|[G|G]].
      - apply nms_eq_P; auto; lia.
      - congruence.
      - destruct (@nms_eq_P b a) as (d & HP); auto. exists d. apply P_sym; auto.
    Qed.

    Lemma R_length : length R = m + 1.
    Proof. rewrite map_length. apply PP_length. Qed.
    Lemma R_nth a : a <= m -> nth a R 0 = nmx (nth a PP 0).
    Proof.
      intros H. apply nth_of_error. rewrite nth_error_map, (nth_error_nth' PP 0) by (rewrite PP_length; lia).
      reflexivity.
    Qed.
    Lemma PP_at a : a <= m -> In (nth a PP 0) PP.
    Proof. intros H. apply nth_In. rewrite PP_length; lia. Qed.
    Lemma R_suffix a : a <= m -> suffix R a = nmx (nth a PP 0) :: suffix R (a + 1).
    Proof.
      intros H. rewrite suffix_cons by (rewrite R_length; lia). f_equal. apply R_nth; auto.
    Qed.

    Lemma reduced_order a b : a <= m -> b <= m -> lexlt (C (nth a PP 0)) (C (nth b PP 0)) ->
      lexlt (suffix R a) (suffix R b).
    Proof.
      remember (m - a) as d eqn:Hd. revert a b Hd. induction d as [d IH] using lt_wf_ind.
      intros a b Hd Ha Hb H.
      assert (nth a PP 0 <> nth b PP 0) as Hne by (intros E; rewrite E in H; eapply lexlt_irrefl; eauto).
      rewrite (R_suffix Ha), (R_suffix Hb). apply lexlt_cons_inv.
      destruct (Nat.lt_trichotomy (nmx (nth a PP 0)) (nmx (nth b PP 0))) as [G|[G|G]]; auto.
      - right. split; auto.
        destruct (nmx_eq (PP_at Ha) (PP_at Hb) Hne G) as (e & HP).
        pose proof HP as (E1 & E2 & E3 & _).
        assert (a < m) as Ham.
        { destruct (Nat.eq_dec a m) as [->|]; [rewrite PP_last in E2; lia|lia]. }
        assert (b < m) as Hbm.
        { destruct (Nat.eq_dec b m) as [->|]; [rewrite PP_last in E3; lia|lia]. }
        apply (IH (m - (a + 1))); try lia.
        rewrite <- (PP_next Ham), <- (PP_next Hbm), (P_next HP), (P_next (P_sym HP)).
        rewrite (@C_seg text types (nth a PP 0) (nth a PP 0 + e)) in H by lia.
        rewrite (@C_seg text types (nth b PP 0) (nth b PP 0 + e)) in H by lia.
        replace (nth a PP 0 + e - nth a PP 0) with e in H by lia.
        replace (nth b PP 0 + e - nth b PP 0) with e in H by lia.
        rewrite (P_codes HT HP) in H. apply lexlt_app_l in H. auto.
      - exfalso. apply (lexlt_asym H). apply nmx_lt; auto using PP_at.
    Qed.

    Lemma reduced_order_inv a b : a <= m -> b <= m -> lexlt (suffix R a) (suffix R b) ->
      lexlt (suffix text (nth a PP 0)) (suffix text (nth b PP 0)).
    Proof.
      intros Ha Hb H.
      assert (nth a PP 0 <= n) by (destruct (proj1 (PP_in _) (PP_at Ha)) as [->|[? ?]]; lia).
      assert (nth b PP 0 <= n) by (destruct (proj1 (PP_in _) (PP_at Hb)) as [->|[? ?]]; lia).
      apply (@C_iff text types HT); auto.
      destruct (lexlt_total (C (nth a PP 0)) (C (nth b PP 0))) as [G|[G|G]]; auto.
      - apply (f_equal (@length nat)) in G. rewrite !C_length in G.
        assert (a = b) as -> by (apply (proj1 (NoDup_nth PP 0) PP_NoDup); try (rewrite PP_length); lia).
        exfalso; eapply lexlt_irrefl; eauto.
      - apply reduced_order in G; auto. exfalso; eapply lexlt_asym; eauto.
    Qed.

    Lemma R_last : nth m R 0 = 0.
    Proof. rewrite R_nth, PP_last by auto. change n with (nth 0 Q 0). rewrite NM by lia. auto. Qed.
    Lemma R_other a : a < m -> 1 <= nth a R 0.
    Proof.
      intros H. rewrite R_nth by lia. destruct (PP_nth H) as (H1 & H2).
      destruct (@in_Q_nth (nth a PP 0)) as (k & Hk & E); [apply PP_at; lia|].
      rewrite <- E, NM by auto. apply nms_pos. destruct k; [|lia].
      change (nth 0 Q 0) with n in E. lia.
    Qed.
    Lemma R_bound : Forall (fun v => v < nms m + 1) R.
    Proof.
      apply Forall_forall. intros v Hv. apply in_map_iff in Hv as (x & <- & Hx).
      destruct (@in_Q_nth x Hx) as (a & Ha & <-). rewrite NM by auto.
      pose proof (@nms_mono a m Ha). lia.
    Qed.

    (** all names distinct when there are as many names as positions *)
    Lemma R_distinct : nms m + 1 = length R -> NoDup R.
    Proof.
      rewrite R_length. intros E.
      assert (forall k, k <= m -> nms k = k) as ID.
      { intros k Hk. pose proof (nms_le k).
        assert (forall j, nms (k + j) <= nms k + j) as B.
        { induction j as [|j IH]; [rewrite !Nat.add_0_r; lia|]. rewrite Nat.add_succ_r. cbn [nms].
          destruct (beq _ _); lia. }
        specialize (B (m - k)). replace (k + (m - k)) with m in B by lia. lia. }
      apply NoDup_map_in; [|apply PP_NoDup].
      intros x y Hx Hy. destruct (@in_Q_nth x Hx) as (a & Ha & <-). destruct (@in_Q_nth y Hy) as (b & Hb & <-).
      rewrite !NM, !ID by auto. congruence.
    Qed.

    (** a suffix array of the reduced text gives the order of the LMS suffixes *)
    Lemma summary_order l' : is_suffix_array R l' ->
      let order := map (fun e => nth e PP 0) (skipn 2 l') in
      length l' = length order + 2 /\
      (forall x, In x order <-> x < n /\ lms x = true) /\
      (forall a b, a < b < length order -> lexlt (suffix text (nth a order 0)) (suffix text (nth b order 0))) /\
      (forall k, k < length order -> exists e, nth_error (map Some l') (k + 2) = Some (Some e) /\
         nth_error PP e = Some (nth k order 0)).
    Proof.
      intros (L1 & L2 & L3) order. rewrite R_length in *.
      assert (length order = m) as LO by (unfold order; rewrite map_length, skipn_length; lia).
      assert (NoDup l') as ND.
      { apply (NoDup_nth l' 0). intros i j Hi Hj E.
        destruct (Nat.lt_trichotomy i j) as [G|[G|G]]; auto; exfalso.
        - apply (@lexlt_irrefl (suffix R (nth i l' 0))). rewrite E at 2.
          apply (L3 i j); auto; apply nth_error_nth'; auto.
        - apply (@lexlt_irrefl (suffix R (nth i l' 0))). rewrite E at 1.
          apply (L3 j i); auto; apply nth_error_nth'; auto. }
      assert (forall x, In x l' -> x <= m + 1) as LB.
      { assert (incl l' (seq 0 (m + 2))) as HI.
        { apply NoDup_length_incl; [apply seq_NoDup|rewrite seq_length; lia|].
          intros x Hx. apply in_seq in Hx. apply L2. lia. }
        intros x Hx. apply HI, in_seq in Hx. lia. }
      assert (forall i, i < length l' -> nth_error l' i = Some (nth i l' 0)) as NE by (intros; apply nth_error_nth'; auto).
      assert (nth 0 l' 0 = m + 1) as Z0.
      { destruct (In_nth l' (m + 1) 0) as (i & Hi & Ei); [apply L2; lia|].
        destruct i as [|i]; auto. exfalso.
        pose proof (@L3 0 (S i) _ _ ltac:(lia) (NE 0 ltac:(lia)) (NE (S i) Hi)) as H.
        rewrite Ei in H. replace (m + 1) with (length R) in H by apply R_length.
        rewrite suffix_end in H. inversion H. }
      assert (nth 1 l' 0 = m) as Z1.
      { destruct (In_nth l' m 0) as (i & Hi & Ei); [apply L2; lia|].
        destruct i as [|[|i]]; auto; [lia|]. exfalso.
        pose proof (@L3 1 (S (S i)) _ _ ltac:(lia) (NE 1 ltac:(lia)) (NE (S (S i)) Hi)) as H.
        rewrite Ei in H. set (x := nth 1 l' 0) in *.
        assert (In x l') as Hx by (apply nth_In; lia). apply LB in Hx.
        assert (x <> m + 1) as Nx.
        { intros E. assert (1 = 0); [|lia]. apply (proj1 (NoDup_nth l' 0) ND); lia. }
        assert (suffix R m = [0]) as Sm.
        { rewrite suffix_cons by (rewrite R_length; lia).
          change (ch (map nmx PP) m) with (nth m R 0). rewrite R_last. f_equal.
          replace (m + 1) with (length R) by apply R_length. apply suffix_end. }
        rewrite Sm in H. destruct (Nat.eq_dec x m) as [E|E].
        - rewrite E, Sm in H. eapply lexlt_irrefl; eauto.
        - rewrite suffix_cons in H by (rewrite R_length; lia). apply lexlt_cons_inv in H.
          pose proof (@R_other x ltac:(lia)) as HO. change (ch (map nmx PP) x) with (nth x R 0) in H.
          destruct H as [H|[H H']]; lia. }
      assert (forall k, k < m -> nth (k + 2) l' 0 < m) as LT.
      { intros k Hk. assert (nth (k + 2) l' 0 <= m + 1) as H1 by (apply LB, nth_In; lia).
        assert (nth (k + 2) l' 0 <> m + 1) as H2.
        { intros E. assert (k + 2 = 0); [|lia]. apply (proj1 (NoDup_nth l' 0) ND); lia. }
        assert (nth (k + 2) l' 0 <> m) as H3.
        { intros E. assert (k + 2 = 1); [|lia]. apply (proj1 (NoDup_nth l' 0) ND); lia. }
        lia. }
      assert (forall k, nth k (skipn 2 l') 0 = nth (k + 2) l' 0) as SK.
      { intros k. clear. destruct l' as [|x [|y t]].
        - rewrite skipn_nil. destruct k; auto.
        - simpl. destruct k; simpl; auto; destruct (k + 2); auto.
        - rewrite Nat.add_comm. reflexivity. }
      assert (forall k, k < m -> nth k order 0 = nth (nth (k + 2) l' 0) PP 0) as ON.
      { intros k Hk. apply nth_of_error. unfold order. rewrite nth_error_map.
        rewrite (nth_error_nth' _ 0) by (rewrite skipn_length; lia). rewrite SK. auto. }
      split; [lia|]. split; [|split].
      - intros x. split.
        + intros Hx. apply (In_nth _ _ 0) in Hx as (k & Hk & <-). rewrite ON by lia.
          apply PP_nth. apply LT; lia.
        + intros (H1 & H2). assert (In x PP) as Hx by (apply PP_in; auto).
          apply (In_nth _ _ 0) in Hx as (e & He & Ee). rewrite PP_length in He.
          assert (e < m) as Hem.
          { destruct (Nat.eq_dec e m) as [->|]; [rewrite PP_last in Ee; lia|lia]. }
          destruct (In_nth l' e 0) as (k & Hk & Ek); [apply L2; lia|].
          destruct k as [|[|k]]; [lia|lia|].
          assert (nth k order 0 = x) as <-.
          { rewrite ON by lia. rewrite (Nat.add_comm k 2). cbn [Nat.add]. rewrite Ek; auto. }
          apply nth_In; lia.
      - rewrite LO. intros a b Hab. rewrite !ON by lia.
        apply reduced_order_inv.
        + pose proof (LT a ltac:(lia)); lia.
        + pose proof (LT b ltac:(lia)); lia.
        + apply (L3 (a + 2) (b + 2)); [lia| |]; apply NE; lia.
      - rewrite LO. intros k Hk. exists (nth (k + 2) l' 0).
        rewrite nth_error_map, NE by lia. split; auto. rewrite ON by auto.
        apply nth_error_nth'. rewrite PP_length. pose proof (LT k Hk). lia.
    Qed.
  End Order.

  Lemma m_small : 1 <= m -> m + 2 <= n.
  Proof.
    intros H.
    assert (length (filter lms (seq 0 n)) = m) as HL.
    { pose proof PP_length as H1. unfold PP in H1. rewrite app_length in H1. cbn [length] in H1. lia. }
    assert (incl (filter lms (seq 0 n)) (seq 1 (n - 2))) as HI.
    { intros x Hx. apply filter_In in Hx as (H1 & H2). apply in_seq in H1. apply in_seq.
      pose proof (@S_facts text types HT x ltac:(lia) (lms_S _ _ H2)) as (F & _).
      destruct x; [discriminate|]. lia. }
    apply NoDup_incl_length in HI; [|apply NoDup_filter, seq_NoDup].
    rewrite HL, seq_length in HI. lia.
  Qed.
End Reduce.

(** ** the whole algorithm *)
Lemma orchestrate_ok fuel : forall text alpha, length text + 1 <= fuel -> Forall (fun x => x < alpha) text ->
  exists l, orchestrate_build_suffix_array fuel text alpha = Ok (map Some l) /\ is_suffix_array text l.
Proof.
  induction fuel as [|fuel IH]; intros text alpha Hf HA; [lia|].
  cbn [orchestrate_build_suffix_array].
  destruct (get_suffix_types_ok text) as (types & -> & HT). cbn [bind].
  rewrite (bucket_sizes_ok HA). cbn [bind].
  destruct (@first_pass text types alpha HT HA) as (sa & sa1 & l & -> & E1 & E2 & Ll & Il & NDl & Ol & Zl).
  cbn [bind]. rewrite E1. cbn [bind]. rewrite E2. cbn [bind].
  destruct (@reduce_ok text types HT l Ll Il NDl Ol Zl) as (nmx & -> & NM). cbn [bind rp_text rp_offsets rp_alphabet].
  set (R := map nmx (PP text types)).
  pose proof (@R_length text types HT l Ll Il NDl Ol Zl nmx) as RL. fold R in RL.
  assert (exists l', (if nms text types l (length (q types l)) + 1 =? length R
            then summary_direct R
            else orchestrate_build_suffix_array fuel R (nms text types l (length (q types l)) + 1))
          = Ok (map Some l') /\ is_suffix_array R l') as (l' & -> & HS).
  { pose proof (@R_bound text types HT l Ll Il NDl Ol Zl nmx NM) as RB. fold R in RB.
    destruct (Nat.eqb_spec (nms text types l (length (q types l)) + 1) (length R)) as [E|E].
    - apply summary_direct_ok.
      + apply (@R_distinct text types HT l Ll Il NDl Ol Zl nmx NM). exact E.
      + rewrite <- E. auto.
      + lia.
    - apply IH; auto. rewrite RL in *.
      destruct (length (q types l)) as [|k] eqn:Em.
      + cbn in E. lia.
      + pose proof (@m_small text types HT l Ll Il NDl Ol Zl). lia. }
  cbn [bind].
  destruct (@summary_order text types HT l Ll Il NDl Ol Zl nmx NM l' HS) as (O1 & O2 & O3 & O4).
  set (order := map (fun e => nth e (PP text types) 0) (skipn 2 l')) in *.
  destruct (@second_pass text types alpha HT HA (map Some l') (PP text types) order)
    as (sb & sb1 & lf & -> & F1 & F2 & F3); auto.
  { rewrite map_length; auto. }
  cbn [bind]. rewrite F1. cbn [bind]. rewrite F2. eauto.
Qed.

Theorem build_suffix_array_ok bs : Forall (fun b => b < 256) bs ->
  exists sa, build_suffix_array bs = Ok sa /\ is_suffix_array bs sa.
Proof.
  intros H. unfold build_suffix_array.
  destruct (@orchestrate_ok (length bs + 1) bs 256) as (l & -> & HS); auto.
  cbn [bind]. exists l. split; auto.
  clear. induction l as [|x l IH]; [reflexivity|]. cbn [map map_res of_option bind]. rewrite IH. reflexivity.
Qed.

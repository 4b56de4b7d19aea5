(** * Lloyd's algorithm on at most as many rows as tables

    Used for C02: with at most [k] groups of symbols the table of each group is known. *)
From Coq Require Import ZArith NArith Reals Lia Lra.
From Verif Require Import Base BaseFacts SpecKMeans KMeansFacts.
Open Scope R_scope.

(** table [t] is the first one started at a row equal to row [g] *)
Definition first_match (rows : list (list nat)) (k g t : nat) : Prop :=
  (t < k)%nat /\ nth (t * length rows / k) rows [] = nth g rows [] /\
  forall t', (t' < t)%nat -> nth (t' * length rows / k) rows [] <> nth g rows [].

Definition eps : R := 4 / 100000.
Definition near (dim : nat) (c : nat -> R) (row : list nat) : Prop :=
  forall s, (s < dim)%nat -> Rabs (c s - INR (nth s row 0%nat)) <= eps.
Definition far (dim : nat) (c : nat -> R) (row : list nat) : Prop :=
  exists s, (s < dim)%nat /\ 9 / 10 <= Rabs (c s - INR (nth s row 0%nat)).

Lemma rsum_le f g n : (forall i, (i < n)%nat -> f i <= g i) -> rsum f n <= rsum g n.
Proof. induction n as [|n IH]; intros H; cbn [rsum]; [lra|]. specialize (IH ltac:(auto)). specialize (H n ltac:(lia)). lra. Qed.
Lemma rsum_const c n : rsum (fun _ => c) n = INR n * c.
Proof. induction n as [|n IH]; [cbn [rsum]; change (INR 0) with 0; ring|]. cbn [rsum]. rewrite IH, S_INR. ring. Qed.
Lemma rsum_ge f n i : (forall i, 0 <= f i) -> (i < n)%nat -> f i <= rsum f n.
Proof.
  intros H. assert (forall m, 0 <= rsum f m) as P by (induction m as [|m IHm]; cbn [rsum]; [lra|specialize (H m); lra]).
  induction n as [|n IH]; intros Hi; [lia|]. cbn [rsum]. destruct (Nat.eq_dec i n) as [->|NE]; [specialize (P n); lra|].
  specialize (IH ltac:(lia)). specialize (H n). lra.
Qed.
Lemma near_distance dim c row : (dim <= 300)%nat -> near dim c row -> distance2 dim c row <= / 1000000.
Proof.
  intros Hd H. unfold distance2. apply Rle_trans with (rsum (fun _ => eps * eps) dim).
  - apply rsum_le. intros i Hi. specialize (H i Hi). rewrite <- Rsqr_pow2, Rsqr_abs. unfold Rsqr.
    apply Rmult_le_compat; auto using Rabs_pos.
  - rewrite rsum_const. apply Rle_trans with (300 * (eps * eps)); [|unfold eps; lra].
    apply Rmult_le_compat_r; [unfold eps; lra|]. replace 300 with (INR 300) by (rewrite INR_IZR_INZ; reflexivity). apply le_INR. lia.
Qed.
Lemma far_distance dim c row : far dim c row -> 81 / 100 <= distance2 dim c row.
Proof.
  intros (s & Hs & H). unfold distance2. apply Rle_trans with ((c s - INR (nth s row 0%nat)) ^ 2).
  - rewrite <- Rsqr_pow2, Rsqr_abs. unfold Rsqr. apply Rle_trans with (9 / 10 * (9 / 10)); [lra|]. apply Rmult_le_compat; lra.
  - apply (@rsum_ge (fun s => (c s - INR (nth s row 0%nat)) ^ 2) dim s); auto. intros i. apply pow2_ge_0.
Qed.
Lemma rows_differ dim (a b : list nat) : length a = dim -> length b = dim -> a <> b -> exists s, (s < dim)%nat /\ nth s a 0%nat <> nth s b 0%nat.
Proof.
  revert a b; induction dim as [|dim IH]; intros [|x a] [|y b] La Lb H; cbn [length] in *; try discriminate; [congruence|].
  destruct (Nat.eq_dec x y) as [->|NE].
  - destruct (IH a b) as (s & Hs & Ns); [lia|lia|congruence|]. exists (S s). split; [lia|exact Ns].
  - exists 0%nat. split; [lia|exact NE].
Qed.
Lemma differ_one (a b : nat) : a <> b -> 1 <= Rabs (INR a - INR b).
Proof.
  intros H. rewrite !INR_IZR_INZ, <- minus_IZR, <- abs_IZR. apply IZR_le. lia.
Qed.
Lemma near_other dim c row row' : length row = dim -> length row' = dim -> row <> row' -> near dim c row' -> far dim c row.
Proof.
  intros L L' N H. destruct (@rows_differ dim row' row) as (s & Hs & D); auto. exists s. split; auto. specialize (H s Hs).
  apply differ_one in D. replace (INR (nth s row' 0%nat) - INR (nth s row 0%nat)) with
    ((c s - INR (nth s row 0%nat)) - (c s - INR (nth s row' 0%nat))) in D by ring.
  pose proof (Rabs_triang (c s - INR (nth s row 0%nat)) (- (c s - INR (nth s row' 0%nat)))) as T. rewrite Rabs_Ropp in T.
  unfold Rminus at 1 in D. unfold eps in H. lra.
Qed.
Lemma pick_first dim k center row t0 t : (dim <= 300)%nat -> (t0 < k)%nat -> near dim (center t0) row ->
  (forall t, (t < k)%nat -> t <> t0 -> far dim (center t) row \/ (t0 < t)%nat /\ forall s, (s < dim)%nat -> center t s = center t0 s) ->
  nearest_center dim k center row t -> t = t0.
Proof.
  intros Hd Ht0 HN HF (Ht & H1 & H2). destruct (Nat.eq_dec t t0) as [E|NE]; auto. exfalso. destruct (HF t Ht NE) as [F|(L & E)].
  - apply far_distance in F. apply near_distance in HN; auto. specialize (H1 t0 Ht0). lra.
  - destruct (H2 t0 L) as (s & Hs & N). apply N. symmetry. auto.
Qed.

Lemma first_match_unique rows k g g' t t' : nth g rows [] = nth g' rows [] -> first_match rows k g t -> first_match rows k g' t' -> t = t'.
Proof.
  intros E (_ & M & N) (_ & M' & N'). rewrite <- E in M', N'.
  destruct (Nat.lt_trichotomy t t') as [L|[L|L]]; auto; [destruct (N' _ L M)|destruct (N _ L M')].
Qed.
Lemma first_match_exists rows k g : (1 <= length rows <= k)%nat -> (g < length rows)%nat -> exists t, first_match rows k g t.
Proof.
  intros Hk Hg. set (m := length rows) in *.
  assert (exists t, (t < k)%nat /\ nth (t * m / k) rows [] = nth g rows []) as (t & Ht & E).
  { exists ((g * k + (m - 1)) / m)%nat. pose proof (Nat.div_mod (g * k + (m - 1)) m ltac:(lia)) as D.
    pose proof (Nat.mod_upper_bound (g * k + (m - 1)) m ltac:(lia)) as B. set (t := ((g * k + (m - 1)) / m)%nat) in *.
    set (r := ((g * k + (m - 1)) mod m)%nat) in *. split; [nia|]. replace (t * m / k)%nat with g; auto.
    apply Nat.div_unique with (r := (t * m - g * k)%nat); nia. }
  assert (forall n, (exists t, (t < n)%nat /\ (t < k)%nat /\ nth (t * m / k) rows [] = nth g rows []) -> exists t, first_match rows k g t) as G.
  { induction n as [n IH] using (well_founded_induction lt_wf). intros (u & Hu & Hk' & Eu).
    destruct (Exists_dec (fun i => nth (i * m / k) rows [] = nth g rows []) (seq 0 u)) as [X|X].
      { intros i. apply (list_eq_dec Nat.eq_dec). }
    - apply Exists_exists in X as (i & Hi & Ei). apply in_seq in Hi. apply (IH u Hu). exists i. split; [lia|]. split; [lia|auto].
    - exists u. split; auto. split; auto. intros t' Ht' E'. apply X. apply Exists_exists. exists t'. split; auto. apply in_seq. lia. }
  apply (G (S t)). exists t. auto.
Qed.

Lemma combine_nth_lt {A B} (l : list A) (l' : list B) g a b : (g < length l)%nat -> (g < length l')%nat ->
  nth g (combine l l') (a, b) = (nth g l a, nth g l' b).
Proof.
  revert l' g; induction l as [|x l IH]; intros [|y l'] [|g] H H'; cbn [length combine nth] in *; try lia; auto. apply IH; lia.
Qed.
Lemma in_members rows sel t r : In r (members rows sel t) <-> exists g, (g < length rows)%nat /\ (g < length sel)%nat /\ nth g sel 0%nat = t /\ nth g rows [] = r.
Proof.
  unfold members. rewrite in_map_iff. split.
  - intros ([r' a] & <- & H). apply filter_In in H as (H & E). cbn [fst snd] in *. apply Nat.eqb_eq in E. subst a.
    apply In_nth with (d := ([], 0%nat)) in H as (g & Hg & E). rewrite combine_length in Hg.
    rewrite (@combine_nth_lt _ _ rows sel g [] 0%nat) in E by lia.
    injection E as E1 E2. exists g. repeat split; auto; lia.
  - intros (g & H1 & H2 & E1 & E2). exists (r, t). split; auto. apply filter_In. split; [|apply Nat.eqb_refl].
    rewrite <- E1, <- E2, <- (@combine_nth_lt _ _ rows sel g [] 0%nat) by lia. apply nth_In. rewrite combine_length. lia.
Qed.
Lemma members_len rows sel t : (length (members rows sel t) <= length rows)%nat.
Proof.
  unfold members. rewrite map_length. eapply Nat.le_trans; [apply filter_length_le|]. rewrite combine_length. lia.
Qed.
Lemma total_same rows r s : (forall x, In x rows -> x = r) -> total rows s = (length rows * nth s r 0)%nat.
Proof.
  unfold total. induction rows as [|x rows IH]; intros H; [reflexivity|]. cbn [map list_sum fold_right length].
  change (fold_right Nat.add 0%nat (map (fun row => nth s row 0%nat) rows)) with (list_sum (map (fun row => nth s row 0%nat) rows)).
  rewrite IH by (intros; apply H; right; auto). rewrite (H x) by (left; auto). lia.
Qed.

Theorem few_rows dim k iterations rows chosen weights : (dim <= 300)%nat -> (1 <= iterations)%nat -> (1 <= length rows <= k)%nat -> (k <= 7)%nat ->
  Forall (fun row => length row = dim /\ exists s, (s < dim)%nat /\ nth s row 0%nat <> 0%nat) rows ->
  lloyd dim rows k iterations chosen weights ->
  length chosen = length rows /\ forall g, (g < length rows)%nat -> first_match rows k g (nth g chosen 0%nat).
Proof.
  intros Hd Hit Hm Hk HR (center & assigned & HC0 & _ & HI & -> & _).
  assert (forall g, (g < length rows)%nat -> length (nth g rows []) = dim /\ exists s, (s < dim)%nat /\ nth s (nth g rows []) 0%nat <> 0%nat) as HRg.
  { intros g Hg. rewrite Forall_forall in HR. apply HR, nth_In, Hg. }
  assert (forall t, (t < k)%nat -> (t * length rows / k < length rows)%nat) as HIx.
  { intros t Ht. apply Nat.div_lt_upper_bound; [lia|]. nia. }
  set (m := length rows) in *.
  assert (forall j, (j < iterations)%nat -> forall g, (g < m)%nat -> first_match rows k g (nth g (assigned (S j)) 0%nat)) as G.
  { induction j as [|j IH]; intros Hj g Hg; destruct (@first_match_exists rows k g Hm Hg) as (t0 & F0); pose proof F0 as (Ht0 & M0 & N0);
      destruct (HRg g Hg) as (Lg & sz & Hsz & Nz); destruct (HI _ Hj) as (HL & HN & _); specialize (HN g Hg).
    - refine (eq_ind_r (fun T => first_match rows k g T) F0 (@pick_first dim k (center 0%nat) (nth g rows []) t0 _ Hd Ht0 _ _ HN)).
      + intros s Hs. rewrite HC0 by auto. fold m. fold m in M0. rewrite M0. replace (_ - _) with 0 by ring. rewrite Rabs_R0. unfold eps. lra.
      + intros t Ht NE. destruct (list_eq_dec Nat.eq_dec (nth (t * m / k) rows []) (nth g rows [])) as [E|E].
        * right. split.
          -- destruct (Nat.lt_ge_cases t0 t) as [L|L]; auto. exfalso. apply (N0 t); [lia|exact E].
          -- intros s Hs. rewrite !HC0 by auto. fold m. fold m in M0. rewrite E, M0. reflexivity.
        * left. apply near_other with (row' := nth (t * m / k) rows []); auto.
          -- apply HRg, HIx, Ht.
          -- intros s Hs. rewrite HC0 by auto. fold m. replace (_ - _) with 0 by ring. rewrite Rabs_R0. unfold eps. lra.
    - destruct (HI j ltac:(lia)) as (HLj & _ & HM). specialize (IH ltac:(lia)). fold m in HLj.
      assert (forall t g', (t < k)%nat -> (g' < m)%nat -> nth g' (assigned (S j)) 0%nat = t -> near dim (center (S j) t) (nth g' rows [])) as HNear.
      { intros t g' Ht Hg' E s Hs. specialize (HM t Ht s Hs) as (_ & HM).
        assert (In (nth g' rows []) (members rows (assigned (S j)) t)) as I.
        { apply in_members. exists g'. fold m. rewrite HLj. auto. }
        assert (members rows (assigned (S j)) t <> []) as NEm by (intros E0; rewrite E0 in I; destruct I).
        specialize (HM NEm). rewrite (@total_same _ (nth g' rows [])) in HM.
        2:{ intros x Hx. apply in_members in Hx as (h & Hh & _ & Eh & <-). destruct (IH h Hh) as (_ & M1 & _). destruct (IH g' Hg') as (_ & M2 & _).
            rewrite Eh in M1. rewrite E in M2. congruence. }
        pose proof (members_len rows (assigned (S j)) t) as LM. fold m in LM.
        assert (1 <= length (members rows (assigned (S j)) t))%nat as L1 by (destruct (members _ _ _); [congruence|cbn [length]; lia]).
        rewrite mult_INR in HM. set (n := length (members rows (assigned (S j)) t)) in *.
        assert (INR n <> 0) as Nn by (apply not_0_INR; lia).
        replace (INR n * INR (nth s (nth g' rows []) 0%nat) / INR n) with (INR (nth s (nth g' rows []) 0%nat)) in HM by (field; auto).
        eapply Rle_trans; [exact HM|]. assert (INR (n + 1) <= 8) as B.
        { replace 8 with (INR 8) by (rewrite INR_IZR_INZ; reflexivity). apply le_INR. lia. }
        unfold eps. lra. }
      refine (eq_ind_r (fun T => first_match rows k g T) F0 (@pick_first dim k (center (S j)) (nth g rows []) t0 _ Hd Ht0 _ _ HN)).
      + apply HNear; auto. eapply first_match_unique; [reflexivity|apply IH; auto|exact F0].
      + intros t Ht NE. left. destruct (list_eq_dec (list_eq_dec Nat.eq_dec) (members rows (assigned (S j)) t) []) as [E|E].
        * exists sz. split; auto. specialize (HM t Ht sz Hsz) as (HM & _). rewrite (HM E).
          pose proof (differ_one (not_eq_sym Nz)) as D. change (INR 0) with 0 in D. lra.
        * destruct (members rows (assigned (S j)) t) as [|r rest] eqn:EM; [congruence|].
          assert (In r (members rows (assigned (S j)) t)) as I by (rewrite EM; left; auto).
          apply in_members in I as (h & Hh & _ & Eh & Er). fold m in Hh.
          apply near_other with (row' := nth h rows []); auto; [apply HRg; auto|].
          intros E'. apply NE. eapply first_match_unique; [|rewrite <- Eh; apply IH; auto|exact F0]. auto. }
  destruct iterations as [|j]; [lia|]. destruct (HI j ltac:(lia)) as (HL & _). split; auto.
Qed.

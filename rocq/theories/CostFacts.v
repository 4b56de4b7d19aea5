(** * How good the code lengths are for the counts of a block

    The code is optimal for the weights after tie breaking (compute_lis_optimal); tie
    breaking adds at most its position to a count. *)
From Verif Require Import Base BaseFacts Bitwise BitwiseFacts Zle ZleFacts SymbolStatistics PackageMerge PackageMergeFacts
  Huffman HuffmanFacts GroupFacts.
From Coq Require Import Sorting.Sorted Permutation.

(** 0 + 1 + ... *)
Fixpoint tri (k : N) (n : nat) : N := match n with 0 => 0%N | S n => (k + tri (k + 1) n)%N end.
Lemma tri_eq n k : (2 * tri k n = N.of_nat n * (2 * k + N.of_nat n - 1))%N.
Proof.
  revert k; induction n as [|n IH]; intros k; cbn [tri]; [lia|]. rewrite N.mul_add_distr_l, IH.
  destruct n as [|n]; [lia|]. nia.
Qed.

Definition plus2 (a b : list N) : list N := map (fun x => (fst x + snd x)%N) (combine a b).

Lemma ties_added l : forall o k, StronglySorted N.le (map snd l) ->
  match o with Some lf => Forall (fun f => lf + 1 <= f + k)%N (map snd l) | None => True end ->
  exists ds, length ds = length l /\ map snd (break_ties o l) = plus2 (map snd l) ds /\ (sumN ds <= tri k (length l))%N.
Proof.
  induction l as [|[s f] l IH]; intros o k HS HO; [exists []; repeat split; cbn; lia|].
  cbn [break_ties map snd] in *. apply StronglySorted_inv in HS as (HS & HF).
  set (f' := match o with Some lf => if (f <=? lf)%N then (f + (lf - f + 1))%N else f | None => f end).
  assert (f <= f' <= f + k)%N as Hf'.
  { unfold f'. destruct o as [lf|]; [|lia]. apply Forall_cons_iff in HO as (HO & _). destruct (N.leb_spec f lf); lia. }
  destruct (IH (Some f') (k + 1)%N) as (ds & L & E & B); auto.
  { eapply Forall_impl; [|exact HF]. cbv beta. intros; lia. }
  exists ((f' - f)%N :: ds). cbn [length tri]. split; [lia|]. unfold plus2 in *. cbn [combine map fst snd].
  split; [f_equal; [lia|exact E]|]. cbn [sumN fold_right]. unfold sumN in B. lia.
Qed.

Lemma cost_plus a b ls : length a = length b -> cost (plus2 a b) ls = (cost a ls + cost b ls)%N.
Proof.
  unfold cost, plus2, sumN. revert b ls; induction a as [|x a IH]; intros [|y b] ls H; try discriminate; [reflexivity|].
  cbn [combine map fst snd]. destruct ls as [|l ls]; [reflexivity|]. cbn [combine map fst snd fold_right].
  rewrite (IH b ls) by (cbn in H; lia). lia.
Qed.
Lemma cost_le w ls m : length ls = length w -> Forall (fun l => l <= m) ls -> (cost w ls <= sumN w * N.of_nat m)%N.
Proof.
  unfold cost, sumN. revert ls; induction w as [|x w IH]; intros [|l ls] H HF; try discriminate H; [cbn; lia|].
  apply Forall_cons_iff in HF as (H1 & HF). cbn [combine map fst snd fold_right].
  specialize (IH ls ltac:(cbn in H; lia) HF). nia.
Qed.
Lemma cost_ge w ls m : length ls = length w -> Forall (fun l => m <= l) ls -> (sumN w * N.of_nat m <= cost w ls)%N.
Proof.
  unfold cost, sumN. revert ls; induction w as [|x w IH]; intros [|l ls] H HF; try discriminate H; [cbn; lia|].
  apply Forall_cons_iff in HF as (H1 & HF). cbn [combine map fst snd fold_right].
  specialize (IH ls ltac:(cbn in H; lia) HF). nia.
Qed.
Lemma sum_plus a b : length a = length b -> sumN (plus2 a b) = (sumN a + sumN b)%N.
Proof.
  unfold plus2, sumN. revert b; induction a as [|x a IH]; intros [|y b] H; try discriminate; [reflexivity|].
  cbn [combine map fst snd fold_right]. rewrite IH by (cbn in H; lia). lia.
Qed.
Lemma cost_map {A} (f : A -> N) (g : A -> nat) l : cost (map f l) (map g l) = sumN (map (fun s => (f s * N.of_nat (g s))%N) l).
Proof. unfold cost. induction l as [|x l IH]; [reflexivity|]. cbn [map combine fst snd]. unfold sumN in *. cbn [fold_right]. rewrite IH. reflexivity. Qed.

(** values of a list as a function of distinct keys *)
Lemma function_of {V} (d : V) ks : NoDup ks -> forall vs, length vs = length ks -> exists f : hsym -> V, map f ks = vs.
Proof.
  induction 1 as [|k ks Hk HN IH]; intros [|v vs] HL; try discriminate; [exists (fun _ => d); reflexivity|].
  destruct (IH vs) as (f & E); [cbn in HL; lia|]. exists (fun s => if hsym_eqb s k then v else f s). cbn [map].
  rewrite (proj2 (hsym_eqb_eq k k) eq_refl). f_equal. rewrite <- E. apply map_ext_in. intros s Hs.
  destruct (hsym_eqb s k) eqn:ES; auto. apply hsym_eqb_eq in ES. subst. contradiction.
Qed.
Lemma pairs_of (fr : hsym -> N) l : map fr (map fst l) = map snd l -> l = map (fun s => (s, fr s)) (map fst l).
Proof.
  induction l as [|[s f] l IH]; intros H; [reflexivity|]. cbn [map fst snd] in *. injection H as H1 H2. rewrite <- IH by auto. congruence.
Qed.
Lemma kraft_perm a b : Permutation a b -> kraft 17 a = kraft 17 b.
Proof.
  intros P. unfold kraft. apply (Permutation_map (fun l => 2 ^ (17 - l))) in P. revert P.
  generalize (map (fun l => 2 ^ (17 - l)) a) (map (fun l => 2 ^ (17 - l)) b). clear.
  induction 1; cbn [list_sum fold_right]; unfold list_sum in *; lia.
Qed.

(** the weights in sorted order: counts of the symbols [syms] plus what tie breaking adds *)
Theorem table_weights freqs : 2 <= length freqs <= 257 ->
  exists t T syms fr g ds, compute_huffman freqs = Ok t /\ (forall p, canonicalize p t = Ok T) /\
    map snd T = alphabet (length freqs - 1) /\ Forall (fun l => 1 <= l <= 17) (code_lengths T) /\
    Permutation syms (alphabet (length freqs - 1)) /\ length syms = length freqs + 1 /\
    map fr (alphabet (length freqs - 1)) = freqs ++ [0%N] /\
    map g (alphabet (length freqs - 1)) = code_lengths T /\
    length ds = length syms /\ (sumN ds <= tri 0 (length freqs + 1))%N /\
    strictly_increasing (plus2 (map fr syms) ds) /\
    compute_lis (plus2 (map fr syms) ds) 17 = Ok (map g syms).
Proof.
  intros H. destruct (tables_agree _ H) as (t & T & E1 & E2 & ET & BT & KT & _).
  pose proof (alphabet_NoDup (length freqs - 1)) as ND.
  assert (length (alphabet (length freqs - 1)) = length freqs + 1) as LA by (rewrite alphabet_length; lia).
  destruct (@function_of N 0%N _ ND (freqs ++ [0%N])) as (fr & Efr); [rewrite app_length; cbn [length]; lia|].
  destruct (@function_of nat 0 _ ND (code_lengths T)) as (g & Eg).
  { unfold code_lengths. rewrite map_length, <- ET, map_length. reflexivity. }
  pose proof E1 as E1'. unfold compute_huffman in E1'.
  set (tb := map (fun x => (Normal (fst x), snd x)) (iterate_frequencies freqs) ++ [(EoB, 0%N)]) in *.
  set (st := sort_by (fun x y : hsym * N => (snd x <=? snd y)%N) tb) in *.
  assert (map fst tb = alphabet (length freqs - 1)) as TF by (apply iterate_alphabet; auto).
  assert (map snd tb = freqs ++ [0%N]) as TS.
  { unfold tb. rewrite map_app, map_map. cbn [map snd]. f_equal. unfold iterate_frequencies. rewrite map_map. cbn [snd].
    unfold enumerate. generalize 0 as i. clear. induction freqs as [|f fs IH]; intros i; cbn [enumerate_from map snd]; f_equal; auto. }
  assert (Permutation tb st) as P by apply sort_by_perm.
  assert (tb = map (fun s => (s, fr s)) (map fst tb)) as TE.
  { apply pairs_of. rewrite TF, TS. auto. }
  assert (map snd st = map fr (map fst st)) as SE.
  { rewrite map_map. apply map_ext_in. intros x Hx. eapply Permutation_in in Hx; [|symmetry; exact P]. rewrite TE in Hx.
    apply in_map_iff in Hx as (s & <- & _). reflexivity. }
  assert (StronglySorted N.le (map snd st)) as SS.
  { assert (ssorted (fun x y : hsym * N => (snd x <=? snd y)%N) st) as S0.
    { apply sort_by_sorted.
      - intros x y HH. apply N.leb_gt in HH. apply N.leb_le. lia.
      - intros x y z H1 H2. apply N.leb_le in H1. apply N.leb_le in H2. apply N.leb_le. lia. }
    unfold ssorted in S0. clear - S0. induction S0 as [|x l HS IH HF]; cbn [map]; constructor; auto.
    rewrite Forall_map. eapply Forall_impl; [|exact HF]. cbv beta. intros y Hy. apply N.leb_le in Hy. auto. }
  destruct (@ties_added st None 0%N SS I) as (ds & LD & ED & BD).
  assert (length st = length freqs + 1) as LST.
  { rewrite <- (Permutation_length P), <- (map_length fst), TF. auto. }
  apply bind_ok in E1' as (ls & EL & E1'). injection E1' as E1'.
  rewrite break_ties_fst in E1'.
  destruct (break_ties_increasing None st) as (INC & _).
  exists t, T, (map fst st), fr, g, ds. rewrite map_length, <- SE, <- ED. rewrite <- LST.
  repeat (split; [solve [auto]|]). split; [rewrite <- TF; apply Permutation_map; symmetry; exact P|].
  repeat (split; [solve [auto]|]). rewrite EL. f_equal.
  (* the lengths *)
  destruct (@compute_lis_spec _ INC ltac:(rewrite map_length, <- (map_length fst), break_ties_fst, map_length; lia)) as (ls' & EL' & LL & _).
  rewrite EL in EL'. injection EL' as <-.
  rewrite map_length, <- (map_length fst), break_ties_fst in LL.
  assert (Permutation (map (fun x => (length (fst x), snd x)) T) t) as PT.
  { destruct (compute_huffman_ok _ H) as (t0 & E0 & P0 & F0 & K0). rewrite E1 in E0. injection E0 as <-.
    destruct (@canonicalize_ok Checked 17 t) as (T' & ET' & _ & PT & _); auto; try lia.
    - intros ->. apply Permutation_nil in P0. rewrite P0 in LA. cbn [length] in LA. lia.
    - eapply Forall_impl; [|exact F0]. cbv beta; intros; lia.
    - rewrite <- kraft_kraftN, K0. { vm_compute. discriminate. } eapply Forall_impl; [|exact F0]. cbv beta; intros; lia.
    - rewrite E2 in ET'. injection ET' as <-. auto. }
  assert (forall l s, In (l, s) t -> l = g s) as HG.
  { intros l s Hin. eapply Permutation_in in Hin; [|symmetry; exact PT]. rewrite <- combine_lengths, <- Eg, ET in Hin.
    clear - Hin. induction (alphabet (length freqs - 1)) as [|x al IH]; cbn [map combine] in Hin; [destruct Hin|].
    destruct Hin as [Hin|Hin]; [congruence|auto]. }
  rewrite <- E1' in HG. clear - HG LL. revert LL HG. generalize (map fst st) as ss. clear st.
  induction ls as [|l ls IH]; intros [|s ss] HL HG; try discriminate; [reflexivity|]. cbn [map combine] in *. f_equal.
  - apply HG. left. reflexivity.
  - apply IH; [cbn in HL; lia|]. intros; apply HG; right; auto.
Qed.

(** Tie breaking costs at most 16 bits for every unit it adds. *)
Theorem near_optimal freqs other : 2 <= length freqs <= 257 ->
  length other = length freqs + 1 -> Forall (fun l => l <= 17) other -> kraft 17 other <= 2 ^ 17 ->
  exists t T, compute_huffman freqs = Ok t /\ (forall p, canonicalize p t = Ok T) /\
    (cost (freqs ++ [0%N]) (code_lengths T) <= cost (freqs ++ [0%N]) other + 8 * N.of_nat (length freqs) * (N.of_nat (length freqs) + 1))%N.
Proof.
  intros H HO HF HK. destruct (table_weights _ H) as (t & T & syms & fr & g & ds & E1 & E2 & ET & BT & PS & LS & Efr & Eg & LD & BD & INC & EL).
  exists t, T. split; auto. split; auto.
  pose proof (alphabet_NoDup (length freqs - 1)) as ND.
  assert (length (alphabet (length freqs - 1)) = length freqs + 1) as LA by (rewrite alphabet_length; lia).
  destruct (@function_of nat 0 _ ND other ltac:(lia)) as (o & Eo).
  assert (length (plus2 (map fr syms) ds) = length syms) as LP.
  { unfold plus2. rewrite map_length, combine_length, map_length. lia. }
  assert (Permutation (map o syms) other) as PO by (rewrite <- Eo; apply Permutation_map; auto).
  assert (Forall (fun l => l <= 17) (map o syms)) as FO.
  { apply Forall_forall. intros l Hl. rewrite Forall_forall in HF. apply HF. eapply Permutation_in; eauto. }
  assert (Forall (fun l => 1 <= l) (map g syms)) as FG.
  { apply Forall_forall. intros l Hl. apply (Permutation_in l (Permutation_map g PS)) in Hl. rewrite Eg in Hl.
    rewrite Forall_forall in BT. apply BT in Hl. lia. }
  pose proof (@compute_lis_optimal _ _ (map o syms) INC ltac:(rewrite LP; lia) EL) as OPT.
  rewrite LP, map_length in OPT. specialize (OPT eq_refl FO). rewrite (kraft_perm PO) in OPT. specialize (OPT HK).
  rewrite !cost_plus in OPT by (rewrite map_length; lia).
  pose proof (@cost_le ds (map o syms) 17 ltac:(rewrite map_length; lia) FO) as B1.
  pose proof (@cost_ge ds (map g syms) 1 ltac:(rewrite map_length; lia) FG) as B2.
  rewrite <- Efr, <- Eg, <- Eo. rewrite !cost_map in *.
  assert (forall h, sumN (map (fun s => (fr s * N.of_nat (h s))%N) (alphabet (length freqs - 1))) = sumN (map (fun s => (fr s * N.of_nat (h s))%N) syms)) as HP.
  { intros h. apply sumN_perm, Permutation_map. symmetry; auto. }
  rewrite !HP. pose proof (tri_eq (length freqs + 1) 0) as HT. lia.
Qed.

(** ** an absolute bound: 8 and 1/64 bits per symbol *)
Lemma first_four w : StronglySorted N.le w -> 256 <= length w -> (64 * sumN (firstn 4 w) <= sumN w)%N.
Proof.
  intros HS HL.
  assert (forall j w, StronglySorted N.le w -> 4 * j <= length w -> (N.of_nat j * sumN (firstn 4 w) <= sumN w)%N) as G.
  2:{ specialize (G 64 w HS). apply G. lia. }
  clear. induction j as [|j IH]; intros w HS HL; [lia|].
  destruct w as [|a [|b [|c [|d w]]]]; cbn [length] in HL; try lia. cbn [firstn].
  apply StronglySorted_inv in HS as (HS & Fa). apply StronglySorted_inv in HS as (HS & Fb).
  apply StronglySorted_inv in HS as (HS & Fc). apply StronglySorted_inv in HS as (HS & Fd).
  specialize (IH w HS ltac:(lia)). change (sumN (a :: b :: c :: d :: w)) with (a + (b + (c + (d + sumN w))))%N.
  change (sumN [a; b; c; d]) with (a + (b + (c + (d + 0))))%N.
  assert (j = 0%nat \/ (sumN (firstn 4 w) >= a + b + c + d)%N) as [->|HJ]; [|lia|nia].
  destruct j as [|j]; [auto|right]. destruct w as [|a' [|b' [|c' [|d' w]]]]; cbn [length] in HL; try lia.
  cbn [firstn]. change (sumN [a'; b'; c'; d']) with (a' + (b' + (c' + (d' + 0))))%N.
  rewrite !Forall_cons_iff in Fa, Fb, Fc, Fd. lia.
Qed.
Lemma cost_app w1 w2 l1 l2 : length w1 = length l1 -> cost (w1 ++ w2) (l1 ++ l2) = (cost w1 l1 + cost w2 l2)%N.
Proof.
  unfold cost. revert l1; induction w1 as [|x w1 IH]; intros [|l l1] H; try discriminate; [reflexivity|].
  cbn [app combine map fst snd]. unfold sumN in *. cbn [fold_right]. rewrite IH by (cbn in H; lia). lia.
Qed.
Lemma cost_repeat w n m : length w = n -> cost w (repeat m n) = (sumN w * N.of_nat m)%N.
Proof.
  intros <-. unfold cost, sumN. induction w as [|x w IH]; [reflexivity|].
  cbn [length repeat combine map fst snd fold_right]. rewrite IH. lia.
Qed.
Lemma kraft_repeat n m : kraft 17 (repeat m n) = n * 2 ^ (17 - m).
Proof.
  unfold kraft. induction n as [|n IH]; [reflexivity|]. cbn [repeat map]. change (list_sum (?x :: ?l)) with (x + list_sum l).
  rewrite IH. reflexivity.
Qed.
Lemma kraft_app a b : kraft 17 (a ++ b) = kraft 17 a + kraft 17 b.
Proof. unfold kraft. rewrite map_app, list_sum_app. reflexivity. Qed.

Lemma lis_bound w ls : strictly_increasing w -> 2 <= length w <= 258 -> compute_lis w 17 = Ok ls ->
  (64 * cost w ls <= 513 * sumN w)%N.
Proof.
  intros HS HL EL. assert (2 ^ 17 = 256 * 2 ^ 9) as E17 by (change 17 with (8 + 9) at 1; rewrite Nat.pow_add_r; reflexivity).
  assert (StronglySorted N.le w) as HS'.
  { clear - HS. unfold strictly_increasing in HS. induction HS as [|x l HS IH HF]; constructor; auto. eapply Forall_impl; [|exact HF]. cbv beta; intros; lia. }
  destruct (Nat.le_gt_cases (length w) 256) as [HN|HN].
  - assert (cost w ls <= cost w (repeat 8%nat (length w)))%N as H.
    { apply compute_lis_optimal; auto; [apply repeat_length|apply Forall_forall; intros x Hx; apply repeat_spec in Hx; lia|].
      rewrite kraft_repeat, E17. change (17 - 8) with 9. apply Nat.mul_le_mono_r. auto. }
    rewrite cost_repeat in H by auto. lia.
  - assert (cost w ls <= cost w (repeat 9%nat 4 ++ repeat 8%nat (length w - 4)))%N as H.
    { apply compute_lis_optimal; auto.
      - rewrite app_length, !repeat_length. lia.
      - apply Forall_app; split; apply Forall_forall; intros x Hx; apply repeat_spec in Hx; lia.
      - rewrite kraft_app, !kraft_repeat, E17. change (17 - 9) with 8. change (17 - 8) with 9.
        change (2 ^ 8) with 256. change (2 ^ 9) with 512. lia. }
    rewrite <- (firstn_skipn 4 w) in H at 2. rewrite cost_app in H by (rewrite firstn_length, repeat_length; lia).
    rewrite !cost_repeat in H by (rewrite ?firstn_length, ?skipn_length; lia).
    pose proof (first_four HS' ltac:(lia)) as H4.
    assert (sumN w = sumN (firstn 4 w) + sumN (skipn 4 w))%N as E by (rewrite <- sumN_app, firstn_skipn; auto). lia.
Qed.

Theorem cost_bound freqs : 2 <= length freqs <= 257 ->
  exists t T, compute_huffman freqs = Ok t /\ (forall p, canonicalize p t = Ok T) /\
    (64 * cost (freqs ++ [0%N]) (code_lengths T) <= 513 * (sumN freqs + tri 0 (length freqs + 1)))%N.
Proof.
  intros H. destruct (table_weights _ H) as (t & T & syms & fr & g & ds & E1 & E2 & ET & BT & PS & LS & Efr & Eg & LD & BD & INC & EL).
  exists t, T. split; auto. split; auto.
  assert (length (plus2 (map fr syms) ds) = length syms) as LP.
  { unfold plus2. rewrite map_length, combine_length, map_length. lia. }
  pose proof (@lis_bound _ _ INC ltac:(rewrite LP; lia) EL) as B.
  rewrite cost_plus, sum_plus in B by (rewrite map_length; lia).
  rewrite <- Efr, <- Eg. rewrite !cost_map in *.
  assert (sumN (map fr syms) = sumN freqs) as ES.
  { rewrite (sumN_perm (Permutation_map fr PS)), Efr, sumN_app. unfold sumN at 2. cbn [fold_right]. lia. }
  rewrite (sumN_perm (Permutation_map _ PS)) in B. rewrite ES in B. lia.
Qed.

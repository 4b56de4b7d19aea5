(** * Exactly which run-length coded blocks the decoder of the crate expands correctly *)
From Verif Require Import Base BaseFacts SpecRle Rle RleFacts.

(** the output produced from a state *)
Fixpoint dec (eq : nat) (prev : option nat) (l : list nat) : list nat :=
  match l with
  | [] => []
  | x :: tl =>
      match prev with
      | Some p => if eq =? 3 then repeat p x ++ dec 0 (Some x) tl
                  else if p =? x then x :: dec (S eq) (Some x) tl else x :: dec 0 (Some x) tl
      | None => x :: dec eq (Some x) tl
      end
  end.
Lemma dec_fold l : forall out eq prev, ir_out (fold_left irle_step l (mk_irle out eq prev)) = out ++ dec eq prev l.
Proof.
  induction l as [|x l IH]; intros out eq prev; cbn [fold_left dec]; [rewrite app_nil_r; reflexivity|].
  unfold irle_step at 2; cbn [ir_prev ir_equal ir_out]. destruct prev as [p|].
  - destruct (eq =? 3); [rewrite IH, <- app_assoc; reflexivity|]. destruct (p =? x); rewrite IH, <- app_assoc; reflexivity.
  - rewrite IH, <- app_assoc. reflexivity.
Qed.

Lemma dec_repeat b k : forall eq rest, eq + k <= 3 -> dec eq (Some b) (repeat b k ++ rest) = repeat b k ++ dec (eq + k) (Some b) rest.
Proof.
  induction k as [|k IH]; intros eq rest H; [rewrite Nat.add_0_r; reflexivity|]. cbn [repeat app dec].
  replace (eq =? 3) with false by (symmetry; apply Nat.eqb_neq; lia). rewrite Nat.eqb_refl.
  rewrite IH by lia. replace (eq + S k) with (S eq + k) by lia. reflexivity.
Qed.
Lemma dec_fresh b k eq prev rest : eq <= 2 -> prev <> Some b -> (prev = None -> eq = 0) -> 1 <= k <= 4 ->
  dec eq prev (repeat b k ++ rest) = repeat b k ++ dec (k - 1) (Some b) rest.
Proof.
  intros H1 H2 H0 H3. destruct k as [|k]; [lia|]. cbn [repeat app].
  assert (dec eq prev (b :: repeat b k ++ rest) = b :: dec 0 (Some b) (repeat b k ++ rest)) as ->.
  { cbn [dec]. destruct prev as [c|]; [|rewrite H0; auto].
    replace (eq =? 3) with false by (symmetry; apply Nat.eqb_neq; lia).
    replace (c =? b) with false; [reflexivity|]. symmetry; apply Nat.eqb_neq; congruence. }
  rewrite dec_repeat by lia. do 3 f_equal. lia.
Qed.
(** whatever the state, unless a count is due the next byte is copied *)
Lemma dec_literal x l eq prev : eq <= 2 -> exists eq', dec eq prev (x :: l) = x :: dec eq' (Some x) l.
Proof.
  intros H. cbn [dec]. destruct prev as [p|]; [|eauto].
  replace (eq =? 3) with false by (symmetry; apply Nat.eqb_neq; lia). destruct (p =? x); eauto.
Qed.
Lemma coded_head b n rest : 1 <= n -> exists l, coded_run (b, n) ++ rest = b :: l.
Proof. intros H. unfold coded_run. destruct (4 <=? n); cbn [repeat app]; [eauto|]. destruct n; [lia|]. cbn [repeat app]. eauto. Qed.

(** the first byte of an expansion *)
Definition starts (b : nat) (l : list nat) : Prop := exists tl, l = b :: tl.
Lemma expand_starts b n rs : 1 <= n -> starts b (expand_runs ((b, n) :: rs)).
Proof. intros H. destruct n; [lia|]. unfold expand_runs. cbn [flat_map fst snd repeat app]. eexists. reflexivity. Qed.
Lemma longer b m k x y : 1 <= k -> ~ starts b y -> repeat b (m + k) ++ x <> repeat b m ++ y.
Proof.
  intros Hk HY E. rewrite repeat_app, <- app_assoc in E. apply app_inv_head in E. destruct k; [lia|].
  apply HY. cbn [repeat app] in E. rewrite <- E. eexists. reflexivity.
Qed.
Lemma not_start b tl : runs_ok tl -> match tl with [] => True | r :: _ => fst r <> b end -> ~ starts b (expand_runs tl).
Proof.
  destruct tl as [|[d j] tl]; intros Hok H [u E]; [discriminate E|]. cbn [fst] in H. destruct Hok as ([Hj _] & _).
  cbn [snd] in Hj. destruct j; [lia|]. unfold expand_runs in E. cbn [flat_map fst snd repeat app] in E. injection E as E _. auto.
Qed.

(** one coded run in a state without leading copies *)
Lemma dec_run b n eq prev rest : eq <= 2 -> prev <> Some b -> (prev = None -> eq = 0) -> 1 <= n ->
  dec eq prev (coded_run (b, n) ++ rest) =
  repeat b n ++ (if 4 <=? n then dec 0 (Some (n - 4)) rest else dec (n - 1) (Some b) rest).
Proof.
  intros H1 H2 H0 Hn. unfold coded_run. destruct (Nat.leb_spec 4 n) as [H4|H4].
  - rewrite <- app_assoc. rewrite dec_fresh by (auto; lia). change (4 - 1) with 3. cbn [app]. cbn [dec]. rewrite Nat.eqb_refl.
    rewrite app_assoc, <- repeat_app. do 2 f_equal. lia.
  - apply dec_fresh; auto. lia.
Qed.

(** one zero too few *)
Lemma one_short rs : forall eq prev, runs_ok rs -> eq <= 2 -> (prev = None -> eq = 0) ->
  match rs with [] => True | (b, _) :: _ => b = 0 -> prev <> Some 0 end ->
  dec eq prev (flat_map coded_run rs) <> 0 :: expand_runs rs.
Proof.
  induction rs as [|[b n] rs IH]; intros eq prev Hok Heq H0 Hp; [discriminate|].
  cbn [runs_ok fst snd] in Hok. destruct Hok as ([Hn1 Hn2] & Htl & Hadj). cbn [snd] in *.
  destruct (Nat.eq_dec b 0) as [->|Hb].
  - cbn [flat_map]. rewrite dec_run by (auto; lia). unfold expand_runs. cbn [flat_map fst snd].
    change (0 :: repeat 0 n ++ flat_map (fun r => repeat (fst r) (snd r)) rs) with (repeat 0 (S n) ++ expand_runs rs).
    replace (repeat 0 (S n)) with (repeat 0 (n + 1)) by (f_equal; lia). rewrite repeat_app, <- app_assoc. cbn [repeat app].
    intros E. apply app_inv_head in E. revert E. destruct (Nat.leb_spec 4 n) as [H4|H4].
    + apply IH; auto. destruct rs as [|[b' n'] rs']; auto. intros -> E. injection E as E.
      cbn [fst] in Hadj. specialize (Hadj eq_refl). lia.
    + apply IH; auto; [lia|discriminate|]. destruct rs as [|[b' n'] rs']; auto. intros -> E.
      cbn [fst] in Hadj. specialize (Hadj eq_refl). lia.
  - cbn [flat_map]. destruct (@coded_head b n (flat_map coded_run rs) Hn1) as (l & ->).
    destruct (@dec_literal b l eq prev Heq) as (eq' & ->). intros E. injection E as E _. auto.
Qed.

(** the first byte of the next run taken as a count *)
Lemma count_taken b d j rest : b <> d -> runs_ok ((d, j) :: rest) ->
  dec 3 (Some b) (flat_map coded_run ((d, j) :: rest)) <> expand_runs ((d, j) :: rest).
Proof.
  intros Hne Hok. cbn [runs_ok fst snd] in Hok. destruct Hok as ([Hn1 Hn2] & Htl & Hadj). cbn [snd] in *.
  cbn [flat_map]. destruct d as [|d].
  - destruct j as [|j]; [lia|]. unfold expand_runs. cbn [flat_map fst snd repeat app]. fold (expand_runs rest). unfold coded_run at 1.
    destruct (Nat.leb_spec 4 (S j)) as [H4|H4].
    + change (repeat 0 4 ++ [S j - 4]) with (0 :: repeat 0 3 ++ [S j - 4]). cbn [app dec]. rewrite Nat.eqb_refl. cbn [repeat app].
      change (0 :: 0 :: 0 :: S j - 4 :: flat_map coded_run rest) with (repeat 0 3 ++ (S j - 4 :: flat_map coded_run rest)).
      rewrite dec_repeat by lia. cbn [Nat.add]. cbn [dec]. rewrite Nat.eqb_refl, app_assoc, <- repeat_app.
      replace (3 + (S j - 4)) with j by lia. intros E.
      replace (0 :: repeat 0 j ++ expand_runs rest) with (repeat 0 (j + 1) ++ expand_runs rest) in E by (rewrite Nat.add_1_r; reflexivity).
      rewrite repeat_app, <- app_assoc in E. apply app_inv_head in E. revert E. apply one_short; auto.
      destruct rest as [|[b' n'] rs']; auto. intros -> E. injection E as E. cbn [fst] in Hadj. specialize (Hadj eq_refl). lia.
    + cbn [repeat app dec]. rewrite Nat.eqb_refl. cbn [repeat app]. rewrite dec_repeat by lia. cbn [Nat.add].
      intros E. replace (0 :: repeat 0 j ++ expand_runs rest) with (repeat 0 (j + 1) ++ expand_runs rest) in E by (rewrite Nat.add_1_r; reflexivity).
      rewrite repeat_app, <- app_assoc in E. apply app_inv_head in E. revert E. apply one_short; auto; [lia|discriminate|].
      destruct rest as [|[b' n'] rs']; auto. intros -> E. cbn [fst] in Hadj. specialize (Hadj eq_refl). lia.
  - destruct (@coded_head (S d) j (flat_map coded_run rest) Hn1) as (l & ->). cbn [dec]. rewrite Nat.eqb_refl. cbn [repeat app].
    destruct (@expand_starts (S d) j rest Hn1) as (u & ->). intros E. injection E as E _. auto.
Qed.

(** one byte too many *)
Lemma one_more d j rest : d <= 250 -> runs_ok ((d, j) :: rest) ->
  d :: dec 0 (Some d) (flat_map coded_run ((d, j) :: rest)) <> expand_runs ((d, j) :: rest).
Proof.
  intros Hd Hok. cbn [runs_ok fst snd] in Hok. destruct Hok as ([Hn1 Hn2] & Htl & Hadj). cbn [snd] in *.
  assert (j < 255 -> ~ starts d (expand_runs rest)) as HS.
  { intros Hj. apply not_start; auto. destruct rest as [|[b n] rest]; auto. cbn [fst] in *. intros ->. specialize (Hadj eq_refl). lia. }
  cbn [flat_map]. unfold expand_runs. cbn [flat_map fst snd]. fold (expand_runs rest). unfold coded_run at 1. destruct (Nat.leb_spec 4 j) as [H4|H4].
  - change (repeat d 4 ++ [j - 4]) with (repeat d 3 ++ [d; j - 4]). rewrite <- app_assoc. rewrite dec_repeat by lia. cbn [Nat.add app].
    cbn [dec]. rewrite Nat.eqb_refl. cbn [Nat.eqb]. rewrite app_assoc, <- repeat_app.
    change (d :: repeat d (3 + d) ++ ?x) with (repeat d (4 + d) ++ x).
    destruct (Nat.ltb_spec (4 + d) j) as [Hj|Hj].
    + intros E. replace (repeat d j) with (repeat d ((4 + d) + (j - (4 + d)))) in E by (f_equal; lia).
      rewrite (repeat_app d (4 + d) (j - (4 + d))), <- app_assoc in E. apply app_inv_head in E. destruct (j - (4 + d)) as [|z] eqn:EZ; [lia|].
      cbn [repeat app] in E. destruct (d =? j - 4); injection E as E _; lia.
    + destruct (Nat.eq_dec j (4 + d)) as [->|Hne].
      * replace (4 + d - 4) with d by lia. rewrite Nat.eqb_refl. intros E. apply app_inv_head in E.
        apply HS; [lia|]. rewrite <- E. eexists. reflexivity.
      * replace (4 + d) with (j + (4 + d - j)) by lia. apply longer; [lia|]. apply HS. lia.
  - rewrite dec_repeat by lia. change (d :: repeat d j ++ ?x) with (repeat d (S j) ++ x).
    replace (S j) with (j + 1) by lia. apply longer; auto. apply HS. lia.
Qed.

(** the decoder in front of a run whose value is the preceding count byte *)
Lemma taken_long b n rest : b <= 251 -> 4 <= n -> n - 4 <> b -> runs_ok ((b, n) :: rest) ->
  dec 0 (Some b) (flat_map coded_run ((b, n) :: rest)) <> expand_runs ((b, n) :: rest).
Proof.
  intros Hb Hn Hne Hok. cbn [runs_ok fst snd] in Hok. destruct Hok as ([Hn1 Hn2] & Htl & Hadj). cbn [snd] in *.
  cbn [flat_map]. unfold expand_runs. cbn [flat_map fst snd]. fold (expand_runs rest). unfold coded_run at 1.
  replace (4 <=? n) with true by (symmetry; apply Nat.leb_le; lia).
  change (repeat b 4 ++ [n - 4]) with (repeat b 3 ++ [b; n - 4]). rewrite <- app_assoc. rewrite dec_repeat by lia. cbn [Nat.add app].
  cbn [dec]. rewrite Nat.eqb_refl. cbn [Nat.eqb].
  replace (b =? n - 4) with false by (symmetry; apply Nat.eqb_neq; lia).
  rewrite app_assoc, <- repeat_app.
  destruct (Nat.ltb_spec (3 + b) n) as [Hj|Hj].
  - intros E. replace (repeat b n) with (repeat b ((3 + b) + (n - (3 + b)))) in E by (f_equal; lia).
    rewrite (repeat_app b (3 + b) (n - (3 + b))), <- app_assoc in E. apply app_inv_head in E. destruct (n - (3 + b)) as [|z] eqn:EZ; [lia|].
    cbn [repeat app] in E. injection E as E _. lia.
  - assert (~ starts b (expand_runs rest)) as HS.
    { apply not_start; auto. destruct rest as [|[b' n'] rest']; auto. cbn [fst] in *. intros ->. specialize (Hadj eq_refl). lia. }
    destruct (Nat.eq_dec n (3 + b)) as [->|Hne2].
    + intros E. apply app_inv_head in E. destruct rest as [|[d j] rest]; [discriminate E|].
      assert (1 <= j) as Hj1 by (cbn [runs_ok] in Htl; unfold run_ok in Htl; cbn [snd] in Htl; lia).
      destruct (Nat.eq_dec d (3 + b - 4)) as [->|Hd].
      * revert E. apply one_more; auto. lia.
      * destruct (@expand_starts d j rest Hj1) as (u & Eu). rewrite Eu in E. injection E as E _. auto.
    + replace (3 + b) with (n + (3 + b - n)) by lia. apply longer; [lia|auto].
Qed.

(** ** the exact condition, with the preceding count byte as a parameter *)
Definition passes_run (c : option nat) (b n : nat) (rest : list (nat * nat)) : bool :=
  match c with
  | Some k => negb (b =? k) || (n <=? 2) || (n =? k + 4) || ((n =? 3) && match rest with [] => true | _ => false end)
  | None => true
  end.
Fixpoint exact_from (c : option nat) (rs : list (nat * nat)) : bool :=
  match rs with
  | [] => true
  | (b, n) :: rest => passes_run c b n rest && exact_from (if 4 <=? n then Some (n - 4) else None) rest
  end.
Lemma exact_from_pairs rs : forall b n, 4 <= n \/ n < 4 ->
  runs_exact ((b, n) :: rs) = exact_from (if 4 <=? n then Some (n - 4) else None) rs.
Proof.
  induction rs as [|[b2 n2] rs IH]; intros b n Hn; [reflexivity|]. change (runs_exact ((b, n) :: (b2, n2) :: rs)) with
    (negb ((4 <=? n) && (b2 =? n - 4) && (3 <=? n2) && negb (n2 =? n) && negb ((n2 =? 3) && match rs with [] => true | _ => false end)) && runs_exact ((b2, n2) :: rs)).
  rewrite IH by lia. cbn [exact_from]. f_equal. destruct (Nat.leb_spec 4 n) as [H4|H4]; [|reflexivity].
  cbn [passes_run andb]. rewrite !negb_andb, !negb_involutive. replace (n - 4 + 4) with n by lia.
  replace (negb (3 <=? n2)) with (n2 <=? 2); [destruct (b2 =? n - 4), (n2 <=? 2), (n2 =? n), (n2 =? 3), rs; reflexivity|].
  destruct (Nat.leb_spec n2 2), (Nat.leb_spec 3 n2); auto; lia.
Qed.
Lemma exact_from_all rs : runs_exact rs = exact_from None rs.
Proof. destruct rs as [|[b n] rs]; [reflexivity|]. rewrite exact_from_pairs by lia. reflexivity. Qed.

Lemma app_head_iff (u : list nat) x y : u ++ x = u ++ y <-> x = y.
Proof. split; [apply app_inv_head|congruence]. Qed.

Theorem dec_exact rs : forall c eq prev, runs_ok rs -> ~ In (251, 255) rs -> eq <= 2 -> (prev = None -> eq = 0) ->
  (forall k, c = Some k -> k <= 251) ->
  match rs with [] => True | (b, _) :: _ => (c = Some b -> prev = Some b /\ eq = 0) /\ (c <> Some b -> prev <> Some b) end ->
  dec eq prev (flat_map coded_run rs) = expand_runs rs <-> exact_from c rs = true.
Proof.
  induction rs as [|[b n] rs IH]; intros c eq prev Hok HI Heq H0 Hc Hp; [cbn; tauto|].
  pose proof Hok as Hok'. cbn [runs_ok fst snd] in Hok'. destruct Hok' as ([Hn1 Hn2] & Htl & Hadj). cbn [snd] in *. destruct Hp as (Hp1 & Hp2).
  cbn [In] in HI. cbn [exact_from]. rewrite andb_true_iff.
  assert (forall m, m <= 251 -> Some m = Some m -> forall k, Some m = Some k -> k <= 251) as HK by (intros m Hm _ k E; injection E as <-; auto).
  assert (4 <= n -> match rs with [] => True | (b', _) :: _ =>
     (Some (n - 4) = Some b' -> Some (n - 4) = Some b' /\ 0 = 0) /\ (Some (n - 4) <> Some b' -> Some (n - 4) <> Some b') end) as HL.
  { intros _. destruct rs as [|[b' n'] rs']; auto. }
  assert (n < 4 -> match rs with [] => True | (b', _) :: _ => forall e : nat,
     (None = Some b' -> Some b = Some b' /\ e = 0) /\ (None <> Some b' -> Some b <> Some b') end) as HS.
  { intros Hn. destruct rs as [|[b' n'] rs']; auto. intros e. split; [discriminate|]. intros _ E. injection E as ->. cbn [fst] in Hadj. specialize (Hadj eq_refl). lia. }
  assert (c = Some b \/ c <> Some b) as [->|Hcb] by (destruct c as [k|]; [destruct (Nat.eq_dec k b); [left; congruence|right; congruence]|right; discriminate]).
  - destruct (Hp1 eq_refl) as (-> & ->). specialize (Hc b eq_refl). cbn [passes_run]. rewrite Nat.eqb_refl. cbn [negb orb].
    destruct (Nat.leb_spec 4 n) as [H4|H4].
    + replace (n <=? 2) with false by (symmetry; apply Nat.leb_gt; lia).
      replace (n =? 3) with false by (symmetry; apply Nat.eqb_neq; lia). cbn [andb orb]. rewrite orb_false_r.
      destruct (Nat.eqb_spec n (b + 4)) as [->|Hne].
      * cbn [flat_map]. unfold expand_runs. cbn [flat_map fst snd]. fold (expand_runs rs). unfold coded_run at 1.
        replace (4 <=? b + 4) with true by (symmetry; apply Nat.leb_le; lia). replace (b + 4 - 4) with b by lia.
        change (repeat b 4 ++ [b]) with (repeat b 3 ++ [b; b]). rewrite <- app_assoc. rewrite dec_repeat by lia. cbn [Nat.add app].
        cbn [dec]. rewrite !Nat.eqb_refl. cbn [Nat.eqb]. rewrite app_assoc, <- repeat_app.
        replace (b + 4) with (3 + b + 1) by lia. rewrite (repeat_app b (3 + b) 1), <- app_assoc, app_head_iff. cbn [repeat app].
        assert (forall x y : list nat, b :: x = b :: y <-> x = y) as -> by (split; congruence).
        rewrite (IH (Some b) 1 (Some b)); auto; try tauto; try discriminate.
        -- intros k E. injection E as <-. auto.
        -- destruct rs as [|[b' n'] rs']; auto. split; [|auto]. intros E. injection E as ->. cbn [fst] in Hadj. specialize (Hadj eq_refl).
           assert (b' = 251) by lia. subst b'. exfalso. apply HI. left. f_equal; auto; lia.
      * split; [|intros (H & _); discriminate H]. intros E. exfalso. revert E. apply taken_long; auto. lia.
    + replace (n =? b + 4) with false by (symmetry; apply Nat.eqb_neq; lia). rewrite orb_false_r.
      cbn [flat_map]. unfold expand_runs. cbn [flat_map fst snd]. fold (expand_runs rs). unfold coded_run at 1.
      replace (4 <=? n) with false by (symmetry; apply Nat.leb_gt; lia). rewrite dec_repeat by lia. rewrite app_head_iff. cbn [Nat.add].
      destruct (Nat.leb_spec n 2) as [H2|H2].
      * cbn [orb]. rewrite (IH None n (Some b)); auto; try tauto; try discriminate.
        destruct rs as [|[b' n'] rs']; auto; apply (HS ltac:(lia)).
      * assert (n = 3) as -> by lia. rewrite Nat.eqb_refl. cbn [orb andb]. destruct rs as [|[d j] rs].
        -- cbn. tauto.
        -- split; [|intros (H & _); discriminate H]. intros E. exfalso. revert E. apply count_taken; auto.
           intros ->. cbn [fst] in Hadj. specialize (Hadj eq_refl). lia.
  - assert (passes_run c b n rs = true) as ->.
    { destruct c as [k|]; [|reflexivity]. cbn [passes_run]. replace (b =? k) with false; [reflexivity|]. symmetry. apply Nat.eqb_neq. congruence. }
    cbn [flat_map]. rewrite dec_run by auto. unfold expand_runs. cbn [flat_map fst snd]. fold (expand_runs rs). rewrite app_head_iff.
    destruct (Nat.leb_spec 4 n) as [H4|H4].
    + rewrite (IH (Some (n - 4)) 0 (Some (n - 4))); auto; try tauto; try lia; try discriminate.
      intros k E. injection E as <-. lia.
    + rewrite (IH None (n - 1) (Some b)); auto; try tauto; try lia; try discriminate.
      destruct rs as [|[b' n'] rs']; auto; apply (HS ltac:(lia)).
Qed.

Theorem inverse_rle_exact l : ~ In (251, 255) (runs l) ->
  inverse_rle (flat_map coded_run (runs l)) = l <-> run_exact l = true.
Proof.
  intros H. unfold inverse_rle. rewrite dec_fold. cbn [app]. unfold run_exact. rewrite exact_from_all.
  rewrite <- (@dec_exact (runs l) None 0 None); auto; try discriminate.
  - rewrite expand_runs_runs. tauto.
  - apply runs_ok_runs.
  - destruct (runs l) as [|[b n] tl]; auto; split; auto; discriminate.
Qed.

(** * Facts about Rle.v *)
From Verif Require Import Base BaseFacts Rle SpecRle.

(** ** chunk independence *)
Lemma rle_fold_data l s : rle_data (fold_left rle_step l s) =
  rle_data s ++ rle_data (fold_left rle_step l (mk_rle [] (rle_counter s) (rle_last s))).
Proof.
  revert s; induction l as [|x tl IH]; intros s; simpl; [rewrite app_nil_r; reflexivity|].
  rewrite IH. rewrite (IH (rle_step (mk_rle [] _ _) x)).
  unfold rle_step; simpl. destruct (rle_last s) as [b|]; simpl; auto.
  destruct (negb (b =? x) || (255 <? S (rle_counter s))); simpl; rewrite <- ?app_assoc; reflexivity.
Qed.
Lemma rle_fold_state l s s' : rle_counter s = rle_counter s' -> rle_last s = rle_last s' ->
  rle_counter (fold_left rle_step l s) = rle_counter (fold_left rle_step l s') /\
  rle_last (fold_left rle_step l s) = rle_last (fold_left rle_step l s').
Proof.
  revert s s'; induction l as [|x tl IH]; intros s s' H1 H2; simpl; auto.
  apply IH; unfold rle_step; rewrite H1, H2; destruct (rle_last s') as [b|]; simpl; auto;
    destruct (negb (b =? x) || (255 <? S (rle_counter s'))); reflexivity.
Qed.
Lemma rle_app a b c l :
  rle (a ++ b) c l =
  mk_rle (rle_data (rle a c l) ++ rle_data (rle b (rle_counter (rle a c l)) (rle_last (rle a c l))))
         (rle_counter (rle b (rle_counter (rle a c l)) (rle_last (rle a c l))))
         (rle_last (rle b (rle_counter (rle a c l)) (rle_last (rle a c l)))).
Proof.
  unfold rle. rewrite fold_left_app.
  set (s := fold_left rle_step a (mk_rle [] c l)).
  pose proof (rle_fold_data b s) as H1.
  destruct (rle_fold_state b s (mk_rle [] (rle_counter s) (rle_last s)) eq_refl eq_refl) as [H2 H3].
  destruct (fold_left rle_step b s) as [d k z]; simpl in *. congruence.
Qed.

(** ** the coded block is the concatenation of the coded runs *)
Definition aug (s : rle_result) : list nat :=
  rle_augment (rle_data s) (rle_counter s) (rle_last s).

Lemma rle_runs_from l d b n : 1 <= n <= 255 ->
  aug (fold_left rle_step l (mk_rle d n (Some b))) = d ++ flat_map coded_run (runs_from b n l).
Proof.
  revert d b n; induction l as [|x tl IH]; intros d b n Hn.
  - cbn [fold_left runs_from flat_map rle_data rle_counter rle_last]. rewrite app_nil_r.
    unfold aug, rle_augment, coded_run. cbn [rle_data rle_counter rle_last]. rewrite (Nat.mod_small (n - 4)) by lia.
    destruct (4 <=? n); reflexivity.
  - cbn [fold_left runs_from]. unfold rle_step at 2; cbn [rle_counter rle_last rle_data].
    destruct (Nat.eqb_spec b x) as [->|Hne].
    + rewrite Nat.eqb_refl. cbn [negb orb andb].
      destruct (Nat.ltb_spec n 255) as [Hlt|Hge].
      * replace (255 <? S n) with false by (symmetry; apply Nat.ltb_ge; lia). apply IH; lia.
      * replace (255 <? S n) with true by (symmetry; apply Nat.ltb_lt; lia).
        rewrite IH by lia. rewrite <- app_assoc. f_equal. cbn [flat_map]. f_equal.
        unfold rle_emit, coded_run.
        replace (5 <=? S n) with true by (symmetry; apply Nat.leb_le; lia).
        replace (4 <=? n) with true by (symmetry; apply Nat.leb_le; lia).
        rewrite Nat.mod_small by lia. do 3 f_equal; lia.
    + replace (x =? b) with false by (symmetry; apply Nat.eqb_neq; auto). cbn [negb orb andb].
      rewrite IH by lia. rewrite <- app_assoc. f_equal. cbn [flat_map]. f_equal.
      unfold rle_emit, coded_run.
      destruct (Nat.leb_spec 4 n).
      * replace (5 <=? S n) with true by (symmetry; apply Nat.leb_le; lia).
        rewrite Nat.mod_small by lia. do 3 f_equal; lia.
      * replace (5 <=? S n) with false by (symmetry; apply Nat.leb_gt; lia).
        f_equal; lia.
Qed.

Lemma rle_runs l : rle_augment (rle_data (rle l 0 None)) (rle_counter (rle l 0 None))
                     (rle_last (rle l 0 None)) = flat_map coded_run (runs l).
Proof.
  destruct l as [|x tl]; [reflexivity|].
  pose proof (@rle_runs_from tl [] x 1) as H. cbn [app] in H. apply H; lia.
Qed.

(** ** shape of the runs *)
Definition run_ok (r : nat * nat) : Prop := 1 <= snd r <= 255.
(** adjacent runs differ, or the first is cut at 255 *)
Fixpoint runs_ok (rs : list (nat * nat)) : Prop :=
  match rs with
  | [] => True
  | r :: tl => run_ok r /\ runs_ok tl /\
      match tl with
      | [] => True
      | r' :: _ => fst r = fst r' -> snd r = 255
      end
  end.
Definition expand_runs (rs : list (nat * nat)) : list nat :=
  flat_map (fun r => repeat (fst r) (snd r)) rs.

Lemma runs_from_head b n l : exists n' tl, runs_from b n l = (b, n') :: tl.
Proof.
  revert n; induction l as [|x tl IH]; intros n; simpl; eauto.
  destruct ((x =? b) && (n <? 255)); eauto.
Qed.
Lemma runs_from_ok b n l : 1 <= n <= 255 -> runs_ok (runs_from b n l).
Proof.
  revert b n; induction l as [|x tl IH]; intros b n H; simpl.
  - unfold run_ok; simpl; auto.
  - destruct (Nat.eqb_spec x b) as [->|Hne]; simpl.
    + destruct (Nat.ltb_spec n 255); [apply IH; lia|].
      simpl. split; [unfold run_ok; simpl; lia|]. split; [apply IH; lia|].
      destruct (runs_from_head b 1 tl) as (n' & t' & ->). simpl; intros; lia.
    + split; [unfold run_ok; simpl; lia|]. split; [apply IH; lia|].
      destruct (runs_from_head x 1 tl) as (n' & t' & ->). simpl; intros; congruence.
Qed.
Lemma runs_ok_runs l : runs_ok (runs l).
Proof. destruct l; simpl; auto. apply runs_from_ok; lia. Qed.
Lemma expand_runs_from b n l : expand_runs (runs_from b n l) = repeat b n ++ l.
Proof.
  revert b n; induction l as [|x tl IH]; intros b n; [reflexivity|]. cbn [runs_from].
  destruct (Nat.eqb_spec x b) as [->|Hne]; cbn [andb].
  - destruct (n <? 255).
    + rewrite IH. rewrite <- Nat.add_1_r, repeat_app, <- app_assoc. reflexivity.
    + unfold expand_runs in *; cbn [flat_map]. rewrite IH. reflexivity.
  - unfold expand_runs in *; cbn [flat_map]. rewrite IH. reflexivity.
Qed.
Lemma expand_runs_runs l : expand_runs (runs l) = l.
Proof. destruct l; [reflexivity|]. simpl. rewrite expand_runs_from. reflexivity. Qed.

(** ** expansion by the format's rule *)
Lemma expand_same b run k rest : 1 <= run -> run + k <= 4 ->
  rle1_expand_from b run (repeat b k ++ rest) = repeat b k ++ rle1_expand_from b (run + k) rest.
Proof.
  revert run; induction k as [|k IH]; intros run H1 H2; cbn [repeat app rle1_expand_from].
  - rewrite Nat.add_0_r; reflexivity.
  - replace (run =? 4) with false by (symmetry; apply Nat.eqb_neq; lia).
    replace (1 <=? run) with true by (symmetry; apply Nat.leb_le; lia).
    rewrite Nat.eqb_refl. cbn [andb]. f_equal. rewrite IH by lia.
    replace (S run + k) with (run + S k) by lia. reflexivity.
Qed.
Lemma expand_fresh b last run k rest : run <= 3 -> (run = 0 \/ b <> last) -> 1 <= k <= 4 ->
  rle1_expand_from last run (repeat b k ++ rest) = repeat b k ++ rle1_expand_from b k rest.
Proof.
  intros H1 H2 H3. destruct k as [|k]; [lia|]. simpl repeat. simpl app. cbn [rle1_expand_from].
  replace (run =? 4) with false by (symmetry; apply Nat.eqb_neq; lia).
  replace ((1 <=? run) && (b =? last)) with false.
  - f_equal. apply expand_same; lia.
  - symmetry. destruct H2 as [->|H2]; [reflexivity|].
    apply Nat.eqb_neq in H2; rewrite H2, andb_false_r; reflexivity.
Qed.

Lemma expand_coded rs last run : runs_ok rs -> run <= 3 ->
  match rs with (b, _) :: _ => run = 0 \/ b <> last | [] => True end ->
  rle1_expand_from last run (flat_map coded_run rs) = expand_runs rs.
Proof.
  revert last run; induction rs as [|[b n] tl IH]; intros last run Hok Hrun Hhd; [reflexivity|].
  cbn [runs_ok fst snd] in Hok. destruct Hok as ([Hn1 Hn2] & Htl & Hadj). cbn [snd] in *.
  cbn [flat_map]. unfold expand_runs in *. cbn [flat_map fst snd].
  unfold coded_run at 1. destruct (Nat.leb_spec 4 n) as [H4|H4].
  - rewrite <- app_assoc. rewrite expand_fresh by (auto; lia).
    cbn [app rle1_expand_from]. rewrite Nat.eqb_refl.
    rewrite IH; [|exact Htl|lia|destruct tl as [|[b' n'] tl']; auto].
    rewrite !app_assoc. f_equal. rewrite <- repeat_app. f_equal. lia.
  - rewrite expand_fresh by (auto; lia). f_equal.
    apply IH; [exact Htl|lia|]. destruct tl as [|[b' n'] tl']; auto.
    right. cbn [fst snd] in Hadj. intros ->. specialize (Hadj eq_refl). lia.
Qed.

Lemma rle_lossless l :
  rle1_expand (rle_augment (rle_data (rle l 0 None)) (rle_counter (rle l 0 None))
                 (rle_last (rle l 0 None))) = l.
Proof.
  rewrite rle_runs. unfold rle1_expand. rewrite expand_coded.
  - apply expand_runs_runs.
  - apply runs_ok_runs.
  - lia.
  - destruct (runs l) as [|[b n] tl]; auto.
Qed.

(** bytes stay bytes *)
Lemma coded_runs_bytes rs : runs_ok rs -> Forall (fun r => is_byte (fst r)) rs ->
  bytes (flat_map coded_run rs).
Proof.
  induction rs as [|[b n] tl IH]; intros Hok HB; [constructor|].
  destruct Hok as ([Hn1 Hn2] & Htl & _). inversion HB; subst. cbn [fst snd] in *.
  cbn [flat_map]. apply Forall_app; split; [|apply IH; auto].
  unfold coded_run. assert (forall k, bytes (repeat b k)) as HR.
  { intros k; apply Forall_forall; intros x Hx; apply repeat_spec in Hx; subst; auto. }
  destruct (4 <=? n); [|apply HR]. apply Forall_app; split; [apply (HR 4)|].
  constructor; [unfold is_byte; lia | constructor].
Qed.
Lemma runs_from_bytes b n l : is_byte b -> bytes l ->
  Forall (fun r => is_byte (fst r)) (runs_from b n l).
Proof.
  revert b n; induction l as [|x tl IH]; intros b n Hb HB; simpl; [constructor; [exact Hb | constructor]|].
  inversion HB; subst. destruct ((x =? b) && (n <? 255)); auto.
Qed.
Lemma runs_bytes l : bytes l -> Forall (fun r => is_byte (fst r)) (runs l).
Proof. destruct l; simpl; [constructor|]. intros H; inversion H; subst. apply runs_from_bytes; auto. Qed.
Lemma coded_bytes l : bytes l -> bytes (flat_map coded_run (runs l)).
Proof. intros H; apply coded_runs_bytes; [apply runs_ok_runs | apply runs_bytes; auto]. Qed.

(** ** the decoder of the crate *)
Lemma irle_repeat b k out eq rest : eq + k <= 3 ->
  fold_left irle_step (repeat b k ++ rest) (mk_irle out eq (Some b)) =
  fold_left irle_step rest (mk_irle (out ++ repeat b k) (eq + k) (Some b)).
Proof.
  revert out eq; induction k as [|k IH]; intros out eq H.
  - simpl. rewrite app_nil_r, Nat.add_0_r. reflexivity.
  - cbn [repeat app fold_left]. unfold irle_step at 2; cbn [ir_prev ir_equal ir_out].
    replace (eq =? 3) with false by (symmetry; apply Nat.eqb_neq; lia).
    rewrite Nat.eqb_refl. rewrite IH by lia. rewrite <- app_assoc. cbn [app].
    replace (S eq + k) with (eq + S k) by lia. reflexivity.
Qed.
(** a run of [k] bytes that differ from the previous byte *)
Lemma irle_fresh b k out eq prev rest : eq <= 2 -> prev <> Some b ->
  (prev = None -> eq = 0) -> 1 <= k <= 4 ->
  fold_left irle_step (repeat b k ++ rest) (mk_irle out eq prev) =
  fold_left irle_step rest (mk_irle (out ++ repeat b k) (k - 1) (Some b)).
Proof.
  intros H1 H2 H0 H3. destruct k as [|k]; [lia|]. cbn [repeat app fold_left].
  assert (irle_step (mk_irle out eq prev) b = mk_irle (out ++ [b]) 0 (Some b)) as ->.
  { unfold irle_step; cbn [ir_prev ir_equal ir_out]. destruct prev as [c|].
    - replace (eq =? 3) with false by (symmetry; apply Nat.eqb_neq; lia).
      replace (c =? b) with false; [reflexivity|]. symmetry; apply Nat.eqb_neq; congruence.
    - rewrite H0; auto. }
  rewrite irle_repeat by lia. rewrite <- app_assoc. cbn [app]. f_equal. f_equal. lia.
Qed.

Lemma irle_coded rs out eq prev : runs_ok rs -> runs_safe rs = true -> eq <= 2 ->
  (prev = None -> eq = 0) ->
  match rs with
  | [] => True
  | (b, n) :: rest => prev = Some b -> eq = 0 /\ (n <= 2 \/ (n = 3 /\ rest = []))
  end ->
  ir_out (fold_left irle_step (flat_map coded_run rs) (mk_irle out eq prev)) = out ++ expand_runs rs.
Proof.
  revert out eq prev; induction rs as [|[b n] tl IH]; intros out eq prev Hok Hsafe Heq H0 Hprev.
  - simpl. rewrite app_nil_r; reflexivity.
  - cbn [runs_ok fst snd] in Hok. destruct Hok as ([Hn1 Hn2] & Htl & Hadj). cbn [fst snd] in *.
    assert (runs_safe tl = true) as Hsafe'.
    { destruct tl as [|[b2 n2] rest]; [reflexivity|]. simpl in Hsafe.
      apply andb_true_iff in Hsafe as [_ Hs]. exact Hs. }
    cbn [flat_map]. unfold expand_runs in *. cbn [flat_map fst snd]. rewrite app_assoc.
    unfold coded_run at 1. destruct (Nat.leb_spec 4 n) as [H4|H4].
    + assert (prev <> Some b) as Hne.
      { intros ->. destruct (Hprev eq_refl) as [_ [H|[H _]]]; lia. }
      rewrite <- app_assoc. rewrite irle_fresh by (auto; lia).
      cbn [app fold_left]. unfold irle_step at 2; cbn [ir_prev ir_equal ir_out].
      replace (4 - 1 =? 3) with true by reflexivity.
      rewrite IH; [ | exact Htl | exact Hsafe' | lia | discriminate | ].
      * f_equal. rewrite <- app_assoc, <- repeat_app. do 2 f_equal. lia.
      * destruct tl as [|[b2 n2] rest]; auto. intros E; injection E as E.
        split; [reflexivity|]. cbn [runs_safe] in Hsafe.
        apply andb_true_iff in Hsafe as [Hs _].
        replace (4 <=? n) with true in Hs by (symmetry; apply Nat.leb_le; lia).
        rewrite E, Nat.eqb_refl in Hs. cbn [andb] in Hs.
        destruct (Nat.leb_spec 3 n2) as [H3|H3]; [|left; lia].
        cbn [andb negb] in Hs. destruct (Nat.eqb_spec n2 3) as [->|H3']; [|discriminate Hs].
        destruct rest; [right; auto | discriminate].
    + destruct (Nat.eq_dec n 0) as [->|Hn0]; [lia|].
      assert (prev = Some b \/ prev <> Some b) as [->|Hne].
      { destruct prev as [c|]; [|right; discriminate].
        destruct (Nat.eq_dec c b) as [->|]; [left; auto | right; congruence]. }
      * destruct (Hprev eq_refl) as [-> [H|[H ->]]].
        -- rewrite irle_repeat by lia. apply IH; [exact Htl | exact Hsafe' | lia | discriminate | ].
           destruct tl as [|[b2 n2] rest]; auto. intros E; injection E as ->.
           cbn [fst] in Hadj. specialize (Hadj eq_refl); lia.
        -- rewrite irle_repeat by lia. simpl. rewrite app_nil_r. reflexivity.
      * rewrite irle_fresh by (auto; lia). apply IH; [exact Htl | exact Hsafe' | lia | discriminate | ].
        destruct tl as [|[b2 n2] rest]; auto. intros E; injection E as ->.
        cbn [fst] in Hadj. specialize (Hadj eq_refl); lia.
Qed.

Lemma inverse_rle_safe l : run_safe l = true -> inverse_rle (flat_map coded_run (runs l)) = l.
Proof.
  intros H. unfold inverse_rle. rewrite irle_coded; auto.
  - apply expand_runs_runs.
  - apply runs_ok_runs.
  - destruct (runs l) as [|[b n] tl]; auto. discriminate.
Qed.

(** ** sizes *)
Lemma rle_counter_bound l c last : c <= 255 -> (last = None -> c = 0) ->
  rle_counter (rle l c last) <= 255.
Proof.
  unfold rle. intros Hc Hl.
  assert (forall d, rle_counter (fold_left rle_step l (mk_rle d c last)) <= 255) as H; [|apply H].
  revert c last Hc Hl; induction l as [|x tl IH]; intros c last Hc Hl d; simpl; auto.
  unfold rle_step; cbn [rle_last rle_counter rle_data]. destruct last as [b|].
  - destruct (negb (b =? x)) eqn:E; simpl; [apply IH; [lia|discriminate]|].
    destruct (Nat.ltb_spec 255 (S c)); apply IH; try lia; discriminate.
  - rewrite Hl by auto. apply IH; [lia|discriminate].
Qed.

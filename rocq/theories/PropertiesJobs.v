(** * Several commands at the same time in one directory: C73

    Words used in the statements: [at_once jobs d0 d states] (Jobs.v): the commands [jobs],
    started together in directory [d0], may at some moment have come to [states], the
    directory being [d] then; [try_main] (Cli.v): one command running alone. *)
From Verif Require Import Base BaseFacts Bitwise BitwiseFacts SpecStream SymbolStatistics BlockEncoder Stream StreamFacts EncodeFacts
  BwtFacts Concurrency ConcurrencyFacts CrashFacts Cli CliSteps Shared Jobs PropertiesStream PropertiesThreads PropertiesCrash PropertiesCli PropertiesKill PropertiesShared.

(** the files a command writes, and those it uses at all *)
Definition outputs (c : command) : list fname := map (out_name c) (files_of c).
Definition names_of (c : command) : list fname := files_of c ++ outputs c.
(** no command writes a file that another one reads or writes *)
Definition independent (jobs : list job) : Prop :=
  forall i j a b, i <> j -> nth_error jobs i = Some a -> nth_error jobs j = Some b ->
    forall f, In f (outputs (jb_command a)) -> ~ In f (names_of (jb_command b)).
Definition same_on (names : list fname) (d e : fs) : Prop := forall f, In f names -> fs_get d f = fs_get e f.

Definition within (c : command) (t : list fname) (a : activity) : Prop :=
  incl t (files_of c) /\
  match a with
  | Opened f _ => In f (files_of c)
  | Decoding out _ _ | Encoding out _ => In out (outputs c)
  | _ => True
  end.
Lemma out_in c f : In f (files_of c) -> In (out_name c f) (outputs c).
Proof. intros H. apply in_map. exact H. Qed.
Lemma set_same_on names d e f x : same_on names d e -> same_on names (fs_set d f x) (fs_set e f x).
Proof.
  intros H g Hg. destruct (list_eq_dec Nat.eq_dec g f) as [->|Hne]; [rewrite !fs_get_set_same; reflexivity|].
  rewrite !fs_get_set_other by auto. auto.
Qed.
Lemma set_other c d f x : In f (outputs c) -> forall g, ~ In g (outputs c) -> fs_get (fs_set d f x) g = fs_get d g.
Proof. intros H g Hg. apply fs_get_set_other. intros ->. auto. Qed.

(** a step depends on the files the command uses and changes only its outputs *)
Lemma frame p cpus c t a d t' a' d' e : pstep p cpus c (mk_process t a d) (mk_process t' a' d') -> within c t a -> same_on (names_of c) d e ->
  exists e', pstep p cpus c (mk_process t a e) (mk_process t' a' e') /\ same_on (names_of c) d' e' /\ within c t' a' /\
    forall f, ~ In f (outputs c) -> fs_get d' f = fs_get d f.
Proof.
  intros HS (HT & HA) HE.
  assert (forall f, In f (files_of c) -> fs_get d f = fs_get e f) as HEi by (intros f Hf; apply HE; apply in_or_app; auto).
  assert (forall f, In f (outputs c) -> fs_get d f = fs_get e f) as HEo by (intros f Hf; apply HE; apply in_or_app; auto).
  invert c HS.
  - exists e. split; [constructor|]. split; [exact HE|]. split; [split; [exact HT|exact I]|auto].
  - exists e. assert (In f (files_of c)) as Hf by (apply HT; left; reflexivity).
    split; [apply step_open_fails; rewrite <- HEi; auto|]. split; [exact HE|]. split; [split; [intros g Hg; apply HT; right; exact Hg|exact I]|auto].
  - exists e. assert (In f (files_of c)) as Hf by (apply HT; left; reflexivity).
    split; [apply step_open; rewrite <- HEi; auto|]. split; [exact HE|]. split; [split; [intros g Hg; apply HT; right; exact Hg|exact Hf]|auto].
  - exists e. split; [apply step_create_fails; unfold create_file in *; rewrite <- HEo by (apply out_in; exact HA); destruct (fs_get d' (out_name c f)); [reflexivity|discriminate]|].
    split; [exact HE|]. split; [split; [exact HT|exact I]|auto].
  - assert (In (out_name c f) (outputs c)) as HO by (apply out_in; exact HA).
    match goal with H : create_file d _ = Some _ |- _ => rename H into HC end.
    assert (d' = fs_set d (out_name c f) [] /\ fs_get d (out_name c f) = None) as (-> & EN).
    { unfold create_file in HC. destruct (fs_get d (out_name c f)); [discriminate|]. split; congruence. }
    exists (fs_set e (out_name c f) []). split.
    { eapply step_create_decode; [eassumption|]. unfold create_file. rewrite <- HEo, EN by exact HO. reflexivity. }
    split; [apply set_same_on; exact HE|]. split; [|intros g Hg; apply set_other with (c := c); auto].
    split; [exact HT|]. destruct (read_file_header _); [exact HO|exact I..].
  - exists (fs_set e out (w_out w2)). split; [eapply step_block; eassumption|]. split; [apply set_same_on; exact HE|].
    split; [split; [exact HT|exact HA]|intros g Hg; apply set_other with (c := c); auto].
  - exists (fs_set e out (w_out w2)). split; [eapply step_block_fails; eassumption|]. split; [apply set_same_on; exact HE|].
    split; [split; [exact HT|exact I]|intros g Hg; apply set_other with (c := c); auto].
  - exists e. split; [eapply step_footer; eassumption|]. split; [exact HE|]. split; [split; [exact HT|exact I]|auto].
  - exists e. split; [eapply step_next_fails; eassumption|]. split; [exact HE|]. split; [split; [exact HT|exact I]|auto].
  - assert (In (out_name c f) (outputs c)) as HO by (apply out_in; exact HA).
    match goal with H : create_file d _ = Some _ |- _ => rename H into HC end.
    assert (d' = fs_set d (out_name c f) [] /\ fs_get d (out_name c f) = None) as (-> & EN).
    { unfold create_file in HC. destruct (fs_get d (out_name c f)); [discriminate|]. split; congruence. }
    exists (fs_set e (out_name c f) []). split.
    { eapply step_create_encode; [eassumption|]. unfold create_file. rewrite <- HEo, EN by exact HO. reflexivity. }
    split; [apply set_same_on; exact HE|]. split; [split; [exact HT|exact HO]|intros g Hg; apply set_other with (c := c); auto].
  - eexists. split; [eapply step_encode; eassumption|]. split; [apply set_same_on; exact HE|].
    split; [split; [exact HT|exact HA]|intros g Hg; apply set_other with (c := c); auto].
  - eexists. split; [eapply step_encoded; eassumption|]. split; [apply set_same_on; exact HE|].
    split; [split; [exact HT|destruct r; exact I]|intros g Hg; apply set_other with (c := c); auto].
Qed.

Section Jobs.
  Variables (jobs : list job) (d0 : fs).
  Hypothesis HI : independent jobs.
  Definition own (d e : fs) (x : running) : Prop :=
    process_of (jb_profile (rn_job x)) (jb_cpus (rn_job x)) (jb_command (rn_job x)) d0 (mk_process (rn_todo x) (rn_doing x) e) /\
    within (jb_command (rn_job x)) (rn_todo x) (rn_doing x) /\ same_on (names_of (jb_command (rn_job x))) d e.
  (** every process has a directory of its own in which it is alone *)
  Definition joint_ok (d : fs) (states : list running) : Prop :=
    map rn_job states = jobs /\ Forall (fun x => exists e, own d e x) states /\
    forall f, (forall j, In j jobs -> ~ In f (outputs (jb_command j))) -> fs_get d f = fs_get d0 f.
  Lemma others_apart before x after y : map rn_job (before ++ x :: after) = jobs -> In y (before ++ after) ->
    forall f, In f (outputs (jb_command (rn_job x))) -> ~ In f (names_of (jb_command (rn_job y))).
  Proof.
    intros EJ Hy. assert (nth_error jobs (length before) = Some (rn_job x)) as EX.
    { rewrite <- EJ, nth_error_map, nth_error_app2, Nat.sub_diag by auto. reflexivity. }
    assert (exists i, i <> length before /\ nth_error jobs i = Some (rn_job y)) as (i & Hi & EY).
    { apply in_app_or in Hy as [Hy|Hy]; apply In_nth_error in Hy as (i & Ei).
      - exists i. assert (i < length before) by (apply nth_error_Some; congruence). split; [lia|].
        rewrite <- EJ, nth_error_map, nth_error_app1, Ei by auto. reflexivity.
      - exists (length before + S i). split; [lia|]. rewrite <- EJ, nth_error_map, nth_error_app2 by lia.
        replace (length before + S i - length before) with (S i) by lia. cbn [nth_error]. rewrite Ei. reflexivity. }
    intros f. apply (HI (i := length before) (j := i)); auto.
  Qed.
  Lemma own_other d d' e x y : own d e y -> (forall f, ~ In f (outputs (jb_command (rn_job x))) -> fs_get d' f = fs_get d f) ->
    (forall f, In f (outputs (jb_command (rn_job x))) -> ~ In f (names_of (jb_command (rn_job y)))) -> own d' e y.
  Proof.
    intros (A & B & C) HO HN. split; auto. split; auto. intros f Hf. rewrite HO; [auto|]. intros H. exact (HN f H Hf).
  Qed.
  (** one step, seen by all *)
  Lemma joint_step d before x after d' x' : joint_ok d (before ++ x :: after) -> job_step d x d' x' ->
    rn_job x' = rn_job x /\ joint_ok d' (before ++ x' :: after) /\
    (forall y e, In y (before ++ after) -> own d e y -> own d' e y) /\
    forall e, own d e x -> exists e', own d' e' x' /\
      pstep (jb_profile (rn_job x)) (jb_cpus (rn_job x)) (jb_command (rn_job x)) (mk_process (rn_todo x) (rn_doing x) e) (mk_process (rn_todo x') (rn_doing x') e').
  Proof.
    intros (EJ & HF & HU) HS. destruct HS as [j t a d t' a' d' HS]. pose proof (fun y => @others_apart _ _ _ y EJ) as HA. cbn [rn_job] in HA.
    apply Forall_app in HF as (F1 & F2). apply Forall_cons_iff in F2 as ((e & HE) & F2).
    assert (forall f, ~ In f (outputs (jb_command j)) -> fs_get d' f = fs_get d f) as HO.
    { destruct HE as (_ & HW & HE). cbn [rn_job rn_todo rn_doing] in *. destruct (frame HS HW HE) as (e' & _ & _ & _ & H). exact H. }
    assert (forall e, own d e (mk_running j t a) -> exists e', own d' e' (mk_running j t' a') /\
      pstep (jb_profile j) (jb_cpus j) (jb_command j) (mk_process t a e) (mk_process t' a' e')) as HX.
    { intros e1 (HP & HW & HE1). cbn [rn_job rn_todo rn_doing] in *. destruct (frame HS HW HE1) as (e' & HS' & HE' & HW' & _).
      exists e'. split; [|exact HS']. split; [eapply process_step; [exact HP|exact HS']|]. split; [exact HW'|exact HE']. }
    assert (forall y e, In y (before ++ after) -> own d e y -> own d' e y) as HY.
    { intros y e1 Hy HY. eapply (@own_other d d' e1 (mk_running j t a)); [exact HY|exact HO|]. apply HA. exact Hy. }
    split; [reflexivity|]. split; [|split; [exact HY|exact HX]].
    split; [rewrite <- EJ, !map_app; reflexivity|]. split.
    - apply Forall_app. rewrite Forall_forall in F1, F2. split; [|constructor].
      + apply Forall_forall. intros y Hy. destruct (F1 y Hy) as (e1 & H1). exists e1. apply HY; auto. apply in_or_app. auto.
      + destruct (HX e HE) as (e' & H' & _). exists e'. exact H'.
      + apply Forall_forall. intros y Hy. destruct (F2 y Hy) as (e1 & H1). exists e1. apply HY; auto. apply in_or_app. auto.
    - intros f Hf. rewrite HO; [auto|]. apply Hf. rewrite <- EJ, map_app. apply in_or_app. right. left. reflexivity.
  Qed.
  Lemma start_within j : within (jb_command j) (rn_todo (start_job j)) Next.
  Proof. split; [|exact I]. cbn [start_job rn_todo]. destruct (jb_command j); apply incl_refl. Qed.
  Lemma start_ok : joint_ok d0 (map start_job jobs).
  Proof.
    split; [rewrite map_map; apply map_id|]. split; [|auto]. apply Forall_forall. intros x Hx. apply in_map_iff in Hx as (j & <- & _).
    exists d0. split; [apply process_start|]. split; [apply start_within|]. intros f _. reflexivity.
  Qed.
  Theorem at_once_ok d states : at_once jobs d0 d states -> joint_ok d states.
  Proof. induction 1 as [|d before x after d' x' HT IH HS]; [apply start_ok|]. apply (joint_step _ _ IH HS). Qed.
End Jobs.

(** ** C73 *)

(** Commands that do not write one another's files do not notice one another: whatever
    the interleaving, a command that has come to its end has the exit status it has alone,
    and all files it reads or writes are as they are when it is run alone; files that no
    command writes are unchanged. *)
Theorem C73_as_if_alone : forall jobs d0 d states, bytes_in d0 -> independent jobs ->
  Forall (fun j => some_threads (jb_cpus j) (jb_command j)) jobs -> at_once jobs d0 d states ->
  map rn_job states = jobs /\
  (forall f, (forall j, In j jobs -> ~ In f (outputs (jb_command j))) -> fs_get d f = fs_get d0 f) /\
  forall x e, In x states -> rn_doing x = Exited e ->
    let j := rn_job x in
    exists d', (exists enough, forall fuel, enough <= fuel -> try_main fuel (jb_profile j) (jb_cpus j) ideal_disk (jb_command j) d0 = (e, d')) /\
      forall f, In f (names_of (jb_command j)) -> fs_get d f = fs_get d' f.
Proof.
  intros jobs d0 d states HB HI HT HA. destruct (at_once_ok HI HA) as (EJ & HF & HU). split; [exact EJ|]. split; [exact HU|].
  intros x e Hx EX j. rewrite Forall_forall in HF, HT. destruct (HF x Hx) as (d' & HP & _ & HS). exists d'. split; [|exact HS].
  rewrite EX in HP. eapply C70_result; [exact HB| |exact HP]. apply HT. rewrite <- EJ. apply in_map. exact Hx.
Qed.
(** At every moment a command that is not at its end can go on. *)
Theorem C73_goes_on : forall jobs d0 d states x, bytes_in d0 -> independent jobs ->
  Forall (fun j => some_threads (jb_cpus j) (jb_command j)) jobs -> at_once jobs d0 d states -> In x states ->
  (exists e, rn_doing x = Exited e) \/ exists d' x', job_step d x d' x'.
Proof.
  intros jobs d0 d states x HB HI HT HA Hx. destruct (at_once_ok HI HA) as (EJ & HF & _). rewrite Forall_forall in HF, HT.
  destruct (HF x Hx) as (e & HP & HW & HS).
  assert (some_threads (jb_cpus (rn_job x)) (jb_command (rn_job x))) as HTx by (apply HT; rewrite <- EJ; apply in_map; exact Hx).
  destruct (C70_goes_on HB HTx HP) as [H|([t' a' e'] & H)]; [left; exact H|right].
  assert (same_on (names_of (jb_command (rn_job x))) e d) as HS' by (intros f Hf; symmetry; auto).
  destruct (frame H HW HS') as (d' & HD & _). exists d'. destruct x as [j t a]. eexists. constructor. exact HD.
Qed.
(** There is no infinite sequence of steps of all the commands together. *)
Definition jobs_step (s' s : fs * list running) : Prop :=
  exists before x after x', snd s = before ++ x :: after /\ snd s' = before ++ x' :: after /\ job_step (fst s) x (fst s') x'.
Theorem C73_ends : forall jobs d0, bytes_in d0 -> independent jobs -> Forall (fun j => some_threads (jb_cpus j) (jb_command j)) jobs ->
  Acc jobs_step (d0, map start_job jobs).
Proof.
  intros jobs d0 HB HI HT.
  set (R := fun y x : job * process => fst y = fst x /\ pstep (jb_profile (fst x)) (jb_cpus (fst x)) (jb_command (fst x)) (snd x) (snd y)).
  set (proc_of := fun (x : running) (e : fs) => (rn_job x, mk_process (rn_todo x) (rn_doing x) e)).
  assert (forall l, Acc (fun l' l => exists before x after x', l = before ++ x :: after /\ l' = before ++ x' :: after /\ R x' x) l ->
    forall d states, joint_ok jobs d0 d states -> Forall2 (fun x y => exists e, own d0 d e x /\ y = proc_of x e) states l ->
    Acc jobs_step (d, states)) as G.
  { induction 1 as [l _ IH]. intros d states HJ H2. constructor. intros (d' & states') (before & x & after & x' & E1 & E2 & HS). cbn [fst snd] in *. subst states states'.
    destruct (joint_step HI _ _ HJ HS) as (EJ & HJ' & HY & HX). apply Forall2_app_inv_l in H2 as (l1 & l2 & H1 & H2 & ->).
    inversion H2 as [|? y ? l3 (e & HE & Ey) H3]; subst. destruct (HX e HE) as (e' & HE' & HS').
    eapply (IH (l1 ++ proc_of x' e' :: l3)).
    - exists l1, (proc_of x e), l3, (proc_of x' e'). split; auto. split; auto. split; [exact EJ|]. exact HS'.
    - exact HJ'.
    - assert (forall s ys, Forall2 (fun x y => exists e, own d0 d e x /\ y = proc_of x e) s ys -> incl s (before ++ after) ->
        Forall2 (fun x y => exists e, own d0 d' e x /\ y = proc_of x e) s ys) as HM.
      { clear - HY. induction 1 as [|a b s ys (e & HE & Eb) H IH]; intros HIn; constructor.
        - exists e. split; auto. apply HY; auto. apply HIn. left. reflexivity.
        - apply IH. intros z Hz. apply HIn. right. exact Hz. }
      apply Forall2_app; [apply HM; [exact H1|intros z Hz; apply in_or_app; auto]|]. constructor; [exists e'; auto|].
      apply HM; [exact H3|intros z Hz; apply in_or_app; auto]. }
  eapply (G (map (fun j => proc_of (start_job j) d0) jobs)); [|apply start_ok|].
  - apply acc_list. apply Forall_forall. intros y Hy. apply in_map_iff in Hy as (j & <- & Hj). rewrite Forall_forall in HT.
    pose proof (@steps_end (jb_profile j) (jb_cpus j) (jb_command j) d0 HB (HT j Hj) _ _ (le_n _) (process_start _ _ _ _) eq_refl) as HA.
    unfold proc_of. cbn [start_job rn_job rn_todo rn_doing].
    assert (forall s, Acc (fun s' s => pstep (jb_profile j) (jb_cpus j) (jb_command j) s s') s -> Acc R (j, s)) as GA.
    { induction 1 as [s _ IHs]. constructor. intros (j' & s') (E & HS). cbn [fst snd] in *. subst j'. apply IHs. exact HS. }
    apply GA. exact HA.
  - clear G HT. assert (forall js, Forall2 (fun x y => exists e, own d0 d0 e x /\ y = proc_of x e) (map start_job js) (map (fun j => proc_of (start_job j) d0) js)) as H; [|apply H].
    induction js as [|j js IH]; constructor; auto. exists d0. split; auto. split; [apply process_start|]. split; [apply start_within|intros f _; reflexivity].
Qed.
(** So there is always a way for all of them to come to their end. *)
Theorem C73_can_finish : forall jobs d0, bytes_in d0 -> independent jobs -> Forall (fun j => some_threads (jb_cpus j) (jb_command j)) jobs ->
  exists d states, at_once jobs d0 d states /\ Forall (fun x => exists e, rn_doing x = Exited e) states.
Proof.
  intros jobs d0 HB HI HT. pose proof (C73_ends HB HI HT) as HA.
  assert (forall s, Acc jobs_step s -> at_once jobs d0 (fst s) (snd s) ->
    exists d states, at_once jobs d0 d states /\ Forall (fun x => exists e, rn_doing x = Exited e) states) as G.
  { induction 1 as [s _ IH]. intros HR.
    assert (Forall (fun x => exists e, rn_doing x = Exited e) (snd s) \/ exists before x after d' x', snd s = before ++ x :: after /\ job_step (fst s) x d' x') as [H|(before & x & after & d' & x' & E & HS)].
    { assert (forall before l, snd s = before ++ l -> Forall (fun x => exists e, rn_doing x = Exited e) l \/
        exists b x after d' x', snd s = b ++ x :: after /\ job_step (fst s) x d' x') as GL; [|apply (GL [] (snd s) eq_refl)].
      intros before l. revert before. induction l as [|x l IHl]; intros before E; [left; constructor|].
      destruct (@C73_goes_on _ _ _ _ x HB HI HT HR) as [He|(d' & x' & HS)].
      - rewrite E. apply in_or_app. right. left. reflexivity.
      - destruct (IHl (before ++ [x])) as [H|H]; [rewrite <- app_assoc; exact E| |right; exact H]. left. constructor; auto.
      - right. exists before, x, l, d', x'. auto. }
    - eauto.
    - apply (IH (d', before ++ x' :: after)); [exists before, x, after, x'; auto|]. cbn [fst snd]. eapply at_once_step; [|exact HS]. rewrite <- E. exact HR. }
  apply (G _ HA). apply at_once_start.
Qed.

(** ** A case: [compress a] and [decompress b.x] at the same time *)
Definition two_inputs : fs := [([97], [120]); ([98; 46; 120], PropertiesRobust.two_blocks)].
Definition two_jobs : list job := [mk_job Checked 2 (Compress [[97]] None None); mk_job Wrapping 1 (Decompress [[98; 46; 120]])].
Lemma two_inputs_bytes : bytes_in two_inputs.
Proof.
  intros f content E. cbn [two_inputs fs_get] in E. destruct (nats_eqb [97] f); [injection E as <-; small_bytes|].
  destruct (nats_eqb [98; 46; 120] f); [|discriminate]. assert (content = PropertiesRobust.two_blocks) as -> by congruence.
  apply Forall_forall. assert (forallb (fun x => x <? 256) PropertiesRobust.two_blocks = true) as H by (vm_compute; reflexivity).
  rewrite forallb_forall in H. intros x Hx. apply Nat.ltb_lt. apply H. exact Hx.
Qed.
Lemma two_jobs_independent : independent two_jobs.
Proof.
  intros i j a b Hne Ea Eb f Hf Hg. unfold two_jobs in Ea, Eb.
  destruct i as [|[|i]], j as [|[|j]]; cbn [nth_error] in Ea, Eb; try congruence; try (destruct i; discriminate Ea); try (destruct j; discriminate Eb);
    injection Ea as <-; injection Eb as <-; cbn in Hf, Hg; intuition congruence.
Qed.
Example C73_case : bytes_in two_inputs /\ independent two_jobs /\
  Forall (fun j => some_threads (jb_cpus j) (jb_command j)) two_jobs /\
  exists d states, at_once two_jobs two_inputs d states /\ Forall (fun x => rn_doing x = Exited ExitOk) states /\
    fs_get d [98] = Some [97; 98; 99; 100; 101; 120; 121; 122] /\
    exists out, fs_get d [97; 46; 98; 122; 50] = Some out /\ length out = 37.
Proof.
  assert (Forall (fun j => some_threads (jb_cpus j) (jb_command j)) two_jobs) as HT by (repeat constructor).
  split; [exact two_inputs_bytes|]. split; [exact two_jobs_independent|]. split; [exact HT|].
  destruct (C73_can_finish two_inputs_bytes two_jobs_independent HT) as (d & states & HA & HE). exists d, states. split; [exact HA|].
  destruct (C73_as_if_alone two_inputs_bytes two_jobs_independent HT HA) as (EJ & _ & HX).
  destruct states as [|x [|y [|? ?]]]; try discriminate EJ. injection EJ as EJx EJy.
  apply Forall_cons_iff in HE as ((ex & Ex) & HE). apply Forall_cons_iff in HE as ((ey & Ey) & _).
  destruct (HX x ex (or_introl eq_refl) Ex) as (d1 & (n1 & R1) & S1). destruct (HX y ey (or_intror (or_introl eq_refl)) Ey) as (d2 & (n2 & R2) & S2).
  rewrite EJx in R1, S1. rewrite EJy in R2, S2. cbn [jb_profile jb_cpus jb_command] in *.
  assert (file_name [97]) as Hf by named.
  destruct (@C37_compress Checked 2 None [97] two_inputs [120] Hf ltac:(small_bytes) ltac:(cbn; lia) eq_refl eq_refl) as (out & HC & n3 & d3 & HD & R3).
  specialize (R1 (n1 + n3) ltac:(lia)). rewrite R3 in R1 by lia. assert (ex = ExitOk /\ d1 = d3) as (-> & ->) by (split; congruence).
  specialize (R2 n2 (le_n _)). assert (ey = ExitOk /\ fs_get d2 [98] = Some [97; 98; 99; 100; 101; 120; 121; 122]) as (-> & G2).
  { assert (exists d2, try_main n2 Wrapping 1 ideal_disk (Decompress [[98; 46; 120]]) two_inputs = (ExitOk, d2) /\
      fs_get d2 [98] = Some [97; 98; 99; 100; 101; 120; 121; 122]) as (d2' & E2 & G2) by (eexists; split; [vm_compute; reflexivity|vm_compute; reflexivity]).
    split; [congruence|]. rewrite <- G2. f_equal. congruence. }
  split; [repeat constructor; assumption|]. split; [rewrite S2; [exact G2|vm_compute; auto]|].
  exists out. destruct HD as (_ & HD & _). split; [rewrite S1; [exact HD|vm_compute; auto]|].
  assert (bytes [120]) as HB by small_bytes. assert (cuts [120] [[120]]) as HU by (apply small_cuts; [discriminate|cbn; lia]).
  destruct (seq_encode Wrapping Single [[120]] (good_sink [])) as (r4 & w4) eqn:E4.
  pose proof (@small_returns _ _ _ HB HU E4 1 (le_n 1) Wrapping _ (file_delivers _)) as R4.
  pose proof (returns_det R4 (HC Wrapping 1 (le_n 1) _ (file_delivers _))) as E5. vm_compute in E4.
  assert (w_out w4 = out) as <- by (assert (w4 = good_sink out) as -> by congruence; reflexivity).
  assert (w_out w4 = w_out (snd (r4, w4))) as -> by reflexivity. rewrite <- E4. reflexivity.
Qed.
(** ** What happens without independence

    [compress a] and [compress a.bz2] at the same time: the second one may find the output of
    the first one just created, and then compresses the empty file.  Both report success. *)
Lemma drive jobs d0 j before after d s : process_of (jb_profile j) (jb_cpus j) (jb_command j) d s ->
  at_once jobs d0 d (before ++ start_job j :: after) -> at_once jobs d0 (dir s) (before ++ mk_running j (todo s) (doing s) :: after).
Proof.
  intros HP HA. induction HP as [|s s' HP IH HS]; [exact HA|]. destruct s as [t a e], s' as [t' a' e']. eapply at_once_step; [exact IH|].
  constructor. exact HS.
Qed.
Lemma acc_of p cpus c d s : bytes_in d -> some_threads cpus c -> process_of p cpus c d s -> Acc (fun s' s => pstep p cpus c s s') s.
Proof.
  intros HB HT HP. induction HP as [|s s' HP IH HS]; [|exact (Acc_inv IH HS)].
  eapply steps_end; [exact HB|exact HT|apply le_n|apply process_start|reflexivity].
Qed.
(** a process goes on to its end, the others waiting; nobody else has touched its files *)
Lemma go_on jobs d0 dir0 j before after : bytes_in d0 -> some_threads (jb_cpus j) (jb_command j) ->
  forall s, Acc (fun s' s => pstep (jb_profile j) (jb_cpus j) (jb_command j) s s') s ->
  process_of (jb_profile j) (jb_cpus j) (jb_command j) d0 s -> within (jb_command j) (todo s) (doing s) ->
  forall d, at_once jobs dir0 d (before ++ mk_running j (todo s) (doing s) :: after) -> same_on (names_of (jb_command j)) d (dir s) ->
  exists rest st d' e', at_once jobs dir0 d' (before ++ mk_running j rest (Exited st) :: after) /\
    process_of (jb_profile j) (jb_cpus j) (jb_command j) d0 (mk_process rest (Exited st) e') /\
    same_on (names_of (jb_command j)) d' e' /\ forall f, ~ In f (outputs (jb_command j)) -> fs_get d' f = fs_get d f.
Proof.
  intros HB HT s HA. induction HA as [[t a e] _ IH]. intros HP HW d HO HS. cbn [todo doing dir] in *.
  destruct (C70_goes_on HB HT HP) as [(st & E)|([t' a' e'] & H)].
  - cbn [doing] in E. subst a. exists t, st, d, e. auto.
  - assert (same_on (names_of (jb_command j)) e d) as HS' by (intros f Hf; symmetry; auto).
    destruct (frame H HW HS') as (d' & HD & HS2 & HW' & _).
    destruct (frame HD HW HS) as (_ & _ & _ & _ & HU).
    destruct (IH (mk_process t' a' e') H) with (d := d') as (rest & st & d2 & e2 & A & B & C & D).
    + eapply process_step; [exact HP|exact H].
    + exact HW'.
    + eapply at_once_step; [exact HO|]. constructor. exact HD.
    + intros f Hf. symmetry. exact (HS2 f Hf).
    + exists rest, st, d2, e2. split; [exact A|]. split; [exact B|]. split; [exact C|]. intros f Hf. rewrite D, HU; auto.
Qed.
Definition chain_jobs : list job :=
  [mk_job Checked 2 (Compress [[97]] None None); mk_job Checked 2 (Compress [[97; 46; 98; 122; 50]] None None)].
Theorem C73_independence_needed : exists d states out again,
  at_once chain_jobs one_file d states /\ Forall (fun x => rn_doing x = Exited ExitOk) states /\
  fs_get d [97; 46; 98; 122; 50] = Some out /\ (forall p n, 1 <= n -> compressed p n Single [120] out) /\
  fs_get d [97; 46; 98; 122; 50; 46; 98; 122; 50] = Some again /\ (forall p n, 1 <= n -> compressed p n Single [] again).
Proof.
  set (c1 := Compress [[97]] None None). set (c2 := Compress [[97; 46; 98; 122; 50]] None None).
  set (j1 := mk_job Checked 2 c1). set (j2 := mk_job Checked 2 c2). set (a := [97]). set (b := [97; 46; 98; 122; 50]). set (bb := [97; 46; 98; 122; 50; 46; 98; 122; 50]).
  assert (bytes [120]) as HB1 by small_bytes. assert (bytes []) as HB0 by constructor.
  assert (bytes_in one_file) as HB by (intros f content E; cbn [one_file fs_get] in E; destruct (nats_eqb [97] f); [|discriminate]; injection E as <-; exact HB1).
  set (d1 := one_file ++ [(b, [])]).
  assert (bytes_in d1) as HBd.
  { intros f content E. unfold d1 in E. cbn [one_file app fs_get] in E. destruct (nats_eqb [97] f); [injection E as <-; exact HB1|].
    destruct (nats_eqb b f); [|discriminate]. injection E as <-. exact HB0. }
  assert (some_threads 2 c1) as HT1 by (cbn; lia). assert (some_threads 2 c2) as HT2 by (cbn; lia).
  assert (exists out0, process_of Checked 2 c1 one_file (mk_process [] (Encoding b out0) d1)) as (act & HP1).
  { eexists. eapply process_step; [eapply process_step; [apply process_start|]|].
    - apply (@step_open Checked 2 c1 [97] [] one_file [120]). reflexivity.
    - eapply step_create_encode with (d1 := d1); [reflexivity|vm_compute; reflexivity]. }
  assert (at_once chain_jobs one_file d1 ([] ++ mk_running j1 [] (Encoding b act) :: [start_job j2])) as HA1.
  { apply (@drive chain_jobs one_file j1 [] [start_job j2] one_file _ HP1). exact (at_once_start chain_jobs one_file). }
  destruct (@C70_can_finish Checked 2 c2 d1 HBd HT2) as (rest2 & e2 & d2 & HP2).
  pose proof (@drive chain_jobs one_file j2 [mk_running j1 [] (Encoding b act)] [] d1 _ HP2 HA1) as HA2. cbn [dir todo doing app] in HA2.
  destruct (C70_result HBd HT2 HP2) as (n2 & R2).
  assert (file_name [97; 46; 98; 122; 50]) as Hfb by named. assert (file_name [97]) as Hfa by named.
  destruct (@C37_compress Checked 2 None b d1 [] Hfb HB0 ltac:(cbn; lia) eq_refl eq_refl) as (again & HCa & n3 & d3 & (HN3 & HG3 & HO3) & R3).
  destruct (@C37_compress Checked 2 None a one_file [120] Hfa HB1 ltac:(cbn; lia) eq_refl eq_refl) as (out & HCo & n4 & d4 & (HN4 & HG4 & HO4) & R4).
  specialize (R2 (n2 + n3) ltac:(lia)). unfold c2 in R2. rewrite R3 in R2 by lia. assert (e2 = ExitOk /\ d2 = d3) as (-> & ->) by (split; congruence).
  destruct (@go_on chain_jobs one_file one_file j1 [] [mk_running j2 rest2 (Exited ExitOk)] HB HT1 _ (acc_of HB HT1 HP1) HP1) with (d := d3)
    as (rest1 & e1 & d5 & d6 & HA5 & HP5 & HS5 & HU5).
  - split; [intros f []|]. left. reflexivity.
  - exact HA2.
  - intros f Hf. cbn [dir]. apply HO3. intros ->. vm_compute in Hf. intuition discriminate.
  - destruct (C70_result HB HT1 HP5) as (n5 & R5). specialize (R5 (n5 + n4) ltac:(lia)). cbn [jb_profile jb_cpus jb_command j1] in R5. unfold c1 in R5.
    fold a in R5. rewrite R4 in R5 by lia. assert (e1 = ExitOk /\ d6 = d4) as (-> & ->) by (split; congruence).
    exists d5, [mk_running j1 rest1 (Exited ExitOk); mk_running j2 rest2 (Exited ExitOk)], out, again.
    split; [exact HA5|]. split; [repeat constructor|]. split; [rewrite HS5; [exact HG4|vm_compute; auto]|]. split; [exact HCo|].
    split; [|exact HCa]. rewrite HU5; [exact HG3|]. vm_compute. intuition discriminate.
Qed.
Print Assumptions C73_as_if_alone.
Print Assumptions C73_goes_on.
Print Assumptions C73_ends.
Print Assumptions C73_can_finish.
Print Assumptions C73_independence_needed.

(** * Several processes compress the same file at the same time: C72

    Words used in the statements: [together content start f procs] (Shared.v): processes
    [start], which all run [compress] on a file holding [content], may
    at some moment have come to the states [procs], and the output file is [f] then;
    [encode_returns] (SpecStream). *)
From Verif Require Import Base BaseFacts Bitwise BitwiseFacts SpecStream SymbolStatistics BlockEncoder Stream StreamFacts EncodeFacts
  BwtFacts Concurrency ConcurrencyFacts CrashFacts Cli CliSteps Shared PropertiesStream PropertiesThreads PropertiesCrash PropertiesCli PropertiesKill.

Lemma nth_write c o chunk i : nth_error (write_at c o chunk) i =
  if (o <=? i) && (i <? o + length chunk) then nth_error chunk (i - o)
  else if i <? length c then nth_error c i
  else if (i <? o) && (negb (length chunk =? 0)) then Some 0 else None.
Proof.
  destruct chunk as [|x chunk].
  - cbn [write_at length]. rewrite Nat.add_0_r, andb_false_r. replace ((o <=? i) && (i <? o)) with false.
    2:{ symmetry. destruct (Nat.leb_spec o i), (Nat.ltb_spec i o); cbn; auto; lia. }
    destruct (Nat.ltb_spec i (length c)); auto. apply nth_error_None. auto.
  - unfold write_at. remember (x :: chunk) as ch. assert (length ch <> 0) as HL by (subst ch; discriminate). clear Heqch x chunk.
    assert (length (firstn o (c ++ repeat 0 (o - length c))) = o) as HO.
    { rewrite firstn_length, app_length, repeat_length. lia. }
    replace (negb (length ch =? 0)) with true by (symmetry; apply Bool.negb_true_iff, Nat.eqb_neq; auto). rewrite andb_true_r.
    destruct (Nat.leb_spec o i) as [H|H]; cbn [andb].
    + rewrite nth_error_app2 by lia. rewrite HO. destruct (Nat.ltb_spec i (o + length ch)) as [H2|H2].
      * rewrite nth_error_app1 by lia. reflexivity.
      * rewrite nth_error_app2 by lia. rewrite nth_error_skipn. replace (o + length ch + (i - o - length ch)) with i by lia.
        destruct (Nat.ltb_spec i (length c)); auto. destruct (Nat.ltb_spec i o); [lia|]. apply nth_error_None. auto.
    + rewrite nth_error_app1 by lia. rewrite nth_error_firstn by auto.
      destruct (Nat.ltb_spec i (length c)) as [H2|H2]; [rewrite nth_error_app1 by auto; reflexivity|].
      rewrite nth_error_app2 by auto. destruct (Nat.ltb_spec i o) as [H3|H3]; [|lia]. apply nth_error_repeat. lia.
Qed.
Lemma length_write c o chunk : chunk <> [] -> length (write_at c o chunk) = Nat.max (length c) (o + length chunk).
Proof.
  intros H. unfold write_at. destruct chunk as [|x chunk]; [congruence|]. rewrite !app_length, firstn_length, app_length, repeat_length, skipn_length. lia.
Qed.

(** writing a part of [X] to its place *)
Lemma write_part X before chunk more c : X = before ++ chunk ++ more -> length c <= length X ->
  let c' := write_at c (length before) chunk in
  length c' <= length X /\ length c <= length c' /\
  (forall o, o <= length c -> (forall i, i < o -> nth_error c i = nth_error X i) -> forall i, i < o -> nth_error c' i = nth_error X i) /\
  (length before <= length c -> (forall i, i < length before -> nth_error c i = nth_error X i) ->
    length before + length chunk <= length c' /\ forall i, i < length before + length chunk -> nth_error c' i = nth_error X i).
Proof.
  intros EX HL c'. assert (length X = length before + (length chunk + length more)) as LX by (rewrite EX, !app_length; lia).
  destruct chunk as [|x chunk].
  { subst c'. cbn [write_at length]. rewrite Nat.add_0_r. repeat split; auto. }
  assert (length c' = Nat.max (length c) (length before + length (x :: chunk))) as LC by (apply length_write; discriminate).
  assert (forall i, length before <= i -> i < length before + length (x :: chunk) -> nth_error c' i = nth_error X i) as HC.
  { intros i H1 H2. unfold c'. rewrite nth_write. destruct (Nat.leb_spec (length before) i); [|lia]. destruct (Nat.ltb_spec i (length before + length (x :: chunk))); [|lia].
    cbn [andb]. rewrite EX, nth_error_app2 by auto. rewrite nth_error_app1 by lia. reflexivity. }
  assert (forall i, i < length c -> i < length before \/ length before + length (x :: chunk) <= i -> nth_error c' i = nth_error c i) as HO.
  { intros i H1 H2. unfold c'. rewrite nth_write. replace ((length before <=? i) && (i <? length before + length (x :: chunk))) with false.
    - destruct (Nat.ltb_spec i (length c)); auto. lia.
    - symmetry. destruct (Nat.leb_spec (length before) i), (Nat.ltb_spec i (length before + length (x :: chunk))); cbn; auto. lia. }
  split; [lia|]. split; [lia|]. split.
  - intros o Ho HA i Hi. destruct (Nat.lt_ge_cases i (length before)) as [H|H]; [rewrite HO; auto; lia|].
    destruct (Nat.lt_ge_cases i (length before + length (x :: chunk))) as [H2|H2]; [auto|]. rewrite HO; auto. lia.
  - intros Hb HA. split; [lia|]. intros i Hi. destruct (Nat.lt_ge_cases i (length before)) as [H|H]; auto. rewrite HO; auto. lia.
Qed.

(** the buffer passes on more and more *)
Lemma on_disk_grows a b : exists more, on_disk (a ++ b) = on_disk a ++ more.
Proof.
  unfold on_disk, buf_after. rewrite fold_left_app. generalize (fold_left buf_write a ([], [])) as s. induction b as [|x b IH]; intros s; cbn [fold_left].
  - exists []. rewrite app_nil_r. reflexivity.
  - destruct (IH (buf_write s x)) as (m1 & E). rewrite E. unfold buf_write at 1. destruct (length (snd s) <? BUF_CAPACITY); cbn [fst]; [eauto|].
    exists (snd s ++ m1). rewrite app_assoc. reflexivity.
Qed.

Section Together.
  Variables (content : list nat) (st : strategy) (r : res unit) (w : writer).
  Hypothesis HB : bytes content.
  Hypothesis Hr : forall n, 1 <= n -> forall p rd, delivers rd content -> encode_returns p rd (good_sink []) n st (r, w).
  Let X := w_out w.

  Definition runs (x : proc) : Prop := 1 <= pr_threads x /\ pr_strategy x = st.
  Definition coding (x : proc) (q : cstate) : Prop :=
    exists k, reached (pr_profile x) (pr_strategy x) (pr_threads x) (file_reader content) (good_sink []) k q.
  Lemma coding_prefix x q : runs x -> coding x q -> exists more, X = written_by q ++ more.
  Proof.
    intros (Hn & Est) (k & HR). rewrite Est in HR. pose proof (file_delivers content) as HD.
    destruct (@C69_prefix _ _ _ _ _ k q _ (delivers_bytes HD HB) Hn (proj1 HD) HR (Hr Hn (pr_profile x) HD)) as (more & E). exists more. exact E.
  Qed.
  Lemma coding_handed x q : runs x -> coding x q -> exists more, X = handed q ++ more.
  Proof.
    intros Hn HC. destruct (coding_prefix Hn HC) as (m1 & E1). destruct (on_disk_prefix (written_by q)) as (m2 & E2 & _).
    exists (m2 ++ m1). rewrite app_assoc. unfold handed. fold (written_by q). rewrite <- E2. exact E1.
  Qed.
  Lemma coding_step x q q' : runs x -> coding x q -> cstep (block_worker (pr_profile x) (pr_strategy x)) q q' ->
    coding x q' /\ exists chunk, handed q' = handed q ++ chunk.
  Proof.
    intros (Hn & Est) (k & HR) HS. split.
    - exists (k + 1). eapply run_app; [exact HR|]. econstructor; [exact HS|constructor].
    - destruct (step_grows HS) as (more & E). unfold sink in E. destruct (on_disk_grows (written_by q) more) as (m & E2). exists m.
      unfold handed. rewrite E. exact E2.
  Qed.
  Lemma coding_end x q r' : runs x -> coding x q -> c_pc q = MEnd r' -> r' = r /\ written_by q = X.
  Proof.
    intros (Hn & Est) (k & HR) HE. rewrite Est in HR. pose proof (file_delivers content) as HD.
    destruct (@C20_schedule_independent _ _ _ _ _ k q (r', bw_sink (en_bw (c_enc q))) (delivers_bytes HD HB) HR (conj HE eq_refl)) as (H & _).
    pose proof (returns_det H (Hr Hn (pr_profile x) HD)) as E. assert (r' = r) by congruence. split; auto.
    unfold X, written_by. congruence.
  Qed.

  Definition proc_ok (x : proc) : Prop := runs x /\
    match pr_phase x with Coding q => coding x q | Finished e => e = exit_of r | _ => True end.
  (** how far a process has written *)
  Definition came_to (x : proc) (o : nat) : Prop :=
    match pr_phase x with Coding q => o = length (handed q) | Finished _ => o = length X | _ => False end.
  Definition sys_ok (f : option (list nat)) (procs : list proc) : Prop :=
    Forall proc_ok procs /\
    match f with
    | None => Forall (fun x => pr_phase x = Looking \/ pr_phase x = Absent) procs
    | Some c => length c <= length X /\ exists j x o, nth_error procs j = Some x /\ came_to x o /\ o <= length c /\
        forall i, i < o -> nth_error c i = nth_error X i
    end.
  Lemma nth_mid_other {A} (before after : list A) x x' j : j <> length before -> nth_error (before ++ x' :: after) j = nth_error (before ++ x :: after) j.
  Proof.
    intros H. destruct (Nat.lt_ge_cases j (length before)) as [H1|H1]; [rewrite !nth_error_app1 by auto; reflexivity|].
    rewrite !nth_error_app2 by auto. destruct (j - length before) eqn:E; [lia|reflexivity].
  Qed.
  (** a process that writes its next part *)
  Lemma part_ok c procs procs' jx x x' old chunk more : sys_ok (Some c) procs -> Forall proc_ok procs' ->
    nth_error procs jx = Some x -> nth_error procs' jx = Some x' -> (forall j, j <> jx -> nth_error procs' j = nth_error procs j) ->
    came_to x (length old) -> came_to x' (length old + length chunk) -> X = old ++ chunk ++ more ->
    sys_ok (Some (write_at c (length old) chunk)) procs'.
  Proof.
    intros (_ & HL & j & y & o & E & HC & Ho & HA) HF EX EX' HO CX CX' ES.
    destruct (@write_part X old chunk more c ES HL) as (W1 & W2 & W3 & W4). split; auto. split; auto.
    destruct (Nat.eq_dec j jx) as [->|Hne].
    - assert (y = x) as -> by congruence. assert (o = length old) as ->.
      { unfold came_to in *. destruct (pr_phase x); congruence || contradiction. }
      destruct (W4 Ho HA) as (W5 & W6). exists jx, x', (length old + length chunk). split; [exact EX'|]. split; [exact CX'|]. split; [exact W5|exact W6].
    - exists j, y, o. split; [rewrite HO; auto|]. split; auto. split; [lia|]. apply W3; auto.
  Qed.
  Lemma step_sys f before x after f' x' : sys_ok f (before ++ x :: after) -> one_step content f x f' x' -> sys_ok f' (before ++ x' :: after).
  Proof.
    intros HS HT. pose proof HS as (HF & HI). apply Forall_app in HF as (F1 & F2). apply Forall_cons_iff in F2 as (FX & F2). destruct FX as (Hn & HX).
    assert (forall ph, match ph with Coding q => coding x q | Finished e => e = exit_of r | _ => True end ->
      Forall proc_ok (before ++ with_phase x ph :: after)) as HNew.
    { intros ph Hph. apply Forall_app. split; auto. constructor; auto. split; auto. }
    assert (nth_error (before ++ x :: after) (length before) = Some x) as EX by (rewrite nth_error_app2, Nat.sub_diag by auto; reflexivity).
    assert (forall y, nth_error (before ++ y :: after) (length before) = Some y) as EX' by (intros y; rewrite nth_error_app2, Nat.sub_diag by auto; reflexivity).
    destruct HT as [x EP|x c EP|x f EP|x q q' c EP ES|x q r' c EP ES]; rewrite EP in HX.
    - split; [apply HNew; exact I|]. apply Forall_app in HI as (A & B). apply Forall_cons_iff in B as (_ & B).
      apply Forall_app. split; [exact A|]. constructor; [right; reflexivity|exact B].
    - split; [apply HNew; exact I|]. destruct HI as (HL & j & y & o & E & HC & Ho & HA). split; auto. exists j, y, o. split; auto.
      destruct (Nat.eq_dec j (length before)) as [->|Hne].
      + exfalso. rewrite EX in E. assert (y = x) as -> by congruence. unfold came_to in HC. rewrite EP in HC. exact HC.
      + rewrite <- E. apply nth_mid_other. auto.
    - split; [apply HNew; exists 0; constructor|]. split; [apply Nat.le_0_l|]. exists (length before). eexists. exists 0. split; [apply EX'|]. split.
      + unfold came_to. cbn [with_phase pr_phase]. unfold handed, cinit. destruct (write_or_panic file_header _) as [r0 e] eqn:EW. vm_compute in EW. injection EW as <- <-. vm_compute. reflexivity.
      + split; [apply Nat.le_0_l|]. intros i Hi. lia.
    - destruct (coding_step Hn HX ES) as (HC' & chunk & EC). rewrite EC, skipn_app, skipn_all, Nat.sub_diag. cbn [skipn app].
      destruct (coding_handed Hn HC') as (more & EM).
      eapply (@part_ok c _ _ (length before) x _ (handed q) chunk more HS); auto.
      + intros j Hj. apply nth_mid_other. auto.
      + unfold came_to. rewrite EP. reflexivity.
      + unfold came_to. cbn [with_phase pr_phase]. rewrite EC, app_length. reflexivity.
      + rewrite EM, EC, <- app_assoc. reflexivity.
    - destruct (coding_end Hn HX ES) as (-> & EW). unfold handed_in_the_end. rewrite dropped_all. fold (written_by q). rewrite EW.
      destruct (coding_handed Hn HX) as (more & EM).
      assert (skipn (length (handed q)) X = more) as -> by (rewrite EM, skipn_app, skipn_all, Nat.sub_diag; reflexivity).
      eapply (@part_ok c _ _ (length before) x _ (handed q) more [] HS); auto.
      + intros j Hj. apply nth_mid_other. auto.
      + unfold came_to. rewrite EP. reflexivity.
      + unfold came_to. cbn [with_phase pr_phase]. rewrite EM, app_length. reflexivity.
      + rewrite app_nil_r. exact EM.
  Qed.
  Theorem together_ok start f procs : Forall (fun x => runs x /\ pr_phase x = Looking) start ->
    together content start f procs -> sys_ok f procs /\ length procs = length start.
  Proof.
    intros HS. induction 1 as [|f before x after f' x' HT (IH & IL) HO].
    - split; auto. split; [|eapply Forall_impl; [|exact HS]; intros x (_ & A); left; exact A].
      eapply Forall_impl; [|exact HS]. intros x (A & B). split; auto. rewrite B. exact I.
    - split; [eapply step_sys; eauto|]. rewrite app_length in *. exact IL.
  Qed.
End Together.

(** ** C72 *)

(** the process has come to its end *)
Definition has_ended (x : proc) : Prop := pr_phase x = Refused \/ exists e, pr_phase x = Finished e.
(** a process about to start, with at least one thread and strategy [st] *)
Definition new_process (st : strategy) (x : proc) : Prop := 1 <= pr_threads x /\ pr_strategy x = st /\ pr_phase x = Looking.

(** However the processes overtake one another -- also when several find the output absent
    and each of them empties it once more -- with one and the same strategy the file holds in
    the end the very bytes that one undisturbed compression gives, at least one process is
    not refused, and all that are not report the outcome of the undisturbed compression. *)
Theorem C72_right_stream : forall st content start, bytes content -> start <> [] -> Forall (new_process st) start ->
  exists r, fst r <> NoFuel /\ (forall n p rd, 1 <= n -> delivers rd content -> encode_returns p rd (good_sink []) n st r) /\
    forall f procs, together content start f procs -> Forall has_ended procs ->
      f = Some (w_out (snd r)) /\ (exists x, In x procs /\ pr_phase x = Finished (exit_of (fst r))) /\
      forall x e, In x procs -> pr_phase x = Finished e -> e = exit_of (fst r).
Proof.
  intros st content start HB HNE HS. destruct (C19_thread_count_independent st (good_sink []) HB) as ((r & w) & HNF & Hr). cbn [fst snd] in *.
  exists (r, w). cbn [fst snd]. split; auto. split; [intros; apply Hr; auto|]. intros f procs HT HE.
  assert (Forall (fun x => runs st x /\ pr_phase x = Looking) start) as HS'.
  { eapply Forall_impl; [|exact HS]. intros x (A & B & C). repeat split; auto. }
  destruct (together_ok HB Hr HS' HT) as ((HF & HI) & HL). rewrite Forall_forall in HE, HF.
  destruct f as [c|].
  - destruct HI as (HX & j & x & o & Ej & HC & Ho & HA). pose proof (nth_error_In _ _ Ej) as Hx. unfold came_to in HC.
    destruct (HE x Hx) as [E|(e & E)]; rewrite E in HC; [contradiction|]. subst o.
    assert (c = w_out w) as ->.
    { apply nth_error_ext. intros i. destruct (Nat.lt_ge_cases i (length (w_out w))) as [H|H]; auto.
      rewrite (proj2 (nth_error_None _ _) H). apply nth_error_None. lia. }
    split; auto. assert (forall x e, In x procs -> pr_phase x = Finished e -> e = exit_of r) as HU.
    { intros y e' Hy E'. destruct (HF y Hy) as (_ & HP). rewrite E' in HP. exact HP. }
    split; auto. exists x. split; auto. rewrite E. f_equal. eauto.
  - exfalso. destruct procs as [|x procs]; [cbn [length] in HL; destruct start; [auto|discriminate]|].
    apply Forall_cons_iff in HI as (HI & _). destruct (HE x (or_introl eq_refl)) as [E|(e & E)]; rewrite E in HI; destruct HI; discriminate.
Qed.

(** As long as one process has not ended, that process can go on. *)
Theorem C72_goes_on : forall content start f procs x, bytes content -> Forall (fun x => 1 <= pr_threads x /\ pr_phase x = Looking) start ->
  together content start f procs -> In x procs -> has_ended x \/ exists f' x', one_step content f x f' x'.
Proof.
  intros content start f procs x HB HS HT Hx.
  assert (Forall (fun x => coding content x (match pr_phase x with Coding q => q | _ => cinit (pr_threads x) (file_reader content) (good_sink []) end)) procs /\
    (f = None -> Forall (fun x => pr_phase x = Looking \/ pr_phase x = Absent) procs)) as (HI & HN).
  { clear x Hx. induction HT as [|f before x after f' x' HT (IH & IN) HO].
    - split; [|intros _; eapply Forall_impl; [|exact HS]; intros x (A & B); left; exact B].
      eapply Forall_impl; [|exact HS]. intros x (A & B). rewrite B. exists 0. constructor.
    - apply Forall_app in IH as (A & B). apply Forall_cons_iff in B as (B & C). destruct HO as [x EP|x c EP|x f EP|x q q' c EP ES|x q r' c EP ES]; rewrite EP in B.
      + split; [apply Forall_app; split; auto; constructor; auto; exists 0; constructor|]. intros _. specialize (IN eq_refl).
        apply Forall_app in IN as (A' & B'). apply Forall_cons_iff in B' as (_ & B'). apply Forall_app. split; [exact A'|].
        constructor; [right; reflexivity|exact B'].
      + split; [apply Forall_app; split; auto; constructor; auto; exists 0; constructor|discriminate].
      + split; [apply Forall_app; split; auto; constructor; auto; exists 0; constructor|discriminate].
      + split; [|discriminate]. apply Forall_app. split; auto. constructor; auto. cbn [with_phase pr_phase]. destruct B as (k & HR). exists (k + 1).
        eapply run_app; [exact HR|]. econstructor; [exact ES|constructor].
      + split; [|discriminate]. apply Forall_app. split; auto. constructor; auto. exists 0. constructor. }
  rewrite Forall_forall in HI. destruct (pr_phase x) as [| |q| |e] eqn:EP.
  - right. destruct f as [c|]; do 2 eexists; [apply one_refuse|apply one_look]; auto.
  - right. do 2 eexists. apply one_create; auto.
  - right. destruct f as [c|].
    2:{ specialize (HN eq_refl). rewrite Forall_forall in HN. destruct (HN x Hx) as [E|E]; congruence. }
    specialize (HI x Hx). rewrite EP in HI. destruct HI as (k & HR).
    destruct (C20_no_deadlock (delivers_bytes (file_delivers content) HB) HR) as [(r & HR')|(q' & HS')].
    + do 2 eexists. eapply one_finish; [exact EP|apply HR'].
    + do 2 eexists. eapply one_code; [exact EP|exact HS'].
  - left. left. exact EP.
  - left. right. exists e. exact EP.
Qed.

(** There is no infinite sequence of steps. *)
Definition system_step (content : list nat) (s' s : option (list nat) * list proc) : Prop :=
  exists before x after x', snd s = before ++ x :: after /\ snd s' = before ++ x' :: after /\ one_step content (fst s) x (fst s') x'.
Lemma acc_list {A} (R : A -> A -> Prop) l : Forall (Acc R) l ->
  Acc (fun l' l => exists before x after x', l = before ++ x :: after /\ l' = before ++ x' :: after /\ R x' x) l.
Proof.
  induction l as [|x l IH]; intros H.
  - constructor. intros l' (b & x & a & x' & E & _). destruct b; discriminate.
  - apply Forall_cons_iff in H as (HX & HL). specialize (IH HL). clear HL. revert l IH. induction HX as [x _ IHx]. intros l HL. induction HL as [l HL IHl].
    constructor. intros l' (b & y & a & y' & E & -> & HR). destruct b as [|z b]; cbn [app] in *.
    + assert (y = x) as -> by congruence. assert (a = l) as -> by congruence. apply IHx; auto. constructor. exact HL.
    + assert (z = x) as -> by congruence. apply IHl. exists b, y, a, y'. assert (l = b ++ y :: a) by congruence. auto.
Qed.
Lemma stuck content f x f' x' : has_ended x -> one_step content f x f' x' -> False.
Proof. intros [E|(e & E)] HO; destruct HO as [x E'|x c E'|x f E'|x q q' c E' ES|x q r' c E' ES]; congruence. Qed.
Lemma acc_coding content x : bytes content -> 1 <= pr_threads x -> forall q, pr_phase x = Coding q -> coding content x q ->
  Acc (fun x' x => exists f f', one_step content f x f' x') x.
Proof.
  intros HB Hn. destruct (@C20_terminates (pr_profile x) (pr_strategy x) (pr_threads x) (file_reader content) (good_sink []) (delivers_bytes (file_delivers content) HB) Hn eq_refl) as (bound & HK).
  assert (forall m q k y, pr_profile y = pr_profile x -> pr_strategy y = pr_strategy x -> pr_phase y = Coding q ->
    reached (pr_profile x) (pr_strategy x) (pr_threads x) (file_reader content) (good_sink []) k q -> bound <= k + m ->
    Acc (fun x' x => exists f f', one_step content f x f' x') y) as G.
  { induction m as [|m IH]; intros q k y E1 E2 EP HR HM; constructor; intros y' (f & f' & HO);
      destruct HO as [y EP'|y c EP'|y f0 EP'|y q0 q' c EP' ES|y q0 r' c EP' ES]; try congruence.
    - exfalso. assert (q0 = q) as -> by congruence. rewrite E1, E2 in ES. 
      assert (reached (pr_profile x) (pr_strategy x) (pr_threads x) (file_reader content) (good_sink []) (k + 1) q') as HR'.
      { eapply run_app; [exact HR|]. econstructor; [exact ES|constructor]. }
      apply HK in HR'. lia.
    - constructor. intros y'' (f & f' & HO). apply stuck in HO; [contradiction|]. right. eexists. reflexivity.
    - assert (q0 = q) as -> by congruence. rewrite E1, E2 in ES. apply (IH q' (k + 1)); auto; [|lia].
      eapply run_app; [exact HR|]. econstructor; [exact ES|constructor].
    - constructor. intros y'' (f & f' & HO). apply stuck in HO; [contradiction|]. right. eexists. reflexivity. }
  intros q EP (k & HR). eapply (G (bound - k)); eauto. lia.
Qed.
Theorem C72_ends : forall content start, bytes content -> Forall (fun x => 1 <= pr_threads x /\ pr_phase x = Looking) start ->
  Acc (system_step content) (None, start).
Proof.
  intros content start HB HS.
  assert (Acc (fun l' l => exists before x after x', l = before ++ x :: after /\ l' = before ++ x' :: after /\ (exists f f', one_step content f x f' x')) start) as HA.
  { apply (acc_list (R := fun x' x => exists f f', one_step content f x f' x')). eapply Forall_impl; [|exact HS]. intros x (Hn & EP).
    constructor. intros x1 (f & f' & HO). destruct HO as [x EP'|x c EP'|x f EP'|x q q' c EP' ES|x q r' c EP' ES]; try congruence.
    - constructor. intros x2 (f & f' & HO). remember (with_phase x Absent) as y eqn:Ey. assert (pr_phase y = Absent) as EA by (subst y; reflexivity).
      assert (1 <= pr_threads y) as Hy by (subst y; exact Hn). clear Ey.
      destruct HO as [y E|y c E|y f E|y q q' c E ES|y q r' c E ES]; try congruence. eapply acc_coding; [exact HB|exact Hy|reflexivity|exists 0; constructor].
    - constructor. intros x2 (f & f' & HO). apply stuck in HO; [contradiction|]. left. reflexivity. }
  remember (None, start) as s eqn:Es. assert (snd s = start) as E by (subst s; reflexivity). clear Es HS. revert s E.
  induction HA as [l _ IH]. intros s E. constructor. intros s' (b & x & a & x' & E1 & E2 & HO). eapply IH; [|reflexivity].
  exists b, x, a, x'. subst l. split; auto. split; eauto.
Qed.

(** With different strategies the file in the end may be the output of none of them: the
    shorter one written last over the longer one keeps the end of the longer one. *)
Lemma small_handed q : length (written_by q) <= BUF_CAPACITY -> handed q = [].
Proof.
  intros H. unfold handed. fold (written_by q). revert H. generalize (written_by q) as l. intros l. unfold on_disk.
  assert (length l <= BUF_CAPACITY -> buf_after l = ([], l)) as G; [|intros H; rewrite (G H); reflexivity].
  unfold buf_after. induction l as [|x l IH] using rev_ind; intros H; [reflexivity|]. rewrite app_length in H. cbn [length] in H.
  rewrite fold_left_app, IH by lia. cbn [fold_left]. unfold buf_write. cbn [fst snd].
  destruct (Nat.ltb_spec (length l) BUF_CAPACITY) as [H'|H']; [reflexivity|lia].
Qed.
Lemma whole_run content st w r x start before after c : bytes content ->
  (forall n, 1 <= n -> forall p rd, delivers rd content -> encode_returns p rd (good_sink []) n st (r, w)) ->
  runs st x -> length (w_out w) <= BUF_CAPACITY ->
  together content start (Some c) (before ++ with_phase x (Coding (cinit (pr_threads x) (file_reader content) (good_sink []))) :: after) ->
  together content start (Some (write_at c 0 (w_out w))) (before ++ with_phase x (Finished (exit_of r)) :: after).
Proof.
  intros HB Hr HX HL HT. pose proof HX as (Hn & Est).
  destruct (@run_exists (pr_profile x) (pr_strategy x) (pr_threads x) (file_reader content) (good_sink []))
    as (k & s & r' & HR & E); [apply (delivers_bytes (file_delivers content) HB)|exact Hn|reflexivity|].
  assert (forall y q, runs st y -> coding content y q -> handed q = []) as HH.
  { intros y q Hy HC. apply small_handed. destruct (coding_prefix HB Hr Hy HC) as (more & EM). cbn [w_out] in EM.
    apply (f_equal (@length nat)) in EM. rewrite app_length in EM. lia. }
  assert (forall k q s, crun (block_worker (pr_profile x) (pr_strategy x)) k q s -> coding content x q ->
    together content start (Some c) (before ++ with_phase x (Coding q) :: after) ->
    together content start (Some c) (before ++ with_phase x (Coding s) :: after) /\ coding content x s) as G.
  { clear k s r' HR E HT. induction 1 as [q|k q q' s HS HR IH]; intros HC HT; [auto|].
    destruct (@coding_step content st x q q' HX HC HS) as (HC' & _). apply IH; auto.
    pose proof (@one_code content (with_phase x (Coding q)) q q' c eq_refl HS) as HO. rewrite (HH x q HX HC), (HH x q' HX HC') in HO. cbn [length skipn write_at] in HO.
    exact (together_step _ _ HT HO). }
  destruct (G _ _ _ HR (ex_intro _ 0 (crun_nil _ _)) HT) as (HT' & HC).
  destruct (coding_end HB Hr HX HC E) as (-> & EW).
  pose proof (@one_finish content (with_phase x (Coding s)) s r c eq_refl E) as HO. rewrite (HH x s HX HC) in HO. cbn [length skipn] in HO.
  unfold handed_in_the_end in HO. rewrite dropped_all in HO. fold (written_by s) in HO. rewrite EW in HO. exact (together_step _ _ HT' HO).
Qed.
(** two processes, both find the output absent; both create it; the first writes, then the second *)
Lemma both_run content st1 st2 w1 w2 r1 r2 n1 n2 : bytes content -> 1 <= n1 -> 1 <= n2 ->
  (forall n, 1 <= n -> forall p rd, delivers rd content -> encode_returns p rd (good_sink []) n st1 (r1, w1)) ->
  (forall n, 1 <= n -> forall p rd, delivers rd content -> encode_returns p rd (good_sink []) n st2 (r2, w2)) ->
  length (w_out w1) <= BUF_CAPACITY -> length (w_out w2) <= BUF_CAPACITY ->
  together content [mk_proc Checked n1 st1 Looking; mk_proc Wrapping n2 st2 Looking]
    (Some (write_at (write_at [] 0 (w_out w1)) 0 (w_out w2)))
    [mk_proc Checked n1 st1 (Finished (exit_of r1)); mk_proc Wrapping n2 st2 (Finished (exit_of r2))].
Proof.
  intros HB H1 H2 R1 R2 L1 L2. set (x1 := mk_proc Checked n1 st1 Looking). set (x2 := mk_proc Wrapping n2 st2 Looking).
  pose proof (together_start content [x1; x2]) as HT.
  pose proof (@together_step content _ _ [] x1 [x2] _ _ HT (one_look content x1 eq_refl)) as HT1.
  pose proof (@together_step content _ _ [with_phase x1 Absent] x2 [] _ _ HT1 (one_look content x2 eq_refl)) as HT2.
  pose proof (@together_step content _ _ [] (with_phase x1 Absent) [with_phase x2 Absent] _ _ HT2 (one_create content (with_phase x1 Absent) None eq_refl)) as HT3.
  pose proof (@together_step content _ _ [_] (with_phase x2 Absent) [] _ _ HT3 (one_create content (with_phase x2 Absent) _ eq_refl)) as HT4.
  pose proof (@whole_run content st1 w1 r1 x1 _ [] _ [] HB R1 (conj H1 eq_refl) L1 HT4) as HT5.
  exact (@whole_run content st2 w2 r2 x2 _ [_] [] _ HB R2 (conj H2 eq_refl) L2 HT5).
Qed.
Lemma small_returns content st r : bytes content -> cuts content [content] -> seq_encode Wrapping st [content] (good_sink []) = r ->
  forall n, 1 <= n -> forall p rd, delivers rd content -> encode_returns p rd (good_sink []) n st r.
Proof.
  intros HB HC E n Hn p rd HD. rewrite <- E, <- (seq_encode_profile p Wrapping st (good_sink []) HB HC). eapply returns_seq; eauto.
Qed.
Theorem C72_any_strategies_refuted : exists content start f procs,
  bytes content /\ Forall (fun x => 1 <= pr_threads x /\ pr_phase x = Looking) start /\ together content start (Some f) procs /\
  Forall (fun x => pr_phase x = Finished ExitOk) procs /\
  forall x r, In x procs -> encode_returns (pr_profile x) (file_reader content) (good_sink []) (pr_threads x) (pr_strategy x) r -> f <> w_out (snd r).
Proof.
  assert (bytes [120]) as HB by small_bytes. assert (cuts [120] [[120]]) as HC by (apply small_cuts; [discriminate|cbn; lia]).
  destruct (seq_encode Wrapping Single [[120]] (good_sink [])) as (r1 & w1) eqn:E1.
  destruct (seq_encode Wrapping (BlockWise 1 2) [[120]] (good_sink [])) as (r2 & w2) eqn:E2.
  pose proof (small_returns _ HB HC E1) as R1. pose proof (small_returns _ HB HC E2) as R2.
  vm_compute in E1. injection E1 as <- <-. vm_compute in E2. injection E2 as <- <-.
  exists [120]. do 3 eexists. split; [exact HB|]. split; [|split; [exact (@both_run _ _ _ _ _ _ _ 1 1 HB (le_n 1) (le_n 1) R1 R2 ltac:(apply Nat.leb_le; vm_compute; reflexivity) ltac:(apply Nat.leb_le; vm_compute; reflexivity))|split]].
  - repeat constructor.
  - repeat constructor.
  - intros x r [<-|[<-|[]]] H; cbn [pr_profile pr_threads pr_strategy] in H.
    + rewrite (returns_det H (R1 1 (le_n 1) _ _ (file_delivers _))). vm_compute. discriminate.
    + rewrite (returns_det H (R2 1 (le_n 1) _ _ (file_delivers _))). vm_compute. discriminate.
Qed.
(** both of two processes get to write *)
Example C72_case : exists start f procs, bytes [120] /\ Forall (new_process Single) start /\ length start = 2 /\
  together [120] start (Some f) procs /\ Forall (fun x => pr_phase x = Finished ExitOk) procs /\ length f = 37.
Proof.
  assert (bytes [120]) as HB by small_bytes. assert (cuts [120] [[120]]) as HC by (apply small_cuts; [discriminate|cbn; lia]).
  destruct (seq_encode Wrapping Single [[120]] (good_sink [])) as (r1 & w1) eqn:E1.
  pose proof (small_returns _ HB HC E1) as R1. vm_compute in E1. injection E1 as <- <-.
  do 3 eexists. split; [exact HB|]. split; [|split; [|split; [exact (@both_run _ _ _ _ _ _ _ 2 1 HB (le_S _ _ (le_n 1)) (le_n 1) R1 R1 ltac:(apply Nat.leb_le; vm_compute; reflexivity) ltac:(apply Nat.leb_le; vm_compute; reflexivity))|split]]].
  - repeat constructor.
  - reflexivity.
  - repeat constructor.
  - reflexivity.
Qed.
Print Assumptions C72_right_stream.
Print Assumptions C72_goes_on.
Print Assumptions C72_ends.
Print Assumptions C72_any_strategies_refuted.

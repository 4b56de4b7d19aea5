(** * Several processes decompress the same file at the same time: C74

    Words used in the statements: [d_together content start f procs] (SharedDecode.v): the
    processes [start], all about to decompress a file with this content to one and the
    same output, may at some moment have become [procs], the output file being [f] then
    ([None]: not there); [decode_stream] (Stream.v): one undisturbed decompression. *)
From Verif Require Import Base BaseFacts Bitwise BitwiseFacts SpecBits SpecStream Crc32 SymbolStatistics BlockEncoder BlockDecoder Stream StreamFacts EncodeFacts CrashFacts ReaderFacts DecodeFacts
  RoundTripFacts Cli CliSteps Shared SharedDecode PropertiesStream PropertiesDecode PropertiesRobust PropertiesForeign PropertiesCli PropertiesKill PropertiesShared.

Section Together.
  Variables (content : list nat) (r : res unit) (w : writer).
  Let X := w_out w.

  Definition d_runs (x : dproc) : Prop := decode_stream (dp_profile x) content (mk_writer [] []) = (r, w).
  Definition decoding (x : dproc) (r0 : bit_reader) (w0 : writer) : Prop := goes_on (dp_profile x) content r0 w0.
  Lemma decoding_prefix x r0 w0 : d_runs x -> decoding x r0 w0 -> exists more, X = w_out w0 ++ more.
  Proof.
    intros HR (fuel & E). rewrite HR in E. destruct (@loop_grows (dp_profile x) fuel r0 w0) as (more & EG).
    exists more. rewrite <- EG. unfold X. congruence.
  Qed.
  Lemma block_chunk p r0 w0 : exists chunk, w_out (snd (decode_block p r0 w0)) = w_out w0 ++ chunk.
  Proof. exact (block_grows p r0 w0). Qed.
  Definition dproc_ok (x : dproc) : Prop := d_runs x /\
    match dp_phase x with DDecoding r0 w0 => decoding x r0 w0 | DFinished e => e = exit_of r | _ => True end.
  Definition d_came_to (x : dproc) (o : nat) : Prop :=
    match dp_phase x with DDecoding _ w0 => o = length (w_out w0) | DFinished _ => o = length X | _ => False end.
  Definition d_ok (f : option (list nat)) (procs : list dproc) : Prop :=
    Forall dproc_ok procs /\
    match f with
    | None => Forall (fun x => dp_phase x = DLooking \/ dp_phase x = DAbsent) procs
    | Some c => length c <= length X /\ exists j x o, nth_error procs j = Some x /\ d_came_to x o /\ o <= length c /\
        forall i, i < o -> nth_error c i = nth_error X i
    end.
  Lemma d_part_ok c procs procs' jx x x' old chunk more : d_ok (Some c) procs -> Forall dproc_ok procs' ->
    nth_error procs jx = Some x -> nth_error procs' jx = Some x' -> (forall j, j <> jx -> nth_error procs' j = nth_error procs j) ->
    d_came_to x (length old) -> d_came_to x' (length old + length chunk) -> X = old ++ chunk ++ more ->
    d_ok (Some (write_at c (length old) chunk)) procs'.
  Proof.
    intros (_ & HL & j & y & o & E & HC & Ho & HA) HF EX EX' HO CX CX' ES.
    destruct (@write_part X old chunk more c ES HL) as (W1 & W2 & W3 & W4). split; auto. split; auto.
    destruct (Nat.eq_dec j jx) as [->|Hne].
    - assert (y = x) as -> by congruence. assert (o = length old) as ->.
      { unfold d_came_to in *. destruct (dp_phase x); congruence || contradiction. }
      destruct (W4 Ho HA) as (W5 & W6). exists jx, x', (length old + length chunk). split; [exact EX'|]. split; [exact CX'|]. split; [exact W5|exact W6].
    - exists j, y, o. split; [rewrite HO; auto|]. split; auto. split; [lia|]. apply W3; auto.
  Qed.
  Lemma header_fails x : d_runs x -> (forall r0, read_file_header (br_from_reader content) <> Ok r0) -> exit_of r = ExitPanic /\ X = [].
  Proof.
    intros HR HN. unfold d_runs in HR. pose proof (@C29_terminates_partial (dp_profile x) content (mk_writer [] [])) as HT. unfold X.
    unfold decode_stream, decode_source in *. unfold br_from_reader in HN.
    destruct (read_file_header (br_from_source (map AByte content))) as [r0| | |]; [exfalso; eapply HN; reflexivity| | |]; cbn [fst] in HT; try congruence;
      (assert (w = mk_writer [] []) as -> by congruence); split; try reflexivity.
    - assert (r = Err) as -> by congruence. reflexivity.
    - assert (r = Panic) as -> by congruence. reflexivity.
  Qed.
  Lemma d_step_ok f before x after f' x' : d_ok f (before ++ x :: after) -> d_step content f x f' x' -> d_ok f' (before ++ x' :: after).
  Proof.
    intros HS HT. pose proof HS as (HF & HI). apply Forall_app in HF as (F1 & F2). apply Forall_cons_iff in F2 as (FX & F2). destruct FX as (Hn & HX).
    assert (forall ph, match ph with DDecoding r0 w0 => decoding x r0 w0 | DFinished e => e = exit_of r | _ => True end ->
      Forall dproc_ok (before ++ with_dphase x ph :: after)) as HNew.
    { intros ph Hph. apply Forall_app. split; auto. constructor; auto. split; auto. }
    assert (nth_error (before ++ x :: after) (length before) = Some x) as EX by (rewrite nth_error_app2, Nat.sub_diag by auto; reflexivity).
    assert (forall y, nth_error (before ++ y :: after) (length before) = Some y) as EX' by (intros y; rewrite nth_error_app2, Nat.sub_diag by auto; reflexivity).
    assert (forall c w0 chunk more x1, d_ok (Some c) (before ++ x :: after) -> Forall dproc_ok (before ++ x1 :: after) ->
      d_came_to x (length (w_out w0)) -> d_came_to x1 (length (w_out w0) + length chunk) -> X = w_out w0 ++ chunk ++ more ->
      d_ok (Some (write_at c (length (w_out w0)) chunk)) (before ++ x1 :: after)) as HP.
    { intros c w0 chunk more x1 H1 H2 H3 H4 H5. eapply (@d_part_ok c _ _ (length before) x x1 (w_out w0) chunk more H1); auto.
      intros j Hj. apply nth_mid_other. auto. }
    assert (forall w0 w2 chunk, w_out w2 = w_out w0 ++ chunk -> skipn (length (w_out w0)) (w_out w2) = chunk) as HSk.
    { intros w0 w2 chunk E. rewrite E, skipn_app, skipn_all, Nat.sub_diag. reflexivity. }
    destruct HT as [x EP|x c EP|x f EP|x r0 r1 r2 w0 w2 c EP EW EB|x r0 r1 w0 result w2 c EP EW EB EF|x r0 r1 w0 c EP EW|x r0 w0 c EP EW]; rewrite EP in HX.
    - split; [apply HNew; exact I|]. apply Forall_app in HI as (A & B). apply Forall_cons_iff in B as (_ & B).
      apply Forall_app. split; [exact A|]. constructor; [right; reflexivity|exact B].
    - split; [apply HNew; exact I|]. destruct HI as (HL & j & y & o & E & HC & Ho & HA). split; auto. exists j, y, o. split; auto.
      destruct (Nat.eq_dec j (length before)) as [->|Hne].
      + exfalso. rewrite EX in E. assert (y = x) as -> by congruence. unfold d_came_to in HC. rewrite EP in HC. exact HC.
      + rewrite <- E. apply nth_mid_other. auto.
    - destruct (read_file_header (br_from_reader content)) as [r0| | |] eqn:EH.
      { split; [apply HNew; apply goes_on_start; exact EH|]. split; [apply Nat.le_0_l|]. exists (length before). eexists. exists 0. split; [apply EX'|].
        split; [reflexivity|]. split; [apply Nat.le_0_l|]. intros i Hi. lia. }
      all: destruct (header_fails Hn) as (E1 & E2); [rewrite EH; discriminate|]; (split; [apply HNew; symmetry; exact E1|]; split; [apply Nat.le_0_l|];
        exists (length before); eexists; exists 0; split; [apply EX'|]; split; [unfold d_came_to; cbn [with_dphase dp_phase]; rewrite E2; reflexivity|];
        split; [apply Nat.le_0_l|]; intros i Hi; lia).
    - destruct (@block_chunk (dp_profile x) r1 w0) as (chunk & EC). rewrite EB in EC. cbn [snd] in EC.
      assert (decoding x r2 w2) as HD by (eapply goes_on_block; eauto). destruct (decoding_prefix Hn HD) as (more & EM).
      unfold write_more. rewrite (HSk _ _ _ EC). apply HP with (more := more); auto.
      + unfold d_came_to. rewrite EP. reflexivity.
      + unfold d_came_to. cbn [with_dphase dp_phase]. rewrite EC, app_length. reflexivity.
      + rewrite EM, EC, <- app_assoc. reflexivity.
    - destruct (@block_chunk (dp_profile x) r1 w0) as (chunk & EC). rewrite EB in EC. cbn [snd] in EC.
      apply goes_on_fuel in HX as (fuel & HG). cbn [decode_loop] in HG. rewrite EW, EB, Hn in HG.
      pose proof (@C29_terminates_partial (dp_profile x) content (mk_writer [] [])) as HNF. rewrite Hn in HNF. cbn [fst] in HNF.
      assert (exit_of r = ExitPanic /\ w = w2) as (E1 & E2).
      { destruct result as [r2| | |]; [exfalso; eapply EF; reflexivity| | |]; cbn [fst snd status] in HG; split; try congruence.
        - assert (r = Err) as -> by congruence. reflexivity.
        - assert (r = Panic) as -> by congruence. reflexivity. }
      unfold write_more. rewrite (HSk _ _ _ EC). apply HP with (more := []); auto.
      + unfold d_came_to. rewrite EP. reflexivity.
      + unfold d_came_to. cbn [with_dphase dp_phase]. unfold X. rewrite E2, EC, app_length. reflexivity.
      + unfold X. rewrite E2, app_nil_r. exact EC.
    - apply goes_on_fuel in HX as (fuel & HG). cbn [decode_loop] in HG. rewrite EW, Hn in HG. cbn [fst snd status] in HG.
      assert (r = Ok tt /\ w = w0) as (E1 & E2) by (split; congruence).
      change (Some c) with (Some (write_at c (length (w_out w0)) [])). apply HP with (more := []); auto.
      + apply HNew. rewrite E1. reflexivity.
      + unfold d_came_to. rewrite EP. reflexivity.
      + unfold d_came_to. cbn [with_dphase dp_phase length]. unfold X. rewrite E2. lia.
      + unfold X. rewrite E2. cbn [app]. rewrite app_nil_r. reflexivity.
    - apply goes_on_fuel in HX as (fuel & HG). cbn [decode_loop] in HG. rewrite Hn in HG.
      pose proof (@C29_terminates_partial (dp_profile x) content (mk_writer [] [])) as HNF. rewrite Hn in HNF. cbn [fst] in HNF.
      assert (exit_of r = ExitPanic /\ w = w0) as (E1 & E2).
      { destruct (what_next r0) as [y| | |]; [exfalso; eapply EW; reflexivity| | |]; cbn [fst snd status] in HG; split; try congruence.
        - assert (r = Err) as -> by congruence. reflexivity.
        - assert (r = Panic) as -> by congruence. reflexivity. }
      change (Some c) with (Some (write_at c (length (w_out w0)) [])). apply HP with (more := []); auto.
      + unfold d_came_to. rewrite EP. reflexivity.
      + unfold d_came_to. cbn [with_dphase dp_phase length]. unfold X. rewrite E2. lia.
      + unfold X. rewrite E2. cbn [app]. rewrite app_nil_r. reflexivity.
  Qed.
  Theorem d_together_ok start f procs : Forall (fun x => d_runs x /\ dp_phase x = DLooking) start ->
    d_together content start f procs -> d_ok f procs /\ length procs = length start.
  Proof.
    intros HS. induction 1 as [|f before x after f' x' HT (IH & IL) HO].
    - split; auto. split; [|eapply Forall_impl; [|exact HS]; intros x (_ & A); left; exact A].
      eapply Forall_impl; [|exact HS]. intros x (A & B). split; auto. rewrite B. exact I.
    - split; [eapply d_step_ok; eauto|]. rewrite app_length in *. exact IL.
  Qed.
End Together.

(** ** C74 *)

(** the process has come to its end *)
Definition d_has_ended (x : dproc) : Prop := dp_phase x = DRefused \/ exists e, dp_phase x = DFinished e.

(** However the processes overtake one another: if all of them, alone, would do the same
    with the file (so when all are the same program, and by C47 also when debug and release
    builds meet unless the debug build panics), the output holds in the end what one
    undisturbed decompression gives, at least one process is not refused, and all that
    are not end as the undisturbed decompression does. *)
Theorem C74_right_output : forall content start result, start <> [] ->
  Forall (fun x => dp_phase x = DLooking /\ decode_stream (dp_profile x) content (good_sink []) = result) start ->
  forall f procs, d_together content start f procs -> Forall d_has_ended procs ->
    f = Some (w_out (snd result)) /\ (exists x, In x procs /\ dp_phase x = DFinished (exit_of (fst result))) /\
    forall x e, In x procs -> dp_phase x = DFinished e -> e = exit_of (fst result).
Proof.
  intros content start (r & w) HNE HS f procs HT HE. cbn [fst snd].
  assert (Forall (fun x => d_runs content r w x /\ dp_phase x = DLooking) start) as HS'.
  { eapply Forall_impl; [|exact HS]. intros x (A & B). split; auto. }
  destruct (d_together_ok HS' HT) as ((HF & HI) & HL). rewrite Forall_forall in HE, HF.
  destruct f as [c|].
  - destruct HI as (HX & j & x & o & Ej & HC & Ho & HA). pose proof (nth_error_In _ _ Ej) as Hx. unfold d_came_to in HC.
    destruct (HE x Hx) as [E|(e & E)]; rewrite E in HC; [contradiction|]. subst o.
    assert (c = w_out w) as ->.
    { apply nth_error_ext. intros i. destruct (Nat.lt_ge_cases i (length (w_out w))) as [H|H]; auto.
      rewrite (proj2 (nth_error_None _ _) H). apply nth_error_None. lia. }
    split; auto. assert (forall x e, In x procs -> dp_phase x = DFinished e -> e = exit_of r) as HU.
    { intros y e' Hy E'. destruct (HF y Hy) as (_ & HP). rewrite E' in HP. exact HP. }
    split; auto. exists x. split; auto. rewrite E. f_equal. eauto.
  - exfalso. destruct procs as [|x procs]; [cbn [length] in HL; destruct start; [auto|discriminate]|].
    apply Forall_cons_iff in HI as (HI & _). destruct (HE x (or_introl eq_refl)) as [E|(e & E)]; rewrite E in HI; destruct HI; discriminate.
Qed.
(** in particular for one program *)
Corollary C74_one_program : forall p content n f procs, 1 <= n -> d_together content (repeat (mk_dproc p DLooking) n) f procs -> Forall d_has_ended procs ->
  exists out, f = Some out /\
    forall d name, fs_get d name = Some content -> fs_get d (decompress_name name) = None ->
      exists e d', (forall fuel cpus, try_main fuel p cpus ideal_disk (Decompress [name]) d = (e, d')) /\ fs_get d' (decompress_name name) = Some out /\
        (exists x, In x procs /\ dp_phase x = DFinished e) /\ forall x e', In x procs -> dp_phase x = DFinished e' -> e' = e.
Proof.
  intros p content n f procs Hn HT HE.
  destruct (@C74_right_output content (repeat (mk_dproc p DLooking) n) (decode_stream p content (good_sink []))) with (f := f) (procs := procs) as (E & HX & HU); auto.
  - destruct n; [lia|discriminate].
  - apply Forall_forall. intros x Hx. apply repeat_spec in Hx. subst x. auto.
  - eexists. split; [exact E|]. intros d name HG HN. exists (exit_of (fst (decode_stream p content (good_sink [])))),
    (fs_set (fs_set d (decompress_name name) []) (decompress_name name) (w_out (snd (decode_stream p content (good_sink []))))).
    split; [|split; [|split; [exact HX|exact HU]]].
    + intros fuel cpus. cbn [try_main for_each_file]. unfold decompress_one, create_file. rewrite HG, HN. cbn [ideal_disk dk_answers].
      change (mk_writer [] []) with (good_sink []). destruct (decode_stream p content (good_sink [])) as [r w]. cbn [fst snd].
      destruct (exit_of r); reflexivity.
    + rewrite fs_get_set_same. reflexivity.
Qed.
(** As long as one process has not ended, that process can go on. *)
Theorem C74_goes_on : forall content start f procs x, Forall (fun x => dp_phase x = DLooking) start ->
  d_together content start f procs -> In x procs -> d_has_ended x \/ exists f' x', d_step content f x f' x'.
Proof.
  intros content start f procs x HS HT Hx.
  assert (f = None -> Forall (fun x => dp_phase x = DLooking \/ dp_phase x = DAbsent) procs) as HN.
  { clear x Hx. induction HT as [|f before x after f' x' HT IN HO]; [intros _; eapply Forall_impl; [|exact HS]; intros x A; left; exact A|].
    destruct HO; try discriminate. intros _. specialize (IN eq_refl). apply Forall_app in IN as (A & B). apply Forall_cons_iff in B as (_ & B).
    apply Forall_app. split; [exact A|]. constructor; [right; reflexivity|exact B]. }
  destruct (dp_phase x) as [| |r w| |e] eqn:EP.
  - right. destruct f as [c|]; do 2 eexists; [apply d_refuse|apply d_look]; auto.
  - right. do 2 eexists. apply d_create; auto.
  - right. destruct f as [c|].
    2:{ specialize (HN eq_refl). rewrite Forall_forall in HN. destruct (HN x Hx) as [E|E]; congruence. }
    destruct (what_next r) as [[[|] r1]| | |] eqn:EW; try (do 2 eexists; eapply d_next_fails; [exact EP|rewrite EW; discriminate]).
    + do 2 eexists. eapply d_footer; eauto.
    + destruct (decode_block (dp_profile x) r1 w) as [[r2| | |] w2] eqn:EB; do 2 eexists; [eapply d_block; eauto|eapply d_block_fails; eauto; discriminate..].
  - left. left. exact EP.
  - left. right. exists e. exact EP.
Qed.
(** There is no infinite sequence of steps. *)
Definition d_system_step (content : list nat) (s' s : option (list nat) * list dproc) : Prop :=
  exists before x after x', snd s = before ++ x :: after /\ snd s' = before ++ x' :: after /\ d_step content (fst s) x (fst s') x'.
Lemma d_stuck content f x f' x' : d_has_ended x -> d_step content f x f' x' -> False.
Proof. intros [E|(e & E)] HO; destruct HO; congruence. Qed.
Lemma block_consumes p r r1 r2 w w2 : what_next r = Ok (BlockHeader, r1) -> decode_block p r1 w = (Ok r2, w2) -> length (rbits r2) < length (rbits r).
Proof.
  intros EW EB. apply what_next_inv in EW. rewrite EW, app_length. change (length (bytes_bits block_magic)) with 48.
  unfold decode_block in EB. destruct (regular_block p) as (_ & _ & BR).
  destruct (decode_block_data p r1) as [[[cc crc] r3]| | |] eqn:EBD; try discriminate. destruct (BR _ _ _ EBD) as (used & E2 & _).
  destruct (crc32 cc =? crc)%N; [|discriminate]. destruct (w_write w cc) as [[x| | |] w3]; try discriminate.
  assert (r3 = r2) as -> by congruence. rewrite E2, app_length. lia.
Qed.
Lemma d_acc_decoding content : forall n x r w, length (rbits r) < n -> dp_phase x = DDecoding r w ->
  Acc (fun x' x => exists f f', d_step content f x f' x') x.
Proof.
  assert (forall y, d_has_ended y -> Acc (fun x' x => exists f f', d_step content f x f' x') y) as HEnd.
  { intros y Hy. constructor. intros y' (f & f' & HO). apply d_stuck in HO; [contradiction|exact Hy]. }
  induction n as [|n IH]; intros x r w HL EP; [lia|]. constructor. intros x' (f & f' & HO).
  destruct HO as [x EP'|x c EP'|x f EP'|x r0 r1 r2 w0 w2 c EP' EW EB|x r0 r1 w0 result w2 c EP' EW EB EF|x r0 r1 w0 c EP' EW|x r0 w0 c EP' EW]; try congruence.
  - assert (r0 = r) as -> by congruence. pose proof (@block_consumes _ _ _ _ _ _ EW EB) as HC. eapply (IH _ r2 w2); [lia|reflexivity].
  - apply HEnd. right. eexists. reflexivity.
  - apply HEnd. right. eexists. reflexivity.
  - apply HEnd. right. eexists. reflexivity.
Qed.
Theorem C74_ends : forall content start, Forall (fun x => dp_phase x = DLooking) start -> Acc (d_system_step content) (None, start).
Proof.
  intros content start HS.
  assert (forall y, d_has_ended y -> Acc (fun x' x => exists f f', d_step content f x f' x') y) as HEnd.
  { intros y Hy. constructor. intros y' (f & f' & HO). apply d_stuck in HO; [contradiction|exact Hy]. }
  assert (Acc (fun l' l => exists before x after x', l = before ++ x :: after /\ l' = before ++ x' :: after /\ (exists f f', d_step content f x f' x')) start) as HA.
  { apply (acc_list (R := fun x' x => exists f f', d_step content f x f' x')). eapply Forall_impl; [|exact HS]. intros x EP.
    constructor. intros x1 (f & f' & HO). destruct HO as [x EP'|x c EP'|x f EP'|x r0 r1 r2 w0 w2 c EP' EW EB|x r0 r1 w0 result w2 c EP' EW EB EF|x r0 r1 w0 c EP' EW|x r0 w0 c EP' EW]; try congruence.
    - constructor. intros x2 (f & f' & HO). remember (with_dphase x DAbsent) as y eqn:Ey. assert (dp_phase y = DAbsent) as EA by (subst y; reflexivity). clear Ey.
      destruct HO as [y E|y c E|y f E|y r0 r1 r2 w0 w2 c E EW EB|y r0 r1 w0 result w2 c E EW EB EF|y r0 r1 w0 c E EW|y r0 w0 c E EW]; try congruence.
      destruct (read_file_header (br_from_reader content)) as [r| | |]; [|apply HEnd; right; eexists; reflexivity..].
      eapply d_acc_decoding; [apply Nat.lt_succ_diag_r|reflexivity].
    - apply HEnd. left. reflexivity. }
  remember (None, start) as s eqn:Es. assert (snd s = start) as E by (subst s; reflexivity). clear Es HS. revert s E.
  induction HA as [l _ IH]. intros s E. constructor. intros s' (b & x & a & x' & E1 & E2 & HO). eapply IH; [|reflexivity].
  exists b, x, a, x'. subst l. split; auto. split; eauto.
Qed.

(** Two processes, the second one empties the file after the first one has written its
    first block: both report success, the output is complete. *)
Lemma overtaken content r0 a0 r1 w1 a1 r2 w2 a2 : read_file_header (br_from_reader content) = Ok r0 ->
  what_next r0 = Ok (BlockHeader, a0) -> decode_block Checked a0 (mk_writer [] []) = (Ok r1, w1) ->
  what_next r1 = Ok (BlockHeader, a1) -> decode_block Checked a1 w1 = (Ok r2, w2) -> what_next r2 = Ok (StreamFooter, a2) ->
  let x := mk_dproc Checked DLooking in let e := mk_dproc Checked (DFinished ExitOk) in
  d_together content [x; x] (Some (write_more (write_more (write_more [] w1 w2) (mk_writer [] []) w1) w1 w2)) [e; e].
Proof.
  intros E0 E1 E2 E3 E4 E5 x e. set (a := mk_dproc Checked DAbsent). set (b := mk_dproc Checked (DDecoding r0 (mk_writer [] []))).
  set (b1 := mk_dproc Checked (DDecoding r1 w1)). set (b2 := mk_dproc Checked (DDecoding r2 w2)).
  pose proof (d_together_start content [x; x]) as T.
  pose proof (@d_together_step content _ None [] x [x] None a T (d_look content x eq_refl)) as T1. clear T.
  pose proof (@d_together_step content _ None [a] x [] None a T1 (d_look content x eq_refl)) as T2. clear T1.
  assert (forall f, d_step content f a (Some []) b) as HC.
  { intros f. pose proof (@d_create content a f eq_refl) as H. rewrite E0 in H. exact H. }
  assert (forall c, d_step content (Some c) b (Some (write_more c (mk_writer [] []) w1)) b1) as H1 by (intros c; exact (@d_block content b _ _ _ _ _ c eq_refl E1 E2)).
  assert (forall c, d_step content (Some c) b1 (Some (write_more c w1 w2)) b2) as H2 by (intros c; exact (@d_block content b1 _ _ _ _ _ c eq_refl E3 E4)).
  assert (forall c, d_step content (Some c) b2 (Some c) e) as H3 by (intros c; exact (@d_footer content b2 _ _ _ c eq_refl E5)).
  pose proof (@d_together_step content _ _ [] a [a] _ b T2 (HC _)) as T3. clear T2.
  pose proof (@d_together_step content _ _ [] b [a] _ b1 T3 (H1 _)) as T4. clear T3.
  pose proof (@d_together_step content _ _ [b1] a [] _ b T4 (HC _)) as T5. clear T4.
  pose proof (@d_together_step content _ _ [] b1 [b] _ b2 T5 (H2 _)) as T6. clear T5.
  pose proof (@d_together_step content _ _ [] b2 [b] _ e T6 (H3 _)) as T7. clear T6.
  pose proof (@d_together_step content _ _ [e] b [] _ b1 T7 (H1 _)) as T8. clear T7.
  pose proof (@d_together_step content _ _ [e] b1 [] _ b2 T8 (H2 _)) as T9. clear T8.
  exact (@d_together_step content _ _ [e] b2 [] _ e T9 (H3 _)).
Qed.
Lemma two_block_run : exists r0 a0 r1 w1 a1 r2 w2 a2, read_file_header (br_from_reader PropertiesRobust.two_blocks) = Ok r0 /\
  what_next r0 = Ok (BlockHeader, a0) /\ decode_block Checked a0 (mk_writer [] []) = (Ok r1, w1) /\
  what_next r1 = Ok (BlockHeader, a1) /\ decode_block Checked a1 w1 = (Ok r2, w2) /\ what_next r2 = Ok (StreamFooter, a2) /\
  w_out w1 = [97; 98; 99; 100; 101] /\ w_out w2 = [97; 98; 99; 100; 101; 120; 121; 122].
Proof.
  do 8 eexists. split; [vm_compute; reflexivity|]. split; [vm_compute; reflexivity|]. split; [vm_compute; reflexivity|]. split; [vm_compute; reflexivity|].
  split; [vm_compute; reflexivity|]. split; [vm_compute; reflexivity|]. split; reflexivity.
Qed.
Example C74_case : exists start c procs, length start = 2 /\ Forall (fun x => dp_phase x = DLooking) start /\
  d_together PropertiesRobust.two_blocks start (Some c) procs /\ Forall d_has_ended procs /\
  Forall (fun x => dp_phase x = DFinished ExitOk) procs /\ c = [97; 98; 99; 100; 101; 120; 121; 122].
Proof.
  destruct two_block_run as (r0 & a0 & r1 & w1 & a1 & r2 & w2 & a2 & E0 & E1 & E2 & E3 & E4 & E5 & O1 & O2).
  pose proof (@overtaken _ _ _ _ _ _ _ _ _ E0 E1 E2 E3 E4 E5) as HT. unfold write_more in HT. rewrite O1, O2 in HT. cbn [w_out] in HT.
  do 3 eexists. split; [|split; [|split; [exact HT|]]]; [reflexivity|repeat constructor|]. split; [|split; [repeat constructor|reflexivity]].
  constructor; [right; eexists; reflexivity|]. constructor; [right; eexists; reflexivity|constructor].
Qed.
Print Assumptions C74_right_output.
Print Assumptions C74_one_program.
Print Assumptions C74_goes_on.
Print Assumptions C74_ends.

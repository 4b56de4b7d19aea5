(** * Every interleaving of the threads refines the sequential encoder *)
From Verif Require Import Base BaseFacts Bitwise BitwiseFacts Rle RleFacts SpecRle Crc32 SymbolStatistics BlockEncoder
  SpecStream Stream StreamFacts RoundTripFacts EncodeFacts ReaderFacts Concurrency.

Section Refinement.
  Variables (p : profile) (st : strategy) (n : nat).
  Notation gen := (block_worker p st).

  (** a worker that owes the result of [w]; a worker without work *)
  Definition owes (k : worker) (w : work) : Prop :=
    k = mk_worker [w] None [] false \/ k = mk_worker [] (Some w) [] false \/
    (exists r, gen w = Ok r /\ k = mk_worker [] None [r] false) \/
    ((gen w = Err \/ gen w = Panic) /\ k = mk_worker [] None [] true).
  Definition state_of (k : worker) (g : option work) : Prop :=
    match g with Some w => owes k w | None => k = worker_init end.
  Definition is_some (g : option work) : bool := match g with Some _ => true | None => false end.

  (** [g] : what each worker owes; [ws]: the results still to be written, in order *)
  Definition placed (pc : main_pc) (g : list (option work)) (ws : list work) : Prop :=
    match pc with
    | MFill i => exists m, g = map Some ws ++ repeat None m /\ i = length ws
    | MFlush i => exists m, g = repeat None i ++ map Some ws ++ repeat None m
    | MEnd _ => True
    end.
  Definition good_work (w : work) : Prop := gen w <> NoFuel /\ (N.of_nat (length (snd w)) <= RLE_LIMIT + 5)%N.
  Definition good_items (k : worker) : Prop := Forall good_work (wk_queue k) /\ forall w, wk_busy k = Some w -> good_work w.
  Record inv (s : cstate) (g : list (option work)) (ws : list work) : Prop := {
    inv_len : length g = n;
    inv_workers : is_over (c_pc s) = false -> Forall2 state_of (c_workers s) g;
    inv_count : length (c_workers s) = n;
    inv_held : Forall (fun k => held k <= 1) (c_workers s);
    inv_items : Forall good_items (c_workers s);
    inv_done : c_pc s = MEnd (Ok tt) -> Forall (fun k => held k = 0) (c_workers s);
    inv_pending : is_over (c_pc s) = false -> c_pending s = map is_some g;
    inv_placed : placed (c_pc s) g ws;
    inv_good : Forall (fun o => forall w, o = Some w -> good_work w) g;
    inv_reader : reader_bytes (c_rd s);
    inv_start : c_pc s = MFill 0 -> c_fin s = false;
    inv_end : c_pc s <> MEnd NoFuel }.

  (** what the sequential encoder does from here on *)
  Definition cont_flush (fuel : nat) (fin : bool) (ws : list work) (rd : reader) (e : enc_state) : res unit * enc_state :=
    match flush_round p st ws e with
    | (Ok _, e) =>
        if fin then finish e
        else match encode_rounds fuel p n st rd e with
             | (Ok _, e) => finish e
             | other => other
             end
    | other => other
    end.
  Definition cont_fill (fuel : nat) (fin : bool) (ws : list work) (k : nat) (rd : reader) (e : enc_state) : res unit * enc_state :=
    match read_round k rd with
    | Ok (ws2, fin2, rd2) => cont_flush fuel (fin || fin2) (ws ++ ws2) rd2 e
    | NoFuel => (NoFuel, e)
    | _ => (Panic, e)
    end.
  Definition cont (fuel : nat) (s : cstate) (ws : list work) : res unit * enc_state :=
    match c_pc s with
    | MFill i => cont_fill fuel (c_fin s) ws (n - i) (c_rd s) (c_enc s)
    | MFlush _ => cont_flush fuel (c_fin s) ws (c_rd s) (c_enc s)
    | MEnd r => (r, c_enc s)
    end.
  Definition leads (s : cstate) (ws : list work) (R : res unit * enc_state) : Prop :=
    exists enough, forall fuel, enough <= fuel -> cont fuel s ws = R.

  (** the number of steps left *)
  Definition load (k : worker) : nat :=
    2 * length (wk_queue k) + match wk_busy k with Some _ => 1 | None => 0 end + (if wk_dead k then 0 else 1).
  Definition loads (ks : list worker) : nat := list_sum (map load ks).
  Definition potential (s : cstate) : nat :=
    match c_pc s with
    | MFill i =>
        (if c_fin s then 0 else (4 * n + 3) * (if i =? 0 then reader_size (c_rd s) else S (reader_size (c_rd s))))
        + 3 * (n - i) + 1 + (n + 2) + loads (c_workers s)
    | MFlush i =>
        (if c_fin s then 0 else (4 * n + 3) * S (reader_size (c_rd s))) + (n - i) + 2 + loads (c_workers s)
    | MEnd _ => loads (c_workers s)
    end.

  Lemma loads_app a b : loads (a ++ b) = loads a + loads b.
  Proof. unfold loads. rewrite map_app, list_sum_app. auto. Qed.
  Lemma loads_cons k b : loads (k :: b) = load k + loads b.
  Proof. reflexivity. Qed.

  Lemma nth_mid {A} (a b : list A) x i : i = length a -> nth_error (a ++ x :: b) i = Some x.
  Proof. intros ->. rewrite nth_error_app2, Nat.sub_diag by lia. reflexivity. Qed.
  Lemma update_mid {A} (a b : list A) y x i : i = length a -> update (a ++ y :: b) i x = Some (a ++ x :: b).
  Proof. intros ->. apply update_app_mid. Qed.

  (** ** steps of the workers *)
  Lemma worker_action_owes k w k' : owes k w -> worker_action gen false k = Some k' -> owes k' w.
  Proof.
    intros H E. destruct H as [->|[->|[(r & Er & ->)|(Er & ->)]]]; cbn [worker_action wk_dead wk_busy wk_queue wk_results] in E.
    - injection E as <-. right; left; auto.
    - destruct (gen w) as [r| | |] eqn:EG; try discriminate; injection E as <-.
      + right. right. left. exists r. auto.
      + right. right. right. auto.
      + right. right. right. auto.
    - discriminate.
    - discriminate.
  Qed.
  Lemma worker_action_load closed k k' : worker_action gen closed k = Some k' -> load k' < load k /\ held k' <= held k.
  Proof.
    destruct k as [q b r d]. unfold worker_action. cbn [wk_dead wk_busy wk_queue wk_results]. destruct d; [discriminate|]. cbn iota.
    unfold load, held. destruct b as [w|].
    - destruct (gen w) as [x| | |], closed; cbn iota; intros E; try discriminate E; injection E as <-;
        cbn [wk_queue wk_busy wk_dead wk_results]; rewrite ?app_length; cbn [length]; lia.
    - destruct q as [|w q], closed; cbn iota; intros E; try discriminate E; injection E as <-;
        cbn [wk_queue wk_busy wk_dead wk_results length]; lia.
  Qed.
  Lemma worker_action_items closed k k' : worker_action gen closed k = Some k' -> good_items k -> good_items k'.
  Proof.
    destruct k as [q b r d]. unfold worker_action, good_items. cbn [wk_dead wk_busy wk_queue wk_results]. destruct d; [discriminate|]. cbn iota.
    intros E (H1 & H2). destruct b as [w|].
    - destruct (gen w) as [x| | |], closed; cbn iota in E; try discriminate E; injection E as <-; cbn [wk_queue wk_busy]; split; auto; discriminate.
    - destruct q as [|w q], closed; cbn iota in E; try discriminate E; injection E as <-; cbn [wk_queue wk_busy]; split; auto; try discriminate.
      + apply Forall_cons_iff in H1. tauto.
      + intros w' E. injection E as <-. apply Forall_cons_iff in H1. tauto.
      + apply Forall_cons_iff in H1. tauto.
      + intros w' E. injection E as <-. apply Forall_cons_iff in H1. tauto.
  Qed.
  Lemma idle_held m : forall ks, Forall2 state_of ks (repeat None m) -> Forall (fun k => held k = 0) ks.
  Proof.
    induction m as [|m IH]; intros ks H; inversion H as [|k ? ks' ? Hk HF]; subst; constructor; auto.
    cbn [state_of] in Hk. subst k. reflexivity.
  Qed.
  Lemma owes_held k w : owes k w -> held k <= 1.
  Proof. intros [->|[->|[(r & Er & ->)|(Er & ->)]]]; cbn; lia. Qed.
  Lemma worker_step_inv closed i s s' g ws : inv s g ws -> (closed = true -> is_over (c_pc s) = true) ->
    worker_step gen closed i s = Some s' ->
    inv s' g ws /\ potential s' < potential s /\ forall R, leads s' ws R -> leads s ws R.
  Proof.
    intros HI HC E. unfold worker_step in E.
    destruct (nth_error (c_workers s) i) as [k|] eqn:EN; try discriminate.
    destruct (worker_action gen closed k) as [k'|] eqn:EA; try discriminate.
    destruct (nth_error_split _ _ EN) as (l1 & l2 & EW & L1).
    rewrite EW, update_mid in E by auto. injection E as <-.
    destruct HI as [H1 H2 H2a H2b H2d H2c H3 H4 H5 H6 H7 H8]. rewrite EW in H2, H2a, H2b, H2c, H2d.
    destruct (worker_action_load _ _ EA) as (HL & HH). split; [|split].
    - constructor; auto; cbn [c_workers c_pc].
      + intros EO. specialize (H2 EO). destruct closed; [rewrite HC in EO; [discriminate|auto]|].
        destruct (Forall2_app_inv_l _ _ H2) as (g1 & g2 & F1 & F2 & EG).
        inversion F2 as [|? y ? g2' Hy F3]; subst. apply Forall2_app; auto. constructor; auto.
        destruct y as [w|]; [eapply worker_action_owes; eauto|]. cbn [state_of] in Hy. subst k. discriminate.
      + rewrite <- H2a, !app_length. reflexivity.
      + apply Forall_app in H2b as (A & B). apply Forall_cons_iff in B as (B & C). apply Forall_app. split; auto.
        constructor; auto. lia.
      + apply Forall_app in H2d as (A & B). apply Forall_cons_iff in B as (B & C). apply Forall_app. split; auto.
        constructor; auto. eapply worker_action_items; eauto.
      + intros EP. specialize (H2c EP). apply Forall_app in H2c as (A & B). apply Forall_cons_iff in B as (B & C).
        apply Forall_app. split; auto. constructor; auto. lia.
    - unfold potential. cbn [c_pc c_fin c_rd c_workers]. rewrite EW, !loads_app, !loads_cons. destruct (c_pc s); lia.
    - intros R HR. exact HR.
  Qed.

  (** ** steps of the main thread *)
  Lemma write_res bits e r e' : write_or_panic bits e = (r, e') -> r = Ok tt \/ r = Panic.
  Proof.
    unfold write_or_panic. destruct (write_bits (en_bw e) bits) as [[[]| | |] bw]; intros E; injection E as <- <-; auto.
  Qed.
  Lemma finish_res e r e' : finish e = (r, e') -> r = Ok tt \/ r = Panic.
  Proof.
    unfold finish. destruct (write_or_panic _ e) as [r1 e1] eqn:E1. pose proof (write_res _ _ E1) as [-> | ->].
    - unfold bw_finalize. destruct (bw_pending (en_bw e1)); [intros E; injection E as <- _; auto|].
      destruct (w_write _ _) as [[x| | |] w'] eqn:EW; intros E; injection E as <- _; cbn [unwrap]; auto.
    - intros E. injection E as <- _. auto.
  Qed.

  Lemma work_good q : bytes q -> q <> [] -> (N.of_nat (length (coded q)) <= RLE_LIMIT + 5)%N -> good_work (work_of_fill (fill_of q false)).
  Proof.
    intros HB Hne HL. unfold good_work, block_worker. rewrite work_of_piece. cbn [piece_work fst snd]. split; [|exact HL].
    apply halts_block; [apply coded_bytes; auto|apply coded_nonempty; auto].
  Qed.
  Lemma work_fin q fin : work_of_fill (fill_of q fin) = work_of_fill (fill_of q false).
  Proof. rewrite !work_of_piece. auto. Qed.

  Lemma good_app g1 o g2 : Forall (fun o => forall w, o = Some w -> good_work w) (g1 ++ o :: g2) ->
    forall o', (forall w, o' = Some w -> good_work w) -> Forall (fun o => forall w, o = Some w -> good_work w) (g1 ++ o' :: g2).
  Proof.
    intros H o' Ho. apply Forall_app in H as (A & B). apply Forall_cons_iff in B as (_ & B).
    apply Forall_app. split; auto.
  Qed.

  (** what a step does to the blocks in flight: nothing, a block is read, or the first of them is written *)
  Definition moved (s s' : cstate) (ws ws' : list work) : Prop :=
    (ws' = ws /\ c_enc s' = c_enc s /\ c_rd s' = c_rd s) \/
    (exists f, fill_block (c_rd s) = Ok (f, c_rd s') /\ c_enc s' = c_enc s /\
       ws' = ws ++ match fl_buf f with [] => [] | _ => [work_of_fill f] end) \/
    (exists w bits crc e, ws = w :: ws' /\ gen w = Ok (bits, crc) /\ write_or_panic bits (c_enc s) = (Ok tt, e) /\
       c_enc s' = mk_enc (en_bw e) (update_total_crc crc (en_crc e)) /\ c_rd s' = c_rd s) \/
    is_over (c_pc s') = true.
  Ltac moves :=
    first [ solve [right; right; right; reflexivity]
          | solve [left; auto]
          | solve [right; left; eexists; split; [eassumption|]; cbn [c_enc fl_buf fill_of]; rewrite ?app_nil_r; auto]
          | solve [right; right; left; do 4 eexists; split; [reflexivity|]; split; [eassumption|]; split; [eassumption|]; auto] ].
  Lemma main_fill_inv i s s' g ws : inv s g ws -> c_pc s = MFill i -> main_step s = Some s' ->
    exists g' ws', (inv s' g' ws' /\ moved s s' ws ws') /\ (forall R, leads s' ws' R -> leads s ws R) /\
      (1 <= n -> r_tail_fail (c_rd s) = false -> potential s' < potential s /\ r_tail_fail (c_rd s') = false).
  Proof.
    intros HI EP E. destruct HI as [H1 H2 H2a H2b H2d H2c H3 H4 H5 H6 H7 H8]. unfold main_step in E. rewrite EP in *.
    destruct H4 as (m & EG & EI). try specialize (H2 eq_refl). pose proof (Forall2_len H2) as LW.
    specialize (H3 eq_refl).
    assert (n = i + m) as EN.
    { rewrite <- H1, EG, app_length, map_length, repeat_length. lia. }
    destruct m as [|m].
    - (* all workers have been served *)
      assert (nth_error (c_workers s) i = None) as EW by (apply nth_error_None; lia).
      rewrite EW in E. injection E as <-. exists g, ws. split; [split; [|moves]|split].
      + constructor; auto; cbn [c_pc c_fin c_rd c_workers c_pending]; try discriminate.
        exists 0. rewrite EG. reflexivity.
      + intros R (N0 & HR). exists N0. intros fuel Hf. rewrite <- (HR fuel Hf). unfold cont. rewrite EP. cbn [c_pc c_fin c_rd c_enc].
        replace (n - i) with 0 by lia. unfold cont_fill. cbn [read_round]. rewrite orb_false_r, app_nil_r. reflexivity.
      + intros Hn HT. cbn [c_rd]. split; auto. unfold potential. cbn [c_pc c_fin c_rd c_workers]. rewrite EP.
        replace (i =? 0) with false by (symmetry; apply Nat.eqb_neq; lia). destruct (c_fin s); lia.
    - cbn [repeat] in EG. rewrite EG in H2.
      destruct (Forall2_app_inv_r _ _ H2) as (l1 & l2 & F1 & F2 & EW).
      inversion F2 as [|k ? l2' ? Hk F3]; subst l2. cbn [state_of] in Hk. subst k.
      pose proof (Forall2_len F1) as L1. rewrite map_length in L1. pose proof H2a as K1. pose proof H2b as K2. pose proof H2d as K3. rewrite EW in K1, K2, K3.
      rewrite EW, nth_mid in E by lia.
      destruct (fill_block_any (c_rd s)) as (b & fin & rd' & EF & T & S1 & SL & S2 & S3).
      destruct (S2 H6) as (B1 & B2). rewrite EF in E. cbn [fill_of fl_finalize fl_buf] in E.
      assert (forall fuel k, cont_fill fuel (c_fin s) ws (S k) (c_rd s) (c_enc s) =
        match b with
        | [] => cont_flush fuel (c_fin s || fin) ws rd' (c_enc s)
        | _ => cont_fill fuel (c_fin s || fin) (ws ++ [work_of_fill (fill_of b fin)]) k rd' (c_enc s)
        end) as HC.
      { intros fuel k. unfold cont_fill. cbn [read_round]. rewrite EF. cbn [bind]. cbn [fill_of fl_finalize fl_buf].
        destruct b as [|x b].
        - rewrite app_nil_r. reflexivity.
        - destruct (read_round k rd') as [[[ws2 fin2] rd2]| | |]; cbn [bind]; auto.
          rewrite <- app_assoc, orb_assoc. reflexivity. }
      destruct b as [|x b].
      + injection E as <-. exists g, ws. split; [split; [|moves]|split].
        * constructor; auto; cbn [c_pc c_fin c_rd c_workers c_pending]; try discriminate.
          -- intros _. rewrite EG; try rewrite <- EW; exact H2.
          -- exists (S m). rewrite EG. reflexivity.
        * intros R (N0 & HR). exists N0. intros fuel Hf. rewrite <- (HR fuel Hf). unfold cont. rewrite EP. cbn [c_pc c_fin c_rd c_enc].
          replace (n - i) with (S m) by lia. apply HC.
        * intros Hn HT. cbn [c_rd]. split; [|congruence]. unfold potential. cbn [c_pc c_fin c_rd c_workers]. rewrite EP.
          specialize (S3 HT). destruct S3 as [->|S3].
          -- rewrite orb_true_r. rewrite EW. lia.
          -- destruct (c_fin s), fin; cbn [orb]; rewrite ?EW; try lia.
             destruct (i =? 0) eqn:EI0; nia.
      + cbn [worker_init wk_dead wk_queue wk_busy wk_results app] in E.
        assert (c_pending s = map is_some (map Some ws) ++ false :: map is_some (repeat None m)) as EPend.
        { rewrite H3, EG, map_app. reflexivity. }
        rewrite EPend, update_mid in E by (rewrite !map_length; auto).
        rewrite update_mid in E by lia. injection E as <-.
        set (w := work_of_fill (fill_of (x :: b) fin)) in *.
        exists (map Some ws ++ Some w :: repeat None m), (ws ++ [w]). split; [split; [|moves]|split].
        * constructor; cbn [c_pc c_fin c_rd c_workers c_pending]; auto; try discriminate.
          -- rewrite <- H1, EG, !app_length. reflexivity.
          -- intros _. apply Forall2_app; auto. constructor; auto. cbn [state_of]. left. reflexivity.
          -- rewrite <- K1, !app_length. reflexivity.
          -- apply Forall_app in K2 as (A & B). apply Forall_cons_iff in B as (B & C). apply Forall_app. split; auto.
          -- apply Forall_app in K3 as (A & B). apply Forall_cons_iff in B as (B & C). apply Forall_app. split; auto.
             constructor; auto. split; [|discriminate]. constructor; [|constructor]. unfold w. rewrite work_fin. apply work_good; auto. discriminate.
          -- intros _. rewrite map_app. reflexivity.
          -- exists m. rewrite map_app, <- app_assoc, app_length. cbn [length app]. split; auto. lia.
          -- rewrite EG in H5. eapply good_app; [exact H5|]. intros w' Ew. injection Ew as <-. unfold w.
             rewrite work_fin. apply work_good; auto. discriminate.
        * intros R (N0 & HR). exists N0. intros fuel Hf. rewrite <- (HR fuel Hf). unfold cont. rewrite EP. cbn [c_pc c_fin c_rd c_enc].
          replace (n - i) with (S m) by lia. replace (n - S i) with m by lia. apply HC.
        * intros Hn HT. cbn [c_rd]. split; [|congruence]. unfold potential. cbn [c_pc c_fin c_rd c_workers]. rewrite EP, EW.
          rewrite !loads_app, !loads_cons. change (load worker_init) with 1.
          change (load (mk_worker [w] None [] false)) with 3. cbn [Nat.eqb].
          specialize (S3 HT). destruct S3 as [->|S3].
          -- rewrite orb_true_r. lia.
          -- destruct (c_fin s), fin; cbn [orb]; try lia. destruct (i =? 0) eqn:EI0; nia.
  Qed.

  Lemma main_flush_inv i s s' g ws : inv s g ws -> c_pc s = MFlush i -> main_step s = Some s' ->
    exists g' ws', (inv s' g' ws' /\ moved s s' ws ws') /\ (forall R, leads s' ws' R -> leads s ws R) /\
      (r_tail_fail (c_rd s) = false -> potential s' < potential s /\ r_tail_fail (c_rd s') = false).
  Proof.
    intros HI EP E. destruct HI as [H1 H2 H2a H2b H2d H2c H3 H4 H5 H6 H7 H8]. unfold main_step in E. rewrite EP in *.
    destruct H4 as (m & EG). try specialize (H2 eq_refl). pose proof (Forall2_len H2) as LW. specialize (H3 eq_refl).
    destruct ws as [|w ws].
    - destruct m as [|m].
      + (* end of the round *)
        cbn [map app repeat] in EG. rewrite app_nil_r in EG.
        assert (i = n) as -> by (rewrite <- H1, EG, repeat_length; auto).
        assert (nth_error (c_workers s) n = None) as EW by (apply nth_error_None; lia).
        rewrite EW in E. destruct (c_fin s) eqn:EF.
        * destruct (finish (c_enc s)) as [r e] eqn:EFin. injection E as <-. exists g, []. split; [split; [|moves]|split].
          -- constructor; auto; cbn [c_pc c_fin c_rd c_workers c_pending placed]; try discriminate; auto.
             ++ intros _. rewrite EG in H2. eapply idle_held; exact H2.
             ++ destruct (finish_res _ EFin) as [-> | ->]; discriminate.
          -- intros R (N0 & HR). exists N0. intros fuel Hf. rewrite <- (HR fuel Hf). unfold cont. rewrite EP, EF.
             unfold cont_flush. cbn [flush_round c_pc c_enc]. exact EFin.
          -- intros HT. cbn [c_rd]. split; auto. unfold potential. cbn [c_pc c_workers]. rewrite EP. lia.
        * injection E as <-. exists g, []. split; [split; [|moves]|split].
          -- constructor; auto; cbn [c_pc c_fin c_rd c_workers c_pending]; try discriminate; auto.
             exists n. auto.
          -- intros R (N0 & HR). exists (S N0). intros fuel Hf. destruct fuel as [|fuel]; [lia|].
             rewrite <- (HR fuel ltac:(lia)). unfold cont. rewrite EP, EF. cbn [c_pc c_fin c_rd c_enc].
             unfold cont_flush, cont_fill. cbn [flush_round]. rewrite Nat.sub_0_r. cbn [encode_rounds app orb].
             destruct (read_round n (c_rd s)) as [[[ws2 fin2] rd2]| | |]; auto. unfold cont_flush.
             destruct (flush_round p st ws2 (c_enc s)) as [[u| | |] e]; auto. destruct fin2; auto.
          -- intros HT. cbn [c_rd]. split; auto. unfold potential. cbn [c_pc c_fin c_rd c_workers]. rewrite EP, EF.
             cbn [Nat.eqb]. lia.
      + (* a worker without work is skipped *)
        cbn [map app repeat] in EG. rewrite EG in H2.
        destruct (Forall2_app_inv_r _ _ H2) as (l1 & l2 & F1 & F2 & EW).
        inversion F2 as [|k ? l2' ? Hk F3]; subst l2. cbn [state_of] in Hk. subst k.
        pose proof (Forall2_len F1) as L1. rewrite repeat_length in L1. pose proof H2a as K1. pose proof H2b as K2. pose proof H2d as K3. rewrite EW in K1, K2, K3.
        rewrite EW, nth_mid in E by lia.
        rewrite H3, EG, map_app in E. cbn [map is_some] in E. rewrite nth_mid in E by (rewrite map_length, repeat_length; auto).
        injection E as <-. exists g, []. split; [split; [|moves]|split].
        * constructor; auto; cbn [c_pc c_fin c_rd c_workers c_pending]; try discriminate; auto.
          -- intros _. rewrite EG; try rewrite <- EW; exact H2.
          -- intros _. rewrite EG, map_app. reflexivity.
          -- exists m. rewrite EG. cbn [map app]. replace (S i) with (i + 1) by lia. rewrite repeat_app, <- app_assoc. reflexivity.
        * intros R (N0 & HR). exists N0. intros fuel Hf. rewrite <- (HR fuel Hf). unfold cont. rewrite EP. reflexivity.
        * intros HT. cbn [c_rd]. split; auto. unfold potential. cbn [c_pc c_fin c_rd c_workers]. rewrite EP, EW.
          assert (i < n) by (rewrite <- H1, EG, app_length, repeat_length; cbn [length]; lia). destruct (c_fin s); lia.
    - cbn [map app] in EG. rewrite EG in H2.
      destruct (Forall2_app_inv_r _ _ H2) as (l1 & l2 & F1 & F2 & EW).
      inversion F2 as [|k ? l2' ? Hk F3]; subst l2. cbn [state_of] in Hk.
      pose proof (Forall2_len F1) as L1. rewrite repeat_length in L1. pose proof H2a as K1. pose proof H2b as K2. pose proof H2d as K3. rewrite EW in K1, K2, K3.
      assert (c_pending s = map is_some (repeat None i) ++ true :: map is_some (map Some ws ++ repeat None m)) as EPend.
      { rewrite H3, EG, map_app. reflexivity. }
      rewrite EW, nth_mid in E by lia. rewrite EPend, nth_mid in E by (rewrite map_length, repeat_length; auto).
      assert (i < n) as Hin by (rewrite <- H1, EG, app_length, repeat_length; cbn [length]; lia).
      destruct Hk as [->|[->|[(r & Er & ->)|(Er & ->)]]]; cbn [wk_results wk_dead wk_queue wk_busy] in E; try discriminate.
      + destruct r as [bits crc]. destruct (write_or_panic bits (c_enc s)) as [r1 e1] eqn:EWr.
        unfold block_worker in Er. destruct w as [c d]. cbn [fst snd] in Er.
        destruct (write_res _ _ EWr) as [-> | ->].
        * rewrite update_mid in E by (rewrite map_length, repeat_length; auto).
          rewrite update_mid in E by lia. injection E as <-.
          exists (repeat None i ++ None :: map Some ws ++ repeat None m), ws. split; [split; [|moves]|split].
          -- constructor; cbn [c_pc c_fin c_rd c_workers c_pending]; auto; try discriminate.
             ++ rewrite <- H1, EG, !app_length. reflexivity.
             ++ intros _. apply Forall2_app; auto. constructor; auto. reflexivity.
             ++ rewrite <- K1, !app_length. reflexivity.
             ++ apply Forall_app in K2 as (A & B). apply Forall_cons_iff in B as (B & C). apply Forall_app. split; auto.
             ++ apply Forall_app in K3 as (A & B). apply Forall_cons_iff in B as (B & C). apply Forall_app. split; auto.
             ++ intros _. rewrite !map_app. cbn [map is_some]. rewrite ?map_app. reflexivity.
             ++ exists m. replace (S i) with (i + 1) by lia. rewrite repeat_app, <- app_assoc. reflexivity.
             ++ rewrite EG in H5. eapply good_app; [exact H5|]. discriminate.
          -- intros R (N0 & HR). exists N0. intros fuel Hf. rewrite <- (HR fuel Hf). unfold cont. rewrite EP.
             cbn [c_pc c_fin c_rd c_enc]. unfold cont_flush. cbn [flush_round]. rewrite Er, EWr. reflexivity.
          -- intros HT. cbn [c_rd]. split; auto. unfold potential. cbn [c_pc c_fin c_rd c_workers]. rewrite EP, EW.
             rewrite !loads_app, !loads_cons. unfold load. cbn [wk_queue wk_busy wk_dead length]. destruct (c_fin s); lia.
        * injection E as <-. exists g, (((c, d) :: ws)). split; [split; [|moves]|split].
          -- constructor; auto; cbn [c_pc c_fin c_rd c_workers c_pending placed]; try discriminate; auto.

          -- intros R (N0 & HR). exists N0. intros fuel Hf. rewrite <- (HR fuel Hf). unfold cont. rewrite EP.
             cbn [c_pc c_fin c_rd c_enc]. unfold cont_flush. cbn [flush_round]. rewrite Er, EWr. reflexivity.
          -- intros HT. cbn [c_rd]. split; auto. unfold potential. cbn [c_pc c_fin c_rd c_workers]. rewrite EP. rewrite EW. lia.
      + injection E as <-. exists g, (w :: ws). split; [split; [|moves]|split].
        * constructor; auto; cbn [ended c_pc c_fin c_rd c_workers c_pending placed]; try discriminate; auto.

        * intros R (N0 & HR). exists N0. intros fuel Hf. rewrite <- (HR fuel Hf). unfold cont, ended. rewrite EP.
          cbn [c_pc c_fin c_rd c_enc]. unfold cont_flush. destruct w as [c d]. cbn [flush_round].
          unfold block_worker in Er. cbn [fst snd] in Er. destruct Er as [-> | ->]; reflexivity.
        * intros HT. unfold ended. cbn [c_rd]. split; auto. unfold potential. cbn [c_pc c_workers]. rewrite EP. lia.
  Qed.

  Lemma worker_step_same closed i s s' : worker_step gen closed i s = Some s' ->
    c_enc s' = c_enc s /\ c_rd s' = c_rd s /\ c_pc s' = c_pc s.
  Proof.
    intros E. unfold worker_step in E. destruct (nth_error _ i) as [k|]; try discriminate.
    destruct (worker_action gen closed k); try discriminate. destruct (update _ i _); try discriminate. injection E as <-. auto.
  Qed.
  Theorem step_inv s s' g ws : inv s g ws -> cstep gen s s' ->
    exists g' ws', (inv s' g' ws' /\ moved s s' ws ws') /\ (forall R, leads s' ws' R -> leads s ws R) /\
      (1 <= n -> r_tail_fail (c_rd s) = false -> potential s' < potential s /\ r_tail_fail (c_rd s') = false).
  Proof.
    intros HI [E|(i & closed & HO & E)].
    - destruct (c_pc s) as [i|i|r] eqn:EP.
      + eapply main_fill_inv; eauto.
      + destruct (main_flush_inv HI EP E) as (g' & ws' & A & B & C). exists g', ws'. auto.
      + unfold main_step in E. rewrite EP in E. discriminate.
    - destruct (worker_step_inv _ HI HO E) as (A & B & C). exists g, ws. split; [split; auto; left; apply worker_step_same in E; tauto|]. split; auto.
      intros Hn HT. split; auto. unfold worker_step in E.
      destruct (nth_error _ i) as [k|]; try discriminate. destruct (worker_action gen closed k); try discriminate.
      destruct (update _ i _); try discriminate. injection E as <-. exact HT.
  Qed.

  (** ** no deadlock *)
  Theorem inv_progress s g ws : inv s g ws -> (exists r, c_pc s = MEnd r) \/ exists s', cstep gen s s'.
  Proof.
    intros [H1 H2 H2a H2b H2d H2c H3 H4 H5 H6 H7 H8]. destruct (c_pc s) as [i|i|r] eqn:EP; [right|right|left; eauto].
    - destruct (main_step s) as [s'|] eqn:E; [exists s'; left; auto|]. exfalso.
      unfold main_step in E. rewrite EP in E. destruct (nth_error (c_workers s) i) as [k|]; try discriminate.
      destruct (fill_block (c_rd s)) as [[f rd]| | |]; try discriminate.
      destruct (fl_buf f); try discriminate. destruct (wk_dead k); try discriminate.
      destruct (update _ i true); try discriminate. destruct (update _ i _); discriminate.
    - destruct (main_step s) as [s'|] eqn:E; [exists s'; left; auto|].
      (* blocked on a worker that owes a result *)
      unfold main_step in E. rewrite EP in E.
      destruct (nth_error (c_workers s) i) as [k|] eqn:EN.
      2: { destruct (c_fin s); try discriminate. destruct (finish _); discriminate. }
      destruct (nth_error (c_pending s) i) as [[|]|] eqn:EPe; try discriminate.
      2: { destruct (c_fin s); try discriminate. destruct (finish _); discriminate. }
      destruct (wk_results k) as [|[bits c] rs] eqn:ER.
      2: { destruct (write_or_panic bits _) as [[u| | |] e]; try discriminate.
           destruct (update _ i _); try discriminate. destruct (update _ i _); discriminate. }
      destruct (wk_dead k) eqn:ED; try discriminate.
      destruct (nth_error_split _ _ EN) as (l1 & l2 & EW & L1). specialize (H2 eq_refl). rewrite EW in H2.
      destruct (Forall2_app_inv_l _ _ H2) as (g1 & g2 & F1 & F2 & EG).
      inversion F2 as [|? y ? g2' Hy F3]; subst.
      rewrite (H3 eq_refl) in EPe. pose proof (Forall2_len F1) as L1. rewrite map_app in EPe. cbn [map] in EPe.
      rewrite nth_mid in EPe by (rewrite map_length; auto). injection EPe as EPe.
      destruct y as [w|]; [|discriminate]. cbn [state_of] in Hy.
      assert (good_work w) as GW.
      { rewrite Forall_forall in H5. eapply H5; [|reflexivity]. apply in_or_app. right. left. auto. }
      assert (exists k', worker_action gen false k = Some k') as (k' & EK).
      { destruct Hy as [->|[->|[(r & Er & ->)|(Er & ->)]]]; cbn [wk_dead wk_results] in *; try discriminate.
        - eexists. reflexivity.
        - unfold worker_action. cbn [wk_dead wk_busy]. destruct GW as (GW & _).
          destruct (gen w); try (eexists; reflexivity). congruence. }
      eexists. right. exists (length l1), false. split; [discriminate|]. unfold worker_step. rewrite EN, EK, EW, update_mid by auto. reflexivity.
  Qed.

  (** ** runs *)
  Definition start (rd : reader) (w : writer) : cstate := cinit n rd w.

  Lemma start_inv rd w : reader_bytes rd -> inv (start rd w) (repeat None n) [].
  Proof.
    intros HB. unfold start, cinit. destruct (write_or_panic file_header _) as [r e] eqn:E.
    constructor; cbn [c_pc c_fin c_rd c_workers c_pending]; auto.
    - apply repeat_length.
    - intros _. clear. induction n as [|k IH]; cbn [repeat]; constructor; auto. reflexivity.
    - apply repeat_length.
    - apply Forall_forall. intros k Hk. apply repeat_spec in Hk as ->. cbn. lia.
    - apply Forall_forall. intros k Hk. apply repeat_spec in Hk as ->. split; [constructor|discriminate].
    - intros _. apply Forall_forall. intros k Hk. apply repeat_spec in Hk as ->. reflexivity.
    - intros _. clear. induction n as [|k IH]; cbn [repeat map]; f_equal; auto.
    - destruct (write_res _ _ E) as [-> | ->]; cbn [placed]; auto. exists n. auto.
    - apply Forall_forall. intros o Ho w' ->. apply repeat_spec in Ho. discriminate.
    - destruct (write_res _ _ E) as [-> | ->]; discriminate.
  Qed.
  Lemma start_leads rd w R : leads (start rd w) [] R ->
    encode_returns p rd w n st (fst R, bw_sink (en_bw (snd R))).
  Proof.
    intros (N0 & H). exists (S N0). intros fuel Hf. destruct fuel as [|fuel]; [lia|]. specialize (H fuel ltac:(lia)).
    unfold encode_stream. unfold start, cinit, cont in H.
    destruct (write_or_panic file_header (mk_enc (bw_from_writer w) 0)) as [r e].
    destruct r as [u| | |]; cbn [c_pc c_enc c_fin c_rd] in H; try (subst R; reflexivity).
    rewrite Nat.sub_0_r in H. unfold cont_fill in H. cbn [encode_rounds].
    destruct (read_round n rd) as [[[ws2 fin2] rd2]| | |]; try (subst R; reflexivity).
    cbn [app orb] in H. unfold cont_flush in H.
    assert (forall e, match write_or_panic (stream_footer (en_crc e)) e with
      | (Ok _, e0) => let (result, bw) := bw_finalize (en_bw e0) in (unwrap result, bw_sink bw)
      | (result, e0) => (result, bw_sink (en_bw e0)) end = (fst (finish e), bw_sink (en_bw (snd (finish e))))) as GF.
    { intros e'. unfold finish. destruct (write_or_panic _ e') as [[?| | |] e1]; auto.
      destruct (bw_finalize (en_bw e1)) as [rr bw]. reflexivity. }
    destruct (flush_round p st ws2 e) as [[u2| | |] e2]; try (subst R; reflexivity).
    destruct fin2.
    - rewrite GF. subst R. reflexivity.
    - destruct (encode_rounds fuel p n st rd2 e2) as [[u3| | |] e3]; try (subst R; reflexivity).
      rewrite GF. subst R. reflexivity.
  Qed.

  Lemma run_inv k s s' : crun gen k s s' -> forall g ws, inv s g ws ->
    exists g' ws', inv s' g' ws' /\ (forall R, leads s' ws' R -> leads s ws R) /\
      (1 <= n -> r_tail_fail (c_rd s) = false -> potential s' + k <= potential s /\ r_tail_fail (c_rd s') = false).
  Proof.
    induction 1 as [s|k s s1 s2 HS HR IH]; intros g ws HI.
    - exists g, ws. split; auto. split; auto. intros; split; auto. lia.
    - destruct (step_inv HI HS) as (g1 & ws1 & (I1 & _) & L1 & P1). destruct (IH g1 ws1 I1) as (g2 & ws2 & I2 & L2 & P2).
      exists g2, ws2. split; auto. split; auto. intros Hn HT. destruct (P1 Hn HT) as (A & B). destruct (P2 Hn B) as (C & D).
      split; auto. lia.
  Qed.
  Lemma run_app a s1 s2 : crun gen a s1 s2 -> forall b s3, crun gen b s2 s3 -> crun gen (a + b) s1 s3.
  Proof. induction 1; intros b s3 H3; auto. cbn [Nat.add]. econstructor; eauto. Qed.

  Theorem run_ends k rd w s r : reader_bytes rd -> crun gen k (start rd w) s -> c_pc s = MEnd r ->
    encode_returns p rd w n st (r, bw_sink (en_bw (c_enc s))) /\ r <> NoFuel.
  Proof.
    intros HB HR EP. destruct (run_inv HR (start_inv w HB)) as (g & ws & I & L & _). split.
    - apply (@start_leads rd w (r, c_enc s)). apply L. exists 0. intros fuel _. unfold cont. rewrite EP. reflexivity.
    - intros ->. apply (inv_end I). auto.
  Qed.
  Theorem run_progress k rd w s : reader_bytes rd -> crun gen k (start rd w) s ->
    (exists r, c_pc s = MEnd r) \/ exists s', cstep gen s s'.
  Proof. intros HB HR. destruct (run_inv HR (start_inv w HB)) as (g & ws & I & _). eapply inv_progress; eauto. Qed.
  Theorem run_bounded rd w : reader_bytes rd -> 1 <= n -> r_tail_fail rd = false ->
    forall k s, crun gen k (start rd w) s -> k <= (4 * n + 3) * S (reader_size rd) + n.
  Proof.
    intros HB Hn HT k s HR. destruct (run_inv HR (start_inv w HB)) as (g & ws & I & _ & P).
    assert (c_rd (start rd w) = rd) as ER by (unfold start, cinit; destruct (write_or_panic _ _); reflexivity).
    rewrite ER in P. destruct (P Hn HT) as (A & _).
    assert (potential (start rd w) <= (4 * n + 3) * S (reader_size rd) + n) as HP; [|lia].
    unfold start, cinit, potential. destruct (write_or_panic file_header _) as [r e].
    assert (loads (repeat worker_init n) = n) as HL.
    { clear. induction n as [|k IH]; [reflexivity|]. cbn [repeat]. rewrite loads_cons, IH. reflexivity. }
    destruct r; cbn [c_pc c_fin c_rd c_workers]; rewrite HL; cbn [Nat.eqb]; lia.
  Qed.
  (** ** what the workers hold *)
  Theorem run_held k rd w s : reader_bytes rd -> crun gen k (start rd w) s ->
    length (c_workers s) = n /\ Forall (fun x => held x <= 1) (c_workers s) /\
    Forall (fun x => Forall (fun y => N.of_nat (length (snd y)) <= 900005)%N (wk_queue x ++ match wk_busy x with Some y => [y] | None => [] end)) (c_workers s) /\
    (c_pc s = MEnd (Ok tt) -> Forall (fun x => held x = 0) (c_workers s)).
  Proof.
    intros HB HR. destruct (run_inv HR (start_inv w HB)) as (g & ws & I & _).
    split; [apply (inv_count I)|]. split; [apply (inv_held I)|]. split; [|apply (inv_done I)].
    eapply Forall_impl; [|apply (inv_items I)]. intros x (A & B). apply Forall_app. split.
    - eapply Forall_impl; [|exact A]. intros y (_ & H). exact H.
    - destruct (wk_busy x) as [y|]; constructor; auto. apply (B y eq_refl).
  Qed.
  (** ** as long as a thread has not ended something can move *)
  Theorem run_moves k rd w s : reader_bytes rd -> crun gen k (start rd w) s ->
    ~ Forall (fun x => wk_dead x = true) (c_workers s) -> exists s', cstep gen s s'.
  Proof.
    intros HB HR HN. destruct (run_inv HR (start_inv w HB)) as (g & ws & I & _).
    destruct (inv_progress I) as [(r & EP)|]; auto.
    assert (exists x, In x (c_workers s) /\ wk_dead x = false) as (x & Hx & ED).
    { destruct (forallb (fun x => wk_dead x) (c_workers s)) eqn:EF.
      - exfalso. apply HN, Forall_forall. rewrite forallb_forall in EF. exact EF.
      - revert EF. clear. induction (c_workers s) as [|x l IH]; cbn [forallb]; [discriminate|].
        destruct (wk_dead x) eqn:E; [intros H; destruct (IH H) as (y & A & B); exists y; split; auto; right; auto|].
        intros _. exists x. split; auto. left; auto. }
    pose proof (inv_items I) as HG. rewrite Forall_forall in HG. destruct (HG x Hx) as (_ & HB1).
    apply In_nth_error in Hx as (i & EN).
    assert (exists k', worker_action gen true x = Some k') as (k' & EA).
    { unfold worker_action. rewrite ED. destruct (wk_busy x) as [y|].
      - specialize (HB1 y eq_refl). destruct HB1 as (HB1 & _). destruct (gen y); eauto. congruence.
      - destruct (wk_queue x); eauto. }
    destruct (nth_error_split _ _ EN) as (l1 & l2 & EW & L1).
    exists (mk_c (c_pc s) (c_rd s) (c_fin s) (c_pending s) (c_enc s) (l1 ++ k' :: l2)).
    right. exists i, true. split; [rewrite EP; auto|]. unfold worker_step. rewrite EN, EA, EW, update_mid by auto. reflexivity.
  Qed.
  Theorem run_stuck k rd w s : reader_bytes rd -> crun gen k (start rd w) s -> (forall s', ~ cstep gen s s') ->
    (exists r, c_pc s = MEnd r) /\ Forall (fun x => wk_dead x = true) (c_workers s).
  Proof.
    intros HB HR HN. destruct (run_progress w HB HR) as [(r & EP)|(s' & E)]; [|exfalso; apply (HN _ E)]. split; eauto.
    destruct (forallb (fun x => wk_dead x) (c_workers s)) eqn:EF.
    - apply Forall_forall. rewrite forallb_forall in EF. exact EF.
    - exfalso. destruct (@run_moves k rd w s HB HR) as (s' & E); [|apply (HN _ E)]. intros HF.
      rewrite <- Bool.not_true_iff_false in EF. apply EF, forallb_forall. rewrite Forall_forall in HF. exact HF.
  Qed.
  (** some run reaches the end *)
  Theorem run_exists rd w : reader_bytes rd -> 1 <= n -> r_tail_fail rd = false ->
    exists k s r, crun gen k (start rd w) s /\ c_pc s = MEnd r.
  Proof.
    intros HB Hn HT.
    assert (forall m k s, crun gen k (start rd w) s -> (4 * n + 3) * S (reader_size rd) + n <= k + m ->
      exists k s r, crun gen k (start rd w) s /\ c_pc s = MEnd r) as G.
    { induction m as [|m IH]; intros k s HR HM.
      - destruct (run_progress w HB HR) as [(r & E)|(s' & E)]; [eauto|].
        assert (crun gen (k + 1) (start rd w) s') as HR'.
        { eapply run_app; [exact HR|]. econstructor; [exact E|constructor]. }
        apply (@run_bounded _ w HB Hn HT) in HR'. lia.
      - destruct (run_progress w HB HR) as [(r & E)|(s' & E)]; [eauto|].
        apply (IH (k + 1) s'); [|lia]. eapply run_app; [exact HR|]. econstructor; [exact E|constructor]. }
    apply (G ((4 * n + 3) * S (reader_size rd) + n) 0 (start rd w)); [constructor|lia].
  Qed.
End Refinement.

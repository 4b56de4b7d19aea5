(** * The block sort with its steps counted (lib/src/block/bwt)

    Every definition is the one of Sais.v or Bwt.v with the same name without [c_], with the
    steps of Cost.v counted; BwtCostFacts.v proves that the results are the same. *)
From Verif Require Import Base Sais Bwt Cost.

Definition c_get {A} (l : list A) (i : nat) : counted A := step (get_at l i).
Definition c_set {A} (l : list A) (i : nat) (x : A) : counted (list A) := step (set_at l i x).
(** [vec![x; k]] *)
Definition c_new {A} (x : A) (k : nat) : counted (list A) := takes k (Ok (repeat x k)).

(** sais.rs:273-281 *)
Definition c_suffix_type_step (text : list nat) (types : list suffix_type) (i : nat)
  : counted (list suffix_type) :=
  let? a := c_get text i in
  let? b := c_get text (i + 1) in
  match Nat.compare a b with
  | Lt => c_set types i TS
  | Eq => let? t := c_get types (i + 1) in c_set types i t
  | Gt => c_set types i TL
  end.

(** sais.rs:263-283 *)
Definition c_get_suffix_types (text : list nat) : counted (list suffix_type) :=
  let n := length text in
  let? types := c_new TL (n + 1) in
  let? types := step (Ok (types ++ [TS])) in
  if n =? 0 then done types else
  let? types := c_set types (n - 1) TL in
  cfold (c_suffix_type_step text) (rev (seq 0 (n - 1))) types.

(** sais.rs:255-261 *)
Definition c_bucket_size_step (sizes : list nat) (character : nat) : counted (list nat) :=
  let? k := c_get sizes character in c_set sizes character (k + 1).
Definition c_get_bucket_sizes (text : list nat) (alphabet_size : nat) : counted (list nat) :=
  let? sizes := c_new 0 alphabet_size in cfold c_bucket_size_step text sizes.

(** sais.rs:234-253: the vector is created, then filled in a loop with one read and one
    write per entry *)
Definition c_get_bucket_tails (sizes : list nat) : counted (list nat) :=
  takes (4 * length sizes) (Ok (get_bucket_tails sizes)).
Definition c_get_bucket_heads (sizes : list nat) : counted (list nat) :=
  takes (4 * length sizes) (Ok (get_bucket_heads sizes)).

(** sais.rs:226-232 *)
Definition c_is_lms_character (index : nat) (types : list suffix_type) : counted bool :=
  match index with
  | O => done false
  | S prev =>
      let? t := c_get types index in
      if type_eqb t TS
      then let? t' := c_get types prev in done (type_eqb t' TL)
      else done false
  end.

(** sais.rs:155-156, 204-205, 221-222; [bucket_tails[c] -= 1] reads and writes *)
Definition c_place_at_tail (st : list (option nat) * list nat) (c v : nat)
  : counted (list (option nat) * list nat) :=
  let (sa, tails) := st in
  let? t := c_get tails c in
  let? sa' := c_set sa t (Some v) in
  steps 1
  match t with
  | O => (Panic, 0)
  | S t' => let? tails' := c_set tails c t' in done (sa', tails')
  end.

(** sais.rs:181-182 *)
Definition c_place_at_head (st : list (option nat) * list nat) (c v : nat)
  : counted (list (option nat) * list nat) :=
  let (sa, heads) := st in
  let? h := c_get heads c in
  let? sa' := c_set sa h (Some v) in
  let? heads' := steps 1 (c_set heads c (h + 1)) in
  done (sa', heads').

(** sais.rs:191-207 *)
Definition c_identify_step (text : list nat) (types : list suffix_type)
  (st : list (option nat) * list nat) (i : nat) : counted (list (option nat) * list nat) :=
  let? lms := c_is_lms_character i types in
  if lms then let? c := c_get text i in steps 1 (c_place_at_tail st c i) else done st.

Definition c_identify_lms_characters (sa : list (option nat)) (text : list nat)
  (types : list suffix_type) (sizes : list nat) : counted (list (option nat)) :=
  let? sa := c_set sa 0 (Some (length text)) in
  let? tails := c_get_bucket_tails sizes in
  let? (sa, _) := cfold (c_identify_step text types) (rev (seq 0 (length text))) (sa, tails) in
  done sa.

(** sais.rs:172-188; [text[j]] is read twice *)
Definition c_induce_l_step (text : list nat) (types : list suffix_type)
  (st : list (option nat) * list nat) (i : nat) : counted (list (option nat) * list nat) :=
  let? e := c_get (fst st) i in
  match e with
  | Some (S j) =>
      let? t := c_get types j in
      if type_eqb t TL
      then let? c := c_get text j in steps 1 (c_place_at_head st c j)
      else done st
  | _ => done st
  end.

(** sais.rs:165-189 *)
Definition c_induction_sort_l (sa : list (option nat)) (text : list nat)
  (types : list suffix_type) (sizes : list nat) : counted (list (option nat)) :=
  let? heads := c_get_bucket_heads sizes in
  let? (sa, _) := cfold (c_induce_l_step text types) (seq 0 (length sa)) (sa, heads) in
  done sa.

(** sais.rs:137-163 *)
Definition c_induce_s_step (text : list nat) (types : list suffix_type)
  (st : list (option nat) * list nat) (i : nat) : counted (list (option nat) * list nat) :=
  let? e := c_get (fst st) i in
  match e with
  | Some (S j) =>
      let? t := c_get types j in
      if type_eqb t TS
      then let? c := c_get text j in steps 1 (c_place_at_tail st c j)
      else done st
  | _ => done st
  end.

Definition c_induction_sort_s (sa : list (option nat)) (text : list nat)
  (types : list suffix_type) (sizes : list nat) : counted (list (option nat)) :=
  let? tails := c_get_bucket_tails sizes in
  let? (sa, _) := cfold (c_induce_s_step text types) (rev (seq 0 (length sa))) (sa, tails) in
  done sa.

(** sais.rs:120-134 *)
Fixpoint c_lms_blocks_loop (fuel : nat) (text : list nat) (previous_offset current_offset i : nat)
  (types : list suffix_type) : counted bool :=
  match fuel with
  | O => (NoFuel, 0)
  | S fuel' =>
      steps 1
      (if (i + current_offset <? length text) && (i + previous_offset <? length text)
       then
        let? is_previous_lms := c_is_lms_character (previous_offset + i) types in
        let? is_current_lms := c_is_lms_character (current_offset + i) types in
        if is_previous_lms && is_current_lms then done true else
        if negb (Bool.eqb is_previous_lms is_current_lms) then done false else
        let? a := c_get text (previous_offset + i) in
        let? b := c_get text (current_offset + i) in
        if negb (a =? b) then done false else
        c_lms_blocks_loop fuel' text previous_offset current_offset (i + 1) types
       else done false)
  end.

(** sais.rs:107-135 *)
Definition c_are_lms_blocks_equal (text : list nat) (previous_offset current_offset : nat)
  (types : list suffix_type) : counted bool :=
  if (previous_offset =? length text) || (current_offset =? length text) then done false else
  let? a := c_get text previous_offset in
  let? b := c_get text current_offset in
  if negb (a =? b) then done false else
  c_lms_blocks_loop (S (length text)) text previous_offset current_offset 1 types.

(** sais.rs:65-87 *)
Definition c_naming_step (text : list nat) (types : list suffix_type)
  (st : naming) (entry : option nat) : counted naming :=
  let? e := step (of_option entry) in
  let? lms := c_is_lms_character e types in
  if negb lms then done st else
  let? prev := takes 0 (of_option (nm_previous st)) in
  let? eq := c_are_lms_blocks_equal text prev e types in
  let name := if eq then nm_current st else nm_current st + 1 in
  let? names := c_set (nm_names st) e (Some name) in
  done (mk_naming names name (nm_count st + 1) entry).

(** sais.rs:60-105.  Lines 88-99 create two vectors of [count] entries and run over the
    names, with one read and at most two writes for each; line 101 copies one of them. *)
Definition c_reduce_problem (sa : list (option nat)) (text : list nat) (types : list suffix_type)
  : counted reduced_problem :=
  let? names := c_new None (length text + 1) in
  let? first := c_get sa 0 in
  let? first_offset := takes 0 (of_option first) in
  let? names := c_set names first_offset (Some 0) in
  let? st := cfold (c_naming_step text types) (tl sa) (mk_naming names 0 1 first) in
  let? entries := takes (4 * length (nm_names st)) (Ok (named_entries 0 (nm_names st))) in
  let? reduced_text := takes (2 * nm_count st) (fill_reduced (nm_count st) (map snd entries)) in
  let? offsets := takes (nm_count st) (fill_reduced (nm_count st) (map fst entries)) in
  done (mk_reduced reduced_text offsets (nm_current st + 1)).

(** sais.rs:209-224 *)
Definition c_place_lms_step (text : list nat) (summary_sa : list (option nat)) (offsets : list nat)
  (st : list (option nat) * list nat) (i : nat) : counted (list (option nat) * list nat) :=
  let? e := c_get summary_sa i in
  let? k := takes 0 (of_option e) in
  let? char_index := c_get offsets k in
  let? c := c_get text char_index in
  c_place_at_tail st c char_index.

Definition c_place_lms_characters (sa : list (option nat)) (text : list nat) (sizes : list nat)
  (summary_sa : list (option nat)) (offsets : list nat) : counted (list (option nat)) :=
  let? sa := c_set sa 0 (Some (length text)) in
  let? tails := c_get_bucket_tails sizes in
  let? (sa, _) := cfold (c_place_lms_step text summary_sa offsets)
                    (rev (seq 2 (length summary_sa - 2))) (sa, tails) in
  done sa.

(** sais.rs:48-56 *)
Definition c_summary_step (reduced_text : list nat) (sa : list (option nat)) (i : nat)
  : counted (list (option nat)) :=
  let? c := c_get reduced_text i in c_set sa (c + 1) (Some i).

Definition c_summary_direct (reduced_text : list nat) : counted (list (option nat)) :=
  let m := length reduced_text in
  let? sa := c_new (Some 0) (m + 1) in
  let? sa := c_set sa 0 (Some m) in
  cfold (c_summary_step reduced_text) (seq 1 (m - 1)) sa.

(** sais.rs:21-58 *)
Fixpoint c_orchestrate_build_suffix_array (fuel : nat) (text : list nat) (alphabet_size : nat)
  : counted (list (option nat)) :=
  match fuel with
  | O => (NoFuel, 0)
  | S fuel' =>
      let? types := c_get_suffix_types text in
      let? sizes := c_get_bucket_sizes text alphabet_size in
      let n := length text in
      let? sa := c_new None (n + 1) in
      let? sa := c_identify_lms_characters sa text types sizes in
      let? sa := c_induction_sort_l sa text types sizes in
      let? sa := c_induction_sort_s sa text types sizes in
      let? summary := c_reduce_problem sa text types in
      let? summary_sa :=
        if rp_alphabet summary =? length (rp_text summary)
        then c_summary_direct (rp_text summary)
        else c_orchestrate_build_suffix_array fuel' (rp_text summary) (rp_alphabet summary) in
      let? sa := c_new None (n + 1) in
      let? sa := c_place_lms_characters sa text sizes summary_sa (rp_offsets summary) in
      let? sa := c_induction_sort_l sa text types sizes in
      c_induction_sort_s sa text types sizes
  end.

(** sais.rs:13-19: the bytes are copied to words, the entries unwrapped into a new vector *)
Definition c_build_suffix_array (bs : list nat) : counted (list nat) :=
  let? sa := steps (length bs) (c_orchestrate_build_suffix_array (length bs + 1) bs 256) in
  cmap (fun e => step (of_option e)) sa.

(** duval.rs:9-16; [input[k]] and [input[j]] are read at most twice *)
Fixpoint c_duval_compare (fuel : nat) (input : list nat) (i j k : nat) : counted (nat * nat) :=
  match fuel with
  | O => (NoFuel, 0)
  | S fuel' =>
      steps 1
      (if j <? length input
       then
        let? a := c_get input k in
        let? b := c_get input j in
        if a <=? b
        then steps 2 (c_duval_compare fuel' input i (j + 1) (if a <? b then i else k + 1))
        else done (j, k)
       else done (j, k))
  end.

(** duval.rs:17-21 *)
Fixpoint c_duval_advance (fuel : nat) (i j k final_start : nat) : counted (nat * nat) :=
  match fuel with
  | O => (NoFuel, 0)
  | S fuel' =>
      steps 1
      (if i <=? k then c_duval_advance fuel' (i + (j - k)) j k i else done (i, final_start))
  end.

(** duval.rs:6-22 *)
Fixpoint c_duval_loop (fuel : nat) (input : list nat) (i final_start : nat) : counted nat :=
  match fuel with
  | O => (NoFuel, 0)
  | S fuel' =>
      steps 1
      (if i <? length input
       then
        let? (j, k) := c_duval_compare (S (length input)) input i (i + 1) i in
        let? (i', fs) := c_duval_advance (S (S (length input))) i j k final_start in
        c_duval_loop fuel' input i' fs
       else done final_start)
  end.

(** duval.rs:1-24 *)
Definition c_duval (input : list nat) : counted nat := c_duval_loop (S (length input)) input 0 0.

(** duval.rs:28-35: both halves are copied twice ([to_vec], [append]) *)
Definition c_rotate_duval (input : list nat) : counted (list nat * nat) :=
  let? offset := c_duval input in
  takes (2 * length input)
    (if offset <=? length input
     then Ok (skipn offset input ++ firstn offset input, offset)
     else Panic).

(** bwt_internal.rs:8-15: every entry is read, those kept lead to a read and a write *)
Definition c_bwt_column (rotated : list nat) (entries : list nat) : counted (list nat) :=
  let len := length rotated in
  steps (2 * length entries)
    (cmap (fun x => steps 1 (c_get rotated (if 0 <? x then x - 1 else len - 1)))
       (filter (fun x => x <? len) entries)).

(** bwt_internal.rs:3-37; lines 16-22 run over the entries at most once more *)
Definition c_bwt (string : list nat) : counted (list nat * nat) :=
  let? (rotated, shift) := c_rotate_duval string in
  let? entries := c_build_suffix_array rotated in
  let len := length string in
  let? data := c_bwt_column rotated entries in
  if len =? 0 then (Panic, 0) else
  let target := (len - shift) mod len in
  let? (orig_ptr, _) :=
    takes (2 * length entries)
      (of_option (find_first (fun x => snd x =? target)
                 (enumerate (filter (fun x => x <? len) entries)))) in
  done (data, orig_ptr).

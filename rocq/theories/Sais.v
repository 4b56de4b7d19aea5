(** * Model of lib/src/block/bwt/sais.rs *)
From Verif Require Import Base.

(** sais.rs:1-5 *)
Inductive suffix_type := TL | TS.
Definition type_eqb (a b : suffix_type) : bool :=
  match a, b with TL, TL | TS, TS => true | _, _ => false end.

(** sais.rs:273-281, the body of the loop over [(0..n-1).rev()] *)
Definition suffix_type_step (text : list nat) (types : list suffix_type) (i : nat)
  : res (list suffix_type) :=
  let! a := get_at text i in
  let! b := get_at text (i + 1) in
  match Nat.compare a b with
  | Lt => set_at types i TS
  | Eq => let! t := get_at types (i + 1) in set_at types i t
  | Gt => set_at types i TL
  end.

(** sais.rs:263-283 [get_suffix_types]: a vector of [n + 1] times [L] to which an
    [S] is pushed (so [n + 2] entries, entry [n] being [L]). *)
Definition get_suffix_types (text : list nat) : res (list suffix_type) :=
  let n := length text in
  let types := repeat TL (n + 1) ++ [TS] in
  if n =? 0 then Ok types else
  let! types := set_at types (n - 1) TL in
  fold_res (suffix_type_step text) (rev (seq 0 (n - 1))) types.

(** sais.rs:255-261 [get_bucket_sizes] *)
Definition bucket_size_step (sizes : list nat) (character : nat) : res (list nat) :=
  let! k := get_at sizes character in set_at sizes character (k + 1).
Definition get_bucket_sizes (text : list nat) (alphabet_size : nat) : res (list nat) :=
  fold_res bucket_size_step text (repeat 0 alphabet_size).

(** sais.rs:245-253 [get_bucket_tails] *)
Fixpoint bucket_tails_from (offset : nat) (sizes : list nat) : list nat :=
  match sizes with
  | [] => []
  | k :: tl => (offset + k - 1) :: bucket_tails_from (offset + k) tl
  end.
Definition get_bucket_tails (sizes : list nat) : list nat := bucket_tails_from 1 sizes.

(** sais.rs:234-243 [get_bucket_heads] *)
Fixpoint bucket_heads_from (offset : nat) (sizes : list nat) : list nat :=
  match sizes with
  | [] => []
  | k :: tl => offset :: bucket_heads_from (offset + k) tl
  end.
Definition get_bucket_heads (sizes : list nat) : list nat := bucket_heads_from 1 sizes.

(** sais.rs:226-232 [is_lms_character] *)
Definition is_lms_character (index : nat) (types : list suffix_type) : res bool :=
  match index with
  | O => Ok false
  | S prev =>
      let! t := get_at types index in
      if type_eqb t TS
      then let! t' := get_at types prev in Ok (type_eqb t' TL)
      else Ok false
  end.

(** [suffix_array[bucket_tails[c]] = Some(v); bucket_tails[c] -= 1]
    (sais.rs:155-156, 204-205, 221-222).  The subtraction is on [usize]; a zero
    tail would panic (Checked) or wrap; it is a panic here, and SaisFacts.v shows
    it does not happen. *)
Definition place_at_tail (st : list (option nat) * list nat) (c v : nat)
  : res (list (option nat) * list nat) :=
  let (sa, tails) := st in
  let! t := get_at tails c in
  let! sa' := set_at sa t (Some v) in
  match t with
  | O => Panic
  | S t' => let! tails' := set_at tails c t' in Ok (sa', tails')
  end.

(** sais.rs:181-182: the same at the head of a bucket *)
Definition place_at_head (st : list (option nat) * list nat) (c v : nat)
  : res (list (option nat) * list nat) :=
  let (sa, heads) := st in
  let! h := get_at heads c in
  let! sa' := set_at sa h (Some v) in
  let! heads' := set_at heads c (h + 1) in
  Ok (sa', heads').

(** sais.rs:191-207 [identify_lms_characters] *)
Definition identify_step (text : list nat) (types : list suffix_type)
  (st : list (option nat) * list nat) (i : nat) : res (list (option nat) * list nat) :=
  let! lms := is_lms_character i types in
  if lms then let! c := get_at text i in place_at_tail st c i else Ok st.

Definition identify_lms_characters (sa : list (option nat)) (text : list nat)
  (types : list suffix_type) (sizes : list nat) : res (list (option nat)) :=
  let! sa := set_at sa 0 (Some (length text)) in
  let! (sa, _) := fold_res (identify_step text types) (rev (seq 0 (length text)))
                    (sa, get_bucket_tails sizes) in
  Ok sa.

(** sais.rs:172-188, body of [induction_sort_l] at index [i]:
    [suffix_array[i].map(|x| x.checked_sub(1)).unwrap_or(None)] *)
Definition induce_l_step (text : list nat) (types : list suffix_type)
  (st : list (option nat) * list nat) (i : nat) : res (list (option nat) * list nat) :=
  let! e := get_at (fst st) i in
  match e with
  | Some (S j) =>
      let! t := get_at types j in
      if type_eqb t TL
      then let! c := get_at text j in place_at_head st c j
      else Ok st
  | _ => Ok st
  end.

(** sais.rs:165-189 [induction_sort_l] *)
Definition induction_sort_l (sa : list (option nat)) (text : list nat)
  (types : list suffix_type) (sizes : list nat) : res (list (option nat)) :=
  let! (sa, _) := fold_res (induce_l_step text types) (seq 0 (length sa))
                    (sa, get_bucket_heads sizes) in
  Ok sa.

(** sais.rs:144-162 and 137-163 [induction_sort_s] *)
Definition induce_s_step (text : list nat) (types : list suffix_type)
  (st : list (option nat) * list nat) (i : nat) : res (list (option nat) * list nat) :=
  let! e := get_at (fst st) i in
  match e with
  | Some (S j) =>
      let! t := get_at types j in
      if type_eqb t TS
      then let! c := get_at text j in place_at_tail st c j
      else Ok st
  | _ => Ok st
  end.

Definition induction_sort_s (sa : list (option nat)) (text : list nat)
  (types : list suffix_type) (sizes : list nat) : res (list (option nat)) :=
  let! (sa, _) := fold_res (induce_s_step text types) (rev (seq 0 (length sa)))
                    (sa, get_bucket_tails sizes) in
  Ok sa.

(** sais.rs:120-134, the loop of [are_lms_blocks_equal]; the fuel is a bound on
    the number of iterations left before the loop condition fails. *)
Fixpoint lms_blocks_loop (fuel : nat) (text : list nat) (previous_offset current_offset i : nat)
  (types : list suffix_type) : res bool :=
  match fuel with
  | O => NoFuel
  | S fuel' =>
      if (i + current_offset <? length text) && (i + previous_offset <? length text)
      then
        let! is_previous_lms := is_lms_character (previous_offset + i) types in
        let! is_current_lms := is_lms_character (current_offset + i) types in
        if is_previous_lms && is_current_lms then Ok true else
        if negb (Bool.eqb is_previous_lms is_current_lms) then Ok false else
        let! a := get_at text (previous_offset + i) in
        let! b := get_at text (current_offset + i) in
        if negb (a =? b) then Ok false else
        lms_blocks_loop fuel' text previous_offset current_offset (i + 1) types
      else Ok false
  end.

(** sais.rs:107-135 [are_lms_blocks_equal] *)
Definition are_lms_blocks_equal (text : list nat) (previous_offset current_offset : nat)
  (types : list suffix_type) : res bool :=
  if (previous_offset =? length text) || (current_offset =? length text) then Ok false else
  let! a := get_at text previous_offset in
  let! b := get_at text current_offset in
  if negb (a =? b) then Ok false else
  lms_blocks_loop (S (length text)) text previous_offset current_offset 1 types.

(** sais.rs:65-87, the naming loop of [reduce_problem]:
    state (lms_names, current_name, count, previous_offset) *)
Record naming := mk_naming {
  nm_names : list (option nat); nm_current : nat; nm_count : nat; nm_previous : option nat }.

Definition naming_step (text : list nat) (types : list suffix_type)
  (st : naming) (entry : option nat) : res naming :=
  let! e := of_option entry in
  let! lms := is_lms_character e types in
  if negb lms then Ok st else
  let! prev := of_option (nm_previous st) in
  let! eq := are_lms_blocks_equal text prev e types in
  let name := if eq then nm_current st else nm_current st + 1 in
  let! names := set_at (nm_names st) e (Some name) in
  Ok (mk_naming names name (nm_count st + 1) entry).

(** sais.rs:285-289 [ReducedProblem] *)
Record reduced_problem := mk_reduced {
  rp_text : list nat; rp_offsets : list nat; rp_alphabet : nat }.

(** sais.rs:88-99: the named positions in increasing order.  [reduced_text] and
    [offsets] are vectors of [count] zeros filled from the left; writing past
    [count] entries would panic, having fewer would leave zeros. *)
Definition fill_reduced (count : nat) (entries : list nat) : res (list nat) :=
  if length entries <=? count
  then Ok (entries ++ repeat 0 (count - length entries))
  else Panic.

Fixpoint named_entries (i : nat) (names : list (option nat)) : list (nat * nat) :=
  match names with
  | [] => []
  | None :: tl => named_entries (S i) tl
  | Some name :: tl => (i, name) :: named_entries (S i) tl
  end.

(** sais.rs:60-105 [reduce_problem] *)
Definition reduce_problem (sa : list (option nat)) (text : list nat) (types : list suffix_type)
  : res reduced_problem :=
  let! first := get_at sa 0 in
  let! first_offset := of_option first in
  let! names := set_at (repeat None (length text + 1)) first_offset (Some 0) in
  let! st := fold_res (naming_step text types) (tl sa) (mk_naming names 0 1 first) in
  let entries := named_entries 0 (nm_names st) in
  let! reduced_text := fill_reduced (nm_count st) (map snd entries) in
  let! offsets := fill_reduced (nm_count st) (map fst entries) in
  Ok (mk_reduced reduced_text offsets (nm_current st + 1)).

(** sais.rs:209-224 [place_lms_characters]; the range [2..len] is empty for
    [len <= 2]. *)
Definition place_lms_step (text : list nat) (summary_sa : list (option nat)) (offsets : list nat)
  (st : list (option nat) * list nat) (i : nat) : res (list (option nat) * list nat) :=
  let! e := get_at summary_sa i in
  let! k := of_option e in
  let! char_index := get_at offsets k in
  let! c := get_at text char_index in
  place_at_tail st c char_index.

Definition place_lms_characters (sa : list (option nat)) (text : list nat) (sizes : list nat)
  (summary_sa : list (option nat)) (offsets : list nat) : res (list (option nat)) :=
  let! sa := set_at sa 0 (Some (length text)) in
  let! (sa, _) := fold_res (place_lms_step text summary_sa offsets)
                    (rev (seq 2 (length summary_sa - 2))) (sa, get_bucket_tails sizes) in
  Ok sa.

(** sais.rs:48-56, the directly solved case of [build_summary_suffix_array] *)
Definition summary_step (reduced_text : list nat) (sa : list (option nat)) (i : nat)
  : res (list (option nat)) :=
  let! c := get_at reduced_text i in set_at sa (c + 1) (Some i).

Definition summary_direct (reduced_text : list nat) : res (list (option nat)) :=
  let m := length reduced_text in
  let! sa := set_at (repeat (Some 0) (m + 1)) 0 (Some m) in
  fold_res (summary_step reduced_text) (seq 1 (m - 1)) sa.

(** sais.rs:21-58 [orchestrate_build_suffix_array] and (its mutually recursive
    helper) [build_summary_suffix_array]; the recursion depth is the fuel. *)
Fixpoint orchestrate_build_suffix_array (fuel : nat) (text : list nat) (alphabet_size : nat)
  : res (list (option nat)) :=
  match fuel with
  | O => NoFuel
  | S fuel' =>
      let! types := get_suffix_types text in
      let! sizes := get_bucket_sizes text alphabet_size in
      let n := length text in
      let sa := repeat None (n + 1) in
      let! sa := identify_lms_characters sa text types sizes in
      let! sa := induction_sort_l sa text types sizes in
      let! sa := induction_sort_s sa text types sizes in
      let! summary := reduce_problem sa text types in
      let! summary_sa :=
        if rp_alphabet summary =? length (rp_text summary)
        then summary_direct (rp_text summary)
        else orchestrate_build_suffix_array fuel' (rp_text summary) (rp_alphabet summary) in
      let sa := repeat None (n + 1) in
      let! sa := place_lms_characters sa text sizes summary_sa (rp_offsets summary) in
      let! sa := induction_sort_l sa text types sizes in
      induction_sort_s sa text types sizes
  end.

(** sais.rs:13-19 [build_suffix_array]; the fuel [length + 1] is enough
    (SaisFacts.v). *)
Definition build_suffix_array (bs : list nat) : res (list nat) :=
  let! sa := orchestrate_build_suffix_array (length bs + 1) bs 256 in
  map_res of_option sa.

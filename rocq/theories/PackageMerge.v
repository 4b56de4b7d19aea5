(** * Model of lib/src/block/huffman/package_merge.rs *)
From Verif Require Import Base.

(** package_merge.rs:98-102 [Coin] *)
Record coin := mk_coin { coin_value : N; coin_exp : nat }.

(** package_merge.rs:104-128 [CoinEntry]/[CoinEntryType]: a coin or a package,
    with its cached numismatic value *)
Inductive coin_entry :=
| One (value : N) (c : coin)
| Two (value : N) (left right : coin_entry).
Definition entry_value (e : coin_entry) : N :=
  match e with One v _ => v | Two v _ _ => v end.

(** package_merge.rs:111-121 [flatten] *)
Fixpoint flatten_entry (e : coin_entry) : list coin :=
  match e with
  | One _ c => [c]
  | Two _ l r => flatten_entry l ++ flatten_entry r
  end.

Definition entry_leb (a b : coin_entry) : bool := (entry_value a <=? entry_value b)%N.

(** package_merge.rs:75-91: neighbours (0,1), (2,3), ... are packaged; an odd last
    element is left out. *)
Fixpoint package_pairs (l : list coin_entry) : list coin_entry :=
  match l with
  | a :: b :: tl => Two (entry_value a + entry_value b)%N a b :: package_pairs tl
  | _ => []
  end.

(** package_merge.rs:48-60: the coins of one denomination, in input order, sorted *)
Definition coins_of_exp (coins : list coin) (e : nat) : list coin_entry :=
  sort_by entry_leb
    (map (fun c => One (coin_value c) c) (filter (fun c => coin_exp c =? e) coins)).

(** package_merge.rs:66-92: the denominations [max_exp, ..., 1, 0] in turn; the
    state is (coins_to_merge, last).  The hash map is only used as an array
    indexed by denomination; its iteration order is irrelevant. *)
Definition merge_level (coins : list coin) (st : list coin_entry * list coin_entry) (e : nat)
  : list coin_entry * list coin_entry :=
  let lst := sort_by entry_leb (coins_of_exp coins e ++ fst st) in
  (package_pairs lst, lst).

(** package_merge.rs:38-96 [package_merge]; [max().unwrap()] panics without coins *)
Definition package_merge (coins : list coin) : res (list (list coin)) :=
  match coins with
  | [] => Panic
  | _ =>
      let max_exp := fold_left Nat.max (map coin_exp coins) 0 in
      let st := fold_left (merge_level coins) (rev (seq 0 (max_exp + 1))) ([], []) in
      Ok (map flatten_entry (snd st))
  end.

(** package_merge.rs:8-16: the coins *)
Definition make_coins (weights : list N) (limit : nat) : list coin :=
  flat_map (fun i => map (fun w => mk_coin w i) weights) (seq 1 limit).

(** package_merge.rs:7-34 [compute_lis] (for empty [weights], [package_merge]
    panics before [weights.len() - 1] is evaluated) *)
Definition compute_lis (weights : list N) (limit : nat) : res (list nat) :=
  let! packages := package_merge (make_coins weights limit) in
  let solution := concat (firstn (length weights - 1) packages) in
  Ok (map (fun w => length (filter (fun c => (coin_value c =? w)%N) solution)) weights).

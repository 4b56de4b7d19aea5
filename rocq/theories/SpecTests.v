(** * Streams made by the reference implementation, read by the specification

    The specification of the format ([bunzip2], SpecBzip2) is itself checked here against streams
    that were made with libbzip2 (through Python's [bz2]): it reads them, and rejects damaged
    ones that libbzip2 rejects.  So does the model of [decode_stream], where it should.  Checks, not proofs. *)
From Verif Require Import Base SpecBzip2 SpecStream Bitwise Stream.

(** 0 bytes *)
Definition empty_data : list nat := [].
Definition empty_stream : list nat :=
  [66; 90; 104; 57; 23; 114; 69; 56; 80; 144; 0; 0; 0; 0].
Example empty_reference : bunzip2 empty_stream = Some empty_data.
Proof. vm_compute. reflexivity. Qed.
Example empty_model : decode_stream Checked empty_stream (good_sink []) = (Ok tt, good_sink empty_data).
Proof. vm_compute. reflexivity. Qed.
(** 1 bytes *)
Definition one_data : list nat := [120].
Definition one_stream : list nat :=
  [66; 90; 104; 57; 49; 65; 89; 38; 83; 89; 119; 75; 176; 20; 0; 0; 0; 0; 128; 0; 64; 32; 0; 33; 24; 70; 130; 238; 72; 167; 10; 18; 14; 233; 118; 2; 128].
Example one_reference : bunzip2 one_stream = Some one_data.
Proof. vm_compute. reflexivity. Qed.
Example one_model : decode_stream Checked one_stream (good_sink []) = (Ok tt, good_sink one_data).
Proof. vm_compute. reflexivity. Qed.
(** 11 bytes *)
Definition hello_data : list nat := [104; 101; 108; 108; 111; 32; 119; 111; 114; 108; 100].
Definition hello_stream : list nat :=
  [66; 90; 104; 57; 49; 65; 89; 38; 83; 89; 68; 247; 19; 120; 0; 0; 1; 145; 128; 64; 0; 6; 68; 144; 128; 32; 0; 34; 3; 52; 132; 48; 33; 182; 129; 84; 39; 139; 185; 34; 156; 40; 72; 34; 123; 137; 188; 0].
Example hello_reference : bunzip2 hello_stream = Some hello_data.
Proof. vm_compute. reflexivity. Qed.
Example hello_model : decode_stream Checked hello_stream (good_sink []) = (Ok tt, good_sink hello_data).
Proof. vm_compute. reflexivity. Qed.
(** 568 bytes *)
Definition runs_data : list nat := repeat 97 300 ++ [98; 98; 98; 98; 99; 99; 99; 99; 99] ++ repeat 100 259.
Definition runs_stream : list nat :=
  [66; 90; 104; 51; 49; 65; 89; 38; 83; 89; 134; 185; 235; 199; 0; 0; 4; 81; 0; 224; 0; 0; 32; 60; 0; 0; 8; 32; 0; 34; 61; 65; 136; 67; 2; 26; 110; 170; 44; 56; 136; 230; 57; 132; 191; 23; 114; 69; 56; 80; 144; 134; 185; 235; 199].
Example runs_reference : bunzip2 runs_stream = Some runs_data.
Proof. vm_compute. reflexivity. Qed.
Example runs_model : decode_stream Checked runs_stream (good_sink []) = (Ok tt, good_sink runs_data).
Proof. vm_compute. reflexivity. Qed.
(** 16 bytes *)
Definition eight_data : list nat := [100; 101; 102; 103; 104; 105; 106; 107; 100; 101; 102; 103; 104; 105; 106; 107].
Definition eight_stream : list nat :=
  [66; 90; 104; 49; 49; 65; 89; 38; 83; 89; 20; 16; 29; 90; 0; 0; 0; 129; 0; 7; 248; 32; 0; 32; 170; 2; 104; 67; 2; 57; 42; 91; 26; 243; 159; 23; 114; 69; 56; 80; 144; 20; 16; 29; 90].
Example eight_reference : bunzip2 eight_stream = Some eight_data.
Proof. vm_compute. reflexivity. Qed.
Example eight_model : decode_stream Checked eight_stream (good_sink []) = (Ok tt, good_sink eight_data).
Proof. vm_compute. reflexivity. Qed.
(** 90 bytes *)
Definition several_tables_data : list nat := [99; 98; 97; 97; 100; 98; 97; 97; 99; 98; 97; 98; 97; 97; 97; 97; 99; 97; 97; 99; 98; 98; 98; 98; 97; 97; 99; 100; 98; 100; 97; 97; 100; 98; 100; 98; 97; 97; 98; 99; 100; 98; 97; 97; 98; 98; 99; 98; 99; 97; 98; 98; 97; 97; 98; 100; 98; 97; 99; 97; 98; 97; 99; 97; 99; 98; 98; 99; 99; 100; 98; 98; 98; 98; 98; 99; 98; 98; 99; 99; 99; 97; 99; 99; 99; 99; 99; 99; 98; 99].
Definition several_tables_stream : list nat :=
  [66; 90; 104; 50; 49; 65; 89; 38; 83; 89; 37; 170; 203; 16; 0; 0; 33; 193; 0; 112; 0; 60; 0; 32; 0; 80; 134; 0; 105; 228; 147; 77; 211; 206; 57; 26; 241; 102; 227; 8; 195; 24; 88; 150; 22; 192; 150; 215; 47; 18; 236; 55; 206; 150; 19; 139; 96; 9; 21; 68; 99; 241; 119; 36; 83; 133; 9; 2; 90; 172; 177; 0].
Example several_tables_reference : bunzip2 several_tables_stream = Some several_tables_data.
Proof. vm_compute. reflexivity. Qed.
Example several_tables_model : decode_stream Checked several_tables_stream (good_sink []) = (Ok tt, good_sink several_tables_data).
Proof. vm_compute. reflexivity. Qed.
(** 32 bytes *)
Definition periodic_data : list nat := [97; 98; 97; 98; 97; 98; 97; 98; 97; 98; 97; 98; 97; 98; 97; 98; 97; 98; 97; 98; 97; 98; 97; 98; 97; 98; 97; 98; 97; 98; 97; 98].
Definition periodic_stream : list nat :=
  [66; 90; 104; 57; 49; 65; 89; 38; 83; 89; 3; 0; 200; 86; 0; 0; 7; 129; 0; 48; 0; 32; 0; 48; 128; 42; 105; 4; 28; 93; 201; 20; 225; 66; 64; 12; 3; 33; 88].
Example periodic_reference : bunzip2 periodic_stream = Some periodic_data.
Proof. vm_compute. reflexivity. Qed.
Example periodic_model : decode_stream Checked periodic_stream (good_sink []) = (Ok tt, good_sink periodic_data).
Proof. vm_compute. reflexivity. Qed.
(** one byte changed: (position, new value), all rejected by libbzip2 *)
Definition damage (s : list nat) (x : nat * nat) : list nat := firstn (fst x) s ++ [snd x] ++ skipn (S (fst x)) s.
Example hello_damaged : Forall (fun x => bunzip2 (damage hello_stream x) = None) [(4, 53); (11, 243); (18, 136); (25, 0); (32, 161); (39, 50); (46, 190)].
Proof. repeat constructor; vm_compute; reflexivity. Qed.
Example one_damaged : Forall (fun x => bunzip2 (damage one_stream x) = None) [(4, 113); (11, 79); (18, 192); (25, 86); (32, 30)].
Proof. repeat constructor; vm_compute; reflexivity. Qed.
(** cut short at any place *)
Example one_truncated : forallb (fun k => match bunzip2 (firstn k one_stream) with None => true | Some _ => false end) (seq 0 37) = true.
Proof. vm_compute. reflexivity. Qed.

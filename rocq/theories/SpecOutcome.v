(** * Specification: how the decompression of any bit sequence ends

    [read_block] stands for the way the body of one block (what follows its checksum) is
    read: its contents and the bits left behind it, or [None] if the body is malformed or
    incomplete.  [ends read_block bits blocks result]: reading [bits], which start behind
    the file header, yields the [blocks] and then ends with [result]. *)
From Verif Require Import Base SpecBits SpecCrc SpecBzip2.

Definition starts_with (bits front : list bool) : Prop := exists rest, bits = front ++ rest.

Inductive ends (read_block : list bool -> option (list nat * list bool))
  : list bool -> list (list nat) -> res unit -> Prop :=
(** the end of the stream *)
| ends_footer after : ends read_block (be_bits 48 FOOTER_MAGIC ++ after) [] (Ok tt)
(** neither a block nor the end of the stream, or too little to tell *)
| ends_unknown bits : ~ starts_with bits (be_bits 48 FOOTER_MAGIC) -> ~ starts_with bits (be_bits 48 BLOCK_MAGIC) ->
    ends read_block bits [] Err
(** the input is over in the checksum of a block *)
| ends_in_checksum crc : length crc < 32 -> ends read_block (be_bits 48 BLOCK_MAGIC ++ crc) [] Panic
(** the input is over right behind the checksum of a block *)
| ends_after_checksum crc : length crc = 32 -> ends read_block (be_bits 48 BLOCK_MAGIC ++ crc) [] Err
(** a block that cannot be read *)
| ends_malformed crc body : length crc = 32 -> body <> [] -> read_block body = None ->
    ends read_block (be_bits 48 BLOCK_MAGIC ++ crc ++ body) [] Panic
(** a block that can be read, but whose checksum is not the one of its contents *)
| ends_mismatch crc body contents after : length crc = 32 -> read_block body = Some (contents, after) ->
    crc <> be_bits 32 (crc32_bzip2 contents) ->
    ends read_block (be_bits 48 BLOCK_MAGIC ++ crc ++ body) [] Err
(** a good block *)
| ends_block body contents after blocks result : read_block body = Some (contents, after) ->
    ends read_block after blocks result ->
    ends read_block (be_bits 48 BLOCK_MAGIC ++ be_bits 32 (crc32_bzip2 contents) ++ body) (contents :: blocks) result.

(** reading a block uses up some bits and does not look at those behind them *)
Definition self_delimiting (read_block : list bool -> option (list nat * list bool)) : Prop :=
  forall body contents after, read_block body = Some (contents, after) ->
    exists used, used <> [] /\ body = used ++ after /\ forall after', read_block (used ++ after') = Some (contents, after').

(** ** cutting an accepted stream

    [blocks]: the sizes in bits (marker and checksum included) and the contents of its
    blocks.  [cut k blocks got result]: if only the first [k] bits behind the file header
    are there, the contents [got] appear and the decompression ends with [result]. *)
Inductive cut : nat -> list (nat * list nat) -> list (list nat) -> res unit -> Prop :=
| cut_later k size contents blocks got result : size <= k -> cut (k - size) blocks got result ->
    cut k ((size, contents) :: blocks) (contents :: got) result
| cut_marker k blocks : k < 48 -> cut k blocks [] Err
| cut_after_checksum size contents blocks : 80 < size -> cut 80 ((size, contents) :: blocks) [] Err
| cut_in_block k size contents blocks : 48 <= k < size -> k <> 80 -> cut k ((size, contents) :: blocks) [] Panic
| cut_footer k : 48 <= k -> cut k [] [] (Ok tt).

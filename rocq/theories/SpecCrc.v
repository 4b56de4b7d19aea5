(** * Specification: CRC-32/BZIP2, bit by bit

    Polynomial 0x04C11DB7, most significant bit first, initial value and final
    complement 0xFFFFFFFF (no reflection). *)
From Verif Require Import Base SpecBits.

(** one data bit enters the 32-bit register *)
Definition crc_bit (reg : N) (b : bool) : N :=
  let shifted := (2 * reg mod 4294967296)%N in
  if xorb (N.testbit reg 31) b then N.lxor shifted 79764919 else shifted.

Definition crc_bits (reg : N) (bits : list bool) : N := fold_left crc_bit bits reg.

Definition crc32_bzip2 (l : list nat) : N :=
  N.lxor (crc_bits 4294967295 (bits_of l)) 4294967295.

(** the checksum of the whole stream: rotate left by one, exclusive or, over the
    block checksums in order *)
Definition rotate_left_1 (x : N) : N := ((2 * x) mod 4294967296 + x / 2147483648)%N.
Definition combined_crc (block_crcs : list N) : N :=
  fold_left (fun total crc => N.lxor crc (rotate_left_1 total)) block_crcs 0%N.

(** * Model of kwant/digest.py: random-access random numbers.

    [md5] is an oracle from byte strings to 16 bytes, [utf8] the encoding of
    strings.  The two doubles a * 2**-53, b * 2**-53 are exact (see C38) and
    modelled as rational/real numbers; cos, sqrt and log are those of the real
    numbers.  struct.unpack uses the byte order of the machine: little endian
    here. *)
From Coq Require Import List ZArith QArith Reals.
Import ListNotations.

(** the argument of str_to_bytes: a string, or an object with a buffer *)
Inductive pyobj := PStr (code_points : list Z) | PBuf (bytes : list Z).

Section Digest.
Variable utf8 : list Z -> list Z.
Variable md5 : list Z -> list Z.
(** digest.py:29-32 *)
Definition BPF_MASK : Z := (2 ^ 53 - 1)%Z.
Definition RECIP_BPF : Q := 1 # (2 ^ 53).
(** digest.py:35-40 str_to_bytes (followed by memoryview().tobytes()) *)
Definition str_to_bytes (s : pyobj) : list Z := match s with PStr c => utf8 c | PBuf b => b end.
(** struct.unpack('q'): eight bytes, little endian, two's complement *)
Definition little_endian (b : list Z) : Z := fold_right (fun x acc => (x + 256 * acc)%Z) 0%Z b.
Definition unpack_q (b : list Z) : Z := let w := little_endian b in if (w <? 2 ^ 63)%Z then w else (w - 2 ^ 64)%Z.
(** digest.py:42-50 uniform2 *)
Definition uniform2 (input salt : pyobj) : Q * Q :=
  let d := md5 (str_to_bytes input ++ str_to_bytes salt) in
  let a := Z.land (unpack_q (firstn 8 d)) BPF_MASK in
  let b := Z.land (unpack_q (skipn 8 d)) BPF_MASK in
  (inject_Z a * RECIP_BPF, inject_Z b * RECIP_BPF).
(** digest.py:53-59 uniform *)
Definition uniform (input salt : pyobj) : Q := fst (uniform2 input salt).
(** the argument of log in gauss, digest.py:72 *)
Definition log_arg (input salt : pyobj) : Q := 1 - snd (uniform2 input salt).
(** digest.py:62-72 gauss *)
Definition gauss (input salt : pyobj) : R :=
  (cos (Q2R (fst (uniform2 input salt)) * (2 * PI)) * sqrt (- 2 * ln (Q2R (log_arg input salt))))%R.
End Digest.

(** Model of the packed doubles, c3/lib_array/array.c 426-511.

    A [double] is a [spec_float] of the standard library's executable IEEE-754
    specification (precision 53, maximal exponent 1024, round to nearest even);
    every arithmetic operation of the C code is the corresponding [SF] operation.
    [int] and [long long] are [Z]s with explicit range checks where C has
    undefined behaviour. *)
From Verif Require Import Base SerModel.
From Coq Require Import NArith ZArith.
From Coq Require Export SpecFloat.

Definition dbl := spec_float.
Definition dvalid (x : dbl) : Prop := valid_binary 53 1024 x = true.
Definition dfinite (x : dbl) : bool :=
  match x with S754_zero _ | S754_finite _ _ _ => true | _ => false end.

Definition dadd := SFadd 53 1024.
Definition dsub := SFsub 53 1024.
Definition dmul := SFmul 53 1024.
Definition ddiv := SFdiv 53 1024.
Definition dldexp := SFldexp 53 1024.
(** Conversion of an integer to [double]. *)
Definition d_of_Z (z : Z) : dbl := binary_normalize 53 1024 z 0 false.
(** The constants 0.0, 0.5 and 2.0. *)
Definition d_zero : dbl := S754_zero false.
Definition d_half : dbl := S754_finite false 4503599627370496 (-53).
Definition d_two : dbl := S754_finite false 4503599627370496 (-51).

(** [frexp] (C library): the exponent of a zero is 0, that of an infinity or a
    NaN is unspecified (here the value the specification library uses). *)
Definition cfrexp (x : dbl) : dbl * Z :=
  match x with S754_zero _ => (x, 0%Z) | _ => SFfrexp 53 1024 x end.

(** [(long long) x]: truncation; undefined out of range. *)
Definition ll_of_dbl (x : dbl) : outcome Z :=
  match x with
  | S754_zero _ => Ok 0%Z
  | S754_finite s m e =>
      let a := if (0 <=? e)%Z then (Z.pos m * 2 ^ e)%Z else (Z.pos m / 2 ^ (- e))%Z in
      let z := if s then (- a)%Z else a in
      if ((- 2 ^ 63 <=? z) && (z <? 2 ^ 63))%Z then Ok z else UB
  | _ => UB
  end.

(** FRAC_MAX, array.c 426. *)
Definition FRAC_MAX : Z := 9223372036854775807.

(** Signed arithmetic on [long long]: overflow is undefined. *)
Definition ll (z : Z) : outcome Z :=
  if ((- 2 ^ 63 <=? z) && (z <? 2 ^ 63))%Z then Ok z else UB.

(** pack, array.c 435-446: exponent and fraction. *)
Definition pack (x : dbl) : outcome (Z * Z) :=
  let (fr, ex) := cfrexp x in
  let xf := dsub (SFabs fr) d_half in
  if SFltb xf d_zero then Ok (ex, 0%Z)
  else do t <- ll_of_dbl (dmul (dmul xf d_two) (d_of_Z (FRAC_MAX - 1)));
       do fc <- ll (1 + t)%Z;
       do fc <- (if SFltb x d_zero then ll (- fc)%Z else Ok fc);
       Ok (ex, fc).

(** unpack, array.c 448-460. *)
Definition unpack (p : Z * Z) : outcome dbl :=
  let (ex, fc) := p in
  if (fc =? 0)%Z then Ok d_zero
  else do a <- ll (Z.abs fc);
       do a1 <- ll (a - 1)%Z;
       let xf := ddiv (ddiv (d_of_Z a1) (d_of_Z (FRAC_MAX - 1))) d_two in
       let x := dldexp (dadd xf d_half) ex in
       Ok (if (fc <? 0)%Z then SFopp x else x).

(** serialize_double_packed, array.c 462-472: 4 bytes of [exp], 8 of [frac]. *)
Definition ser_packed (x : dbl) : outcome (list N) :=
  do (ex, fc) <- pack x;
  Ok (le_bytes szI (Z.to_N (Z.modulo ex (2 ^ 32))) ++
      le_bytes sz8 (Z.to_N (Z.modulo fc (2 ^ 64)))).

Definition ll_of (x : N) : Z :=
  if (x <? 2 ^ 63)%N then Z.of_N x else (Z.of_N x - 2 ^ 64)%Z.

(** deserialize_double_packed, array.c 474-483. *)
Definition des_packed (ser : list N) : outcome dbl :=
  do (l, q) <- rd ser 0 szI;
  do (r, _) <- rd ser q sz8;
  unpack (int_of (le_val l), ll_of (le_val r)).

(** serialize_double_arr_packed, array.c 485-511: a block of 20 [n] bytes, the
    first 10 [n] of which are zeroed; [junk] is what [malloc] returns. *)
Definition ser_arr_packed (junk : nat -> N) (n : nat) (x : list dbl) : outcome (list N) :=
  do mem <- for_ (n * 10) (fun i m => aset m i 0%N) (tab (n * 20) junk);
  do (m, _) <-
    for_ n (fun i '(m, on) =>
      do xi <- aget x i;
      do t <- ser_packed xi;
      do (m', q) <- wr m on (firstn (szI + sz8) t);
      Ok (m', q)) (mem, 0);
  Ok m.

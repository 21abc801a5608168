(** Model of the function monitor, c3/lib_funcs/monitoring.c, and of the text
    form of doubles it uses as a key, c3/lib_array/array.c 513-607.

    Characters, blocks and NUL-terminated strings are as in StrModel.v, doubles
    and packed doubles as in PackModel.v. *)
From Verif Require Import Base StrModel SerModel PackModel.
From Coq Require Import NArith ZArith.
From Coq Require Decimal.

(** [printf("%d", z)]: the decimal digits without leading zeros. *)
Fixpoint uint_chars (d : Decimal.uint) : list nat :=
  match d with
  | Decimal.Nil => []
  | Decimal.D0 d => 48 :: uint_chars d | Decimal.D1 d => 49 :: uint_chars d
  | Decimal.D2 d => 50 :: uint_chars d | Decimal.D3 d => 51 :: uint_chars d
  | Decimal.D4 d => 52 :: uint_chars d | Decimal.D5 d => 53 :: uint_chars d
  | Decimal.D6 d => 54 :: uint_chars d | Decimal.D7 d => 55 :: uint_chars d
  | Decimal.D8 d => 56 :: uint_chars d | Decimal.D9 d => 57 :: uint_chars d
  end.
Definition print_int (z : Z) : list nat :=
  match Z.to_int z with
  | Decimal.Pos u => uint_chars u
  | Decimal.Neg u => ch_minus :: uint_chars u
  end.

(** The last [k] decimal digits of [n], most significant first. *)
Fixpoint digits (k : nat) (n : Z) : list nat :=
  match k with
  | O => []
  | S k' => digits k' (n / 10)%Z ++ [48 + Z.to_nat (n mod 10)%Z]
  end.

(** [a/b] rounded to the nearest integer, ties to even. *)
Definition round_even (a b : Z) : Z :=
  let q := (a / b)%Z in
  let r := (a mod b)%Z in
  if (2 * r <? b)%Z then q
  else if (b <? 2 * r)%Z then (q + 1)%Z
  else if Z.even q then q else (q + 1)%Z.

(** [printf("%3.14E", fr)] for a zero or a number with 1/2 <= |fr| < 1, the
    results of [frexp]: sign, one digit, '.', fourteen digits, exponent; correctly
    rounded, so that a number that rounds up to 1 is printed as 1.0...E+00. *)
Definition print_frac (fr : dbl) : outcome (list nat) :=
  match fr with
  | S754_zero s =>
      Ok ((if s then [ch_minus] else []) ++ [48; 46] ++ repeat 48 14 ++ [69; 43; 48; 48])
  | S754_finite s m e =>
      if (0 <=? e)%Z then UB
      else
        let D := round_even (Z.pos m * 10 ^ 15) (2 ^ (- e)) in
        Ok ((if s then [ch_minus] else []) ++
            (if (D <? 10 ^ 15)%Z
             then digits 1 (D / 10 ^ 14)%Z ++ [46] ++ digits 14 D ++ [69; 45; 48; 49]
             else [49; 46] ++ repeat 48 14 ++ [69; 43; 48; 48]))
  | _ => UB
  end.

(** serialize_double_to_text, array.c 521-559: "%3.14E:%d" of the fraction and
    the exponent.  The block has 40 bytes, the text at most 27.  The exponent
    [frexp] gives for an infinity or a NaN is unspecified: outside the model
    ([UB]). *)
Definition dbl_text (x : dbl) : outcome (list nat) :=
  let (fr, ex) := cfrexp x in
  do t <- print_frac fr;
  Ok (t ++ [58] ++ print_int ex ++ [0]).

(** serialize_darray_to_text, array.c 586-607; [N-1] wraps around for [N = 0],
    and the loop then runs out of the array. *)
Definition darray_text (n : nat) (x : list dbl) : outcome (option (list nat)) :=
  if n =? 0 then UB
  else
    do b <- for_ (n - 1) (fun ii b =>
              do xi <- aget x ii;
              do t <- dbl_text xi;
              do b <- concat_string_ow b (Some t);
              concat_string_ow b (Some [44; 0])) None;
    do xi <- aget x (n - 1);
    do t <- dbl_text xi;
    concat_string_ow b (Some t).

(** [(size_t) *str]: [char] is signed. *)
Definition size_of_char (c : nat) : N :=
  let c := N.of_nat c in if (c <? 128)%N then c else (c + (2 ^ 64 - 256))%N.

(** hashsimple, monitoring.c 549-558; [size_t] wraps around. *)
Fixpoint hash_loop (h : N) (l : list nat) : outcome N :=
  match l with
  | [] => UB
  | c :: t =>
      if c =? 0 then Ok h
      else hash_loop ((size_of_char c + N.modulo (h * 32) (2 ^ 64) + (2 ^ 64 - h)) mod 2 ^ 64)%N t
  end.
Definition hashsimple (size : nat) (str : list nat) : outcome nat :=
  do h <- hash_loop 0%N str;
  if size =? 0 then UB else Ok (N.to_nat (N.modulo h (N.of_nat size))).

(** [strcmp(a,b) == 0] (C library). *)
Fixpoint streq (a b : list nat) : outcome bool :=
  match a, b with
  | x :: a', y :: b' =>
      if negb (x =? y) then Ok false else if x =? 0 then Ok true else streq a' b'
  | _, _ => UB
  end.

(** struct Cpair: a string and a block of bytes. *)
Definition cpair : Type := (list nat * list N)%type.

(** cpair_create, monitoring.c 245-267. *)
Definition cpair_create (a : list nat) (b : list N) : outcome cpair :=
  do n1 <- cstrlen a;
  do v <- mread a 0 n1;
  do (d, _) <- rd b 0 (szI + sz8);
  Ok (v ++ [0], d).

(** struct HashtableCpair: the lists, the last pushed pair first. *)
Record htab := { ht_size : nat; ht_table : list (list cpair) }.

(** create_hashtable_cp, monitoring.c 420-443; [None] is NULL. *)
Definition create_hashtable (size : nat) : option htab :=
  if size <? 1 then None
  else Some {| ht_size := size; ht_table := tab size (fun _ => []) |}.

(** lookup_key, monitoring.c 453-474. *)
Fixpoint lookup_list (key : list nat) (pl : list cpair) : outcome (option (list N)) :=
  match pl with
  | [] => Ok None
  | (a, b) :: t =>
      do e <- streq key a;
      if e then do (o, _) <- rd b 0 (szI + sz8); Ok (Some o)
      else lookup_list key t
  end.
Definition lookup_key (ht : htab) (key : list nat) : outcome (option (list N)) :=
  do v <- hashsimple (ht_size ht) key;
  do pl <- aget (ht_table ht) v;
  lookup_list key pl.

(** add_cpair, monitoring.c 485-500, with copy_cpair 284-288 and pair_push
    302-309. *)
Definition add_cpair (ht : htab) (cp : cpair) : outcome (htab * nat) :=
  do v <- hashsimple (ht_size ht) (fst cp);
  do cur <- lookup_key ht (fst cp);
  match cur with
  | Some _ => Ok (ht, 2)
  | None =>
      do c <- cpair_create (fst cp) (snd cp);
      do pl <- aget (ht_table ht) v;
      do t <- aset (ht_table ht) v (c :: pl);
      Ok ({| ht_size := ht_size ht; ht_table := t |}, 0)
  end.

(** nstored_hashtable_cp, monitoring.c 527-537, with pair_list_len 369-379. *)
Definition nstored (ht : htab) : outcome nat :=
  for_ (ht_size ht) (fun ii n => do pl <- aget (ht_table ht) ii; Ok (n + length pl)) 0.

(** struct FunctionMonitor (the function and its arguments are passed to
    [mon_eval]). *)
Record mon := { fm_dim : nat; fm_evals : option htab }.

(** function_monitor_initnd, monitoring.c 65-81. *)
Definition mon_init (dim tsize : nat) : mon :=
  {| fm_dim := dim; fm_evals := create_hashtable tsize |}.

(** function_monitor_eval, monitoring.c 109-154: the value, the monitor
    afterwards and the points at which the function was called. *)
Definition mon_eval (f : list dbl -> dbl) (fm : mon) (x : list dbl) :
  outcome (dbl * mon * list (list dbl)) :=
  do ser <- darray_text (fm_dim fm) x;
  match ser, fm_evals fm with
  | Some ser, Some ht =>
      do sval <- lookup_key ht ser;
      match sval with
      | Some s => do v <- des_packed s; Ok (v, fm, [])
      | None =>
          let v := f x in
          do s <- ser_packed v;
          do cp <- cpair_create ser s;
          do (ht', _) <- add_cpair ht cp;
          Ok (v, {| fm_dim := fm_dim fm; fm_evals := Some ht' |}, [x])
      end
  | _, _ => UB
  end.

(** A sequence of evaluations through one monitor. *)
Fixpoint mon_run (f : list dbl -> dbl) (fm : mon) (xs : list (list dbl)) :
  outcome (list dbl * mon * list (list dbl)) :=
  match xs with
  | [] => Ok ([], fm, [])
  | x :: t =>
      do (v, fm, c) <- mon_eval f fm x;
      do (vs, fm, cs) <- mon_run f fm t;
      Ok (v :: vs, fm, c ++ cs)
  end.

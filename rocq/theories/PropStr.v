(** Properties C24 (string utilities), C46 (itoa), C47 (text tables).

    A C string with contents [s] in a memory block is [s ++ 0 :: rest] with no
    NUL in [s]; [rest] is what follows in the block.  Unbounded loops take fuel;
    the theorems hold for every sufficient amount. *)
From Verif Require Import Base StrModel StrFacts StrItoa.
From Coq Require Import ZArith.
Close Scope Z_scope.

(** * C24 *)

(** Leading and trailing blanks go, the rest stays, and nothing outside the block
    is touched, provided a string with leading blanks is followed by at least one
    more byte of its block and is not blank. *)
Theorem C24_strip_blank_ends :
  forall a m b rest fuel,
  m <> [] -> ~ In 0 m -> hd 0 m <> ch_blank -> last m 0 <> ch_blank ->
  (a = 0 \/ rest <> []) -> a < fuel ->
  exists rest',
    strip_blank_ends fuel (repeat ch_blank a ++ m ++ repeat ch_blank b ++ 0 :: rest)
    = Ok (m ++ 0 :: rest')
    /\ length rest' = length rest + a + b.
Proof. exact strip_blank_ends_ok. Qed.
Print Assumptions C24_strip_blank_ends.

Example C24_strip_blank_ends_case :
  strip_blank_ends 5 [32; 32; 97; 32; 98; 32; 0; 7] = Ok [97; 32; 98; 0; 0; 7; 7; 7].
Proof. reflexivity. Qed.

(** The empty and every blank string, in every block: undefined behaviour. *)
Theorem C24_strip_blank_ends_refuted :
  forall a rest fuel,
  a < fuel -> strip_blank_ends fuel (repeat ch_blank a ++ 0 :: rest) = UB.
Proof. exact strip_blank_ends_blank. Qed.
Print Assumptions C24_strip_blank_ends_refuted.

(** Every string with a leading blank whose block ends with its NUL: a read
    outside the block. *)
Theorem C24_strip_blank_ends_exact_block_refuted :
  forall s fuel, ~ In 0 s -> strip_blank_ends (S fuel) (ch_blank :: s ++ [0]) = UB.
Proof. exact strip_blank_ends_exact_block. Qed.
Print Assumptions C24_strip_blank_ends_exact_block_refuted.

(** strip_ends works if there is nothing to strip on the left or something to
    strip on the right. *)
Theorem C24_strip_ends :
  forall a m b rest left right fuel,
  left <> 0 -> right <> 0 -> m <> [] -> ~ In 0 m -> hd 0 m <> left ->
  last m 0 <> right -> (a = 0 \/ b <> 0) -> a < fuel ->
  exists rest',
    strip_ends fuel (repeat left a ++ m ++ repeat right b ++ 0 :: rest) left right
    = Ok (m ++ 0 :: rest')
    /\ length rest' = length rest + a + b.
Proof. exact strip_ends_ok. Qed.
Print Assumptions C24_strip_ends.

Example C24_strip_ends_case :
  strip_ends 5 [40; 40; 97; 98; 41; 0] 40 41 = Ok [97; 98; 0; 41; 41; 0].
Proof. reflexivity. Qed.

(** Otherwise it appends copies of the last character: "((ab" gives "abbb". *)
Theorem C24_strip_ends_refuted :
  forall a m rest left right fuel,
  left <> 0 -> right <> 0 -> m <> [] -> ~ In 0 m -> hd 0 m <> left ->
  last m 0 <> right -> a < fuel ->
  strip_ends fuel (repeat left a ++ m ++ 0 :: rest) left right
  = Ok (m ++ repeat (last m 0) a ++ 0 :: rest).
Proof. exact strip_ends_wrong. Qed.
Print Assumptions C24_strip_ends_refuted.

Example C24_strip_ends_refuted_case :
  strip_ends 5 [40; 40; 97; 98; 0] 40 41 = Ok [97; 98; 98; 98; 0].
Proof. reflexivity. Qed.

(** On a string of [left] characters it does not end. *)
Theorem C24_strip_ends_diverges_refuted :
  forall a rest left right fuel, left <> 0 ->
  strip_ends fuel (repeat left (S a) ++ 0 :: rest) left right = OutOfFuel.
Proof. exact strip_ends_diverges. Qed.
Print Assumptions C24_strip_ends_diverges_refuted.

(** On the empty string it reads below the string. *)
Theorem C24_strip_ends_empty_refuted :
  forall rest left right fuel, left <> 0 ->
  strip_ends (S fuel) (0 :: rest) left right = UB.
Proof. exact strip_ends_empty. Qed.
Print Assumptions C24_strip_ends_empty_refuted.

(** bite_string: prefix before the first delimiter, remainder after it. *)
Theorem C24_bite_string :
  forall p q tok rest,
  ~ In 0 (p ++ tok :: q) -> ~ In tok p ->
  exists rest', bite_string (p ++ tok :: q ++ 0 :: rest) tok
                = Ok (Some (p ++ [0]), q ++ 0 :: rest').
Proof. exact bite_string_some. Qed.
Print Assumptions C24_bite_string.

Theorem C24_bite_string_absent :
  forall s tok rest, ~ In 0 s -> ~ In tok s -> tok <> 0 ->
  bite_string (s ++ 0 :: rest) tok = Ok (None, s ++ 0 :: rest).
Proof. exact bite_string_none. Qed.
Print Assumptions C24_bite_string_absent.

Example C24_bite_string_case :
  bite_string [97; 58; 98; 58; 99; 0] 58 = Ok (Some [97; 0], [98; 58; 99; 0; 99; 0])
  /\ bite_string [58; 0] 58 = Ok (Some [0], [0; 0])
  /\ bite_string [0] 58 = Ok (None, [0]).
Proof. repeat split. Qed.

(** parse_string splits at every delimiter: the parts contain none, and joined
    with delimiters they give the string back. *)
Theorem C24_parse_string :
  forall s tok rest, ~ In 0 s ->
  exists parts,
    parse_string (s ++ 0 :: rest) tok
    = Ok (map (fun p => Some (p ++ [0])) parts, length parts)
    /\ join tok parts = s /\ Forall (fun p => ~ In tok p) parts.
Proof. exact parse_string_ok. Qed.
Print Assumptions C24_parse_string.

Example C24_parse_string_case :
  parse_string [44; 97; 98; 44; 0; 5] 44
  = Ok ([Some [0]; Some [97; 98; 0]; Some [0]], 3).
Proof. reflexivity. Qed.

(** concat_string, NULL counting as the empty string. *)
Theorem C24_concat_string :
  forall (a b : option (list nat)) ra rb,
  ~ In 0 (str_opt a) -> ~ In 0 (str_opt b) ->
  concat_string (option_map (fun s => s ++ 0 :: ra) a)
                (option_map (fun s => s ++ 0 :: rb) b)
  = Ok (str_opt a ++ str_opt b ++ [0]).
Proof. exact concat_string_ok. Qed.
Print Assumptions C24_concat_string.

Example C24_concat_string_case :
  concat_string (Some [97; 98; 0; 9]) (Some [99; 0]) = Ok [97; 98; 99; 0]
  /\ concat_string None None = Ok [0].
Proof. split; reflexivity. Qed.

(** bite_string2 splits at a multi-character delimiter whose first character does
    not occur before it, in a string that does not start with it ... *)
Theorem C24_bite_string2 :
  forall p c t q rest trest,
  ~ In 0 (p ++ (c :: t) ++ q) -> p <> [] -> ~ In c p ->
  exists rest',
    bite_string2 (p ++ (c :: t) ++ q ++ 0 :: rest) ((c :: t) ++ 0 :: trest)
    = Ok (Some (p ++ [0]), q ++ 0 :: rest').
Proof. exact bite_string2_ok. Qed.
Print Assumptions C24_bite_string2.

Example C24_bite_string2_case :
  bite_string2 [97; 61; 62; 98; 0] [61; 62; 0] = Ok (Some [97; 0], [98; 0; 62; 98; 0]).
Proof. reflexivity. Qed.

(** ... and misses occurrences otherwise: "ab" in "aab", and any delimiter at the
    start of the string. *)
Theorem C24_bite_string2_refuted :
  (exists p t q, p <> [] /\ ~ In 0 (p ++ t ++ q) /\ t <> []
     /\ bite_string2 (p ++ t ++ q ++ [0]) (t ++ [0]) = Ok (None, p ++ t ++ q ++ [0]))
  /\ (exists t q, t <> [] /\ ~ In 0 (t ++ q)
     /\ bite_string2 (t ++ q ++ [0]) (t ++ [0]) = Ok (None, t ++ q ++ [0])).
Proof.
  split.
  - exists [97], [97; 98], [99]. split; [discriminate|]. split; [cbn; lia|].
    split; [discriminate|reflexivity].
  - exists [97; 98], [99]. split; [discriminate|]. split; [cbn; lia|reflexivity].
Qed.
Print Assumptions C24_bite_string2_refuted.

(** * C46: itoa writes the numeral of its argument. *)
Theorem C46_itoa :
  forall base value result fuel,
  (2 <= base <= 36)%Z -> (- 2 ^ 31 <= value < 2 ^ 31)%Z ->
  34 <= length result -> 34 <= fuel ->
  exists s rest,
    itoa fuel value result base = Ok (s ++ 0 :: rest)
    /\ length (s ++ 0 :: rest) = length result
    /\ (forall c, In c s -> is_digit base c \/ c = ch_minus)
    /\ numeral_val base s = value
    /\ (value = 0%Z -> length s = 1)
    /\ ((0 < value)%Z -> digit_val (hd 0 s) <> 0%Z)
    /\ ((value < 0)%Z -> digit_val (hd 0 (tl s)) <> 0%Z).
Proof. exact itoa_int. Qed.
Print Assumptions C46_itoa.

Example C46_itoa_case :
  itoa 10 (-255)%Z (repeat 1 6) 16%Z = Ok [45; 102; 102; 0; 1; 1]
  /\ itoa 40 (- 2 ^ 31)%Z (repeat 1 34) 2%Z
     = Ok (45 :: 49 :: repeat 48 31 ++ [0]).
Proof. split; reflexivity. Qed.

(** * C47: reading a table of numbers from text. *)

(** Without tabs: the entries in order, the number of non-empty lines, the number
    of entries per line.  [atof] is arbitrary. *)
Theorem C47_readtxt_partial :
  forall (X : Type) (zero : X) atof s,
  ~ In 9 s -> strtok_all [10] [] s <> [] ->
  readtxt_double_array zero atof s
  = Ok (map atof (strtok_all [32; 44; 10] [] s),
        length (strtok_all [10] [] s),
        length (strtok_all [32; 44; 10] [] s) / length (strtok_all [10] [] s)).
Proof. exact readtxt_no_tab. Qed.
Print Assumptions C47_readtxt_partial.

(** Two numbers separated by a tab, although the tab is a separator when the
    entries are counted: one token "1<tab>2" is converted and the second entry
    keeps its initial value, whatever [atof] is.  A text without any line divides
    by zero. *)
Theorem C47_readtxt_refuted :
  (forall (X : Type) (zero : X) (atof : list nat -> X),
     readtxt_double_array zero atof [49; 9; 50] = Ok ([atof [49; 9; 50]; zero], 1, 2))
  /\ (forall (X : Type) (zero : X) (atof : list nat -> X),
     readtxt_double_array zero atof [] = UB).
Proof. split; reflexivity. Qed.
Print Assumptions C47_readtxt_refuted.

Example C47_readtxt_case :
  readtxt_double_array 0 (fun s => length s) [49; 50; 32; 50; 10; 51; 44; 52; 53; 54; 10]
  = Ok ([2; 1; 1; 3], 2, 2).
Proof. reflexivity. Qed.

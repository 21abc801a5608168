(** Model of the string utilities, c3/lib_stringmanip/stringmanip.c.

    A [char] is a [nat] (its code); the memory block a [char *] argument points
    into is a [list nat], starting at the pointer.  Reading or writing outside
    the block, in particular below the pointer, is [UB].  Blocks obtained from
    [malloc] whose bytes are all written before use are modelled by the list of
    their final contents.  [int] and [size_t] do not wrap. *)
From Verif Require Import Base.
From Coq Require Import ZArith.

(** The codes of ' ' and '-'. *)
Definition ch_blank : nat := 32.
Definition ch_minus : nat := 45.

(** [strlen] (C library): UB if there is no NUL inside the block. *)
Fixpoint cstrlen (l : list nat) : outcome nat :=
  match l with
  | [] => UB
  | c :: t => if c =? 0 then Ok 0 else do n <- cstrlen t; Ok (S n)
  end.

(** [n] bytes starting at offset [off] (the read half of [memmove]/[memcpy]). *)
Definition mread (l : list nat) (off n : nat) : outcome (list nat) :=
  if off + n <=? length l then Ok (firstn n (skipn off l)) else UB.

(** Overwrite the bytes at offset [off] by [v] (the write half). *)
Definition mwrite (l : list nat) (off : nat) (v : list nat) : outcome (list nat) :=
  if off + length v <=? length l
  then Ok (firstn off l ++ v ++ skipn (off + length v) l) else UB.

(** [memmove(l+dst, l+src, n)] inside one block. *)
Definition memmove (l : list nat) (dst src n : nat) : outcome (list nat) :=
  do v <- mread l src n; mwrite l dst v.

(** [while (str[n] == right || str[n] == '\0') n--;]
    stringmanip.c 60-61 (right = ' ') and 76-78.  A decrement of [n = 0] makes
    the next read [str[-1]], outside the block. *)
Fixpoint trim_right (right : nat) (l : list nat) (n : nat) : outcome nat :=
  do c <- aget l n;
  if (c =? right) || (c =? 0)
  then match n with
       | O => UB
       | S n' => trim_right right l n'
       end
  else Ok n.

(** [while (str[0] == ' ') memmove(str,str+1,strlen(str)+1);]
    stringmanip.c 54-57. *)
Fixpoint shift_blanks (fuel : nat) (l : list nat) : outcome (list nat) :=
  match fuel with
  | O => OutOfFuel
  | S fuel' =>
      do c <- aget l 0;
      if c =? ch_blank
      then do n <- cstrlen l;
           do l' <- memmove l 0 1 (n + 1);
           shift_blanks fuel' l'
      else Ok l
  end.

(** strip_blank_ends, stringmanip.c 48-63. *)
Definition strip_blank_ends (fuel : nat) (l : list nat) : outcome (list nat) :=
  do l1 <- shift_blanks fuel l;
  do n <- cstrlen l1;
  do m <- trim_right ch_blank l1 n;
  aset l1 (m + 1) 0.

(** [while (str[0] == left) memmove(str,str+1,strlen(str+1));]
    stringmanip.c 70-73. *)
Fixpoint shift_left (fuel : nat) (left : nat) (l : list nat) : outcome (list nat) :=
  match fuel with
  | O => OutOfFuel
  | S fuel' =>
      do c <- aget l 0;
      if c =? left
      then do n <- cstrlen (skipn 1 l);
           do l' <- memmove l 0 1 n;
           shift_left fuel' left l'
      else Ok l
  end.

(** strip_ends, stringmanip.c 65-80. *)
Definition strip_ends (fuel : nat) (l : list nat) (left right : nat)
  : outcome (list nat) :=
  do l1 <- shift_left fuel left l;
  do n <- cstrlen l1;
  do m <- trim_right right l1 n;
  aset l1 (m + 1) 0.

(** The search loop of bite_string, stringmanip.c 91-98.  [None]: the early
    return of NULL. *)
Fixpoint bite_find (fuel : nat) (l : list nat) (tok ii : nat) : outcome (option nat) :=
  match fuel with
  | O => OutOfFuel
  | S fuel' =>
      do c <- aget l ii;
      if c =? tok then Ok (Some ii)
      else do n <- cstrlen l;
           if S ii =? n + 1 then Ok None else bite_find fuel' l tok (S ii)
  end.

(** bite_string, stringmanip.c 82-108, for a non-NULL argument.  Returns the new
    string (or NULL) and the modified argument.  The fuel is the size of the
    block plus one; [bite_string_ok] shows that it suffices. *)
Definition bite_string (l : list nat) (tok : nat)
  : outcome (option (list nat) * list nat) :=
  do r <- bite_find (S (length l)) l tok 0;
  match r with
  | None => Ok (None, l)
  | Some ii =>
      do p <- mread l 0 ii;
      do n <- cstrlen l;
      do l' <- memmove l 0 (ii + 1) (n + 1 - ii - 1);
      Ok (Some (p ++ [0]), l')
  end.

(** The matching loop of bite_string2, stringmanip.c 116-127: [for] loop with a
    [break]; [rem] counts the remaining iterations (strlen(strin) is not changed
    by the loop).  Result: [(ii, cut)] at loop exit. *)
Fixpoint bite2_find (rem : nat) (l tok : list nat) (nt ii nmatch : nat)
  : outcome (nat * nat) :=
  match rem with
  | O => Ok (ii, 0)
  | S rem' =>
      do c <- aget l ii;
      do t <- aget tok nmatch;
      let nm := if c =? t then S nmatch else 0 in
      if nm =? nt then Ok (ii, ii + 1 - nm)
      else bite2_find rem' l tok nt (S ii) nm
  end.

(** bite_string2, stringmanip.c 110-136. *)
Definition bite_string2 (l tok : list nat) : outcome (option (list nat) * list nat) :=
  do n <- cstrlen l;
  do nt <- cstrlen tok;
  do (ii, cut) <- bite2_find n l tok nt 0 0;
  if 0 <? cut
  then do p <- mread l 0 cut;
       do l' <- memmove l 0 (cut + nt) (n + 1 - ii - 1);
       Ok (Some (p ++ [0]), l')
  else Ok (None, l).

(** parse_string, stringmanip.c 138-173.  The result array [out] of [N] pointers
    is a list of options, [None] being an uninitialised slot. *)
Definition parse_string (l : list nat) (tok : nat)
  : outcome (list (option (list nat)) * nat) :=
  do n <- cstrlen l;
  do cnt <- for_ n (fun ii c => do x <- aget l ii;
                                Ok (if x =? tok then c + 1 else c)) 0;
  let N := cnt + 1 in
  do st <- for_ n (fun jj st =>
      let '(out, ii, track) := st in
      do x <- aget l jj;
      if x =? tok
      then let new_len := jj - track + 1 in
           do p <- mread l track (new_len - 1);
           do out' <- aset out ii (Some (p ++ [0]));
           Ok (out', ii + 1, jj + 1)
      else Ok st) (repeat (@None (list nat)) N, 0, 0);
  let '(out, ii, track) := st in
  let new_len := n - track + 1 in
  do p <- mread l track (new_len - 1);
  do out' <- aset out ii (Some (p ++ [0]));
  Ok (out', N).

(** concat_string, stringmanip.c 175-202; NULL is [None]. *)
Definition concat_string (a b : option (list nat)) : outcome (list nat) :=
  do n1 <- match a with None => Ok 0 | Some l => cstrlen l end;
  do n2 <- match b with None => Ok 0 | Some l => cstrlen l end;
  let c := repeat 0 (n1 + n2 + 1) in
  do c <- match a with
          | Some l => if 0 <? n1 then do v <- mread l 0 n1; mwrite c 0 v else Ok c
          | None => Ok c end;
  do c <- match b with
          | Some l => if 0 <? n2 then do v <- mread l 0 n2; mwrite c n1 v else Ok c
          | None => Ok c end;
  aset c (n1 + n2) 0.

(** concat_string_ow, stringmanip.c 205-212: [*a] is replaced. *)
Definition concat_string_ow (a b : option (list nat)) : outcome (option (list nat)) :=
  do c <- concat_string a b; Ok (Some c).

(** The literal "zyx...a9876543210123456789abc...z" of stringmanip.c 228. *)
Definition digit_char (d : nat) : nat := if d <? 10 then 48 + d else 87 + d.
Definition itoa_table : list nat :=
  map digit_char (rev (seq 1 35)) ++ map digit_char (seq 0 36) ++ [0].

(** The [do .. while (value)] loop of itoa, stringmanip.c 225-229; [pos] is
    [ptr - result].  Result: block, [ptr] and the last [tmp_value]. *)
Fixpoint itoa_digits (fuel : nat) (value base : Z) (l : list nat) (pos : nat)
  : outcome (list nat * nat * Z) :=
  match fuel with
  | O => OutOfFuel
  | S fuel' =>
      let tmp_value := value in
      let value := Z.quot value base in
      do c <- aget itoa_table (Z.to_nat (35 + (tmp_value - value * base)));
      do l' <- aset l pos c;
      if (value =? 0)%Z then Ok (l', S pos, tmp_value)
      else itoa_digits fuel' value base l' (S pos)
  end.

(** The reversal loop of itoa, stringmanip.c 234-238: positions [p1 < p]. *)
Fixpoint itoa_rev (fuel : nat) (l : list nat) (p1 p : nat) : outcome (list nat) :=
  match fuel with
  | O => OutOfFuel
  | S fuel' =>
      if p1 <? p
      then do tmp <- aget l p;
           do x <- aget l p1;
           do l <- aset l p x;
           do l <- aset l p1 tmp;
           itoa_rev fuel' l (S p1) (p - 1)
      else Ok l
  end.

(** itoa, stringmanip.c 216-240. *)
Definition itoa (fuel : nat) (value : Z) (result : list nat) (base : Z)
  : outcome (list nat) :=
  if ((base <? 2) || (36 <? base))%Z then aset result 0 0
  else
    do (l, pos, tmp_value) <- itoa_digits fuel value base result 0;
    do (l, pos) <- (if (tmp_value <? 0)%Z
                    then do l <- aset l pos ch_minus; Ok (l, S pos)
                    else Ok (l, pos));
    do l <- aset l pos 0;
    itoa_rev fuel l 0 (pos - 1).

(** strtok over a whole string (C library; readtxt_double_array, stringmanip.c
    335-373, calls it in this way only): the maximal runs of characters that are
    not in [delim], in order. *)
Fixpoint strtok_all (delim : list nat) (cur s : list nat) : list (list nat) :=
  match s with
  | [] => match cur with [] => [] | _ => [rev cur] end
  | c :: t =>
      if existsb (Nat.eqb c) delim
      then match cur with
           | [] => strtok_all delim [] t
           | _ => rev cur :: strtok_all delim [] t
           end
      else strtok_all delim (c :: cur) t
  end.

(** readtxt_double_array, stringmanip.c 326-373, on the string [s] (the bytes
    before the NUL); [atof] is the C library function, here any function from
    strings to numbers.  A division by a zero row count is UB. *)
Definition readtxt_double_array {X} (zero : X) (atof : list nat -> X) (s : list nat)
  : outcome (list X * nat * nat) :=
  let ntot := length (strtok_all [9; 32; 44; 10] [] s) in
  let data := repeat zero ntot in
  let nrows := length (strtok_all [10] [] s) in
  if nrows =? 0 then UB
  else
    let ncols := ntot / nrows in
    let toks := strtok_all [32; 44; 10] [] s in
    do data <- for_ (length toks) (fun ind data =>
                 do t <- aget toks ind; aset data ind (atof t)) data;
    Ok (data, nrows, ncols).

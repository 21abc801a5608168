(** Model of the binary serialization layer:
    c3/lib_stringmanip/stringmanip.c 242-313 (codecs of the basic types),
    c3/lib_funcs (codecs of the five univariate classes and of
    [struct GenericFunction]), c3/lib_clinalg/quasimatrix.c, qmarray.c, ft.c
    (quasimatrices, matrices of functions, function trains, arrays of trains)
    and the binary files of c3/lib_array/array.c 647-745 and ft.c 415-480,
    4130-4180.

    Conventions.  A byte is an [N]; a buffer is the [list N] of the bytes of one
    allocated block and a pointer into it is an offset.  Reading or writing past
    the end of the block is [UB].  A [double] is its 64-bit pattern ([N]); an
    [int] is a [Z], a [size_t] is a [nat].  [memcpy] of a scalar is little endian
    with sizes 1/4/8/8 (the fixed layout only has to be the same when writing and
    reading).  Size computations in [size_t] do not wrap; the values written into
    [size_t] fields are reduced modulo 2^64, the ones written into [int] fields
    modulo 2^32. *)
From Verif Require Import Base.
From Coq Require Import NArith ZArith.

Definition szI : nat := 4.   (* sizeof(int), sizeof(enum) *)
Definition sz8 : nat := 8.   (* sizeof(size_t) = sizeof(double) = sizeof(long long) *)

(** The [k] bytes of [x], least significant first. *)
Fixpoint le_bytes (k : nat) (x : N) : list N :=
  match k with
  | O => []
  | S k' => N.modulo x 256 :: le_bytes k' (N.div x 256)
  end.

Fixpoint le_val (l : list N) : N :=
  match l with
  | [] => 0%N
  | b :: t => (b + 256 * le_val t)%N
  end.

(** [memcpy(buf+p, v, |v|); return buf+p+|v|]. *)
Definition wr (buf : list N) (p : nat) (v : list N) : outcome (list N * nat) :=
  if p + length v <=? length buf
  then Ok (firstn p buf ++ v ++ skipn (p + length v) buf, p + length v) else UB.

(** [memcpy(v, buf+p, n); return buf+p+n]. *)
Definition rd (buf : list N) (p n : nat) : outcome (list N * nat) :=
  if p + n <=? length buf then Ok (firstn n (skipn p buf), p + n) else UB.

(** serialize_char, stringmanip.c 242-247. *)
Definition ser_char (buf : list N) (p : nat) (c : N) :=
  wr buf p (le_bytes 1 c).

(** serialize_int, deserialize_int, stringmanip.c 249-261 (two's complement). *)
Definition ser_int (buf : list N) (p : nat) (v : Z) :=
  wr buf p (le_bytes szI (Z.to_N (Z.modulo v (2 ^ 32)))).

Definition int_of (x : N) : Z :=
  if (x <? 2 ^ 31)%N then Z.of_N x else (Z.of_N x - 2 ^ 32)%Z.

Definition des_int (buf : list N) (p : nat) : outcome (Z * nat) :=
  do (l, q) <- rd buf p szI; Ok (int_of (le_val l), q).

(** serialize_size_t, deserialize_size_t, stringmanip.c 263-275. *)
Definition ser_sz (buf : list N) (p : nat) (v : nat) :=
  wr buf p (le_bytes sz8 (N.of_nat v)).

Definition des_sz (buf : list N) (p : nat) : outcome (nat * nat) :=
  do (l, q) <- rd buf p sz8; Ok (N.to_nat (le_val l), q).

(** serialize_double, deserialize_double, stringmanip.c 277-289. *)
Definition ser_dbl (buf : list N) (p : nat) (v : N) :=
  wr buf p (le_bytes sz8 v).

Definition des_dbl (buf : list N) (p : nat) : outcome (N * nat) :=
  do (l, q) <- rd buf p sz8; Ok (le_val l, q).

(** The bytes of an array of doubles, and back. *)
Fixpoint dbytes (v : list N) : list N :=
  match v with
  | [] => []
  | x :: t => le_bytes sz8 x ++ dbytes t
  end.

Fixpoint undbytes (n : nat) (l : list N) : list N :=
  match n with
  | O => []
  | S n' => le_val (firstn sz8 l) :: undbytes n' (skipn sz8 l)
  end.

(** serialize_doublep, stringmanip.c 291-300: [memcpy] of [N * sizeof(double)]
    bytes out of an array of [length value] doubles. *)
Definition ser_dblp (buf : list N) (p : nat) (value : list N) (n : nat) :=
  do (b, q) <- ser_sz buf p n;
  if n <=? length value then wr b q (dbytes (firstn n value)) else UB.

(** deserialize_doublep, stringmanip.c 302-313. *)
Definition des_dblp (buf : list N) (p : nat) : outcome (list N * nat * nat) :=
  do (n, q) <- des_sz buf p;
  do (l, r) <- rd buf q (n * sz8);
  Ok (undbytes n l, n, r).

(** Loops writing / reading a sequence of objects: the code's
    [for (ii = 0; ii < n; ii++) ptr = ser(ptr, a[ii]);]. *)
Definition ser_arr {A} (ser : list N -> nat -> A -> outcome (list N * nat))
    (buf : list N) (p : nat) (a : list A) (n : nat) : outcome (list N * nat) :=
  for_ n (fun i '(b, q) => do x <- aget a i; ser b q x) (buf, p).

Definition des_arr {A} (des : list N -> nat -> outcome (A * nat))
    (buf : list N) (p n : nat) : outcome (list A * nat) :=
  for_ n (fun _ '(acc, q) => do (x, r) <- des buf q; Ok (acc ++ [x], r)) ([], p).

(** [for (ii = 0; ii < n; ii++) totSize += size(a[ii]);]. *)
Definition size_arr {A} (size : A -> outcome nat) (s0 : nat) (a : list A) (n : nat)
  : outcome nat :=
  for_ n (fun i s => do x <- aget a i; do t <- size x; Ok (s + t)) s0.

(** ** Univariate functions *)

(** struct LinElemExp (linelm.h) and struct ConstElemExp (constelm.h). *)
Record elemexp := { ee_n : nat; ee_nodes : list N; ee_coeff : list N }.

(** serialize_lin_elem_exp, linelm.c 593-612; serialize_const_elem_exp,
    constelm.c 537-556 (the same text). *)
Definition size_ee (f : elemexp) : outcome nat := Ok (3 * sz8 + 2 * ee_n f * sz8).

Definition ser_ee (buf : list N) (p : nat) (f : elemexp) :=
  do (b, q) <- ser_sz buf p (ee_n f);
  do (b, q) <- ser_dblp b q (ee_nodes f) (ee_n f);
  ser_dblp b q (ee_coeff f) (ee_n f).

(** deserialize_lin_elem_exp, linelm.c 622-633; deserialize_const_elem_exp,
    constelm.c 566-577.  [num_nodes] is overwritten three times. *)
Definition des_ee (buf : list N) (p : nat) : outcome (elemexp * nat) :=
  do (_, q) <- des_sz buf p;
  do (nd, _, q) <- des_dblp buf q;
  do (cf, n2, q) <- des_dblp buf q;
  Ok ({| ee_n := n2; ee_nodes := nd; ee_coeff := cf |}, q).

(** struct SpaceMapping, polynomials.c 70-80. *)
Record smap := { sm_map : Z; sm_set : Z; sm_ls : N; sm_lo : N; sm_ils : N; sm_ilo : N }.

Definition SM_LINEAR : Z := 0.

(** serialize_space_mapping, polynomials.c 132-156. *)
Definition size_smap (m : smap) : outcome nat := Ok (szI + szI + 4 * sz8).

Definition ser_smap (buf : list N) (p : nat) (m : smap) :=
  do (b, q) <- ser_int buf p (sm_map m);
  do (b, q) <- ser_int b q (sm_set m);
  do (b, q) <- ser_dbl b q (sm_ls m);
  do (b, q) <- ser_dbl b q (sm_lo m);
  do (b, q) <- ser_dbl b q (sm_ils m);
  ser_dbl b q (sm_ilo m).

(** deserialize_space_mapping, polynomials.c 161-180; space_mapping_create,
    83-108, exits unless the map type is SM_LINEAR. *)
Definition des_smap (buf : list N) (p : nat) : outcome (smap * nat) :=
  do (mi, q) <- des_int buf p;
  do _ <- cassert (mi =? SM_LINEAR)%Z;
  do (st, q) <- des_int buf q;
  do (ls, q) <- des_dbl buf q;
  do (lo, q) <- des_dbl buf q;
  do (ils, q) <- des_dbl buf q;
  do (ilo, q) <- des_dbl buf q;
  Ok ({| sm_map := mi; sm_set := st; sm_ls := ls; sm_lo := lo; sm_ils := ils;
         sm_ilo := ilo |}, q).

(** enum poly_type, polynomials.h 70. *)
Definition LEGENDRE : Z := 0.
Definition CHEBYSHEV : Z := 1.
Definition HERMITE : Z := 2.
Definition STANDARD : Z := 3.
Definition FOURIER : Z := 4.

(** struct OrthPolyExpansion (polynomials.h).  Of the member [p] only [ptype] is
    kept: the other fields of a struct OrthPoly are fixed by it (init_leg_poly,
    init_cheb_poly, init_hermite_poly, init_fourier_poly).  [coeff] and [ccoeff]
    are the allocated arrays (empty for a NULL pointer), [nalloc] their recorded
    capacity. *)
Record ope := { op_ptype : Z; op_n : nat; op_lb : N; op_ub : N;
                op_coeff : list N; op_ccoeff : list (N * N);
                op_nalloc : nat; op_map : smap; op_krist : Z }.

(** serialize_orth_poly / deserialize_orth_poly, polynomials.c 1217-1266: the
    type as an [int]; reading any other value than the four known ones gives a
    NULL polynomial. *)
Definition des_orth_poly (buf : list N) (p : nat) : outcome (option Z) :=
  do (t, _) <- des_int buf p;
  Ok (if ((t =? LEGENDRE) || (t =? HERMITE) || (t =? CHEBYSHEV) || (t =? FOURIER))%Z
      then Some t else None).

(** serialize_orth_poly_expansion, polynomials.c 2514-2564. *)
Definition size_ope (f : ope) : outcome nat :=
  let t := if (op_ptype f =? FOURIER)%Z
           then szI + 2 * sz8 + 2 * op_n f * sz8 + sz8
           else szI + 2 * sz8 + op_n f * sz8 + sz8 in
  do m <- size_smap (op_map f);
  Ok (t + m + szI).

Definition ser_cplx (buf : list N) (p : nat) (c : N * N) :=
  do (b, q) <- ser_dbl buf p (fst c);
  ser_dbl b q (snd c).

Definition ser_ope (buf : list N) (p : nat) (f : ope) :=
  do (b, q) <- ser_int buf p (op_ptype f);
  do (b, q) <- ser_dbl b q (op_lb f);
  do (b, q) <- ser_dbl b q (op_ub f);
  do (b, q) <-
    (if (op_ptype f =? FOURIER)%Z
     then do (b, q) <- ser_sz b q (op_n f);
          ser_arr ser_cplx b q (op_ccoeff f) (op_n f)
     else ser_dblp b q (op_coeff f) (op_n f));
  do (b, q) <- ser_smap b q (op_map f);
  ser_int b q (op_krist f).

(** [ccoeff[ii] = cr + ci * (complex double) I], polynomials.c 2602: a real times
    a complex is computed componentwise, so the real part becomes [cr + ci * 0.0]
    and the imaginary part [ci * 1.0].  On bit patterns: [ci * 0.0] is a zero with
    the sign of [ci] unless [ci] is infinite or a NaN, in which case the sum is a
    NaN; adding a zero changes nothing except that [-0.0 + 0.0 = 0.0]. *)
Definition negzero : N := (2 ^ 63)%N.
Definition qnan : N := (4095 * 2 ^ 51)%N.   (* 0x7ff8 0000 0000 0000 *)
Definition dsign (x : N) : bool := N.testbit x 63.
Definition dspecial (x : N) : bool := (N.modulo (N.div x (2 ^ 52)) 2048 =? 2047)%N.
Definition cplx_re (cr ci : N) : N :=
  if dspecial ci then qnan
  else if (cr =? negzero)%N && negb (dsign ci) then 0%N else cr.

Definition des_cplx (buf : list N) (p : nat) : outcome ((N * N) * nat) :=
  do (cr, q) <- des_dbl buf p;
  do (ci, q) <- des_dbl buf q;
  Ok ((cplx_re cr ci, ci), q).

(** deserialize_orth_poly_expansion, polynomials.c 2574-2624; the polynomial type
    is read through a possibly NULL pointer ([p->ptype], 2595). *)
Definition des_ope (buf : list N) (p : nat) : outcome (ope * nat) :=
  do t <- des_orth_poly buf p;
  let q := p + szI in
  do (lb, q) <- des_dbl buf q;
  do (ub, q) <- des_dbl buf q;
  do ty <- match t with Some ty => Ok ty | None => UB end;
  do (cf, cc, n, q) <-
    (if (ty =? FOURIER)%Z
     then do (n, q) <- des_sz buf q;
          do (cc, q) <- des_arr des_cplx buf q n;
          Ok ([], cc, n, q)
     else do (cf, n, q) <- des_dblp buf q;
          Ok (cf, [], n, q));
  do (m, q) <- des_smap buf q;
  do (kr, q) <- des_int buf q;
  Ok ({| op_ptype := ty; op_n := n; op_lb := lb; op_ub := ub; op_coeff := cf;
         op_ccoeff := cc; op_nalloc := n; op_map := m; op_krist := kr |}, q).

(** struct PiecewisePoly: a leaf with an expansion, or [nbranches] subtrees
    (piecewisepoly.h 90-100). *)
Inductive pw :=
| PLeaf (o : ope)
| PNode (nb : nat) (br : list pw).

(** serialize_piecewise_poly in query mode, piecewisepoly.c 2593-2611: the first
    branch is read unconditionally. *)
Fixpoint size_pw (f : pw) : outcome nat :=
  match f with
  | PLeaf o => do s <- size_ope o; Ok (s + szI)
  | PNode nb br =>
      match br with
      | [] => UB
      | x :: t =>
          do s <- size_pw x;
          do s <-
            (fix go (n : nat) (l : list pw) (s : nat) {struct l} : outcome nat :=
               match l, n with
               | _, O => Ok s
               | [], S _ => UB
               | y :: t', S n' => do u <- size_pw y; go n' t' (s + u)
               end) (nb - 1) t s;
          Ok (s + sz8 + szI)
      end
  end.

(** serialize_piecewise_poly in write mode, piecewisepoly.c 2612-2628. *)
Fixpoint ser_pw (buf : list N) (p : nat) (f : pw) : outcome (list N * nat) :=
  match f with
  | PLeaf o => do (b, q) <- ser_int buf p 1; ser_ope b q o
  | PNode nb br =>
      do (b, q) <- ser_int buf p 0;
      do (b, q) <- ser_sz b q nb;
      (fix go (n : nat) (l : list pw) (b : list N) (q : nat) {struct l}
         : outcome (list N * nat) :=
         match l, n with
         | _, O => Ok (b, q)
         | [], S _ => UB
         | y :: t', S n' => do (b', q') <- ser_pw b q y; go n' t' b' q'
         end) nb br b q
  end.

(** deserialize_piecewise_poly, piecewisepoly.c 2639-2663; [fuel] bounds the
    recursion depth. *)
Fixpoint des_pw (fuel : nat) (buf : list N) (p : nat) : outcome (pw * nat) :=
  match fuel with
  | O => OutOfFuel
  | S fuel' =>
      do (leaf, q) <- des_int buf p;
      if (leaf =? 1)%Z
      then do (o, q) <- des_ope buf q; Ok (PLeaf o, q)
      else do (nb, q) <- des_sz buf q;
           do (br, q) <- des_arr (des_pw fuel') buf q nb;
           Ok (PNode nb br, q)
  end.

(** struct Kernel, kernels.c 143-148; serialize_kernel 200-216,
    deserialize_kernel 225-243. *)
Record kern := { kn_type : Z; kn_np : nat; kn_params : list N }.

Definition size_kern (k : kern) : outcome nat := Ok (szI + sz8 + kn_np k * sz8 + sz8).

Definition ser_kern (buf : list N) (p : nat) (k : kern) :=
  do (b, q) <- ser_int buf p (kn_type k);
  do (b, q) <- ser_sz b q (kn_np k);
  ser_dblp b q (kn_params k) (kn_np k).

Definition des_kern (buf : list N) (p : nat) : outcome (kern * nat) :=
  do (t, q) <- des_int buf p;
  do (_, q) <- des_sz buf q;
  do (ps, n, q) <- des_dblp buf q;
  Ok ({| kn_type := t; kn_np := n; kn_params := ps |}, q).

(** struct KernelExpansion, kernels.c; serialize_kernel_expansion 706-737,
    deserialize_kernel_expansion 747-777. *)
Record kexp := { ke_n : nat; ke_nalloc : nat; ke_coeff : list N; ke_kern : list kern;
                 ke_lb : N; ke_ub : N; ke_incl : nat }.

Definition size_kexp (k : kexp) : outcome nat :=
  do _ <- cassert (0 <? ke_n k);
  size_arr size_kern (sz8 + ke_n k * sz8 + sz8 + 2 * sz8 + sz8) (ke_kern k) (ke_n k).

Definition ser_kexp (buf : list N) (p : nat) (k : kexp) :=
  do _ <- size_kexp k;
  do (b, q) <- ser_sz buf p (ke_n k);
  do (b, q) <- ser_dblp b q (ke_coeff k) (ke_n k);
  do (b, q) <- ser_arr ser_kern b q (ke_kern k) (ke_n k);
  do (b, q) <- ser_dbl b q (ke_lb k);
  do (b, q) <- ser_dbl b q (ke_ub k);
  ser_sz b q (ke_incl k).

Definition des_kexp (buf : list N) (p : nat) : outcome (kexp * nat) :=
  do (n, q) <- des_sz buf p;
  do (cf, _, q) <- des_dblp buf q;
  do (ks, q) <- des_arr des_kern buf q n;
  do (lb, q) <- des_dbl buf q;
  do (ub, q) <- des_dbl buf q;
  do (inc, q) <- des_sz buf q;
  Ok ({| ke_n := n; ke_nalloc := n; ke_coeff := cf; ke_kern := ks; ke_lb := lb;
         ke_ub := ub; ke_incl := inc |}, q).

(** ** struct GenericFunction *)

(** enum function_class, functions.h 63, together with the object the pointer
    [f] refers to.  [FNone c] is an unknown class [c] with a NULL pointer. *)
Inductive gfun :=
| FPw (f : pw)
| FPoly (f : ope)
| FConst (f : elemexp)
| FLin (f : elemexp)
| FKern (f : kexp)
| FNone (c : Z).

Record gf := { g_dim : nat; g_f : gfun }.

Definition fclass (f : gfun) : Z :=
  match f with
  | FPw _ => 0 | FPoly _ => 1 | FConst _ => 2 | FLin _ => 3 | FKern _ => 4
  | FNone c => c
  end%Z.

(** serialize_generic_function, functions.c 254-279. *)
Definition size_gf (g : gf) : outcome nat :=
  do s <- match g_f g with
          | FPw f => size_pw f | FPoly f => size_ope f | FConst f => size_ee f
          | FLin f => size_ee f | FKern f => size_kexp f | FNone _ => Ok 0
          end;
  Ok (szI + sz8 + s).

Definition ser_gf (buf : list N) (p : nat) (g : gf) :=
  do (b, q) <- ser_sz buf p (g_dim g);
  do (b, q) <- ser_int b q (fclass (g_f g));
  match g_f g with
  | FPw f => ser_pw b q f | FPoly f => ser_ope b q f | FConst f => ser_ee b q f
  | FLin f => ser_ee b q f | FKern f => ser_kexp b q f | FNone _ => Ok (b, q)
  end.

(** deserialize_generic_function, funcs_not_standard.c 88-117. *)
Definition des_gf (fuel : nat) (buf : list N) (p : nat) : outcome (gf * nat) :=
  do (d, q) <- des_sz buf p;
  do (c, q) <- des_int buf q;
  if (c =? 0)%Z then do (f, q) <- des_pw fuel buf q; Ok ({| g_dim := d; g_f := FPw f |}, q)
  else if (c =? 1)%Z then do (f, q) <- des_ope buf q; Ok ({| g_dim := d; g_f := FPoly f |}, q)
  else if (c =? 3)%Z then do (f, q) <- des_ee buf q; Ok ({| g_dim := d; g_f := FLin f |}, q)
  else if (c =? 2)%Z then do (f, q) <- des_ee buf q; Ok ({| g_dim := d; g_f := FConst f |}, q)
  else if (c =? 4)%Z then do (f, q) <- des_kexp buf q; Ok ({| g_dim := d; g_f := FKern f |}, q)
  else Ok ({| g_dim := d; g_f := FNone c |}, q).

(** ** Quasimatrices, matrices of functions, function trains *)

(** quasimatrix_serialize / deserialize, quasimatrix.c 289-340. *)
Record qmat := { qm_n : nat; qm_funcs : list gf }.

Definition size_qm (a : qmat) : outcome nat := size_arr size_gf sz8 (qm_funcs a) (qm_n a).

Definition ser_qm (buf : list N) (p : nat) (a : qmat) :=
  do (b, q) <- ser_sz buf p (qm_n a);
  ser_arr ser_gf b q (qm_funcs a) (qm_n a).

Definition des_qm (fuel : nat) (buf : list N) (p : nat) : outcome (qmat * nat) :=
  do (n, q) <- des_sz buf p;
  do (fs, q) <- des_arr (des_gf fuel) buf q n;
  Ok ({| qm_n := n; qm_funcs := fs |}, q).

(** qmarray_serialize / deserialize, qmarray.c 203-258.  The size is computed in
    both modes. *)
Record qarr := { qa_r : nat; qa_c : nat; qa_funcs : list gf }.

Definition size_qa (a : qarr) : outcome nat :=
  size_arr size_gf (2 * sz8) (qa_funcs a) (qa_r a * qa_c a).

Definition ser_qa (buf : list N) (p : nat) (a : qarr) :=
  do _ <- size_qa a;
  do (b, q) <- ser_sz buf p (qa_r a);
  do (b, q) <- ser_sz b q (qa_c a);
  ser_arr ser_gf b q (qa_funcs a) (qa_r a * qa_c a).

Definition des_qa (fuel : nat) (buf : list N) (p : nat) : outcome (qarr * nat) :=
  do (r, q) <- des_sz buf p;
  do (c, q) <- des_sz buf q;
  do (fs, q) <- des_arr (des_gf fuel) buf q (r * c);
  Ok ({| qa_r := r; qa_c := c; qa_funcs := fs |}, q).

(** function_train_serialize / deserialize, ft.c 282-345. *)
Record ftr := { ft_d : nat; ft_rk : list nat; ft_co : list qarr }.

Definition size_ft (f : ftr) : outcome nat :=
  size_arr size_qa (sz8 + (ft_d f + 1) * sz8) (ft_co f) (ft_d f).

Definition ser_ft (buf : list N) (p : nat) (f : ftr) :=
  do _ <- size_ft f;
  do (b, q) <- ser_sz buf p (ft_d f);
  do (b, q) <- ser_arr ser_sz b q (ft_rk f) (ft_d f + 1);
  ser_arr ser_qa b q (ft_co f) (ft_d f).

Definition des_ft (fuel : nat) (buf : list N) (p : nat) : outcome (ftr * nat) :=
  do (d, q) <- des_sz buf p;
  do (rk, q) <- des_arr des_sz buf q (d + 1);
  do (co, q) <- des_arr (des_qa fuel) buf q d;
  Ok ({| ft_d := d; ft_rk := rk; ft_co := co |}, q).

(** ft1d_array_serialize / deserialize, ft.c 4046-4100. *)
Record fta := { fa_n : nat; fa_ft : list ftr }.

Definition size_fa (f : fta) : outcome nat := size_arr size_ft sz8 (fa_ft f) (fa_n f).

Definition ser_fa (buf : list N) (p : nat) (f : fta) :=
  do _ <- size_fa f;
  do (b, q) <- ser_sz buf p (fa_n f);
  ser_arr ser_ft b q (fa_ft f) (fa_n f).

Definition des_fa (fuel : nat) (buf : list N) (p : nat) : outcome (fta * nat) :=
  do (n, q) <- des_sz buf p;
  do (fs, q) <- des_arr (des_ft fuel) buf q n;
  Ok ({| fa_n := n; fa_ft := fs |}, q).

(** ** Files.  A file is the list of its bytes; [junk] is what [malloc] returns. *)

(** function_train_save, ft.c 415-445, ft1d_array_save, ft.c 4103-4136: query the
    size, allocate 8 more bytes, write size and object, write the block out. *)
Definition save_obj {A} (size : A -> outcome nat)
    (ser : list N -> nat -> A -> outcome (list N * nat)) (junk : nat -> N) (x : A)
  : outcome (list N) :=
  do s <- size x;
  let data := tab (s + sz8) junk in
  do (b, q) <- ser_sz data 0 s;
  do (b, _) <- ser b q x;
  Ok b.

(** function_train_load, ft.c 454-490, ft1d_array_load, ft.c 4145-4180: [None] if
    the file is shorter than the size prefix ([fread] returns 0); otherwise at
    most [totsize] bytes are read into a block; the bytes [fread] did not supply
    are unreadable ([UB]). *)
Definition load_obj {A} (des : list N -> nat -> outcome (A * nat)) (file : list N)
  : outcome (option A) :=
  if length file <? sz8 then Ok None
  else do (s, q) <- des_sz file 0;
       let data := firstn s (skipn q file) in
       do (x, _) <- des data 0;
       Ok (Some x).

Definition ft_save := save_obj size_ft ser_ft.
Definition ft_load (fuel : nat) := load_obj (des_ft fuel).
Definition fa_save := save_obj size_fa ser_fa.
Definition fa_load (fuel : nat) := load_obj (des_fa fuel).

(** darray_save with [type] 0, array.c 647-677, and darray_load with [type] 0,
    array.c 700-735. *)
Definition darray_save (junk : nat -> N) (rows cols : nat) (arr : list N)
  : outcome (list N) :=
  let tot := rows * cols * sz8 + sz8 + 2 * sz8 in
  let data := tab (tot + sz8) junk in
  do (b, q) <- ser_sz data 0 tot;
  do (b, q) <- ser_sz b q rows;
  do (b, q) <- ser_sz b q cols;
  do (b, _) <- ser_dblp b q arr (rows * cols);
  Ok b.

Definition darray_load (file : list N) : outcome (option (list N)) :=
  if length file <? sz8 then Ok None
  else do (s, q) <- des_sz file 0;
       let data := firstn s (skipn q file) in
       do (r, q) <- des_sz data 0;
       do (c, q) <- des_sz data q;
       do (v, t, _) <- des_dblp data q;
       do _ <- cassert (t =? r * c);
       Ok (Some v).

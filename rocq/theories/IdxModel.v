(** Models of c3/lib_clinalg/indmanage.c (index sets of cross approximation),
    c3/lib_linalg/matrix_util.c and the grid generators of c3/lib_array/array.c. *)
From Verif Require Import Base CRing.

(** [memmove(dst+od, src+os, n)] between different blocks. *)
Definition copyn {A} (n : nat) (src : list A) (os : nat) (dst : list A) (od : nat)
  : outcome (list A) :=
  for_ n (fun k d => do v <- aget src (os + k); aset d (od + k) v) dst.

(** ** indmanage.c *)
Section Idx.
  Context {X : Type} (zero : X).

  (** struct CrossIndex, indmanage.h; the linked list of struct CrossNode
      (indmanage.c 84-90) is the list of the nodes' vectors [x], whose length is
      the field [n] of the node.  [size_elem] is not modelled (all elements have
      the size of a double or size_t, which the code takes to be equal, 147). *)
  Record cidx := mkci { ci_d : nat; ci_n : nat; ci_nodes : list (list X) }.

  (** cross_index_alloc, indmanage.c 179-191. *)
  Definition cross_index_alloc (d : nat) : cidx := mkci d 0 [].

  (** cross_index_add_index, indmanage.c 201-206, with cross_node_add, 116-130
      (appends a copy at the end of the list; [x] must have [d] elements). *)
  Definition cross_index_add_index (c : cidx) (d : nat) (x : list X) : outcome cidx :=
    do _ <- cassert (d =? ci_d c);
    do v <- copyn d x 0 (repeat zero d) 0;
    Ok (mkci (ci_d c) (ci_n c + 1) (ci_nodes c ++ [v])).

  (** cross_index_add_nested, indmanage.c 208-214, and cross_node_add_nested,
      132-149. *)
  Definition cross_index_add_nested (c : cidx) (left : bool)
      (dold : nat) (xold : list X) (dnew : nat) (xnew : list X) : outcome cidx :=
    do _ <- cassert (dold + dnew =? ci_d c);
    let n := dold + dnew in
    let x := repeat zero n in
    do x <- (if negb left
             then do x <- copyn dold xold 0 x 0; copyn dnew xnew 0 x dold
             else do x <- copyn dnew xnew 0 x 0; copyn dold xold 0 x dnew);
    Ok (mkci (ci_d c) (ci_n c + 1) (ci_nodes c ++ [x])).

  (** [oc->...]: dereferencing the pointer into the node list. *)
  Definition deref (oc : list (list X)) : outcome (list X) :=
    match oc with [] => UB | x :: _ => Ok x end.

  (** cross_index_get_node, indmanage.c 216-220, and cross_node_get, 151-160. *)
  Definition cross_index_get_node (c : cidx) (ind : nat) : outcome (list X) :=
    do _ <- cassert (ind <? ci_n c); aget (ci_nodes c) ind.

  (** cross_index_copy, indmanage.c 223-237. *)
  Definition cross_index_copy (c : option cidx) : outcome (option cidx) :=
    match c with
    | None => Ok None
    | Some ci =>
        do r <- for_ (ci_n ci) (fun ii cn =>
                  do node <- cross_index_get_node ci ii;
                  cross_index_add_index cn (length node) node)
                (cross_index_alloc (ci_d ci));
        Ok (Some r)
    end.

  (** One step of the loops of cross_index_create_nested: append option [jj] to
      the node [oc] points at. *)
  Definition nest1 (left : bool) (opts : list X) (oc : list (list X)) (jj : nat) (ci : cidx)
    : outcome cidx :=
    do node <- deref oc;
    do o <- aget opts jj;
    cross_index_add_nested ci left (length node) node 1 [o].

  (** cross_index_create_nested, indmanage.c 255-327.  The [return ci] inside the
      loops (272-274, 286-288) is the flag [stop]: once it is set the remaining
      iterations do nothing.  [left] is the C flag as a boolean, [None] the NULL
      returned for an unknown method. *)
  Definition cross_index_create_nested (method : nat) (left : bool) (sizenew nopts : nat)
      (newopts : list X) (old : cidx) : outcome (option cidx) :=
    do _ <- cassert (sizenew <=? ci_n old * nopts);
    let ci := cross_index_alloc (ci_d old + 1) in
    if method =? 1 then
      do st <- for_ (ci_n old) (fun ii st =>
          let '(oc, ci, stop) := st in
          if (stop : bool) then Ok st else
          do st2 <- for_ nopts (fun jj st2 =>
              let '(ci, stop) := st2 in
              if (stop : bool) then Ok st2 else
              do ci <- nest1 left newopts oc jj ci;
              Ok (ci, ci_n ci =? sizenew)) (ci, stop);
          let '(ci, stop) := st2 in
          Ok (tl oc, ci, stop)) (ci_nodes old, ci, false);
      let '(_, ci, _) := st in Ok (Some ci)
    else if method =? 0 then
      do st <- for_ nopts (fun jj st =>
          let '(ci, stop) := st in
          if (stop : bool) then Ok st else
          do st2 <- for_ (ci_n old) (fun ii st2 =>
              let '(oc, ci, stop) := st2 in
              if (stop : bool) then Ok st2 else
              do ci <- nest1 left newopts oc jj ci;
              Ok (tl oc, ci, ci_n ci =? sizenew)) (ci_nodes old, ci, stop);
          let '(_, ci, stop) := st2 in
          Ok (ci, stop)) (ci, false);
      let '(ci, _) := st in Ok (Some ci)
    else if method =? 2 then
      do _ <- cassert (sizenew <=? nopts);
      if ci_n old <? sizenew then
        do st <- for_ (ci_n old) (fun jj st =>
            let '(oc, ci) := st in
            do ci <- nest1 left newopts oc jj ci; Ok (tl oc, ci)) (ci_nodes old, ci);
        let '(_, ci) := st in
        do ci <- for_from (ci_n old) (sizenew - ci_n old) (fun jj ci =>
            nest1 left newopts (ci_nodes old) jj ci) ci;
        Ok (Some ci)
      else
        do st <- for_ sizenew (fun jj st =>
            let '(oc, ci) := st in
            do ci <- nest1 left newopts oc jj ci; Ok (tl oc, ci)) (ci_nodes old, ci);
        let '(_, ci) := st in Ok (Some ci)
    else Ok None.

  (** cross_index_create_nested_ind, indmanage.c 329-344. *)
  Definition cross_index_create_nested_ind (left : bool) (sizenew : nat)
      (indold : list nat) (newx : list X) (old : cidx) : outcome cidx :=
    for_ sizenew (fun ii ci =>
      do i <- aget indold ii;
      do cn <- cross_index_get_node old i;
      do v <- aget newx ii;
      cross_index_add_nested ci left (length cn) cn 1 [v])
      (cross_index_alloc (ci_d old + 1)).

  (** cross_index_merge_wspace, indmanage.c 346-409.  The result is the array of
      row pointers; [None] stands for the NULL returned... which happens for no
      arguments: both NULL fails the assertion of line 377. *)
  Definition cross_index_merge_wspace (left right : option cidx)
    : outcome (list (list X)) :=
    match left, right with
    | Some l, Some r =>
        let d := ci_d l + ci_d r + 1 in
        do st <- for_ (ci_n r) (fun ii st =>
            let '(cr, vals) := st in
            do st2 <- for_ (ci_n l) (fun jj st2 =>
                let '(cl, vals) := st2 in
                let onind := ii * ci_n l + jj in
                let v := repeat zero d in
                do xl <- deref cl;
                do v <- copyn (ci_d l) xl 0 v 0;
                do xr <- deref cr;
                do v <- copyn (ci_d r) xr 0 v (ci_d l + 1);
                do vals <- aset vals onind (Some v);
                Ok (tl cl, vals)) (ci_nodes l, vals);
            let '(_, vals) := st2 in
            Ok (tl cr, vals)) (ci_nodes r, repeat None (ci_n r * ci_n l));
        let '(_, vals) := st in freeze vals
    | None, Some r =>
        let d := ci_d r + 1 in
        do st <- for_ (ci_n r) (fun ii st =>
            let '(cn, vals) := st in
            do x <- deref cn;
            do v <- copyn (d - 1) x 0 (repeat zero d) 1;
            do vals <- aset vals ii (Some v);
            Ok (tl cn, vals)) (ci_nodes r, repeat None (ci_n r));
        let '(_, vals) := st in freeze vals
    | Some l, None =>
        let d := ci_d l + 1 in
        do st <- for_ (ci_n l) (fun ii st =>
            let '(cn, vals) := st in
            do x <- deref cn;
            do v <- copyn (d - 1) x 0 (repeat zero d) 0;
            do vals <- aset vals ii (Some v);
            Ok (tl cn, vals)) (ci_nodes l, repeat None (ci_n l));
        let '(_, vals) := st in freeze vals
    | None, None => Abort
    end.

  (** cross_index_merge, indmanage.c 411-450; note the [cl = left->nodes] inside
      the loop (442). *)
  Definition cross_index_merge (left right : option cidx) : outcome (list (list X)) :=
    match left, right with
    | Some l, Some r =>
        do _ <- cassert (ci_n l =? ci_n r);
        let d := ci_d l + ci_d r in
        do st <- for_ (ci_n r) (fun ii st =>
            let '(cr, vals) := st in
            let cl := ci_nodes l in
            do xl <- deref cl;
            do v <- copyn (ci_d l) xl 0 (repeat zero d) 0;
            do xr <- deref cr;
            do v <- copyn (ci_d r) xr 0 v (ci_d l);
            do vals <- aset vals ii (Some v);
            Ok (tl cr, vals)) (ci_nodes r, repeat None (ci_n r));
        let '(_, vals) := st in freeze vals
    | _, _ => Abort
    end.

  (** cross_index_copylast, indmanage.c 508-518; [ci->n-1] is SIZE_MAX for an
      empty set, which the assertion of cross_index_get_node rejects. *)
  Definition cross_index_copylast (ci : cidx) (ntimes : nat) : outcome cidx :=
    if ci_n ci =? 0 then Abort
    else
      do last <- cross_index_get_node ci (ci_n ci - 1);
      for_ ntimes (fun _ ci => cross_index_add_index ci (length last) last) ci.

  (** The first set of cross_index_array_initialize, indmanage.c 467-470 and
      486-490: one entry per value. *)
  Definition first_index (n : nat) (v : list X) : outcome cidx :=
    for_ n (fun jj ci => do x <- aget v jj; cross_index_add_index ci 1 [x])
         (cross_index_alloc 1).

  (** cross_index_array_initialize, indmanage.c 452-503.  The array [ci] of [dim]
      pointers: the outer option is "written", the inner one NULL. *)
  Definition cross_index_array_initialize (dim : nat) (allnull reverse : bool)
      (sizes : list nat) (vals : list (list X)) (ci : list (option (option cidx)))
    : outcome (list (option (option cidx))) :=
    let next ci left src dst :=
      do s <- aget sizes src;
      do v <- aget vals src;
      do prev <- pget ci (if (left : bool) then dst + 1 else dst - 1);
      match prev with
      | None => UB
      | Some p =>
          do c <- cross_index_create_nested 2 left s s v p;
          aset ci dst (Some c)
      end in
    if allnull then for_ dim (fun ii ci => aset ci ii (Some None)) ci
    else if reverse then
      do _ <- cassert (1 <? dim);
      do ci <- aset ci (dim - 1) (Some None);
      do s <- aget sizes (dim - 1);
      do v <- aget vals (dim - 1);
      do c <- first_index s v;
      do ci <- aset ci (dim - 2) (Some (Some c));
      for_ (dim - 2) (fun ii ci =>
        let ind := dim - 2 - ii - 1 in next ci true (ind + 1) ind) ci
    else
      do ci <- aset ci 0 (Some None);
      do s <- aget sizes 0;
      do v <- aget vals 0;
      do c <- first_index s v;
      do ci <- aset ci 1 (Some (Some c));
      for_from 2 (dim - 2) (fun ii ci => next ci false (ii - 1) ii) ci.
End Idx.
Arguments cidx : clear implicits.

(** ** matrix_util.c: row-major matrices *)
Section Mat.
  Variable R : CRing.
  Notation car := (car R).

  (** struct mat, matrix_util.h. *)
  Record mat := mkmat { m_r : nat; m_c : nat; m_v : list car }.

  (** v2m, matrix_util.c 68-87; for [asrow] other than 0 and 1 the shape stays
      uninitialised (not modelled: [asrow] is a boolean). *)
  Definition v2m (n : nat) (arr : list car) (asrow : bool) : outcome mat :=
    do v <- copyn n arr 0 (repeat (r0 (c:=R)) n) 0;
    Ok (if asrow then mkmat 1 n v else mkmat n 1 v).

  (** diagv2m, matrix_util.c 100-115; array.c diag, 344-352, is the same code. *)
  Definition diagv2m (n : nat) (arr : list car) : outcome mat :=
    do v <- for_ n (fun ii v => do a <- aget arr ii; aset v (ii * n + ii) a)
                 (repeat (r0 (c:=R)) (n * n));
    Ok (mkmat n n v).

  (** horizcat, matrix_util.c 129-153: different row counts only print a message. *)
  Definition horizcat (a b : mat) : outcome mat :=
    let nr := m_r a in
    let nc := m_c a + m_c b in
    do v <- for_ (m_r a) (fun ii v =>
        do v <- copyn (m_c a) (m_v a) (ii * m_c a) v (ii * nc);
        copyn (m_c b) (m_v b) (ii * m_c b) v (ii * nc + m_c a))
        (repeat (r0 (c:=R)) (nr * nc));
    Ok (mkmat nr nc v).

  (** block_diag, matrix_util.c 166-196. *)
  Definition block_diag (mats : list mat) : outcome mat :=
    do s <- for_ (length mats) (fun ii s =>
        do m <- aget mats ii; Ok (fst s + m_r m, snd s + m_c m)) (0, 0);
    let '(nr, nc) := s in
    do st <- for_ (length mats) (fun ii st =>
        let '(v, row, cols) := st in
        do m <- aget mats ii;
        do st2 <- for_ (m_r m) (fun jj st2 =>
            let '(v, row) := st2 in
            do v <- copyn (m_c m) (m_v m) (jj * m_c m) v (row * nc + cols);
            Ok (v, row + 1)) (v, row);
        let '(v, row) := st2 in
        Ok (v, row, cols + m_c m)) (repeat (r0 (c:=R)) (nr * nc), 0, 0);
    let '(v, _, _) := st in
    Ok (mkmat nr nc v).

  (** mat_ones, matrix_util.c 234-245. *)
  Definition mat_ones (nr nc : nat) : outcome mat :=
    do v <- for_ nr (fun ii v => for_ nc (fun jj v => aset v (ii * nc + jj) (r1 (c:=R))) v)
                 (repeat (r0 (c:=R)) (nr * nc));
    Ok (mkmat nr nc v).

  (** dconcat_cols, array.c 366-375: column-major. *)
  Definition dconcat_cols (rows cols1 cols2 : nat) (a1 a2 : list car) : outcome (list car) :=
    do v <- copyn (rows * cols1) a1 0 (repeat (r0 (c:=R)) (rows * (cols1 + cols2))) 0;
    copyn (rows * cols2) a2 0 v (rows * cols1).

  (** dprod, array.c 386-392. *)
  Definition dprod (n : nat) (x : list car) : outcome car :=
    for_ n (fun i p => do v <- aget x i; Ok (rmul p v)) (r1 (c:=R)).
End Mat.

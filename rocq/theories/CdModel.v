(** Model of the canonical decomposition (c3/lib_tensdecomp/candecomp.c) and of
    its conversion to a tensor train (c3/lib_tensdecomp/convert.c).  Scalars are
    taken from a commutative ring (exact arithmetic in place of doubles);
    reads and writes outside an array are undefined behaviour. *)
From Verif Require Export TensorModel.

Section CdModel.
  Context {R : CRing}.
  Open Scope cr_scope.

  (** candecomp.h struct candecomp: a factor matrix per mode, row-major, one
      row per index and one column per term *)
  Record candecomp := mkcd { cd_dim : nat; cd_rank : nat; cd_cores : list (mat R) }.

  (** candecomp.c:61-75 cdelem *)
  Definition cdelem (cd : candecomp) (elem : list nat) : outcome R :=
    for_ (cd_rank cd) (fun ii out =>
      do temp <- for_ (cd_dim cd) (fun jj temp =>
          do c <- aget (cd_cores cd) jj;
          do e <- aget elem jj;
          do v <- aget (m_vals c) (e * cd_rank cd + ii);
          Ok (temp *! v)) r1;
      Ok (out +! temp)) r0.

  (** candecomp.c:87-104 cd2tt_corem *)
  Definition cd2tt_corem (c : mat R) : outcome (tensor R) :=
    let n0 := m_ncols c in
    let n1 := m_nrows c in
    let n2 := m_ncols c in
    do vals <- for_ n1 (fun ii vals =>
        for_ (m_ncols c) (fun jj vals =>
          do v <- aget (m_vals c) (ii * m_ncols c + jj);
          aset vals (jj + ii * n0 + jj * n0 * n1) v) vals)
        (t_vals (init_tensor [n0; n1; n2]));
    Ok (mktn 3 [n0; n1; n2] vals).

  (** candecomp.c:116-133 cd2tt_corel *)
  Definition cd2tt_corel (c : mat R) : outcome (tensor R) :=
    let n0 := 1 in
    let n1 := m_nrows c in
    let n2 := m_ncols c in
    do vals <- for_ n1 (fun ii vals =>
        for_ n2 (fun jj vals =>
          do v <- aget (m_vals c) (ii * m_ncols c + jj);
          aset vals (0 + ii * n0 + jj * n0 * n1) v) vals)
        (t_vals (init_tensor [n0; n1; n2]));
    Ok (mktn 3 [n0; n1; n2] vals).

  (** candecomp.c:146-162 cd2tt_corer *)
  Definition cd2tt_corer (c : mat R) : outcome (tensor R) :=
    let n0 := m_ncols c in
    let n1 := m_nrows c in
    let n2 := 1 in
    do vals <- for_ n1 (fun ii vals =>
        for_ n0 (fun jj vals =>
          do v <- aget (m_vals c) (ii * m_ncols c + jj);
          aset vals (jj + ii * n0) v) vals)
        (t_vals (init_tensor [n0; n1; n2]));
    Ok (mktn 3 [n0; n1; n2] vals).

  (** convert.c:59-80 cd2tt.  For dimension zero the first statement after the
      allocation reads outside the array of factors. *)
  Definition cd2tt (cd : candecomp) : outcome (ttrain R) :=
    let d := cd_dim cd in
    do nvals <- for_ d (fun ii nvals =>
        do c <- aget (cd_cores cd) ii;
        aset nvals ii (m_nrows c)) (repeat 0 d);
    do m0 <- aget (cd_cores cd) 0;
    do c0 <- cd2tt_corel m0;
    do cores <- aset (tt_alloc_cores d) 0 (Some c0);
    do ranks <- aset (tt_alloc_ranks d) 0 1;
    do (ranks, cores) <- for_from 1 (d - 1 - 1) (fun ii (s : list nat * list (option (tensor R))) =>
        do m <- aget (cd_cores cd) ii;
        do c <- cd2tt_corem m;
        do cores <- aset (snd s) ii (Some c);
        do r <- aget (t_nvals c) 0;
        do ranks <- aset (fst s) ii r;
        Ok (ranks, cores)) (ranks, cores);
    do m <- aget (cd_cores cd) (d - 1);
    do c <- cd2tt_corer m;
    do cores <- aset cores (d - 1) (Some c);
    do r <- aget (t_nvals c) 0;
    do ranks <- aset ranks (d - 1) r;
    do ranks <- aset ranks d 1;
    do cores <- freeze cores;
    Ok (mktt d nvals ranks cores).
End CdModel.
Arguments candecomp : clear implicits.

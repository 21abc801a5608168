(** Model of the product of the Hessian with respect to the parameters and a vector:
    c3/lib_superlearn/parameterization.c 1540-1759.  All arrays are checked; numbers
    are elements of a ring. *)
From Verif Require Export PGradModel.

Section HessModel.
  Context {R : CRing}.
  Open Scope cr_scope.

  (** parameterization.c:1540-1552 vec_mat; [moff] is the offset of the matrix in
      the array [mat]; returns [out] *)
  Definition vec_mat (n m : nat) (vec mat : list R) (moff : nat) (out : list R) : outcome (list R) :=
    for_ m (fun jj out =>
      do out <- aset out jj r0;
      for_ n (fun ii out =>
        do o <- aget out jj;
        do v <- aget vec ii;
        do a <- aget mat (moff + (ii + jj * n));
        aset out jj (o +! v *! a)) out) out.

  (** 1571-1576, 1598-1603 and 1623-1628: multiplication by the cores from [lo] on,
      [n] of them.  The state is left_eval, space and on_eval; num_vals is the number
      of entries copied. *)
  Definition hess_cores (ranks : list nat) (evals : list R) (lo n : nat) (s : list R * list R * nat)
    : outcome (list R * list R * nat) :=
    for_from lo n (fun core s =>
      let '(lev, space, on_eval) := s in
      do ra <- aget ranks core;
      do rb <- aget ranks (core + 1);
      do space <- vec_mat ra rb lev evals on_eval space;
      do lev <- blit lev 0 space 0 rb;
      Ok (lev, space, on_eval + ra * rb)) s.

  (** 1579-1586 and 1610-1618: only entry [col] is left, and set to [v] *)
  Definition hess_pick (n col : nat) (v : R) (lev : list R) : outcome (list R) :=
    for_ n (fun ii lev => aset lev ii (if ii =? col then v else r0)) lev.

  (** parameterization.c:1554-1635 hess_ij *)
  Definition hess_ij (dim core_ii core_jj row_ii col_ii row_jj col_jj : nat) (evals : list R) (grad_ii grad_jj : R)
      (maxrank : nat) (ranks : list nat) : outcome R :=
    do _ <- cassert (core_ii <? core_jj);
    let lev := repeat r0 maxrank in
    let space := repeat r0 maxrank in
    do rk1 <- aget ranks 1;
    do (lev, space, on_eval) <-
      (if 0 <? core_ii then
         do lev <- for_ rk1 (fun ii lev => do e <- aget evals ii; aset lev ii e) lev;
         do (lev, space, on_eval) <- hess_cores ranks evals 1 (core_ii - 1) (lev, space, rk1);
         do val <- aget lev row_ii;
         do ra <- aget ranks core_ii;
         do rb <- aget ranks (core_ii + 1);
         do lev <- hess_pick rb col_ii (val *! grad_ii) lev;
         Ok (lev, space, on_eval + ra * rb)
       else
         do lev <- aset lev col_ii grad_ii;
         Ok (lev, space, rk1));
    do (lev, space, on_eval) <- hess_cores ranks evals (core_ii + 1) (core_jj - (core_ii + 1)) (lev, space, on_eval);
    do val <- aget lev row_jj;
    do ra <- aget ranks core_jj;
    do rb <- aget ranks (core_jj + 1);
    do lev <- hess_pick rb col_jj (val *! grad_jj) lev;
    do (lev, _, _) <- hess_cores ranks evals (core_jj + 1) (dim - (core_jj + 1)) (lev, space, on_eval + ra * rb);
    aget lev 0.

  (** 1656-1664: the largest of the first [dim] ranks *)
  Definition hess_maxrank (dim : nat) (ranks : list nat) : outcome nat :=
    do rk0 <- aget ranks 0;
    for_ dim (fun ii m => do rk <- aget ranks ii; Ok (if m <? rk then rk else m)) rk0.

  (** 1670-1689: evals and d1_evals, both with nparams cells; onparam_hess is not used *)
  Definition hess_evals {U} (pge : U -> R -> R * list R) (ftp : ftparam R U) (x : list R)
    : outcome (list R * list R) :=
    let ranks := ft_ranks (fp_ft ftp) in
    do (evals, d1, _, _) <- for_ (fp_dim ftp) (fun ii (s : list R * list R * nat * nat) =>
      do r1 <- aget ranks ii;
      do r2 <- aget ranks (ii + 1);
      for_ (r1 * r2) (fun jj (s : list R * list R * nat * nat) =>
        let '(evals, d1, onuni, onparam) := s in
        do c <- aget (ft_cores (fp_ft ftp)) ii;
        do u <- aget (fs c) jj;
        do xi <- aget x ii;
        let '(v, g) := pge u xi in
        do d1 <- blit d1 onparam g 0 (length g);
        do evals <- aset evals onuni v;
        do n <- aget (fp_npu ftp) onuni;
        Ok (evals, d1, onuni + 1, onparam + n)) s)
      (repeat r0 (fp_nparams ftp), repeat r0 (fp_nparams ftp), 0, 0);
    Ok (evals, d1).

  (** 1717-1748, the part that is left of one row of the Hessian: the functions of
      the later cores.  The state is hess_vec, param_jj and onuni_jj. *)
  Definition hess_row (dim : nat) (ranks npu : list nat) (maxrank : nat) (evals d1 vec : list R)
      (core_ii row_ii col_ii param_ii : nat) (s : list R * nat * nat) : outcome (list R * nat * nat) :=
    for_from (core_ii + 1) (dim - (core_ii + 1)) (fun core_jj s =>
      do rb <- aget ranks (core_jj + 1);
      for_ rb (fun col_jj s =>
        do ra <- aget ranks core_jj;
        for_ ra (fun row_jj (s : list R * nat * nat) =>
          let '(hv, param_jj, onuni_jj) := s in
          do n <- aget npu onuni_jj;
          do (hv, param_jj) <- for_ n (fun _ (s : list R * nat) =>
            let '(hv, param_jj) := s in
            do gi <- aget d1 param_ii;
            do gj <- aget d1 param_jj;
            do h <- hess_ij dim core_ii core_jj row_ii col_ii row_jj col_jj evals gi gj maxrank ranks;
            do a <- aget hv param_ii;
            do vj <- aget vec param_jj;
            do hv <- aset hv param_ii (a +! h *! vj);
            do b <- aget hv param_jj;
            do vi <- aget vec param_ii;
            do hv <- aset hv param_jj (b +! h *! vi);
            Ok (hv, param_jj + 1)) (hv, param_jj);
          Ok (hv, param_jj, onuni_jj + 1)) s) s) s.

  (** 1698-1755, all rows.  The state is hess_vec, param_ii, onuni_ii, start_params_col
      and start_onuni_jj. *)
  Definition hess_outer (dim : nat) (ranks npu npc : list nat) (maxrank : nat) (evals d1 vec hv : list R)
    : outcome (list R * nat * nat * nat * nat) :=
    for_ dim (fun core_ii (s : list R * nat * nat * nat * nat) =>
      let '(hv, param_ii, onuni_ii, start_par, start_uni) := s in
      do n <- aget npc core_ii;
      let start_par := start_par + n in
      do ra <- aget ranks core_ii;
      do rb <- aget ranks (core_ii + 1);
      let start_uni := start_uni + ra * rb in
      do (hv, param_ii, onuni_ii) <- for_ rb (fun col_ii s =>
        for_ ra (fun row_ii (s : list R * nat * nat) =>
          let '(hv, param_ii, onuni_ii) := s in
          do n <- aget npu onuni_ii;
          do (hv, param_ii) <- for_ n (fun _ (s : list R * nat) =>
            let '(hv, param_ii) := s in
            do (hv, _, _) <- hess_row dim ranks npu maxrank evals d1 vec core_ii row_ii col_ii param_ii (hv, start_par, start_uni);
            Ok (hv, param_ii + 1)) (hv, param_ii);
          Ok (hv, param_ii, onuni_ii + 1)) s) (hv, param_ii, onuni_ii);
      Ok (hv, param_ii, onuni_ii, start_par, start_uni)) (hv, 0, 0, 0, 0).

  (** parameterization.c:1651-1759 ft_param_hessvec; returns the value, which is never
      set, and hess_vec.  [pge u x] is generic_function_param_grad_eval2. *)
  Definition ftp_hessvec {U} (pge : U -> R -> R * list R) (ftp : ftparam R U) (x vec hv : list R)
    : outcome (R * list R) :=
    let ranks := ft_ranks (fp_ft ftp) in
    do maxrank <- hess_maxrank (ft_dim (fp_ft ftp)) ranks;
    do (evals, d1) <- hess_evals pge ftp x;
    do hv <- for_ (fp_nparams ftp) (fun ii hv => aset hv ii r0) hv;
    do (hv, _, _, _, _) <- hess_outer (fp_dim ftp) ranks (fp_npu ftp) (fp_npc ftp) maxrank evals d1 vec hv;
    Ok (r0, hv).
End HessModel.

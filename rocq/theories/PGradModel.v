(** Model of the evaluation of a parameterized function train and of its
    gradient with respect to the parameters:
    c3/lib_superlearn/parameterization.c 822-1165. *)
From Verif Require Export ParamModel FTDiffModel.

Section PGradModel.
  Context {R : CRing}.
  Open Scope cr_scope.

  (** struct FTparam, parameterization.h 71-83, without max_param_uni and
      approx_opts, which the routines below do not use. *)
  Record ftparam (U : Type) := mkftp {
    fp_ft : ftrain U; fp_dim : nat; fp_npu : list nat; fp_npc : list nat;
    fp_nparams : nat; fp_params : list R }.
  Arguments mkftp {U}.
  Arguments fp_ft {U}.
  Arguments fp_dim {U}.
  Arguments fp_npu {U}.
  Arguments fp_npc {U}.
  Arguments fp_nparams {U}.
  Arguments fp_params {U}.

  (** The arrays mem, evals, grad_evals and the counters onuni, onparam, indmem. *)
  Record pst := mkpst { p_mem : list R; p_ev : list R; p_ge : list R;
                        p_uni : nat; p_par : nat; p_ind : nat }.

  Section Sweeps.
    Variables (dim : nat) (ranks npu npc : list nat).
    (** [evf kk idx onuni onparam ge]: the value of function [idx] of core [kk]
        and the new contents of grad_evals. *)
    Variable evf : nat -> nat -> nat -> nat -> list R -> outcome (R * list R).

    (** Forward sweep, 902-930 and 1061-1090 *)
    Definition pg_forward (s : pst) : outcome pst :=
      for_ dim (fun kk s =>
        do rk <- aget ranks kk;
        do rk1 <- aget ranks (kk + 1);
        do s <- for_ rk1 (fun col s =>
            if 0 <? kk then
              let p := p_ind s + rk + col in
              do mem <- aset (p_mem s) p r0;
              for_ rk (fun row s =>
                do (v, ge) <- evf kk (row + col * rk) (p_uni s) (p_par s) (p_ge s);
                do ev <- aset (p_ev s) (p_uni s) v;
                do a <- aget (p_mem s) p;
                do b <- aget (p_mem s) (p_ind s + row);
                do e <- aget ev (p_uni s);
                do mem <- aset (p_mem s) p (a +! b *! e);
                do n <- aget npu (p_uni s);
                Ok (mkpst mem ev ge (p_uni s + 1) (p_par s + n) (p_ind s)))
              (mkpst mem (p_ev s) (p_ge s) (p_uni s) (p_par s) (p_ind s))
            else
              do (v, ge) <- evf kk col (p_uni s) (p_par s) (p_ge s);
              do mem <- aset (p_mem s) col v;
              do m <- aget mem col;
              do ev <- aset (p_ev s) col m;
              do n <- aget npu (p_uni s);
              Ok (mkpst mem ev ge (p_uni s + 1) (p_par s + n) (p_ind s))) s;
        Ok (if 0 <? kk then mkpst (p_mem s) (p_ev s) (p_ge s) (p_uni s) (p_par s) (p_ind s + rk) else s)) s.

    (** The innermost loop: grad[onparam] = w(grad_evals[onparam]); onparam++ *)
    Definition pg_fill (ge : list R) (w : R -> R) (n : nat) (s : list R * nat) : outcome (list R * nat) :=
      for_ n (fun _ (s : list R * nat) =>
        let '(grad, par) := s in
        do g <- aget ge par;
        do grad <- aset grad par (w g);
        Ok (grad, par + 1)) s.

    (** Backward sweep and first core, 933-1010 and 1092-1157.  State: grad, mem,
        onuni, onparam, indmem.  In the last part the code computes
        [indmem - r1 + r1 + ii] with unsigned numbers, which is [indmem + ii]
        also when [indmem - r1] wraps around. *)
    Definition pg_backward (ev ge grad : list R) (s : list R * nat * nat * nat) : outcome (list R * list R) :=
      let '(mem, uni, par, ind) := s in
      do (grad, mem, uni, par, ind) <-
        for_ (dim - 1) (fun zz (t : list R * list R * nat * nat * nat) =>
          let '(grad, mem, uni, par, ind) := t in
          let backind := dim - 1 - zz in
          do ra <- aget ranks backind;
          do rb <- aget ranks (backind + 1);
          let ind := ind - ra in
          let uni := uni - ra * rb in
          do npb <- aget npc backind;
          let par := par - npb in
          if backind <? dim - 1 then
            do (grad, uni, par) <-
              for_ rb (fun ii (t : list R * nat * nat) =>
                do right_mult <- aget mem (ind + ra + ii);
                for_ ra (fun kk (t : list R * nat * nat) =>
                  let '(grad, uni, par) := t in
                  do left_mult <- aget mem (ind + kk);
                  do n <- aget npu uni;
                  do (grad, par) <- pg_fill ge (fun g => left_mult *! g *! right_mult) n (grad, par);
                  Ok (grad, uni + 1, par)) t) (grad, uni, par);
            let par := par - npb in
            let uni := uni - ra * rb in
            do mem <- dgemv_nx ra rb ev uni ra mem (ind + ra) mem ind;
            Ok (grad, mem, uni, par, ind)
          else
            do (grad, mem, uni, par) <-
              for_ ra (fun kk (t : list R * list R * nat * nat) =>
                let '(grad, mem, uni, par) := t in
                do left_mult <- aget mem (ind + kk);
                do n <- aget npu uni;
                do (grad, par) <- pg_fill ge (fun g => left_mult *! g) n (grad, par);
                do e <- aget ev uni;
                do mem <- aset mem (ind + kk) e;
                Ok (grad, mem, uni + 1, par)) (grad, mem, uni, par);
            Ok (grad, mem, uni - ra * rb, par - npb, ind)) (grad, mem, uni, par, ind);
      do ra <- aget ranks 0;
      do rb <- aget ranks 1;
      let uni := uni - ra * rb in
      do npb <- aget npc 0;
      let par := par - npb in
      do (grad, _, _) <-
        for_ rb (fun ii (t : list R * nat * nat) =>
          let '(grad, uni, par) := t in
          do right_mult <- aget mem (ind + ii);
          do n <- aget npu uni;
          do (grad, par) <- pg_fill ge (fun g => g *! right_mult) n (grad, par);
          Ok (grad, uni + 1, par)) (grad, uni, par);
      Ok (grad, mem).

    (** Both sweeps; returns the value, grad, mem, evals and grad_evals. *)
    Definition pg_gradeval (grad ge mem ev : list R)
      : outcome (R * list R * list R * list R * list R) :=
      do rk0 <- aget ranks 0;
      do _ <- cassert (rk0 =? 1);
      do s <- pg_forward (mkpst mem ev ge 0 0 0);
      do out <- aget (p_mem s) (p_ind s);
      do (grad, mem) <- pg_backward (p_ev s) (p_ge s) grad (p_mem s, p_uni s, p_par s, p_ind s);
      Ok (out, grad, mem, p_ev s, p_ge s).
  End Sweeps.

  (** parameterization.c:1045-1165 ft_param_gradeval; [pge u x] is
      generic_function_param_grad_eval2 (functions.c:1662): the value and the
      derivatives with respect to the parameters, which are stored from
      [grad_evals + onparam] on. *)
  Definition ftp_gradeval {U} (pge : U -> R -> R * list R) (ftp : ftparam U) (x grad ge mem ev : list R)
    : outcome (R * list R * list R * list R * list R) :=
    let ft := fp_ft ftp in
    pg_gradeval (fp_dim ftp) (ft_ranks ft) (fp_npu ftp) (fp_npc ftp)
      (fun kk idx _ onparam ge =>
         do c <- aget (ft_cores ft) kk;
         do u <- aget (fs c) idx;
         do xk <- aget x kk;
         let '(v, g) := pge u xk in
         do ge <- blit ge onparam g 0 (length g);
         Ok (v, ge)) grad ge mem ev.

  (** parameterization.c:886-1013 ft_param_gradeval_lin *)
  Definition ftp_gradeval_lin {U} (ftp : ftparam U) (grad ge mem ev : list R)
    : outcome (R * list R * list R * list R * list R) :=
    pg_gradeval (fp_dim ftp) (ft_ranks (fp_ft ftp)) (fp_npu ftp) (fp_npc ftp)
      (fun _ _ onuni onparam ge =>
         do n <- aget (fp_npu ftp) onuni;
         do v <- ddot n ge onparam 1 (fp_params ftp) onparam 1;
         Ok (v, ge)) grad ge mem ev.

  (** parameterization.c:832-873 ft_param_eval_lin; returns the value and mem. *)
  Definition ftp_eval_lin {U} (ftp : ftparam U) (ge mem : list R) : outcome (R * list R) :=
    let ranks := ft_ranks (fp_ft ftp) in
    do rk0 <- aget ranks 0;
    do _ <- cassert (rk0 =? 1);
    do rk1 <- aget ranks 1;
    do (mem, onuni, onparam) <-
      for_ rk1 (fun col (s : list R * nat * nat) =>
        let '(mem, onuni, onparam) := s in
        do n <- aget (fp_npu ftp) onuni;
        do v <- ddot n ge onparam 1 (fp_params ftp) onparam 1;
        do mem <- aset mem col v;
        Ok (mem, onuni + 1, onparam + n)) (mem, 0, 0);
    do (mem, _, _, indmem) <-
      for_from 1 (fp_dim ftp - 1) (fun kk (s : list R * nat * nat * nat) =>
        let '(mem, onuni, onparam, indmem) := s in
        do rk <- aget ranks kk;
        do rk1 <- aget ranks (kk + 1);
        do (mem, onuni, onparam) <-
          for_ rk1 (fun col (s : list R * nat * nat) =>
            let '(mem, onuni, onparam) := s in
            do mem <- aset mem (indmem + rk + col) r0;
            for_ rk (fun row (s : list R * nat * nat) =>
              let '(mem, onuni, onparam) := s in
              do n <- aget (fp_npu ftp) onuni;
              do dd <- ddot n ge onparam 1 (fp_params ftp) onparam 1;
              do a <- aget mem (indmem + rk + col);
              do b <- aget mem (indmem + row);
              do mem <- aset mem (indmem + rk + col) (a +! b *! dd);
              Ok (mem, onuni + 1, onparam + n)) (mem, onuni, onparam)) (mem, onuni, onparam);
        Ok (mem, onuni, onparam, indmem + rk)) (mem, onuni, onparam, 0);
    do out <- aget mem indmem;
    Ok (out, mem).
End PGradModel.
Arguments mkftp {R U}.
Arguments fp_ft {R U}.
Arguments fp_dim {R U}.
Arguments fp_npu {R U}.
Arguments fp_npc {R U}.
Arguments fp_nparams {R U}.
Arguments fp_params {R U}.
Arguments ftparam R U : clear implicits.

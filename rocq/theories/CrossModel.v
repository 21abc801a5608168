(** Model of cross approximation: c3/lib_clinalg/ft.c 3042-3925 (struct FtCrossArgs, prepCore,
    ftapprox_cross, ftapprox_cross_rankadapt).

    Not modelled: printing, freeing, and the norms computed only to be printed (the difference
    after the left-right sweep is never used).  The univariate approximation
    (generic_function_approximate1d, with the options of each dimension) is a parameter that
    sees the function wrapper with the fiber selected; the difference of two trains
    (function_train_relnorm2diff) is a parameter, since it only decides when to stop. *)
From Coq Require Import Reals Lra.
From Verif Require Import IdxModel FwrapModel FTModel PinvModel.
Open Scope R_scope.

(** ** Arguments of cross approximation *)

(** struct FtCrossArgs, ft.c:3047-3069; epsround and verbose are left out (the rounding is a
    parameter below). *)
Record crossargs := mkca { ca_dim : nat; ca_ranks : list nat; ca_eps : R; ca_maxiter : nat;
                           ca_adapt : bool; ca_kick : nat; ca_max : list nat }.

Section Args.
  (** size_t arithmetic is modulo [w] *)
  Context (w : nat).
  Definition addw (a b : nat) : nat := ((a + b) mod w)%nat.

  (** ft.c:3075-3106 ft_cross_args_alloc; dim = 0 writes before allocated memory *)
  Definition ft_cross_args_alloc (dim start_rank : nat) : outcome crossargs :=
    do r <- aset (repeat 0%nat (dim + 1)) 0 1%nat;
    do r <- for_from 1 (dim - 1) (fun ii r => aset r ii start_rank) r;
    do r <- aset r dim 1%nat;
    if (dim =? 0)%nat then UB else
    do m <- for_ (dim - 1) (fun ii m =>
              do ri <- aget r (ii + 1)%nat;
              aset m ii (addw ri ((5 * 4) mod w)%nat)) (repeat 0%nat (dim - 1));
    Ok (mkca dim r (1 / 10000000000) 5 true 5 m).

  (** ft.c:3111-3177 the setters *)
  Definition ft_cross_args_set_rank (c : crossargs) (ind rank : nat) : outcome crossargs :=
    do r <- aset (ca_ranks c) ind rank;
    Ok (mkca (ca_dim c) r (ca_eps c) (ca_maxiter c) (ca_adapt c) (ca_kick c) (ca_max c)).
  Definition ft_cross_args_set_kickrank (c : crossargs) (kick : nat) : crossargs :=
    mkca (ca_dim c) (ca_ranks c) (ca_eps c) (ca_maxiter c) (ca_adapt c) kick (ca_max c).
  Definition ft_cross_args_set_maxiter (c : crossargs) (m : nat) : crossargs :=
    mkca (ca_dim c) (ca_ranks c) (ca_eps c) m (ca_adapt c) (ca_kick c) (ca_max c).
  Definition ft_cross_args_set_adapt (c : crossargs) (a : bool) : crossargs :=
    mkca (ca_dim c) (ca_ranks c) (ca_eps c) (ca_maxiter c) a (ca_kick c) (ca_max c).
  Definition ft_cross_args_set_maxrank_all (c : crossargs) (m : nat) : outcome crossargs :=
    do mx <- for_ (ca_dim c - 1) (fun ii mx => aset mx ii m) (ca_max c);
    Ok (mkca (ca_dim c) (ca_ranks c) (ca_eps c) (ca_maxiter c) (ca_adapt c) (ca_kick c) mx).
  Definition ft_cross_args_set_maxrank_ind (c : crossargs) (m ind : nat) : outcome crossargs :=
    do _ <- cassert (ind <? ca_dim c - 1)%nat;
    do mx <- aset (ca_max c) ind m;
    Ok (mkca (ca_dim c) (ca_ranks c) (ca_eps c) (ca_maxiter c) (ca_adapt c) (ca_kick c) mx).
  Definition ft_cross_args_set_cross_tol (c : crossargs) (e : R) : crossargs :=
    mkca (ca_dim c) (ca_ranks c) e (ca_maxiter c) (ca_adapt c) (ca_kick c) (ca_max c).
  (** ft.c:3196-3220 ft_cross_args_copy: the arrays are copied element by element *)
  Definition ft_cross_args_copy (c : crossargs) : outcome crossargs :=
    do r <- copyn (ca_dim c + 1) (ca_ranks c) 0 (repeat 0%nat (ca_dim c + 1)) 0;
    do m <- copyn (ca_dim c - 1) (ca_max c) 0 (repeat 0%nat (ca_dim c - 1)) 0;
    Ok (mkca (ca_dim c) r (ca_eps c) (ca_maxiter c) (ca_adapt c) (ca_kick c) m).
End Args.

(** The index sets; NULL is [None]. *)
Definition iset := option (cidx R).

Section Cross.
  Context {U : uops Rring}.

  (** indmanage.c:239-253 cross_index_get_node_value with the caller's [n = 0] *)
  Definition node_value (c : iset) (ind : nat) : outcome (list R * nat) :=
    match c with
    | None => Ok ([], 0%nat)
    | Some c => do x <- cross_index_get_node c ind; Ok (x, length x)
    end.

  (** generic_function_approximate1d with the options of dimension [ii] *)
  Context (approx1 : nat -> fwrap R R -> outcome U).

  (** ft.c:3238-3286 prepCore; the wrapper is returned as it is left *)
  Definition prepCore (ii nrows ncols : nat) (fw : fwrap R R) (left_ind right_ind : list iset)
    : outcome (qma U * fwrap R R) :=
    do fw <- fwrap_initialize_fiber_approx 0 fw ii (nrows * ncols);
    do ri <- aget right_ind ii;
    do li <- aget left_ind ii;
    do fw <- for_ ncols (fun jj fw =>
        do (xr, n2) <- node_value ri jj;
        for_ nrows (fun kk fw =>
          do (xl, n1) <- node_value li kk;
          fwrap_add_fiber fw (jj * nrows + kk) n1 xl n2 xr) fw) fw;
    do (fw, f) <- for_ ncols (fun jj st => for_ nrows (fun kk st =>
        let '(fw, f) := st in
        do fw <- fwrap_set_which_fiber fw (jj * nrows + kk);
        do u <- approx1 ii fw;
        do f <- aset f (jj * nrows + kk)%nat (Some u);
        Ok (fw, f)) st) (fw, slots (nrows * ncols));
    do fs <- freeze f;
    do fw <- fwrap_clean_fiber_approx fw;
    Ok (mkq nrows ncols fs, fw).

  (** The factorisations of qmarray_householder_simple and qmarray_maxvol1d, with the options
      of each dimension. *)
  Context (qr lq : nat -> qma U -> list R -> outcome (qma U * list R)).
  Context (mv : nat -> qma U -> list R -> list nat -> list R -> outcome (list R * list nat * list R * Z * nat)).

  (** The state of the iteration: wrapper, index sets, cores (NULL before they are first
      written) and, not present in C, the ranks of the pivot matrices of the last sweeps, and
      whether all pivot matrices so far had full rank. *)
  Record cstate := mkcs { cs_fw : fwrap R R; cs_l : list iset; cs_r : list iset;
                          cs_cores : list (option (qma U)); cs_lrk : list nat; cs_rrk : list nat; cs_full : bool }.

  (** the index set made of single coordinates *)
  Definition single_index (n : nat) (pivx : list R) : outcome (cidx R) :=
    for_ n (fun zz c => do x <- aget pivx zz; cross_index_add_index 0 c 1 [x]) (cross_index_alloc 1).

  (** ft.c:3403-3504 one step of the left-right sweep *)
  Definition lr_step (ranks : list nat) (ii : nat) (s : cstate) : outcome cstate :=
    do r0 <- aget ranks ii;
    do r1 <- aget ranks (ii + 1)%nat;
    do (temp, fw) <- prepCore ii r0 r1 (cs_fw s) (cs_l s) (cs_r s);
    do (Q, M) <- qr ii temp (repeat 0 (nc temp * nc temp));
    do m <- mv ii Q M (repeat 0%nat r1) (repeat 0 r1);
    let '(M, pivind, pivx, info, rk) := m in
    if (0 <? info)%Z then Abort else
    do c <- (if (0 <? ii)%nat then
               do l <- aget (cs_l s) ii;
               match l with
               | None => UB
               | Some old => cross_index_create_nested_ind 0 false r1 pivind pivx old
               end
             else single_index r1 pivx);
    do l <- aset (cs_l s) (ii + 1)%nat (Some c);
    do core <- qmam Q M (nc temp);
    do cores <- aset (cs_cores s) ii (Some core);
    do lrk <- aset (cs_lrk s) ii rk;
    Ok (mkcs fw l (cs_r s) cores lrk (cs_rrk s) (cs_full s && (rk =? r1)%nat)).

  (** ft.c:3579-3661 one step of the right-left sweep *)
  Definition rl_step (dim : nat) (ranks : list nat) (ii : nat) (s : cstate) : outcome cstate :=
    do r0 <- aget ranks ii;
    do r1 <- aget ranks (ii + 1)%nat;
    do (temp, fw) <- prepCore ii r0 r1 (cs_fw s) (cs_l s) (cs_r s);
    do (Q, M) <- lq ii temp (repeat 0 (nr temp * nr temp));
    do Qt <- qmarray_transpose Q;
    do m <- mv ii Qt M (repeat 0%nat r0) (repeat 0 r0);
    let '(M, pivind, pivx, info, rk) := m in
    if (0 <? info)%Z then Abort else
    do Q <- qmam Qt M (nr temp);
    do core <- qmarray_transpose Q;
    do cores <- aset (cs_cores s) ii (Some core);
    do c <- (if (ii <? dim - 1)%nat then
               do r <- aget (cs_r s) ii;
               match r with
               | None => UB
               | Some old => cross_index_create_nested_ind 0 true r0 pivind pivx old
               end
             else single_index r0 pivx);
    do r <- aset (cs_r s) (ii - 1)%nat (Some c);
    do rrk <- aset (cs_rrk s) ii rk;
    Ok (mkcs fw (cs_l s) r cores (cs_lrk s) rrk (cs_full s && (rk =? r0)%nat)).

  (** the core at an end of the train: ft.c:3516-3520 and 3672-3676 *)
  Definition end_core (ranks : list nat) (ii : nat) (s : cstate) : outcome cstate :=
    do r0 <- aget ranks ii;
    do r1 <- aget ranks (ii + 1)%nat;
    do (core, fw) <- prepCore ii r0 r1 (cs_fw s) (cs_l s) (cs_r s);
    do cores <- aset (cs_cores s) ii (Some core);
    Ok (mkcs fw (cs_l s) (cs_r s) cores (cs_lrk s) (cs_rrk s) (cs_full s)).

  (** ft.c:3396-3676 both sweeps *)
  Definition sweeps (dim : nat) (ranks : list nat) (s : cstate) : outcome cstate :=
    do s <- for_ (dim - 1) (lr_step ranks) s;
    do s <- end_core ranks (dim - 1) s;
    do s <- for_ (dim - 1) (fun k s => rl_step dim ranks (dim - (k + 1)) s) s;
    end_core ranks 0 s.

  (** function_train_relnorm2diff *)
  Context (rdiff : ftrain U -> ftrain U -> outcome R).

  (** ft.c:3396-3735 the loop; [fuel] bounds the iterations (a maxiter of 0 is only met after
      the counter wraps) *)
  Fixpoint cross_loop (fuel : nat) (ca : crossargs) (iter : nat) (fti : ftrain U) (fti2 : option (ftrain U)) (s : cstate)
    : outcome (ftrain U * cstate) :=
    match fuel with
    | O => OutOfFuel
    | S fuel =>
        do s <- sweeps (ca_dim ca) (ca_ranks ca) s;
        do cores <- freeze (cs_cores s);
        let ft := mkft (ca_dim ca) (ca_ranks ca) cores in
        do diff <- rdiff ft fti;
        do diff2 <- match fti2 with Some g => rdiff ft g | None => Ok diff end;
        if Rltb diff2 (ca_eps ca) && Rltb diff (ca_eps ca) then Ok (ft, s)
        else if (iter + 1 =? ca_maxiter ca)%nat then Ok (ft, s)
        else cross_loop fuel ca (iter + 1) ft (Some fti) s
    end.

  (** ft.c:3361-3744 ftapprox_cross; it ends the state of the wrapper and of the index sets *)
  Definition ftapprox_cross (fuel : nat) (fw : fwrap R R) (ca : crossargs) (l r : list iset) (ftref : ftrain U)
    : outcome (ftrain U * cstate) :=
    let dim := ca_dim ca in
    cross_loop fuel ca 0 ftref None (mkcs fw l r (repeat None dim) (repeat 0%nat dim) (repeat 0%nat dim) true).
End Cross.
Arguments cstate : clear implicits.

(** ** Rank adaptation *)
Section Adapt.
  Context (w : nat) {FT St : Type}.
  (** the cross approximation with given ranks, the rounding, and repeating the last entry
      of the right index set [k] (cross_index_copylast(isr[k],n)) *)
  Context (crossf : crossargs -> St -> outcome (FT * St)) (roundf : FT -> outcome FT) (ranks_of : FT -> list nat).
  Context (copylast : nat -> nat -> St -> outcome St).

  Definition set_rank (ca : crossargs) (ii r : nat) : outcome crossargs := ft_cross_args_set_rank ca ii r.

  (** ft.c:3809-3842 and 3876-3905, the same code twice: which ranks to increase; state:
      arguments, ranks_found, whether any was increased, index sets *)
  Definition kick_step (rrank : list nat) (ii : nat) (st : crossargs * list nat * bool * St) : outcome (crossargs * list nat * bool * St) :=
    let '(ca, found, adapt, s) := st in
    do f <- aget found ii;
    do r <- aget rrank ii;
    if (f =? r)%nat then
      do cr <- aget (ca_ranks ca) ii;
      do mx <- aget (ca_max ca) (ii - 1)%nat;
      if (cr <? mx)%nat then
        let kicksize := if (addw w f (ca_kick ca) <=? mx)%nat then ca_kick ca else ((mx + w - f) mod w)%nat in
        do ca <- set_rank ca ii (addw w f kicksize);
        do s <- copylast (ii - 1)%nat kicksize s;
        do found <- aset found ii (addw w f kicksize);
        Ok (ca, found, true, s)
      else Ok st
    else Ok st.
  Definition kicks (ca : crossargs) (found rrank : list nat) (s : St) : outcome (crossargs * list nat * bool * St) :=
    for_from 1 (ca_dim ca - 1) (kick_step rrank) (ca, found, false, s).

  (** ft.c:3848-3913 *)
  Fixpoint adapt_loop (fuel : nat) (ca : crossargs) (found : list nat) (adapt : bool) (ftr : FT) (s : St) : outcome (FT * crossargs * St) :=
    if adapt then
      match fuel with
      | O => OutOfFuel
      | S fuel =>
          do (ft, s) <- crossf ca s;
          do ftr <- roundf ft;
          do k <- kicks ca found (ranks_of ftr) s;
          let '(ca, found, adapt, s) := k in
          adapt_loop fuel ca found adapt ftr s
      end
    else Ok (ftr, ca, s).

  (** ft.c:3764-3925 ftapprox_cross_rankadapt; the arguments are changed *)
  Definition ftapprox_cross_rankadapt (fuel : nat) (ca : crossargs) (s : St) : outcome (FT * crossargs * St) :=
    do (ft, s) <- crossf ca s;
    if negb (ca_adapt ca) then Ok (ft, ca, s) else
    do found <- copyn (ca_dim ca + 1) (ca_ranks ca) 0 (repeat 0%nat (ca_dim ca + 1)) 0;
    do ftr <- roundf ft;
    do k <- kicks ca found (ranks_of ftr) s;
    let '(ca, found, adapt, s) := k in
    adapt_loop fuel ca found adapt ftr s.
End Adapt.

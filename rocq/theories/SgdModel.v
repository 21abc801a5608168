(** Model of stochastic gradient descent, c3_opt_sgd of
    c3/lib_optimization/optimization.c.

    Simplifications: arithmetic without rounding; the objective of a sample and its
    gradient are functions of the point; the values of rand() are a given sequence;
    the gradient occupies a buffer of [d] numbers (the first quarter of the
    workspace); storing of values is switched on (1781-1786, 1859-1862); printing, the
    numbers of evaluations and the buffers that are never read (previous_step,
    inter_step) are left out. *)
From Verif Require Import Base FOps ParamModel OptModel.
From Coq Require Import ZArith.
Open Scope nat_scope.

(** optimization.c 1635-1646 shuffle; [rnd] are the values of rand(), the next unused
    one is number [pos], [rmax] is RAND_MAX *)
Definition shuffle (rmax : nat) (rnd : nat -> nat) (N : nat) (orders : list nat) (pos : nat) : outcome (list nat * nat) :=
  if 1 <? N then
    for_ (N - 1) (fun ii '(orders, pos) =>
      let jj := ii + rnd pos / (rmax / (N - ii) + 1) in
      do t <- aget orders jj;
      do u <- aget orders ii;
      do orders <- aset orders jj u;
      do orders <- aset orders ii t;
      Ok (orders, pos + 1)) (orders, pos)
  else Ok (orders, pos).

(** 1741: lrint(ndata / 1.1), the nearest whole number *)
Definition n_train (ndata : nat) : nat := (20 * ndata + 11) / 22.

Section Sgd.
  Variable K : fops.
  Variable fsqrt : K -> K.
  Variable lit20 lit10 eps8 beta1 beta2 : K.     (* the literals 1e-20, 1e-10, 1e-8, 0.9, 0.999 *)
  Variable rmax : nat.
  Variable rnd : nat -> nat.
  Variable fs : nat -> list K -> K.
  Variable gs : nat -> list K -> list K.
  Open Scope fop_scope.

  (** the settings read at 1710-1726 and 1756-1769 *)
  Record sgdopt := mksgd { s_d : nat; s_max : nat; s_gtol : K; s_relf : K; s_absx : K; s_ndata : nat; s_rate : K; s_decay : K; s_mom : bool }.
  Variable o : sgdopt.
  Let d := s_d o.
  Let nd := s_ndata o.
  Let nt := n_train nd.

  Fixpoint fpow (a : K) (n : nat) : K := match n with 0 => f1 | S n => a *^ fpow a n end.

  (** 1648-1672 sgd_term_check: the squared step, the errors on the training and the
      validation samples *)
  Definition mean_over (order : list nat) (lo hi : nat) (x : list K) : outcome K :=
    do s <- for_from lo (hi - lo) (fun ii s => do k <- aget order ii; Ok (s +^ fs k x)) f0;
    Ok (s /^ fnat (hi - lo)).
  Definition term_check (order : list nat) (next cur : list K) : outcome (K * K * K) :=
    do xd <- for_ d (fun ii s => do a <- aget next ii; do b <- aget cur ii; Ok (s +^ (a -^ b) *^ (a -^ b))) f0;
    do tr <- mean_over order 0 nt next;
    do te <- mean_over order nt nd next;
    Ok (xd, tr, te).

  (** 1809-1811 *)
  Definition plain_step (rate : K) (cur w next : list K) : outcome (list K) :=
    for_ d (fun jj next => do a <- aget cur jj; do b <- aget w jj; aset next jj (a -^ rate *^ b)) next.
  (** 1815-1823 *)
  Definition adam_step (time : nat) (rate : K) (w next m1 m2 : list K) : outcome (list K * list K * list K) :=
    for_ d (fun jj '(next, m1, m2) =>
      do a <- aget m1 jj; do g <- aget w jj;
      do m1 <- aset m1 jj (beta1 *^ a +^ (f1 -^ beta1) *^ g);
      do b <- aget m2 jj;
      do m2 <- aset m2 jj (beta2 *^ b +^ (f1 -^ beta2) *^ g *^ g);
      do a <- aget m1 jj; let c1 := a /^ (f1 -^ fpow beta1 time) in
      do b <- aget m2 jj; let c2 := b /^ (f1 -^ fpow beta2 time) in
      do x <- aget next jj;
      do next <- aset next jj (x +^ fneg K rate *^ c1 /^ (fsqrt c2 +^ eps8));
      Ok (next, m1, m2)) (next, m1, m2).

  (** 1797-1826: one pass over the training samples.  State: current_step, next_step,
      the gradient buffer, the two moments, avg_ginner *)
  Definition sgd_epoch (iter time : nat) (rate : K) (order : list nat) (st : list K * list K * list K * list K * list K * K) :
    outcome (list K * list K * list K * list K * list K * K) :=
    for_ nt (fun ii '(cur, next, w, m1, m2, avg) =>
      do cur <- blit cur 0 next 0 d;
      do ginner <- for_ d (fun jj s => do a <- aget w jj; Ok (s +^ a *^ a)) f0;
      do k <- aget order ii;
      do w <- blit w 0 (gs k cur) 0 d;
      let avg := avg +^ ginner in
      if negb (s_mom o) || (iter <? 10) then
        do next <- plain_step rate cur w next;
        Ok (cur, next, w, m1, m2, avg)
      else
        do (next, m1, m2) <- adam_step time rate w next m1 m2;
        Ok (cur, next, w, m1, m2, avg)) st.

  Record sgdres := mkres { g_code : Z; g_x : list K; g_f : K; g_hist : list K; g_iter : nat }.

  (** 1793-1889: [fuel] is the number of iterations left; 1893-1895 after the loop
      (maxiter - 1 wraps around for maxiter = 0) *)
  Fixpoint sgd_loop (fuel iter time : nat) (rate : K) (order : list nat) (pos : nat) (st : list K * list K * list K * list K * list K * K)
    (x : list K) (train fval : K) (hist : list K) : outcome sgdres :=
    match fuel with
    | 0 => Ok (mkres (if 0 <? s_max o then MAXITER_REACHED else 0%Z) x fval hist iter)
    | S fuel =>
        do (order, pos) <- shuffle rmax rnd nd order pos;
        let '(cur, next, w, m1, m2, _) := st in
        do (cur, next, w, m1, m2, avg) <- sgd_epoch iter time rate order (cur, next, w, m1, m2, f0);
        let rate := rate *^ s_decay o in
        let old := train in
        do (xd, train, _) <- term_check order next cur;
        let ginner := avg /^ fnat nt in
        let dtrain := fabs (train -^ old) in
        let dtrain := if lit10 <^ old then dtrain /^ train else dtrain in
        let hist := hist ++ [train] in
        do x <- blit x 0 next 0 d;
        let stop :=
          if 5 <? iter then
            if ginner <^ s_gtol o then Some 3%Z else
            if fabs dtrain <^ s_relf o then Some 1%Z else
            if fabs xd <^ s_absx o then Some 2%Z else
            if rate <^ lit20 then Some 0%Z else None
          else None in
        match stop with
        | Some c => Ok (mkres c x train hist (iter + 1))
        | None => sgd_loop fuel (iter + 1) (time + 1) rate order pos (cur, next, w, m1, m2, avg) x train train hist
        end
    end.

  (** 1707-1906 c3_opt_sgd; [w] is the content of the workspace, [fval] that of the
      result before the call *)
  Definition opt_sgd (x w : list K) (fval : K) : outcome sgdres :=
    if nd <? 2 then Abort else
    do (order, pos) <- shuffle rmax rnd nd (seq 0 nd) 0;
    let z := repeat f0 d in
    do next <- blit z 0 x 0 d;
    do cur <- blit z 0 x 0 d;
    do (_, train, _) <- term_check order next cur;
    sgd_loop (s_max o) 0 1 (s_rate o) order pos (cur, next, w, z, z, f0) x train fval [train].
End Sgd.

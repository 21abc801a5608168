(** Model of c3/lib_quadrature/quadrature.c 58-211 (the closed rules; the
    Gauss rules that call LAPACK or read tables are not modelled).

    C's [cos] occurs only at arguments [M_PI * k / m] with whole numbers k, m;
    [qcos k m] is its value.  No rounding. *)
From Verif Require Import Base FOps.

Record qops := mkQops {
  qf :> fops;
  qpi : qf;                       (* M_PI *)
  qcos : nat -> nat -> qf         (* cos (M_PI * k / m) *)
}.
Arguments qpi {q}.
Arguments qcos {q}.

Section Quad.
  Variable K : fops.
  Open Scope fop_scope.

  (** The literals 0.5, 1.0/3.0, 2.0/3.0, 4.0/3.0. *)
  Definition half : K := f1 /^ fnat 2.
  Definition third (k : nat) : K := fnat k /^ fnat 3.

  (** trap_w, quadrature.c 58-68.  [N - 1] wraps around for N = 0, but the write
      to weights[0] has then already failed. *)
  Definition trap_w (N : nat) (h : K) : outcome (list K) :=
    let weights := repeat f0 N in
    do weights <- aset weights 0 (half *^ h);
    do weights <- for_from 1 (N - 1 - 1) (fun ii weights => aset weights ii (f1 *^ h)) weights;
    aset weights (N - 1) (half *^ h).

  (** simpson_w, quadrature.c 79-102. *)
  Definition simpson_w (N : nat) (h : K) : outcome (list K) :=
    let weights := repeat f0 N in
    let odd := N mod 2 in
    do weights <- aset weights 0 (third 1 *^ h);
    do weights <- for_from 1 (N - 1 - 1) (fun ii weights =>
      if ii mod 2 =? 0 then aset weights ii (third 2 *^ h)
      else aset weights ii (third 4 *^ h)) weights;
    if odd =? 0 then
      do weights <- aset weights (N - 1) (half *^ h);
      aset weights (N - 2) (third 1 *^ h +^ half *^ h)
    else aset weights (N - 1) (third 1 *^ h).

  (** rescale_cc, quadrature.c 179-187: nodes and weights. *)
  Definition rescale_cc (N : nat) (pts wts : list K) (a b : K) : outcome (list K * list K) :=
    for_ N (fun ii pw =>
      do p <- aget (fst pw) ii;
      do pts <- aset (fst pw) ii (half *^ ((p +^ f1) *^ b -^ (p -^ f1) *^ a));
      do w <- aget (snd pw) ii;
      do wts <- aset (snd pw) ii (half *^ (b -^ a) *^ w);
      Ok (pts, wts)) (pts, wts).
End Quad.
Arguments trap_w {K}.
Arguments simpson_w {K}.
Arguments rescale_cc {K}.
Arguments half {K}.
Arguments third {K}.

Section Trig.
  Variable K : qops.
  Open Scope fop_scope.

  (** cheb_gauss, quadrature.c 113-121.  [2.0 * (ii+1) - 1.0] is computed in
      doubles; it is a positive whole number. *)
  Definition cheb_gauss (N : nat) (pts weights : list K) : outcome (list K * list K) :=
    for_ N (fun ii pw =>
      do weights <- aset (snd pw) ii (qpi /^ fnat N);
      do pts <- aset (fst pw) ii (qcos (2 * (ii + 1) - 1) (2 * N));
      Ok (pts, weights)) (pts, weights).

  (** clenshaw_curtis, quadrature.c 131-169.  For N = 0 the loops run to
      SIZE_MAX; here they are empty, and the write to pts[N-1] fails or not
      according to the length of the array, so N >= 1 is assumed in the theorems. *)
  Definition clenshaw_curtis (N : nat) (pts weights : list K) : outcome (list K * list K) :=
    if N =? 1 then
      do pts <- aset pts 0 f0;
      do weights <- aset weights 0 (fnat 2);
      Ok (pts, weights)
    else
      do pts <- for_from 1 (N - 1 - 1) (fun ii pts => aset pts ii (qcos (N - 1 - ii) (N - 1))) pts;
      do pts <- aset pts 0 (f0 -^ f1);
      do pts <- (if N mod 2 =? 1 then aset pts ((N - 1) / 2) f0 else Ok pts);
      do pts <- aset pts (N - 1) f1;
      do weights <- for_ N (fun ii weights =>
        do weights <- aset weights ii f1;
        for_from 1 ((N - 1) / 2) (fun jj weights =>
          let temp2 := if 2 * jj =? N - 1 then f1 else fnat 2 in
          do w <- aget weights ii;
          aset weights ii (w -^ temp2 *^ qcos (2 * jj * ii) (N - 1) /^ (fnat 4 *^ (fnat jj *^ fnat jj) -^ f1))) weights) weights;
      do w <- aget weights 0;
      do weights <- aset weights 0 (w /^ fnat (N - 1));
      do weights <- for_from 1 (N - 1 - 1) (fun ii weights =>
        do w <- aget weights ii;
        aset weights ii (fnat 2 *^ w /^ fnat (N - 1))) weights;
      do w <- aget weights (N - 1);
      do weights <- aset weights (N - 1) (w /^ fnat (N - 1));
      Ok (pts, weights).

  (** memmove(dst, src + 1, N * sizeof(double)) between two distinct arrays. *)
  Definition copy1 (N : nat) (dst src : list K) : outcome (list K) :=
    for_ N (fun ii dst => do v <- aget src (ii + 1); aset dst ii v) dst.

  (** fejer2, quadrature.c 196-211. *)
  Definition fejer2 (N : nat) (pts weights : list K) : outcome (list K * list K) :=
    if 2 <? N then
      do t <- clenshaw_curtis (N + 2) (repeat f0 (N + 2)) (repeat f0 (N + 2));
      do pts <- copy1 N pts (fst t);
      do weights <- copy1 N weights (snd t);
      Ok (pts, weights)
    else clenshaw_curtis N pts weights.
End Trig.
Arguments cheb_gauss {K}.
Arguments clenshaw_curtis {K}.
Arguments fejer2 {K}.
Arguments copy1 {K}.

(** Model of the normal distribution functions: c3/lib_probability/probability_utils.c.
    Real arithmetic; decimal literals are taken exactly; exp, log, sqrt and pi are those of
    the reals and the error function is a parameter (ErfSpec.v says which).  A division by
    zero, which gives an infinity in C, gives 0 here. *)
From Coq Require Import Reals.
From Verif Require Import Base FOps.
Open Scope R_scope.

(** probability_utils.c 64-88, the static constants *)
Definition a1 := -39.69683028665376.   Definition a2 := 220.9460984245205.
Definition a3 := -275.9285104469687.   Definition a4 := 138.3577518672690.
Definition a5 := -30.66479806614716.   Definition a6 := 2.506628277459239.
Definition b1 := -54.47609879822406.   Definition b2 := 161.5858368580409.
Definition b3 := -155.6989798598866.   Definition b4 := 66.80131188771972.
Definition b5 := -13.28068155288572.
Definition c1 := -0.007784894002430293. Definition c2 := -0.3223964580411365.
Definition c3 := -2.400758277161838.   Definition c4 := -2.549732539343734.
Definition c5 := 4.374664141464968.    Definition c6 := 2.938163982698783.
Definition d1 := 0.007784695709041462. Definition d2 := 0.3224671290700398.
Definition d3 := 2.445134137142996.    Definition d4 := 3.754408661907416.

(** DBL_EPSILON *)
Definition dbl_eps : R := / 2 ^ 52.

(** the quotient of lines 110-111 and 122-123 *)
Definition tail_quot (q : R) : R :=
  (((((c1 * q + c2) * q + c3) * q + c4) * q + c5) * q + c6)
  / ((((d1 * q + d2) * q + d3) * q + d4) * q + 1).

(** probability_utils.c 96-128 icdfnorm_rational *)
Definition icdfnorm_rational (pin : R) : R :=
  let p_low := 0.02425 in
  let p_high := 1 - p_low in
  let p := if Req_EM_T pin 0 then dbl_eps
           else if Req_EM_T pin 1 then 1 - dbl_eps else pin in
  if Rleb p p_low then tail_quot (sqrt (- 2 * ln p))
  else if Rleb p p_high then
    let r := p - 0.5 in
    let q := r * r in
    ((((((a1 * q + a2) * q + a3) * q + a4) * q + a5) * q + a6) * q)
    / (((((b1 * q + b2) * q + b3) * q + b4) * q + b5) * q + 1)
  else - tail_quot (sqrt (- 2 * ln (1 - p))).

Section Prob.
  Variable erf : R -> R.

  (** erfc of the C library *)
  Definition erfc (x : R) : R := 1 - erf x.

  (** probability_utils.c 141-143 and 149-151: the size of one step *)
  Definition halley (p val : R) : R :=
    let e := 0.5 * erfc (- val / sqrt 2) - p in
    let u := e * sqrt (2 * PI) * exp (val * val / 2) in
    u / (1 + val * u / 2).

  (** probability_utils.c 147-154, the while loop: [dval] is the step just taken *)
  Fixpoint icdf_loop (fuel : nat) (p val dval : R) : outcome R :=
    if Rltb 1e-15 dval then
      match fuel with
      | O => OutOfFuel
      | S k => let d := halley p val in icdf_loop k p (val - d) d
      end
    else Ok val.

  (** probability_utils.c 138-156 icdfnorm *)
  Definition icdfnorm (fuel : nat) (p : R) : outcome R :=
    let val := icdfnorm_rational p in
    let d := halley p val in
    icdf_loop fuel p (val - d) d.

  (** probability_utils.c 168-175 cdf_normal *)
  Definition cdf_normal (mean std x : R) : R :=
    let temp := (x - mean) / std / sqrt 2 in
    0.5 * (1 + erf temp).

  (** probability_utils.c 192-198 icdf_normal *)
  Definition icdf_normal (fuel : nat) (mean std x : R) : outcome R :=
    do v <- icdfnorm fuel x; Ok (mean + std * v).
End Prob.

(** Model of the grid generators of c3/lib_array/array.c.  Numbers are rationals
    ([Qc]): every finite double is one; rounding is not modelled. *)
From Verif Require Import Base.
From Coq Require Import ZArith QArith Qcanon Qround.

Definition nat2qc (n : nat) : Qc := Q2Qc (inject_Z (Z.of_nat n)).
Local Open Scope Qc_scope.

(** linspace, array.c 271-281.  For [N = 0] the bound [N-1] is SIZE_MAX and the
    first write is already outside the empty array.  For [N = 1] the quotient is
    not a number, but it is not used. *)
Definition linspace (mn mx : Qc) (N : nat) : outcome (list Qc) :=
  if (N =? 0)%nat then UB
  else
    let arrp := repeat 0 N in
    let dx := (mx - mn) / nat2qc (N - 1) in
    do arrp <- for_ (N - 1) (fun ii a => aset a ii (nat2qc ii * dx + mn)) arrp;
    aset arrp (N - 1) mx.

(** arange, array.c 324-333.  A quotient by zero makes the conversion to an
    integer undefined.  A negative count wraps to at least 2^63 elements, whose
    allocation fails ([exit]). *)
Definition arange (start stop step : Qc) : outcome (list Qc * nat) :=
  if Qc_eq_dec step 0 then UB
  else
    let z := (Qfloor (this ((stop - start) / step)) + 1)%Z in
    if (z <? 0)%Z then Abort
    else
      let N := Z.to_nat z in
      do arrp <- for_ N (fun ii a => aset a ii (start + step * nat2qc ii)) (repeat 0 N);
      Ok (arrp, N).

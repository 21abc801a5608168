(** Model of the distances of function trains: c3/lib_clinalg/ft.c 2957-3015. *)
From Coq Require Import Reals Lra.
From Verif Require Import FTModel PinvModel RoundModel.
Open Scope R_scope.

Section Dist.
  Context {U : uops Rring}.

  (** ft.c:2965-2977 function_train_norm2diff *)
  Definition ft_norm2diff (a b : ftrain U) : outcome R :=
    do c <- ft_copy b;
    do c <- ft_scale c (-1 : Rring);
    do d <- ft_sum a c;
    ft_norm2 d.

  (** ft.c:2988-3015 function_train_relnorm2diff; [zt] is ZEROTHRESH of ft.c *)
  Definition ft_relnorm2diff (zt : R) (a b : ftrain U) : outcome R :=
    do c <- ft_copy b;
    do c <- ft_scale c (-1 : Rring);
    do den <- ft_inner c c;
    do d <- ft_sum a c;
    do num <- ft_inner d d;
    let val := if Rltb zt (Rabs den) then num / den else num in
    Ok (sqrt (Rabs val)).
End Dist.

(** Specification vocabulary for function trains, independent of the code:
    a train is the finite sum, over all rank paths, of products of univariate
    functions. *)
From Verif Require Export FTModel.

Section FTSpec.
  Context {R : CRing} {U : Type}.
  Open Scope cr_scope.

  (** Entry in row [i], column [j]. *)
  Definition entry (c : qma U) (i j : nat) : option U := nth_error (fs c) (j * nr c + i).

  (** All rank-one terms of a list of cores that start in row [i]: one
      univariate function per core. *)
  Fixpoint terms (cs : list (qma U)) (i : nat) : list (list U) :=
    match cs with
    | [] => [[]]
    | c :: cs' =>
        flat_map (fun j => match entry c i j with
                           | Some f => map (cons f) (terms cs' j)
                           | None => []
                           end) (seq 0 (nc c))
    end.

  (** Product of one number per factor: [h_k] applied to the k-th factor. *)
  Fixpoint tprod (hs : list (U -> R)) (t : list U) : R :=
    match hs, t with
    | h :: hs', f :: t' => h f *! tprod hs' t'
    | _, _ => r1
    end.

  (** Sum over a list of terms. *)
  Definition tsum (hs : list (U -> R)) (ts : list (list U)) : R := lsum (map (tprod hs) ts).

  (** Well-shaped core and well-shaped list of cores from rank [r] to rank [r']. *)
  Definition qwf (c : qma U) : Prop := length (fs c) = nr c * nc c.

  Fixpoint chain (r : nat) (cs : list (qma U)) (r' : nat) : Prop :=
    match cs with
    | [] => r = r'
    | c :: cs' => nr c = r /\ qwf c /\ 0 < nr c /\ 0 < nc c /\ chain (nc c) cs' r'
    end.

  (** A well-shaped train: at least one core, ranks match the cores, all
      positive, outer ranks 1. *)
  Definition ft_wf (f : ftrain U) : Prop :=
    ft_dim f = length (ft_cores f) /\ 0 < ft_dim f /\
    ft_ranks f = 1 :: map nc (ft_cores f) /\ chain 1 (ft_cores f) 1.
End FTSpec.

Section Values.
  Context {R : CRing} {U : uops R}.
  Open Scope cr_scope.

  (** Value of the train at a point: sum over rank paths of the product of the
      univariate values. *)
  Definition train_value (f : ftrain U) (x : list R) : R :=
    tsum (map (fun xk (g : U) => uev g xk) x) (terms (ft_cores f) 0).

  (** Integral: sum over rank paths of the product of univariate integrals. *)
  Definition train_integral (f : ftrain U) : R :=
    tsum (map (fun _ (g : U) => uint g) (ft_cores f)) (terms (ft_cores f) 0).

  (** Inner product: sum over pairs of rank paths of the products of
      univariate inner products. *)
  Definition train_inner (f g : ftrain U) : R :=
    lsum (map (fun s => tsum (map (fun u v => uinner u v) s) (terms (ft_cores g) 0))
              (terms (ft_cores f) 0)).

  (** A linear functional on univariate functions. *)
  Definition linfun (phi : U -> R) : Prop :=
    (forall a f b, phi (uaxpby a f b None) = a *! phi f) /\
    (forall a f b g, phi (uaxpby a f b (Some g)) = a *! phi f +! b *! phi g) /\
    (forall l, phi (ulcpoly l) = lsum (map (fun p => fst p *! phi (snd p)) l)).

  (** Laws of univariate arithmetic that theorems may assume. *)
  Definition law_ev_lin : Prop := forall x : R, linfun (fun f : U => uev f x).
  Definition law_ev_prod : Prop :=
    forall (f g : U) x, uev (uprod f g) x = uev f x *! uev g x.
  Definition law_ev_sumprod : Prop :=
    forall (l : list (U * U)) x, uev (usppoly l) x = lsum (map (fun p => uev (fst p) x *! uev (snd p) x) l).
  Definition law_int_lin : Prop := linfun (uint (u := U)).
  Definition law_inner_lin_l : Prop := forall g : U, linfun (fun f => uinner f g).
  Definition law_inner_lin_r : Prop := forall g : U, linfun (uinner g).
  Definition law_inner_sym : Prop := forall f g : U, uinner f g = uinner g f.
  Definition law_int_prod : Prop := forall f g : U, uint (uprod f g) = uinner f g.

  (** The 1000-pointer stack buffer of the array evaluation is not exceeded:
      the core has at most 1000 functions or one of the first 1000 is not a
      polynomial. *)
  Definition small_core (c : qma U) : Prop :=
    nr c * nc c <= 1000 \/
    exists k g, k < 1000 /\ nth_error (fs c) k = Some g /\ uispoly g = false.

  Definition ft_small (f : ftrain U) : Prop := forall c, In c (ft_cores f) -> small_core c.
End Values.
Arguments law_ev_lin {R} U.
Arguments law_ev_prod {R} U.
Arguments law_ev_sumprod {R} U.
Arguments law_int_lin {R} U.
Arguments law_inner_lin_l {R} U.
Arguments law_inner_lin_r {R} U.
Arguments law_inner_sym {R} U.
Arguments law_int_prod {R} U.

(** Well-formed work spaces: the buffer has the announced size. *)
Definition ms_wf {R : CRing} (m : option (memsp R)) : Prop :=
  match m with
  | None => True
  | Some s => length (ms_vals s) = num_spaces s * space_size s
  end.

Definition ws_wf {R : CRing} (w : wspace R) : Prop :=
  ms_wf (ws1 w) /\ ms_wf (ws2 w) /\ ms_wf (ws3 w).

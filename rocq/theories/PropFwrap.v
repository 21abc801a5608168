(** Property C33: function wrappers.  [ops] is any sequence of calls of the
    interface that ran without failing an assertion; histories are read latest
    call first (FwrapFacts, "Specification"). *)
From Verif Require Import Base FwrapModel FwrapFacts.

(** In fiber mode, with fiber [k] selected since the last initialisation (or none
    ever selected, and k = 0) and the values [l], [r] last fixed for it, the user's
    function is called exactly at the points (l, t, r).  All five kinds of
    functions. *)
Theorem C33_eval_on_fiber :
  forall (X Y : Type) (zero : X) d t (ops : list (fop X Y)) w u k l r n ts,
  frun zero (fwrap_create d t) ops = Ok w -> in_fibers (rev ops) = true ->
  selected (rev ops) = Some k -> fixed_values k (rev ops) = Some (l, r) ->
  user_fun d t (rev ops) = Some u -> length ts = n ->
  fwrap_eval zero w n ts = Ok (u n (concat (map (fun t => l ++ [t] ++ r) ts))).
Proof. intros X Y. exact eval_on_fiber. Qed.
Print Assumptions C33_eval_on_fiber.

(** The same for a function of one point: the values at (l, t, r). *)
Theorem C33_eval_on_fiber_point :
  forall (X Y : Type) (zero : X) d t (ops : list (fop X Y)) w f k l r ts,
  t = ND \/ t = INTND ->
  frun zero (fwrap_create d t) ops = Ok w -> in_fibers (rev ops) = true ->
  selected (rev ops) = Some k -> fixed_values k (rev ops) = Some (l, r) ->
  point_fun (rev ops) = Some f ->
  fwrap_eval zero w (length ts) ts = Ok (map (fun t => f (l ++ [t] ++ r)) ts, 0).
Proof. intros X Y. exact eval_on_fiber_point. Qed.
Print Assumptions C33_eval_on_fiber_point.

(** Two fibers in dimension 1 of 3, values fixed twice for fiber 1, other calls in
    between. *)
Example C33_eval_on_fiber_case :
  let f := fun x => list_sum (map (fun i => nth i x 0 * (i * i + 1)) [0; 1; 2]) in
  let ops := [OInit 0 1; OSetF f; OClean; OInit 1 2; OAdd 1 [9] [9]; OFiber 1; OWhich 3;
              OAdd 1 [1] [2]; OEval 1 [5]; OAdd 0 [7] [7]] in
  exists w, frun 0 (fwrap_create 3 ND) ops = Ok w
    /\ in_fibers (rev ops) = true /\ selected (rev ops) = Some 1
    /\ fixed_values 1 (rev ops) = Some ([1], [2]) /\ point_fun (rev ops) = Some f
    /\ fwrap_eval 0 w 2 [3; 4] = Ok ([f [1; 3; 2]; f [1; 4; 2]], 0).
Proof. eexists. repeat split. Qed.

(** Outside fiber mode, in particular after the clean-up, the user's function is
    evaluated at the given points. *)
Theorem C33_eval_plain :
  forall (X Y : Type) (zero : X) d t (ops : list (fop X Y)) w u n x,
  frun zero (fwrap_create d t) ops = Ok w -> in_fibers (rev ops) = false ->
  user_fun d t (rev ops) = Some u -> length x = n * d ->
  fwrap_eval zero w n x = Ok (u n x).
Proof. intros X Y. exact eval_plain. Qed.
Print Assumptions C33_eval_plain.

Example C33_eval_plain_case :
  let f := fun x => list_sum x in
  let ops := [OSetF f; OInit 0 2; OAdd 0 [] [4]; OFiber 0; OEval 1 [1]; OClean] in
  exists w, frun 0 (fwrap_create 2 ND) ops = Ok w /\ in_fibers (rev ops) = false
    /\ fwrap_eval 0 w 2 [1; 2; 3; 4] = Ok ([3; 7], 0).
Proof. eexists. repeat split. Qed.

(** Arrays of functions: the one chosen last. *)
Example C33_array_case :
  let g := fun c (n : nat) (x : list nat) => (map (Nat.add c) x, 0) in
  let ops := [ONum 2; OArr 0 (g 10); OArr 1 (g 20); OWhich 0; OWhich 1] in
  exists w, frun 0 (fwrap_create 1 ARRVEC) ops = Ok w
    /\ fwrap_eval 0 w 2 [1; 2] = Ok ([21; 22], 0).
Proof. eexists. repeat split. Qed.

(** The selection survives the clean-up and a new initialisation: whenever a fiber
    k >= 1 was selected before and the new approximation has at most k fibers, the
    evaluation reads outside the array of fibers, although every call succeeded
    and every fiber has been given its values. *)
Theorem C33_stale_fiber_refuted :
  forall (X Y : Type) (zero : X) (f : list X -> Y) k l r ts,
  1 <= k -> exists w,
  frun zero (fwrap_create (length l + length r + 1) ND)
    [OSetF f; OInit (length l) (k + 1); OFiber k; OClean; OInit (length l) 1; OAdd 0 l r] = Ok w
  /\ fwrap_eval zero w (length ts) ts = UB.
Proof.
  intros X Y zero f k l r ts Hk. cbn [frun fstep].
  unfold fwrap_set_f. cbn [fwrap_create fw_type ftype_eqb orb obind].
  unfold fwrap_initialize_fiber_approx at 1. cbn [obind].
  unfold fwrap_set_which_fiber. cbn [fw_fiber_approx fw_nfibers set_fib'].
  unfold cassert. rewrite (proj2 (Nat.ltb_lt k (k + 1))) by lia. cbn [obind].
  unfold fwrap_clean_fiber_approx. cbn [obind].
  unfold fwrap_initialize_fiber_approx. cbn [obind].
  unfold fwrap_add_fiber. unfold cassert.
  cbn [set_fib' set_f' set_onfiber' fw_fiber_approx fw_nfibers fw_fiber_dim fw_d
       fw_fiber_vals fwrap_create obind].
  rewrite !Nat.eqb_refl. cbn [obind Nat.ltb Nat.leb repeat Base.aget nth_error].
  destruct (copy2_ok l r (repeat zero (length l + length r + 1))) as (z & E);
    [apply repeat_length|].
  destruct (IdxModel.copyn (length l) l 0 _ 0) as [v| | |]; cbn [obind] in *; try discriminate.
  rewrite E. cbn [obind aset length Nat.ltb Nat.leb upd].
  eexists. split; [reflexivity|]. unfold fwrap_eval, fwrap_eval_fiber.
  cbn [set_fib' set_f' set_onfiber' fw_fiber_approx fw_fiber_vals fw_onfiber fwrap_create].
  destruct k as [|k]; [lia|]. unfold aget. cbn [nth_error]. destruct k; reflexivity.
Qed.
Print Assumptions C33_stale_fiber_refuted.

(** Selecting a function outside the array is not noticed before it is called. *)
Theorem C33_which_eval_range_refuted :
  forall (X Y : Type) (zero : X) d n (x : list X), exists w,
  frun zero (fwrap_create d ARRVEC) [ONum 1; OArr 0 (fun n x => (@nil Y, 0)); OWhich 1] = Ok w
  /\ fwrap_eval zero w n x = UB.
Proof. intros X Y zero d n x. eexists. split; reflexivity. Qed.
Print Assumptions C33_which_eval_range_refuted.

(** A function of the wrong kind is refused, one of the right kind accepted. *)
Theorem C33_setters :
  forall (X Y : Type) (w : fwrap X Y) (f : list X -> Y) (g : @vfun X Y) (h : nat -> @vfun X Y) (n : nat),
  let kind (P : bool) := fun o : outcome (fwrap X Y) => if P then exists w', o = Ok w' /\ fw_type w' = fw_type w else o = Abort in
  kind (match fw_type w with ND | INTND => true | _ => false end) (fwrap_set_f w f) /\
  kind (match fw_type w with VEC => true | _ => false end) (fwrap_set_fvec w g) /\
  kind (match fw_type w with MOVEC => true | _ => false end) (fwrap_set_mofvec w h) /\
  kind (match fw_type w with ARRVEC => true | _ => false end) (fwrap_set_num_funcs w n) /\
  (fw_type w <> ARRVEC -> fwrap_set_func_array w n g = Abort).
Proof.
  intros X Y w f g h n. cbv zeta. unfold fwrap_set_f, fwrap_set_fvec, fwrap_set_mofvec, fwrap_set_num_funcs, fwrap_set_func_array.
  destruct (fw_type w) eqn:E; cbn [ftype_eqb orb];
    repeat (split; [first [reflexivity|eexists; split; [reflexivity|exact E]]|]); intros; try reflexivity; congruence.
Qed.
Print Assumptions C33_setters.

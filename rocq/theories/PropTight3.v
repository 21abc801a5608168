(** Theorems added after seeded bugs survived: texts of empty arrays (C21), short files
    (C23), complex coefficients that are not finite (C09), reading parameters of a train
    that has none (C67). *)
From Verif Require Import Base BaseFacts MonModel MonFacts SerModel SerFacts PropSer PAllocModel PropPAlloc.
From Coq Require Import ZArith Lia List NArith.
Import ListNotations.
Open Scope nat_scope.

(** serialize_darray_to_text reads x[N-1], so N = 0 is undefined. *)
Theorem C21_text_empty_refuted : forall x, darray_text 0 x = UB.
Proof. reflexivity. Qed.

(** darray_load gives NULL exactly for files too short for a length. *)
Theorem C23_load_short : forall file, darray_load file = Ok None <-> length file < 8.
Proof.
  intros file. unfold darray_load. change sz8 with 8. destruct (Nat.ltb_spec (length file) 8) as [H|H].
  - split; auto.
  - split; [|lia]. destruct (des_sz file 0) as [[s q]| | |]; cbn [obind]; try discriminate.
    destruct (des_sz _ 0) as [[r q']| | |]; cbn [obind]; try discriminate.
    destruct (des_sz _ q') as [[c q2]| | |]; cbn [obind]; try discriminate.
    destruct (des_dblp _ q2) as [[[v t] q3]| | |]; cbn [obind]; try discriminate.
    destruct (cassert _); cbn [obind]; discriminate.
Qed.

(** Bit patterns of doubles *)
Definition is_nan (x : N) : Prop := (N.land (N.shiftr x 52) 2047 = 2047 /\ N.land x (2 ^ 52 - 1) <> 0)%N.
Definition nonfinite (x : N) : Prop := (N.land (N.shiftr x 52) 2047 = 2047)%N.

(** A Fourier coefficient whose imaginary part is infinite or a NaN comes back with a
    NaN as real part, whatever was stored. *)
Theorem C09_nonfinite_refuted : forall buf p cr ci, at_ buf p (e_dbl cr ++ e_dbl ci) -> isdbl cr -> isdbl ci -> nonfinite ci ->
  exists r, des_cplx buf p = Ok ((r, ci), p + 16) /\ is_nan r.
Proof.
  intros buf p cr ci HA Hr Hi NF. unfold des_cplx.
  apply at_app in HA as [H1 H2].
  rewrite (des_dbl_at buf p cr H1 Hr). cbn [obind]. change (length (e_dbl cr)) with 8 in H2.
  rewrite (des_dbl_at buf (p + 8) ci H2 Hi). cbn [obind]. exists qnan. split.
  - unfold cplx_re. replace (dspecial ci) with true; [replace (p + 8 + 8) with (p + 16) by lia; reflexivity|].
    unfold dspecial, nonfinite in *. symmetry. apply N.eqb_eq.
    rewrite <- N.shiftr_div_pow2. change 2048%N with (2 ^ 11)%N. rewrite <- N.land_ones. exact NF.
  - split; vm_compute; congruence.
Qed.
Example C09_nonfinite_example : nonfinite (2047 * 2 ^ 52)%N.
Proof. reflexivity. Qed.

(** ft_param_get_params ends the program if there are no parameters. *)
Theorem C67_get_params_none : forall (R : CRing) (F : Type) (ftp : ftparam R (gfn R F)) n (buf : list R),
  fp_nparams ftp = 0 -> ftp_get_params ftp n buf = Abort.
Proof. intros. unfold ftp_get_params. now rewrite H. Qed.

Print Assumptions C21_text_empty_refuted. Print Assumptions C23_load_short.
Print Assumptions C09_nonfinite_refuted. Print Assumptions C67_get_params_none.

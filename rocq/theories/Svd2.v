(** A singular value decomposition for matrices of order 1 and 2, used in examples. *)
From Coq Require Import Reals Lra.
From Verif Require Import RoundStep.
Open Scope R_scope.

Definition perp (v : R * R) : R * R := (- snd v, fst v).
Definition nrm2 (v : R * R) : R := fst v * fst v + snd v * snd v.
Definition scl (c : R) (v : R * R) : R * R := (c * fst v, c * snd v).
Definition unit_of (v : R * R) : R * R := scl (/ sqrt (nrm2 v)) v.

(** First right singular vector. *)
Definition right2 (p q r : R) : R * R :=
  if Req_EM_T q 0 then (1, 0)
  else unit_of (q, (r - p) / 2 + sqrt (((p - r) / 2) * ((p - r) / 2) + q * q)).
(** Left singular vectors for the images w1, w2 of the right ones. *)
Definition left2 (w1 w2 : R * R) : (R * R) * (R * R) :=
  let u1 := if Req_EM_T (nrm2 w1) 0 then if Req_EM_T (nrm2 w2) 0 then (1, 0) else perp (unit_of w2) else unit_of w1 in
  (u1, if Req_EM_T (nrm2 w2) 0 then perp u1 else unit_of w2).

Definition svd2 (m n : nat) (a : list R) : outcome (list R * list R * list R) :=
  match m, n, a with
  | 1%nat, 1%nat, [x] => Ok ([if Rlt_dec x 0 then -1 else 1], [Rabs x], [1])
  | 2%nat, 2%nat, [a00; a10; a01; a11] =>
      let v := right2 (a00 * a00 + a10 * a10) (a00 * a01 + a10 * a11) (a01 * a01 + a11 * a11) in
      let w1 := (fst v * a00 + snd v * a01, fst v * a10 + snd v * a11) in
      let w2 := (- snd v * a00 + fst v * a01, - snd v * a10 + fst v * a11) in
      let '(u1, u2) := left2 w1 w2 in
      Ok ([fst u1; snd u1; fst u2; snd u2], [sqrt (nrm2 w1); sqrt (nrm2 w2)], [fst v; - snd v; snd v; fst v])
  | _, _, _ => Abort
  end.

Lemma nrm2_pos v : 0 <= nrm2 v.
Proof. unfold nrm2. nra. Qed.
Lemma unit_nrm v : nrm2 v <> 0 -> nrm2 (unit_of v) = 1.
Proof.
  intros H. pose proof (nrm2_pos v) as P. assert (0 < nrm2 v) as Q by lra.
  assert (E : nrm2 (unit_of v) = / sqrt (nrm2 v) * / sqrt (nrm2 v) * nrm2 v) by (unfold unit_of, scl, nrm2 at 1; cbn; unfold nrm2; ring).
  rewrite E. pose proof (sqrt_lt_R0 _ Q) as S. rewrite <- (sqrt_sqrt (nrm2 v)) at 3 by lra. field. lra.
Qed.
Lemma unit_back v : nrm2 v <> 0 -> scl (sqrt (nrm2 v)) (unit_of v) = v.
Proof.
  intros H. pose proof (nrm2_pos v) as P. assert (0 < nrm2 v) as Q by lra. pose proof (sqrt_lt_R0 _ Q) as S.
  destruct v as [x y]. unfold unit_of, scl. cbn [fst snd]. f_equal; field; lra.
Qed.
Lemma nrm2_zero v : nrm2 v = 0 -> v = (0, 0).
Proof. destruct v as [x y]. unfold nrm2. cbn. intros H. f_equal; nra. Qed.

Lemma right2_ok p q r : 0 <= p -> 0 <= r ->
  nrm2 (right2 p q r) = 1 /\
  q * (fst (right2 p q r) * fst (right2 p q r) - snd (right2 p q r) * snd (right2 p q r)) + fst (right2 p q r) * snd (right2 p q r) * (r - p) = 0.
Proof.
  intros Hp Hr. unfold right2. destruct (Req_EM_T q 0) as [->|Hq]; [unfold nrm2; cbn; split; ring|].
  set (t := sqrt (((p - r) / 2) * ((p - r) / 2) + q * q)). set (y := (r - p) / 2 + t).
  assert (Ht : t * t = ((p - r) / 2) * ((p - r) / 2) + q * q) by (apply sqrt_sqrt; pose proof (Rle_0_sqr ((p - r) / 2)); pose proof (Rle_0_sqr q); unfold Rsqr in *; lra).
  assert (Hn : nrm2 (q, y) <> 0).
  { unfold nrm2. cbn [fst snd]. pose proof (Rle_0_sqr y). pose proof (Rsqr_pos_lt q Hq). unfold Rsqr in *. lra. }
  split; [now apply unit_nrm|]. unfold unit_of, scl. cbn [fst snd]. set (c := / sqrt (nrm2 (q, y))).
  replace (q * (c * q * (c * q) - c * y * (c * y)) + c * q * (c * y) * (r - p)) with (c * c * q * (q * q - y * (y - (r - p)))) by ring.
  replace (q * q - y * (y - (r - p))) with (q * q - (t * t - ((p - r) / 2) * ((p - r) / 2))) by (unfold y; field). rewrite Ht. ring.
Qed.

Lemma left2_ok w1 w2 : fst w1 * fst w2 + snd w1 * snd w2 = 0 ->
  let '(u1, u2) := left2 w1 w2 in
  nrm2 u1 = 1 /\ nrm2 u2 = 1 /\ fst u1 * fst u2 + snd u1 * snd u2 = 0 /\
  scl (sqrt (nrm2 w1)) u1 = w1 /\ scl (sqrt (nrm2 w2)) u2 = w2.
Proof.
  intros O. unfold left2.
  assert (Z : forall u, scl (sqrt 0) u = (0, 0)) by (intros [x y]; unfold scl; rewrite sqrt_0; cbn; f_equal; ring).
  assert (PP : forall u, nrm2 (perp u) = nrm2 u) by (intros [x y]; unfold nrm2, perp; cbn; ring).
  destruct (Req_EM_T (nrm2 w1) 0) as [E1|E1]; destruct (Req_EM_T (nrm2 w2) 0) as [E2|E2].
  - rewrite E1, E2, !Z, (nrm2_zero _ E1), (nrm2_zero _ E2). unfold nrm2, perp. cbn. repeat split; ring.
  - rewrite E1, Z, (nrm2_zero _ E1), PP, (unit_nrm w2 E2), (unit_back w2 E2).
    repeat split; auto. unfold perp. cbn. ring.
  - rewrite E2, Z, (nrm2_zero _ E2), PP, (unit_nrm w1 E1), (unit_back w1 E1).
    repeat split; auto. unfold perp. cbn. ring.
  - rewrite (unit_nrm w1 E1), (unit_back w1 E1), (unit_nrm w2 E2), (unit_back w2 E2). repeat split; auto.
    unfold unit_of, scl. cbn [fst snd].
    replace (/ sqrt (nrm2 w1) * fst w1 * (/ sqrt (nrm2 w2) * fst w2) + / sqrt (nrm2 w1) * snd w1 * (/ sqrt (nrm2 w2) * snd w2))
      with (/ sqrt (nrm2 w1) * / sqrt (nrm2 w2) * (fst w1 * fst w2 + snd w1 * snd w2)) by ring. rewrite O. ring.
Qed.

Theorem svd2_law : svd_law 2 False svd2.
Proof.
  intros n a Hn HL. left. destruct n as [|[|[|n]]]; [lia| | |lia].
  - destruct a as [|x [|? ?]]; try discriminate. cbn [svd2]. eexists _, _, _. split; [reflexivity|].
    split; [reflexivity|]. split; [reflexivity|]. split; [reflexivity|]. split; [|split].
    + intros i j Hi Hj. assert (i = 0%nat) as -> by lia. assert (j = 0%nat) as -> by lia. cbn. destruct (Rlt_dec x 0); ring.
    + intros i j Hi Hj. assert (i = 0%nat) as -> by lia. assert (j = 0%nat) as -> by lia. cbn. ring.
    + intros i j Hi Hj. assert (i = 0%nat) as -> by lia. assert (j = 0%nat) as -> by lia. cbn. unfold Rabs. destruct (Rcase_abs x), (Rlt_dec x 0); lra.
  - destruct a as [|a00 [|a10 [|a01 [|a11 [|? ?]]]]]; try discriminate. cbn [svd2].
    set (p := a00 * a00 + a10 * a10). set (q := a00 * a01 + a10 * a11). set (r := a01 * a01 + a11 * a11).
    destruct (right2_ok p q r) as [N O]; [unfold p; nra|unfold r; nra|].
    destruct (right2 p q r) as [x y]. unfold nrm2 in N. cbn [fst snd] in *.
    set (w1 := (x * a00 + y * a01, x * a10 + y * a11)). set (w2 := (- y * a00 + x * a01, - y * a10 + x * a11)).
    pose proof (left2_ok w1 w2) as H. destruct (left2 w1 w2) as [[u1x u1y] [u2x u2y]].
    destruct H as (N1 & N2 & O12 & B1 & B2). { unfold w1, w2, p, q, r in *. cbn. lra. }
    unfold nrm2 in N1, N2. unfold scl in B1, B2. cbn [fst snd] in *.
    assert (B1x := f_equal fst B1). assert (B1y := f_equal snd B1). assert (B2x := f_equal fst B2). assert (B2y := f_equal snd B2).
    cbn [fst snd] in B1x, B1y, B2x, B2y.
    change (sqrt (fst w1 * fst w1 + snd w1 * snd w1)) with (sqrt (nrm2 w1)) in *. change (sqrt (fst w2 * fst w2 + snd w2 * snd w2)) with (sqrt (nrm2 w2)) in *.
    set (s1 := sqrt (nrm2 w1)) in *. set (s2 := sqrt (nrm2 w2)) in *. unfold w1, w2 in B1x, B1y, B2x, B2y. cbn [fst snd] in B1x, B1y, B2x, B2y.
    eexists _, _, _. split; [reflexivity|].
    split; [reflexivity|]. split; [reflexivity|]. split; [reflexivity|]. split; [|split].
    + intros i j Hi Hj. destruct i as [|[|]]; [| |lia]; destruct j as [|[|]]; try lia; cbn; lra.
    + intros i j Hi Hj. destruct i as [|[|]]; [| |lia]; destruct j as [|[|]]; try lia; cbn; lra.
    + assert (X : forall u v, x * (x * u + y * v) - y * (- y * u + x * v) = u /\ y * (x * u + y * v) + x * (- y * u + x * v) = v).
      { intros u v. split.
        - replace (x * (x * u + y * v) - y * (- y * u + x * v)) with ((x * x + y * y) * u) by ring. rewrite N. ring.
        - replace (y * (x * u + y * v) + x * (- y * u + x * v)) with ((x * x + y * y) * v) by ring. rewrite N. ring. }
      destruct (X a00 a01) as [X1 X2]. destruct (X a10 a11) as [X3 X4]. rewrite <- B1x, <- B2x in X1, X2. rewrite <- B1y, <- B2y in X3, X4.
      intros i j Hi Hj. destruct i as [|[|]]; [| |lia]; destruct j as [|[|]]; try lia; cbn; lra.
Qed.

(** C34: truncated singular value decomposition. *)
From Coq Require Import Reals Lra.
From Verif Require Import RoundSvd RoundStep Svd2.
Open Scope R_scope.

(** Frobenius distance, squared, of a from its reconstruction by u, s, vt. *)
Definition frob2 (m n r : nat) (a u s vt : list R) : R :=
  rsum n (fun j => rsum m (fun i =>
     let e := cm m a i j - rsum r (fun k => cm m u i k * nth k s 0 * cm r vt k j) in e * e)).

(** Whenever the full decomposition is right, so is the truncated one: the rank is between
    1 and min(m,n), the factors are the leading parts of the full ones, the squares of the
    discarded values sum to less than delta, no smaller rank would do, and that sum is
    exactly the squared error of the reconstruction. *)
Theorem C34_truncated_svd svdf m n a delta u s vt :
  (0 < m)%nat -> (0 < n)%nat -> 0 < delta -> svdf m n a = Ok (u, s, vt) -> svd_spec m n a u s vt ->
  exists r u' s' vt', truncated_svd svdf m n a delta = Ok (r, u', s', vt') /\
    (1 <= r <= Nat.min m n)%nat /\
    tailsq (Nat.min m n) s r < delta /\
    (forall r', (1 <= r' < r)%nat -> delta <= tailsq (Nat.min m n) s r') /\
    length u' = (m * r)%nat /\ length s' = r /\ length vt' = (r * n)%nat /\
    (forall i k, (i < m)%nat -> (k < r)%nat -> cm m u' i k = cm m u i k) /\
    (forall k, (k < r)%nat -> nth k s' 0 = nth k s 0) /\
    (forall k j, (k < r)%nat -> (j < n)%nat -> cm r vt' k j = cm n vt k j) /\
    frob2 m n r a u' s' vt' = tailsq (Nat.min m n) s r.
Proof.
  intros Hm Hn Hd E Sp.
  destruct (truncated_svd_ok svdf m n a delta u s vt Hm Hn E Sp) as (r & u' & s' & vt' & Et & B & D1 & D2 & L1 & L2 & L3 & U1 & S1 & V1).
  exists r, u', s', vt'. split; [exact Et|]. split; [exact B|]. split.
  { destruct D1 as [->|D1]; [rewrite tail_end; exact Hd|exact D1]. }
  split.
  { intros r' Hr'. destruct D2 as [->|D2]; [lia|]. eapply Rle_trans; [exact D2|].
    clear - Hr' B. assert (H : forall q, (r' + q <= Nat.min m n)%nat -> tailsq (Nat.min m n) s (r' + q) <= tailsq (Nat.min m n) s r').
    { induction q as [|q IH]; intros Hq; [rewrite Nat.add_0_r; lra|].
      pose proof (tail_step (Nat.min m n) s (r' + S q) ltac:(lia)) as T. replace (r' + S q - 1)%nat with (r' + q)%nat in T by lia.
      specialize (IH ltac:(lia)). pose proof (Rle_0_sqr (nth (r' + q) s 0)) as P. unfold Rsqr in P. lra. }
    replace (r - 1)%nat with (r' + (r - 1 - r'))%nat by lia. apply H. lia. }
  split; [exact L1|]. split; [exact L2|]. split; [exact L3|]. split; [exact U1|]. split; [exact S1|]. split; [exact V1|].
  rewrite <- (frob_error m n a u s vt r Sp) by lia. unfold frob2. apply rsum_ext. intros j Hj. apply rsum_ext. intros i Hi.
  cbv zeta. replace (rsum r (fun k => cm m u' i k * nth k s' 0 * cm r vt' k j)) with (rsum r (fun k => cm m u i k * nth k s 0 * cm n vt k j)); [reflexivity|].
  apply rsum_ext. intros k Hk. now rewrite U1, S1, V1.
Qed.
Print Assumptions C34_truncated_svd.

(** For delta = 0 (or less) nothing is discarded except in a zero matrix of rank one. *)
Theorem C34_truncated_svd_zero svdf m n a delta u s vt :
  (0 < m)%nat -> (0 < n)%nat -> delta <= 0 -> svdf m n a = Ok (u, s, vt) -> svd_spec m n a u s vt ->
  exists u' s' vt', truncated_svd svdf m n a delta = Ok (Nat.min m n, u', s', vt').
Proof.
  intros Hm Hn Hd E Sp.
  destruct (truncated_svd_ok svdf m n a delta u s vt Hm Hn E Sp) as (r & u' & s' & vt' & Et & B & D1 & _).
  pose proof (tail_pos (Nat.min m n) s r) as P. destruct D1 as [->|D1]; [|lra]. eauto.
Qed.
Print Assumptions C34_truncated_svd_zero.

(** diag(4,3): with delta = 10 the value 3 goes (9 < 10), with delta = 9 it stays. *)
Example C34_example :
  exists u s vt u' s' vt',
   svd2 2%nat 2%nat [4; 0; 0; 3] = Ok (u, s, vt) /\ svd_spec 2%nat 2%nat [4; 0; 0; 3] u s vt /\
   truncated_svd svd2 2%nat 2%nat [4; 0; 0; 3] 10 = Ok (1%nat, u', s', vt') /\
   exists u2 s2 vt2, truncated_svd svd2 2%nat 2%nat [4; 0; 0; 3] 9 = Ok (2%nat, u2, s2, vt2).
Proof.
  destruct (svd2_law 2%nat [4; 0; 0; 3] ltac:(lia) eq_refl) as [(u & s & vt & E & Sp)|[_ []]].
  assert (S1 : nth 1 s 0 * nth 1 s 0 = 9).
  { revert E. cbn [svd2]. unfold right2. destruct (Req_EM_T (4 * 0 + 0 * 3) 0) as [_|N]; [|exfalso; apply N; ring]. cbn [fst snd].
    intros E. destruct (left2 _ _) as [u1 u2]. injection E as _ <- _. cbn [nth]. unfold nrm2. cbn [fst snd].
    rewrite sqrt_sqrt by lra. ring. }
  assert (T1 : tailsq 2%nat s 1%nat = 9) by (unfold tailsq; cbn -[nth]; rewrite Rplus_0_l; exact S1).
  destruct (C34_truncated_svd svd2 2%nat 2%nat _ 10 u s vt ltac:(lia) ltac:(lia) ltac:(lra) E Sp) as (r & u' & s' & vt' & Et & B & D & M & _).
  destruct (C34_truncated_svd svd2 2%nat 2%nat _ 9 u s vt ltac:(lia) ltac:(lia) ltac:(lra) E Sp) as (r2 & u2 & s2 & vt2 & Et2 & B2 & D2 & M2 & _).
  cbn [Nat.min] in *.
  exists u, s, vt, u', s', vt'. split; [exact E|]. split; [exact Sp|]. split.
  - destruct r as [|[|[|r]]]; try lia; [exact Et|]. specialize (M 1%nat ltac:(lia)). rewrite T1 in M. lra.
  - exists u2, s2, vt2. destruct r2 as [|[|[|r2]]]; try lia; [|exact Et2]. rewrite T1 in D2. lra.
Qed.

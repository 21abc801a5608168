(** C81: the settings of cross approximation. *)
From Coq Require Import Reals Lia List.
From Verif Require Import Base BaseFacts IdxModel IdxFacts CrossModel.
Import ListNotations.
Local Open Scope nat_scope.

Lemma nth_updN (l : list nat) k v j : k < length l -> nth j (upd l k v) 0 = if j =? k then v else nth j l 0.
Proof.
  intros H. assert (E := nth_error_upd l k j v H). rewrite Nat.eqb_sym in E.
  destruct (j =? k); [now apply nth_error_nth|]. revert E. destruct (nth_error l j) as [x|] eqn:E1; intros E.
  - rewrite (nth_error_nth _ _ _ E), (nth_error_nth _ _ _ E1). reflexivity.
  - apply nth_error_None in E, E1. now rewrite !nth_overflow.
Qed.
Lemma agetN (l : list nat) i : i < length l -> aget l i = Ok (nth i l 0).
Proof. intros H. apply aget_ok. now apply nth_error_nth'. Qed.
Lemma fillN lo n (F : nat -> nat) body (l : list nat) : (forall i l', lo <= i < lo + n -> length l' = length l -> body i l' = aset l' i (F i)) -> lo + n <= length l ->
  exists l', for_from lo n body l = Ok l' /\ length l' = length l /\ forall k, nth k l' 0 = if (lo <=? k) && (k <? lo + n) then F k else nth k l 0.
Proof.
  intros Hb HL.
  destruct (for_from_inv (fun i l' => length l' = length l /\ forall k, nth k l' 0 = if (lo <=? k) && (k <? i) then F k else nth k l 0) body lo n l) as (l' & E & I).
  - split; [reflexivity|]. intros k. destruct (Nat.leb_spec lo k), (Nat.ltb_spec k lo); try lia; reflexivity.
  - intros i l' Hi [L A]. exists (upd l' i (F i)). rewrite Hb by (auto; lia). rewrite aset_ok by lia. split; [reflexivity|]. split; [now rewrite upd_length|].
    intros k. rewrite nth_updN by lia. destruct (Nat.eqb_spec k i) as [->|Nk].
    + destruct (Nat.leb_spec lo i), (Nat.ltb_spec i (S i)); try lia; reflexivity.
    + rewrite A. destruct (Nat.leb_spec lo k), (Nat.ltb_spec k i), (Nat.ltb_spec k (S i)); try lia; reflexivity.
  - exists l'. auto.
Qed.

(** [dim] + 1 ranks and [dim] - 1 limits *)
Definition sized (c : crossargs) : Prop := 1 <= ca_dim c /\ length (ca_ranks c) = ca_dim c + 1 /\ length (ca_max c) = ca_dim c - 1.
(** everything but the ranks, everything but the limits *)
Definition same_but_ranks (c c' : crossargs) : Prop :=
  ca_dim c' = ca_dim c /\ ca_eps c' = ca_eps c /\ ca_maxiter c' = ca_maxiter c /\ ca_adapt c' = ca_adapt c /\ ca_kick c' = ca_kick c /\ ca_max c' = ca_max c.
Definition same_but_max (c c' : crossargs) : Prop :=
  ca_dim c' = ca_dim c /\ ca_eps c' = ca_eps c /\ ca_maxiter c' = ca_maxiter c /\ ca_adapt c' = ca_adapt c /\ ca_kick c' = ca_kick c /\ ca_ranks c' = ca_ranks c.

(** New settings: outer ranks 1, inner ranks as given, each limit 20 above (modulo the size of
    size_t), tolerance 1e-10, five sweeps, adaptation on with steps of 5. *)
Theorem C81_alloc w dim start : 20 < w -> 1 <= dim -> exists c, ft_cross_args_alloc w dim start = Ok c /\ sized c /\ ca_dim c = dim /\
  (forall i, i <= dim -> nth i (ca_ranks c) 0 = if (i =? 0) || (i =? dim) then 1 else start) /\
  (forall i, i < dim - 1 -> nth i (ca_max c) 0 = (start + 20) mod w) /\
  ca_eps c = (1 / 10000000000)%R /\ ca_maxiter c = 5 /\ ca_adapt c = true /\ ca_kick c = 5.
Proof.
  intros Hw Hd. unfold ft_cross_args_alloc. rewrite aset_ok by (rewrite repeat_length; lia). cbn [obind].
  set (r0 := upd (repeat 0 (dim + 1)) 0 1). assert (L0 : length r0 = dim + 1) by (unfold r0; now rewrite upd_length, repeat_length).
  destruct (fillN 1 (dim - 1) (fun _ => start) (fun ii r => aset r ii start) r0) as (r1 & E1 & L1 & A1); [reflexivity|lia|].
  rewrite E1. cbn [obind]. rewrite aset_ok by lia. cbn [obind]. destruct (Nat.eqb_spec dim 0); [lia|].
  assert (R1 : forall i, i <= dim -> nth i (upd r1 dim 1) 0 = if (i =? 0) || (i =? dim) then 1 else start).
  { intros i Hi. rewrite nth_updN by lia. destruct (Nat.eqb_spec i dim); [now rewrite Bool.orb_true_r|]. rewrite Bool.orb_false_r, A1.
    destruct (Nat.eqb_spec i 0) as [->|]; [cbn [Nat.leb andb]; unfold r0; rewrite nth_updN by (rewrite repeat_length; lia); reflexivity|].
    destruct (Nat.leb_spec 1 i), (Nat.ltb_spec i (1 + (dim - 1))); try lia; reflexivity. }
  set (r2 := upd r1 dim 1) in *. assert (L2 : length r2 = dim + 1) by (unfold r2; rewrite upd_length; lia).
  unfold for_. destruct (fillN 0 (dim - 1) (fun _ => addw w start 20) (fun ii m => do ri <- aget r2 (ii + 1); aset m ii (addw w ri ((5 * 4) mod w))) (repeat 0 (dim - 1))) as (m & Em & Lm & Am).
  - intros i l' Hi Ll. rewrite agetN by lia. cbn [obind]. rewrite R1 by lia. replace ((i + 1 =? 0) || (i + 1 =? dim)) with false.
    + now rewrite (Nat.mod_small (5 * 4)) by lia.
    + symmetry. apply Bool.orb_false_iff. split; apply Nat.eqb_neq; lia.
  - rewrite repeat_length. lia.
  - rewrite Em. cbn [obind]. eexists. split; [reflexivity|]. rewrite repeat_length in Lm. cbn [ca_dim ca_ranks ca_max ca_eps ca_maxiter ca_adapt ca_kick].
    split; [unfold sized; cbn [ca_dim ca_ranks ca_max]; lia|]. split; [reflexivity|]. split; [exact R1|]. split.
    + intros i Hi. rewrite Am. destruct (Nat.leb_spec 0 i), (Nat.ltb_spec i (0 + (dim - 1))); try lia. reflexivity.
    + repeat split.
Qed.
Print Assumptions C81_alloc.

(** a rank is set, and nothing else; there is no check of the index *)
Theorem C81_set_rank c ind rank : sized c ->
  (ind <= ca_dim c -> exists c', ft_cross_args_set_rank c ind rank = Ok c' /\ sized c' /\ same_but_ranks c c' /\
     forall i, nth i (ca_ranks c') 0 = if i =? ind then rank else nth i (ca_ranks c) 0) /\
  (ca_dim c < ind -> ft_cross_args_set_rank c ind rank = UB).
Proof.
  intros (S1 & S2 & S3). unfold ft_cross_args_set_rank. split; intros H.
  - rewrite aset_ok by lia. cbn [obind]. eexists. split; [reflexivity|]. split; [unfold sized; cbn [ca_dim ca_ranks ca_max]; rewrite upd_length; auto|].
    split; [repeat split|]. intros i. cbn [ca_ranks]. apply nth_updN. lia.
  - unfold aset. destruct (Nat.ltb_spec ind (length (ca_ranks c))); [lia|reflexivity].
Qed.
Print Assumptions C81_set_rank.

(** all limits are set *)
Theorem C81_set_maxrank_all c m : sized c -> exists c', ft_cross_args_set_maxrank_all c m = Ok c' /\ sized c' /\ same_but_max c c' /\
  forall i, i < ca_dim c - 1 -> nth i (ca_max c') 0 = m.
Proof.
  intros (S1 & S2 & S3). unfold ft_cross_args_set_maxrank_all, for_.
  destruct (fillN 0 (ca_dim c - 1) (fun _ => m) (fun ii mx => aset mx ii m) (ca_max c)) as (l & E & L & A); [reflexivity|lia|].
  rewrite E. cbn [obind]. eexists. split; [reflexivity|]. split; [unfold sized; cbn [ca_dim ca_ranks ca_max]; lia|]. split; [repeat split|].
  intros i Hi. cbn [ca_max]. rewrite A. destruct (Nat.leb_spec 0 i), (Nat.ltb_spec i (0 + (ca_dim c - 1))); try lia. reflexivity.
Qed.
Print Assumptions C81_set_maxrank_all.

(** one limit is set; an index beyond the last is refused *)
Theorem C81_set_maxrank_ind c m ind : sized c ->
  (ind < ca_dim c - 1 -> exists c', ft_cross_args_set_maxrank_ind c m ind = Ok c' /\ sized c' /\ same_but_max c c' /\
     forall i, nth i (ca_max c') 0 = if i =? ind then m else nth i (ca_max c) 0) /\
  (ca_dim c - 1 <= ind -> ft_cross_args_set_maxrank_ind c m ind = Abort).
Proof.
  intros (S1 & S2 & S3). unfold ft_cross_args_set_maxrank_ind. split; intros H.
  - destruct (Nat.ltb_spec ind (ca_dim c - 1)); [|lia]. cbn [cassert obind]. rewrite aset_ok by lia. cbn [obind]. eexists. split; [reflexivity|].
    split; [unfold sized; cbn [ca_dim ca_ranks ca_max]; rewrite upd_length; auto|]. split; [repeat split|]. intros i. cbn [ca_max]. apply nth_updN. lia.
  - destruct (Nat.ltb_spec ind (ca_dim c - 1)); [lia|reflexivity].
Qed.
Print Assumptions C81_set_maxrank_ind.

(** the other setters change one field each *)
Theorem C81_setters c k m a e :
  (let c' := ft_cross_args_set_kickrank c k in ca_kick c' = k /\ ca_dim c' = ca_dim c /\ ca_ranks c' = ca_ranks c /\ ca_eps c' = ca_eps c /\ ca_maxiter c' = ca_maxiter c /\ ca_adapt c' = ca_adapt c /\ ca_max c' = ca_max c) /\
  (let c' := ft_cross_args_set_maxiter c m in ca_maxiter c' = m /\ ca_dim c' = ca_dim c /\ ca_ranks c' = ca_ranks c /\ ca_eps c' = ca_eps c /\ ca_kick c' = ca_kick c /\ ca_adapt c' = ca_adapt c /\ ca_max c' = ca_max c) /\
  (let c' := ft_cross_args_set_adapt c a in ca_adapt c' = a /\ ca_dim c' = ca_dim c /\ ca_ranks c' = ca_ranks c /\ ca_eps c' = ca_eps c /\ ca_kick c' = ca_kick c /\ ca_maxiter c' = ca_maxiter c /\ ca_max c' = ca_max c) /\
  (let c' := ft_cross_args_set_cross_tol c e in ca_eps c' = e /\ ca_dim c' = ca_dim c /\ ca_ranks c' = ca_ranks c /\ ca_adapt c' = ca_adapt c /\ ca_kick c' = ca_kick c /\ ca_maxiter c' = ca_maxiter c /\ ca_max c' = ca_max c).
Proof. repeat split. Qed.
Print Assumptions C81_setters.

Lemma copyn_all (l : list nat) n : n = length l -> copyn n l 0 (repeat 0 n) 0 = Ok l.
Proof.
  intros ->. rewrite (copyn_mid' (length l) l (repeat 0 (length l)) [] l [] [] (repeat 0 (length l)) []); auto; rewrite ?app_nil_r, ?repeat_length; reflexivity.
Qed.
(** a copy has the same settings *)
Theorem C81_copy c : sized c -> ft_cross_args_copy c = Ok c.
Proof.
  intros (S1 & S2 & S3). unfold ft_cross_args_copy. rewrite !copyn_all by lia. cbn [obind]. now destruct c.
Qed.
Print Assumptions C81_copy.

Example C81_example : let w := 2048 in exists c c', ft_cross_args_alloc w 4 3 = Ok c /\ ca_ranks c = [1; 3; 3; 3; 1] /\ ca_max c = [23; 23; 23] /\
  ft_cross_args_set_maxrank_ind c 7 1 = Ok c' /\ ca_max c' = [23; 7; 23] /\ ft_cross_args_copy c' = Ok c' /\ ft_cross_args_set_maxrank_ind c 7 3 = Abort.
Proof.
  intros w. destruct (C81_alloc w 4 3) as (c & E & S & D & RK & MX & _); [unfold w; lia|lia|]. exists c.
  destruct (C81_set_maxrank_ind c 7 1 S) as [P _]. destruct P as (c' & E' & S' & B' & A'); [lia|]. exists c'. split; [exact E|].
  destruct S as (S1 & S2 & S3). destruct S' as (T1 & T2 & T3).
  assert (R4 := fun i => RK i). rewrite D in *.
  assert (Hr : ca_ranks c = [1; 3; 3; 3; 1]).
  { destruct (ca_ranks c) as [|r0 [|r1 [|r2 [|r3 [|r4 [|]]]]]]; cbn in S2; try discriminate.
    pose proof (RK 0 ltac:(lia)) as H0. pose proof (RK 1 ltac:(lia)) as H1. pose proof (RK 2 ltac:(lia)) as H2. pose proof (RK 3 ltac:(lia)) as H3. pose proof (RK 4 ltac:(lia)) as H4. cbn in *. congruence. }
  assert (Hm : ca_max c = [23; 23; 23]).
  { destruct (ca_max c) as [|r0 [|r1 [|r2 [|]]]]; cbn in S3; try discriminate.
    pose proof (MX 0 ltac:(lia)) as H0. pose proof (MX 1 ltac:(lia)) as H1. pose proof (MX 2 ltac:(lia)) as H2.
    rewrite (Nat.mod_small (3 + 20) w) in * by (unfold w; lia). cbn in *. congruence. }
  destruct B' as (B1 & _). rewrite B1, D in *.
  split; [exact Hr|]. split; [exact Hm|]. split; [exact E'|]. split.
  - rewrite Hm in A'. destruct (ca_max c') as [|r0 [|r1 [|r2 [|]]]]; cbn in T3; try discriminate.
    pose proof (A' 0) as H0. pose proof (A' 1) as H1. pose proof (A' 2) as H2. cbn in *. congruence.
  - split; [apply C81_copy; unfold sized; rewrite B1; auto|]. apply (C81_set_maxrank_ind c 7 3); [unfold sized; rewrite D; auto|lia].
Qed.

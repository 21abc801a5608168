(** Properties C32 (index sets of cross approximation), C39 (grids), C40 (block
    assembly of matrices). *)
From Verif Require Import Base BaseFacts CRing Instances IdxModel IdxFacts GridModel MatFacts.
From Coq Require Import ZArith QArith Qcanon.
Close Scope Qc_scope.
Close Scope Q_scope.
Close Scope Z_scope.
Open Scope nat_scope.

(** * C32 *)

(** For each of the three methods: exactly the requested number of entries, one
    dimension more, each an old entry with one of the options put in front
    ([left]) or behind; and no entry twice if the old entries and the options
    are distinct. *)
Theorem C32_create_nested :
  forall (X : Type) (zero : X) (old : cidx X) (opts : list X) left sizenew method,
  ci_wf old -> method <= 2 -> 1 <= sizenew -> sizenew <= ci_n old * length opts ->
  (method = 2 -> sizenew <= length opts) ->
  exists ci, cross_index_create_nested zero method left sizenew (length opts) opts old
             = Ok (Some ci)
    /\ ci_wf ci /\ ci_d ci = ci_d old + 1 /\ ci_n ci = sizenew
    /\ (forall e, In e (ci_nodes ci) ->
          exists o v, In o (ci_nodes old) /\ In v opts
            /\ e = (if (left : bool) then [v] ++ o else o ++ [v]))
    /\ (NoDup (ci_nodes old) -> NoDup opts -> NoDup (ci_nodes ci)).
Proof. intros X zero old opts left sizenew method. apply create_nested_correct. Qed.
Print Assumptions C32_create_nested.

Example C32_create_nested_case :
  cross_index_create_nested 0 1 false 3 2 [7; 8] (mkci 2 2 [[1; 2]; [3; 4]])
  = Ok (Some (mkci 3 3 [[1; 2; 7]; [1; 2; 8]; [3; 4; 7]])).
Proof. reflexivity. Qed.

(** An empty request gives one entry with method 1. *)
Theorem C32_create_nested_zero_refuted :
  forall (X : Type) (zero : X) (o : list X) v left,
  exists ci, cross_index_create_nested zero 1 left 0 1 [v] (mkci (length o) 1 [o])
             = Ok (Some ci) /\ ci_n ci = 1.
Proof.
  intros X zero o v left.
  rewrite (create_nested_zero zero (mkci (length o) 1 [o]) o v left) by reflexivity.
  eexists. split; reflexivity.
Qed.
Print Assumptions C32_create_nested_zero_refuted.

(** Entry k of the new set: the old entry [inds k] with coordinate [newx k]. *)
Theorem C32_create_nested_ind :
  forall (X : Type) (zero : X) (old : cidx X) left inds newx,
  ci_wf old -> length newx = length inds -> Forall (fun i => i < ci_n old) inds ->
  exists ci, cross_index_create_nested_ind zero left (length inds) inds newx old = Ok ci
    /\ ci_n ci = length inds /\ ci_d ci = ci_d old + 1
    /\ forall k i o v, nth_error inds k = Some i -> nth_error (ci_nodes old) i = Some o ->
         nth_error newx k = Some v ->
         nth_error (ci_nodes ci) k = Some (if (left : bool) then [v] ++ o else o ++ [v]).
Proof.
  intros X zero old left inds newx Wf L F.
  eexists. split; [now apply create_nested_ind_ok|]. split; [reflexivity|].
  split; [reflexivity|]. intros k i o v Hi Ho Hv. cbn.
  assert (Hk : k < length inds) by (apply nth_error_Some; congruence).
  rewrite nth_error_tab by auto.
  rewrite (nth_error_nth inds k 0 Hi), (nth_error_nth _ i [] Ho), (nth_error_nth _ k zero Hv).
  reflexivity.
Qed.
Print Assumptions C32_create_nested_ind.

Example C32_create_nested_ind_case :
  cross_index_create_nested_ind 0 true 2 [1; 0] [7; 8] (mkci 2 2 [[1; 2]; [3; 4]])
  = Ok (mkci 3 2 [[7; 3; 4]; [8; 1; 2]]).
Proof. reflexivity. Qed.

(** merge_wspace: all combinations of a left and a right entry with one free slot
    between them, the left entry running fastest. *)
Theorem C32_merge_wspace :
  forall (X : Type) (zero : X) (l r : cidx X), ci_wf l -> ci_wf r ->
  exists vals, cross_index_merge_wspace zero (Some l) (Some r) = Ok vals
    /\ length vals = ci_n r * ci_n l
    /\ forall i j xl xr, nth_error (ci_nodes l) j = Some xl ->
         nth_error (ci_nodes r) i = Some xr ->
         nth_error vals (i * ci_n l + j) = Some (xl ++ [zero] ++ xr).
Proof.
  intros X zero l r Wl Wr. eexists. split; [now apply merge_wspace_ok|].
  rewrite tab_length. split; [reflexivity|]. intros i j xl xr Hl Hr.
  assert (Hj : j < ci_n l) by (rewrite <- (proj1 Wl); apply nth_error_Some; congruence).
  assert (Hi : i < ci_n r) by (rewrite <- (proj1 Wr); apply nth_error_Some; congruence).
  rewrite nth_error_tab by nia.
  replace ((i * ci_n l + j) mod ci_n l) with j
    by (rewrite Nat.add_comm, Nat.mod_add, Nat.mod_small; lia).
  replace ((i * ci_n l + j) / ci_n l) with i
    by (rewrite Nat.add_comm, Nat.div_add, Nat.div_small; lia).
  now rewrite (nth_error_nth _ j [] Hl), (nth_error_nth _ i [] Hr).
Qed.
Print Assumptions C32_merge_wspace.

Example C32_merge_wspace_case :
  cross_index_merge_wspace 0 (Some (mkci 1 2 [[1]; [2]])) (Some (mkci 2 2 [[3; 4]; [5; 6]]))
  = Ok [[1; 0; 3; 4]; [2; 0; 3; 4]; [1; 0; 5; 6]; [2; 0; 5; 6]].
Proof. reflexivity. Qed.

(** At the ends of the train one side is missing. *)
Theorem C32_merge_wspace_ends :
  forall (X : Type) (zero : X) (c : cidx X), ci_wf c ->
  cross_index_merge_wspace zero (Some c) None = Ok (map (fun x => x ++ [zero]) (ci_nodes c))
  /\ cross_index_merge_wspace zero None (Some c) = Ok (map (fun x => [zero] ++ x) (ci_nodes c)).
Proof. intros X zero c Wf. split; [now apply merge_wspace_left|now apply merge_wspace_right]. Qed.
Print Assumptions C32_merge_wspace_ends.

Example C32_merge_wspace_ends_case :
  cross_index_merge_wspace 0 (Some (mkci 2 2 [[3; 4]; [5; 6]])) None = Ok [[3; 4; 0]; [5; 6; 0]].
Proof. reflexivity. Qed.

(** cross_index_merge pairs the k-th left with the k-th right entry as long as
    there is one entry... *)
Theorem C32_merge_partial :
  forall (X : Type) (zero : X) xl xr,
  cross_index_merge zero (Some (mkci (length xl) 1 [xl])) (Some (mkci (length xr) 1 [xr]))
  = Ok [(xl ++ xr : list X)].
Proof.
  intros X zero xl xr. rewrite merge_first; [reflexivity| | |reflexivity];
    (split; [reflexivity|]; repeat constructor).
Qed.
Print Assumptions C32_merge_partial.

(** ... but uses the first left entry for every pair. *)
Theorem C32_merge_refuted :
  forall (X : Type) (zero : X) (l r : cidx X) l0 l1 r0 r1,
  ci_wf l -> ci_wf r -> ci_nodes l = [l0; l1] -> ci_nodes r = [r0; r1] -> l0 <> l1 ->
  exists vals, cross_index_merge zero (Some l) (Some r) = Ok vals
    /\ vals = [l0 ++ r0; l0 ++ r1] /\ vals <> [l0 ++ r0; l1 ++ r1].
Proof.
  intros X zero l r l0 l1 r0 r1 Wl Wr El Er Hne.
  exists [l0 ++ r0; l0 ++ r1]. split; [|split; [reflexivity|]].
  - rewrite merge_first; auto.
    + now rewrite El, Er.
    + rewrite <- (proj1 Wl), <- (proj1 Wr), El, Er. reflexivity.
  - intros C. injection C as C. apply Hne. now apply app_inv_tail in C.
Qed.
Print Assumptions C32_merge_refuted.

Example C32_merge_refuted_case :
  cross_index_merge 0 (Some (mkci 1 2 [[1]; [2]])) (Some (mkci 1 2 [[3]; [4]]))
  = Ok [[1; 3]; [1; 4]].
Proof. reflexivity. Qed.

Theorem C32_copy :
  forall (X : Type) (zero : X) (c : cidx X), ci_wf c ->
  cross_index_copy zero (Some c) = Ok (Some c).
Proof. intros X zero c. apply cross_index_copy_ok. Qed.
Print Assumptions C32_copy.

(** copylast appends the last entry [ntimes] times. *)
Theorem C32_copylast :
  forall (X : Type) (zero : X) (c : cidx X) pre x ntimes,
  ci_wf c -> ci_nodes c = pre ++ [x] ->
  exists c', cross_index_copylast zero c ntimes = Ok c' /\ ci_wf c'
    /\ ci_nodes c' = pre ++ [x] ++ repeat x ntimes.
Proof.
  intros X zero c pre x ntimes Wf E.
  assert (Hn : 0 < ci_n c) by (rewrite <- (proj1 Wf), E, app_length; cbn; lia).
  eexists. split; [now apply copylast_ok|]. cbn. rewrite E, last_last.
  split; [|now rewrite <- app_assoc].
  destruct Wf as [L F]. rewrite E in *. split; cbn.
  - rewrite !app_length, repeat_length in *. lia.
  - apply Forall_app. split; [exact F|]. apply Forall_forall. intros y Hy.
    apply repeat_spec in Hy. subst y. apply Forall_app in F as [_ F].
    now inversion F.
Qed.
Print Assumptions C32_copylast.

Example C32_copylast_case :
  cross_index_copylast 0 (mkci 1 2 [[1]; [2]]) 2 = Ok (mkci 1 4 [[1]; [2]; [2]; [2]]).
Proof. reflexivity. Qed.

(** The initial sets of an approximation in [dim >= 2] dimensions, from left to
    right: set 0 is absent, set k holds [length (vals (k-1))] entries with k
    coordinates, coordinate i taken from the values of dimension i. *)
Theorem C32_array_initialize_forward :
  forall (X : Type) (zero : X) (vals : list (list X)) ci0,
  2 <= length vals -> Forall (fun v => v <> []) vals -> length ci0 = length vals ->
  exists r, cross_index_array_initialize zero (length vals) false false
              (map (@length X) vals) vals ci0 = Ok r
    /\ length r = length vals /\ nth_error r 0 = Some (Some None)
    /\ forall k, 1 <= k < length vals -> exists ci,
         nth_error r k = Some (Some (Some ci)) /\ ci_wf ci /\ ci_d ci = k
         /\ ci_n ci = length (nth (k - 1) vals [])
         /\ forall e i v, In e (ci_nodes ci) -> nth_error e i = Some v -> In v (nth i vals []).
Proof.
  intros X zero vals ci0 Hd Hne L0.
  assert (Hn : forall k, k < length vals -> 1 <= length (nth k vals [])).
  { intros k Hk. rewrite Forall_forall in Hne. specialize (Hne (nth k vals [])).
    destruct (nth k vals []) eqn:E; [|cbn; lia].
    exfalso. apply Hne; auto. rewrite <- E. now apply nth_In. }
  destruct (array_initialize_forward zero vals (length vals) Hd eq_refl Hn ci0 L0)
    as (r & E & Lr & R0 & Rk).
  exists r. split; [exact E|]. split; [exact Lr|]. split; [exact R0|].
  intros k Hk. eexists. split; [now apply Rk|].
  split; [apply ci_tab_wf; intros; apply fwd_entry_length|].
  split; [reflexivity|]. split; [reflexivity|].
  intros e i v He Hv. cbn in He. unfold tab in He. apply in_map_iff in He as (j & <- & Hj).
  apply in_seq in Hj.
  refine (fwd_entry_in zero vals k j i v _ _ Hv); [intros t Ht; apply Hn; lia|lia].
Qed.
Print Assumptions C32_array_initialize_forward.

(** From right to left: set k holds entries with [dim - 1 - k] coordinates, those
    of the dimensions k+1, ..., dim-1. *)
Theorem C32_array_initialize_reverse :
  forall (X : Type) (zero : X) (vals : list (list X)) ci0,
  2 <= length vals -> Forall (fun v => v <> []) vals -> length ci0 = length vals ->
  exists r, cross_index_array_initialize zero (length vals) false true
              (map (@length X) vals) vals ci0 = Ok r
    /\ length r = length vals /\ nth_error r (length vals - 1) = Some (Some None)
    /\ forall k, k < length vals - 1 -> exists ci,
         nth_error r k = Some (Some (Some ci)) /\ ci_wf ci /\ ci_d ci = length vals - 1 - k
         /\ ci_n ci = length (nth (k + 1) vals [])
         /\ forall e i v, In e (ci_nodes ci) -> nth_error e i = Some v ->
              In v (nth (k + 1 + i) vals []).
Proof.
  intros X zero vals ci0 Hd Hne L0.
  assert (Hn : forall k, k < length vals -> 1 <= length (nth k vals [])).
  { intros k Hk. rewrite Forall_forall in Hne. specialize (Hne (nth k vals [])).
    destruct (nth k vals []) eqn:E; [|cbn; lia].
    exfalso. apply Hne; auto. rewrite <- E. now apply nth_In. }
  destruct (array_initialize_reverse zero vals (length vals) Hd eq_refl Hn ci0 L0)
    as (r & E & Lr & R0 & Rk).
  exists r. split; [exact E|]. split; [exact Lr|]. split; [exact R0|].
  intros k Hk.
  specialize (Rk (length vals - 1 - k) ltac:(lia)).
  replace (length vals - 1 - (length vals - 1 - k)) with k in Rk by lia.
  eexists. split; [exact Rk|].
  split; [apply ci_tab_wf; intros; apply bwd_entry_length|].
  split; [cbn; lia|]. split; [cbn; f_equal; f_equal; lia|].
  intros e i v He Hv. cbn in He. unfold tab in He. apply in_map_iff in He as (j & <- & Hj).
  apply in_seq in Hj.
  replace (k + 1 + i) with (length vals - (length vals - 1 - k) + i) by lia.
  refine (bwd_entry_in zero vals (length vals) _ j i v _ _ _ Hv); [lia|auto|].
  exact (proj2 Hj).
Qed.
Print Assumptions C32_array_initialize_reverse.

Example C32_array_initialize_case :
  cross_index_array_initialize 0 3 false false [2; 3; 1] [[1; 2]; [3; 4; 5]; [6]] (repeat None 3)
  = Ok [Some None; Some (Some (mkci 1 2 [[1]; [2]]));
        Some (Some (mkci 2 3 [[1; 3]; [2; 4]; [1; 5]]))].
Proof. reflexivity. Qed.

(** In dimension one the forward version writes one element past the array. *)
Theorem C32_array_initialize_dim_one_refuted :
  forall (X : Type) (zero : X) v c0,
  cross_index_array_initialize zero 1 false false [length v] [v] [c0] = UB.
Proof.
  intros X zero v c0. unfold cross_index_array_initialize.
  cbn [aset upd length Nat.ltb Nat.leb obind aget nth_error]. rewrite first_index_ok. reflexivity.
Qed.
Print Assumptions C32_array_initialize_dim_one_refuted.

(** * C39 *)
Open Scope Qc_scope.

(** For N >= 2: N points, the first is [mn], the last is [mx], neighbours differ by
    (mx - mn)/(N - 1). *)
Theorem C39_linspace :
  forall mn mx N, (2 <= N)%nat ->
  exists a, linspace mn mx N = Ok a /\ length a = N
    /\ nth_error a 0 = Some mn /\ nth_error a (N - 1) = Some mx
    /\ forall i x y, nth_error a i = Some x -> nth_error a (S i) = Some y ->
         (y - x) * nat2qc (N - 1) = mx - mn.
Proof. exact linspace_ok. Qed.
Print Assumptions C39_linspace.

Example C39_linspace_case :
  linspace 1 (Q2Qc 2) 3 = Ok [1; Q2Qc (3 # 2); Q2Qc 2].
Proof. reflexivity. Qed.

(** One point is the end, not the start. *)
Theorem C39_linspace_one_refuted :
  forall mn mx, mn <> mx ->
  exists a, linspace mn mx 1 = Ok a /\ length a = 1%nat /\ nth_error a 0 <> Some mn.
Proof.
  intros mn mx H. exists [mx]. split; [reflexivity|]. split; [reflexivity|].
  cbn. congruence.
Qed.
Print Assumptions C39_linspace_one_refuted.

(** No points: a write outside the empty array. *)
Theorem C39_linspace_zero_refuted : forall mn mx, linspace mn mx 0 = UB.
Proof. reflexivity. Qed.
Print Assumptions C39_linspace_zero_refuted.

(** arange with a positive step: exactly the points start + k step not beyond
    stop. *)
Theorem C39_arange_up :
  forall start stop step, 0 < step -> start <= stop ->
  exists a N, arange start stop step = Ok (a, N) /\ length a = N /\ (1 <= N)%nat
    /\ (forall k, (k < N)%nat -> nth_error a k = Some (start + step * nat2qc k))
    /\ (forall k, (k < N)%nat <-> start + step * nat2qc k <= stop).
Proof. exact arange_up. Qed.
Print Assumptions C39_arange_up.

Theorem C39_arange_down :
  forall start stop step, step < 0 -> stop <= start ->
  exists a N, arange start stop step = Ok (a, N) /\ length a = N /\ (1 <= N)%nat
    /\ (forall k, (k < N)%nat -> nth_error a k = Some (start + step * nat2qc k))
    /\ (forall k, (k < N)%nat <-> stop <= start + step * nat2qc k).
Proof. exact arange_down. Qed.
Print Assumptions C39_arange_down.

Example C39_arange_case :
  arange 0 (Q2Qc (5 # 4)) (Q2Qc (1 # 2)) = Ok ([0; Q2Qc (1 # 2); 1], 3%nat).
Proof. reflexivity. Qed.

(** A stop more than one step before the start: the count wraps around and the
    program ends, where no point would be right. *)
Theorem C39_arange_empty_refuted :
  exists start stop step, 0 < step
    /\ (forall k, ~ start + step * nat2qc k <= stop)
    /\ arange start stop step = Abort.
Proof.
  exists (Q2Qc 2), (Q2Qc 0), 1. split; [reflexivity|]. split; [|reflexivity].
  intros k H. pose proof (nat2qc_nonneg k) as P.
  rewrite Qcmult_1_l in H.
  assert (C : Q2Qc 2 + 0 <= Q2Qc 0).
  { eapply Qcle_trans; [|exact H]. apply Qcplus_le_compat; [apply Qcle_refl|exact P]. }
  revert C. apply Qclt_not_le. reflexivity.
Qed.
Print Assumptions C39_arange_empty_refuted.

(** * C40 *)
Close Scope Qc_scope.
Open Scope nat_scope.

(** [mat_at m i j] is the entry in row i and column j. *)
Theorem C40_horizcat :
  forall (R : CRing) (a b : mat R), mat_wf a -> mat_wf b -> m_r R a = m_r R b ->
  exists m, horizcat R a b = Ok m /\ mat_wf m
    /\ m_r R m = m_r R a /\ m_c R m = m_c R a + m_c R b
    /\ (forall i j, i < m_r R a -> j < m_c R a -> mat_at m i j = mat_at a i j)
    /\ (forall i j, i < m_r R a -> j < m_c R b -> mat_at m i (m_c R a + j) = mat_at b i j).
Proof. intros R. exact horizcat_ok. Qed.
Print Assumptions C40_horizcat.

Example C40_horizcat_case :
  horizcat Zring (mkmat Zring 2 1 [1%Z; 2%Z]) (mkmat Zring 2 2 [3%Z; 4%Z; 5%Z; 6%Z])
  = Ok (mkmat Zring 2 3 [1%Z; 3%Z; 4%Z; 2%Z; 5%Z; 6%Z]).
Proof. reflexivity. Qed.

(** Too few rows on the right: a read outside the right matrix, always. *)
Theorem C40_horizcat_rows_refuted :
  forall (R : CRing) (a b : mat R), mat_wf a -> mat_wf b ->
  m_r R b < m_r R a -> 0 < m_c R b -> horizcat R a b = UB.
Proof. intros R. exact horizcat_ub. Qed.
Print Assumptions C40_horizcat_rows_refuted.

(** The blocks on the diagonal, zeros elsewhere.  Block [m], preceded by the blocks
    [pre], occupies the rows from the number of rows of [pre] and the columns from
    the number of columns of [pre]. *)
Theorem C40_block_diag :
  forall (R : CRing) (mats : list (mat R)), Forall mat_wf mats ->
  exists D, block_diag R mats = Ok D /\ mat_wf D
    /\ m_r R D = nrows mats /\ m_c R D = ncols mats
    /\ forall pre m post i c, mats = pre ++ m :: post -> i < m_r R m -> c < ncols mats ->
         mat_at D (nrows pre + i) c
         = if (ncols pre <=? c) && (c <? ncols pre + m_c R m)
           then mat_at m i (c - ncols pre) else r0.
Proof.
  intros R mats F. destruct (block_diag_ok mats F) as (D & E & W & H1 & H2 & H3).
  exists D. split; [exact E|]. split; [exact W|]. split; [exact H1|]. split; [exact H2|].
  intros pre m post i c Em Hi Hc. rewrite H3; auto.
  - rewrite Em. now apply bd_entry_at.
  - rewrite Em, nrows_app. cbn. lia.
Qed.
Print Assumptions C40_block_diag.

Example C40_block_diag_case :
  block_diag Zring [mkmat Zring 1 2 [1%Z; 2%Z]; mkmat Zring 2 1 [3%Z; 4%Z]]
  = Ok (mkmat Zring 3 3 [1%Z; 2%Z; 0%Z; 0%Z; 0%Z; 3%Z; 0%Z; 0%Z; 4%Z]).
Proof. reflexivity. Qed.

Theorem C40_diagv2m :
  forall (R : CRing) n (arr : list R), length arr = n ->
  exists m, diagv2m R n arr = Ok m /\ mat_wf m /\ m_r R m = n /\ m_c R m = n
    /\ forall i j, i < n -> j < n -> mat_at m i j = if i =? j then nth i arr r0 else r0.
Proof. intros R. exact diagv2m_ok. Qed.
Print Assumptions C40_diagv2m.

Theorem C40_v2m :
  forall (R : CRing) n (arr : list R) asrow, length arr = n ->
  exists m, v2m R n arr asrow = Ok m /\ mat_wf m
    /\ m_r R m = (if (asrow : bool) then 1 else n) /\ m_c R m = (if asrow then n else 1)
    /\ m_v R m = arr.
Proof. intros R. exact v2m_ok. Qed.
Print Assumptions C40_v2m.

Theorem C40_mat_ones :
  forall (R : CRing) nr nc,
  exists m, mat_ones R nr nc = Ok m /\ mat_wf m /\ m_r R m = nr /\ m_c R m = nc
    /\ forall i j, i < nr -> j < nc -> mat_at m i j = r1.
Proof. intros R. exact mat_ones_ok. Qed.
Print Assumptions C40_mat_ones.

(** Column-major matrices with the same number of rows are concatenated. *)
Theorem C40_dconcat_cols :
  forall (R : CRing) rows c1 c2 (a1 a2 : list R),
  length a1 = rows * c1 -> length a2 = rows * c2 ->
  dconcat_cols R rows c1 c2 a1 a2 = Ok (a1 ++ a2).
Proof. intros R. exact dconcat_cols_ok. Qed.
Print Assumptions C40_dconcat_cols.

Example C40_small_cases :
  diagv2m Zring 2 [5%Z; 6%Z] = Ok (mkmat Zring 2 2 [5%Z; 0%Z; 0%Z; 6%Z])
  /\ dconcat_cols Zring 2 1 1 [1%Z; 2%Z] [3%Z; 4%Z] = Ok [1%Z; 2%Z; 3%Z; 4%Z]
  /\ dprod Zring 3 [2%Z; 3%Z; 4%Z] = Ok 24%Z.
Proof. repeat split. Qed.

(** C93: the history of the optimizer; C94: copies of the optimizer. *)
From Verif Require Import Base BaseFacts TensorFacts ParamFacts OptMiscModel.
From Coq Require Import Lia.
Open Scope nat_scope.

(** The method stores its points one after the other. *)
Fixpoint store_all {A} (d : nat) (h : hist A) (xs : list (list A)) : outcome (hist A) :=
  match xs with
  | [] => Ok h
  | x :: xs => do h <- hist_store d h x; store_all d h xs
  end.

Lemma concat_length {A} d (xs : list (list A)) : Forall (fun x => length x = d) xs -> length (concat xs) = length xs * d.
Proof. induction 1 as [|x xs Hx _ IH]; cbn [concat length]; [reflexivity|]. rewrite app_length, IH, Hx. lia. Qed.
Lemma concat_nth {A} d (xs : list (list A)) i j x : Forall (fun x => length x = d) xs -> nth_error xs i = Some x -> j < d ->
  nth_error (concat xs) (i * d + j) = nth_error x j.
Proof.
  intros H. revert i. induction H as [|y xs Hy H IH]; intros i E Hj; [destruct i; discriminate|]. cbn [concat]. destruct i as [|i]; cbn [nth_error] in E.
  - injection E as ->. rewrite nth_error_app1 by lia. reflexivity.
  - rewrite nth_error_app2 by lia. replace (S i * d + j - length y) with (i * d + j) by lia. now apply IH.
Qed.
Lemma splice0_nth {A} (p l : list A) k : k < length p -> nth_error (splice 0 p l) k = nth_error p k.
Proof. intros H. unfold splice. cbn [firstn app]. now rewrite nth_error_app1. Qed.
Lemma nth_error_skip {A} n (l : list A) i : nth_error (skipn n l) i = nth_error l (n + i).
Proof. revert l. induction n as [|n IH]; intros [|a l]; cbn [skipn Nat.add nth_error]; auto. now destruct i. Qed.
Lemma splice0_later {A} (p l : list A) k : length p <= k -> nth_error (splice 0 p l) k = nth_error l k.
Proof.
  intros H. unfold splice. cbn [firstn app Nat.add]. rewrite nth_error_app2 by lia. rewrite nth_error_skip. f_equal. lia.
Qed.

Lemma store_all_from {A} d (z : A) N xs ys : Forall (fun x => length x = d) ys -> Forall (fun x => length x = d) xs -> (length ys + length xs) * d <= N ->
  store_all d (mkhist (splice 0 (concat ys) (repeat z N)) (length ys)) xs = Ok (mkhist (splice 0 (concat (ys ++ xs)) (repeat z N)) (length (ys ++ xs))).
Proof.
  intros Hy Hx. revert ys Hy. induction Hx as [|x xs Lx Hx IH]; intros ys Hy Hn; cbn [store_all]; [now rewrite app_nil_r|].
  cbn [length] in Hn. unfold hist_store. cbn [h_buf h_n].
  assert (Lc := concat_length d ys Hy).
  rewrite blit_ok; [|lia|rewrite splice_length; rewrite repeat_length; nia].
  cbn [obind skipn]. rewrite firstn_all2 by lia. replace (length ys * d) with (0 + length (concat ys)) by lia.
  rewrite splice_app by (rewrite repeat_length; nia). replace (concat ys ++ x) with (concat (ys ++ [x])) by (rewrite concat_app; cbn [concat]; now rewrite app_nil_r).
  replace (length ys + 1) with (length (ys ++ [x])) by (rewrite app_length; reflexivity).
  rewrite IH; [now rewrite <- app_assoc|apply Forall_app; auto|rewrite app_length; cbn [length]; lia].
Qed.
Lemma store_all_new {A} d (z : A) maxiter xs : Forall (fun x => length x = d) xs -> length xs <= 8 * maxiter ->
  store_all d (hist_alloc z d maxiter) xs = Ok (mkhist (splice 0 (concat xs) (repeat z (d * 8 * maxiter))) (length xs)).
Proof.
  intros H Hn. unfold hist_alloc. rewrite <- (splice_nil 0 (repeat z _)) at 1. apply (store_all_from d z _ xs []); auto. cbn [length]. nia.
Qed.

(** Up to eight times the iteration limit of points can be stored, and then every
    stored number is where the points are looked up, point by point. *)
Theorem C93_stored {A} d (z : A) maxiter xs : Forall (fun x => length x = d) xs -> length xs <= 8 * maxiter ->
  exists h, store_all d (hist_alloc z d maxiter) xs = Ok h /\ h_n h = length xs /\
    forall i j x, nth_error xs i = Some x -> j < d -> nth_error (h_buf h) (i * d + j) = nth_error x j.
Proof.
  intros H Hn. eexists. split; [now apply store_all_new|]. split; [reflexivity|]. intros i j x E Hj. cbn [h_buf].
  assert (Hi : i < length xs) by (apply nth_error_Some; congruence). rewrite splice0_nth by (rewrite (concat_length d) by auto; nia). now apply (concat_nth d).
Qed.
Print Assumptions C93_stored.

Lemma blit_over {A} (dst : list A) od src os n : 0 < n -> length dst < od + n -> os + n <= length src -> blit dst od src os n = UB.
Proof.
  intros Hn Ho Hs. unfold blit. apply (for_ub (fun l => length l = length dst) _ n dst (n - 1)); auto; try lia.
  - intros i l Hi L. destruct (nth_error src (os + i)) as [v|] eqn:E; [|apply nth_error_None in E; lia]. rewrite (aget_ok _ _ _ E). cbn [obind].
    unfold aset. destruct (Nat.ltb_spec (od + i) (length l)); [|now left]. right. eexists. split; [reflexivity|]. now rewrite upd_length.
  - intros l L. destruct (nth_error src (os + (n - 1))) as [v|] eqn:E; [|apply nth_error_None in E; lia]. rewrite (aget_ok _ _ _ E). cbn [obind].
    unfold aset. destruct (Nat.ltb_spec (od + (n - 1)) (length l)); [lia|reflexivity].
Qed.
(** One point more is written past the end (with an iteration limit of zero, the
    starting point already). *)
Theorem C93_overflow {A} d (z : A) maxiter xs x : Forall (fun x => length x = d) xs -> length x = d -> 0 < d -> length xs = 8 * maxiter ->
  store_all d (hist_alloc z d maxiter) (xs ++ [x]) = UB.
Proof.
  intros H Lx Hd Hn.
  assert (App : forall (l1 l2 : list (list A)) h, store_all d h (l1 ++ l2) = (do h <- store_all d h l1; store_all d h l2)).
  { intros l1. induction l1 as [|y l1 IH]; intros l2 h; cbn [app store_all obind]; [reflexivity|]. destruct (hist_store d h y); cbn [obind]; auto. }
  rewrite App, store_all_new by (auto; lia). cbn [obind store_all]. unfold hist_store. cbn [h_buf h_n].
  rewrite blit_over; [reflexivity|lia| |lia]. rewrite splice_length by (rewrite repeat_length, (concat_length d) by auto; nia). rewrite repeat_length. nia.
Qed.
Print Assumptions C93_overflow.

(** ** Printing *)
Lemma print_line {A} (b : list A) off d (F : nat -> A) : (forall j, j < d -> nth_error b (off + j) = Some (F j)) ->
  for_ d (fun jj line => do a <- aget b (off + jj); Ok (line ++ [a])) [] = Ok (tab d F).
Proof.
  intros H. rewrite (for_det (fun n => tab n F)); auto. intros i Hi. rewrite (aget_ok _ _ _ (H i Hi)). cbn [obind]. now rewrite tab_S.
Qed.

(** With as many points as dimensions the lines printed are the points. *)
Theorem C93_print {A} d (z : A) maxiter xs : Forall (fun x => length x = d) xs -> length xs <= 8 * maxiter -> length xs = d ->
  (do h <- store_all d (hist_alloc z d maxiter) xs; hist_print d h) = Ok xs.
Proof.
  intros H Hn Hd. destruct (C93_stored d z maxiter xs H Hn) as (h & E & En & Hb). rewrite E. cbn [obind]. unfold hist_print. rewrite En, Hd.
  rewrite (for_det (fun n => firstn n xs)); [now rewrite firstn_all2 by lia|]. intros i Hi.
  destruct (nth_error xs i) as [x|] eqn:Ex; [|apply nth_error_None in Ex; lia].
  assert (Lx : length x = d). { rewrite Forall_forall in H. apply H. now apply nth_error_In in Ex. }
  rewrite (print_line _ (i * d) d (fun j => nth j x z)).
  - cbn [obind]. f_equal. rewrite (firstn_S_nth xs i x Ex). do 2 f_equal. apply (nth_ext _ _ z z); [now rewrite tab_length|].
    rewrite tab_length. intros j Hj. now rewrite nth_tab.
  - intros j Hj. rewrite (Hb i j x Ex Hj). apply nth_error_nth'. lia.
Qed.
Print Assumptions C93_print.

(** Otherwise the lines belong to other points: three points in one dimension come
    out as the first one followed by two lines of zeros. *)
Theorem C93_print_refuted : exists (d maxiter : nat) (xs : list (list nat)), Forall (fun x => length x = d) xs /\ length xs <= maxiter + 1 /\
  (do h <- store_all d (hist_alloc 0 d maxiter) xs; hist_print d h) = Ok [[1]; [0]; [0]] /\ xs = [[1]; [2]; [3]].
Proof.
  exists 1, 2, [[1]; [2]; [3]]. split; [repeat constructor|]. split; [cbn; lia|]. split; [reflexivity|reflexivity].
Qed.
Print Assumptions C93_print_refuted.

(** After many iterations the printing reads past the end of the history, whatever
    the points are. *)
Theorem C93_print_beyond_refuted {A} d (z : A) maxiter xs : Forall (fun x => length x = d) xs -> length xs <= 8 * maxiter -> 0 < d ->
  8 * d * maxiter < (length xs - 1) * length xs + d -> 0 < length xs ->
  (do h <- store_all d (hist_alloc z d maxiter) xs; hist_print d h) = UB.
Proof.
  intros H Hn Hd Hbig Hpos. rewrite store_all_new by auto. cbn [obind]. unfold hist_print. cbn [h_n h_buf].
  set (b := splice 0 (concat xs) _). set (n := length xs) in *.
  assert (Lb : length b = d * 8 * maxiter). { unfold b. rewrite splice_length; rewrite repeat_length; auto. rewrite (concat_length d) by auto. fold n. nia. }
  assert (Line : forall off, (exists l, for_ d (fun jj line => do a <- aget b (off + jj); Ok (line ++ [a])) [] = Ok l) \/
    for_ d (fun jj line => do a <- aget b (off + jj); Ok (line ++ [a])) [] = UB).
  { intros off. destruct (le_lt_dec (off + d) (length b)) as [L|L].
    - left. eexists. apply (print_line b off d (fun j => nth (off + j) b z)). intros j Hj. apply nth_error_nth'. lia.
    - right. apply (for_ub (fun _ => True) _ d [] (d - 1)); auto; try lia.
      + intros i s Hi _. unfold aget. destruct (nth_error b (off + i)); cbn [obind]; eauto.
      + intros s _. unfold aget. replace (nth_error b (off + (d - 1))) with (@None A) by (symmetry; apply nth_error_None; lia). reflexivity. }
  apply (for_ub (fun _ => True) _ n [] (n - 1)); auto; try lia.
  - intros i s Hi _. destruct (Line (i * n)) as [(l & ->)| ->]; cbn [obind]; eauto.
  - intros s _. assert (E : for_ d (fun jj line => do a <- aget b ((n - 1) * n + jj); Ok (line ++ [a])) [] = UB); [|now rewrite E].
    apply (for_ub (fun _ => True) _ d [] (d - 1)); auto; try lia.
    + intros i t Hi _. unfold aget. destruct (nth_error b ((n - 1) * n + i)); cbn [obind]; eauto.
    + intros t _. unfold aget. replace (nth_error b ((n - 1) * n + (d - 1))) with (@None A) by (symmetry; apply nth_error_None; lia). reflexivity.
Qed.
Print Assumptions C93_print_beyond_refuted.
(** a case: twelve points in one dimension with an iteration limit of eleven *)
Example C93_beyond_case : let xs := map (fun i => [i]) (seq 0 12) in
  length xs <= 8 * 11 /\ 8 * 1 * 11 < (length xs - 1) * length xs + 1 /\ (do h <- store_all 1 (hist_alloc 0 1 11) xs; hist_print 1 h) = UB.
Proof. split; [cbn; lia|]. split; [cbn; lia|]. reflexivity. Qed.
Example C93_case : (do h <- store_all 2 (hist_alloc 0 2 1) [[1; 2]; [3; 4]]; hist_print 2 h) = Ok [[1; 2]; [3; 4]].
Proof. reflexivity. Qed.

(** ** Copies *)
(** The workspace of the copy is that of the original, except for the gradient
    method, where twice its length is moved. *)
Theorem C94_work {A} (z : A) alg d work : length work = work_len alg d -> alg <> BATCHGRAD -> copy_work z alg d work = Ok work.
Proof.
  intros L Ha. unfold copy_work. rewrite blit_ok; rewrite ?repeat_length; destruct alg; try congruence; cbn [work_len] in *; try lia;
    cbn [skipn]; f_equal; rewrite firstn_all2 by lia; apply splice_full; rewrite repeat_length; exact L.
Qed.
Print Assumptions C94_work.
Theorem C94_gradient_refuted {A} (z : A) d work : length work = work_len BATCHGRAD d -> 0 < d -> copy_work z BATCHGRAD d work = UB.
Proof.
  intros L Hd. cbn [work_len] in L. unfold copy_work, blit. apply (for_ub (fun l => length l = 2 * d) _ (4 * d) _ (2 * d)); [apply repeat_length| |lia|].
  - intros i l Hi Ll. unfold aget. destruct (nth_error work (0 + i)); cbn [obind]; auto. unfold aset. destruct (Nat.ltb_spec (0 + i) (length l)); auto.
    right. eexists. split; [reflexivity|]. now rewrite upd_length.
  - intros l Ll. unfold aget. replace (nth_error work (0 + 2 * d)) with (@None A) by (symmetry; apply nth_error_None; lia). reflexivity.
Qed.
Print Assumptions C94_gradient_refuted.

(** The copy of a history has its points up to the iteration limit. *)
Theorem C94_hist {A} d (z : A) maxiter xs : Forall (fun x => length x = d) xs -> length xs <= 8 * maxiter ->
  exists h h', store_all d (hist_alloc z d maxiter) xs = Ok h /\ copy_hist z d maxiter h = Ok h' /\ h_n h' = length xs /\
    (forall i j x, nth_error xs i = Some x -> i < maxiter -> j < d -> nth_error (h_buf h') (i * d + j) = nth_error x j) /\
    (forall i j x, nth_error xs i = Some x -> maxiter <= i -> j < d -> nth_error (h_buf h') (i * d + j) = Some z).
Proof.
  intros H Hn. destruct (C93_stored d z maxiter xs H Hn) as (h & E & En & Hb). exists h. assert (Lb : length (h_buf h) = d * 8 * maxiter).
  { rewrite store_all_new in E by auto. injection E as <-. cbn [h_buf]. rewrite splice_length; rewrite repeat_length; auto. rewrite (concat_length d) by auto. nia. }
  eexists. split; [exact E|]. unfold copy_hist, hist_alloc. cbn [h_buf]. rewrite blit_ok by (rewrite ?repeat_length; nia). cbn [obind skipn].
  split; [reflexivity|]. split; [exact En|]. cbn [h_buf]. assert (Lf : length (firstn (d * maxiter) (h_buf h)) = d * maxiter) by (rewrite firstn_length; nia).
  split.
  - intros i j x Ex Hi Hj. rewrite splice0_nth by (rewrite Lf; nia). rewrite nth_error_firstn by nia. now apply Hb.
  - intros i j x Ex Hi Hj. assert (Hl : i < length xs) by (apply nth_error_Some; congruence). rewrite splice0_later by (rewrite Lf; nia). apply nth_error_repeat. nia.
Qed.
Print Assumptions C94_hist.
(** The last points are lost: a run that uses up its iterations stores two more. *)
Theorem C94_hist_refuted : exists (d maxiter : nat) (xs : list (list nat)) h h', length xs = maxiter + 2 /\ Forall (fun x => length x = d) xs /\
  store_all d (hist_alloc 0 d maxiter) xs = Ok h /\ copy_hist 0 d maxiter h = Ok h' /\ h' <> h.
Proof.
  exists 1, 1, [[1]; [2]; [3]]. eexists _, _. split; [reflexivity|]. split; [repeat constructor|]. split; [reflexivity|]. split; [reflexivity|]. discriminate.
Qed.
Print Assumptions C94_hist_refuted.
Example C94_case : copy_work 0 LBFGS 2 [1; 2; 3; 4; 5; 6; 7; 8] = Ok [1; 2; 3; 4; 5; 6; 7; 8] /\ copy_work 0 BATCHGRAD 1 [1; 2] = UB.
Proof. split; reflexivity. Qed.

(** Lemmas about the model of the Sobol sensitivity analysis. *)
From Verif Require Import SobolModel.
From Coq Require Import Permutation.

(** * Specification *)

(** The nonempty sublists of a list. *)
Fixpoint nsubs {A} (l : list A) : list (list A) :=
  match l with
  | [] => []
  | x :: l' => map (cons x) ([] :: nsubs l') ++ nsubs l'
  end.

(** Strictly increasing, with entries at least [lo] and below [hi]. *)
Fixpoint incr (lo hi : nat) (l : list nat) : Prop :=
  match l with
  | [] => True
  | x :: l' => lo <= x < hi /\ incr (S x) hi l'
  end.

(** The variables that are not in [vars]. *)
Definition others (dim : nat) (vars : list nat) : list nat :=
  filter (fun i => negb (existsb (Nat.eqb i) vars)) (seq 0 dim).

(** * Sublists of a given length *)
Fixpoint ch {A} (k : nat) (l : list A) : list (list A) :=
  match k, l with
  | 0, _ => [[]]
  | S _, [] => []
  | S k', x :: l' => map (cons x) (ch k' l') ++ ch (S k') l'
  end.

Fixpoint subs {A} (l : list A) : list (list A) :=
  match l with
  | [] => [[]]
  | x :: l' => map (cons x) (subs l') ++ subs l'
  end.

Lemma ch_0 {A} (l : list A) : ch 0 l = [[]].
Proof. now destruct l. Qed.

Lemma ch_long {A} (l : list A) : forall k, length l < k -> ch k l = [].
Proof.
  induction l as [|x l IH]; intros [|k] H; simpl in *; try lia; auto.
  rewrite (IH k), (IH (S k)) by lia. reflexivity.
Qed.

Lemma ch_full {A} (l : list A) : ch (length l) l = [l].
Proof.
  induction l as [|x l IH]; simpl; auto. rewrite IH, ch_long by lia. reflexivity.
Qed.

Lemma ch_map {A B} (f : A -> B) (l : list A) : forall k, ch k (map f l) = map (map f) (ch k l).
Proof.
  induction l as [|x l IH]; intros [|k]; simpl; auto.
  rewrite !IH, map_app, !map_map. reflexivity.
Qed.

Lemma ch_len {A} (l : list A) : forall k s, In s (ch k l) -> length s = k.
Proof.
  induction l as [|x l IH]; intros [|k] s H; simpl in H.
  - destruct H as [<-|[]]; auto.
  - destruct H.
  - destruct H as [<-|[]]; auto.
  - apply in_app_or in H as [H|H].
    + apply in_map_iff in H as (s' & <- & H). simpl. f_equal. now apply IH.
    + now apply IH.
Qed.

Lemma nil_subs {A} (l : list A) : In [] (subs l).
Proof. induction l; simpl; auto. apply in_or_app. auto. Qed.

Lemma ch_subs {A} (l : list A) : forall k s, In s (ch k l) -> In s (subs l).
Proof.
  induction l as [|x l IH]; intros [|k] s H.
  - exact H.
  - destruct H.
  - destruct H as [<-|[]]. apply nil_subs.
  - simpl in *. apply in_or_app. apply in_app_or in H as [H|H].
    + left. apply in_map_iff in H as (s' & <- & H). apply in_map. now apply (IH k).
    + right. now apply (IH (S k)).
Qed.

Lemma subs_len {A} (l : list A) : forall s, In s (subs l) -> length s <= length l.
Proof.
  induction l as [|x l IH]; intros s H; simpl in *.
  - destruct H as [<-|[]]; auto.
  - apply in_app_or in H as [H|H].
    + apply in_map_iff in H as (s' & <- & H). apply IH in H. simpl. lia.
    + apply IH in H. lia.
Qed.

Lemma subs_full {A} (l : list A) : forall s, In s (subs l) -> length l <= length s -> s = l.
Proof.
  induction l as [|x l IH]; intros s H E; simpl in *.
  - destruct H as [<-|[]]; auto.
  - apply in_app_or in H as [H|H].
    + apply in_map_iff in H as (s' & <- & H). simpl in E. f_equal. apply IH; auto. lia.
    + apply subs_len in H. lia.
Qed.

Lemma subs_snoc {A} (l : list A) (x : A) : forall s, In s (subs (l ++ [x])) ->
  exists s', In s' (subs l) /\ (s = s' \/ s = s' ++ [x]).
Proof.
  induction l as [|y l IH]; intros s H; simpl in *.
  - destruct H as [<-|[<-|[]]]; exists []; auto.
  - apply in_app_or in H as [H|H].
    + apply in_map_iff in H as (s' & <- & H). apply IH in H as (s2 & H & E).
      exists (y :: s2). split; [apply in_or_app; left; now apply in_map|].
      destruct E as [->| ->]; auto.
    + apply IH in H as (s2 & H & E). exists s2. split; auto. apply in_or_app; auto.
Qed.

(** * The enumeration *)
Lemma loop_app {A} (F : nat -> list A) : forall n lo l,
  for_from lo n (fun ii l => Ok (l ++ F ii)) l = Ok (l ++ flat_map F (seq lo n)).
Proof.
  induction n as [|n IH]; intros lo l; simpl; [now rewrite app_nil_r|].
  rewrite IH. now rewrite app_assoc.
Qed.

Lemma ch_seq k : forall c s,
  ch (S k) (seq s c) = flat_map (fun ii => map (cons ii) (ch k (seq (S ii) (s + c - S ii)))) (seq s c).
Proof.
  induction c as [|c IH]; intros s; auto. cbn [seq ch flat_map].
  replace (s + S c - S s) with c by lia. f_equal. rewrite IH.
  replace (S s + c) with (s + S c) by lia. reflexivity.
Qed.

Lemma n_choose_k_ok W : forall fuel s n k l prev, n - s < fuel -> 1 <= k ->
  n_choose_k W fuel s n k l prev = Ok (l ++ map (app prev) (ch k (seq s (n - s)))).
Proof.
  induction fuel as [|fuel IH]; intros s n k l prev Hf Hk; [lia|]. cbn [n_choose_k].
  destruct (Nat.eqb_spec k 1) as [->|Hk1].
  - rewrite loop_app. do 2 f_equal. rewrite ch_seq.
    generalize (seq s (n - s)). intros q. induction q as [|a q IHq]; [reflexivity|]. cbn [flat_map]. rewrite map_app, <- IHq, ch_0. reflexivity.
  - rewrite (for_from_ext _ (fun ii l => Ok (l ++ map (app prev) (map (cons ii) (ch (k - 1) (seq (S ii) (n - S ii))))))).
    + rewrite loop_app. do 2 f_equal. destruct k as [|k]; [lia|]. rewrite ch_seq. cbn [Nat.sub].
      rewrite Nat.sub_0_r.
      assert (Hq : forall q, (forall i, In i q -> s <= i < s + (n - s)) ->
        flat_map (fun ii => map (app prev) (map (cons ii) (ch k (seq (S ii) (n - S ii))))) q
        = map (app prev) (flat_map (fun ii => map (cons ii) (ch k (seq (S ii) (s + (n - s) - S ii)))) q)).
      { induction q as [|a q IHq]; intros Ha; simpl; auto. rewrite map_app, IHq by (intros; apply Ha; now right).
        assert (s <= a < s + (n - s)) by (apply Ha; now left). replace (s + (n - s) - S a) with (n - S a) by lia. reflexivity. }
      apply Hq. intros i Hi. apply in_seq in Hi. lia.
    + intros ii l' Hii. rewrite IH; [|lia|destruct k as [|[|k]]; simpl; lia].
      do 2 f_equal. replace (spred W k) with (k - 1) by (destruct k; simpl; lia).
      rewrite map_map. apply map_ext. intros a. now rewrite <- app_assoc.
Qed.

(** For zero no sequence is produced. *)
Lemma n_choose_k_zero W fuel s n l prev : n - s < fuel -> n - s <= W ->
  n_choose_k W fuel s n 0 l prev = Ok l.
Proof.
  destruct fuel as [|fuel]; intros Hf HW; [lia|]. cbn [n_choose_k Nat.eqb spred].
  rewrite (for_from_ext _ (fun ii l => Ok (l ++ []))).
  - rewrite loop_app. f_equal. replace (flat_map (fun _ : nat => []) (seq s (n - s))) with (@nil (list nat)); [apply app_nil_r|].
    induction (seq s (n - s)); auto.
  - intros ii l' Hii. rewrite n_choose_k_ok by lia. rewrite ch_long by (rewrite seq_length; lia). reflexivity.
Qed.

(** * The variables to integrate out *)
Lemma incr_in : forall l lo hi x, incr lo hi l -> In x l -> lo <= x < hi.
Proof.
  induction l as [|y l IH]; intros lo hi x H Hx; [destruct Hx|]. destruct H as (H1 & H2).
  destruct Hx as [->|Hx]; auto. apply (IH _ _ _ H2) in Hx. lia.
Qed.

Lemma incr_NoDup : forall l lo hi, incr lo hi l -> NoDup l.
Proof.
  induction l as [|y l IH]; intros lo hi H; constructor; destruct H as (H1 & H2).
  - intros Hy. apply (incr_in _ _ _ _ H2) in Hy. lia.
  - now apply (IH (S y) hi).
Qed.

Lemma incr_app : forall l1 lo hi e l2, incr lo hi ((l1 ++ [e]) ++ l2) <-> incr lo hi (l1 ++ [e]) /\ incr (S e) hi l2.
Proof.
  induction l1 as [|x l1 IH]; intros lo hi e l2; simpl; [tauto|]. rewrite IH. tauto.
Qed.

Lemma incr_weaken : forall l lo lo' hi, lo' <= lo -> incr lo hi l -> incr lo' hi l.
Proof. intros [|x l] lo lo' hi H Hl; simpl in *; auto. destruct Hl; split; auto; lia. Qed.

Lemma existsb_in vars i : existsb (Nat.eqb i) vars = true <-> In i vars.
Proof.
  rewrite existsb_exists. split.
  - intros (x & H & E). apply Nat.eqb_eq in E. now subst.
  - intros H. exists i. split; auto. apply Nat.eqb_refl.
Qed.

Lemma filter_split {A} (f : A -> bool) l : length (filter f l) + length (filter (fun x => negb (f x)) l) = length l.
Proof. induction l as [|x l IH]; simpl; auto. destruct (f x); simpl; lia. Qed.

Lemma others_len dim vars : NoDup vars -> (forall x, In x vars -> x < dim) ->
  length (others dim vars) + length vars = dim.
Proof.
  intros HN HR. unfold others. pose proof (filter_split (fun i => existsb (Nat.eqb i) vars) (seq 0 dim)) as H.
  rewrite seq_length in H.
  assert (P : Permutation (filter (fun i => existsb (Nat.eqb i) vars) (seq 0 dim)) vars).
  { apply NoDup_Permutation; auto; [apply NoDup_filter, seq_NoDup|].
    intros x. rewrite filter_In, existsb_in, in_seq. split; [tauto|]. intros Hx. split; auto. specialize (HR x Hx). lia. }
  apply Permutation_length in P. lia.
Qed.

Lemma upd_fill (F : list nat) n x : upd (F ++ repeat 0 (S n)) (length F) x = (F ++ [x]) ++ repeat 0 n.
Proof. induction F as [|y F IH]; simpl; auto. f_equal. apply IH. Qed.

Lemma sobol_contract_ok dim vars : NoDup vars -> (forall x, In x vars -> x < dim) ->
  sobol_contract dim vars = Ok (others dim vars).
Proof.
  intros HN HR. pose proof (others_len dim vars HN HR) as HL. unfold sobol_contract.
  set (F := fun i => filter (fun i => negb (existsb (Nat.eqb i) vars)) (seq 0 i)).
  set (N := dim - length vars).
  assert (HF : F dim = others dim vars) by reflexivity.
  assert (HFS : forall i, F (S i) = F i ++ (if existsb (Nat.eqb i) vars then [] else [i])).
  { intros i. unfold F. rewrite seq_S, filter_app. cbn [filter Nat.add]. now destruct (existsb (Nat.eqb i) vars). }
  assert (HFle : forall i j, i <= j -> length (F i) <= length (F j)).
  { intros i j H. induction H; auto. rewrite HFS, app_length. lia. }
  destruct (for_inv (fun i s => s = (F i ++ repeat 0 (N - length (F i)), length (F i)))
    (fun ii s => if existsb (Nat.eqb ii) vars then Ok s else do a <- aset (fst s) (snd s) ii; Ok (a, S (snd s)))
    dim (repeat 0 N, 0)) as (s & E & ->).
  - unfold F. simpl. now rewrite Nat.sub_0_r.
  - intros i s Hi ->. pose proof (HFle (S i) dim ltac:(lia)) as H1. rewrite HFS in *. rewrite app_length in *.
    destruct (existsb (Nat.eqb i) vars).
    + eexists. split; [reflexivity|]. rewrite app_nil_r. simpl. now rewrite Nat.add_0_r.
    + cbn [fst snd length] in *. rewrite aset_ok by (rewrite app_length, repeat_length; unfold N; rewrite HF in H1; lia).
      eexists. split; [reflexivity|]. cbn [fst snd].
      replace (N - length (F i)) with (S (N - (length (F i) + 1))) by (unfold N; rewrite HF in H1; lia).
      rewrite upd_fill. f_equal. lia.
  - rewrite E. cbn [obind fst]. rewrite HF. replace (N - length (others dim vars)) with 0 by (unfold N; lia).
    now rewrite app_nil_r.
Qed.

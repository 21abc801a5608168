(** Theorems added after seeded bugs survived: the value of the hash (C61), the
    monitor of a function without arguments (C21), sets that are all absent
    (C32). *)
From Verif Require Import Base BaseFacts MonModel MonFacts PropMon IdxModel IdxFacts PropIdx.
From Coq Require Import ZArith Lia List NArith.
Import ListNotations.
Open Scope nat_scope.

(** The bytes of a string as signed characters *)
Definition schar (c : nat) : Z := if c <? 128 then Z.of_nat c else (Z.of_nat c - 256)%Z.

Lemma size_of_char_spec c : c < 256 -> (Z.of_N (size_of_char c) mod 2 ^ 64 = schar c mod 2 ^ 64)%Z.
Proof.
  intros H. unfold size_of_char, schar. cbv zeta.
  destruct (N.ltb_spec (N.of_nat c) 128), (Nat.ltb_spec c 128); try lia.
  - replace (Z.of_N (N.of_nat c + (2 ^ 64 - 256))) with (Z.of_nat c - 256 + 1 * 2 ^ 64)%Z
      by (rewrite N2Z.inj_add, nat_N_Z; change (Z.of_N (2 ^ 64 - 256)) with (2 ^ 64 - 256)%Z; lia).
    now rewrite Z.mod_add by lia.
Qed.

Lemma Z_N_nat_of n : Z.to_nat (Z.of_N n) = N.to_nat n.
Proof. destruct n; reflexivity. Qed.

(** hashsimple is Horner's scheme with base 31 on the signed characters, modulo
    2^64, then modulo the size of the table. *)
Theorem C61_hash : forall size a r, 1 <= size -> Forall (fun c => 0 < c < 256) a ->
  hashsimple size (a ++ 0 :: r) =
  Ok (Z.to_nat ((fold_left (fun h c => 31 * h + schar c) a 0 mod 2 ^ 64) mod Z.of_nat size)%Z).
Proof.
  intros size a r Hs Ha.
  assert (L : forall a h, Forall (fun c => 0 < c < 256) a -> (h < 2 ^ 64)%N ->
    hash_loop h (a ++ 0 :: r) = Ok (Z.to_N (fold_left (fun h c => 31 * h + schar c) a (Z.of_N h) mod 2 ^ 64)%Z)).
  { clear. induction a as [|c a IH]; intros h Ha Hh; cbn [app hash_loop fold_left].
    - cbn [Nat.eqb]. f_equal. rewrite Z.mod_small by lia. now rewrite N2Z.id.
    - apply Forall_cons_iff in Ha as [Hc Ha]. destruct (Nat.eqb_spec c 0); [lia|].
      rewrite IH; [|auto|apply N.mod_lt; lia]. f_equal. f_equal.
      set (h' := Z.of_N _). set (h1 := (31 * Z.of_N h + schar c)%Z).
      assert (E : (h' mod 2 ^ 64 = h1 mod 2 ^ 64)%Z).
      { unfold h', h1. rewrite N2Z.inj_mod. change (Z.of_N (2 ^ 64)) with (2 ^ 64)%Z. rewrite Z.mod_mod by lia.
        rewrite !N2Z.inj_add, N2Z.inj_mod. rewrite N2Z.inj_sub by lia. rewrite N2Z.inj_mul. change (Z.of_N (2 ^ 64)) with (2 ^ 64)%Z.
        change (Z.of_N 32) with 32%Z.
        rewrite <- Z.add_assoc, Z.add_mod, size_of_char_spec by lia. rewrite <- Z.add_mod by lia.
        replace (schar c + (Z.of_N h * 32 mod 2 ^ 64 + (2 ^ 64 - Z.of_N h)))%Z with ((schar c - Z.of_N h + Z.of_N h * 32 mod 2 ^ 64) + 1 * 2 ^ 64)%Z by lia.
        rewrite Z.mod_add, Z.add_mod_idemp_r by lia. f_equal. lia. }
      clearbody h' h1. clear -E. revert h' h1 E. induction a as [|c a IH]; intros h h1 E; cbn [fold_left]; auto.
      apply IH. rewrite (Z.add_mod (31 * h)), (Z.mul_mod 31 h), E by lia. rewrite <- (Z.mul_mod 31 h1), <- (Z.add_mod (31 * h1)) by lia. reflexivity. }
  unfold hashsimple. rewrite L by (auto; lia). cbn [obind]. destruct (Nat.eqb_spec size 0); [lia|]. f_equal.
  change (Z.of_N 0) with 0%Z. set (v := (fold_left _ a 0 mod 2 ^ 64)%Z).
  assert (0 <= v)%Z by (apply Z.mod_pos_bound; lia).
  rewrite <- (Z2N.id v) at 2 by auto.
  replace (Z.of_nat size) with (Z.of_N (N.of_nat size)) by lia. rewrite <- N2Z.inj_mod. symmetry. apply Z_N_nat_of.
Qed.
(** "a\xff" *)
Example C61_hash_case : hashsimple 1000 [97; 255; 0] = Ok (Z.to_nat ((31 * 97 - 1) mod 1000)).
Proof. vm_compute. reflexivity. Qed.
Print Assumptions C61_hash.

(** A monitor for functions of no variables always runs out of the point. *)
Theorem C21_dim0_refuted : forall f size x, mon_eval f (mon_init 0 size) x = UB.
Proof. reflexivity. Qed.
Print Assumptions C21_dim0_refuted.

(** All sets absent *)
Theorem C32_array_initialize_null : forall (X : Type) (zero : X) (vals : list (list X)) reverse sizes ci0,
  cross_index_array_initialize zero (length ci0) true reverse sizes vals ci0 = Ok (repeat (Some None) (length ci0)).
Proof.
  intros X zero vals reverse sizes ci0. unfold cross_index_array_initialize.
  set (st := fun i => repeat (Some (@None (cidx X))) i ++ skipn i ci0).
  match goal with |- for_ ?n ?B ?S0 = _ => transitivity (for_ n B (st 0)); [reflexivity|] end.
  etransitivity; [apply (for_det st)|].
  - intros i Hi. unfold st. rewrite aset_ok by (rewrite app_length, repeat_length, skipn_length; lia). f_equal.
    destruct (nth_error ci0 i) as [w|] eqn:Ew; [|apply nth_error_None in Ew; lia].
    assert (Es : skipn i ci0 = w :: skipn (S i) ci0).
    { clear -Ew. revert ci0 Ew. induction i as [|i IH]; intros [|a l] E; try discriminate; cbn [nth_error skipn] in *; [congruence|]. now apply IH. }
    rewrite Es. cbn [repeat]. rewrite repeat_cons, <- app_assoc. cbn [app].
    generalize (skipn (S i) ci0) as l. clear. intros l. induction i as [|i IH]; cbn [repeat app upd]; auto. now rewrite IH.
  - unfold st. rewrite skipn_all. now rewrite app_nil_r.
Qed.
Example C32_array_initialize_null_case :
  cross_index_array_initialize 0 3 true false [2; 3; 1] [[1; 2]; [3; 4; 5]; [6]] (repeat None 3) = Ok [Some None; Some None; Some None].
Proof. reflexivity. Qed.
Print Assumptions C32_array_initialize_null.

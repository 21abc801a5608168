(** The closed quadrature rules are exact on polynomials. *)
From Verif Require Import Base BaseFacts CRing RealInst FOps RIntLib FFTModel FFTFacts FFTMore FFTCheb QuadModel.
From Coq Require Import Reals Lra.
Local Open Scope R_scope.

(** Sums of reals. *)
Fixpoint rs (n : nat) (f : nat -> R) : R := match n with O => 0 | S m => rs m f + f m end.

Lemma rs_rsum n f : rs n f = rsum n f :> R.
Proof. induction n as [|n IH]; [reflexivity|]. cbn [rs]. rewrite IH. reflexivity. Qed.
Lemma rs_ext n f g : (forall i, (i < n)%nat -> f i = g i) -> rs n f = rs n g.
Proof. induction n as [|n IH]; intros H; [reflexivity|]. cbn [rs]. rewrite IH by (intros; apply H; lia). rewrite H by lia. reflexivity. Qed.
Lemma rs_add n f g : rs n (fun i => f i + g i) = rs n f + rs n g.
Proof. induction n as [|n IH]; [cbn; ring|]. cbn [rs]. rewrite IH. ring. Qed.
Lemma rs_scal n c f : rs n (fun i => c * f i) = c * rs n f.
Proof. induction n as [|n IH]; [cbn; ring|]. cbn [rs]. rewrite IH. ring. Qed.
Lemma rs_zero n f : (forall i, (i < n)%nat -> f i = 0) -> rs n f = 0.
Proof. intros H. rewrite (rs_ext n f (fun _ => 0 * 0)); [rewrite rs_scal; ring|]. intros i Hi. rewrite H by auto. ring. Qed.
Lemma rs_S_l n f : rs (S n) f = f 0%nat + rs n (fun i => f (S i)).
Proof. induction n as [|n IH]; [cbn; ring|]. change (rs (S (S n)) f) with (rs (S n) f + f (S n)). rewrite IH. cbn [rs]. ring. Qed.
Lemma rs_swap n m f : rs n (fun i => rs m (fun j => f i j)) = rs m (fun j => rs n (fun i => f i j)).
Proof. induction n as [|n IH]; [cbn; symmetry; apply rs_zero; auto|]. cbn [rs]. rewrite IH. symmetry. apply rs_add. Qed.
Lemma rs_single n k f : (k < n)%nat -> (forall i, (i < n)%nat -> i <> k -> f i = 0) -> rs n f = f k.
Proof.
  induction n as [|n IH]; intros Hk H; [lia|]. cbn [rs]. destruct (Nat.eq_dec k n) as [->|N].
  - rewrite rs_zero; [ring|]. intros i Hi. apply H; lia.
  - rewrite IH by (auto; lia). rewrite (H n) by lia. ring.
Qed.
Lemma rs_tele n (F : nat -> R) : rs n (fun i => F (S i) - F i) = F n - F 0%nat.
Proof. induction n as [|n IH]; [cbn; ring|]. cbn [rs]. rewrite IH. ring. Qed.
Lemma rs_rev n f : rs n f = rs n (fun i => f (n - 1 - i)%nat).
Proof. rewrite !rs_rsum. exact (sum_rev Rring n f). Qed.

(** Integrals both ways round. *)
Lemma is_RInt_swap h a b v : is_RInt h a b v -> is_RInt h b a (- v).
Proof. intros [p <-]. exists (RiemannInt_P1 p). rewrite (RiemannInt_P8 (RiemannInt_P1 p) p). reflexivity. Qed.
Lemma is_RInt_prim F F' a b : (forall x, derivable_pt_lim F x (F' x)) -> continuity F' -> is_RInt F' a b (F b - F a).
Proof.
  intros H C. destruct (Rle_dec a b) as [L|L].
  - now apply is_RInt_primitive.
  - replace (F b - F a) with (- (F a - F b)) by ring. apply is_RInt_swap. apply is_RInt_primitive; auto. lra.
Qed.

Lemma is_RInt_ext_all f g a b v : (forall x, f x = g x) -> is_RInt f a b v -> is_RInt g a b v.
Proof.
  intros E H. destruct (Rle_dec a b) as [L|L].
  - now apply is_RInt_ext with f.
  - apply is_RInt_swap in H. replace v with (- - v) by ring. apply is_RInt_swap. apply is_RInt_ext with f; auto. lra.
Qed.

(** Polynomials by their coefficients, lowest degree first. *)
Fixpoint pe (l : list R) (x : R) : R := match l with nil => 0 | c :: l => c + x * pe l x end.
Fixpoint pprim (k : nat) (l : list R) (x : R) : R :=
  match l with nil => 0 | c :: l => c * x ^ S k / INR (S k) + pprim (S k) l x end.

Lemma pe_continuity l : continuity (pe l).
Proof.
  induction l as [|c l IH]; [intros x; apply continuity_pt_const; now intros ? ?|].
  intros x. apply (continuity_pt_plus (fun _ => c) (fun x => x * pe l x)); [apply continuity_pt_const; now intros ? ?|].
  apply (continuity_pt_mult id (pe l)); [apply derivable_continuous_pt, derivable_pt_id|apply IH].
Qed.

Lemma pprim_deriv l : forall k x, derivable_pt_lim (pprim k l) x (x ^ k * pe l x).
Proof.
  induction l as [|c l IH]; intros k x.
  - cbn [pe pprim]. replace (x ^ k * 0) with 0 by ring. apply derivable_pt_lim_const.
  - cbn [pe]. replace (x ^ k * (c + x * pe l x)) with (c / INR (S k) * (INR (S k) * x ^ pred (S k)) + x ^ S k * pe l x).
    2:{ cbn [pred]. assert (INR (S k) <> 0) by (apply not_0_INR; lia). cbn [pow]. field. auto. }
    apply (derivable_pt_lim_ext (fun x => c / INR (S k) * x ^ S k + pprim (S k) l x)).
    { intros z. cbn [pprim]. unfold Rdiv. ring. }
    apply derivable_pt_lim_plus; [|apply IH].
    apply derivable_pt_lim_scal. apply derivable_pt_lim_pow.
Qed.

Lemma pe_RInt l a b : is_RInt (pe l) a b (pprim 0 l b - pprim 0 l a).
Proof.
  apply is_RInt_prim; [|apply pe_continuity]. intros x. pose proof (pprim_deriv l 0 x) as H. cbn [pow] in H.
  replace (pe l x) with (1 * pe l x) by ring. exact H.
Qed.

(** Composition with an affine map. *)
Fixpoint padd (p q : list R) : list R :=
  match p, q with nil, _ => q | _, nil => p | a :: p, b :: q => a + b :: padd p q end.
Fixpoint pcomp (al be : R) (l : list R) : list R :=
  match l with
  | nil => nil
  | c :: l => let q := pcomp al be l in padd (c :: map (Rmult be) q) (map (Rmult al) q)
  end.
Lemma pe_padd p : forall q x, pe (padd p q) x = pe p x + pe q x.
Proof. induction p as [|a p IH]; intros [|b q] x; cbn [padd pe]; try ring. rewrite IH. ring. Qed.
Lemma padd_length p : forall q, length (padd p q) = Nat.max (length p) (length q).
Proof. induction p as [|a p IH]; intros [|b q]; cbn [padd length]; try lia. rewrite IH. lia. Qed.
Lemma pe_scal c l x : pe (map (Rmult c) l) x = c * pe l x.
Proof. induction l as [|a l IH]; cbn [map pe]; [ring|]. rewrite IH. ring. Qed.
Lemma pe_pcomp al be l x : pe (pcomp al be l) x = pe l (al + be * x).
Proof. induction l as [|c l IH]; [reflexivity|]. cbn [pcomp pe]. rewrite pe_padd. cbn [pe]. rewrite !pe_scal, IH. ring. Qed.
Lemma pcomp_length al be l : length (pcomp al be l) = length l.
Proof. induction l as [|c l IH]; [reflexivity|]. cbn [pcomp length]. rewrite padd_length. cbn [length]. rewrite !map_length, IH. lia. Qed.

(** ** Trapezoid and Simpson *)
Definition trapW (N : nat) (h : R) (i : nat) : R := if orb (i =? 0) (i =? N - 1) then h / 2 else h.
Definition simpW (N : nat) (h : R) (i : nat) : R :=
  if N mod 2 =? 0 then
    (if i =? N - 2 then h / 3 + h / 2 else if i =? N - 1 then h / 2 else if i =? 0 then h / 3
     else if i mod 2 =? 0 then 2 / 3 * h else 4 / 3 * h)
  else (if orb (i =? 0) (i =? N - 1) then h / 3 else if i mod 2 =? 0 then 2 / 3 * h else 4 / 3 * h).

Ltac wfld := unfold half, third; cbn [fmul fadd fsub fdiv f0 f1 fnat Rops fcar INR Nat.eqb]; match goal with |- @eq _ ?a00 ?b00 => change (@eq R a00 b00) end; field.

Lemma trap_w_ok tol N (h : R) : (1 <= N)%nat -> trap_w (K := Rops tol) N h = Ok (tab N (trapW N h)).
Proof.
  intros HN. unfold trap_w; change (fcar (Rops tol)) with R. rewrite aset_ok by (rewrite repeat_length; lia). cbn [obind].
  match goal with |- context [for_from ?lo00 ?n00 ?b00 ?s00] =>
    destruct (for_from_inv (fun m (s : list R) => length s = N /\
       forall i, (i < m)%nat -> (i < N)%nat -> nth_error s i = Some (if i =? 0 then h / 2 else h)) b00 lo00 n00 s00)
      as (w & E & L & V) end.
  { rewrite upd_length, repeat_length. split; auto. intros i Hi Hi'. assert (i = 0)%nat as -> by lia.
    rewrite nth_error_upd_same by (rewrite repeat_length; lia). f_equal. wfld. }
  { intros i s Hi (L & V). rewrite aset_ok by lia. eexists. split; [reflexivity|]. rewrite upd_length. split; auto.
    intros j Hj Hj'. destruct (Nat.eq_dec i j) as [<-|Nj].
    - rewrite nth_error_upd_same by lia. destruct (Nat.eqb_spec i 0); [lia|]. f_equal. cbn. ring.
    - rewrite nth_error_upd_other by auto. apply V; lia. }
  rewrite E. cbn [obind]. rewrite aset_ok by lia. f_equal. apply tab_eq_intro; [now rewrite upd_length|]. intros i Hi. unfold trapW.
  destruct (Nat.eqb_spec i (N - 1)) as [->|Ni].
  - rewrite nth_error_upd_same by lia. rewrite Bool.orb_true_r. f_equal. wfld.
  - rewrite nth_error_upd_other by auto. rewrite V by lia. rewrite Bool.orb_false_r. auto.
Qed.

Lemma simpson_w_ok tol N (h : R) : (1 <= N)%nat -> simpson_w (K := Rops tol) N h = Ok (tab N (simpW N h)).
Proof.
  intros HN. unfold simpson_w; change (fcar (Rops tol)) with R. rewrite aset_ok by (rewrite repeat_length; lia). cbn [obind].
  match goal with |- context [for_from ?lo00 ?n00 ?b00 ?s00] =>
    destruct (for_from_inv (fun m (s : list R) => length s = N /\
       forall i, (i < m)%nat -> (i < N)%nat -> nth_error s i = Some (if i =? 0 then h / 3 else if i mod 2 =? 0 then 2 / 3 * h else 4 / 3 * h)) b00 lo00 n00 s00)
      as (w & E & L & V) end.
  { rewrite upd_length, repeat_length. split; auto. intros i Hi Hi'. assert (i = 0)%nat as -> by lia.
    rewrite nth_error_upd_same by (rewrite repeat_length; lia). f_equal. wfld. }
  { intros i s Hi (L & V).
    destruct (i mod 2 =? 0)%nat eqn:Ei; rewrite aset_ok by lia; (eexists; split; [reflexivity|]; rewrite upd_length; split; auto);
    intros j Hj Hj'; (destruct (Nat.eq_dec i j) as [<-|Nj]; [rewrite nth_error_upd_same by lia; destruct (Nat.eqb_spec i 0); [lia|]; rewrite Ei; f_equal; wfld
      |rewrite nth_error_upd_other by auto; apply V; lia]). }
  rewrite E. cbn [obind]. unfold simpW. destruct (N mod 2 =? 0)%nat eqn:EN.
  - assert (N <> 1%nat) by (intros ->; discriminate).
    rewrite aset_ok by lia. cbn [obind]. rewrite aset_ok by (rewrite upd_length; lia). f_equal.
    apply tab_eq_intro; [now rewrite !upd_length|]. intros i Hi.
    destruct (Nat.eqb_spec i (N - 2)) as [->|N2]; [rewrite nth_error_upd_same by (rewrite upd_length; lia); f_equal; wfld|].
    rewrite nth_error_upd_other by auto.
    destruct (Nat.eqb_spec i (N - 1)) as [->|N1]; [rewrite nth_error_upd_same by lia; f_equal; wfld|].
    rewrite nth_error_upd_other by auto. apply V; lia.
  - rewrite aset_ok by lia. f_equal. apply tab_eq_intro; [now rewrite !upd_length|]. intros i Hi.
    destruct (Nat.eqb_spec i (N - 1)) as [->|N1]; [rewrite nth_error_upd_same by lia; rewrite Bool.orb_true_r; f_equal; wfld|].
    rewrite nth_error_upd_other by auto. rewrite Bool.orb_false_r. apply V; lia.
Qed.

Lemma trap_panels m h (g : nat -> R) :
  rs (S (S m)) (fun i => trapW (S (S m)) h i * g i) = rs (S m) (fun i => h / 2 * (g i + g (S i))).
Proof.
  assert (A : rs (S (S m)) (fun i => trapW (S (S m)) h i * g i) = h / 2 * g 0%nat + rs m (fun i => h * g (S i)) + h / 2 * g (S m)).
  { rewrite rs_S_l. change (rs (S m) (fun i => trapW (S (S m)) h (S i) * g (S i))) with
      (rs m (fun i => trapW (S (S m)) h (S i) * g (S i)) + trapW (S (S m)) h (S m) * g (S m)).
    rewrite (rs_ext m _ (fun i => h * g (S i))).
    2:{ intros i Hi. unfold trapW. destruct (Nat.eqb_spec (S i) (S (S m) - 1)); [lia|]. reflexivity. }
    unfold trapW at 2. destruct (Nat.eqb_spec (S m) (S (S m) - 1)); [|lia]. rewrite Bool.orb_true_r.
    unfold trapW. cbn [Nat.eqb orb]. ring. }
  rewrite A. clear A.
  rewrite (rs_ext (S m) _ (fun i => h / 2 * g i + h / 2 * g (S i))) by (intros; ring).
  rewrite rs_add. rewrite (rs_S_l m (fun i => h / 2 * g i)). cbn [rs].
  rewrite (rs_ext m (fun i => h * g (S i)) (fun i => h / 2 * g (S i) + h / 2 * g (S i))) by (intros; field).
  rewrite rs_add. ring.
Qed.

Definition sc (h : R) (i : nat) : R := if i mod 2 =? 0 then 2 / 3 * h else 4 / 3 * h.
Lemma even_mod m : ((2 * m) mod 2 =? 0)%nat = true.
Proof. rewrite Nat.mul_comm, Nat.mod_mul by lia. reflexivity. Qed.
Lemma odd_mod m : ((2 * m + 1) mod 2 =? 0)%nat = false.
Proof. rewrite Nat.add_comm, Nat.mul_comm, Nat.mod_add by lia. reflexivity. Qed.

Lemma sc_panels m h (g : nat -> R) :
  rs (2 * m + 1) (fun i => sc h i * g i) =
  h / 3 * g 0%nat + h / 3 * g (2 * m)%nat + rs m (fun j => h / 3 * (g (2 * j)%nat + 4 * g (2 * j + 1)%nat + g (2 * j + 2)%nat)).
Proof.
  induction m as [|m IH]; [cbn; unfold sc; cbn; field|].
  replace (2 * S m + 1)%nat with (S (S (2 * m + 1))) by lia. cbn [rs]. rewrite IH.
  replace (S (2 * m + 1))%nat with (2 * S m)%nat by lia. unfold sc. rewrite odd_mod, even_mod.
  replace (2 * m + 2)%nat with (2 * S m)%nat by lia. field.
Qed.

(** Changing the two ends of a sum. *)
Lemma rs_ends m (u w : nat -> R) : (forall i, (0 < i <= m)%nat -> u i = w i) ->
  rs (S (S m)) u = rs (S (S m)) w + (u 0%nat - w 0%nat) + (u (S m) - w (S m)).
Proof.
  intros H. rewrite !(rs_S_l (S m)). cbn [rs]. rewrite (rs_ext m (fun i => u (S i)) (fun i => w (S i))) by (intros; apply H; lia). ring.
Qed.

Lemma simpson_odd m h (g : nat -> R) : (1 <= m)%nat ->
  rs (2 * m + 1) (fun i => simpW (2 * m + 1) h i * g i) = rs m (fun j => h / 3 * (g (2 * j)%nat + 4 * g (2 * j + 1)%nat + g (2 * j + 2)%nat)).
Proof.
  intros Hm. assert (E : (2 * m + 1 = S (S (2 * m - 1)))%nat) by lia.
  assert (A : rs (2 * m + 1) (fun i => simpW (2 * m + 1) h i * g i) =
    rs (2 * m + 1) (fun i => sc h i * g i) - h / 3 * g 0%nat - h / 3 * g (2 * m)%nat).
  { unfold simpW. rewrite odd_mod. rewrite E. rewrite (rs_ends _ _ (fun i => sc h i * g i)).
    - rewrite <- E. change (0 =? 0)%nat with true. cbn [orb]. replace (S (2 * m - 1))%nat with (2 * m)%nat by lia.
      replace (2 * m + 1 - 1)%nat with (2 * m)%nat by lia. rewrite (Nat.eqb_refl (2 * m)), Bool.orb_true_r. unfold sc. rewrite even_mod.
      change (0 mod 2 =? 0)%nat with true. cbv iota. field.
    - intros i Hi. rewrite <- E. destruct (Nat.eqb_spec i 0); [lia|]. destruct (Nat.eqb_spec i (2 * m + 1 - 1)); [lia|]. reflexivity. }
  rewrite A, sc_panels. ring.
Qed.

Lemma simpson_even m h (g : nat -> R) : (1 <= m)%nat ->
  rs (2 * m + 2) (fun i => simpW (2 * m + 2) h i * g i) =
  rs m (fun j => h / 3 * (g (2 * j)%nat + 4 * g (2 * j + 1)%nat + g (2 * j + 2)%nat)) + h / 2 * (g (2 * m)%nat + g (2 * m + 1)%nat).
Proof.
  intros Hm. replace (2 * m + 2)%nat with (S (2 * m + 1)) at 1 by lia. cbn [rs].
  assert (Ee : ((2 * m + 2) mod 2 =? 0)%nat = true) by (replace (2 * m + 2)%nat with (2 * S m)%nat by lia; apply even_mod).
  assert (E : (2 * m + 1 = S (S (2 * m - 1)))%nat) by lia.
  unfold simpW at 2. rewrite Ee. destruct (Nat.eqb_spec (2 * m + 1) (2 * m + 2 - 2)); [lia|].
  destruct (Nat.eqb_spec (2 * m + 1) (2 * m + 2 - 1)); [|lia].
  assert (A : rs (2 * m + 1) (fun i => simpW (2 * m + 2) h i * g i) =
    rs (2 * m + 1) (fun i => sc h i * g i) - h / 3 * g 0%nat - h / 3 * g (2 * m)%nat + h / 2 * g (2 * m)%nat).
  { unfold simpW. rewrite Ee. rewrite E at 1 2. rewrite (rs_ends _ _ (fun i => sc h i * g i)).
    - rewrite <- E. replace (S (2 * m - 1))%nat with (2 * m)%nat by lia.
      destruct (Nat.eqb_spec 0 (2 * m + 2 - 2)); [lia|]. destruct (Nat.eqb_spec 0 (2 * m + 2 - 1)); [lia|].
      destruct (Nat.eqb_spec (2 * m) (2 * m + 2 - 2)); [|lia]. change (0 =? 0)%nat with true. unfold sc. rewrite even_mod.
      change (0 mod 2 =? 0)%nat with true. cbv iota. field.
    - intros i Hi. destruct (Nat.eqb_spec i 0); [lia|]. destruct (Nat.eqb_spec i (2 * m + 2 - 2)); [lia|].
      destruct (Nat.eqb_spec i (2 * m + 2 - 1)); [lia|]. reflexivity. }
  rewrite A, sc_panels. ring.
Qed.

Lemma rs_tele2 m (F : nat -> R) : rs m (fun j => F (2 * j + 2)%nat - F (2 * j)%nat) = F (2 * m)%nat - F 0%nat.
Proof.
  rewrite (rs_ext m _ (fun j => F (2 * S j)%nat - F (2 * j)%nat)); [apply (rs_tele m (fun j => F (2 * j)%nat))|].
  intros j _. do 2 f_equal. lia.
Qed.

Lemma trap_exact N a h c0 c1 : (2 <= N)%nat ->
  is_RInt (fun x => c0 + c1 * x) a (a + INR (N - 1) * h) (rs N (fun i => trapW N h i * (c0 + c1 * (a + INR i * h)))).
Proof.
  intros HN. destruct N as [|[|m]]; try lia.
  set (F := fun x => c0 * x + c1 * x ^ 2 / 2).
  rewrite (trap_panels m h (fun i => c0 + c1 * (a + INR i * h))).
  rewrite (rs_ext _ _ (fun i => F (a + INR (S i) * h) - F (a + INR i * h))).
  2:{ intros i _. unfold F. rewrite S_INR. field. }
  rewrite (rs_tele (S m) (fun i => F (a + INR i * h))). replace (S (S m) - 1)%nat with (S m) by lia.
  replace (F (a + INR 0 * h)) with (F a) by (f_equal; cbn; ring).
  pose proof (pe_RInt [c0; c1] a (a + INR (S m) * h)) as H. cbn [pe pprim] in H.
  replace (F (a + INR (S m) * h) - F a) with
    (c0 * (a + INR (S m) * h) ^ 1 / INR 1 + (c1 * (a + INR (S m) * h) ^ 2 / INR 2 + 0) - (c0 * a ^ 1 / INR 1 + (c1 * a ^ 2 / INR 2 + 0))).
  2:{ unfold F. change (INR 1) with 1. change (INR 2) with (1 + 1). field. }
  revert H. generalize (c0 * (a + INR (S m) * h) ^ 1 / INR 1 + (c1 * (a + INR (S m) * h) ^ 2 / INR 2 + 0) - (c0 * a ^ 1 / INR 1 + (c1 * a ^ 2 / INR 2 + 0))).
  intros v H. apply is_RInt_ext_all with (2 := H). intros x. ring.
Qed.

(** C09 and C23: binary serialization.

    [wf_*] (SerFacts) says the C object is well formed: arrays have at least the
    declared number of entries, numbers fit their C type, tags are known.  [n_*]
    is the object without spare array capacity; the readers allocate exactly the
    declared number of entries. *)
From Verif Require Import Base BaseFacts SerModel SerFacts.
From Coq Require Import NArith ZArith.

(** What a correct size/write/read triple does with the object [x]:
    the size query answers [s]; writing into any block with room for [s] bytes
    succeeds, advances the pointer by [s], leaves every other byte alone, and
    reading at the same place gives [y] and advances the pointer by [s];
    a block with less room is overrun (so [s] is exact). *)
Definition round_trips {A} (size : A -> outcome nat)
    (ser : list N -> nat -> A -> outcome (list N * nat))
    (des : list N -> nat -> outcome (A * nat)) (x y : A) : Prop :=
  exists s, size x = Ok s /\
    (forall buf p, p + s <= length buf ->
       exists buf', ser buf p x = Ok (buf', p + s) /\
         length buf' = length buf /\
         firstn p buf' = firstn p buf /\
         skipn (p + s) buf' = skipn (p + s) buf /\
         des buf' p = Ok (y, p + s)) /\
    (forall buf p, length buf < p + s -> ser buf p x = UB).

Lemma round_trips_intro : forall A size ser des (enc : A -> list N) x y,
  size x = Ok (length (enc x)) ->
  (forall b q, ser b q x = wr b q (enc x)) ->
  (forall buf p, at_ buf p (enc x) -> des buf p = Ok (y, p + length (enc x))) ->
  round_trips size ser des x y.
Proof.
  intros A size ser des enc x y H1 H2 H3. exists (length (enc x)). split; [auto|]. split.
  - intros buf p Hp. exists (firstn p buf ++ enc x ++ skipn (p + length (enc x)) buf).
    assert (E : ser buf p x = Ok (firstn p buf ++ enc x ++ skipn (p + length (enc x)) buf,
                                  p + length (enc x))).
    { rewrite H2. unfold wr. apply Nat.leb_le in Hp. rewrite Hp. auto. }
    assert (L : length (firstn p buf) = p) by (rewrite firstn_length; lia).
    split; [exact E|]. split; [|split; [|split]].
    + rewrite H2 in E. apply wr_length in E. tauto.
    + rewrite firstn_app, L, Nat.sub_diag. cbn [firstn]. rewrite app_nil_r.
      rewrite firstn_all2 by lia. auto.
    + rewrite app_assoc, skipn_app, app_length, L.
      rewrite skipn_all2 by (rewrite app_length, L; lia).
      rewrite Nat.sub_diag. auto.
    + apply H3. rewrite H2 in E. apply wr_at in E. auto.
  - intros buf p Hp. rewrite H2. unfold wr.
    replace (p + length (enc x) <=? length buf) with false; auto.
    symmetry. apply Nat.leb_gt. auto.
Qed.

(** ** C23: basic codecs and array files *)

(** One datum of a basic type. *)
Inductive item := IInt (z : Z) | ISz (n : nat) | IDbl (x : N) | IArr (v : list N).
Inductive kind := KInt | KSz | KDbl | KArr.
Definition kind_of (i : item) : kind :=
  match i with IInt _ => KInt | ISz _ => KSz | IDbl _ => KDbl | IArr _ => KArr end.

Definition item_ok (i : item) : Prop :=
  match i with
  | IInt z => (- 2 ^ 31 <= z < 2 ^ 31)%Z
  | ISz n => (N.of_nat n < 2 ^ 64)%N
  | IDbl x => (x < 2 ^ 64)%N
  | IArr v => (N.of_nat (length v) < 2 ^ 64)%N /\ Forall (fun x => (x < 2 ^ 64)%N) v
  end.

(** Number of bytes of a datum. *)
Definition item_size (i : item) : nat :=
  match i with IInt _ => 4 | ISz _ => 8 | IDbl _ => 8 | IArr v => 8 + 8 * length v end.

Definition ser_item (buf : list N) (p : nat) (i : item) : outcome (list N * nat) :=
  match i with
  | IInt z => ser_int buf p z
  | ISz n => ser_sz buf p n
  | IDbl x => ser_dbl buf p x
  | IArr v => ser_dblp buf p v (length v)
  end.

Definition des_item (buf : list N) (p : nat) (k : kind) : outcome (item * nat) :=
  match k with
  | KInt => do (z, q) <- des_int buf p; Ok (IInt z, q)
  | KSz => do (z, q) <- des_sz buf p; Ok (ISz z, q)
  | KDbl => do (z, q) <- des_dbl buf p; Ok (IDbl z, q)
  | KArr => do (v, n, q) <- des_dblp buf p;
            if n =? length v then Ok (IArr v, q) else UB
  end.

(** Calls one after the other, threading the returned pointer. *)
Fixpoint ser_items (buf : list N) (p : nat) (l : list item) : outcome (list N * nat) :=
  match l with
  | [] => Ok (buf, p)
  | i :: t => do (b, q) <- ser_item buf p i; ser_items b q t
  end.

Fixpoint des_items (buf : list N) (p : nat) (l : list kind) : outcome (list item * nat) :=
  match l with
  | [] => Ok ([], p)
  | k :: t => do (i, q) <- des_item buf p k;
              do (r, q) <- des_items buf q t; Ok (i :: r, q)
  end.

Definition sizes (l : list item) : nat := fold_right (fun i s => item_size i + s) 0 l.

Definition e_item (i : item) : list N :=
  match i with
  | IInt z => e_int z | ISz n => e_sz n | IDbl x => e_dbl x | IArr v => e_dblp v
  end.

Lemma e_item_length : forall i, length (e_item i) = item_size i.
Proof.
  destruct i; cbn [e_item item_size]; lens; auto. lia.
Qed.

Lemma ser_item_eq : forall i b q, ser_item b q i = wr b q (e_item i).
Proof.
  destruct i; intros; cbn [ser_item e_item]; auto.
  rewrite ser_dblp_eq by auto. rewrite firstn_all. auto.
Qed.

Lemma des_item_at : forall i, item_ok i -> forall buf p, at_ buf p (e_item i) ->
  des_item buf p (kind_of i) = Ok (i, p + item_size i).
Proof.
  destruct i; cbn [item_ok e_item kind_of des_item item_size]; intros K buf p H.
  - rewrite (des_int_at _ _ _ H K). auto.
  - rewrite (des_sz_at _ _ _ H K). auto.
  - rewrite (des_dbl_at _ _ _ H K). auto.
  - destruct K as [K1 K2]. rewrite (des_dblp_at _ _ _ H K1 K2). cbn [obind].
    rewrite Nat.eqb_refl, e_dblp_length. do 2 f_equal. lia.
Qed.

(** Any sequence of basic data, written one after the other into a block with
    enough room, takes exactly the advertised number of bytes, touches no other
    byte, and is read back in the same order, bit for bit. *)
Theorem C23_codecs : forall l buf p,
  Forall item_ok l -> p + sizes l <= length buf ->
  exists buf', ser_items buf p l = Ok (buf', p + sizes l) /\
    length buf' = length buf /\
    firstn p buf' = firstn p buf /\
    skipn (p + sizes l) buf' = skipn (p + sizes l) buf /\
    des_items buf' p (map kind_of l) = Ok (l, p + sizes l).
Proof.
  intros l buf p K Hp.
  assert (R : round_trips (fun l => Ok (sizes l)) (fun b q l => if q <=? length b then ser_items b q l else UB)
     (fun b q => des_items b q (map kind_of l)) l l).
  { apply round_trips_intro with (enc := flat_map e_item).
    - f_equal. unfold sizes. clear. induction l as [|i l IH]; auto.
      cbn [fold_right flat_map]. rewrite app_length, e_item_length, IH. auto.
    - clear. induction l as [|i l IH]; intros b q; cbn [ser_items flat_map].
      + destruct (q <=? length b) eqn:E.
        * apply wr_nil. apply Nat.leb_le. auto.
        * unfold wr. cbn [length]. rewrite Nat.add_0_r, E. auto.
      + destruct (q <=? length b) eqn:E.
        * rewrite ser_item_eq. apply wr_bind. intros b1 q1 Hq. rewrite <- IH.
          apply Nat.leb_le in Hq. rewrite Hq. auto.
        * apply Nat.leb_gt in E. unfold wr.
          replace (_ <=? _) with false; auto. symmetry. apply Nat.leb_gt. lia.
    - clear - K. induction K as [|i l Ki K IH]; intros b q H; cbn [map des_items flat_map] in *.
      + cbn [length]. rewrite Nat.add_0_r. auto.
      + apply at_app in H as [H1 H2]. rewrite (des_item_at _ Ki _ _ H1). cbn [obind].
        rewrite e_item_length in H2. rewrite (IH _ _ H2). cbn [obind].
        rewrite app_length, e_item_length. do 2 f_equal. lia. }
  destruct R as (s & Hs & R & _). inversion Hs; subst s; clear Hs.
  destruct (R buf p Hp) as (buf' & R1 & R2). exists buf'. split; auto.
  replace (p <=? length buf) with true in R1 by (symmetry; apply Nat.leb_le; lia). auto.
Qed.

Example C23_codecs_ex :
  Forall item_ok [IInt (-5); ISz 300; IArr [4607182418800017408; 0]%N; IDbl 9218868437227405312%N; IArr []] /\
  exists b, ser_items (repeat 7%N 60) 3
    [IInt (-5); ISz 300; IArr [4607182418800017408; 0]%N; IDbl 9218868437227405312%N; IArr []]
  = Ok (b, 55).
Proof.
  split.
  - repeat constructor; vm_compute; discriminate.
  - eexists. vm_compute. reflexivity.
Qed.

(** The binary array file: whatever [malloc] hands out, loading the file written
    by [darray_save] gives back the array (its first [rows*cols] entries). *)
Theorem C23_darray_file : forall junk rows cols arr,
  rows * cols <= length arr -> Forall isdbl arr ->
  fits rows -> fits cols -> fits (rows * cols * 8 + 24) ->
  exists file, darray_save junk rows cols arr = Ok file /\
    length file = 32 + 8 * (rows * cols) /\
    (forall rest, darray_load (file ++ rest) = Ok (Some (firstn (rows * cols) arr))).
Proof.
  intros junk rows cols arr L D Fr Fc Ft.
  assert (Frc : fits (rows * cols)) by (unfold fits in *; lia).
  set (body := e_sz rows ++ e_sz cols ++ e_dblp (firstn (rows * cols) arr)).
  assert (Lb : length body = rows * cols * 8 + 24).
  { unfold body. lens. rewrite ?firstn_length_le by auto. lia. }
  set (tot := rows * cols * sz8 + sz8 + 2 * sz8).
  assert (Et : tot = length body) by (rewrite Lb; unfold tot, sz8; lia).
  exists (e_sz (length body) ++ body). split; [|split].
  - unfold darray_save. fold tot.
    transitivity (do (b, q) <- wr (tab (tot + sz8) junk) 0 (e_sz tot ++ body); Ok b).
    + unfold body. rewrite <- (wr_bind _ 0 (e_sz tot) _
        (fun b q => do (b, q) <- ser_sz b q rows; do (b, q) <- ser_sz b q cols;
                    ser_dblp b q arr (rows * cols))).
      * change (ser_sz (tab (tot + sz8) junk) 0 tot) with (wr (tab (tot + sz8) junk) 0 (e_sz tot)).
        destruct (wr (tab (tot + sz8) junk) 0 (e_sz tot)) as [[b q]| | |]; auto. cbn [obind].
        destruct (ser_sz b q rows) as [[b1 q1]| | |]; auto. cbn [obind].
        destruct (ser_sz b1 q1 cols) as [[b2 q2]| | |]; auto.
      * intros b q _. apply wr_bind. intros b1 q1 _. apply wr_bind. intros b2 q2 _.
        apply ser_dblp_eq. auto.
    + rewrite wr_exact.
      * rewrite Et. auto.
      * rewrite tab_length, app_length, e_sz_length, Et. unfold sz8. lia.
  - rewrite app_length, e_sz_length, Lb. lia.
  - intros rest. unfold darray_load. rewrite <- app_assoc.
    rewrite !app_length, e_sz_length.
    replace (8 + (length body + length rest) <? sz8) with false
      by (symmetry; apply Nat.ltb_ge; unfold sz8; lia).
    rewrite (des_sz_at _ _ (length body)).
    2:{ exists [], (body ++ rest). auto. }
    2:{ rewrite Lb. auto. }
    cbn [obind Nat.add].
    rewrite skipn_app, skipn_all2 by (rewrite e_sz_length; lia).
    rewrite e_sz_length. cbn [Nat.sub skipn app].
    rewrite firstn_app, firstn_all, Nat.sub_diag. cbn [firstn]. rewrite app_nil_r.
    assert (A : at_ body 0 body) by (exists [], []; rewrite app_nil_r; auto).
    unfold body in A at 2. apply at_app in A as [A1 A]. apply at_app in A as [A2 A3].
    revert A2 A3. lens. intros. cbn [Nat.add] in *.
    rewrite (des_sz_at _ _ _ A1 Fr). cbn [obind]. change (0 + 8) with 8.
    rewrite (des_sz_at _ _ _ A2 Fc). cbn [obind]. change (8 + 8) with 16.
    rewrite (des_dblp_at _ _ _ A3) by
      (try rewrite firstn_length_le; auto using Forall_firstn). cbn [obind].
    rewrite firstn_length_le by auto. rewrite Nat.eqb_refl. auto.
Qed.

Example C23_darray_ex :
  2 * 3 <= length (map N.of_nat [1;2;3;4;5;6]) /\ Forall isdbl (map N.of_nat [1;2;3;4;5;6]) /\
  fits 2 /\ fits 3 /\ fits (2 * 3 * 8 + 24) /\
  (do f <- darray_save (fun _ => 170%N) 2 3 (map N.of_nat [1;2;3;4;5;6]); darray_load f)
    = Ok (Some (map N.of_nat [1;2;3;4;5;6])).
Proof.
  split; [cbn; lia|]. split; [repeat constructor|]. repeat split.
Qed.

Print Assumptions C23_codecs.
Print Assumptions C23_darray_file.

(** ** C09 *)

Theorem C09_function_train : forall f fuel, wf_ft f -> d_ft f <= fuel ->
  round_trips size_ft ser_ft (des_ft fuel) f (n_ft f).
Proof.
  intros f fuel W Hf. apply round_trips_intro with (enc := e_ft).
  - apply size_ft_eq; auto.
  - apply ser_ft_eq; auto.
  - apply des_ft_at; auto.
Qed.

(** No spare capacity anywhere: the very same train comes back. *)
Corollary C09_function_train_exact : forall f fuel, wf_ft f -> d_ft f <= fuel -> n_ft f = f ->
  round_trips size_ft ser_ft (des_ft fuel) f f.
Proof. intros f fuel W Hf E. pose proof (C09_function_train f fuel W Hf) as R. rewrite E in R. exact R. Qed.

Theorem C09_ft_array : forall f fuel, wf_fa f -> d_fa f <= fuel ->
  round_trips size_fa ser_fa (des_fa fuel) f (n_fa f).
Proof.
  intros f fuel W Hf. apply round_trips_intro with (enc := e_fa).
  - apply size_fa_eq; auto.
  - apply ser_fa_eq; auto.
  - apply des_fa_at; auto.
Qed.

Theorem C09_qmarray : forall a fuel, wf_qa a -> d_gfs (qa_funcs a) <= fuel ->
  round_trips size_qa ser_qa (des_qa fuel) a (n_qa a).
Proof.
  intros f fuel W Hf. apply round_trips_intro with (enc := e_qa).
  - apply size_qa_eq; auto.
  - apply ser_qa_eq; auto.
  - apply des_qa_at; auto.
Qed.

Theorem C09_quasimatrix : forall a fuel, wf_qm a -> d_gfs (qm_funcs a) <= fuel ->
  round_trips size_qm ser_qm (des_qm fuel) a (n_qm a).
Proof.
  intros f fuel W Hf. apply round_trips_intro with (enc := e_qm).
  - apply size_qm_eq; auto.
  - apply ser_qm_eq; auto.
  - apply des_qm_at; auto.
Qed.

Theorem C09_generic_function : forall g fuel, wf_gf g -> d_gf g <= fuel ->
  round_trips size_gf ser_gf (des_gf fuel) g (n_gf g).
Proof.
  intros f fuel W Hf. apply round_trips_intro with (enc := e_gf).
  - apply size_gf_eq; auto.
  - apply ser_gf_eq; auto.
  - apply des_gf_at; auto.
Qed.

(** Files: [function_train_load (function_train_save f)], whatever the memory
    allocator hands out and whatever follows in the file. *)
Theorem C09_files : forall f fuel junk s, wf_ft f -> d_ft f <= fuel ->
  size_ft f = Ok s -> fits s ->
  exists file, ft_save junk f = Ok file /\ length file = 8 + s /\
    forall rest, ft_load fuel (file ++ rest) = Ok (Some (n_ft f)).
Proof.
  intros f fuel junk s W Hf Hs Fs. rewrite size_ft_eq in Hs by auto.
  inversion Hs; subst s; clear Hs.
  exists (e_sz (length (e_ft f)) ++ e_ft f). split; [|split].
  - apply save_obj_eq; [apply size_ft_eq | apply ser_ft_eq]; auto.
  - rewrite app_length, e_sz_length. auto.
  - intros rest. unfold ft_load. rewrite <- app_assoc. apply load_obj_eq; auto.
    apply des_ft_at; auto.
Qed.

Theorem C09_array_files : forall f fuel junk s, wf_fa f -> d_fa f <= fuel ->
  size_fa f = Ok s -> fits s ->
  exists file, fa_save junk f = Ok file /\ length file = 8 + s /\
    forall rest, fa_load fuel (file ++ rest) = Ok (Some (n_fa f)).
Proof.
  intros f fuel junk s W Hf Hs Fs. rewrite size_fa_eq in Hs by auto.
  inversion Hs; subst s; clear Hs.
  exists (e_sz (length (e_fa f)) ++ e_fa f). split; [|split].
  - apply save_obj_eq; [apply size_fa_eq | apply ser_fa_eq]; auto.
  - rewrite app_length, e_sz_length. auto.
  - intros rest. unfold fa_load. rewrite <- app_assoc. apply load_obj_eq; auto.
    apply des_fa_at; auto.
Qed.

(** A file too short to hold the size gives NULL. *)
Theorem C09_short_file : forall fuel file, length file < 8 -> ft_load fuel file = Ok None.
Proof.
  intros fuel file H. unfold ft_load, load_obj. apply Nat.ltb_lt in H. unfold sz8. rewrite H. auto.
Qed.

(** A two-dimensional train of ranks 1,2,1 mixing a piecewise polynomial (with a
    nested node), a Legendre and a Fourier expansion and a piecewise linear
    function and a kernel expansion. *)
Definition ex_map : smap :=
  {| sm_map := 0; sm_set := 1; sm_ls := 4607182418800017408; sm_lo := 0;
     sm_ils := 4607182418800017408; sm_ilo := 0 |}%N.
Definition ex_ope (t : Z) : ope :=
  {| op_ptype := t; op_n := 2; op_lb := 13830554455654793216%N; op_ub := 4607182418800017408%N;
     op_coeff := [1; 2; 99; 99]%N; op_ccoeff := [(3, 4); (negzero, negzero + 5)]%N;
     op_nalloc := 4; op_map := ex_map; op_krist := 0 |}.
Definition ex_pw : pw :=
  PNode 2 [PLeaf (ex_ope LEGENDRE); PNode 1 [PLeaf (ex_ope CHEBYSHEV)]].
Definition ex_le : elemexp := {| ee_n := 2; ee_nodes := [10; 11]%N; ee_coeff := [20; 21]%N |}.
Definition ex_ke : kexp :=
  {| ke_n := 1; ke_nalloc := 1; ke_coeff := [8]%N;
     ke_kern := [{| kn_type := 0; kn_np := 2; kn_params := [5; 6]%N |}];
     ke_lb := 1; ke_ub := 2; ke_incl := 1 |}%N.
Definition ex_ft : ftr :=
  {| ft_d := 2; ft_rk := [1; 2; 1];
     ft_co := [{| qa_r := 1; qa_c := 2;
                  qa_funcs := [{| g_dim := 1; g_f := FPw ex_pw |};
                               {| g_dim := 1; g_f := FPoly (ex_ope FOURIER) |}] |};
               {| qa_r := 2; qa_c := 1;
                  qa_funcs := [{| g_dim := 1; g_f := FLin ex_le |};
                               {| g_dim := 1; g_f := FKern ex_ke |}] |}] |}.

Ltac byc := solve [vm_compute; auto | vm_compute; discriminate | vm_compute; intros; discriminate].

Lemma ex_ft_wf : wf_ft ex_ft.
Proof.
  assert (M : wf_smap ex_map).
  { unfold wf_smap, isint, isdbl. split; [reflexivity|].
    split; [split; byc|]. split; [byc|]. split; [byc|]. split; byc. }
  assert (O : forall t, known_poly t -> wf_ope (ex_ope t)).
  { intros t K. unfold wf_ope. cbn [op_ptype op_n op_lb op_ub op_coeff op_ccoeff op_map op_krist ex_ope].
    split; [auto|]. split; [byc|]. split; [byc|]. split; [byc|].
    split; [|split; [auto|split; byc]].
    destruct (t =? FOURIER)%Z.
    - split; [cbn; lia|]. cbn [firstn].
      assert (W1 : wf_cplx (3, 4)%N) by (split; [byc|]; split; [byc|]; split; byc).
      assert (W2 : wf_cplx (negzero, negzero + 5)%N) by (split; [byc|]; split; [byc|]; split; byc).
      auto.
    - split; [cbn; lia|]. cbn [firstn]. repeat constructor. }
  assert (P : wf_pw ex_pw).
  { apply wf_pw_all. split; [lia|]. split; [auto|]. split; [byc|].
    intros y [<-|[<-|[]]].
    - apply O. left; auto.
    - apply wf_pw_all. split; [lia|]. split; [auto|]. split; [byc|].
      intros y [<-|[]]. apply O. right; left; auto. }
  assert (L : wf_ee ex_le).
  { split; [byc|]. split; [cbn; lia|]. split; [cbn; lia|]. split; repeat constructor. }
  assert (K : wf_kexp ex_ke).
  { split; [cbn; lia|]. split; [byc|]. split; [cbn; lia|]. split; [cbn; lia|].
    split; [repeat constructor|]. split.
    - constructor; auto. split; [split; byc|]. split; [byc|]. split; [cbn; lia|]. repeat constructor.
    - split; [byc|]. split; byc. }
  assert (F1 : fits 1) by byc. assert (F2 : fits 2) by byc.
  split; [auto|]. split; [cbn; lia|]. split; [cbn; repeat constructor; auto|].
  split; [cbn; lia|]. cbn [firstn ft_d ft_co ex_ft].
  constructor; [|constructor; auto].
  - split; [auto|]. split; [auto|]. split; [cbn; lia|]. cbn [qa_r qa_c qa_funcs Nat.mul Nat.add firstn].
    constructor; [|constructor; auto]; (split; [auto|]); cbn [g_f wf_gfun]; auto.
    apply O. unfold known_poly. auto.
  - split; [auto|]. split; [auto|]. split; [cbn; lia|]. cbn [qa_r qa_c qa_funcs Nat.mul Nat.add firstn].
    constructor; [|constructor; auto]; (split; [auto|]); cbn [g_f wf_gfun]; auto.
Qed.

Example C09_ex : wf_ft ex_ft /\ d_ft ex_ft <= 3 /\ size_ft ex_ft = Ok 564.
Proof.
  split; [exact ex_ft_wf|]. split; [vm_compute; auto|]. vm_compute. reflexivity.
Qed.

(** *** Where the full statement fails *)

(** A Fourier expansion with a real part of -0.0 does not come back bit for bit:
    the reader assembles the coefficient as [cr + ci * I]. *)
Theorem C09_fourier_refuted : exists g b q,
  ser_gf (repeat 0%N 200) 0 g = Ok (b, q) /\
  exists g', des_gf 1 b 0 = Ok (g', q) /\
    match g_f g, g_f g' with
    | FPoly o, FPoly o' =>
        op_ptype o = FOURIER /\ op_n o' = op_n o /\
        nth_error (op_ccoeff o) 0 = Some (negzero, 0%N) /\
        nth_error (op_ccoeff o') 0 = Some (0%N, 0%N)
    | _, _ => False
    end.
Proof.
  exists {| g_dim := 1; g_f := FPoly {| op_ptype := FOURIER; op_n := 1; op_lb := 0%N; op_ub := 1%N;
     op_coeff := []; op_ccoeff := [(negzero, 0)]%N; op_nalloc := 1; op_map := ex_map; op_krist := 0 |} |}.
  eexists. eexists. split; [vm_compute; reflexivity|].
  eexists. split; [vm_compute; reflexivity|]. vm_compute. auto.
Qed.

(** The size query of a piecewise polynomial reads its first branch even when it
    has none; writing such a node is fine. *)
Theorem C09_no_branches_refuted :
  size_pw (PNode 0 []) = UB /\
  exists b, ser_pw (repeat 0%N 12) 0 (PNode 0 []) = Ok (b, 12).
Proof. split; [reflexivity|]. eexists. vm_compute. reflexivity. Qed.

Print Assumptions C09_function_train.
Print Assumptions C09_function_train_exact.
Print Assumptions C09_ft_array.
Print Assumptions C09_qmarray.
Print Assumptions C09_quasimatrix.
Print Assumptions C09_generic_function.
Print Assumptions C09_files.
Print Assumptions C09_array_files.
Print Assumptions C09_short_file.
Print Assumptions C09_fourier_refuted.
Print Assumptions C09_no_branches_refuted.

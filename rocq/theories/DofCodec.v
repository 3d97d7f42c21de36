(** * The bit-packed DoF record and vector-dof numbering
    Models /repo/src/serac/numerics/functional/element_restriction.hpp:31-80 and
    element_restriction.cpp:425-441.  A uint64_t is an [N] below 2^64. *)
From Coq Require Import NArith ZArith List Lia Bool.
Import ListNotations.
Local Open Scope N_scope.

Definition two64 : N := N.shiftl 1 64.
Definition sign_mask : N := N.shiftl 1 63.             (* 0x8000'0000'0000'0000, hpp:37 *)
Definition orientation_mask : N := N.shiftl 7 60.      (* 0x7000'0000'0000'0000, hpp:38 *)
Definition index_mask : N := N.ones 64.                (* 0xFFFF'FFFF'FFFF'FFFF, hpp:39: 16 digits F *)

(** Constructor (hpp:64-67).  [sign & 0x1ULL << sign_shift] parses as [sign & (1 << 63)]. *)
Definition mk_dof (index sign orientation : N) : N :=
  N.modulo (N.land sign (N.shiftl 1 63) + N.shiftl (N.land orientation 7) 60 + index) two64.

(** sign(), orientation(), index() (hpp:73-79) *)
Definition dof_sign (bits : N) : Z := if N.eqb (N.land bits sign_mask) 0 then 1%Z else (-1)%Z.
Definition dof_orientation (bits : N) : N := N.shiftr (N.land bits orientation_mask) 60.
Definition dof_index (bits : N) : N := N.land bits index_mask.

Inductive ordering := byNODES | byVDIM.

(** ElementRestriction::GetVDof (element_restriction.cpp:425-432) *)
Definition get_vdof (o : ordering) (num_nodes components : N) (node component : N) : N :=
  let s := if Z.eqb (dof_sign node) 1 then 0 else 1 in
  match o with
  | byNODES => mk_dof (component * num_nodes + dof_index node) s (dof_orientation node)
  | byVDIM => mk_dof (dof_index node * components + component) s (dof_orientation node)
  end.

(** static_cast of uint64_t to int, as in L_vector[int(L_id)] (two's complement) *)
Definition to_int (x : N) : Z :=
  let y := Z.of_N (N.modulo x (N.shiftl 1 32)) in
  if (y <? Z.of_N (N.shiftl 1 31))%Z then y else (y - Z.of_N (N.shiftl 1 32))%Z.
(** conversion of an int to uint64_t, as in uint64_t(dofs[k]) *)
Definition of_int (z : Z) : N := Z.to_N (z mod Z.of_N two64).

Definition lim60 : N := N.shiftl 1 60.

Lemma lim60_pow : lim60 = 2 ^ 60. Proof. reflexivity. Qed.
Lemma two64_pow : two64 = 2 ^ 64. Proof. reflexivity. Qed.

Lemma land_pow2_small x k : x < 2 ^ k -> N.land x (N.shiftl 1 k) = 0.
Proof.
  intros H. apply N.bits_inj. intros m. rewrite N.land_spec, N.bits_0.
  destruct (N.eq_dec m k) as [->|E].
  - rewrite <- (N.mod_small x (2 ^ k)) by exact H.
    rewrite N.mod_pow2_bits_high by lia. reflexivity.
  - rewrite N.shiftl_1_l, N.pow2_bits_false by congruence. apply andb_false_r.
Qed.

(** Everything a constructed record returns, for index below 2^60 and orientation below 8. *)
Lemma mk_dof_reads i s o : i < lim60 -> s < N.shiftl 1 63 -> o < 8 ->
  dof_sign (mk_dof i s o) = 1%Z /\
  dof_orientation (mk_dof i s o) = o /\
  dof_index (mk_dof i s o) = i + o * lim60.
Proof.
  intros Hi Hs Ho. rewrite lim60_pow in *. rewrite N.shiftl_1_l in Hs.
  assert (E : mk_dof i s o = o * 2 ^ 60 + i).
  { unfold mk_dof. rewrite land_pow2_small by exact Hs.
    replace 7 with (N.ones 3) by reflexivity. rewrite N.land_ones.
    rewrite (N.mod_small o) by (simpl; exact Ho). rewrite N.shiftl_mul_pow2, N.add_0_l.
    apply N.mod_small. rewrite two64_pow. simpl in *. lia. }
  rewrite E. split; [|split].
  - unfold dof_sign, sign_mask. rewrite land_pow2_small; [reflexivity|]. simpl in *; lia.
  - unfold dof_orientation, orientation_mask. rewrite N.shiftr_land, N.shiftr_shiftl_l, N.sub_diag, N.shiftl_0_r by lia.
    rewrite N.shiftr_div_pow2, N.add_comm, N.div_add by (simpl; lia).
    rewrite N.div_small by exact Hi. replace 7 with (N.ones 3) by reflexivity. rewrite N.land_ones.
    apply N.mod_small. simpl; exact Ho.
  - unfold dof_index, index_mask. rewrite N.land_ones. rewrite N.mod_small; [lia|]. simpl in *; lia.
Qed.

Lemma plain_round_trip i : i < lim60 ->
  dof_index (mk_dof i 0 0) = i /\ dof_sign (mk_dof i 0 0) = 1%Z /\ dof_orientation (mk_dof i 0 0) = 0.
Proof.
  intros H. destruct (mk_dof_reads i 0 0 H) as (A & B & C); [reflexivity|reflexivity|].
  rewrite C. repeat split; auto. lia.
Qed.

Definition reads_back (i s o : N) : Prop :=
  dof_index (mk_dof i s o) = i /\ dof_orientation (mk_dof i s o) = o /\
  dof_sign (mk_dof i s o) = (if N.eqb s 0 then 1 else -1)%Z.

Lemma sign_lost : exists i s o, i < N.shiftl 1 48 /\ s < 2 /\ o < 8 /\
  dof_index (mk_dof i s o) = i /\ dof_orientation (mk_dof i s o) = o /\ s = 1 /\ dof_sign (mk_dof i s o) = 1%Z.
Proof. exists 5, 1, 0. repeat split. Qed.

Lemma index_polluted : exists i o, i < N.shiftl 1 48 /\ o < 8 /\ dof_index (mk_dof i 0 o) <> i.
Proof. exists 5, 1. repeat split. vm_compute. discriminate. Qed.

(** Exactly which records survive. *)
Lemma reads_back_iff i s o : i < lim60 -> s < 2 -> o < 8 -> (reads_back i s o <-> s = 0 /\ o = 0).
Proof.
  intros Hi Hs Ho. unfold reads_back.
  assert (Hs' : s < N.shiftl 1 63). { apply (N.lt_trans s 2); [exact Hs|reflexivity]. }
  destruct (mk_dof_reads i s o Hi Hs' Ho) as (A & B & C). rewrite A, B, C. split.
  - intros (H1 & _ & H3). destruct (N.eqb_spec s 0) as [E|E]; [|discriminate]. split; auto.
    rewrite lim60_pow in *. simpl in *. lia.
  - intros (-> & ->). repeat split. rewrite N.mul_0_l, N.add_0_r. reflexivity.
Qed.

(** Vector dofs. *)
Definition vdof_number (o : ordering) (num_nodes components i c : N) : N :=
  dof_index (get_vdof o num_nodes components (mk_dof i 0 0) c).

Lemma vdof_number_eq o nn nc i c : i < nn -> c < nc -> nn * nc <= lim60 ->
  vdof_number o nn nc i c = match o with byNODES => c * nn + i | byVDIM => i * nc + c end.
Proof.
  intros Hi Hc Hb. assert (i < lim60) by nia.
  destruct (plain_round_trip i H) as (E1 & E2 & E3).
  unfold vdof_number, get_vdof. rewrite E1, E2, E3. cbn [Z.eqb Pos.eqb].
  destruct o; apply plain_round_trip; nia.
Qed.

Lemma vdof_bijection o nn nc : nn * nc <= lim60 ->
  (forall i c, i < nn -> c < nc -> vdof_number o nn nc i c < nn * nc) /\
  (forall i c i' c', i < nn -> c < nc -> i' < nn -> c' < nc ->
     vdof_number o nn nc i c = vdof_number o nn nc i' c' -> i = i' /\ c = c') /\
  (forall k, k < nn * nc -> exists i c, i < nn /\ c < nc /\ vdof_number o nn nc i c = k).
Proof.
  intros Hb. split; [|split].
  - intros i c Hi Hc. rewrite vdof_number_eq by auto. destruct o; nia.
  - intros i c i' c' Hi Hc Hi' Hc'. rewrite !vdof_number_eq by auto. destruct o; intros E.
    + assert (c = c') by nia. subst. lia.
    + assert (i = i') by nia. subst. lia.
  - intros k Hk. destruct o.
    + assert (nn <> 0) by nia. exists (k mod nn), (k / nn).
      pose proof (N.mod_lt k nn H). pose proof (N.div_mod k nn H).
      assert (k / nn < nc) by (apply N.div_lt_upper_bound; lia).
      split; auto. split; auto. rewrite vdof_number_eq by auto. lia.
    + assert (nc <> 0) by nia. exists (k / nc), (k mod nc).
      pose proof (N.mod_lt k nc H). pose proof (N.div_mod k nc H).
      assert (k / nc < nn) by (apply N.div_lt_upper_bound; lia).
      split; auto. split; auto. rewrite vdof_number_eq by auto. lia.
Qed.

(** MFEM encodes a reversed H(curl) dof d as -1-d; the restriction stores it unchecked
    (element_restriction.cpp:253-255, 365-367), and reading it back as a vector index gives -1-d. *)
Lemma reversed_dof_index d : (0 <= d < Z.of_N (N.shiftl 1 31))%Z ->
  to_int (dof_index (mk_dof (of_int (-1 - d)) 1 0)) = (-1 - d)%Z.
Proof.
  intros Hd. change (Z.of_N (N.shiftl 1 31)) with 2147483648%Z in Hd.
  assert (E : of_int (-1 - d) = Z.to_N (18446744073709551615 - d)).
  { unfold of_int. f_equal. change (Z.of_N two64) with 18446744073709551616%Z.
    replace (-1 - d)%Z with (18446744073709551615 - d + (-1) * 18446744073709551616)%Z by lia.
    rewrite Z_mod_plus_full. apply Z.mod_small. lia. }
  assert (F : mk_dof (of_int (-1 - d)) 1 0 = Z.to_N (18446744073709551615 - d)).
  { unfold mk_dof. rewrite E. change (N.land 1 (N.shiftl 1 63)) with 0.
    change (N.shiftl (N.land 0 7) 60) with 0. rewrite !N.add_0_l. apply N.mod_small.
    change two64 with 18446744073709551616. lia. }
  rewrite F. unfold dof_index, index_mask. rewrite N.land_ones, N.mod_small
    by (change (2 ^ 64) with 18446744073709551616; lia).
  unfold to_int. change (N.shiftl 1 32) with 4294967296. change (N.shiftl 1 31) with 2147483648.
  change (Z.of_N 2147483648) with 2147483648%Z. change (Z.of_N 4294967296) with 4294967296%Z.
  rewrite N2Z.inj_mod, Z2N.id by lia. change (Z.of_N 4294967296) with 4294967296%Z.
  replace (18446744073709551615 - d)%Z with (4294967295 - d + 4294967295 * 4294967296)%Z by lia.
  rewrite Z_mod_plus_full, Z.mod_small by lia.
  destruct (Z.ltb_spec (4294967295 - d) 2147483648); lia.
Qed.

(** The uniaxial test of the linear isotropic material, and a material for which ten Newton steps do not suffice (C66) *)
From Coq Require Import Reals Lra Lia List.
From Verif Require Import Sums Tensor LU MatAlg Materials MaterialTest.
Import ListNotations.
Local Open Scope R_scope.

Section Affine.
Context {St : Type} (material : R -> St -> mat -> option (mat * St)) (slope : R -> St -> mat -> mat) (epsilon : R -> R).
(** the lateral stresses of the material are affine in the lateral strains, with an invertible slope *)
Definition affine_laterally : Prop := forall t st, exists (c : vec) (J : mat), det2 J <> 0 /\
  forall x, exists s st', material t st (normal_strains (epsilon t) x) = Some (s, st') /\
    (forall i, (i < 2)%nat -> lateral s i = c i + mvec 2 J x i) /\ meq 2 (slope t st (normal_strains (epsilon t) x)) J.

Theorem affine_uniaxial t_max n st : affine_laterally -> exists h, uniaxial_test material slope epsilon t_max n st = Some h /\
  forall t H s st', In (t, H, s, st') h -> length_of 2 (lateral s) < root_tolerance.
Proof.
  intros A. unfold uniaxial_test. generalize 0 (spacing t_max n) (fun _ : nat => 0). revert st.
  induction n as [|n IH]; intros st t dt g; cbn [uniaxial_loop]; [exists []; split; [reflexivity|intros ? ? ? ? []]|].
  destruct (A t st) as [c [J [D F]]].
  destruct (affine_root (lateral_stress material slope epsilon t st) c J g D) as [y [r [J' [-> [E L]]]]].
  { intros x. destruct (F x) as [s [st' [Em [H1 H2]]]]. unfold lateral_stress. rewrite Em. now exists (lateral s), (slope t st (normal_strains (epsilon t) x)). }
  unfold lateral_stress in E. cbv zeta. destruct (material t st (normal_strains (epsilon t) y)) as [[s st']|]; [|discriminate].
  destruct (IH st' (t + dt) dt y) as [h [-> Hh]]. eexists; split; [reflexivity|].
  intros t' H s' st'' [X|X]; [|now apply (Hh t' H s' st'')]. inversion X; subst. inversion E; subst. exact L.
Qed.
End Affine.

(** solid_material.hpp:37-44 as a material without state *)
Definition linear_material (K G : R) : R -> unit -> mat -> option (mat * unit) := fun _ st H => Some (linear_isotropic 3 K G H, st).
Definition linear_slope (K G : R) : R -> unit -> mat -> mat := fun _ _ _ i j => if Nat.eqb i j then lame K G + 2 * G else lame K G.

Lemma linear_normal K G e x i : (i < 3)%nat -> linear_isotropic 3 K G (normal_strains e x) i i =
  lame K G * (e + x 0%nat + x 1%nat) + 2 * G * (match i with O => e | 1%nat => x 0%nat | _ => x 1%nat end).
Proof.
  intros Hi. unfold linear_isotropic, iso_stress, madd, mscal, ident, small_strain, transpose, tr, madd, mscal.
  rewrite PeanoNat.Nat.eqb_refl. cbn [sumn]. destruct i as [|[|[|i]]]; try lia; cbn [normal_strains]; lra.
Qed.

Lemma linear_affine K G epsilon : 0 < K -> 0 < G -> affine_laterally (linear_material K G) (linear_slope K G) epsilon.
Proof.
  intros HK HG t st. exists (fun _ => lame K G * epsilon t), (linear_slope K G t st ident). split.
  - unfold det2, linear_slope. cbn [Nat.eqb]. replace (_ - _) with (4 * G * (lame K G + G)) by ring. unfold lame.
    assert (0 < G * (K - 2 / 3 * G + G)) by (apply Rmult_lt_0_compat; lra). lra.
  - intros x. exists (linear_isotropic 3 K G (normal_strains (epsilon t) x)), st. split; [reflexivity|]. split.
    + intros i Hi. unfold mvec. rewrite sumn2. unfold lateral, linear_slope.
      destruct i as [|[|i]]; try lia; rewrite linear_normal by lia; cbn [Nat.eqb]; ring.
    + intros i j _ _. reflexivity.
Qed.

Lemma sqrt_bound a b : length_of 2 (fun i => match i with O => a | _ => b end) < root_tolerance -> Rabs a <= root_tolerance /\ Rabs b <= root_tolerance.
Proof.
  unfold length_of. rewrite sumn2. intros L.
  assert (A := Rle_0_sqr a). assert (B := Rle_0_sqr b). unfold Rsqr in *.
  assert (X : sqrt (a * a) <= sqrt (a * a + b * b)) by (apply sqrt_le_1; lra).
  assert (Y : sqrt (b * b) <= sqrt (a * a + b * b)) by (apply sqrt_le_1; lra).
  rewrite <- (sqrt_Rsqr_abs a), <- (sqrt_Rsqr_abs b). unfold Rsqr. lra.
Qed.

(** Young's modulus and Poisson's ratio *)
Definition young (K G : R) : R := 9 * K * G / (3 * K + G).
Definition poisson (K G : R) : R := (3 * K - 2 * G) / (2 * (3 * K + G)).

Lemma Rabs_def2_le x b : Rabs x <= b -> - b <= x <= b.
Proof. unfold Rabs. destruct (Rcase_abs x); lra. Qed.

Lemma abs_le x b : - b <= x <= b -> Rabs x <= b.
Proof. intros [A B]. apply Rabs_le. lra. Qed.

Lemma hooke K G e x : 0 < K -> 0 < G -> length_of 2 (lateral (linear_isotropic 3 K G (normal_strains e x))) < root_tolerance ->
  Rabs (linear_isotropic 3 K G (normal_strains e x) 0%nat 0%nat - young K G * e) <= 2 * root_tolerance /\
  (forall i, (i < 2)%nat -> Rabs (x i + poisson K G * e) <= 2 * root_tolerance / G).
Proof.
  intros HK HG L.
  assert (L' : length_of 2 (fun i => match i with O => linear_isotropic 3 K G (normal_strains e x) 1%nat 1%nat | _ => linear_isotropic 3 K G (normal_strains e x) 2%nat 2%nat end) < root_tolerance).
  { unfold length_of in *. rewrite sumn2 in *. exact L. }
  clear L. apply sqrt_bound in L'. rewrite !linear_normal in L' by lia. rewrite linear_normal by lia.
  set (l := lame K G) in *. set (a := x 0%nat) in *. set (b := x 1%nat) in *.
  set (sy := l * (e + a + b) + 2 * G * a) in *. set (sz := l * (e + a + b) + 2 * G * b) in *.
  assert (P : 0 < root_tolerance) by (unfold root_tolerance; apply Rinv_0_lt_compat, pow_lt; lra). set (d := root_tolerance) in *.
  destruct L' as [Ly Lz].
  assert (Sy : - d <= sy <= d) by (apply Rabs_def2_le; exact Ly). assert (Sz : - d <= sz <= d) by (apply Rabs_def2_le; exact Lz).
  assert (M : 0 < 3 * K + G) by lra.
  assert (El : l = (3 * K - 2 * G) / 3) by (unfold l, lame; field).
  (* the axial stress *)
  assert (E1 : l * (e + a + b) + 2 * G * e - young K G * e = (3 * K - 2 * G) / (2 * (3 * K + G)) * (sy + sz)).
  { unfold young, sy, sz. rewrite El. field. lra. }
  assert (Q : -1 <= (3 * K - 2 * G) / (2 * (3 * K + G)) <= 1 / 2).
  { split; apply (Rmult_le_reg_r (2 * (3 * K + G))); try lra; unfold Rdiv at 1; rewrite ?Rmult_assoc, ?Rinv_l by lra; lra. }
  split.
  - rewrite E1. rewrite Rabs_mult. assert (A1 : Rabs ((3 * K - 2 * G) / (2 * (3 * K + G))) <= 1) by (apply abs_le; lra).
    assert (A2 : Rabs (sy + sz) <= 2 * d) by (apply abs_le; lra).
    assert (A3 := Rabs_pos (sy + sz)). assert (A4 := Rabs_pos ((3 * K - 2 * G) / (2 * (3 * K + G)))).
    apply Rle_trans with (1 * Rabs (sy + sz)); [apply Rmult_le_compat_r; lra|lra].
  - (* the lateral strains *)
    assert (Ba : a + poisson K G * e = (3 / (4 * (3 * K + G))) * (sy + sz) + (1 / (4 * G)) * (sy - sz)).
    { unfold poisson, sy, sz. rewrite El. field. lra. }
    assert (Bb : b + poisson K G * e = (3 / (4 * (3 * K + G))) * (sy + sz) - (1 / (4 * G)) * (sy - sz)).
    { unfold poisson, sy, sz. rewrite El. field. lra. }
    assert (F : 0 <= 3 / (4 * (3 * K + G)) <= 3 / (4 * G)).
    { split; [apply Rlt_le, Rdiv_lt_0_compat; lra|]. unfold Rdiv. apply Rmult_le_compat_l; [lra|]. apply Rinv_le_contravar; lra. }
    assert (F' : 0 < 1 / (4 * G)) by (apply Rdiv_lt_0_compat; lra).
    assert (T : 2 * d / G = 3 / (4 * G) * (2 * d) + 1 / (4 * G) * (2 * d)) by (field; lra).
    assert (U1 : Rabs (3 / (4 * (3 * K + G)) * (sy + sz)) <= 3 / (4 * G) * (2 * d)).
    { rewrite Rabs_mult, (Rabs_pos_eq (3 / (4 * (3 * K + G)))) by lra. apply Rmult_le_compat; [lra|apply Rabs_pos|lra|apply abs_le; lra]. }
    assert (U2 : Rabs (1 / (4 * G) * (sy - sz)) <= 1 / (4 * G) * (2 * d)).
    { rewrite Rabs_mult, (Rabs_pos_eq (1 / (4 * G))) by lra. apply Rmult_le_compat_l; [lra|apply abs_le; lra]. }
    intros i Hi. destruct i as [|[|i]]; try lia.
    + change (x 0%nat) with a. rewrite Ba, T. eapply Rle_trans; [apply Rabs_triang|lra].
    + change (x 1%nat) with b. rewrite Bb, T. unfold Rminus at 1. eapply Rle_trans; [apply Rabs_triang|]. rewrite Rabs_Ropp. lra.
Qed.

Theorem linear_uniaxial K G epsilon t_max n : 0 < K -> 0 < G ->
  exists h, uniaxial_test (linear_material K G) (linear_slope K G) epsilon t_max n tt = Some h /\ length h = n /\
  forall i t H s st, nth_error h i = Some (t, H, s, st) -> t = INR i * (t_max / INR (n - 1)) /\
    H 0%nat 0%nat = epsilon t /\ Rabs (s 0%nat 0%nat - young K G * epsilon t) <= 2 * root_tolerance /\
    forall j, (1 <= j < 3)%nat -> Rabs (H j j + poisson K G * epsilon t) <= 2 * root_tolerance / G.
Proof.
  intros HK HG. destruct (affine_uniaxial _ _ epsilon t_max n tt (linear_affine K G epsilon HK HG)) as [h [E L]].
  exists h. split; [exact E|]. unfold uniaxial_test in E.
  destruct (uniaxial_loop_entries _ _ _ _ _ _ _ _ _ E) as [Len K']. split; [exact Len|].
  intros i t H s st He. destruct (K' i _ He) as [H1 [b [g [x [Hb [H2 [H3 H4]]]]]]]. cbn [fst snd] in *. rewrite Rplus_0_l in *.
  fold (spacing t_max n). rewrite <- H1 in *. split; [reflexivity|]. unfold linear_material in H4. injection H4 as H4 _.
  assert (Q := L t H s st (nth_error_In h i He)). rewrite H3 in *. rewrite <- H4 in *. split; [reflexivity|].
  destruct (hooke K G (epsilon t) x HK HG Q) as [A B]. split; [exact A|].
  intros j Hj. destruct j as [|[|[|j]]]; try lia; [exact (B 0%nat ltac:(lia))|exact (B 1%nat ltac:(lia))].
Qed.

(** ** a material whose lateral stress vanishes at a lateral strain the test does not reach *)
Definition slow_material : R -> unit -> mat -> option (mat * unit) := fun _ st H =>
  Some ((fun i j => match i, j with 1%nat, 1%nat => (H 1%nat 1%nat - 1) ^ 2 | 2%nat, 2%nat => H 2%nat 2%nat | _, _ => 0 end), st).
Definition slow_slope : R -> unit -> mat -> mat := fun _ _ H i j =>
  match i, j with O, O => 2 * (H 1%nat 1%nat - 1) | S O, S O => 1 | _, _ => 0 end.

Lemma slow_lateral t x : lateral_stress slow_material slow_slope (fun _ => 0) t tt x =
  Some (lateral (fun i j => match i, j with 1%nat, 1%nat => (x 0%nat - 1) ^ 2 | 2%nat, 2%nat => x 1%nat | _, _ => 0 end),
        slow_slope t tt (normal_strains 0 x)).
Proof. reflexivity. Qed.

Lemma lim_ext f g x l : (forall h, f h = g h) -> derivable_pt_lim f x l -> derivable_pt_lim g x l.
Proof. intros E H eps He. destruct (H eps He) as [d Hd]. exists d. intros h Hh Hl. rewrite <- !E. now apply Hd. Qed.

Lemma half_pow k : (k <= 10)%nat -> / 2 ^ 10 <= / 2 ^ k.
Proof. intros H. apply Rinv_le_contravar; [apply pow_lt; lra|]. apply Rle_pow; [lra|exact H]. Qed.

Lemma slow_loop t : forall k j x, (j + k <= 10)%nat -> x 0%nat = 1 - / 2 ^ j -> x 1%nat = 0 ->
  exists y, newton_loop 2 (lateral_stress slow_material slow_slope (fun _ => 0) t tt) k x = Some y /\ y 0%nat = 1 - / 2 ^ (j + k) /\ y 1%nat = 0.
Proof.
  assert (T : root_tolerance < / 2 ^ 20).
  { unfold root_tolerance. apply Rinv_lt_contravar; [apply Rmult_lt_0_compat; apply pow_lt; lra|]. simpl. lra. }
  induction k as [|k IH]; intros j x Hj H0 H1; cbn [newton_loop].
  - exists x. rewrite PeanoNat.Nat.add_0_r. split; [reflexivity|split; [exact H0|exact H1]].
  - rewrite slow_lateral. set (w := / 2 ^ j) in *. assert (W := half_pow j ltac:(lia)). fold w in W.
    assert (W0 : 0 < / 2 ^ 10) by (apply Rinv_0_lt_compat, pow_lt; lra).
    match goal with |- context [Rlt_dec (length_of 2 ?r) _] => set (r0 := r) end.
    assert (R0 : r0 0%nat = w * w) by (unfold r0, lateral; rewrite H0; ring). assert (R1 : r0 1%nat = 0) by (unfold r0, lateral; exact H1).
    destruct (Rlt_dec (length_of 2 r0) root_tolerance) as [L|L].
    { exfalso. unfold length_of in L. rewrite sumn2, R0, R1 in L. replace (w * w * (w * w) + 0 * 0) with ((w * w) * (w * w)) in L by ring.
      rewrite sqrt_square in L by (apply Rmult_le_pos; lra).
      assert (/ 2 ^ 10 * / 2 ^ 10 <= w * w) by (apply Rmult_le_compat; lra).
      replace (/ 2 ^ 20) with (/ 2 ^ 10 * / 2 ^ 10) in T by (simpl; field). lra. }
    assert (J0 : slow_slope t tt (normal_strains 0 x) 0%nat 0%nat = - 2 * w) by (unfold slow_slope; cbn [normal_strains]; rewrite H0; ring).
    assert (D : det2 (slow_slope t tt (normal_strains 0 x)) <> 0).
    { unfold det2. rewrite J0. unfold slow_slope. lra. }
    destruct (linear_solve_2 _ r0 D) as [d [-> Hd]].
    assert (d0 : d 0%nat = - (w / 2)).
    { assert (E := Hd 0%nat ltac:(lia)). unfold mvec in E. rewrite sumn2, J0, R0 in E. unfold slow_slope in E.
      assert (N : w <> 0) by lra. apply (Rmult_eq_reg_l (- 2 * w)); [lra|lra]. }
    assert (d1 : d 1%nat = 0).
    { assert (E := Hd 1%nat ltac:(lia)). unfold mvec in E. rewrite sumn2, R1 in E. unfold slow_slope in E. lra. }
    assert (Q : / 2 ^ S j = w / 2) by (unfold w; simpl; field; apply pow_nonzero; lra).
    destruct (IH (S j) (fun i => x i - d i)) as [y [E [Hy Hy1]]]; [lia|rewrite H0, d0, Q; lra|rewrite H1, d1; ring|].
    exists y. split; [exact E|]. split; [|exact Hy1]. rewrite Hy. now replace (S j + k)%nat with (j + S k)%nat by lia.
Qed.

Lemma slow_total t : forall k x w, w <> 0 -> x 0%nat = 1 - w -> x 1%nat = 0 ->
  exists y, newton_loop 2 (lateral_stress slow_material slow_slope (fun _ => 0) t tt) k x = Some y.
Proof.
  induction k as [|k IH]; intros x w Nw H0 H1; cbn [newton_loop]; [now exists x|]. rewrite slow_lateral.
  match goal with |- context [Rlt_dec (length_of 2 ?r) _] => set (r0 := r) end.
  assert (R0 : r0 0%nat = w * w) by (unfold r0, lateral; rewrite H0; ring). assert (R1 : r0 1%nat = 0) by (unfold r0, lateral; exact H1).
  destruct (Rlt_dec (length_of 2 r0) root_tolerance) as [L|L]; [now exists x|].
  assert (J0 : slow_slope t tt (normal_strains 0 x) 0%nat 0%nat = - 2 * w) by (unfold slow_slope; cbn [normal_strains]; rewrite H0; ring).
  assert (D : det2 (slow_slope t tt (normal_strains 0 x)) <> 0).
  { unfold det2. rewrite J0. unfold slow_slope. lra. }
  destruct (linear_solve_2 _ r0 D) as [d [-> Hd]].
  apply (IH _ (w / 2)); [lra| |].
  - assert (E := Hd 0%nat ltac:(lia)). unfold mvec in E. rewrite sumn2, J0, R0 in E. unfold slow_slope in E.
    assert (d 0%nat = - (w / 2)); [apply (Rmult_eq_reg_l (- 2 * w)); lra|lra].
  - assert (E := Hd 1%nat ltac:(lia)). unfold mvec in E. rewrite sumn2, R1 in E. unfold slow_slope in E. lra.
Qed.

Theorem uniaxial_inexact : exists (material : R -> unit -> mat -> option (mat * unit)) slope epsilon,
  (forall t x i j, (i < 2)%nat -> (j < 2)%nat -> forall s,
     option_map fst (lateral_stress material slope epsilon t tt x) = Some s ->
     exists J, option_map snd (lateral_stress material slope epsilon t tt x) = Some J /\
       derivable_pt_lim (fun h => match lateral_stress material slope epsilon t tt (fun m => x m + if Nat.eqb m j then h else 0) with
                                  | Some (r, _) => r i | None => 0 end) 0 (J i j)) /\
  (forall t, exists x s, lateral_stress material slope epsilon t tt x = Some s /\ forall i, (i < 2)%nat -> fst s i = 0) /\
  exists h t H s st, uniaxial_test material slope epsilon 1 2 tt = Some h /\ nth_error h 0 = Some (t, H, s, st) /\ root_tolerance < length_of 2 (lateral s).
Proof.
  exists slow_material, slow_slope, (fun _ => 0). split; [|split].
  - intros t x i j Hi Hj s _. rewrite slow_lateral. eexists. split; [reflexivity|]. cbn [option_map snd].
    apply (lim_ext (fun h => match i with O => (x 0%nat + (if Nat.eqb 0 j then h else 0) - 1) ^ 2 | _ => x 1%nat + (if Nat.eqb 1 j then h else 0) end)).
    { intros h. rewrite slow_lateral. destruct i as [|[|i]]; [reflexivity|reflexivity|lia]. }
    destruct i as [|[|i]], j as [|[|j]]; try lia; cbn [Nat.eqb slow_slope normal_strains].
    + intros eps He. exists (mkposreal eps He). intros h Hh Hd. cbn in Hd.
      replace (_ - 2 * (x 0%nat - 1)) with h; [exact Hd|]. field. exact Hh.
    + intros eps He. exists (mkposreal eps He). intros h Hh Hd.
      replace (_ - 0) with 0; [rewrite Rabs_R0; exact He|]. field. exact Hh.
    + intros eps He. exists (mkposreal eps He). intros h Hh Hd.
      replace (_ - 0) with 0; [rewrite Rabs_R0; exact He|]. field. exact Hh.
    + intros eps He. exists (mkposreal eps He). intros h Hh Hd.
      replace (_ - 1) with 0; [rewrite Rabs_R0; exact He|]. field. exact Hh.
  - intros t. exists (fun i => match i with O => 1 | _ => 0 end). rewrite slow_lateral. eexists. split; [reflexivity|].
    intros i Hi. destruct i as [|[|i]]; try lia; cbn [fst lateral]; ring.
  - unfold uniaxial_test. cbn [uniaxial_loop]. unfold find_root.
    destruct (slow_loop 0 10 0 (fun _ => 0) ltac:(lia) ltac:(simpl; lra) eq_refl) as [y [-> [Hy H1]]]. cbv zeta. cbn [slow_material].
    destruct (slow_total (0 + spacing 1 2) 10 y (/ 2 ^ 10)) as [z ->]; [|exact Hy|exact H1|].
    { apply Rgt_not_eq, Rinv_0_lt_compat, pow_lt; lra. }
    do 5 eexists. split; [reflexivity|]. split; [reflexivity|].
    unfold length_of. rewrite sumn2. cbn [lateral normal_strains]. rewrite Hy, H1.
    replace ((1 - / 2 ^ (0 + 10) - 1) ^ 2 * (1 - / 2 ^ (0 + 10) - 1) ^ 2 + 0 * 0) with (/ 2 ^ 20 * / 2 ^ 20) by (simpl; field).
    rewrite sqrt_square by (apply Rlt_le, Rinv_0_lt_compat, pow_lt; lra).
    unfold root_tolerance. apply Rinv_lt_contravar; [apply Rmult_lt_0_compat; apply pow_lt; lra|]. simpl. lra.
Qed.

(** * Edge elements on hexahedra: interpolation and integration; element matrices (C62) *)
From Coq Require Import Reals Lra Lia List Arith.
From Verif Require Import Sums Quadrature ShapeDefs ShapeFacts ShapeTensor SumFactor Hcurl HcurlSum.
Import ListNotations.
Local Open Scope R_scope.

Lemma pull3 na nb nc (F : nat -> nat -> nat -> R) (f g h : nat -> R) :
  sumn na (fun a => sumn nb (fun b => sumn nc (fun c => F a b c * h c) * g b) * f a) = sumn na (fun a => sumn nb (fun b => sumn nc (fun c => F a b c * (h c * g b * f a)))).
Proof.
  apply sumn_ext. intros a _. rewrite <- sumn_scal_r. apply sumn_ext. intros b _. rewrite <- !sumn_scal_r. apply sumn_ext. intros c0 _. ring.
Qed.
Lemma rotate n1 n2 n3 (F : nat -> nat -> nat -> R) :
  sumn n3 (fun i => sumn n1 (fun k => sumn n2 (fun j => F k j i))) = sumn n1 (fun k => sumn n2 (fun j => sumn n3 (fun i => F k j i))).
Proof.
  transitivity (sumn n1 (fun k => sumn n3 (fun i => sumn n2 (fun j => F k j i)))); [apply (sumn_swap n3 n1 (fun i k => sumn n2 (fun j => F k j i)))|].
  apply sumn_ext. intros k _. apply (sumn_swap n3 n2 (fun i j => F k j i)).
Qed.
Lemma hx_interp s p t u Q : (p <= 3)%nat -> (Q < length t * length t * length t)%nat ->
  let pt := snd (nth Q (cube_rule (lift1 t)) (0, [])) in
  hx_interpolate s p t u Q = ([hx_field s p u 0 pt; hx_field s p u 1 pt; hx_field s p u 2 pt], [hx_field_curl s p u 0 pt; hx_field_curl s p u 1 pt; hx_field_curl s p u 2 pt]).
Proof.
  intros Hp HQ. destruct (split3 _ _ HQ) as [Hz [Hy [Hx E]]]. cbv zeta.
  set (qx := (Q mod length t)%nat) in *. set (qy := ((Q / length t) mod length t)%nat) in *. set (qz := (Q / length t / length t)%nat) in *.
  replace (nth Q (cube_rule (lift1 t)) (0, [])) with (wq t qx * wq t qy * wq t qz, [xq t qx; xq t qy; xq t qz]) by (rewrite E; symmetry; apply cube_at; assumption).
  cbn [snd]. destruct (hx_field_at s p Hp u (xq t qx) (xq t qy) (xq t qz)) as [-> [-> ->]]. destruct (hx_field_curl_at s p Hp u (xq t qx) (xq t qy) (xq t qz)) as [-> [-> ->]].
  unfold hx_interpolate, contract3, entry. cbv zeta. fold qx qy qz. set (x := xq t qx). set (y := xq t qy). set (z := xq t qz).
  assert (X : forall f g : nat -> R, sumn (p + 1) (fun l => sumn (p + 1) (fun l0 => sumn p (fun l1 => d3x u l l0 l1 * calculate_B1 p false t qx l1) * g l0) * f l) =
              xs p (fun k j i => d3x u k j i * (o p i x * g j * f k))) by (intros f g; apply pull3).
  assert (Y : forall f g : nat -> R, sumn (p + 1) (fun l => sumn (p + 1) (fun l0 => sumn p (fun l1 => d3y u l0 l1 l * calculate_B1 p false t qy l1) * g l0) * f l) =
              ys p (fun k j i => d3y u k j i * (f i * o p j y * g k))).
  { intros f g. rewrite (pull3 (p + 1) (p + 1) p (fun a b c => d3y u b c a)). rewrite (rotate (p + 1) p (p + 1) (fun k j i => d3y u k j i * (calculate_B1 p false t qy j * g k * f i))).
    apply sum3_ext. intros k j i _ _ _. rewrite B1_at. fold y. ring. }
  assert (Z : forall f g : nat -> R, sumn (p + 1) (fun l => sumn (p + 1) (fun l0 => sumn p (fun l1 => d3z u l1 l l0 * calculate_B1 p false t qz l1) * g l0) * f l) =
              zs p (fun k j i => d3z u k j i * (g i * f j * o p k z))).
  { intros f g. rewrite (pull3 (p + 1) (p + 1) p (fun a b c => d3z u c a b)). rewrite <- (rotate (p + 1) (p + 1) p (fun a b c => d3z u c a b * (calculate_B1 p false t qz c * g b * f a))).
    apply sum3_ext. intros k j i _ _ _. rewrite B1_at. fold z. ring. }
  rewrite !X, !Y, !Z. unfold Rminus. rewrite !Rplus_0_l. reflexivity.
Qed.
Lemma hx_split p k : (k < hx_ndof p)%nat -> let m := ((p + 1) * (p + 1) * p)%nat in
  (exists a b d, (a < p + 1)%nat /\ (b < p + 1)%nat /\ (d < p)%nat /\ k = ((a * (p + 1) + b) * p + d)%nat) \/
  (exists a b d, (a < p + 1)%nat /\ (b < p)%nat /\ (d < p + 1)%nat /\ k = (m + ((a * p + b) * (p + 1) + d))%nat) \/
  (exists a b d, (a < p)%nat /\ (b < p + 1)%nat /\ (d < p + 1)%nat /\ k = (m + (m + ((a * (p + 1) + b) * (p + 1) + d)))%nat).
Proof.
  intros H m. unfold hx_ndof in H. assert (P : (p <> 0)%nat) by nia. replace (3 * p * (p + 1) * (p + 1))%nat with (m + (m + m))%nat in H by (unfold m; ring).
  assert (S : forall n1 n2 n3 r, (n1 <> 0)%nat -> (n2 <> 0)%nat -> (r < n3 * n2 * n1)%nat -> exists a b d, (a < n3)%nat /\ (b < n2)%nat /\ (d < n1)%nat /\ r = ((a * n2 + b) * n1 + d)%nat).
  { intros n1 n2 n3 r N1 N2 L. exists (r / n1 / n2)%nat, ((r / n1) mod n2)%nat, (r mod n1)%nat.
    split; [apply Nat.div_lt_upper_bound; [exact N2|]; apply Nat.div_lt_upper_bound; [exact N1|]; lia|].
    split; [now apply Nat.mod_upper_bound|]. split; [now apply Nat.mod_upper_bound|].
    pose proof (Nat.div_mod r n1 N1). pose proof (Nat.div_mod (r / n1) n2 N2). nia. }
  destruct (Nat.lt_ge_cases k m) as [L|L]; [|destruct (Nat.lt_ge_cases k (m + m)) as [L'|L']].
  - left. apply S; [exact P|lia|unfold m in L; lia].
  - right. left. destruct (S (p + 1) p (p + 1) (k - m))%nat as [a [b [d [A [B [C EQ]]]]]]; [lia|exact P|unfold m in *; nia|]. exists a, b, d. repeat split; try assumption. lia.
  - right. right. destruct (S (p + 1) (p + 1) p (k - m - m))%nat as [a [b [d [A [B [C EQ]]]]]]; [lia|lia|unfold m in *; nia|]. exists a, b, d. repeat split; try assumption. lia.
Qed.
Lemma hx_integ s p t src flx res k : (p <= 3)%nat -> (k < hx_ndof p)%nat ->
  flat_hx p (hx_integrate s p t src flx res) k = flat_hx p res k + hx_tested s p (cube_rule (lift1 t)) src flx k.
Proof.
  intros Hp Hk. unfold hx_tested. rewrite cube_length, sumn_mul3. set (q := length t).
  destruct (hx_split p k Hk) as [[a [b [d [A [B [C ->]]]]]]|[[a [b [d [A [B [C ->]]]]]]|[a [b [d [A [B [C ->]]]]]]]].
  - rewrite !flat_hx_x by assumption. unfold hx_integrate. cbn [d3x]. f_equal. unfold contract3, entry. cbv zeta. fold q.
    transitivity (sumn q (fun qx => sumn q (fun qy => sumn q (fun qz => 
      ((src ((qz * q + qy) * q + qx)%nat 0%nat * c s p a (xq t qz) + flx ((qz * q + qy) * q + qx)%nat 1%nat * dc s p a (xq t qz)) * c s p b (xq t qy)
       - flx ((qz * q + qy) * q + qx)%nat 2%nat * c s p a (xq t qz) * dc s p b (xq t qy)) * o p d (xq t qx) * (wq t qx * wq t qy * wq t qz))))).
    + apply sumn_ext. intros qx Hx. rewrite <- sumn_minus, <- sumn_scal_r. apply sumn_ext. intros qy Hy. rewrite <- sumn_plus, <- !sumn_scal_r, <- sumn_minus, <- sumn_scal_r. apply sumn_ext. intros qz Hz.
      rewrite weighted_B1, !weighted_B2, !weighted_G2. ring.
    + rewrite (sumn_swap q q). rewrite <- (rotate q q q (fun qy qx qz => ((src ((qz * q + qy) * q + qx)%nat 0%nat * c s p a (xq t qz) + flx ((qz * q + qy) * q + qx)%nat 1%nat * dc s p a (xq t qz)) * c s p b (xq t qy)
       - flx ((qz * q + qy) * q + qx)%nat 2%nat * c s p a (xq t qz) * dc s p b (xq t qy)) * o p d (xq t qx) * (wq t qx * wq t qy * wq t qz))).
      apply sum3_ext. intros qz qy qx Hz Hy Hx. pose proof (cube_at t qz qy qx Hz Hy Hx) as CU. fold q in CU. rewrite CU. cbn [fst snd sumn]. rewrite hx_shape_x, hx_curl_x by assumption. cbn [nth]. ring.
  - rewrite !flat_hx_y by assumption. unfold hx_integrate. cbn [d3y]. f_equal. unfold contract3, entry. cbv zeta. fold q.
    transitivity (sumn q (fun qy => sumn q (fun qz => sumn q (fun qx =>
      ((src ((qz * q + qy) * q + qx)%nat 1%nat * c s p d (xq t qx) + flx ((qz * q + qy) * q + qx)%nat 2%nat * dc s p d (xq t qx)) * c s p a (xq t qz)
       - flx ((qz * q + qy) * q + qx)%nat 0%nat * c s p d (xq t qx) * dc s p a (xq t qz)) * o p b (xq t qy) * (wq t qx * wq t qy * wq t qz))))).
    + apply sumn_ext. intros qy Hy. rewrite <- sumn_minus, <- sumn_scal_r. apply sumn_ext. intros qz Hz. rewrite <- sumn_plus, <- !sumn_scal_r, <- sumn_minus, <- sumn_scal_r. apply sumn_ext. intros qx Hx.
      rewrite weighted_B1, !weighted_B2, !weighted_G2. ring.
    + rewrite (sumn_swap q q). apply sum3_ext. intros qz qy qx Hz Hy Hx. pose proof (cube_at t qz qy qx Hz Hy Hx) as CU. fold q in CU. rewrite CU. cbn [fst snd sumn]. rewrite hx_shape_y, hx_curl_y by assumption. cbn [nth]. ring.
  - rewrite !flat_hx_z by assumption. unfold hx_integrate. cbn [d3z]. f_equal. unfold contract3, entry. cbv zeta. fold q.
    transitivity (sumn q (fun qz => sumn q (fun qx => sumn q (fun qy =>
      ((src ((qz * q + qy) * q + qx)%nat 2%nat * c s p b (xq t qy) + flx ((qz * q + qy) * q + qx)%nat 0%nat * dc s p b (xq t qy)) * c s p d (xq t qx)
       - flx ((qz * q + qy) * q + qx)%nat 1%nat * c s p b (xq t qy) * dc s p d (xq t qx)) * o p a (xq t qz) * (wq t qx * wq t qy * wq t qz))))).
    + apply sumn_ext. intros qz Hz. rewrite <- sumn_minus, <- sumn_scal_r. apply sumn_ext. intros qx Hx. rewrite <- sumn_plus, <- !sumn_scal_r, <- sumn_minus, <- sumn_scal_r. apply sumn_ext. intros qy Hy.
      rewrite weighted_B1, !weighted_B2, !weighted_G2. ring.
    + apply sumn_ext. intros qz Hz. rewrite sumn_swap. apply sumn_ext. intros qy Hy. apply sumn_ext. intros qx Hx. pose proof (cube_at t qz qy qx Hz Hy Hx) as CU. fold q in CU. rewrite CU. cbn [fst snd sumn]. rewrite hx_shape_z, hx_curl_z by assumption. cbn [nth]. ring.
Qed.
Lemma hx_applied s p t j D Q : (p <= 3)%nat -> (j < hx_ndof p)%nat -> (Q < length t * length t * length t)%nat ->
  let pt := snd (nth Q (cube_rule (lift1 t)) (0, [])) in let r := hx_chain (D Q) (nth j (hx_shape s p pt) [], nth j (hx_curl s p pt) []) in
  (forall a, fst (hx_apply s p t j D Q) a = fst r a) /\ (forall a, snd (hx_apply s p t j D Q) a = snd r a).
Proof.
  intros Hp Hj HQ. destruct (split3 _ _ HQ) as [Hz [Hy [Hx E]]]. cbv zeta.
  set (qx := (Q mod length t)%nat) in *. set (qy := ((Q / length t) mod length t)%nat) in *. set (qz := (Q / length t / length t)%nat) in *.
  replace (nth Q (cube_rule (lift1 t)) (0, [])) with (wq t qx * wq t qy * wq t qz, [xq t qx; xq t qy; xq t qz]) by (rewrite E; symmetry; apply cube_at; assumption).
  cbn [snd]. unfold hx_apply, hx_chain. cbv zeta. fold qx qy qz.
  assert (M : (p * (p + 1) * (p + 1) = (p + 1) * (p + 1) * p)%nat) by lia. rewrite M. set (m := ((p + 1) * (p + 1) * p)%nat) in *.
  destruct (hx_split p j Hj) as [[a [b [d [A [B [C ->]]]]]]|[[a [b [d [A [B [C ->]]]]]]|[a [b [d [A [B [C ->]]]]]]]]; fold m.
  - assert (L : ((a * (p + 1) + b) * p + d < m)%nat) by (unfold m; nia). rewrite (Nat.div_small _ m) by exact L. rewrite (Nat.mod_small _ m) by exact L.
    assert (E1 : (((a * (p + 1) + b) * p + d) mod p = d)%nat) by (apply flat_divmod; exact C).
    assert (F : ((a * (p + 1) + b) * p + d = a * (p * (p + 1)) + (b * p + d))%nat) by ring.
    assert (L2 : (b * p + d < p * (p + 1))%nat) by nia. destruct (flat_divmod (p * (p + 1)) a (b * p + d) L2) as [E2 E3]. rewrite E1, F, E2, E3.
    rewrite (proj1 (flat_divmod p b d C)). rewrite <- F. rewrite hx_shape_x, hx_curl_x by assumption. rewrite !B1_at, !B2_at, !G2_at. cbn [fst snd sumn nth]. split; intros v; ring.
  - assert (L : ((a * p + b) * (p + 1) + d < m)%nat) by (unfold m; nia).
    assert (E0 : ((m + ((a * p + b) * (p + 1) + d)) / m = 1)%nat) by (symmetry; apply (Nat.div_unique _ _ 1 ((a * p + b) * (p + 1) + d)); lia).
    assert (E1 : ((m + ((a * p + b) * (p + 1) + d)) mod m = (a * p + b) * (p + 1) + d)%nat) by (symmetry; apply (Nat.mod_unique _ _ 1 ((a * p + b) * (p + 1) + d)); lia).
    rewrite E0, E1. rewrite (proj2 (flat_divmod (p + 1) (a * p + b) d C)).
    assert (F : ((a * p + b) * (p + 1) + d = a * (p * (p + 1)) + (b * (p + 1) + d))%nat) by ring. assert (L2 : (b * (p + 1) + d < p * (p + 1))%nat) by nia.
    destruct (flat_divmod (p * (p + 1)) a (b * (p + 1) + d) L2) as [E2 E3]. rewrite F, E2, E3. rewrite (proj1 (flat_divmod (p + 1) b d C)). rewrite <- F.
    unfold m. rewrite hx_shape_y, hx_curl_y by assumption. rewrite !B1_at, !B2_at, !G2_at. cbn [fst snd sumn nth]. split; intros v; ring.
  - assert (L : ((a * (p + 1) + b) * (p + 1) + d < m)%nat) by (unfold m; nia).
    assert (E0 : ((m + (m + ((a * (p + 1) + b) * (p + 1) + d))) / m = 2)%nat) by (symmetry; apply (Nat.div_unique _ _ 2 ((a * (p + 1) + b) * (p + 1) + d)); lia).
    assert (E1 : ((m + (m + ((a * (p + 1) + b) * (p + 1) + d))) mod m = (a * (p + 1) + b) * (p + 1) + d)%nat) by (symmetry; apply (Nat.mod_unique _ _ 2 ((a * (p + 1) + b) * (p + 1) + d)); lia).
    rewrite E0, E1. rewrite (proj2 (flat_divmod (p + 1) (a * (p + 1) + b) d C)).
    assert (F : ((a * (p + 1) + b) * (p + 1) + d = a * ((p + 1) * (p + 1)) + (b * (p + 1) + d))%nat) by ring. assert (L2 : (b * (p + 1) + d < (p + 1) * (p + 1))%nat) by nia.
    destruct (flat_divmod ((p + 1) * (p + 1)) a (b * (p + 1) + d) L2) as [E2 E3]. rewrite F, E2, E3. rewrite (proj1 (flat_divmod (p + 1) b d C)). rewrite <- F.
    unfold m. rewrite hx_shape_z, hx_curl_z by assumption. rewrite !B1_at, !B2_at, !G2_at. cbn [fst snd sumn nth]. split; intros v; ring.
Qed.

Lemma flat_zero2 p k : flat_hq p zero2 k = 0.
Proof. unfold flat_hq. cbv zeta. destruct (k <? (p + 1) * p)%nat; reflexivity. Qed.
Lemma flat_zero3 p k : flat_hx p zero3 k = 0.
Proof. unfold flat_hx. cbv zeta. destruct (k <? _)%nat; [reflexivity|]. destruct (k <? _)%nat; reflexivity. Qed.
(** ** integration is the weighted transpose of interpolation *)
Lemma hq_duality s p t src flx v : (p <= 3)%nat ->
  sumn (hq_ndof p) (fun k => flat_hq p v k * flat_hq p (hq_integrate s p t src flx zero2) k) =
  sumn (length t * length t) (fun Q => fst (nth Q (square_rule (lift1 t)) (0, [])) *
    (sumn 2 (fun a => src Q a * nth a (fst (hq_interpolate s p t v Q)) 0) + flx Q * snd (hq_interpolate s p t v Q))).
Proof.
  intros Hp. transitivity (sumn (hq_ndof p) (fun k => sumn (length t * length t) (fun Q => let pt := snd (nth Q (square_rule (lift1 t)) (0, [])) in fst (nth Q (square_rule (lift1 t)) (0, [])) *
     (src Q 0%nat * (flat_hq p v k * nth 0 (nth k (hq_shape s p pt) []) 0) + src Q 1%nat * (flat_hq p v k * nth 1 (nth k (hq_shape s p pt) []) 0) + flx Q * (flat_hq p v k * nth k (hq_curl s p pt) 0))))).
  { apply sumn_ext. intros k Hk. rewrite hq_integ by assumption. rewrite flat_zero2.
    unfold hq_tested. rewrite square_length, Rplus_0_l, <- sumn_scal_l. apply sumn_ext. intros Q _. cbv zeta. cbn [sumn]. ring. }
  rewrite sumn_swap. apply sumn_ext. intros Q HQ. cbv zeta. rewrite hq_interp by assumption. cbn [fst snd sumn nth].
  rewrite sumn_scal_l. f_equal. rewrite !sumn_plus, !sumn_scal_l. unfold hq_field, hq_field_curl, comp_sum. ring.
Qed.
Lemma hx_duality s p t src flx v : (p <= 3)%nat ->
  sumn (hx_ndof p) (fun k => flat_hx p v k * flat_hx p (hx_integrate s p t src flx zero3) k) =
  sumn (length t * length t * length t) (fun Q => fst (nth Q (cube_rule (lift1 t)) (0, [])) *
    (sumn 3 (fun a => src Q a * nth a (fst (hx_interpolate s p t v Q)) 0) + sumn 3 (fun a => flx Q a * nth a (snd (hx_interpolate s p t v Q)) 0))).
Proof.
  intros Hp. transitivity (sumn (hx_ndof p) (fun k => sumn (length t * length t * length t) (fun Q => let pt := snd (nth Q (cube_rule (lift1 t)) (0, [])) in fst (nth Q (cube_rule (lift1 t)) (0, [])) *
     (src Q 0%nat * (flat_hx p v k * nth 0 (nth k (hx_shape s p pt) []) 0) + src Q 1%nat * (flat_hx p v k * nth 1 (nth k (hx_shape s p pt) []) 0) + src Q 2%nat * (flat_hx p v k * nth 2 (nth k (hx_shape s p pt) []) 0) +
      flx Q 0%nat * (flat_hx p v k * nth 0 (nth k (hx_curl s p pt) []) 0) + flx Q 1%nat * (flat_hx p v k * nth 1 (nth k (hx_curl s p pt) []) 0) + flx Q 2%nat * (flat_hx p v k * nth 2 (nth k (hx_curl s p pt) []) 0))))).
  { apply sumn_ext. intros k Hk. rewrite hx_integ by assumption. rewrite flat_zero3.
    unfold hx_tested. rewrite cube_length, Rplus_0_l, <- sumn_scal_l. apply sumn_ext. intros Q _. cbv zeta. cbn [sumn]. ring. }
  rewrite sumn_swap. apply sumn_ext. intros Q HQ. cbv zeta. rewrite hx_interp by assumption. cbn [fst snd sumn nth].
  rewrite sumn_scal_l. f_equal. rewrite !sumn_plus, !sumn_scal_l. unfold hx_field, hx_field_curl, comp_sum. ring.
Qed.
(** ** the element matrix represents the action of the gradient *)
Lemma hq_rows s p t D u res k : (p <= 3)%nat -> (k < hq_ndof p)%nat ->
  flat_hq p (hq_action s p t D u res) k = flat_hq p res k + sumn (hq_ndof p) (fun J => flat_hq p u J * flat_hq p (hq_row s p t D J) k).
Proof.
  intros Hp Hk. unfold hq_action. rewrite hq_integ by assumption. f_equal.
  transitivity (sumn (hq_ndof p) (fun J => sumn (length t * length t) (fun Q => let pt := snd (nth Q (square_rule (lift1 t)) (0, [])) in let r := hq_chain (D Q) (nth J (hq_shape s p pt) [], nth J (hq_curl s p pt) 0) in
     flat_hq p u J * (fst (nth Q (square_rule (lift1 t)) (0, [])) * (sumn 2 (fun a => fst r a * nth a (nth k (hq_shape s p pt) []) 0) + snd r 0%nat * nth k (hq_curl s p pt) 0))))).
  2:{ apply sumn_ext. intros J HJ. unfold hq_row. rewrite hq_integ by assumption. rewrite flat_zero2.
      unfold hq_tested. rewrite square_length, Rplus_0_l, <- sumn_scal_l. apply sumn_ext. intros Q HQ. cbv zeta. destruct (hq_applied s p t J D Q Hp HJ HQ) as [A B]. cbn [sumn]. rewrite !A, !B. reflexivity. }
  rewrite sumn_swap. unfold hq_tested. rewrite square_length. apply sumn_ext. intros Q HQ. cbv zeta. rewrite hq_interp by assumption. set (pt := snd (nth Q (square_rule (lift1 t)) (0, []))). set (w := fst (nth Q (square_rule (lift1 t)) (0, []))).
  unfold hq_chain. cbn [fst snd sumn nth]. unfold hq_field, hq_field_curl, comp_sum. set (N0 := nth 0 (nth k (hq_shape s p pt) []) 0). set (N1 := nth 1 (nth k (hq_shape s p pt) []) 0). set (C := nth k (hq_curl s p pt) 0).
  set (f0 := fun k0 => flat_hq p u k0 * nth 0 (nth k0 (hq_shape s p pt) []) 0). set (f1 := fun k0 => flat_hq p u k0 * nth 1 (nth k0 (hq_shape s p pt) []) 0). set (f2 := fun k0 => flat_hq p u k0 * nth k0 (hq_curl s p pt) 0).
  transitivity (sumn (hq_ndof p) (fun J => w * (b00 (D Q) 0%nat 0%nat * N0 + b00 (D Q) 1%nat 0%nat * N1 + b10 (D Q) 0%nat 0%nat * C) * f0 J + w * (b00 (D Q) 0%nat 1%nat * N0 + b00 (D Q) 1%nat 1%nat * N1 + b10 (D Q) 0%nat 1%nat * C) * f1 J + w * (b01 (D Q) 0%nat * N0 + b01 (D Q) 1%nat * N1 + b11 (D Q) 0%nat * C) * f2 J)).
  - rewrite !sumn_plus, !sumn_scal_l. ring.
  - apply sumn_ext. intros J _. unfold f0, f1, f2. ring.
Qed.
Lemma hx_rows s p t D u res k : (p <= 3)%nat -> (k < hx_ndof p)%nat ->
  flat_hx p (hx_action s p t D u res) k = flat_hx p res k + sumn (hx_ndof p) (fun J => flat_hx p u J * flat_hx p (hx_row s p t D J) k).
Proof.
  intros Hp Hk. unfold hx_action. rewrite hx_integ by assumption. f_equal.
  transitivity (sumn (hx_ndof p) (fun J => sumn (length t * length t * length t) (fun Q => let pt := snd (nth Q (cube_rule (lift1 t)) (0, [])) in let r := hx_chain (D Q) (nth J (hx_shape s p pt) [], nth J (hx_curl s p pt) []) in
     flat_hx p u J * (fst (nth Q (cube_rule (lift1 t)) (0, [])) * (sumn 3 (fun a => fst r a * nth a (nth k (hx_shape s p pt) []) 0) + sumn 3 (fun a => snd r a * nth a (nth k (hx_curl s p pt) []) 0)))))).
  2:{ apply sumn_ext. intros J HJ. unfold hx_row. rewrite hx_integ by assumption. rewrite flat_zero3.
      unfold hx_tested. rewrite cube_length, Rplus_0_l, <- sumn_scal_l. apply sumn_ext. intros Q HQ. cbv zeta. destruct (hx_applied s p t J D Q Hp HJ HQ) as [A B]. cbn [sumn]. rewrite !A, !B. reflexivity. }
  rewrite sumn_swap. unfold hx_tested. rewrite cube_length. apply sumn_ext. intros Q HQ. cbv zeta. rewrite hx_interp by assumption. set (pt := snd (nth Q (cube_rule (lift1 t)) (0, []))). set (w := fst (nth Q (cube_rule (lift1 t)) (0, []))).
  unfold hx_chain. cbn [fst snd]. set (N := fun a => nth a (nth k (hx_shape s p pt) []) 0). set (C := fun a => nth a (nth k (hx_curl s p pt) []) 0).
  set (f := fun a J => flat_hx p u J * nth a (nth J (hx_shape s p pt) []) 0). set (g := fun a J => flat_hx p u J * nth a (nth J (hx_curl s p pt) []) 0).
  transitivity (sumn (hx_ndof p) (fun J => 
    w * (c00 (D Q) 0%nat 0%nat * N 0%nat + c00 (D Q) 1%nat 0%nat * N 1%nat + c00 (D Q) 2%nat 0%nat * N 2%nat + c10 (D Q) 0%nat 0%nat * C 0%nat + c10 (D Q) 1%nat 0%nat * C 1%nat + c10 (D Q) 2%nat 0%nat * C 2%nat) * f 0%nat J +
    w * (c00 (D Q) 0%nat 1%nat * N 0%nat + c00 (D Q) 1%nat 1%nat * N 1%nat + c00 (D Q) 2%nat 1%nat * N 2%nat + c10 (D Q) 0%nat 1%nat * C 0%nat + c10 (D Q) 1%nat 1%nat * C 1%nat + c10 (D Q) 2%nat 1%nat * C 2%nat) * f 1%nat J +
    w * (c00 (D Q) 0%nat 2%nat * N 0%nat + c00 (D Q) 1%nat 2%nat * N 1%nat + c00 (D Q) 2%nat 2%nat * N 2%nat + c10 (D Q) 0%nat 2%nat * C 0%nat + c10 (D Q) 1%nat 2%nat * C 1%nat + c10 (D Q) 2%nat 2%nat * C 2%nat) * f 2%nat J +
    w * (c01 (D Q) 0%nat 0%nat * N 0%nat + c01 (D Q) 1%nat 0%nat * N 1%nat + c01 (D Q) 2%nat 0%nat * N 2%nat + c11 (D Q) 0%nat 0%nat * C 0%nat + c11 (D Q) 1%nat 0%nat * C 1%nat + c11 (D Q) 2%nat 0%nat * C 2%nat) * g 0%nat J +
    w * (c01 (D Q) 0%nat 1%nat * N 0%nat + c01 (D Q) 1%nat 1%nat * N 1%nat + c01 (D Q) 2%nat 1%nat * N 2%nat + c11 (D Q) 0%nat 1%nat * C 0%nat + c11 (D Q) 1%nat 1%nat * C 1%nat + c11 (D Q) 2%nat 1%nat * C 2%nat) * g 1%nat J +
    w * (c01 (D Q) 0%nat 2%nat * N 0%nat + c01 (D Q) 1%nat 2%nat * N 1%nat + c01 (D Q) 2%nat 2%nat * N 2%nat + c11 (D Q) 0%nat 2%nat * C 0%nat + c11 (D Q) 1%nat 2%nat * C 1%nat + c11 (D Q) 2%nat 2%nat * C 2%nat) * g 2%nat J)).
  - rewrite !sumn_plus, !sumn_scal_l. cbn [sumn nth]. unfold hx_field, hx_field_curl, comp_sum. fold (f 0%nat) (f 1%nat) (f 2%nat) (g 0%nat) (g 1%nat) (g 2%nat) (N 0%nat) (N 1%nat) (N 2%nat) (C 0%nat) (C 1%nat) (C 2%nat). ring.
  - apply sumn_ext. intros J _. cbn [sumn]. unfold f, g, N, C. ring.
Qed.

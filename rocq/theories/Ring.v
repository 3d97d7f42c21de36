(** * Ring and cylinder meshes (C43): mesh/mesh_utils.cpp *)
From Coq Require Import List Bool Arith ZArith Reals Lia Lra.
Import ListNotations.
Local Open Scope R_scope.

Notation pt := (R * R)%type.
(** C library functions over the reals: atan2, and fmod for nonnegative dividend and positive divisor *)
Definition norm (p : pt) : R := sqrt (fst p * fst p + snd p * snd p).
Definition atan2 (y x : R) : R := if Req_EM_T (x * x + y * y) 0 then 0 else if Rle_dec 0 y then acos (x / sqrt (x * x + y * y)) else - acos (x / sqrt (x * x + y * y)).
Definition fmod (x a : R) : R := x - a * IZR (Int_part (x / a)).
Definition stretch (c : R) (p : pt) : pt := (c * fst p, c * snd p).
(** mesh_utils.cpp:217-219 one vertex of the cylinder's cross section *)
Definition cylinder_vertex (radius : R) (p : pt) : pt :=
  let phi := fmod (atan2 (snd p) (fst p) + PI) (PI / 4) in stretch (radius * (cos phi + (-1 + sqrt 2) * sin phi)) p.
(** mesh_utils.cpp:323-332 one vertex of the ring *)
Definition ring_vertex (angle : R) (p : pt) : pt :=
  let phi := fmod (atan2 (snd p) (fst p) + 2 * PI) angle in stretch (cos (Rabs (1 / 2 * angle - phi)) / cos (1 / 2 * angle)) p.
(** mesh_utils.cpp:248-251 *)
Definition sector_angle (total : R) (sectors : nat) : R := Rmin total (2 * PI) / INR sectors.
Definition full (total : R) : Prop := 2 * PI <= total.
Definition ring_count (is_full : bool) (sectors : nat) : nat := if is_full then sectors else Datatypes.S sectors.
(** mesh_utils.cpp:263-271: vertex i on a circle *)
Definition circle (rho angle : R) (i : nat) : pt := (rho * cos (angle * INR i), rho * sin (angle * INR i)).
(** mesh_utils.cpp:276-289 *)
Definition elem (nr i : nat) : list nat := [i; nr + i; nr + (i + 1) mod nr; (i + 1) mod nr]%nat.
Definition inner_edge (nr i : nat) : list nat := [(i + 1) mod nr; i]%nat.
Definition outer_edge (nr i : nat) : list nat := [nr + i; nr + (i + 1) mod nr]%nat.
Definition vertex (nr : nat) (rin rout angle : R) (j : nat) : pt := if (j <? nr)%nat then circle rin angle j else circle rout angle (j - nr)%nat.
(** refinement: midpoints *)
Definition pmid (p q : pt) : pt := ((fst p + fst q) / 2, (snd p + snd q) / 2).
Inductive preach (cs : list pt) : pt -> Prop := preach_corner p : In p cs -> preach cs p | preach_mid p q : preach cs p -> preach cs q -> preach cs (pmid p q).

(** ** real functions *)
Lemma fmod_spec a (j : Z) s : 0 < a -> 0 <= s < a -> fmod (IZR j * a + s) a = s.
Proof.
  intros Ha Hs. unfold fmod. assert (E : Int_part ((IZR j * a + s) / a) = j).
  { replace ((IZR j * a + s) / a) with (IZR j + s / a) by (field; lra). assert (0 <= s / a) by (apply Rmult_le_pos; [lra|]; apply Rlt_le, Rinv_0_lt_compat; lra).
    assert (s / a < 1) by (apply Rmult_lt_reg_r with a; [lra|]; unfold Rdiv; rewrite Rmult_assoc, Rinv_l by lra; lra). unfold Int_part. rewrite <- (tech_up (IZR j + s / a) (j + 1)); [lia| |]; rewrite plus_IZR; lra. }
  rewrite E. ring.
Qed.
Lemma atan2_polar r b : 0 < r -> 0 <= b <= 2 * PI -> atan2 (r * sin b) (r * cos b) = if Rle_dec b PI then b else if Req_EM_T b (2 * PI) then 0 else b - 2 * PI.
Proof.
  intros Hr Hb. unfold atan2. assert (Q : r * cos b * (r * cos b) + r * sin b * (r * sin b) = r * r). { pose proof (sin2_cos2 b) as H. unfold Rsqr in H. replace (r * cos b * (r * cos b) + r * sin b * (r * sin b)) with (r * r * (sin b * sin b + cos b * cos b)) by ring. rewrite H. ring. }
  rewrite Q. destruct (Req_EM_T (r * r) 0) as [Z0|_]; [nra|]. rewrite sqrt_square by lra. replace (r * cos b / r) with (cos b) by (field; lra). pose proof PI_RGT_0 as Hpi. destruct (Rle_dec b PI) as [L|L].
  - destruct (Rle_dec 0 (r * sin b)) as [_|N]; [apply acos_cos; lra|]. destruct N. apply Rmult_le_pos; [lra|]. apply sin_ge_0; lra.
  - destruct (Req_EM_T b (2 * PI)) as [->|N2].
    + rewrite sin_2PI, cos_2PI, Rmult_0_r. destruct (Rle_dec 0 0) as [_|N]; [|lra]. apply acos_1.
    + assert (Hs : sin b < 0) by (apply sin_lt_0; lra). destruct (Rle_dec 0 (r * sin b)) as [P|_]; [nra|]. replace (cos b) with (cos (2 * PI - b)). { rewrite acos_cos by lra. ring. }
      replace (2 * PI - b) with (- b + 2 * PI) by ring. rewrite cos_plus, cos_2PI, sin_2PI, cos_neg. ring.
Qed.
Lemma abs_between x y : Rabs x <= y -> - y <= x <= y.
Proof. intros H. pose proof (Rle_abs x). pose proof (Rle_abs (- x)) as H1. rewrite Rabs_Ropp in H1. lra. Qed.
(** a nonzero point of sector k in polar form. X, Y: coordinates along and across the sector's middle line *)
Definition along (m : R) (p : pt) : R := cos m * fst p + sin m * snd p.
Definition across (m : R) (p : pt) : R := - sin m * fst p + cos m * snd p.
Lemma polar m h p : 0 < h < PI / 2 -> 0 < along m p -> Rabs (across m p) <= along m p * tan h -> exists r d, 0 < r /\ - h <= d <= h /\ p = (r * cos (m + d), r * sin (m + d)) /\ along m p = r * cos d /\ norm p = r.
Proof.
  intros Hh HX HY. set (X := along m p) in *. set (Y := across m p) in *. assert (P1 : fst p = cos m * X - sin m * Y /\ snd p = sin m * X + cos m * Y).
  { unfold X, Y, along, across. pose proof (sin2_cos2 m) as H. unfold Rsqr in H. split.
    - replace (cos m * (cos m * fst p + sin m * snd p) - sin m * (- sin m * fst p + cos m * snd p)) with ((sin m * sin m + cos m * cos m) * fst p) by ring. rewrite H. ring.
    - replace (sin m * (cos m * fst p + sin m * snd p) + cos m * (- sin m * fst p + cos m * snd p)) with ((sin m * sin m + cos m * cos m) * snd p) by ring. rewrite H. ring. }
  set (d := atan (Y / X)). assert (Hd : - PI / 2 < d < PI / 2) by apply atan_bound. assert (Hc : 0 < cos d) by (apply cos_gt_0; lra). assert (Ht : tan d = Y / X) by apply tan_atan.
  exists (X / cos d), d. assert (Hr : 0 < X / cos d) by (apply Rdiv_lt_0_compat; lra). assert (EX : X / cos d * cos d = X) by (field; lra). assert (EY : X / cos d * sin d = Y). { replace (X / cos d * sin d) with (X * tan d) by (unfold tan; field; lra). rewrite Ht. field. lra. }
  split; [exact Hr|]. split.
  { assert (B : - tan h <= Y / X <= tan h). { apply abs_between. unfold Rdiv. rewrite Rabs_mult, (Rabs_pos_eq (/ X)) by (apply Rlt_le, Rinv_0_lt_compat; lra). apply Rmult_le_reg_r with X; [exact HX|]. rewrite Rmult_assoc, Rinv_l by lra. lra. }
    assert (A : atan (tan h) = h) by (apply atan_tan; lra). assert (M : forall u v, u <= v -> atan u <= atan v). { intros u v [L|E]; [left; now apply atan_increasing|right; now rewrite E]. }
    unfold d. split; [rewrite <- A, <- atan_opp; apply M; lra|rewrite <- A; apply M; lra]. }
  assert (EP : p = (X / cos d * cos (m + d), X / cos d * sin (m + d))).
  { destruct p as [x y]. cbn [fst snd] in P1. destruct P1 as [P1 P2]. rewrite cos_plus, sin_plus. f_equal.
    - rewrite P1. replace (X / cos d * (cos m * cos d - sin m * sin d)) with (cos m * (X / cos d * cos d) - sin m * (X / cos d * sin d)) by ring. rewrite EX, EY. ring.
    - rewrite P2. replace (X / cos d * (sin m * cos d + cos m * sin d)) with (sin m * (X / cos d * cos d) + cos m * (X / cos d * sin d)) by ring. rewrite EX, EY. ring. }
  split; [exact EP|]. split; [now rewrite EX|]. rewrite EP. unfold norm. cbn [fst snd]. pose proof (sin2_cos2 (m + d)) as H. unfold Rsqr in H.
  replace (X / cos d * cos (m + d) * (X / cos d * cos (m + d)) + X / cos d * sin (m + d) * (X / cos d * sin (m + d))) with (X / cos d * (X / cos d) * (sin (m + d) * sin (m + d) + cos (m + d) * cos (m + d))) by ring.
  rewrite H, Rmult_1_r. apply sqrt_square. lra.
Qed.
Lemma norm_stretch c p : 0 <= c -> norm (stretch c p) = c * norm p.
Proof.
  intros H. unfold norm, stretch. cbn [fst snd]. replace (c * fst p * (c * fst p) + c * snd p * (c * snd p)) with (c * c * (fst p * fst p + snd p * snd p)) by ring. rewrite sqrt_mult by nra. now rewrite sqrt_square.
Qed.
(** the angle the code computes: offset o is n sectors, and the full turn m sectors *)
Lemma phase (a o : R) (n m k : Z) b : 0 < a -> o = IZR n * a -> 2 * PI = IZR m * a -> IZR k * a <= b <= (IZR k + 1) * a -> 0 <= b <= 2 * PI ->
  forall r, 0 < r -> exists phi, fmod (atan2 (r * sin b) (r * cos b) + o) a = phi /\ (phi = b - IZR k * a \/ b = (IZR k + 1) * a /\ phi = 0).
Proof.
  intros Ha Ho Hm Hk Hb r Hr. rewrite atan2_polar by assumption. eexists. split; [reflexivity|]. destruct (Rle_lt_or_eq_dec b ((IZR k + 1) * a) (proj2 Hk)) as [L|E].
  - left. destruct (Rle_dec b PI); [|destruct (Req_EM_T b (2 * PI)) as [E|_]].
    + replace (b + o) with (IZR (k + n) * a + (b - IZR k * a)) by (rewrite plus_IZR, Ho; ring). apply fmod_spec; lra.
    + assert (k = m). { apply Z.le_antisymm; apply Z.lt_succ_r; apply lt_IZR; rewrite succ_IZR; apply Rmult_lt_reg_r with a; lra. } subst k. rewrite E, Hm. replace (0 + o) with (IZR n * a + (IZR m * a - IZR m * a)) by (rewrite Ho; ring). apply fmod_spec; lra.
    + replace (b - 2 * PI + o) with (IZR (k - m + n) * a + (b - IZR k * a)) by (rewrite plus_IZR, minus_IZR, Ho, Hm; ring). apply fmod_spec; lra.
  - right. split; [exact E|]. destruct (Rle_dec b PI); [|destruct (Req_EM_T b (2 * PI)) as [E2|_]].
    + replace (b + o) with (IZR (k + 1 + n) * a + 0) by (rewrite !plus_IZR, Ho, E; ring). apply fmod_spec; lra.
    + replace (0 + o) with (IZR n * a + 0) by (rewrite Ho; ring). apply fmod_spec; lra.
    + replace (b - 2 * PI + o) with (IZR (k + 1 - m + n) * a + 0) by (rewrite plus_IZR, minus_IZR, plus_IZR, Ho, Hm, E; ring). apply fmod_spec; lra.
Qed.
Definition middle (a : R) (k : nat) : R := (INR k + 1 / 2) * a.
(** ** the ring: a point of sector k goes to the radius its distance along the middle line asks for *)
Lemma ring_norm a (m : nat) k p : (3 <= m)%nat -> 2 * PI = INR m * a -> (k < m)%nat -> 0 < along (middle a k) p -> Rabs (across (middle a k) p) <= along (middle a k) p * tan (a / 2) -> norm (ring_vertex a p) = along (middle a k) p / cos (a / 2).
Proof.
  intros H3 Hm Hk HX HY. pose proof PI_RGT_0 as Hpi. assert (M3 : 3 <= INR m) by (replace 3 with (INR 3) by (cbn; lra); now apply le_INR). assert (Ha : 0 < a) by nra. assert (Ha2 : a < PI) by nra.
  assert (Hc : 0 < cos (a / 2)) by (apply cos_gt_0; lra). destruct (polar (middle a k) (a / 2) p ltac:(lra) HX HY) as [r [d [Hr [Hd [Ep [EX EN]]]]]].
  set (b := middle a k + d) in *. assert (Hkk : INR k + 1 <= INR m) by (rewrite <- S_INR; apply le_INR; lia). assert (Hk0 : 0 <= INR k) by apply pos_INR.
  assert (Hb1 : IZR (Z.of_nat k) * a <= b <= (IZR (Z.of_nat k) + 1) * a) by (rewrite <- INR_IZR_INZ; unfold b, middle; lra).
  assert (Hb2 : 0 <= b <= 2 * PI). { rewrite <- INR_IZR_INZ in Hb1. rewrite Hm. split; [nra|]. eapply Rle_trans; [apply Hb1|]. nra. }
  assert (Hmz : 2 * PI = IZR (Z.of_nat m) * a) by (rewrite <- INR_IZR_INZ; exact Hm).
  destruct (phase a (2 * PI) (Z.of_nat m) (Z.of_nat m) (Z.of_nat k) b Ha Hmz Hmz Hb1 Hb2 r Hr) as [phi [E1 E2]].
  unfold ring_vertex. rewrite Ep at 1 2. cbn [fst snd]. rewrite E1. replace (1 / 2 * a) with (a / 2) by lra.
  assert (F : cos (Rabs (a / 2 - phi)) = cos d). { rewrite <- INR_IZR_INZ in E2. destruct E2 as [->|[Eb ->]].
    - replace (a / 2 - (b - INR k * a)) with (- d) by (unfold b, middle; field). rewrite Rabs_Ropp. unfold Rabs. destruct (Rcase_abs d); [apply cos_neg|reflexivity].
    - replace d with (a / 2) by (unfold b, middle in Eb; lra). rewrite Rminus_0_r, Rabs_pos_eq by lra. reflexivity. }
  rewrite F. assert (Hcd : 0 <= cos d) by (apply cos_ge_0; lra). rewrite norm_stretch, EN, EX; [field; lra|]. apply Rmult_le_pos; [exact Hcd|]. apply Rlt_le, Rinv_0_lt_compat. exact Hc.
Qed.
(** corners of sector k *)
Lemma circle_along rho a k (j : nat) : (j = k \/ j = Datatypes.S k) -> along (middle a k) (circle rho a j) = rho * cos (a / 2) /\ Rabs (across (middle a k) (circle rho a j)) = Rabs (rho * sin (a / 2)).
Proof.
  intros H. unfold along, across, circle. cbn [fst snd]. replace (cos (middle a k) * (rho * cos (a * INR j)) + sin (middle a k) * (rho * sin (a * INR j))) with (rho * cos (middle a k - a * INR j)) by (rewrite cos_minus; ring).
  replace (- sin (middle a k) * (rho * cos (a * INR j)) + cos (middle a k) * (rho * sin (a * INR j))) with (- (rho * sin (middle a k - a * INR j))) by (rewrite sin_minus; ring).
  destruct H as [-> | ->].
  - replace (middle a k - a * INR k) with (a / 2) by (unfold middle; field). rewrite Rabs_Ropp. split; reflexivity.
  - rewrite S_INR. replace (middle a k - a * (INR k + 1)) with (- (a / 2)) by (unfold middle; field). rewrite cos_neg, sin_neg. split; [reflexivity|]. rewrite Rabs_Ropp. rewrite Ropp_mult_distr_r_reverse, Rabs_Ropp. reflexivity.
Qed.
Lemma along_mid m p q : along m (pmid p q) = (along m p + along m q) / 2 /\ across m (pmid p q) = (across m p + across m q) / 2.
Proof. unfold along, across, pmid. cbn [fst snd]. split; field. Qed.
Lemma preach_bounds m t lo hi cs : (forall p, In p cs -> lo <= along m p <= hi /\ Rabs (across m p) <= along m p * t) -> forall p, preach cs p -> lo <= along m p <= hi /\ Rabs (across m p) <= along m p * t.
Proof.
  intros H p R0. induction R0 as [p Hp|p q _ [I1 I2] _ [J1 J2]]; [now apply H|]. destruct (along_mid m p q) as [-> ->]. split; [lra|]. pose proof (Rabs_triang (across m p) (across m q)) as T. unfold Rdiv. rewrite Rabs_mult, (Rabs_pos_eq (/ 2)) by lra. lra.
Qed.
Lemma circle_fits rho a k j : 0 < rho -> 0 < a < PI -> (j = k \/ j = Datatypes.S k) -> along (middle a k) (circle rho a j) = rho * cos (a / 2) /\ Rabs (across (middle a k) (circle rho a j)) <= along (middle a k) (circle rho a j) * tan (a / 2).
Proof.
  intros Hr Ha H. destruct (circle_along rho a k j H) as [E1 E2]. rewrite E2, E1. split; [reflexivity|]. assert (Hs : 0 < sin (a / 2)) by (apply sin_gt_0; lra). assert (Hc : 0 < cos (a / 2)) by (apply cos_gt_0; lra). rewrite Rabs_pos_eq by nra. right. unfold tan. field. lra.
Qed.
Lemma ring_sector a (m : nat) k rin rout cs : (3 <= m)%nat -> 2 * PI = INR m * a -> (k < m)%nat -> 0 < rin <= rout ->
  (forall p, In p cs -> exists rho j, rin <= rho <= rout /\ (j = k \/ j = Datatypes.S k) /\ p = circle rho a j) -> forall p, preach cs p -> rin <= norm (ring_vertex a p) <= rout.
Proof.
  intros H3 Hm Hk Hr Hcs p R0. pose proof PI_RGT_0 as Hpi. assert (M3 : 3 <= INR m) by (replace 3 with (INR 3) by (cbn; lra); now apply le_INR). assert (Ha : 0 < a < PI) by (split; nra). assert (Hc : 0 < cos (a / 2)) by (apply cos_gt_0; lra).
  destruct (preach_bounds (middle a k) (tan (a / 2)) (rin * cos (a / 2)) (rout * cos (a / 2)) cs) with (p := p) as [B1 B2]; [|exact R0|].
  - intros q Hq. destruct (Hcs q Hq) as [rho [j [Hrho [Hj ->]]]]. destruct (circle_fits rho a k j ltac:(lra) Ha Hj) as [E1 E2]. split; [|exact E2]. rewrite E1. split; apply Rmult_le_compat_r; lra.
  - assert (P : 0 < along (middle a k) p) by (assert (0 < rin * cos (a / 2)) by (apply Rmult_lt_0_compat; lra); lra). rewrite (ring_norm a m k p H3 Hm Hk P B2). split; apply Rmult_le_reg_r with (cos (a / 2)); try exact Hc; unfold Rdiv; rewrite ?Rmult_assoc, Rinv_l by lra; lra.
Qed.
(** sector angles that divide the full turn *)
Lemma ring_ok a (m : nat) k rin rout : (3 <= m)%nat -> 2 * PI = INR m * a -> (k < m)%nat -> 0 < rin < rout ->
  (forall p, preach [circle rin a k; circle rin a (Datatypes.S k)] p -> norm (ring_vertex a p) = rin) /\
  (forall p, preach [circle rout a k; circle rout a (Datatypes.S k)] p -> norm (ring_vertex a p) = rout) /\
  (forall p, preach [circle rin a k; circle rout a k; circle rout a (Datatypes.S k); circle rin a (Datatypes.S k)] p -> rin <= norm (ring_vertex a p) <= rout).
Proof.
  intros H3 Hm Hk Hr. split; [|split].
  - intros p R0. apply Rle_antisym; apply (ring_sector a m k rin rin [circle rin a k; circle rin a (Datatypes.S k)] H3 Hm Hk ltac:(lra)); auto; intros q [<-|[<-|[]]]; exists rin; eexists; (split; [lra|]); (split; [|reflexivity]); auto.
  - intros p R0. apply Rle_antisym; apply (ring_sector a m k rout rout [circle rout a k; circle rout a (Datatypes.S k)] H3 Hm Hk ltac:(lra)); auto; intros q [<-|[<-|[]]]; exists rout; eexists; (split; [lra|]); (split; [|reflexivity]); auto.
  - intros p R0. eapply (ring_sector a m k rin rout _ H3 Hm Hk ltac:(lra)); [|exact R0]. intros q [<-|[<-|[<-|[<-|[]]]]]; [exists rin|exists rout|exists rout|exists rin]; eexists; (split; [lra|]); (split; [|reflexivity]); auto.
Qed.
(** full rings of three or more sectors are of that kind *)
Lemma full_angle total sectors : full total -> (1 <= sectors)%nat -> 2 * PI = INR sectors * sector_angle total sectors.
Proof. intros F H. unfold sector_angle. rewrite Rmin_right by exact F. field. apply not_0_INR. lia. Qed.
(** ** the cylinder's octagon *)
Lemma cos_half_angle c d : 0 < cos c -> cos (c - d) / cos c = cos d + tan c * sin d.
Proof. intros H. rewrite cos_minus. unfold tan. field. lra. Qed.
Lemma tan_PI8 : tan (PI / 8) = -1 + sqrt 2.
Proof.
  pose proof PI_RGT_0 as Hpi. assert (Hc : 0 < cos (PI / 8)) by (apply cos_gt_0; lra). assert (Hs : 0 < sin (PI / 8)) by (apply sin_gt_0; lra).
  assert (T : tan (PI / 8) = sin (PI / 4) / (1 + cos (PI / 4))). { replace (PI / 4) with (2 * (PI / 8)) by field. rewrite sin_2a, cos_2a_cos. unfold tan. field. split; nra. }
  rewrite T, sin_PI4, cos_PI4. assert (Q : sqrt 2 * sqrt 2 = 2) by (apply sqrt_sqrt; lra). assert (P : 0 < sqrt 2) by (apply sqrt_lt_R0; lra). set (q := sqrt 2) in *.
  transitivity (1 / (q + 1)); [field; split; lra|]. apply Rmult_eq_reg_r with (q + 1); [|lra]. replace (1 / (q + 1) * (q + 1)) with 1 by (field; lra). lra.
Qed.
Lemma cylinder_norm radius k p : 0 <= radius -> (k < 8)%nat -> 0 < along (middle (PI / 4) k) p -> Rabs (across (middle (PI / 4) k) p) <= along (middle (PI / 4) k) p * tan (PI / 8) -> norm (cylinder_vertex radius p) = radius * (along (middle (PI / 4) k) p / cos (PI / 8)).
Proof.
  intros Hrad Hk HX HY. pose proof PI_RGT_0 as Hpi. set (a := PI / 4) in *. assert (Ha : 0 < a) by (unfold a; lra). assert (Ea : PI / 8 = a / 2) by (unfold a; field). assert (Et : tan (a / 2) = -1 + sqrt 2) by (rewrite <- Ea; apply tan_PI8). rewrite Ea in HY |- *. assert (Hc : 0 < cos (a / 2)) by (apply cos_gt_0; lra).
  destruct (polar (middle a k) (a / 2) p ltac:(lra) HX HY) as [r [d [Hr [Hd [Ep [EX EN]]]]]]. set (b := middle a k + d) in *. assert (Hkk : INR k + 1 <= 8). { rewrite <- S_INR. replace 8 with (INR 8) by (cbn; lra). apply le_INR. lia. }
  assert (Hk0 : 0 <= INR k) by apply pos_INR. assert (Hb1 : IZR (Z.of_nat k) * a <= b <= (IZR (Z.of_nat k) + 1) * a) by (rewrite <- INR_IZR_INZ; unfold b, middle; lra).
  assert (Hm : 2 * PI = 8 * a) by (unfold a; field). assert (Hb2 : 0 <= b <= 2 * PI). { rewrite <- INR_IZR_INZ in Hb1. rewrite Hm. split; [nra|]. eapply Rle_trans; [apply Hb1|]. nra. }
  destruct (phase a PI 4 8 (Z.of_nat k) b Ha ltac:(unfold a; field) Hm Hb1 Hb2 r Hr) as [phi [E1 E2]].
  assert (E1' : fmod (atan2 (snd p) (fst p) + PI) a = phi) by (rewrite Ep; exact E1). unfold cylinder_vertex. fold a. rewrite E1'. rewrite <- Et, <- (cos_half_angle (a / 2) phi Hc).
  assert (F : cos (a / 2 - phi) = cos d). { rewrite <- INR_IZR_INZ in E2. destruct E2 as [->|[Eb ->]].
    - replace (a / 2 - (b - INR k * a)) with (- d) by (unfold b, middle; field). apply cos_neg.
    - replace d with (a / 2) by (unfold b, middle in Eb; lra). now rewrite Rminus_0_r. }
  rewrite F. assert (Hcd : 0 <= cos d) by (apply cos_ge_0; lra). rewrite norm_stretch, EN, EX; [field; lra|]. apply Rmult_le_pos; [exact Hrad|]. apply Rmult_le_pos; [exact Hcd|]. apply Rlt_le, Rinv_0_lt_compat. exact Hc.
Qed.
Lemma cylinder_ok radius k : 0 <= radius -> (k < 8)%nat -> forall p, preach [circle 1 (PI / 4) k; circle 1 (PI / 4) (Datatypes.S k)] p -> norm (cylinder_vertex radius p) = radius.
Proof.
  intros Hrad Hk p R0. pose proof PI_RGT_0 as Hpi. assert (Hc : 0 < cos (PI / 8)) by (apply cos_gt_0; lra).
  destruct (preach_bounds (middle (PI / 4) k) (tan (PI / 8)) (cos (PI / 8)) (cos (PI / 8)) [circle 1 (PI / 4) k; circle 1 (PI / 4) (Datatypes.S k)]) with (p := p) as [B1 B2]; [|exact R0|].
  - assert (G : forall j, j = k \/ j = Datatypes.S k -> cos (PI / 8) <= along (middle (PI / 4) k) (circle 1 (PI / 4) j) <= cos (PI / 8) /\ Rabs (across (middle (PI / 4) k) (circle 1 (PI / 4) j)) <= along (middle (PI / 4) k) (circle 1 (PI / 4) j) * tan (PI / 8)).
    { intros j Hj. destruct (circle_fits 1 (PI / 4) k j ltac:(lra) ltac:(lra) Hj) as [E1 E2]. replace (PI / 4 / 2) with (PI / 8) in * by field. split; [rewrite E1; lra|exact E2]. }
    intros q [<-|[<-|[]]]; apply G; auto.
  - rewrite (cylinder_norm radius k p Hrad Hk ltac:(lra) B2). replace (along (middle (PI / 4) k) p) with (cos (PI / 8)) by lra. field. lra.
Qed.
(** ** connectivity of the ring *)
Lemma elem_bounds f n i : (1 <= n)%nat -> (i < n)%nat -> Forall (fun j => (j < 2 * ring_count f n)%nat) (elem (ring_count f n) i).
Proof. intros Hn Hi. unfold elem, ring_count. assert (H : ((i + 1) mod (if f then n else Datatypes.S n) < (if f then n else Datatypes.S n))%nat) by (apply Nat.mod_upper_bound; destruct f; lia). destruct f; apply Forall_forall; intros j Hj; cbn [In] in Hj; lia. Qed.
Lemma elem_distinct f n i : (2 <= ring_count f n)%nat -> (i < n)%nat -> NoDup (elem (ring_count f n) i).
Proof.
  intros Hn Hi. unfold elem. set (nr := ring_count f n) in *. assert (Hle : (n <= nr)%nat) by (unfold nr, ring_count; destruct f; lia). assert (H : ((i + 1) mod nr < nr)%nat) by (apply Nat.mod_upper_bound; lia).
  assert (N : (i + 1) mod nr <> i). { destruct (Nat.eq_dec (i + 1) nr) as [E|E]; [rewrite E, Nat.mod_same by lia; lia|rewrite Nat.mod_small by lia; lia]. }
  repeat constructor; cbn [In]; lia.
Qed.
(** neighbours share an edge; in a full ring the last and the first do as well *)
Lemma elem_neighbours nr i : (2 <= nr)%nat -> (i + 1 < nr)%nat -> nth 2 (elem nr i) 0%nat = nth 1 (elem nr (i + 1)) 0%nat /\ nth 3 (elem nr i) 0%nat = nth 0 (elem nr (i + 1)) 0%nat.
Proof. intros H Hi. cbn [elem nth]. rewrite Nat.mod_small by lia. split; lia. Qed.
Lemma elem_closes n : (1 <= n)%nat -> nth 2 (elem n (n - 1)) 0%nat = nth 1 (elem n 0) 0%nat /\ nth 3 (elem n (n - 1)) 0%nat = nth 0 (elem n 0) 0%nat.
Proof. intros H. cbn [elem nth]. replace (n - 1 + 1)%nat with n by lia. rewrite Nat.mod_same by lia. split; lia. Qed.
(** the corners of element i are where the geometry above has them *)
Lemma two_pi_circle rho a n : 2 * PI = INR n * a -> circle rho a n = circle rho a 0.
Proof. intros H. unfold circle. replace (a * INR n) with (2 * PI) by lra. cbn [INR]. rewrite Rmult_0_r, sin_2PI, cos_2PI, sin_0, cos_0. reflexivity. Qed.
Lemma elem_corners f n i rin rout a : (f = true -> 2 * PI = INR n * a) -> (1 <= n)%nat -> (i < n)%nat ->
  map (vertex (ring_count f n) rin rout a) (elem (ring_count f n) i) = [circle rin a i; circle rout a i; circle rout a (Datatypes.S i); circle rin a (Datatypes.S i)].
Proof.
  intros Hf Hn Hi. unfold elem, vertex. cbn [map]. set (nr := ring_count f n) in *. assert (Hle : (n <= nr)%nat) by (unfold nr, ring_count; destruct f; lia). assert (H : ((i + 1) mod nr < nr)%nat) by (apply Nat.mod_upper_bound; lia).
  replace (i <? nr)%nat with true by (symmetry; apply Nat.ltb_lt; lia). replace (nr + i <? nr)%nat with false by (symmetry; apply Nat.ltb_ge; lia). replace (nr + (i + 1) mod nr <? nr)%nat with false by (symmetry; apply Nat.ltb_ge; lia). replace ((i + 1) mod nr <? nr)%nat with true by (symmetry; apply Nat.ltb_lt; lia).
  replace (nr + i - nr)%nat with i by lia. replace (nr + (i + 1) mod nr - nr)%nat with ((i + 1) mod nr) by lia.
  assert (C : forall rho, circle rho a ((i + 1) mod nr) = circle rho a (Datatypes.S i)).
  { intros rho. destruct (Nat.eq_dec (i + 1) nr) as [E|E]; [|rewrite Nat.mod_small by lia; f_equal; lia]. destruct f; [|unfold nr, ring_count in E; lia]. rewrite E, Nat.mod_same by lia. replace (Datatypes.S i) with n by (unfold nr, ring_count in E; lia). symmetry. now apply two_pi_circle, Hf. }
  now rewrite !C.
Qed.
(** elements are positively oriented (shoelace formula) *)
Definition cross2 (p q : pt) : R := fst p * snd q - snd p * fst q.
Definition area (l : list pt) : R := match l with [p; q; r; s] => (cross2 p q + cross2 q r + cross2 r s + cross2 s p) / 2 | _ => 0 end.
Lemma elem_area rin rout a i : area [circle rin a i; circle rout a i; circle rout a (Datatypes.S i); circle rin a (Datatypes.S i)] = (rout * rout - rin * rin) * sin a / 2.
Proof.
  unfold area, cross2, circle. cbn [fst snd]. set (u := a * INR i). replace (a * INR (Datatypes.S i)) with (u + a) by (unfold u; rewrite S_INR; ring). replace (sin a) with (sin ((u + a) - u)) by (f_equal; ring). rewrite sin_minus. field.
Qed.
Lemma elem_area_pos rin rout a i : 0 < rin < rout -> 0 < a < PI -> 0 < area [circle rin a i; circle rout a i; circle rout a (Datatypes.S i); circle rin a (Datatypes.S i)].
Proof. intros Hr Ha. rewrite elem_area. assert (0 < sin a) by (apply sin_gt_0; lra). assert (0 < rout * rout - rin * rin) by nra. apply Rdiv_lt_0_compat; [|lra]. now apply Rmult_lt_0_compat. Qed.
(** ** what goes wrong *)
(** an open ring of one sector of 3/4 pi: the vertex at angle 0 leaves its circle *)
Lemma open_ring_moves rho : 0 < rho -> 0 < 3 * PI / 4 < 2 * PI /\ rho < norm (ring_vertex (sector_angle (3 * PI / 4) 1) (circle rho (sector_angle (3 * PI / 4) 1) 0)).
Proof.
  intros Hr. pose proof PI_RGT_0 as Hpi. split; [lra|]. unfold sector_angle. rewrite Rmin_left by lra. cbn [INR]. replace (3 * PI / 4 / 1) with (3 * PI / 4) by field. set (a := 3 * PI / 4). unfold circle. cbn [INR]. rewrite Rmult_0_r. unfold ring_vertex. cbn [fst snd].
  rewrite atan2_polar by lra. destruct (Rle_dec 0 PI) as [_|N]; [|lra]. replace (0 + 2 * PI) with (IZR 2 * a + PI / 2) by (unfold a; field). rewrite fmod_spec by (unfold a; lra).
  rewrite sin_0, cos_0. replace (1 / 2 * a - PI / 2) with (- (PI / 8)) by (unfold a; field). rewrite Rabs_Ropp, Rabs_pos_eq by lra. replace (1 / 2 * a) with (3 * PI / 8) by (unfold a; field).
  assert (C1 : 0 < cos (3 * PI / 8)) by (apply cos_gt_0; lra). assert (C2 : cos (3 * PI / 8) < cos (PI / 8)) by (apply cos_decreasing_1; lra).
  assert (C3 : 1 < cos (PI / 8) / cos (3 * PI / 8)) by (apply Rmult_lt_reg_r with (cos (3 * PI / 8)); [exact C1|]; replace (cos (PI / 8) / cos (3 * PI / 8) * cos (3 * PI / 8)) with (cos (PI / 8)) by (field; lra); lra).
  rewrite norm_stretch by lra. unfold norm. cbn [fst snd]. replace (rho * 1 * (rho * 1) + rho * 0 * (rho * 0)) with (rho * rho) by ring. rewrite sqrt_square by lra. nra.
Qed.
(** the radial ends of an open ring are edges of one element only and not boundary elements *)
Definition boundary (nr n : nat) : list (list nat) := map (inner_edge nr) (seq 0 n) ++ map (outer_edge nr) (seq 0 n).
Lemma open_ring_end n : (1 <= n)%nat -> nth 0 (elem (Datatypes.S n) 0) 0%nat = 0%nat /\ nth 1 (elem (Datatypes.S n) 0) 0%nat = Datatypes.S n /\ (forall i, (i < n)%nat -> i <> 0%nat -> ~ (In 0%nat (elem (Datatypes.S n) i) /\ In (Datatypes.S n) (elem (Datatypes.S n) i))) /\ ~ In [0%nat; Datatypes.S n] (boundary (Datatypes.S n) n) /\ ~ In [Datatypes.S n; 0%nat] (boundary (Datatypes.S n) n).
Proof.
  intros Hn. split; [reflexivity|]. split; [cbn [elem nth]; lia|]. split.
  - intros i Hi H0 [H1 _]. unfold elem in H1. rewrite Nat.mod_small in H1 by lia. cbn [In] in H1. lia.
  - unfold boundary. split; intros H; apply in_app_iff in H; destruct H as [H|H]; apply in_map_iff in H; destruct H as [i [E Hi]]; apply in_seq in Hi; unfold inner_edge, outer_edge in E; rewrite Nat.mod_small in E by lia; injection E as E1 E2; lia.
Qed.
(** a full ring of one sector folds onto itself *)
Lemma one_sector_degenerate : elem (ring_count true 1) 0 = [0; 1; 1; 0]%nat.
Proof. reflexivity. Qed.
(** ** hollow quarter cylinder: mesh_utils.cpp:372-403 *)
Definition quarter_vertex (rin rout height : R) (x y z : R) : R * R * R := let r := rin + (rout - rin) * x in let theta := y * (PI / 2) in (r * cos theta, r * sin theta, z * height).
Lemma quarter_ok rin rout height x y z : 0 < rin < rout -> 0 <= height -> 0 <= x <= 1 -> 0 <= y <= 1 -> 0 <= z <= 1 -> let '(a, b, c) := quarter_vertex rin rout height x y z in
  0 <= a /\ 0 <= b /\ 0 <= c <= height /\ norm (a, b) = rin + (rout - rin) * x /\ rin <= norm (a, b) <= rout /\ (y = 0 -> b = 0) /\ (y = 1 -> a = 0).
Proof.
  intros Hr Hh Hx Hy Hz. unfold quarter_vertex. pose proof PI_RGT_0 as Hpi. set (r := rin + (rout - rin) * x). assert (Hr1 : rin <= r <= rout) by (unfold r; nra). set (t := y * (PI / 2)). assert (Ht : 0 <= t <= PI / 2) by (unfold t; nra).
  assert (Hc : 0 <= cos t) by (apply cos_ge_0; lra). assert (Hs : 0 <= sin t) by (apply sin_ge_0; lra). assert (N : norm (r * cos t, r * sin t) = r).
  { unfold norm. cbn [fst snd]. pose proof (sin2_cos2 t) as H. unfold Rsqr in H. replace (r * cos t * (r * cos t) + r * sin t * (r * sin t)) with (r * r * (sin t * sin t + cos t * cos t)) by ring. rewrite H, Rmult_1_r. apply sqrt_square. lra. }
  split; [nra|]. split; [nra|]. split; [nra|]. split; [exact N|]. split; [rewrite N; exact Hr1|]. split; [intros ->; unfold t; rewrite Rmult_0_l, sin_0; ring|intros ->; unfold t; rewrite Rmult_1_l, cos_PI2; ring].
Qed.
(** full rings, in the terms of the call *)
Lemma full_ring_ok total n i rin rout : full total -> (3 <= n)%nat -> (i < n)%nat -> 0 < rin < rout -> let a := sector_angle total n in
  let at_ := fun j => vertex (ring_count true n) rin rout a j in
  (forall p, preach (map at_ (inner_edge (ring_count true n) i)) p -> norm (ring_vertex a p) = rin) /\
  (forall p, preach (map at_ (outer_edge (ring_count true n) i)) p -> norm (ring_vertex a p) = rout) /\
  (forall p, preach (map at_ (elem (ring_count true n) i)) p -> rin <= norm (ring_vertex a p) <= rout) /\ 0 < area (map at_ (elem (ring_count true n) i)).
Proof.
  intros F Hn Hi Hr a at_. assert (Ea : 2 * PI = INR n * a) by (apply full_angle; [exact F|lia]). destruct (ring_ok a n i rin rout Hn Ea Hi Hr) as [R1 [R2 R3]].
  pose proof (elem_corners true n i rin rout a (fun _ => Ea) ltac:(lia) Hi) as C. unfold elem in C. cbn [map] in C. change (vertex (ring_count true n) rin rout a) with at_ in C. injection C as C1 C2 C3 C4.
  change (ring_count true n) with n in *.
  split; [|split; [|split]].
  - intros p Hp. apply R1. unfold inner_edge in Hp. cbn [map] in Hp. rewrite C1, C4 in Hp. clear - Hp. induction Hp as [p [<-|[<-|[]]]|p q _ I1 _ I2]; [apply preach_corner; cbn; auto|apply preach_corner; cbn; auto|now apply preach_mid].
  - intros p Hp. apply R2. unfold outer_edge in Hp. cbn [map] in Hp. rewrite C2, C3 in Hp. exact Hp.
  - intros p Hp. apply R3. unfold elem in Hp. cbn [map] in Hp. rewrite C1, C2, C3, C4 in Hp. exact Hp.
  - unfold elem. cbn [map]. rewrite C1, C2, C3, C4. apply elem_area_pos; [exact Hr|]. pose proof PI_RGT_0 as Hpi. assert (M3 : 3 <= INR n) by (replace 3 with (INR 3) by (cbn; lra); now apply le_INR). split; nra.
Qed.
(** side k of a polygon, from corner k to the next *)
Definition side (l : list nat) (k : nat) : list nat := [nth k l 0; nth ((k + 1) mod length l) l 0]%nat.
Lemma boundary_sides nr i : inner_edge nr i = side (elem nr i) 3 /\ outer_edge nr i = side (elem nr i) 1.
Proof. split; reflexivity. Qed.

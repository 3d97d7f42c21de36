(** * Generated meshes (C43): mesh/mesh_utils.cpp *)
From Coq Require Import List Bool Arith ZArith Reals Lia Lra.
Import ListNotations.
From Verif Require Import StateMgr FEVector.
Local Open Scope R_scope.

(** ** disk and ball *)
Notation vec := (list R).
Definition n1 (v : vec) : R := fold_right (fun x s => Rabs x + s) 0 v.
Definition n2 (v : vec) : R := sqrt (fold_right (fun x s => x * x + s) 0 v).
Definition scale (c : R) (v : vec) : vec := map (fun x => c * x) v.
(** mesh_utils.cpp:50-72 squish, for one vertex *)
Definition squish (v : vec) : vec := scale (if Rlt_dec (n2 v) (/ 10 ^ 6) then 0 else n1 v / n2 v) v.
(** UniformRefinement adds midpoints of edges (and of faces and cells, which are midpoints of midpoints): every vertex of a refined element is reached by midpoints from its corners *)
Fixpoint mid (a b : vec) : vec := match a, b with x :: a', y :: b' => (x + y) / 2 :: mid a' b' | _, _ => [] end.
Inductive reach (corners : list vec) : vec -> Prop :=
| reach_corner v : In v corners -> reach corners v
| reach_mid a b : reach corners a -> reach corners b -> reach corners (mid a b).
(** mesh_utils.cpp:81-83 *)
Definition disk_vertices : list (list Z) := [[0; 0]; [1; 0]; [0; 1]; [-1; 0]; [0; -1]]%Z.
Definition disk_triangles : list (list nat) := [[1; 2; 0]; [2; 3; 0]; [3; 4; 0]; [4; 1; 0]]%nat.
Definition disk_segments : list (list nat) := [[1; 2]; [2; 3]; [3; 4]; [4; 1]]%nat.
(** mesh_utils.cpp:115-120 *)
Definition ball_vertices : list (list Z) := [[0; 0; 0]; [-1; 0; 0]; [0; 1; 0]; [0; 0; -1]; [0; 0; 1]; [0; -1; 0]; [1; 0; 0]]%Z.
Definition ball_triangles : list (list nat) := [[4; 5; 6]; [4; 6; 2]; [4; 2; 1]; [4; 1; 5]; [5; 1; 3]; [5; 3; 6]; [3; 1; 2]; [6; 3; 2]]%nat.
Definition ball_tetrahedra : list (list nat) := [[0; 4; 5; 6]; [0; 4; 6; 2]; [0; 4; 2; 1]; [0; 4; 1; 5]; [0; 5; 1; 3]; [0; 5; 3; 6]; [0; 3; 1; 2]; [0; 6; 3; 2]]%nat.
Definition zcorners (vs : list (list Z)) (e : list nat) : list (list Z) := map (fun i => nth i vs []) e.
Definition corners (vs : list (list Z)) (e : list nat) : list vec := map (map IZR) (zcorners vs e).
(** mesh_utils.cpp:101-103, 135-137: GetNE() < 0.5 * approx, times 4 per refinement; GetNE() < 0.25 * approx, times 8 *)
Fixpoint refine_loop (fuel : nat) (factor threshold ne approx : Z) : option Z :=
  match fuel with O => None | Datatypes.S f => if (ne * threshold <? approx)%Z then refine_loop f factor threshold (factor * ne)%Z approx else Some ne end.

Lemma n1_scale c v : n1 (scale c v) = Rabs c * n1 v.
Proof. induction v as [|x v IH]; [cbn; ring|]. change (Rabs (c * x) + n1 (scale c v) = Rabs c * (Rabs x + n1 v)). rewrite IH, Rabs_mult. ring. Qed.
Definition q2 (v : vec) : R := fold_right (fun x s => x * x + s) 0 v.
Lemma q2_nonneg v : 0 <= q2 v.
Proof. induction v as [|x v IH]; [cbn; lra|]. change (0 <= x * x + q2 v). nra. Qed.
Lemma q2_scale c v : q2 (scale c v) = c * c * q2 v.
Proof. induction v as [|x v IH]; [cbn; ring|]. change (c * x * (c * x) + q2 (scale c v) = c * c * (x * x + q2 v)). rewrite IH. ring. Qed.
Lemma n2_scale c v : n2 (scale c v) = Rabs c * n2 v.
Proof. unfold n2. change (sqrt (q2 (scale c v)) = Rabs c * sqrt (q2 v)). rewrite q2_scale, sqrt_mult by (try apply q2_nonneg; nra). f_equal. apply sqrt_Rsqr_abs. Qed.
Lemma n1_nonneg v : 0 <= n1 v.
Proof. induction v as [|x v IH]; [cbn; lra|]. change (0 <= Rabs x + n1 v). pose proof (Rabs_pos x). lra. Qed.
Lemma n2_nonneg v : 0 <= n2 v.
Proof. apply sqrt_pos. Qed.
Lemma small_pos : 0 < / 10 ^ 6.
Proof. apply Rinv_0_lt_compat, pow_lt. lra. Qed.
(** the image has as second norm the first norm of the vertex, and its direction *)
Lemma squish_norm v : / 10 ^ 6 <= n2 v -> n2 (squish v) = n1 v /\ squish v = scale (n1 v / n2 v) v.
Proof.
  intros H. pose proof small_pos as Hp. unfold squish. destruct (Rlt_dec (n2 v) (/ 10 ^ 6)) as [L|_]; [lra|]. split; [|reflexivity]. rewrite n2_scale, Rabs_pos_eq.
  - field. lra.
  - apply Rmult_le_pos; [apply n1_nonneg|]. apply Rlt_le, Rinv_0_lt_compat. lra.
Qed.
Lemma squish_center v : n2 v < / 10 ^ 6 -> squish v = scale 0 v.
Proof. intros H. unfold squish. destruct (Rlt_dec (n2 v) (/ 10 ^ 6)); [reflexivity|lra]. Qed.
Lemma squish_ball v : n2 (squish v) <= n1 v.
Proof.
  destruct (Rlt_dec (n2 v) (/ 10 ^ 6)) as [L|L]; [|right; apply squish_norm; lra]. rewrite (squish_center v L), n2_scale, Rabs_R0, Rmult_0_l. apply n1_nonneg.
Qed.
(** onto: outside a neighbourhood of the centre every point of the ball is the image of a point of the L1 ball *)
Lemma q2_le_n1 v : q2 v <= n1 v * n1 v.
Proof.
  induction v as [|x v IH]; [cbn; lra|]. change (x * x + q2 v <= (Rabs x + n1 v) * (Rabs x + n1 v)). pose proof (Rabs_pos x). pose proof (n1_nonneg v). assert (x * x = Rabs x * Rabs x) by (rewrite <- Rabs_mult; symmetry; apply Rabs_pos_eq; nra). nra.
Qed.
Lemma n2_le_n1 v : n2 v <= n1 v.
Proof. unfold n2. change (sqrt (q2 v) <= n1 v). rewrite <- (sqrt_Rsqr (n1 v) (n1_nonneg v)). apply sqrt_le_1_alt, q2_le_n1. Qed.
Lemma coord_le v x : In x v -> Rabs x <= n2 v.
Proof.
  intros H. unfold n2. change (Rabs x <= sqrt (q2 v)). rewrite <- sqrt_Rsqr_abs. apply sqrt_le_1_alt. unfold Rsqr. induction v as [|y v IH]; [contradiction|]. change (x * x <= y * y + q2 v). destruct H as [<-|H]; [pose proof (q2_nonneg v); lra|]. specialize (IH H). nra.
Qed.
Lemma n1_le_n2 v : n1 v <= INR (length v) * n2 v.
Proof.
  assert (G : forall w, (forall x, In x w -> Rabs x <= n2 v) -> n1 w <= INR (length w) * n2 v).
  { induction w as [|y w IH]; intros H; [cbn; lra|]. change (Rabs y + n1 w <= INR (Datatypes.S (length w)) * n2 v). rewrite S_INR. pose proof (H y (or_introl eq_refl)). pose proof (IH (fun x Hx => H x (or_intror Hx))). lra. }
  apply G. apply coord_le.
Qed.
Lemma scale_scale c d v : scale c (scale d v) = scale (c * d) v.
Proof. unfold scale. rewrite map_map. apply map_ext. intros x. ring. Qed.
Lemma scale_one v : scale 1 v = v.
Proof. unfold scale. rewrite <- (map_id v) at 2. apply map_ext. intros x. ring. Qed.
Lemma squish_onto w : 0 < n2 w <= 1 -> / 10 ^ 6 * n1 w <= n2 w * n2 w -> exists v, n1 v = n2 w /\ n1 v <= 1 /\ squish v = w.
Proof.
  intros [H0 H1] Hs. pose proof (n2_le_n1 w) as H2. assert (Hn : 0 < n1 w) by lra. exists (scale (n2 w / n1 w) w).
  assert (Hc : 0 < n2 w / n1 w) by (apply Rdiv_lt_0_compat; lra).
  assert (E1 : n1 (scale (n2 w / n1 w) w) = n2 w) by (rewrite n1_scale, Rabs_pos_eq by lra; field; lra). split; [exact E1|]. split; [lra|].
  assert (E2 : n2 (scale (n2 w / n1 w) w) = n2 w * n2 w / n1 w) by (rewrite n2_scale, Rabs_pos_eq by lra; field; lra).
  assert (L : / 10 ^ 6 <= n2 (scale (n2 w / n1 w) w)). { rewrite E2. apply Rmult_le_reg_r with (n1 w); [exact Hn|]. replace (n2 w * n2 w / n1 w * n1 w) with (n2 w * n2 w) by (field; lra). exact Hs. }
  destruct (squish_norm _ L) as [_ ->]. rewrite E1, E2, scale_scale. transitivity (scale 1 w); [f_equal; field; lra|apply scale_one].
Qed.
(** one to one outside that neighbourhood *)
Lemma squish_one_to_one v w : / 10 ^ 6 <= n2 v -> / 10 ^ 6 <= n2 w -> squish v = squish w -> v = w.
Proof.
  intros Hv Hw E. pose proof small_pos as Hp. destruct (squish_norm v Hv) as [N1 S1]. destruct (squish_norm w Hw) as [N2 S2].
  assert (P1 : 0 < n1 v) by (pose proof (n2_le_n1 v); lra). assert (P2 : 0 < n1 w) by (pose proof (n2_le_n1 w); lra).
  set (c := n1 v / n2 v) in *. set (d := n1 w / n2 w) in *. assert (Hc : 0 < c) by (apply Rdiv_lt_0_compat; lra). assert (Hd : 0 < d) by (apply Rdiv_lt_0_compat; lra).
  assert (F : v = scale (/ c) (scale c v)) by (rewrite scale_scale, Rinv_l, scale_one by lra; reflexivity). assert (G : w = scale (/ d) (scale d w)) by (rewrite scale_scale, Rinv_l, scale_one by lra; reflexivity).
  rewrite S1, S2 in E. assert (A1 : n1 (scale c v) = c * n1 v) by (rewrite n1_scale, Rabs_pos_eq; lra). assert (A2 : n1 (scale d w) = d * n1 w) by (rewrite n1_scale, Rabs_pos_eq; lra).
  assert (M : n1 v = n1 w). { rewrite <- N1, <- N2, S1, S2, E. reflexivity. }
  assert (CD : c = d). { rewrite E in A1. rewrite A1 in A2. rewrite M in A2. apply Rmult_eq_reg_r with (n1 w); lra. } rewrite F, G, E, CD. reflexivity.
Qed.
(** ** boundary vertices of the refined meshes *)
Definition orthant (s v : vec) : Prop := Forall2 (fun a b => (a = 1 \/ a = -1) /\ 0 <= a * b) s v.
Lemma orthant_n1 s v : orthant s v -> n1 v = dotp s v.
Proof.
  intros H. induction H as [|a b s v [Ha Hb] H IH]; [reflexivity|]. change (Rabs b + n1 v = a * b + dotp s v). rewrite IH. f_equal. destruct Ha as [-> | ->]; [rewrite Rabs_pos_eq; lra|rewrite Rabs_left1; lra].
Qed.
Lemma orthant_mid s a b : orthant s a -> orthant s b -> orthant s (mid a b) /\ dotp s (mid a b) = (dotp s a + dotp s b) / 2.
Proof.
  intros H. revert b. induction H as [|x y s v [Ha Hb] H IH]; intros b Hb'; inversion Hb' as [|x' y' s' v' [Hc Hd] Hb'']; subst; [split; [constructor|cbn; field]|]. destruct (IH _ Hb'') as [G1 G2]. cbn [mid dotp]. split; [constructor; [split; [exact Ha|]; lra|exact G1]|]. rewrite G2. field.
Qed.
Lemma reach_orthant s cs lo hi : (forall v, In v cs -> orthant s v /\ lo <= dotp s v <= hi) -> forall v, reach cs v -> orthant s v /\ lo <= dotp s v <= hi.
Proof. intros H v R0. induction R0 as [v Hv|a b _ [I1 I2] _ [J1 J2]]; [now apply H|]. destruct (orthant_mid s a b I1 J1) as [G1 ->]. split; [exact G1|lra]. Qed.
Lemma orthant_length s v : orthant s v -> length v = length s.
Proof. intros H. induction H; cbn; lia. Qed.
Definition zorth (s v : list Z) : bool := (length s =? length v)%nat && forallb (fun p => (Z.eqb (fst p) 1 || Z.eqb (fst p) (-1)) && (0 <=? fst p * snd p)%Z) (combine s v).
Fixpoint zdot (a b : list Z) : Z := match a, b with x :: a', y :: b' => (x * y + zdot a' b')%Z | _, _ => 0%Z end.
Lemma zorth_ok s : forall v, zorth s v = true -> orthant (map IZR s) (map IZR v) /\ dotp (map IZR s) (map IZR v) = IZR (zdot s v).
Proof.
  induction s as [|a s IH]; intros [|b v] H; cbn in H; try discriminate; [split; [constructor|reflexivity]|]. unfold zorth in H. cbn [length combine forallb fst snd] in H. rewrite !andb_true_iff in H. destruct H as [H1 [[H2 H3] H4]].
  destruct (IH v) as [G1 G2]. { unfold zorth. rewrite H4, andb_true_r. exact H1. } split.
  - constructor; [|exact G1]. split; [apply orb_true_iff in H2; destruct H2 as [H2|H2]; apply Z.eqb_eq in H2; subst; [left|right]; reflexivity|]. rewrite <- mult_IZR. apply IZR_le. lia.
  - cbn [map dotp zdot]. rewrite G2, plus_IZR, mult_IZR. reflexivity.
Qed.
Definition signs (n : nat) : list (list Z) := match n with 2%nat => [[1; 1]; [1; -1]; [-1; 1]; [-1; -1]]%Z | _ => [[1; 1; 1]; [1; 1; -1]; [1; -1; 1]; [1; -1; -1]; [-1; 1; 1]; [-1; 1; -1]; [-1; -1; 1]; [-1; -1; -1]]%Z end.
Definition fits (n : nat) (vs : list (list Z)) (lo hi : Z) (e : list nat) : bool := existsb (fun s => forallb (fun v => zorth s v && (lo <=? zdot s v)%Z && (zdot s v <=? hi)%Z) (zcorners vs e)) (signs n).
Lemma fits_ok n vs lo hi e v : fits n vs lo hi e = true -> reach (corners vs e) v -> IZR lo <= n1 v <= IZR hi /\ exists s, In s (signs n) /\ length v = length s.
Proof.
  intros H R0. apply existsb_exists in H. destruct H as [s [Hs H]]. rewrite forallb_forall in H.
  destruct (reach_orthant (map IZR s) (corners vs e) (IZR lo) (IZR hi)) with (v := v) as [G1 G2]; [|exact R0|].
  - intros w Hw. unfold corners in Hw. apply in_map_iff in Hw. destruct Hw as [z [<- Hz]]. specialize (H z Hz). rewrite !andb_true_iff in H. destruct H as [[H1 H2] H3]. destruct (zorth_ok s z H1) as [O ->]. split; [exact O|]. split; apply IZR_le; lia.
  - rewrite (orthant_n1 _ _ G1). split; [exact G2|]. exists s. split; [exact Hs|]. rewrite (orthant_length _ _ G1), map_length. reflexivity.
Qed.
Lemma n2_big v n : (1 <= n <= 3)%nat -> length v = n -> n1 v = 1 -> / 10 ^ 6 <= n2 v.
Proof.
  intros Hn L E. pose proof (n1_le_n2 v) as H. rewrite E, L in H. pose proof (n2_nonneg v). assert (INR n <= 3) by (replace 3 with (INR 3) by (cbn; lra); apply le_INR; lia). assert (/ 3 <= n2 v) by nra. apply Rle_trans with (/ 3); [|assumption]. apply Rinv_le_contravar; [lra|]. lra.
Qed.
Lemma signs_len n s : In s (signs n) -> (1 <= length s <= 3)%nat.
Proof. unfold signs. destruct n as [|[|[|n]]]; cbn; intros H; repeat (destruct H as [<-|H]; [cbn; lia|]); contradiction. Qed.
Lemma boundary_ok n vs e v : fits n vs 1 1 e = true -> reach (corners vs e) v -> n2 (squish v) = 1.
Proof.
  intros H R0. destruct (fits_ok _ _ _ _ _ _ H R0) as [E [s [Hs L]]]. assert (E1 : n1 v = 1) by lra. rewrite <- E1. apply squish_norm. apply (n2_big v (length s)); auto. eapply signs_len; eauto.
Qed.
Lemma inside_ok n vs e v : fits n vs 0 1 e = true -> reach (corners vs e) v -> n2 (squish v) <= 1.
Proof. intros H R0. destruct (fits_ok _ _ _ _ _ _ H R0) as [E _]. eapply Rle_trans; [apply squish_ball|lra]. Qed.
Lemma disk_ok : (forall e v, In e disk_segments -> reach (corners disk_vertices e) v -> n2 (squish v) = 1) /\ (forall e v, In e disk_triangles -> reach (corners disk_vertices e) v -> n2 (squish v) <= 1).
Proof.
  assert (A : forallb (fits 2 disk_vertices 1 1) disk_segments = true) by reflexivity. assert (B : forallb (fits 2 disk_vertices 0 1) disk_triangles = true) by reflexivity. rewrite forallb_forall in A, B.
  split; intros e v He; [apply (boundary_ok 2)|apply (inside_ok 2)]; auto.
Qed.
Lemma ball_ok : (forall e v, In e ball_triangles -> reach (corners ball_vertices e) v -> n2 (squish v) = 1) /\ (forall e v, In e ball_tetrahedra -> reach (corners ball_vertices e) v -> n2 (squish v) <= 1).
Proof.
  assert (A : forallb (fits 3 ball_vertices 1 1) ball_triangles = true) by reflexivity. assert (B : forallb (fits 3 ball_vertices 0 1) ball_tetrahedra = true) by reflexivity. rewrite forallb_forall in A, B.
  split; intros e v He; [apply (boundary_ok 3)|apply (inside_ok 3)]; auto.
Qed.
(** the boundary elements are the faces opposite the centre, and the elements are positively oriented *)
Definition zdet3 (a b c : list Z) : Z := match a, b, c with [a1; a2; a3], [b1; b2; b3], [c1; c2; c3] => (a1 * (b2 * c3 - b3 * c2) - a2 * (b1 * c3 - b3 * c1) + a3 * (b1 * c2 - b2 * c1))%Z | _, _, _ => 0%Z end.
Definition zdet2 (a b : list Z) : Z := match a, b with [a1; a2], [b1; b2] => (a1 * b2 - a2 * b1)%Z | _, _ => 0%Z end.
Lemma coarse_ok : map (fun t => removelast t) disk_triangles = disk_segments /\ map (fun t => tl t) ball_tetrahedra = ball_triangles /\
  Forall (fun t => match zcorners disk_vertices t with [a; b; _] => zdet2 a b = 1%Z | _ => False end) disk_triangles /\
  Forall (fun t => match zcorners ball_vertices t with [_; a; b; c] => Z.abs (zdet3 a b c) = 1%Z | _ => False end) ball_tetrahedra.
Proof. repeat split; repeat constructor. Qed.
(** ** number of elements *)
Lemma refine_loop_ok factor threshold approx : (2 <= factor)%Z -> (1 <= threshold)%Z -> forall fuel ne, (1 <= ne)%Z -> (approx < ne + Z.of_nat fuel)%Z -> exists k r, refine_loop (Datatypes.S fuel) factor threshold ne approx = Some r /\
  (r = ne * factor ^ Z.of_nat k)%Z /\ (approx <= r * threshold)%Z /\ (k = O \/ (r * threshold < approx * factor)%Z).
Proof.
  intros Hf Ht. induction fuel as [|fuel IH]; intros ne Hn Hfuel; cbn [refine_loop]; destruct (ne * threshold <? approx)%Z eqn:E.
  - apply Z.ltb_lt in E. nia.
  - apply Z.ltb_ge in E. exists O, ne. rewrite Z.pow_0_r. repeat split; lia.
  - apply Z.ltb_lt in E. destruct (IH (factor * ne)%Z) as [k [r [E1 [E2 [E3 E4]]]]]; [nia|nia|]. exists (Datatypes.S k), r. split; [exact E1|]. split; [rewrite Nat2Z.inj_succ, Z.pow_succ_r by lia; rewrite E2; ring|]. split; [exact E3|]. right.
    destruct E4 as [->|E4]; [|exact E4]. rewrite Z.pow_0_r in E2. nia.
  - apply Z.ltb_ge in E. exists O, ne. rewrite Z.pow_0_r. repeat split; lia.
Qed.
Definition disk_count (approx : Z) : option Z := refine_loop (Datatypes.S (Z.to_nat approx)) 4 2 4 approx.
Definition ball_count (approx : Z) : option Z := refine_loop (Datatypes.S (Z.to_nat approx)) 8 4 8 approx.
Lemma counts_ok approx : (exists k n, disk_count approx = Some n /\ n = (4 * 4 ^ Z.of_nat k)%Z /\ (approx <= 2 * n)%Z /\ (n = 4 \/ n < 2 * approx)%Z) /\ (exists k n, ball_count approx = Some n /\ n = (8 * 8 ^ Z.of_nat k)%Z /\ (approx <= 4 * n)%Z /\ (n = 8 \/ n < 2 * approx)%Z).
Proof.
  split.
  - destruct (refine_loop_ok 4 2 approx ltac:(lia) ltac:(lia) (Z.to_nat approx) 4) as [k [n [E1 [E2 [E3 E4]]]]]; [lia|lia|]. exists k, n. repeat split; auto; [lia|]. destruct E4 as [->|E4]; [left; rewrite E2; reflexivity|right; lia].
  - destruct (refine_loop_ok 8 4 approx ltac:(lia) ltac:(lia) (Z.to_nat approx) 8) as [k [n [E1 [E2 [E3 E4]]]]]; [lia|lia|]. exists k, n. repeat split; auto; [lia|]. destruct E4 as [->|E4]; [left; rewrite E2; reflexivity|right; lia].
Qed.

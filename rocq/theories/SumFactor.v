(** * Interpolation and integration by successive 1D contractions (C34) *)
From Coq Require Import Reals Lra Lia List Arith.
From Coquelicot Require Import Coquelicot.
From Verif Require Import Sums Quadrature ShapeDefs ShapeFacts ShapeGrad ShapeTensor.
Import ListNotations.
Local Open Scope R_scope.

(** ** the code *)
Notation mat := (nat -> nat -> R) (only parsing).
Notation cub := (nat -> nat -> nat -> R) (only parsing).
(** which index of the left operand is summed, and which of the right (tensor.hpp:1344-1410).
    [len] is the extent of the summed index; entries outside the tensors are never read below *)
Inductive axis := ax0 | ax1 | ax2.
Inductive side := by_rows | by_cols.
Definition entry (i2 : side) (B : mat) (l new : nat) : R := match i2 with by_rows => B l new | by_cols => B new l end.
Definition contract2 (i1 : bool) (i2 : side) (len : nat) (A B : mat) : mat :=
  fun i j => if i1 then sumn len (fun k => A i k * entry i2 B k j) else sumn len (fun k => A k j * entry i2 B k i).
Definition contract3 (i1 : axis) (i2 : side) (len : nat) (A : cub) (B : mat) : cub :=
  fun i j k => match i1 with
    | ax0 => sumn len (fun l => A l j k * entry i2 B l i)
    | ax1 => sumn len (fun l => A i l k * entry i2 B l j)
    | ax2 => sumn len (fun l => A i j l * entry i2 B l k)
    end.
(** 1D rule: weights and points; calculate_B and calculate_G (quadrilateral_H1.inl:122-153, hexahedron_H1.inl:97-128) *)
Notation rule1 := (list (R * R)) (only parsing).
Definition xq (t : rule1) (i : nat) : R := snd (nth i t (0, 0)).
Definition wq (t : rule1) (i : nat) : R := fst (nth i t (0, 0)).
Definition calculate_B (s : R) (n : nat) (apply_weights : bool) (t : rule1) : mat :=
  fun i j => let v := nth j (lob_list s n (xq t i)) 0 in if apply_weights then v * wq t i else v.
Definition calculate_G (s : R) (n : nat) (apply_weights : bool) (t : rule1) : mat :=
  fun i j => let v := nth j (lob_d_list s n (xq t i)) 0 in if apply_weights then v * wq t i else v.
(** quadrilateral_H1.inl:205-239: value and gradient of one component at the flat quadrature point Q *)
Definition quad_interpolate (s : R) (p : nat) (t : rule1) (X : mat) (Q : nat) : R * list R :=
  let n := (p + 1)%nat in let q := length t in
  let B := calculate_B s n false t in let G := calculate_G s n false t in
  let A0 := contract2 true by_cols n X B in
  let A1 := contract2 true by_cols n X G in
  let value := contract2 false by_cols n A0 B in
  let g0 := contract2 false by_cols n A1 B in
  let g1 := contract2 false by_cols n A0 G in
  (value (Q / q) (Q mod q), [g0 (Q / q) (Q mod q); g1 (Q / q) (Q mod q)])%nat.
(** quadrilateral_H1.inl:263-289: the increment of entry (i, (jy, jx)) for trial column j;
    [src Q] and [flx Q] are the doubles of the source and flux at point Q *)
Definition quad_increment (s : R) (p : nat) (t : rule1) (ntrial : nat) (src flx : nat -> nat -> R) (j i : nat) : mat :=
  let n := (p + 1)%nat in let q := length t in
  let B := calculate_B s n true t in let G := calculate_G s n true t in
  let source := fun qy qx => src (qy * q + qx)%nat (i * ntrial + j)%nat in
  let flux := fun k qy qx => flx (qy * q + qx)%nat ((i * 2 + k) * ntrial + j)%nat in
  let A0 := fun a b => contract2 true by_rows q source B a b + contract2 true by_rows q (flux 0%nat) G a b in
  let A1 := contract2 true by_rows q (flux 1%nat) B in
  fun jy jx => contract2 false by_rows q A0 B jy jx + contract2 false by_rows q A1 G jy jx.
(** hexahedron_H1.inl:170-229 *)
Definition hex_interpolate (s : R) (p : nat) (t : rule1) (X : cub) (Q : nat) : R * list R :=
  let n := (p + 1)%nat in let q := length t in
  let B := calculate_B s n false t in let G := calculate_G s n false t in
  let A10 := contract3 ax2 by_cols n X B in
  let A11 := contract3 ax2 by_cols n X G in
  let A20 := contract3 ax1 by_cols n A10 B in
  let A21 := contract3 ax1 by_cols n A11 B in
  let A22 := contract3 ax1 by_cols n A10 G in
  let value := contract3 ax0 by_cols n A20 B in
  let g0 := contract3 ax0 by_cols n A21 B in
  let g1 := contract3 ax0 by_cols n A22 B in
  let g2 := contract3 ax0 by_cols n A20 G in
  let qz := (Q / q / q)%nat in let qy := ((Q / q) mod q)%nat in let qx := (Q mod q)%nat in
  (value qz qy qx, [g0 qz qy qx; g1 qz qy qx; g2 qz qy qx]).
(** hexahedron_H1.inl:246-278 *)
Definition hex_increment (s : R) (p : nat) (t : rule1) (ntrial : nat) (src flx : nat -> nat -> R) (j i : nat) : cub :=
  let n := (p + 1)%nat in let q := length t in
  let B := calculate_B s n true t in let G := calculate_G s n true t in
  let source := fun qz qy qx => src ((qz * q + qy) * q + qx)%nat (i * ntrial + j)%nat in
  let flux := fun k qz qy qx => flx ((qz * q + qy) * q + qx)%nat ((i * 3 + k) * ntrial + j)%nat in
  let A20 := fun a b c => contract3 ax2 by_rows q source B a b c + contract3 ax2 by_rows q (flux 0%nat) G a b c in
  let A21 := contract3 ax2 by_rows q (flux 1%nat) B in
  let A22 := contract3 ax2 by_rows q (flux 2%nat) B in
  let A10 := fun a b c => contract3 ax1 by_rows q A20 B a b c + contract3 ax1 by_rows q A21 G a b c in
  let A11 := contract3 ax1 by_rows q A22 B in
  fun jz jy jx => contract3 ax0 by_rows q A10 B jz jy jx + contract3 ax0 by_rows q A11 G jz jy jx.
(** segment_H1.inl:124-186 *)
Definition seg_interpolate (s : R) (p : nat) (t : rule1) (X : nat -> R) (Q : nat) : R * list R :=
  let n := (p + 1)%nat in
  (sumn n (fun j => calculate_B s n false t Q j * X j), [sumn n (fun j => calculate_G s n false t Q j * X j)]).
Definition seg_increment (s : R) (p : nat) (t : rule1) (ntrial : nat) (src flx : nat -> nat -> R) (j i : nat) : nat -> R :=
  let n := (p + 1)%nat in let q := length t in
  fun jx => sumn q (fun Q => src Q (i * ntrial + j)%nat * calculate_B s n true t Q jx) + sumn q (fun Q => flx Q (i * ntrial + j)%nat * calculate_G s n true t Q jx).
(** triangle_H1.inl:268-335, tetrahedron_H1.inl:363-438: plain sums *)
Definition simplex_interpolate (shape : list R -> list R) (grad : list R -> list (list R)) (d ndof : nat) (t : list (R * list R)) (X : nat -> R) (Q : nat) : R * list R :=
  let xi := snd (nth Q t (0, [])) in
  (sumn ndof (fun k => X k * nth k (shape xi) 0), map (fun a => sumn ndof (fun k => X k * nth a (nth k (grad xi) []) 0)) (seq 0 d)).
Definition simplex_increment (shape : list R -> list R) (grad : list R -> list (list R)) (d : nat) (t : list (R * list R)) (ntrial : nat) (src flx : nat -> nat -> R) (j i : nat) : nat -> R :=
  fun k => sumn (length t) (fun Q => let xi := snd (nth Q t (0, [])) in
    (src Q (i * ntrial + j)%nat * nth k (shape xi) 0 + sumn d (fun a => flx Q ((i * d + a) * ntrial + j)%nat * nth a (nth k (grad xi) []) 0)) * fst (nth Q t (0, []))).
(** the loops over trial columns and components (quadrilateral_H1.inl:266-267, 289): element_residual[j * step](i) += ... *)
Definition add_increments (ntrial step c : nat) (inc : nat -> nat -> nat -> R) (res : nat -> nat -> nat -> R) : nat -> nat -> nat -> R :=
  fold_left (fun r j => fold_left (fun r i => fun m a k => if (Nat.eqb m (j * step) && Nat.eqb a i)%bool then r m a k + inc j i k else r m a k) (seq 0 c) r) (seq 0 ntrial) res.
(** ** specification: direct evaluation of the shape functions at the points of a rule *)
Definition spec_value (shape : list R -> list R) (ndof : nat) (X : nat -> R) (pt : list R) : R := sumn ndof (fun k => X k * nth k (shape pt) 0).
Definition spec_grad (grad : list R -> list (list R)) (ndof : nat) (X : nat -> R) (a : nat) (pt : list R) : R := sumn ndof (fun k => X k * nth a (nth k (grad pt) []) 0).
Definition spec_residual (shape : list R -> list R) (grad : list R -> list (list R)) (d : nat) (t : list (R * list R)) (src : nat -> R) (flx : nat -> nat -> R) (k : nat) : R :=
  sumn (length t) (fun Q => fst (nth Q t (0, [])) *
    (src Q * nth k (shape (snd (nth Q t (0, [])))) 0 + sumn d (fun a => flx Q a * nth a (nth k (grad (snd (nth Q t (0, [])))) []) 0))).
Definition lift1 (t : rule1) : list (R * list R) := map (fun wx => (fst wx, [snd wx])) t.

(** ** indexing *)
Lemma flat_divmod n j i : (i < n)%nat -> ((j * n + i) / n = j /\ (j * n + i) mod n = i)%nat.
Proof.
  intros H. assert (n <> 0)%nat by lia. split.
  - rewrite Nat.div_add_l by assumption. rewrite Nat.div_small by exact H. lia.
  - rewrite Nat.add_comm, Nat.mod_add by assumption. apply Nat.mod_small. exact H.
Qed.
Lemma outer_at {A B C} (g : A -> B -> C) l m da db dc i j : (i < length l)%nat -> (j < length m)%nat ->
  nth (j * length l + i) (outer g l m) dc = g (nth i l da) (nth j m db).
Proof. intros Hi Hj. rewrite (outer_nth g l da db dc) by nia. destruct (flat_divmod (length l) j i Hi) as [-> ->]. reflexivity. Qed.
Lemma outer3_at {A B C D} (h : A -> B -> C -> D) l m n da db dc dd i j k : (i < length l)%nat -> (j < length m)%nat -> (k < length n)%nat ->
  nth ((k * length m + j) * length l + i) (flat_map (fun c => flat_map (fun b => map (fun a => h a b c) l) m) n) dd = h (nth i l da) (nth j m db) (nth k n dc).
Proof.
  intros Hi Hj Hk. rewrite <- (outer_outer (fun a b => (a, b)) (fun ab c => h (fst ab) (snd ab) c)).
  replace ((k * length m + j) * length l + i)%nat with (k * length (outer (fun (a : A) (b : B) => (a, b)) l m) + (j * length l + i))%nat by (rewrite outer_length; ring).
  rewrite (outer_at _ _ _ (da, db) dc) by (try rewrite outer_length; nia). rewrite (outer_at _ _ _ da db) by assumption. reflexivity.
Qed.
Lemma lob_len s p x : (p <= 3)%nat -> length (lob_list s (p + 1) x) = (p + 1)%nat /\ length (lob_d_list s (p + 1) x) = (p + 1)%nat.
Proof. intros Hp. destruct p as [|[|[|[|p]]]]; try lia; split; reflexivity. Qed.
Lemma lift1_nth t i : nth i (lift1 t) (0, []) = (wq t i, [xq t i]) \/ (length t <= i)%nat.
Proof.
  destruct (Nat.lt_ge_cases i (length t)) as [H|H]; [left|right; exact H]. unfold lift1, wq, xq.
  rewrite (nth_indep _ (0, []) ((fun wx => (fst wx, [snd wx])) (0, 0))) by (rewrite map_length; exact H).
  rewrite (map_nth (fun wx : R * R => (fst wx, [snd wx]))). reflexivity.
Qed.
Lemma lift1_length t : length (lift1 t) = length t.
Proof. apply map_length. Qed.
Lemma lift1_at t i : (i < length t)%nat -> nth i (lift1 t) (0, []) = (wq t i, [xq t i]).
Proof. intros H. destruct (lift1_nth t i) as [E|E]; [exact E|lia]. Qed.
Lemma square_at t qy qx : (qy < length t)%nat -> (qx < length t)%nat -> nth (qy * length t + qx) (square_rule (lift1 t)) (0, []) = (wq t qx * wq t qy, [xq t qx; xq t qy]).
Proof.
  intros Hy Hx. pose proof (outer_at (fun p q : R * list R => (fst p * fst q, snd p ++ snd q)) (lift1 t) (lift1 t) (0, []) (0, []) (0, []) qx qy) as H.
  rewrite lift1_length in H. unfold square_rule. etransitivity; [exact (H Hx Hy)|]. rewrite !lift1_at by assumption. reflexivity.
Qed.
Lemma cube_at t qz qy qx : (qz < length t)%nat -> (qy < length t)%nat -> (qx < length t)%nat ->
  nth ((qz * length t + qy) * length t + qx) (cube_rule (lift1 t)) (0, []) = (wq t qx * wq t qy * wq t qz, [xq t qx; xq t qy; xq t qz]).
Proof.
  intros Hz Hy Hx. pose proof (outer3_at (fun p q s : R * list R => (fst p * fst q * fst s, snd p ++ snd q ++ snd s)) (lift1 t) (lift1 t) (lift1 t) (0, []) (0, []) (0, []) (0, []) qx qy qz) as H.
  rewrite lift1_length in H. unfold cube_rule. etransitivity; [exact (H Hx Hy Hz)|]. rewrite !lift1_at by assumption. reflexivity.
Qed.
Lemma square_length t : length (square_rule (lift1 t)) = (length t * length t)%nat.
Proof. unfold square_rule. etransitivity; [exact (outer_length (fun p q : R * list R => (fst p * fst q, snd p ++ snd q)) (lift1 t) (lift1 t))|]. now rewrite lift1_length. Qed.
Lemma cube_length t : length (cube_rule (lift1 t)) = (length t * length t * length t)%nat.
Proof.
  unfold cube_rule. rewrite <- (outer_outer (fun a b => (a, b)) (fun pq s => (fst (fst pq) * fst (snd pq) * fst s, snd (fst pq) ++ snd (snd pq) ++ snd s))).
  rewrite !outer_length, lift1_length. ring.
Qed.
Lemma quad_fn_at s p x y jy jx : (p <= 3)%nat -> (jy < p + 1)%nat -> (jx < p + 1)%nat ->
  nth (jy * (p + 1) + jx) (quad_fn s p [x; y]) 0 = nth jx (lob_list s (p + 1) x) 0 * nth jy (lob_list s (p + 1) y) 0.
Proof.
  intros Hp Hy Hx. destruct (lob_len s p x Hp) as [L _]. destruct (lob_len s p y Hp) as [M _]. cbn [quad_fn].
  rewrite <- L at 1. exact (outer_at Rmult (lob_list s (p + 1) x) (lob_list s (p + 1) y) 0 0 0 jx jy ltac:(lia) ltac:(lia)).
Qed.
Lemma both_len s p x : (p <= 3)%nat -> length (both (lob_list s (p + 1) x) (lob_d_list s (p + 1) x)) = (p + 1)%nat.
Proof. intros Hp. destruct (lob_len s p x Hp) as [L M]. unfold both. rewrite combine_length, L, M. apply Nat.min_id. Qed.
Lemma both_nth s p x i : (p <= 3)%nat -> nth i (both (lob_list s (p + 1) x) (lob_d_list s (p + 1) x)) (0, 0) = (nth i (lob_list s (p + 1) x) 0, nth i (lob_d_list s (p + 1) x) 0).
Proof. intros Hp. destruct (lob_len s p x Hp) as [L M]. unfold both. apply combine_nth. congruence. Qed.
Lemma quad_gr_at s p x y jy jx : (p <= 3)%nat -> (jy < p + 1)%nat -> (jx < p + 1)%nat ->
  nth (jy * (p + 1) + jx) (quad_gr s p [x; y]) [] =
  [nth jx (lob_d_list s (p + 1) x) 0 * nth jy (lob_list s (p + 1) y) 0; nth jx (lob_list s (p + 1) x) 0 * nth jy (lob_d_list s (p + 1) y) 0].
Proof.
  intros Hp Hy Hx. cbn [quad_gr].
  pose proof (outer_at (fun i j : R * R => [snd i * fst j; fst i * snd j]) (both (lob_list s (p + 1) x) (lob_d_list s (p + 1) x)) (both (lob_list s (p + 1) y) (lob_d_list s (p + 1) y)) (0, 0) (0, 0) [] jx jy) as H.
  rewrite !both_len in H by exact Hp. etransitivity; [exact (H Hx Hy)|]. rewrite !both_nth by exact Hp. reflexivity.
Qed.
Lemma hex_fn_at s p x y z jz jy jx : (p <= 3)%nat -> (jz < p + 1)%nat -> (jy < p + 1)%nat -> (jx < p + 1)%nat ->
  nth ((jz * (p + 1) + jy) * (p + 1) + jx) (hex_fn s p [x; y; z]) 0 = nth jx (lob_list s (p + 1) x) 0 * nth jy (lob_list s (p + 1) y) 0 * nth jz (lob_list s (p + 1) z) 0.
Proof.
  intros Hp Hz Hy Hx. destruct (lob_len s p x Hp) as [L _]. destruct (lob_len s p y Hp) as [M _]. destruct (lob_len s p z Hp) as [N _]. cbn [hex_fn].
  pose proof (outer3_at (fun a b c => a * b * c) (lob_list s (p + 1) x) (lob_list s (p + 1) y) (lob_list s (p + 1) z) 0 0 0 0 jx jy jz) as H.
  rewrite L, M, N in H. exact (H Hx Hy Hz).
Qed.
Lemma hex_gr_at s p x y z jz jy jx : (p <= 3)%nat -> (jz < p + 1)%nat -> (jy < p + 1)%nat -> (jx < p + 1)%nat ->
  let N := fun w j => nth j (lob_list s (p + 1) w) 0 in let D := fun w j => nth j (lob_d_list s (p + 1) w) 0 in
  nth ((jz * (p + 1) + jy) * (p + 1) + jx) (hex_gr s p [x; y; z]) [] = [D x jx * N y jy * N z jz; N x jx * D y jy * N z jz; N x jx * N y jy * D z jz].
Proof.
  intros Hp Hz Hy Hx. cbn [hex_gr].
  pose proof (outer3_at (fun i j k : R * R => [snd i * fst j * fst k; fst i * snd j * fst k; fst i * fst j * snd k]) (both (lob_list s (p + 1) x) (lob_d_list s (p + 1) x))
    (both (lob_list s (p + 1) y) (lob_d_list s (p + 1) y)) (both (lob_list s (p + 1) z) (lob_d_list s (p + 1) z)) (0, 0) (0, 0) (0, 0) [] jx jy jz) as H.
  rewrite !both_len in H by exact Hp. cbv zeta. etransitivity; [exact (H Hx Hy Hz)|]. rewrite !both_nth by exact Hp. reflexivity.
Qed.

(** ** interpolation *)
Lemma split_index q Q : (Q < q * q)%nat -> (Q / q < q /\ Q mod q < q /\ Q = Q / q * q + Q mod q)%nat.
Proof.
  intros H. assert (q <> 0)%nat by nia. split; [apply Nat.div_lt_upper_bound; assumption|]. split; [apply Nat.mod_upper_bound; assumption|].
  rewrite (Nat.div_mod Q q) at 1 by assumption. lia.
Qed.
Definition flat2 (n : nat) (X : nat -> nat -> R) (k : nat) : R := X (k / n)%nat (k mod n)%nat.
Definition flat3 (n : nat) (X : nat -> nat -> nat -> R) (k : nat) : R := X (k / n / n)%nat ((k / n) mod n)%nat (k mod n)%nat.
Lemma quad_interp s p t X Q : (p <= 3)%nat -> (Q < length t * length t)%nat ->
  let pt := snd (nth Q (square_rule (lift1 t)) (0, [])) in let ndof := ((p + 1) * (p + 1))%nat in
  quad_interpolate s p t X Q =
  (spec_value (quad_fn s p) ndof (flat2 (p + 1) X) pt, map (fun a => spec_grad (quad_gr s p) ndof (flat2 (p + 1) X) a pt) (seq 0 2)).
Proof.
  intros Hp HQ. destruct (split_index _ _ HQ) as [Hy [Hx E]]. cbv zeta.
  replace (nth Q (square_rule (lift1 t)) (0, [])) with (wq t (Q mod length t) * wq t (Q / length t), [xq t (Q mod length t); xq t (Q / length t)])
    by (rewrite E at 5; symmetry; apply square_at; assumption).
  cbn [snd map seq]. unfold quad_interpolate, spec_value, spec_grad, contract2, entry, calculate_B, calculate_G, flat2. cbv zeta.
  set (x := xq t (Q mod length t)). set (y := xq t (Q / length t)).
  f_equal; [|f_equal; [|f_equal]]; rewrite sumn_mul; apply sumn_ext; intros jy Hjy; rewrite <- sumn_scal_r; apply sumn_ext; intros jx Hjx;
  destruct (flat_divmod (p + 1) jy jx Hjx) as [-> ->]; rewrite ?quad_fn_at, ?quad_gr_at by assumption; cbn [nth]; ring.
Qed.
Lemma split3 q Q : (Q < q * q * q)%nat -> (Q / q / q < q /\ (Q / q) mod q < q /\ Q mod q < q /\ Q = (Q / q / q * q + (Q / q) mod q) * q + Q mod q)%nat.
Proof.
  intros H. assert (q <> 0)%nat by nia. assert (Q / q < q * q)%nat by (apply Nat.div_lt_upper_bound; lia).
  destruct (split_index q (Q / q) H1) as [A [B C]]. split; [exact A|]. split; [exact B|]. split; [apply Nat.mod_upper_bound; assumption|].
  rewrite <- C. rewrite (Nat.div_mod Q q) at 1 by assumption. lia.
Qed.
Lemma flat_divmod3 n k j i : (j < n)%nat -> (i < n)%nat -> let m := ((k * n + j) * n + i)%nat in (m / n / n = k /\ (m / n) mod n = j /\ m mod n = i)%nat.
Proof. intros Hj Hi. cbv zeta. destruct (flat_divmod n (k * n + j) i Hi) as [-> ->]. destruct (flat_divmod n k j Hj) as [-> ->]. auto. Qed.
Lemma sumn_mul3 n f : sumn (n * n * n) f = sumn n (fun k => sumn n (fun j => sumn n (fun i => f ((k * n + j) * n + i)%nat))).
Proof. rewrite (sumn_mul (n * n) n). rewrite (sumn_mul n n). reflexivity. Qed.
Lemma hex_interp s p t X Q : (p <= 3)%nat -> (Q < length t * length t * length t)%nat ->
  let pt := snd (nth Q (cube_rule (lift1 t)) (0, [])) in let ndof := ((p + 1) * (p + 1) * (p + 1))%nat in
  hex_interpolate s p t X Q =
  (spec_value (hex_fn s p) ndof (flat3 (p + 1) X) pt, map (fun a => spec_grad (hex_gr s p) ndof (flat3 (p + 1) X) a pt) (seq 0 3)).
Proof.
  intros Hp HQ. destruct (split3 _ _ HQ) as [Hz [Hy [Hx E]]]. cbv zeta.
  set (qx := (Q mod length t)%nat) in *. set (qy := ((Q / length t) mod length t)%nat) in *. set (qz := (Q / length t / length t)%nat) in *.
  replace (nth Q (cube_rule (lift1 t)) (0, [])) with (wq t qx * wq t qy * wq t qz, [xq t qx; xq t qy; xq t qz]) by (rewrite E; symmetry; apply cube_at; assumption).
  cbn [snd map seq]. unfold hex_interpolate, spec_value, spec_grad, contract3, entry, calculate_B, calculate_G, flat3. cbv zeta. fold qx qy qz.
  set (x := xq t qx). set (y := xq t qy). set (z := xq t qz).
  f_equal; [|f_equal; [|f_equal; [|f_equal]]]; rewrite sumn_mul3; apply sumn_ext; intros jz Hjz; rewrite <- sumn_scal_r; apply sumn_ext; intros jy Hjy;
  rewrite <- !sumn_scal_r; apply sumn_ext; intros jx Hjx;
  destruct (flat_divmod3 (p + 1) jz jy jx Hjy Hjx) as [-> [-> ->]]; rewrite ?hex_fn_at, ?hex_gr_at by assumption; cbn [nth]; ring.
Qed.
Lemma seg_interp s p t X Q : (p <= 3)%nat -> (Q < length t)%nat -> let pt := snd (nth Q (lift1 t) (0, [])) in
  seg_interpolate s p t X Q = (spec_value (seg_fn s p) (p + 1) X pt, map (fun a => spec_grad (seg_gr s p) (p + 1) X a pt) (seq 0 1)).
Proof.
  intros Hp HQ. cbv zeta. rewrite lift1_at by exact HQ. cbn [snd map seq]. unfold seg_interpolate, spec_value, spec_grad, calculate_B, calculate_G. cbv zeta. cbn [seg_fn seg_gr].
  f_equal; [|f_equal]; apply sumn_ext; intros j Hj; [ring|]. destruct (lob_len s p (xq t Q) Hp) as [_ L].
  rewrite (nth_indep _ [] ((fun v => [v]) 0)) by (rewrite map_length, L; exact Hj). rewrite (map_nth (fun v => [v])). cbn [nth]. ring.
Qed.
Lemma simplex_interp shape grad d ndof t X Q : simplex_interpolate shape grad d ndof t X Q =
  (spec_value shape ndof X (snd (nth Q t (0, []))), map (fun a => spec_grad grad ndof X a (snd (nth Q t (0, [])))) (seq 0 d)).
Proof. reflexivity. Qed.

(** ** integration *)
Lemma quad_integ s p t ntrial src flx j i k : (p <= 3)%nat -> (k < (p + 1) * (p + 1))%nat ->
  flat2 (p + 1) (quad_increment s p t ntrial src flx j i) k =
  spec_residual (quad_fn s p) (quad_gr s p) 2 (square_rule (lift1 t)) (fun Q => src Q (i * ntrial + j)%nat) (fun Q a => flx Q ((i * 2 + a) * ntrial + j)%nat) k.
Proof.
  intros Hp Hk. destruct (split_index _ _ Hk) as [Ky [Kx E]]. unfold flat2. set (jy := (k / (p + 1))%nat) in *. set (jx := (k mod (p + 1))%nat) in *.
  unfold spec_residual. rewrite square_length, sumn_mul. unfold quad_increment, contract2, entry, calculate_B, calculate_G. cbv zeta. rewrite <- sumn_plus. apply sumn_ext. intros qy Hqy.
  transitivity (sumn (length t) (fun qx => wq t qx * wq t qy *
    (src (qy * length t + qx)%nat (i * ntrial + j)%nat * (nth jx (lob_list s (p + 1) (xq t qx)) 0 * nth jy (lob_list s (p + 1) (xq t qy)) 0) +
     (flx (qy * length t + qx)%nat ((i * 2 + 0) * ntrial + j)%nat * (nth jx (lob_d_list s (p + 1) (xq t qx)) 0 * nth jy (lob_list s (p + 1) (xq t qy)) 0) +
      flx (qy * length t + qx)%nat ((i * 2 + 1) * ntrial + j)%nat * (nth jx (lob_list s (p + 1) (xq t qx)) 0 * nth jy (lob_d_list s (p + 1) (xq t qy)) 0))))).
  - rewrite <- sumn_plus, <- !sumn_scal_r, <- sumn_plus. apply sumn_ext. intros qx Hqx. ring.
  - apply sumn_ext. intros qx Hqx. rewrite (square_at t qy qx Hqy Hqx). cbn [fst snd sumn]. rewrite E. rewrite !quad_fn_at, !quad_gr_at by assumption. cbn [nth]. ring.
Qed.
Lemma hex_integ s p t ntrial src flx j i k : (p <= 3)%nat -> (k < (p + 1) * (p + 1) * (p + 1))%nat ->
  flat3 (p + 1) (hex_increment s p t ntrial src flx j i) k =
  spec_residual (hex_fn s p) (hex_gr s p) 3 (cube_rule (lift1 t)) (fun Q => src Q (i * ntrial + j)%nat) (fun Q a => flx Q ((i * 3 + a) * ntrial + j)%nat) k.
Proof.
  intros Hp Hk. destruct (split3 _ _ Hk) as [Kz [Ky [Kx E]]]. unfold flat3. set (jz := (k / (p + 1) / (p + 1))%nat) in *. set (jy := ((k / (p + 1)) mod (p + 1))%nat) in *. set (jx := (k mod (p + 1))%nat) in *.
  unfold spec_residual. rewrite cube_length, sumn_mul3. unfold hex_increment, contract3, entry, calculate_B, calculate_G. cbv zeta. rewrite <- sumn_plus. apply sumn_ext. intros qz Hqz.
  rewrite <- sumn_plus, <- !sumn_scal_r, <- sumn_plus. apply sumn_ext. intros qy Hqy.
  rewrite <- sumn_plus, <- !sumn_scal_r, <- !sumn_plus, <- !sumn_scal_r, <- sumn_plus. apply sumn_ext. intros qx Hqx.
  rewrite (cube_at t qz qy qx Hqz Hqy Hqx). cbn [fst snd sumn]. rewrite E. rewrite !hex_fn_at, !hex_gr_at by assumption. cbn [nth]. ring.
Qed.
Lemma seg_integ s p t ntrial src flx j i k : (p <= 3)%nat -> (k < p + 1)%nat ->
  seg_increment s p t ntrial src flx j i k =
  spec_residual (seg_fn s p) (seg_gr s p) 1 (lift1 t) (fun Q => src Q (i * ntrial + j)%nat) (fun Q a => flx Q ((i * 1 + a) * ntrial + j)%nat) k.
Proof.
  intros Hp Hk. unfold seg_increment, spec_residual, calculate_B, calculate_G. cbv zeta. rewrite lift1_length, <- sumn_plus. apply sumn_ext. intros Q HQ.
  rewrite lift1_at by exact HQ. cbn [fst snd sumn seg_fn seg_gr]. destruct (lob_len s p (xq t Q) Hp) as [_ L].
  rewrite (nth_indep _ [] ((fun v => [v]) 0)) by (rewrite map_length, L; exact Hk). rewrite (map_nth (fun v => [v])). cbn [nth].
  replace ((i * 1 + 0) * ntrial + j)%nat with (i * ntrial + j)%nat by lia. ring.
Qed.
Lemma simplex_integ shape grad d t ntrial src flx j i k :
  simplex_increment shape grad d t ntrial src flx j i k = spec_residual shape grad d t (fun Q => src Q (i * ntrial + j)%nat) (fun Q a => flx Q ((i * d + a) * ntrial + j)%nat) k.
Proof. unfold simplex_increment, spec_residual. apply sumn_ext. intros Q _. cbv zeta. ring. Qed.

(** ** integration is the weighted transpose of interpolation *)
Lemma spec_transpose shape grad d t src flx ndof X :
  sumn ndof (fun k => X k * spec_residual shape grad d t src flx k) =
  sumn (length t) (fun Q => fst (nth Q t (0, [])) * (src Q * spec_value shape ndof X (snd (nth Q t (0, []))) + sumn d (fun a => flx Q a * spec_grad grad ndof X a (snd (nth Q t (0, [])))))).
Proof.
  unfold spec_residual, spec_value, spec_grad.
  transitivity (sumn ndof (fun k => sumn (length t) (fun Q => X k * (fst (nth Q t (0, [])) * (src Q * nth k (shape (snd (nth Q t (0, [])))) 0 + sumn d (fun a => flx Q a * nth a (nth k (grad (snd (nth Q t (0, [])))) []) 0)))))).
  { apply sumn_ext. intros k _. now rewrite sumn_scal_l. }
  rewrite sumn_swap. apply sumn_ext. intros Q _. set (w := fst (nth Q t (0, []))). set (xi := snd (nth Q t (0, []))).
  replace (sumn d (fun a => flx Q a * sumn ndof (fun k => X k * nth a (nth k (grad xi) []) 0))) with (sumn ndof (fun k => X k * sumn d (fun a => flx Q a * nth a (nth k (grad xi) []) 0))).
  - rewrite <- (sumn_scal_l ndof (src Q)), <- sumn_plus, <- sumn_scal_l. apply sumn_ext. intros k _. ring.
  - transitivity (sumn ndof (fun k => sumn d (fun a => flx Q a * (X k * nth a (nth k (grad xi) []) 0)))).
    + apply sumn_ext. intros k _. rewrite <- sumn_scal_l. apply sumn_ext. intros a _. ring.
    + rewrite sumn_swap. apply sumn_ext. intros a _. now rewrite sumn_scal_l.
Qed.

(** ** the trial-column and component loops *)
Lemma inner_loop step j (inc : nat -> nat -> nat -> R) c : forall r m a k, let r' := fold_left (fun r i => fun m a k => if (Nat.eqb m (j * step) && Nat.eqb a i)%bool then r m a k + inc j i k else r m a k) (seq 0 c) r in
  r' m a k = if (Nat.eqb m (j * step) && Nat.ltb a c)%bool then r m a k + inc j a k else r m a k.
Proof.
  induction c as [|c IH]; intros r m a k; cbv zeta.
  - cbn [seq fold_left]. rewrite (proj2 (Nat.ltb_ge a 0)) by lia. now rewrite Bool.andb_false_r.
  - rewrite seq_S, fold_left_app. cbn [fold_left Nat.add]. rewrite IH. destruct (Nat.eqb m (j * step)); cbn [andb]; [|reflexivity].
    destruct (Nat.eqb_spec a c) as [E|Ne]; destruct (Nat.ltb_spec a c); destruct (Nat.ltb_spec a (S c)); try lia; try reflexivity; now rewrite E.
Qed.
Lemma add_increments_spec ntrial step c inc res : (1 <= step)%nat -> (forall j i k, (j < ntrial)%nat -> (i < c)%nat -> add_increments ntrial step c inc res (j * step)%nat i k = res (j * step)%nat i k + inc j i k) /\
  (forall m i k, (forall j, (j < ntrial)%nat -> m <> j * step)%nat \/ (c <= i)%nat -> add_increments ntrial step c inc res m i k = res m i k).
Proof.
  intros Hs.
  assert (P2 : forall n m i k, (forall j, (j < n)%nat -> m <> j * step)%nat \/ (c <= i)%nat -> add_increments n step c inc res m i k = res m i k).
  { induction n as [|n IH]; intros m i k H; [reflexivity|]. unfold add_increments in *. rewrite seq_S, fold_left_app. cbn [fold_left Nat.add]. rewrite inner_loop.
    destruct (Nat.eqb_spec m (n * step)) as [->|Ne]; cbn [andb].
    - destruct H as [H|H]; [exfalso; exact (H n ltac:(lia) eq_refl)|]. rewrite (proj2 (Nat.ltb_ge i c)) by exact H. apply IH. now right.
    - apply IH. destruct H as [H|H]; [left; intros j Hj; apply H; lia|now right]. }
  split; [|intros m i k H; apply P2; exact H].
  induction ntrial as [|n IH]; intros j i k Hj Hi; [lia|]. unfold add_increments. rewrite seq_S, fold_left_app. cbn [fold_left Nat.add]. rewrite inner_loop.
  fold (add_increments n step c inc res). destruct (Nat.eq_dec j n) as [->|Ne].
  - rewrite Nat.eqb_refl. rewrite (proj2 (Nat.ltb_lt i c)) by exact Hi. cbn [andb]. rewrite P2; [reflexivity|]. left. intros j Hjn. nia.
  - destruct (Nat.eqb_spec (j * step) (n * step)) as [E|_]; [nia|]. cbn [andb]. apply IH; lia.
Qed.

(** ** the transpose statement for the code *)
Definition weighted_pairing (d : nat) (t : list (R * list R)) (src : nat -> R) (flx : nat -> nat -> R) (interp : nat -> R * list R) : R :=
  sumn (length t) (fun Q => fst (nth Q t (0, [])) * (src Q * fst (interp Q) + sumn d (fun a => flx Q a * nth a (snd (interp Q)) 0))).
Lemma nth_map_seq (f : nat -> R) d a : (a < d)%nat -> nth a (map f (seq 0 d)) 0 = f a.
Proof. intros H. rewrite (nth_indep _ 0 (f 0%nat)) by (rewrite map_length, seq_length; exact H). rewrite map_nth, seq_nth by exact H. reflexivity. Qed.
Lemma pairing_spec shape grad d t src flx ndof X interp : (forall Q, (Q < length t)%nat -> interp Q = (spec_value shape ndof X (snd (nth Q t (0, []))), map (fun a => spec_grad grad ndof X a (snd (nth Q t (0, [])))) (seq 0 d))) ->
  weighted_pairing d t src flx interp = sumn ndof (fun k => X k * spec_residual shape grad d t src flx k).
Proof.
  intros H. rewrite spec_transpose. unfold weighted_pairing. apply sumn_ext. intros Q HQ. rewrite (H Q HQ). cbn [fst snd]. f_equal. f_equal. apply sumn_ext. intros a Ha. now rewrite nth_map_seq.
Qed.
Lemma quad_transpose s p t ntrial src flx j i X : (p <= 3)%nat ->
  sumn ((p + 1) * (p + 1)) (fun k => flat2 (p + 1) X k * flat2 (p + 1) (quad_increment s p t ntrial src flx j i) k) =
  weighted_pairing 2 (square_rule (lift1 t)) (fun Q => src Q (i * ntrial + j)%nat) (fun Q a => flx Q ((i * 2 + a) * ntrial + j)%nat) (quad_interpolate s p t X).
Proof.
  intros Hp. rewrite (pairing_spec (quad_fn s p) (quad_gr s p) 2 _ _ _ ((p + 1) * (p + 1)) (flat2 (p + 1) X)).
  - apply sumn_ext. intros k Hk. now rewrite quad_integ.
  - intros Q HQ. rewrite square_length in HQ. apply quad_interp; assumption.
Qed.
Lemma hex_transpose s p t ntrial src flx j i X : (p <= 3)%nat ->
  sumn ((p + 1) * (p + 1) * (p + 1)) (fun k => flat3 (p + 1) X k * flat3 (p + 1) (hex_increment s p t ntrial src flx j i) k) =
  weighted_pairing 3 (cube_rule (lift1 t)) (fun Q => src Q (i * ntrial + j)%nat) (fun Q a => flx Q ((i * 3 + a) * ntrial + j)%nat) (hex_interpolate s p t X).
Proof.
  intros Hp. rewrite (pairing_spec (hex_fn s p) (hex_gr s p) 3 _ _ _ ((p + 1) * (p + 1) * (p + 1)) (flat3 (p + 1) X)).
  - apply sumn_ext. intros k Hk. now rewrite hex_integ.
  - intros Q HQ. rewrite cube_length in HQ. apply hex_interp; assumption.
Qed.
Lemma seg_transpose s p t ntrial src flx j i X : (p <= 3)%nat ->
  sumn (p + 1) (fun k => X k * seg_increment s p t ntrial src flx j i k) =
  weighted_pairing 1 (lift1 t) (fun Q => src Q (i * ntrial + j)%nat) (fun Q a => flx Q ((i * 1 + a) * ntrial + j)%nat) (seg_interpolate s p t X).
Proof.
  intros Hp. rewrite (pairing_spec (seg_fn s p) (seg_gr s p) 1 _ _ _ (p + 1) X).
  - apply sumn_ext. intros k Hk. now rewrite seg_integ.
  - intros Q HQ. rewrite lift1_length in HQ. apply seg_interp; assumption.
Qed.
Lemma simplex_transpose shape grad d ndof t ntrial src flx j i X :
  sumn ndof (fun k => X k * simplex_increment shape grad d t ntrial src flx j i k) =
  weighted_pairing d t (fun Q => src Q (i * ntrial + j)%nat) (fun Q a => flx Q ((i * d + a) * ntrial + j)%nat) (simplex_interpolate shape grad d ndof t X).
Proof.
  rewrite (pairing_spec shape grad d _ _ _ ndof X).
  - apply sumn_ext. intros k Hk. now rewrite simplex_integ.
  - intros Q HQ. reflexivity.
Qed.

(** ** quantities of interest: qoi.inl:34-73 *)
Definition qoi_square (t : rule1) (f : nat -> R) (total : R) : R := let q := length t in total + sumn q (fun qy => sumn q (fun qx => f (qy * q + qx)%nat * wq t qx * wq t qy)).
Definition qoi_cube (t : rule1) (f : nat -> R) (total : R) : R :=
  let q := length t in total + sumn q (fun qz => sumn q (fun qy => sumn q (fun qx => f ((qz * q + qy) * q + qx)%nat * wq t qx * wq t qy * wq t qz))).
Definition qoi_flat (t : list (R * list R)) (f : nat -> R) (total : R) : R := total + sumn (length t) (fun k => f k * fst (nth k t (0, []))).
Lemma qoi_rules t f total : qoi_square t f total = qoi_flat (square_rule (lift1 t)) f total /\ qoi_cube t f total = qoi_flat (cube_rule (lift1 t)) f total.
Proof.
  unfold qoi_square, qoi_cube, qoi_flat. cbv zeta. split; f_equal.
  - rewrite square_length, sumn_mul. apply sumn_ext. intros qy Hy. apply sumn_ext. intros qx Hx. rewrite square_at by assumption. cbn [fst]. ring.
  - rewrite cube_length, sumn_mul3. apply sumn_ext. intros qz Hz. apply sumn_ext. intros qy Hy. apply sumn_ext. intros qx Hx. rewrite cube_at by assumption. cbn [fst]. ring.
Qed.
(** the bilinear quad, two-point rule: point 1 has weight w0 w1 and coordinates (x1, x0) *)
Lemma sample_point : nth 1 (square_rule (lift1 [(/ 2, / 4); (/ 3, / 5)])) (0, []) = (/ 3 * / 2, [/ 5; / 4]).
Proof. reflexivity. Qed.
Lemma sample_value : quad_interpolate 1 1 [(/ 2, / 4); (/ 3, / 5)] (fun jy jx => INR jy + 2 * INR jx) 1 = (/ 4 + 2 / 5, [2; 1]).
Proof.
  rewrite quad_interp by (cbn [length]; lia). cbv zeta. rewrite sample_point. cbn [snd map seq]. unfold spec_value, spec_grad, flat2.
  cbn [sumn Nat.add Nat.mul quad_fn quad_gr both lob_list lob_d_list lob lob_d flat_map map app combine nth Nat.div Nat.modulo Nat.divmod fst snd Nat.sub INR].
  f_equal; [field|]. f_equal; [field|]. f_equal. field.
Qed.

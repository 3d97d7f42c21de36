(** * The whole eigendecomposition (C58) *)
From Coq Require Import Reals Lra Lia Bool Psatz.
From Verif Require Import Sums Tensor SymEig SymEigFacts SymEigRotate.
Local Open Scope R_scope.

(** ** specification *)
Definition symmetric3 (A : mat) : Prop := forall i j, (i < 3)%nat -> (j < 3)%nat -> A i j = A j i.
Definition orthogonal (Q : mat) : Prop := meq 3 (mmul 3 (transpose Q) Q) ident.
(** how far column k is from an eigenvector belonging to number k: the length of A q - lambda q *)
Definition misfit (A : mat) (e : eigen) (k : nat) : R := norm3 (residual A (entry (lam e) k) (column e k)).
Definition ascending (u : v3) : Prop := c0 u <= c1 u /\ c1 u <= c2 u.
(** characteristic polynomial *)
Definition charpoly (A : mat) (x : R) : R := det3 (fun i j => A i j - (if Nat.eqb i j then x else 0)).
(** [(x - l0) (x - l1) (x - l2)] is the characteristic polynomial: the numbers are the eigenvalues with their multiplicities *)
Definition spectrum (A : mat) (u : v3) : Prop :=
  forall x, - charpoly A x = (x - c0 u) * (x - c1 u) * (x - c2 u).
Definition decomposes (A : mat) (e : eigen) : Prop := forall k, (k < 3)%nat -> mv3 A (column e k) = vscal (entry (lam e) k) (column e k).

(** ** the deviator *)
Lemma sym3_of A : symmetric3 A -> sym3 A.
Proof. intro H. repeat split; apply H; lia. Qed.
Lemma dev_sym A : symmetric3 A -> sym3 (dev 3 A).
Proof. intro H. unfold sym3, dev. cbn [Nat.eqb]. repeat split; apply H; lia. Qed.
Lemma dev_tr A : tr 3 (dev 3 A) = 0.
Proof. unfold tr, dev. cbn [sumn Nat.eqb]. unfold tr. cbn [sumn INR]. lra. Qed.
Lemma second_of B : sym3 B -> tr 3 B = 0 ->
  0.5 * inner 3 3 B B = J2of (B 0 0)%nat (B 1 1)%nat (B 0 1)%nat (B 0 2)%nat (B 1 2)%nat /\
  det3 B = J3of (B 0 0)%nat (B 1 1)%nat (B 0 1)%nat (B 0 2)%nat (B 1 2)%nat.
Proof.
  intros [S1 [S2 S3]] HT. assert (Ec : B 2%nat 2%nat = - B 0%nat 0%nat - B 1%nat 1%nat) by (unfold tr in HT; cbn [sumn] in HT; lra).
  unfold inner, det3, J2of, J3of. cbn [sumn]. rewrite S1, S2, S3, Ec. split; lra.
Qed.
Lemma lead_dev A : symmetric3 A -> 0 < second A ->
  let eta := lead (second A) (det3 (dev 3 A)) in
  eta * eta * eta - second A * eta - det3 (dev 3 A) = 0 /\ second A <= eta * eta.
Proof.
  intros HS HP eta. apply lead_root; [exact HP|]. unfold second. destruct (second_of _ (dev_sym A HS) (dev_tr A)) as [-> ->]. apply discriminant.
Qed.
Lemma mv3_dev A u : mv3 A u = vadd (mv3 (dev 3 A) u) (vscal (tr 3 A / 3) u).
Proof. unfold dev. apply v3_ext; v3u; cbn [Nat.eqb INR]; lra. Qed.
Lemma residual_dev A l u : residual A (l + tr 3 A / 3) u = residual (dev 3 A) l u.
Proof. unfold residual. rewrite mv3_dev. apply v3_ext; v3u; ring. Qed.
Lemma second_nonneg A : 0 <= second A.
Proof.
  unfold second, inner. cbn [sumn].
  assert (S : forall x, 0 <= x * x) by (intro; apply Rle_0_sqr).
  assert (S0 := S (dev 3 A 0%nat 0%nat)). assert (S1 := S (dev 3 A 0%nat 1%nat)). assert (S2 := S (dev 3 A 0%nat 2%nat)).
  assert (S3 := S (dev 3 A 1%nat 0%nat)). assert (S4 := S (dev 3 A 1%nat 1%nat)). assert (S5 := S (dev 3 A 1%nat 2%nat)).
  assert (S6 := S (dev 3 A 2%nat 0%nat)). assert (S7 := S (dev 3 A 2%nat 1%nat)). assert (S8 := S (dev 3 A 2%nat 2%nat)). lra.
Qed.
Lemma second_zero A : second A = 0 -> forall i j, (i < 3)%nat -> (j < 3)%nat -> dev 3 A i j = 0.
Proof.
  unfold second, inner. cbn [sumn]. intros H i j Hi Hj.
  assert (S : forall x, 0 <= x * x) by (intro; apply Rle_0_sqr).
  assert (S0 := S (dev 3 A 0%nat 0%nat)). assert (S1 := S (dev 3 A 0%nat 1%nat)). assert (S2 := S (dev 3 A 0%nat 2%nat)).
  assert (S3 := S (dev 3 A 1%nat 0%nat)). assert (S4 := S (dev 3 A 1%nat 1%nat)). assert (S5 := S (dev 3 A 1%nat 2%nat)).
  assert (S6 := S (dev 3 A 2%nat 0%nat)). assert (S7 := S (dev 3 A 2%nat 1%nat)). assert (S8 := S (dev 3 A 2%nat 2%nat)).
  apply Rsqr_0_uniq. unfold Rsqr. destruct i as [|[|[|]]]; try lia; destruct j as [|[|[|]]]; try lia; lra.
Qed.

(** ** before sorting *)
(** the number farthest from the mean *)
Definition leading (A : mat) (x : R) : Prop := second A <= (x - tr 3 A / 3) * (x - tr 3 A / 3).
Definition fine (A : mat) (e : eigen) : Prop :=
  spectrum A (lam e) /\
  ((forall k, (k < 3)%nat -> residual A (entry (lam e) k) (column e k) = zero3) \/
   (exists i j k, (i < 3)%nat /\ (j < 3)%nat /\ (k < 3)%nat /\ i <> j /\ i <> k /\ j <> k /\ residual A (entry (lam e) k) (column e k) = zero3 /\
      leading A (entry (lam e) k) /\ Rabs (entry (lam e) i - entry (lam e) j) <= 2 * small_gap /\
      misfit A e i <= 2 * small_gap /\ misfit A e j <= 2 * small_gap /\
      dot3 (column e i) (mv3 A (column e i)) <> dot3 (column e j) (mv3 A (column e j)))).
Definition broken (A : mat) (e : eigen) : Prop :=
  exists i j k, (i < 3)%nat /\ (j < 3)%nat /\ (k < 3)%nat /\ i <> j /\ i <> k /\ j <> k /\
    residual A (entry (lam e) k) (column e k) = zero3 /\ leading A (entry (lam e) k) /\ entry (lam e) i = entry (lam e) j /\
    exists b, b <> 0 /\ residual A (entry (lam e) i) (column e i) = vscal b (column e j) /\
              residual A (entry (lam e) j) (column e j) = vscal b (column e i).
Definition framed (e : eigen) : Prop := forall i j, (i < 3)%nat -> (j < 3)%nat -> dot3 (column e i) (column e j) = if Nat.eqb i j then 1 else 0.

Lemma frame_framed e : frame (q0 e) (q1 e) (q2 e) -> framed e.
Proof.
  intros [A [B [C [D [E F]]]]] i j Hi Hj.
  destruct i as [|[|[|]]]; try lia; destruct j as [|[|[|]]]; try lia; cbn [column Nat.eqb]; auto; rewrite dot3_comm; auto.
Qed.

Lemma spectrum_dev A l0 l1 l2 : sym3 (dev 3 A) -> l0 + l1 + l2 = 0 ->
  l0 * l0 * l0 - second A * l0 - det3 (dev 3 A) = 0 -> l1 * l2 = l0 * l0 - second A ->
  spectrum A (shift (tr 3 A / 3) (V l0 l1 l2)).
Proof.
  intros HS Sm R P x. unfold shift. cbn [c0 c1 c2].
  destruct (second_of _ HS (dev_tr A)) as [E2 E3]. fold (second A) in E2.
  assert (Q : - charpoly A x = (x - tr 3 A / 3) * (x - tr 3 A / 3) * (x - tr 3 A / 3) - second A * (x - tr 3 A / 3) - det3 (dev 3 A)).
  { assert (HT := dev_tr A). rewrite E2, E3. unfold charpoly, det3, J2of, J3of. cbn [Nat.eqb].
    destruct HS as [S1 [S2 S3]].
    set (t := tr 3 A / 3) in *. unfold tr in HT. cbn [sumn] in HT.
    assert (D00 : dev 3 A 0%nat 0%nat = A 0%nat 0%nat - t) by (unfold dev, t; cbn [Nat.eqb INR]; lra).
    assert (D11 : dev 3 A 1%nat 1%nat = A 1%nat 1%nat - t) by (unfold dev, t; cbn [Nat.eqb INR]; lra).
    assert (D22 : dev 3 A 2%nat 2%nat = A 2%nat 2%nat - t) by (unfold dev, t; cbn [Nat.eqb INR]; lra).
    assert (D01 : dev 3 A 0%nat 1%nat = A 0%nat 1%nat) by reflexivity. assert (D02 : dev 3 A 0%nat 2%nat = A 0%nat 2%nat) by reflexivity.
    assert (D12 : dev 3 A 1%nat 2%nat = A 1%nat 2%nat) by reflexivity.
    change (dev 3 A 1%nat 0%nat) with (A 1%nat 0%nat) in S1. change (dev 3 A 2%nat 0%nat) with (A 2%nat 0%nat) in S2. change (dev 3 A 2%nat 1%nat) with (A 2%nat 1%nat) in S3.
    rewrite D00, D11, D22 in HT. rewrite D00, D11, D01, D02, D12 in *. rewrite S1, S2, S3.
    assert (Ec : A 2%nat 2%nat = 3 * t - A 0%nat 0%nat - A 1%nat 1%nat) by lra. rewrite Ec. clearbody t. ring. }
  rewrite Q. set (y := x - tr 3 A / 3).
  replace (x - (l0 + tr 3 A / 3)) with (y - l0) by (unfold y; ring).
  replace (x - (l1 + tr 3 A / 3)) with (y - l1) by (unfold y; ring).
  replace (x - (l2 + tr 3 A / 3)) with (y - l2) by (unfold y; ring).
  assert (El : l2 = - l0 - l1) by lra.
  replace ((y - l0) * (y - l1) * (y - l2)) with (y * y * y - (l0 + l1 + l2) * (y * y) + (l0 * (l1 + l2) + l1 * l2) * y - l0 * (l1 * l2)) by ring.
  rewrite Sm, P. replace (l1 + l2) with (- l0) by lra. lra.
Qed.

Lemma unsorted A : symmetric3 A -> exists e, of_deviator A = Some e /\
  let e' := Eigen (shift (tr 3 A / 3) (lam e)) (q0 e) (q1 e) (q2 e) in
  framed e' /\ c0 (lam e') + c1 (lam e') + c2 (lam e') = tr 3 A /\ (fine A e' \/ broken A e').
Proof.
  intro HS. unfold of_deviator. destruct (Rlt_dec 0 (second A)) as [P|P].
  - destruct (lead_dev A HS P) as [R D].
    destruct (deflate_ok (dev 3 A) _ (dev_sym A HS) (dev_tr A) P R D) as [e [E [F [L0 [Sm [R0 C]]]]]].
    exists e. split; [exact E|]. cbn [lam q0 q1 q2].
    split; [now apply frame_framed|]. split; [unfold shift; cbn [c0 c1 c2]; lra|].
    set (e' := Eigen (shift (tr 3 A / 3) (lam e)) (q0 e) (q1 e) (q2 e)).
    assert (X0 : residual A (entry (lam e') 0%nat) (column e' 0%nat) = zero3).
    { unfold e'. cbn [lam column entry q0 shift c0]. rewrite residual_dev, L0. exact R0. }
    assert (X1 : residual A (entry (lam e') 1%nat) (column e' 1%nat) = residual (dev 3 A) (c1 (lam e)) (q1 e)).
    { unfold e'. cbn [lam column entry q1 shift c1]. apply residual_dev. }
    assert (X2 : residual A (entry (lam e') 2%nat) (column e' 2%nat) = residual (dev 3 A) (c2 (lam e)) (q2 e)).
    { unfold e'. cbn [lam column entry q2 shift c2]. apply residual_dev. }
    assert (Ld : leading A (entry (lam e') 0%nat)).
    { unfold leading, e'. cbn [lam entry shift c0]. rewrite L0. match goal with |- _ <= (?x + ?y - ?y) * _ => replace (x + y - y) with x by ring end. exact D. }
    destruct C as [[Pr C]|[El [b [Nb [S1 S2]]]]].
    + left. split.
      { unfold e'. cbn [lam]. destruct (lam e) as [l0 l1 l2] eqn:EL. cbn [c0 c1 c2] in *.
        apply spectrum_dev; auto; [now apply dev_sym| | ]; rewrite L0; [exact R|exact Pr]. }
      destruct C as [[C1 C2]|[C1 [C2 [C3 C4]]]].
      * left. intros k Hk. destruct k as [|[|[|]]]; try lia; congruence.
      * right. exists 1%nat, 2%nat, 0%nat. repeat split; try lia; auto.
        -- unfold e'. cbn [lam entry shift c1 c2]. replace (c1 (lam e) + tr 3 A / 3 - (c2 (lam e) + tr 3 A / 3)) with (c1 (lam e) - c2 (lam e)) by ring. exact C1.
        -- unfold misfit. rewrite X1. exact C2.
        -- unfold misfit. rewrite X2. exact C3.
        -- unfold e'. cbn [column q1 q2]. rewrite (mv3_dev A (q1 e)), (mv3_dev A (q2 e)), !dot3_add_r, !dot3_scal_r.
           destruct F as [_ [F1 [F2 _]]]. rewrite F1, F2. lra.
    + right. exists 1%nat, 2%nat, 0%nat. repeat split; try lia; auto.
      * unfold e'. cbn [lam entry shift c1 c2]. now rewrite El.
      * exists b. rewrite X1, X2. unfold e'. cbn [column q1 q2]. auto.
  - assert (Z : second A = 0) by (assert (X := second_nonneg A); lra).
    eexists. split; [reflexivity|]. cbn [lam q0 q1 q2].
    assert (ZD := second_zero A Z).
    split; [|split].
    + apply frame_framed. cbn [q0 q1 q2]. unfold frame, dot3. cbn [c0 c1 c2]. repeat split; ring.
    + unfold shift. cbn [c0 c1 c2]. field.
    + left. split.
      * apply (spectrum_dev A 0 0 0); [now apply dev_sym|lra| |rewrite Z; lra].
        rewrite Z. unfold det3. rewrite !ZD by lia. lra.
      * left. intros k Hk.
        assert (G : forall u, residual (dev 3 A) 0 u = zero3).
        { intro u. unfold residual. apply v3_ext; unfold mv3, vsub, vscal, zero3; cbn [c0 c1 c2]; rewrite !ZD by lia; ring. }
        destruct k as [|[|[|]]]; try lia; cbn [lam entry shift c0 c1 c2]; rewrite residual_dev; apply G.
Qed.

(** ** sorting *)
Lemma argsort_perm v : exists a b c, argsort v = (a, b, c) /\ (a < 3)%nat /\ (b < 3)%nat /\ (c < 3)%nat /\
  a <> b /\ a <> c /\ b <> c /\ entry v a <= entry v b /\ entry v b <= entry v c.
Proof.
  unfold argsort. destruct (Rlt_dec (c1 v) (c0 v)) as [H1|H1]; cbn [entry];
  [destruct (Rlt_dec (c2 v) (c0 v)) as [H2|H2]|destruct (Rlt_dec (c2 v) (c1 v)) as [H2|H2]]; cbn [entry];
  match goal with |- context [Rlt_dec ?x ?y] => destruct (Rlt_dec x y) as [H3|H3] end; eexists _, _, _; (split; [reflexivity|]);
  cbn [entry] in *; repeat split; try lia; lra.
Qed.

Lemma sorted_moves e : exists f g : nat -> nat,
  (forall k, (k < 3)%nat -> (f k < 3)%nat) /\ (forall k, (k < 3)%nat -> (g k < 3)%nat) /\
  (forall k, (k < 3)%nat -> f (g k) = k) /\ (forall k, (k < 3)%nat -> g (f k) = k) /\
  (forall k, (k < 3)%nat -> entry (lam (sorted e)) k = entry (lam e) (f k)) /\
  (forall k, (k < 3)%nat -> column (sorted e) k = column e (f k)) /\ ascending (lam (sorted e)).
Proof.
  unfold sorted. destruct (argsort_perm (lam e)) as [a [b [c [E [Ha [Hb [Hc [N1 [N2 [N3 [L1 L2]]]]]]]]]]]. rewrite E.
  exists (fun k => match k with O => a | S O => b | _ => c end).
  exists (fun k => if Nat.eqb k a then 0%nat else if Nat.eqb k b then 1%nat else 2%nat).
  split; [|split; [|split; [|split; [|split; [|split]]]]].
  - intros k Hk. destruct k as [|[|[|]]]; lia.
  - intros k Hk. destruct (Nat.eqb k a); [lia|]. destruct (Nat.eqb k b); lia.
  - intros k Hk. destruct (Nat.eqb_spec k a) as [X|X]; [subst; reflexivity|]. destruct (Nat.eqb_spec k b) as [Y|Y]; [subst; reflexivity|]. lia.
  - intros k Hk. destruct k as [|[|[|]]]; try lia.
    + now rewrite Nat.eqb_refl.
    + destruct (Nat.eqb_spec b a); [lia|]. now rewrite Nat.eqb_refl.
    + destruct (Nat.eqb_spec c a); [lia|]. destruct (Nat.eqb_spec c b); lia.
  - intros k Hk. destruct k as [|[|[|]]]; try lia; reflexivity.
  - intros k Hk. destruct k as [|[|[|]]]; try lia; reflexivity.
  - split; cbn [lam c0 c1 c2]; assumption.
Qed.
Lemma sorted_prod e x : (x - c0 (lam (sorted e))) * (x - c1 (lam (sorted e))) * (x - c2 (lam (sorted e))) =
  (x - c0 (lam e)) * (x - c1 (lam e)) * (x - c2 (lam e)).
Proof.
  unfold sorted, argsort. destruct (lam e) as [l0 l1 l2]. cbn [c0 c1 c2].
  destruct (Rlt_dec l1 l0); cbn [entry c0 c1 c2];
  [destruct (Rlt_dec l2 l0)|destruct (Rlt_dec l2 l1)]; cbn [entry c0 c1 c2];
  match goal with |- context [Rlt_dec ?x ?y] => destruct (Rlt_dec x y) end; cbn [lam entry c0 c1 c2]; ring.
Qed.
Lemma sorted_sum e : c0 (lam (sorted e)) + c1 (lam (sorted e)) + c2 (lam (sorted e)) = c0 (lam e) + c1 (lam e) + c2 (lam e).
Proof.
  unfold sorted, argsort. destruct (lam e) as [l0 l1 l2]. cbn [c0 c1 c2].
  destruct (Rlt_dec l1 l0); cbn [entry c0 c1 c2];
  [destruct (Rlt_dec l2 l0)|destruct (Rlt_dec l2 l1)]; cbn [entry c0 c1 c2];
  match goal with |- context [Rlt_dec ?x ?y] => destruct (Rlt_dec x y) end; cbn [lam entry c0 c1 c2]; ring.
Qed.

Lemma framed_orthogonal e : framed e -> orthogonal (basis e).
Proof.
  intros F i j Hi Hj. unfold mmul, transpose, basis, ident. rewrite <- (F i j Hi Hj). cbn [sumn entry]. unfold dot3. ring.
Qed.

(** ** the main statement: for every symmetric matrix *)
Lemma eig_symm_total A : symmetric3 A -> exists e, eig_symm A = Some e /\ framed e /\ ascending (lam e) /\
  c0 (lam e) + c1 (lam e) + c2 (lam e) = tr 3 A /\ (fine A e \/ broken A e).
Proof.
  intro HS. destruct (unsorted A HS) as [e0 [E [F [Sm C]]]]. unfold eig_symm. rewrite E.
  set (e' := Eigen (shift (tr 3 A / 3) (lam e0)) (q0 e0) (q1 e0) (q2 e0)) in *.
  exists (sorted e'). split; [reflexivity|].
  destruct (sorted_moves e') as [f [g [Hf [Hg [FG [GF [HL [HC HA]]]]]]]].
  split; [|split; [exact HA|split; [rewrite sorted_sum; exact Sm|]]].
  - intros i j Hi Hj. rewrite !HC by assumption. rewrite F by auto.
    destruct (Nat.eqb_spec i j) as [->|N]; [now rewrite Nat.eqb_refl|].
    destruct (Nat.eqb_spec (f i) (f j)) as [X|X]; [|reflexivity]. elim N. rewrite <- (GF i Hi), <- (GF j Hj), X. reflexivity.
  - assert (M : forall k, (k < 3)%nat -> entry (lam (sorted e')) (g k) = entry (lam e') k /\ column (sorted e') (g k) = column e' k).
    { intros k Hk. rewrite HL, HC by auto. now rewrite FG by auto. }
    assert (NE : forall i j, (i < 3)%nat -> (j < 3)%nat -> i <> j -> g i <> g j).
    { intros i j Hi Hj N X. apply N. rewrite <- (FG i Hi), <- (FG j Hj), X. reflexivity. }
    destruct C as [[Sp C]|C]; [left|right].
    + split; [intro x; rewrite sorted_prod; apply Sp|]. destruct C as [C|(i & j & k & Hi & Hj & Hk & N1 & N2 & N3 & R0 & Ld & C1 & C2 & C3 & C4)].
      * left. intros k Hk. rewrite HL, HC by assumption. apply C. auto.
      * right. exists (g i), (g j), (g k). destruct (M i Hi) as [M1 M2], (M j Hj) as [M3 M4], (M k Hk) as [M5 M6].
        unfold misfit. rewrite M1, M2, M3, M4, M5, M6. repeat split; auto.
    + destruct C as (i & j & k & Hi & Hj & Hk & N1 & N2 & N3 & R0 & Ld & C1 & b & Nb & C2 & C3).
      exists (g i), (g j), (g k). destruct (M i Hi) as [M1 M2], (M j Hj) as [M3 M4], (M k Hk) as [M5 M6].
      rewrite M1, M2, M3, M4, M5, M6. repeat split; auto. exists b. auto.
Qed.

Lemma residual_zero A l u : residual A l u = zero3 <-> mv3 A u = vscal l u.
Proof.
  unfold residual. split; intro H.
  - assert (H0 := f_equal c0 H). assert (H1 := f_equal c1 H). assert (H2 := f_equal c2 H). cbn [c0 c1 c2 vsub zero3] in H0, H1, H2. apply v3_ext; lra.
  - rewrite H. apply v3_ext; v3u; ring.
Qed.
Lemma norm3_zero3 : norm3 zero3 = 0.
Proof. unfold norm3, zero3, dot3. cbn [c0 c1 c2]. replace (0 * 0 + 0 * 0 + 0 * 0) with 0 by ring. apply sqrt_0. Qed.

(** the numbers returned are far enough apart: the decomposition is exact *)
Lemma eig_symm_distinct A e : symmetric3 A -> eig_symm A = Some e ->
  2 * small_gap < c1 (lam e) - c0 (lam e) -> 2 * small_gap < c2 (lam e) - c1 (lam e) -> decomposes A e /\ spectrum A (lam e).
Proof.
  intros HS E G1 G2. destruct (eig_symm_total A HS) as [e' [E' [F [As [Sm C]]]]]. rewrite E in E'. injection E' as <-.
  assert (P := small_gap_pos).
  assert (Far : forall i j, (i < 3)%nat -> (j < 3)%nat -> i <> j -> 2 * small_gap < Rabs (entry (lam e) i - entry (lam e) j)).
  { intros i j Hi Hj N. destruct i as [|[|[|]]]; try lia; destruct j as [|[|[|]]]; try lia; cbn [entry];
      (rewrite Rabs_pos_eq by lra; lra) || (rewrite Rabs_left by lra; lra). }
  destruct C as [[Sp C]|(i & j & k & Hi & Hj & Hk & N1 & N2 & N3 & R0 & Ld & C1 & _)].
  - split; [|exact Sp]. destruct C as [C|(i & j & k & Hi & Hj & Hk & N1 & N2 & N3 & R0 & Ld & C1 & _)].
    + intros k Hk. apply residual_zero. now apply C.
    + assert (X := Far i j Hi Hj N1). lra.
  - assert (X := Far i j Hi Hj N1). rewrite C1 in X. replace (entry (lam e) j - entry (lam e) j) with 0 in X by ring. rewrite Rabs_R0 in X. lra.
Qed.

(** unless two of the numbers returned coincide, every column is within 2e-15 of being exact *)
Lemma eig_symm_close A e : symmetric3 A -> eig_symm A = Some e ->
  c0 (lam e) <> c1 (lam e) -> c1 (lam e) <> c2 (lam e) ->
  spectrum A (lam e) /\ forall k, (k < 3)%nat -> misfit A e k <= 2 * small_gap.
Proof.
  intros HS E G1 G2. destruct (eig_symm_total A HS) as [e' [E' [F [As [Sm C]]]]]. rewrite E in E'. injection E' as <-.
  assert (P := small_gap_pos). destruct As as [As1 As2].
  destruct C as [[Sp C]|(i & j & k & Hi & Hj & Hk & N1 & N2 & N3 & R0 & Ld & C1 & _)].
  - split; [exact Sp|]. destruct C as [C|(i & j & k & Hi & Hj & Hk & N1 & N2 & N3 & R0 & Ld & C1 & C2 & C3 & _)].
    + intros k Hk. unfold misfit. rewrite C by assumption. rewrite norm3_zero3. lra.
    + intros l Hl. assert (D : l = i \/ l = j \/ l = k) by lia. destruct D as [->|[->| ->]]; auto.
      unfold misfit. rewrite R0, norm3_zero3. lra.
  - exfalso. destruct i as [|[|[|]]]; try lia; destruct j as [|[|[|]]]; try lia; cbn [entry] in C1; lra.
Qed.

(** a matrix with a repeated eigenvalue: a I + b n n^T *)
Definition uniaxial (a b : R) (n : v3) : mat := fun i j => (if Nat.eqb i j then a else 0) + b * entry n i * entry n j.
Lemma mv3_uniaxial a b n u : mv3 (uniaxial a b n) u = vadd (vscal a u) (vscal (b * dot3 n u) n).
Proof. unfold uniaxial. destruct n, u. apply v3_ext; v3u; cbn [Nat.eqb]; ring. Qed.
Lemma uniaxial_sym a b n : symmetric3 (uniaxial a b n).
Proof. intros i j _ _. unfold uniaxial. rewrite (Nat.eqb_sym i j). ring. Qed.

Lemma eig_symm_uniaxial a b n e : dot3 n n = 1 -> eig_symm (uniaxial a b n) = Some e -> decomposes (uniaxial a b n) e.
Proof.
  intros Un E. assert (HS := uniaxial_sym a b n). set (A := uniaxial a b n) in *.
  destruct (eig_symm_total A HS) as [e' [E' [F [As [Sm C]]]]]. rewrite E in E'. injection E' as <-.
  (* expansion of n in the columns *)
  assert (Quad : forall i j, (i < 3)%nat -> (j < 3)%nat -> dot3 (column e i) (mv3 A (column e j)) =
     a * (if Nat.eqb i j then 1 else 0) + b * dot3 n (column e i) * dot3 n (column e j)).
  { intros i j Hi Hj. unfold A. rewrite mv3_uniaxial, dot3_add_r, !dot3_scal_r, F by assumption. rewrite (dot3_comm (column e i) n). ring. }
  assert (Lk : forall k, (k < 3)%nat -> residual A (entry (lam e) k) (column e k) = zero3 -> leading A (entry (lam e) k) ->
     b = 0 \/ dot3 n (column e k) <> 0).
  { intros k Hk R0 L. destruct (Req_dec b 0) as [|Nb]; [now left|]. right. intro Z. apply residual_zero in R0.
    assert (X := Quad k k Hk Hk). rewrite R0, dot3_scal_r, F, Nat.eqb_refl, Z in X by assumption.
    assert (El : entry (lam e) k = a) by lra. unfold leading in L. rewrite El in L.
    assert (T : tr 3 A = 3 * a + b).
    { unfold A, tr, uniaxial. cbn [sumn Nat.eqb]. unfold dot3 in Un. cbn [entry].
      replace (0 + (a + b * c0 n * c0 n) + (a + b * c1 n * c1 n) + (a + b * c2 n * c2 n)) with (3 * a + b * (c0 n * c0 n + c1 n * c1 n + c2 n * c2 n)) by ring.
      rewrite Un. ring. }
    assert (S2 : second A = b * b / 3).
    { unfold second. assert (D : forall i j, (i < 3)%nat -> (j < 3)%nat -> dev 3 A i j = b * entry n i * entry n j - (if Nat.eqb i j then b / 3 else 0)).
      { intros i j _ _. unfold dev. rewrite T. unfold A, uniaxial. destruct (Nat.eqb i j); cbn [INR]; lra. }
      unfold inner. cbn [sumn]. rewrite !D by lia. cbn [Nat.eqb entry]. unfold dot3 in Un.
      set (x := c0 n) in *. set (y := c1 n) in *. set (z := c2 n) in *.
      transitivity (b * b / 2 * ((x * x + y * y + z * z) * (x * x + y * y + z * z)) - b * b / 3 * (x * x + y * y + z * z) + b * b / 6); [lra|].
      rewrite Un. lra. }
    rewrite T, S2 in L. assert (0 < b * b) by (apply Rsqr_pos_lt; exact Nb). lra. }
  assert (Plane : forall i k, (i < 3)%nat -> (k < 3)%nat -> i <> k -> residual A (entry (lam e) k) (column e k) = zero3 ->
      leading A (entry (lam e) k) -> b * dot3 n (column e i) = 0).
  { intros i k Hi Hk N R0 L. destruct (Lk k Hk R0 L) as [->|X]; [ring|]. apply residual_zero in R0.
    assert (Y := Quad i k Hi Hk). rewrite R0, dot3_scal_r, F in Y by assumption. destruct (Nat.eqb_spec i k); [contradiction|].
    assert (Y' : b * dot3 n (column e i) * dot3 n (column e k) = 0) by lra. apply Rmult_integral in Y'. destruct Y'; [assumption|contradiction]. }
  destruct C as [[Sp C]|(i & j & k & Hi & Hj & Hk & N1 & N2 & N3 & R0 & Ld & C1 & be & Nb & C2 & C3)].
  - destruct C as [C|(i & j & k & Hi & Hj & Hk & N1 & N2 & N3 & R0 & Ld & C1 & C2 & C3 & C4)].
    + intros k Hk. apply residual_zero. now apply C.
    + exfalso. apply C4. rewrite (Quad i i), (Quad j j), !Nat.eqb_refl by assumption.
      rewrite (Plane i k), (Plane j k) by assumption. ring.
  - exfalso. apply Nb. assert (X := f_equal (dot3 (column e j)) C2). unfold residual in X.
    rewrite dot3_sub_r, !dot3_scal_r, (Quad j i), F, F, Nat.eqb_refl in X by assumption.
    destruct (Nat.eqb_spec j i); [lia|]. rewrite (Plane j k) in X by assumption. lra.
Qed.
Lemma eig_symm_orthonormal A : symmetric3 A -> exists e, eig_symm A = Some e /\ orthogonal (basis e) /\ ascending (lam e) /\
  c0 (lam e) + c1 (lam e) + c2 (lam e) = tr 3 A.
Proof. intro S. destruct (eig_symm_total A S) as [e [E [F [As [Sm _]]]]]. exists e. auto using framed_orthogonal. Qed.

(** * Edge elements: curls, tangential traces, gradients, nodes (C62) *)
From Coq Require Import ZArith Reals Lra Lia List Arith.
From Coquelicot Require Import Coquelicot.
From Verif Require Import Sums QuadTables Quadrature ShapeDefs ShapeFacts ShapeTensor SumFactor FunctionalGrad Tensor MatAlg Hcurl HcurlSum HcurlHex.
Import ListNotations.
Local Open Scope R_scope.

(** ** specification *)
(** degrees of freedom of the face of a hexahedron where the coordinate [axis] is 0 (e = 0) or 1 (e = p); the face
    coordinates are the other two, in order *)
Definition face_dofs (axis e : nat) (u : dofs3) : dofs2 :=
  match axis with
  | O => {| d2x := fun k j => d3y u k j e; d2y := fun k j => d3z u k j e |}
  | S O => {| d2x := fun k i => d3x u k e i; d2y := fun k i => d3z u k e i |}
  | _ => {| d2x := fun j i => d3x u e j i; d2y := fun j i => d3y u e j i |}
  end.
Definition face_point (axis : nat) (at_ a b : R) : list R := match axis with O => [at_; a; b] | S O => [a; at_; b] | _ => [a; b; at_] end.
Definition other0 (axis : nat) : nat := match axis with O => 1 | _ => 0 end.
Definition other1 (axis : nat) : nat := match axis with O | S O => 2 | _ => 1 end.
(** nodal fields of the H1 spaces of the same order: X j i is the value at node (i, j) *)
Definition q_nodal (s : R) (p : nat) (X : nat -> nat -> R) (x y : R) : R := sumn (p + 1) (fun j => sumn (p + 1) (fun i => X j i * (c s p i x * c s p j y))).
Definition h_nodal (s : R) (p : nat) (X : nat -> nat -> nat -> R) (x y z : R) : R :=
  sumn (p + 1) (fun k => sumn (p + 1) (fun j => sumn (p + 1) (fun i => X k j i * (c s p i x * c s p j y * c s p k z)))).
(** nodes and directions: quadrilateral_Hcurl.inl:53-82, hexahedron_Hcurl.inl:53-95 *)
Definition leg_nodes (p : nat) : list R := match seg_nodes p with Some l => map (fun r => IZR (nth 0 r 0%Z) / 10000000000000000000000) l | None => [] end.
Definition hq_nodes (s : R) (p : nat) : list (list R) :=
  flat_map (fun y => map (fun x => [x; y]) (leg_nodes p)) (lob_nodes s (p + 1)) ++ flat_map (fun y => map (fun x => [x; y]) (lob_nodes s (p + 1))) (leg_nodes p).
Definition hq_dirs (p : nat) : list (list R) := repeat [1; 0] (p * (p + 1)) ++ repeat [0; 1] (p * (p + 1)).
Definition hx_nodes (s : R) (p : nat) : list (list R) :=
  let e := leg_nodes p in let b := lob_nodes s (p + 1) in let grid := fun X Y Z => flat_map (fun z => flat_map (fun y => map (fun x : R => [x; y; z]) X) Y) Z in
  grid e b b ++ grid b e b ++ grid b b e.
Definition hx_dirs (p : nat) : list (list R) :=
  let m := (p * (p + 1) * (p + 1))%nat in repeat [1; 0; 0] m ++ repeat [0; 1; 0] m ++ repeat [0; 0; 1] m.
(** every shape function has unit component along its own direction at its own node, and none at the others *)
Definition nodal_to (tol : R) (d ndof : nat) (nodes dirs : list (list R)) (shape : list R -> list (list R)) : Prop :=
  length nodes = ndof /\ length dirs = ndof /\ forall k l, (k < ndof)%nat -> (l < ndof)%nat ->
  Rabs (sumn d (fun a => nth a (nth k (shape (nth l nodes [])) []) 0 * nth a (nth l dirs []) 0) - (if Nat.eqb k l then 1 else 0)) <= tol.

(** ** one-dimensional facts *)
Lemma c_derive s p i (x : R) : root5 s -> (1 <= p <= 3)%nat -> (i < p + 1)%nat -> is_derive (c s p i) x (dc s p i x).
Proof.
  intros H Hp Hi. unfold root5 in H. unfold c, dc. destruct p as [|[|[|[|p]]]]; try lia; destruct i as [|[|[|[|i]]]]; try lia;
    cbn [lob_list lob_d_list lob lob_d Nat.add nth]; (auto_derive; [repeat split; auto; try exact Logic.I|field [H]]).
Qed.
Lemma c_zero s p i : root5 s -> (1 <= p <= 3)%nat -> (i < p + 1)%nat -> c s p i 0 = if Nat.eqb i 0 then 1 else 0.
Proof.
  intros H Hp Hi. unfold c. destruct p as [|[|[|[|p]]]]; try lia; destruct i as [|[|[|[|i]]]]; try lia; cbn [lob_list lob Nat.add nth Nat.eqb]; field.
Qed.
Lemma c_one s p i : root5 s -> (1 <= p <= 3)%nat -> (i < p + 1)%nat -> c s p i 1 = if Nat.eqb i p then 1 else 0.
Proof.
  intros H Hp Hi. unfold c. destruct p as [|[|[|[|p]]]]; try lia; destruct i as [|[|[|[|i]]]]; try lia; cbn [lob_list lob Nat.add nth Nat.eqb]; field.
Qed.
Definition corner (p : nat) (e : bool) : nat := if e then p else 0%nat.
Definition cornerR (e : bool) : R := if e then 1 else 0.
Lemma c_corner s p i e : root5 s -> (1 <= p <= 3)%nat -> (i < p + 1)%nat -> c s p i (cornerR e) = if Nat.eqb i (corner p e) then 1 else 0.
Proof. intros H Hp Hi. destruct e; [now apply c_one|now apply c_zero]. Qed.
Lemma corner_sum s p e (F : nat -> R) : root5 s -> (1 <= p <= 3)%nat -> sumn (p + 1) (fun j => F j * c s p j (cornerR e)) = F (corner p e).
Proof.
  intros H Hp. rewrite (sumn_ext _ _ (fun j => if Nat.eqb j (corner p e) then F j else 0)).
  - apply (sumn_delta (p + 1) (corner p e) F). destruct e; cbn [corner]; lia.
  - intros j Hj. rewrite c_corner by auto. destruct (Nat.eqb j _); ring.
Qed.
(** the derivatives of the closed basis are combinations of the open basis *)
Definition leg_coef (p k m : nat) : R :=
  match p with
  | 1%nat => 1
  | 2%nat => nth m (nth k [[1.3660254037844386467637231708; - 1.732050807568877293527446342]; [-0.3660254037844386467637231708; 1.732050807568877293527446342]] []) 0
  | _ => nth m (nth k [[1.47883055770123614752987757; -4.6243277820691389617264218; 3.33333333333333333333333333];
              [-0.666666666666666666666666667; 6.66666666666666666666666667; - 6.666666666666666666666666667];
              [0.1878361089654305191367891; -2.04233888459752770494024487; 3.33333333333333333333333333]] []) 0
  end.
Definition dc_coef (s : R) (p i m : nat) : R :=
  match p with
  | 1%nat => nth i [-1; 1] 0
  | 2%nat => nth m (nth i [[-3; 4]; [4; -8]; [-1; 4]] []) 0
  | _ => nth m (nth i [[-6; 20; -15]; [5 / 2 * (1 + s); 5 * (-1 - 3 * s); 15 * s]; [- (5 / 2) * (-1 + s); - 5 * (1 - 3 * s); - 15 * s]; [1; -10; 15]] []) 0
  end.
Lemma leg_coef_at p k x : (1 <= p <= 3)%nat -> (k < p)%nat -> o p k x = sumn p (fun m => leg_coef p k m * x ^ m).
Proof.
  intros Hp Hk. unfold o. destruct p as [|[|[|[|p]]]]; try lia; destruct k as [|[|[|k]]]; try lia; cbn [leg_list nth sumn leg_coef pow]; lra.
Qed.
Lemma dc_coef_at s p i x : (1 <= p <= 3)%nat -> (i < p + 1)%nat -> dc s p i x = sumn p (fun m => dc_coef s p i m * x ^ m).
Proof.
  intros Hp Hi. unfold dc. destruct p as [|[|[|[|p]]]]; try lia; destruct i as [|[|[|[|i]]]]; try lia; cbn [lob_d_list lob_d nth sumn dc_coef pow Nat.add]; field.
Qed.
Lemma leg_invertible p : (1 <= p <= 3)%nat -> exists B, forall k m, (k < p)%nat -> (m < p)%nat -> sumn p (fun l => B k l * leg_coef p l m) = if Nat.eqb k m then 1 else 0.
Proof.
  intros Hp. destruct (Nat.eq_dec p 1) as [->|N1].
  { exists (fun _ _ => 1). intros k m Hk Hm. assert (k = 0%nat) by lia. assert (m = 0%nat) by lia. subst. cbn. ring. }
  assert (D : dim23 p) by (unfold dim23; lia).
  destruct (invn_works p (leg_coef p) D) as (B & EB).
  - destruct D as [-> | ->]; unfold detn, det2, det3; cbn [Nat.eqb leg_coef nth]; lra.
  - exists B. intros k m Hk Hm. destruct (invn_some p _ B D EB) as (_ & A & _). exact (A k m Hk Hm).
Qed.
Lemma dc_in_open s p : (1 <= p <= 3)%nat -> exists C, forall i x, (i < p + 1)%nat -> dc s p i x = sumn p (fun k => C i k * o p k x).
Proof.
  intros Hp. destruct (leg_invertible p Hp) as (B & HB). exists (fun i k => sumn p (fun m => dc_coef s p i m * B m k)).
  intros i x Hi. rewrite dc_coef_at by auto.
  rewrite (sumn_ext p (fun k => sumn p (fun m => dc_coef s p i m * B m k) * o p k x) (fun k => sumn p (fun m => dc_coef s p i m * (B m k * o p k x))))
    by (intros; rewrite <- sumn_scal_r; apply sumn_ext; intros; ring).
  rewrite sumn_swap. apply sumn_ext. intros m Hm. rewrite sumn_scal_l. f_equal.
  rewrite (sumn_ext p _ (fun k => sumn p (fun l => B m k * leg_coef p k l * x ^ l))) by (intros k Hk; rewrite leg_coef_at by auto; rewrite <- sumn_scal_l; apply sumn_ext; intros; ring).
  rewrite sumn_swap. rewrite (sumn_ext p _ (fun l => if Nat.eqb l m then x ^ l else 0)).
  - symmetry. now apply (sumn_delta p m (fun l => x ^ l)).
  - intros l Hl. rewrite sumn_scal_r. rewrite HB by auto. rewrite Nat.eqb_sym. destruct (Nat.eqb l m); ring.
Qed.

(** ** curls *)
Lemma is_derive_cst (a x : R) : is_derive (fun _ : R => a) x 0.
Proof. auto_derive; auto. Qed.
Lemma is_derive_times (f : R -> R) (x d a : R) : is_derive f x d -> is_derive (fun t => a * f t) x (a * d).
Proof. intros H. apply (is_derive_scal f x a d). exact H. Qed.
Lemma derive_ext (f g : R -> R) (x d : R) : (forall t : R, f t = g t) -> is_derive f x d -> is_derive g x d.
Proof. intros E. apply is_derive_ext. exact E. Qed.

Section Quad.
Variables (s : R) (p : nat).
Hypothesis (H5 : root5 s) (Hp : (1 <= p <= 3)%nat).
Let Hp' : (p <= 3)%nat. Proof. lia. Qed.

Lemma quad_curl u (x y : R) : exists d10 d01,
  is_derive (fun t => hq_field s p u 1 [t; y]) x d10 /\ is_derive (fun t => hq_field s p u 0 [x; t]) y d01 /\ hq_field_curl s p u [x; y] = d10 - d01.
Proof.
  exists (sumn p (fun j => sumn (p + 1) (fun i => d2y u j i * (dc s p i x * o p j y)))), (sumn (p + 1) (fun j => sumn p (fun i => d2x u j i * (o p i x * dc s p j y)))).
  split; [|split].
  - eapply derive_ext; [intros t; symmetry; apply (proj2 (hq_field_at s p Hp' u t y))|].
    apply (is_derive_sumn p (fun j t => sumn (p + 1) (fun i => d2y u j i * (c s p i t * o p j y)))). intros j Hj.
    apply (is_derive_sumn (p + 1) (fun i t => d2y u j i * (c s p i t * o p j y))). intros i Hi.
    apply (derive_ext (fun t => d2y u j i * o p j y * c s p i t)); [intros; ring|].
    replace (d2y u j i * (dc s p i x * o p j y)) with (d2y u j i * o p j y * dc s p i x) by ring. apply is_derive_times. now apply c_derive.
  - eapply derive_ext; [intros t; symmetry; apply (proj1 (hq_field_at s p Hp' u x t))|].
    apply (is_derive_sumn (p + 1) (fun j t => sumn p (fun i => d2x u j i * (o p i x * c s p j t)))). intros j Hj.
    apply (is_derive_sumn p (fun i t => d2x u j i * (o p i x * c s p j t))). intros i Hi.
    apply (derive_ext (fun t => d2x u j i * o p i x * c s p j t)); [intros; ring|].
    replace (d2x u j i * (o p i x * dc s p j y)) with (d2x u j i * o p i x * dc s p j y) by ring. apply is_derive_times. now apply c_derive.
  - rewrite (hq_field_curl_at s p Hp'). ring.
Qed.
(** tangential component on the sides *)
Lemma quad_trace u e t :
  hq_field s p u 0 [t; cornerR e] = sumn p (fun i => d2x u (corner p e) i * o p i t) /\
  hq_field s p u 1 [cornerR e; t] = sumn p (fun j => d2y u j (corner p e) * o p j t).
Proof.
  rewrite (proj1 (hq_field_at s p Hp' u t (cornerR e))), (proj2 (hq_field_at s p Hp' u (cornerR e) t)). split.
  - rewrite (sumn_ext _ _ (fun j => sumn p (fun i => d2x u j i * o p i t) * c s p j (cornerR e))) by (intros; rewrite <- sumn_scal_r; apply sumn_ext; intros; ring).
    exact (corner_sum s p e (fun j => sumn p (fun i => d2x u j i * o p i t)) H5 Hp).
  - apply sumn_ext. intros j Hj. rewrite (sumn_ext _ _ (fun i => d2y u j i * o p j t * c s p i (cornerR e))) by (intros; ring).
    exact (corner_sum s p e (fun i => d2y u j i * o p j t) H5 Hp).
Qed.
(** gradients of nodal fields are edge fields *)
Lemma quad_gradient X : exists u, forall x y : R,
  is_derive (fun t => q_nodal s p X t y) x (hq_field s p u 0 [x; y]) /\ is_derive (fun t => q_nodal s p X x t) y (hq_field s p u 1 [x; y]) /\ hq_field_curl s p u [x; y] = 0.
Proof.
  destruct (dc_in_open s p Hp) as (C & HC).
  exists {| d2x := fun j k => sumn (p + 1) (fun i => X j i * C i k); d2y := fun k i => sumn (p + 1) (fun j => X j i * C j k) |}. intros x y.
  assert (Sx : forall (f : R) j, sumn p (fun k => sumn (p + 1) (fun i => X j i * C i k) * (o p k x * f)) = sumn (p + 1) (fun i => X j i * (dc s p i x * f))).
  { intros f j. rewrite (sumn_ext p _ (fun k => sumn (p + 1) (fun i => X j i * f * (C i k * o p k x)))) by (intros; rewrite <- sumn_scal_r; apply sumn_ext; intros; ring).
    rewrite sumn_swap. apply sumn_ext. intros i Hi. rewrite sumn_scal_l, <- HC by auto. ring. }
  assert (Sy : forall (f : nat -> R), sumn p (fun k => sumn (p + 1) (fun i => sumn (p + 1) (fun j => X j i * C j k) * (f i * o p k y))) = sumn (p + 1) (fun j => sumn (p + 1) (fun i => X j i * (f i * dc s p j y)))).
  { intros f. rewrite sumn_swap. rewrite (sumn_swap (p + 1) (p + 1)). apply sumn_ext. intros i Hi.
    rewrite (sumn_ext p _ (fun k => sumn (p + 1) (fun j => X j i * f i * (C j k * o p k y)))) by (intros; rewrite <- sumn_scal_r; apply sumn_ext; intros; ring).
    rewrite sumn_swap. apply sumn_ext. intros j Hj. rewrite sumn_scal_l, <- HC by auto. ring. }
  split; [|split].
  - rewrite (proj1 (hq_field_at s p Hp' _ x y)). cbn [d2x]. rewrite (sumn_ext _ _ (fun j => sumn (p + 1) (fun i => X j i * (dc s p i x * c s p j y)))) by (intros; apply Sx).
    unfold q_nodal. apply (is_derive_sumn (p + 1) (fun j t => sumn (p + 1) (fun i => X j i * (c s p i t * c s p j y)))). intros j Hj.
    apply (is_derive_sumn (p + 1) (fun i t => X j i * (c s p i t * c s p j y))). intros i Hi.
    apply (derive_ext (fun t => X j i * c s p j y * c s p i t)); [intros; ring|].
    replace (X j i * (dc s p i x * c s p j y)) with (X j i * c s p j y * dc s p i x) by ring. apply is_derive_times. now apply c_derive.
  - rewrite (proj2 (hq_field_at s p Hp' _ x y)). cbn [d2y]. rewrite Sy.
    unfold q_nodal. apply (is_derive_sumn (p + 1) (fun j t => sumn (p + 1) (fun i => X j i * (c s p i x * c s p j t)))). intros j Hj.
    apply (is_derive_sumn (p + 1) (fun i t => X j i * (c s p i x * c s p j t))). intros i Hi.
    apply (derive_ext (fun t => X j i * c s p i x * c s p j t)); [intros; ring|].
    replace (X j i * (c s p i x * dc s p j y)) with (X j i * c s p i x * dc s p j y) by ring. apply is_derive_times. now apply c_derive.
  - rewrite (hq_field_curl_at s p Hp'). cbn [d2x d2y]. rewrite Sy.
    rewrite (sumn_ext (p + 1) (fun j => sumn p _) (fun j => sumn (p + 1) (fun i => X j i * (dc s p i x * dc s p j y)))) by (intros; apply Sx). ring.
Qed.
End Quad.

(** ** hexahedra *)
Section Hex.
Variables (s : R) (p : nat).
Hypothesis (H5 : root5 s) (Hp : (1 <= p <= 3)%nat).
Let Hp' : (p <= 3)%nat. Proof. lia. Qed.
Lemma der3 n1 n2 n3 (A : nat -> nat -> nat -> R) (g : nat -> nat -> nat -> R -> R) (dg : nat -> nat -> nat -> R) (x : R) :
  (forall k j i, (k < n1)%nat -> (j < n2)%nat -> (i < n3)%nat -> is_derive (g k j i) x (dg k j i)) ->
  is_derive (fun t => sumn n1 (fun k => sumn n2 (fun j => sumn n3 (fun i => A k j i * g k j i t)))) x (sumn n1 (fun k => sumn n2 (fun j => sumn n3 (fun i => A k j i * dg k j i)))).
Proof.
  intros H. apply (is_derive_sumn n1 (fun k t => sumn n2 (fun j => sumn n3 (fun i => A k j i * g k j i t)))). intros k Hk.
  apply (is_derive_sumn n2 (fun j t => sumn n3 (fun i => A k j i * g k j i t))). intros j Hj.
  apply (is_derive_sumn n3 (fun i t => A k j i * g k j i t)). intros i Hi. apply is_derive_times. now apply H.
Qed.
Lemma pos1 (f : R -> R) (x d a b : R) : is_derive f x d -> is_derive (fun t => f t * a * b) x (d * a * b).
Proof. intros H. apply (derive_ext (fun t => a * b * f t)); [intros; ring|]. replace (d * a * b) with (a * b * d) by ring. now apply is_derive_times. Qed.
Lemma pos2 (f : R -> R) (x d a b : R) : is_derive f x d -> is_derive (fun t => a * f t * b) x (a * d * b).
Proof. intros H. apply (derive_ext (fun t => a * b * f t)); [intros; ring|]. replace (a * d * b) with (a * b * d) by ring. now apply is_derive_times. Qed.
Lemma pos3 (f : R -> R) (x d a b : R) : is_derive f x d -> is_derive (fun t => a * b * f t) x (a * b * d).
Proof. intros H. now apply is_derive_times. Qed.
Definition F0 u x y z := proj1 (hx_field_at s p Hp' u x y z).
Definition F1 u x y z := proj1 (proj2 (hx_field_at s p Hp' u x y z)).
Definition F2 u x y z := proj2 (proj2 (hx_field_at s p Hp' u x y z)).
Lemma hex_curl u (x y z : R) : exists d01 d02 d10 d12 d20 d21,
  is_derive (fun t => hx_field s p u 0 [x; t; z]) y d01 /\ is_derive (fun t => hx_field s p u 0 [x; y; t]) z d02 /\
  is_derive (fun t => hx_field s p u 1 [t; y; z]) x d10 /\ is_derive (fun t => hx_field s p u 1 [x; y; t]) z d12 /\
  is_derive (fun t => hx_field s p u 2 [t; y; z]) x d20 /\ is_derive (fun t => hx_field s p u 2 [x; t; z]) y d21 /\
  hx_field_curl s p u 0 [x; y; z] = d21 - d12 /\ hx_field_curl s p u 1 [x; y; z] = d02 - d20 /\ hx_field_curl s p u 2 [x; y; z] = d10 - d01.
Proof.
  exists (xs p (fun k j i => d3x u k j i * (o p i x * dc s p j y * c s p k z))), (xs p (fun k j i => d3x u k j i * (o p i x * c s p j y * dc s p k z))),
    (ys p (fun k j i => d3y u k j i * (dc s p i x * o p j y * c s p k z))), (ys p (fun k j i => d3y u k j i * (c s p i x * o p j y * dc s p k z))),
    (zs p (fun k j i => d3z u k j i * (dc s p i x * c s p j y * o p k z))), (zs p (fun k j i => d3z u k j i * (c s p i x * dc s p j y * o p k z))).
  split; [eapply derive_ext; [intros t; symmetry; apply F0|]; apply (der3 _ _ _ _ (fun k j i t => o p i x * c s p j t * c s p k z)); intros; apply pos2; now apply c_derive|].
  split; [eapply derive_ext; [intros t; symmetry; apply F0|]; apply (der3 _ _ _ _ (fun k j i t => o p i x * c s p j y * c s p k t)); intros; apply pos3; now apply c_derive|].
  split; [eapply derive_ext; [intros t; symmetry; apply F1|]; apply (der3 _ _ _ _ (fun k j i t => c s p i t * o p j y * c s p k z)); intros; apply pos1; now apply c_derive|].
  split; [eapply derive_ext; [intros t; symmetry; apply F1|]; apply (der3 _ _ _ _ (fun k j i t => c s p i x * o p j y * c s p k t)); intros; apply pos3; now apply c_derive|].
  split; [eapply derive_ext; [intros t; symmetry; apply F2|]; apply (der3 _ _ _ _ (fun k j i t => c s p i t * c s p j y * o p k z)); intros; apply pos1; now apply c_derive|].
  split; [eapply derive_ext; [intros t; symmetry; apply F2|]; apply (der3 _ _ _ _ (fun k j i t => c s p i x * c s p j t * o p k z)); intros; apply pos2; now apply c_derive|].
  destruct (hx_field_curl_at s p Hp' u x y z) as (-> & -> & ->). split; [ring|split; ring].
Qed.
(** the tangential part on a face is the edge field of the face *)
Lemma hex_trace u axis e a b : (axis < 3)%nat ->
  hx_field s p u (other0 axis) (face_point axis (cornerR e) a b) = hq_field s p (face_dofs axis (corner p e) u) 0 [a; b] /\
  hx_field s p u (other1 axis) (face_point axis (cornerR e) a b) = hq_field s p (face_dofs axis (corner p e) u) 1 [a; b].
Proof.
  intros Ha. pose proof (fun F => corner_sum s p e F H5 Hp) as CS. destruct axis as [|[|[|axis]]]; [| | |lia]; cbn [other0 other1 face_point];
    rewrite (proj1 (hq_field_at s p Hp' _ a b)), (proj2 (hq_field_at s p Hp' _ a b)); cbn [face_dofs d2x d2y].
  - rewrite F1, F2. unfold ys, zs. split; apply sumn_ext; intros k Hk; apply sumn_ext; intros j Hj.
    + rewrite <- (CS (fun i => d3y u k j i * (o p j a * c s p k b))). apply sumn_ext. intros. ring.
    + rewrite <- (CS (fun i => d3z u k j i * (c s p j a * o p k b))). apply sumn_ext. intros. ring.
  - rewrite F0, F2. unfold xs, zs. split; apply sumn_ext; intros k Hk.
    + rewrite <- (CS (fun j => sumn p (fun i => d3x u k j i * (o p i a * c s p k b)))). apply sumn_ext. intros j Hj. rewrite <- sumn_scal_r. apply sumn_ext. intros. ring.
    + rewrite <- (CS (fun j => sumn (p + 1) (fun i => d3z u k j i * (c s p i a * o p k b)))). apply sumn_ext. intros j Hj. rewrite <- sumn_scal_r. apply sumn_ext. intros. ring.
  - rewrite F0, F1. unfold xs, ys. split.
    + rewrite <- (CS (fun k => sumn (p + 1) (fun j => sumn p (fun i => d3x u k j i * (o p i a * c s p j b))))). apply sumn_ext. intros k Hk. rewrite <- sumn_scal_r. apply sumn_ext. intros j Hj.
      rewrite <- sumn_scal_r. apply sumn_ext. intros. ring.
    + rewrite <- (CS (fun k => sumn p (fun j => sumn (p + 1) (fun i => d3y u k j i * (c s p i a * o p j b))))). apply sumn_ext. intros k Hk. rewrite <- sumn_scal_r. apply sumn_ext. intros j Hj.
      rewrite <- sumn_scal_r. apply sumn_ext. intros. ring.
Qed.
Lemma hex_gradient X : exists u, forall x y z : R,
  is_derive (fun t => h_nodal s p X t y z) x (hx_field s p u 0 [x; y; z]) /\ is_derive (fun t => h_nodal s p X x t z) y (hx_field s p u 1 [x; y; z]) /\
  is_derive (fun t => h_nodal s p X x y t) z (hx_field s p u 2 [x; y; z]) /\ forall a, (a < 3)%nat -> hx_field_curl s p u a [x; y; z] = 0.
Proof.
  destruct (dc_in_open s p Hp) as (C & HC).
  exists {| d3x := fun k j l => sumn (p + 1) (fun i => X k j i * C i l); d3y := fun k l i => sumn (p + 1) (fun j => X k j i * C j l); d3z := fun l j i => sumn (p + 1) (fun k => X k j i * C k l) |}.
  intros x y z.
  assert (One : forall v (Y : nat -> R) (f : R), sumn p (fun l => sumn (p + 1) (fun i => Y i * C i l) * (o p l v * f)) = sumn (p + 1) (fun i => Y i * (dc s p i v * f))).
  { intros v Y f. rewrite (sumn_ext p _ (fun l => sumn (p + 1) (fun i => Y i * f * (C i l * o p l v)))) by (intros; rewrite <- sumn_scal_r; apply sumn_ext; intros; ring).
    rewrite sumn_swap. apply sumn_ext. intros i Hi. rewrite sumn_scal_l, <- HC by auto. ring. }
  assert (Sx : forall f g, xs p (fun k j l => sumn (p + 1) (fun i => X k j i * C i l) * (o p l x * f j * g k)) =
     sumn (p + 1) (fun k => sumn (p + 1) (fun j => sumn (p + 1) (fun i => X k j i * (dc s p i x * f j * g k))))).
  { intros f g. unfold xs. apply sumn_ext. intros k Hk. apply sumn_ext. intros j Hj.
    rewrite (sumn_ext p _ (fun l => sumn (p + 1) (fun i => X k j i * C i l) * (o p l x * (f j * g k)))) by (intros; ring). rewrite One. apply sumn_ext. intros. ring. }
  assert (Sy : forall f g, ys p (fun k l i => sumn (p + 1) (fun j => X k j i * C j l) * (f i * o p l y * g k)) =
     sumn (p + 1) (fun k => sumn (p + 1) (fun j => sumn (p + 1) (fun i => X k j i * (f i * dc s p j y * g k))))).
  { intros f g. unfold ys. apply sumn_ext. intros k Hk. transitivity (sumn (p + 1) (fun i => sumn (p + 1) (fun j => X k j i * (f i * dc s p j y * g k)))); [|apply sumn_swap].
    rewrite sumn_swap. apply sumn_ext. intros i Hi.
    rewrite (sumn_ext p _ (fun l => sumn (p + 1) (fun j => X k j i * C j l) * (o p l y * (f i * g k)))) by (intros; ring).
    rewrite (One y (fun j => X k j i)). apply sumn_ext. intros. ring. }
  assert (Sz : forall f g, zs p (fun l j i => sumn (p + 1) (fun k => X k j i * C k l) * (f i * g j * o p l z)) =
     sumn (p + 1) (fun k => sumn (p + 1) (fun j => sumn (p + 1) (fun i => X k j i * (f i * g j * dc s p k z))))).
  { intros f g. unfold zs.
    transitivity (sumn (p + 1) (fun j => sumn (p + 1) (fun i => sumn (p + 1) (fun k => X k j i * (f i * g j * dc s p k z))))).
    - rewrite sumn_swap. apply sumn_ext. intros j Hj. rewrite sumn_swap. apply sumn_ext. intros i Hi.
      rewrite (sumn_ext p _ (fun l => sumn (p + 1) (fun k => X k j i * C k l) * (o p l z * (f i * g j)))) by (intros; ring).
      rewrite (One z (fun k => X k j i)). apply sumn_ext. intros. ring.
    - rewrite (sumn_swap (p + 1) (p + 1) (fun k j => sumn (p + 1) (fun i => X k j i * (f i * g j * dc s p k z)))). apply sumn_ext. intros j Hj. apply sumn_swap. }
  split; [|split; [|split]].
  - rewrite F0. cbn [d3x]. rewrite (Sx (fun j => c s p j y) (fun k => c s p k z)). unfold h_nodal.
    apply (der3 _ _ _ _ (fun k j i t => c s p i t * c s p j y * c s p k z)). intros. apply pos1. now apply c_derive.
  - rewrite F1. cbn [d3y]. rewrite (Sy (fun i => c s p i x) (fun k => c s p k z)). unfold h_nodal.
    apply (der3 _ _ _ _ (fun k j i t => c s p i x * c s p j t * c s p k z)). intros. apply pos2. now apply c_derive.
  - rewrite F2. cbn [d3z]. rewrite (Sz (fun i => c s p i x) (fun j => c s p j y)). unfold h_nodal.
    apply (der3 _ _ _ _ (fun k j i t => c s p i x * c s p j y * c s p k t)). intros. apply pos3. now apply c_derive.
  - intros a Ha. destruct (hx_field_curl_at s p Hp' {| d3x := fun k j l => sumn (p + 1) (fun i => X k j i * C i l); d3y := fun k l i => sumn (p + 1) (fun j => X k j i * C j l);
       d3z := fun l j i => sumn (p + 1) (fun k => X k j i * C k l) |} x y z) as (C0 & C1 & C2). cbn [d3x d3y d3z] in C0, C1, C2.
    destruct a as [|[|[|a]]]; [| | |lia].
    + rewrite C0, (Sy (fun i => c s p i x) (fun k => dc s p k z)), (Sz (fun i => c s p i x) (fun j => dc s p j y)). ring.
    + rewrite C1, (Sx (fun j => c s p j y) (fun k => dc s p k z)), (Sz (fun i => dc s p i x) (fun j => c s p j y)). ring.
    + rewrite C2, (Sx (fun j => dc s p j y) (fun k => c s p k z)), (Sy (fun i => dc s p i x) (fun k => c s p k z)). ring.
Qed.
End Hex.

(** ** nodes *)
Lemma at_first {A} (L M : list A) d k : (k < length L)%nat -> nth k (L ++ M) d = nth k L d.
Proof. apply app_nth1. Qed.
Lemma at_second {A} (L M : list A) d k a : length L = a -> nth (a + k) (L ++ M) d = nth k M d.
Proof. intros <-. rewrite app_nth2 by lia. f_equal. lia. Qed.
Definition tol : R := 2 / 1000000000000000.
Lemma leg_nodes_len p : (1 <= p <= 3)%nat -> length (leg_nodes p) = p.
Proof. intros H. destruct p as [|[|[|[|p]]]]; try lia; reflexivity. Qed.
Lemma lob_nodes_len s p : (1 <= p <= 3)%nat -> length (lob_nodes s (p + 1)) = (p + 1)%nat.
Proof. intros H. destruct p as [|[|[|[|p]]]]; try lia; reflexivity. Qed.
Lemma o_nodal p i l : (1 <= p <= 3)%nat -> (i < p)%nat -> (l < p)%nat -> Rabs (o p i (nth l (leg_nodes p) 0) - (if Nat.eqb i l then 1 else 0)) <= tol.
Proof.
  intros Hp Hi Hl. unfold o, tol. destruct p as [|[|[|[|p]]]]; try lia; destruct i as [|[|[|i]]]; try lia; destruct l as [|[|[|l]]]; try lia;
    cbn [leg_nodes seg_nodes map nth leg_list Nat.eqb]; apply Rabs_le; lra.
Qed.
Lemma c_nodal s p i l : root5 s -> (1 <= p <= 3)%nat -> (i < p + 1)%nat -> (l < p + 1)%nat -> c s p i (nth l (lob_nodes s (p + 1)) 0) = if Nat.eqb i l then 1 else 0.
Proof.
  intros H Hp Hi Hl. unfold root5 in H. unfold c. destruct p as [|[|[|[|p]]]]; try lia; destruct i as [|[|[|[|i]]]]; try lia; destruct l as [|[|[|[|l]]]]; try lia;
    cbn [lob_nodes lob_list lob nth Nat.eqb Nat.add]; field [H].
Qed.

Lemma near_delta i l (v w : R) (b : bool) : Rabs (v - (if Nat.eqb i l then 1 else 0)) <= tol -> w = (if b then 1 else 0) ->
  Rabs (v * w - (if andb (Nat.eqb i l) b then 1 else 0)) <= tol.
Proof.
  intros H ->. destruct b; rewrite ?Bool.andb_true_r, ?Bool.andb_false_r.
  - now rewrite Rmult_1_r.
  - rewrite Rmult_0_r, Rminus_0_r, Rabs_R0. unfold tol. lra.
Qed.
Lemma Rabs_zero_tol : Rabs (0 - 0) <= tol.
Proof. rewrite Rminus_0_r, Rabs_R0. unfold tol. lra. Qed.
Lemma nth_repeat_lt {A} (a d : A) m k : (k < m)%nat -> nth k (repeat a m) d = a.
Proof. revert k. induction m as [|m IH]; intros [|k] H; cbn; try lia; [reflexivity|]. apply IH. lia. Qed.

Lemma quad_nodes s p : root5 s -> (1 <= p <= 3)%nat -> nodal_to tol 2 (hq_ndof p) (hq_nodes s p) (hq_dirs p) (hq_shape s p).
Proof.
  intros H5 Hp. assert (Hp' : (p <= 3)%nat) by lia. pose proof (leg_nodes_len p Hp) as LE. pose proof (lob_nodes_len s p Hp) as LO.
  assert (G1 : length (ShapeTensor.outer (fun x y : R => [x; y]) (leg_nodes p) (lob_nodes s (p + 1))) = ((p + 1) * p)%nat) by (rewrite outer_length, LE, LO; lia).
  assert (G2 : length (ShapeTensor.outer (fun x y : R => [x; y]) (lob_nodes s (p + 1)) (leg_nodes p)) = ((p + 1) * p)%nat) by (rewrite outer_length, LE, LO; lia).
  assert (NX : forall j i, (j < p + 1)%nat -> (i < p)%nat -> nth (j * p + i) (hq_nodes s p) [] = [nth i (leg_nodes p) 0; nth j (lob_nodes s (p + 1)) 0]).
  { intros j i Hj Hi. unfold hq_nodes. rewrite at_first.
    - pose proof (outer_at (fun x y : R => [x; y]) (leg_nodes p) (lob_nodes s (p + 1)) 0 0 [] i j) as H. rewrite LE, LO in H. now apply H.
    - unfold ShapeTensor.outer in G1. rewrite G1. nia. }
  assert (NY : forall j i, (j < p)%nat -> (i < p + 1)%nat -> nth ((p + 1) * p + (j * (p + 1) + i)) (hq_nodes s p) [] = [nth i (lob_nodes s (p + 1)) 0; nth j (leg_nodes p) 0]).
  { intros j i Hj Hi. unfold hq_nodes. rewrite (at_second _ _ [] _ ((p + 1) * p)%nat G1).
    pose proof (outer_at (fun x y : R => [x; y]) (lob_nodes s (p + 1)) (leg_nodes p) 0 0 [] i j) as H. rewrite LE, LO in H. now apply H. }
  assert (DX : forall l, (l < (p + 1) * p)%nat -> nth l (hq_dirs p) [] = [1; 0]).
  { intros l Hl. unfold hq_dirs. rewrite at_first by (rewrite repeat_length; lia). apply nth_repeat_lt. lia. }
  assert (DY : forall l, (l < (p + 1) * p)%nat -> nth ((p + 1) * p + l) (hq_dirs p) [] = [0; 1]).
  { intros l Hl. unfold hq_dirs. rewrite (at_second _ _ [] _ ((p + 1) * p)%nat) by (rewrite repeat_length; lia). apply nth_repeat_lt. lia. }
  split; [|split].
  - unfold hq_nodes. unfold ShapeTensor.outer in G1, G2. rewrite app_length, G1, G2. unfold hq_ndof. lia.
  - unfold hq_dirs. rewrite app_length, !repeat_length. unfold hq_ndof. lia.
  - intros k l Hk Hl. destruct (hq_split p k Hk) as [(j & i & Hj & Hi & ->)|(j & i & Hj & Hi & ->)]; destruct (hq_split p l Hl) as [(j' & i' & Hj' & Hi' & ->)|(j' & i' & Hj' & Hi' & ->)].
    + rewrite NX, hq_shape_x, DX by (auto; nia). cbn [sumn nth]. rewrite c_nodal by auto.
      replace (if Nat.eqb (j * p + i) (j' * p + i') then 1 else 0) with (if andb (Nat.eqb i i') (Nat.eqb j j') then 1 else 0).
      * pose proof (near_delta i i' (o p i (nth i' (leg_nodes p) 0)) (if Nat.eqb j j' then 1 else 0) (Nat.eqb j j') (o_nodal p i i' Hp Hi Hi') eq_refl) as N.
        match goal with |- Rabs (?e - _) <= _ => replace e with (o p i (nth i' (leg_nodes p) 0) * (if Nat.eqb j j' then 1 else 0)) by ring end. exact N.
      * destruct (Nat.eqb_spec i i'), (Nat.eqb_spec j j'), (Nat.eqb_spec (j * p + i) (j' * p + i')); cbn [andb]; try reflexivity; exfalso; try (subst; lia); nia.
    + rewrite NY, hq_shape_x, DY by (auto; nia). cbn [sumn nth]. rewrite (proj2 (Nat.eqb_neq _ _)) by nia.
      match goal with |- Rabs (?e - _) <= _ => replace e with 0 by ring end. apply Rabs_zero_tol.
    + rewrite NX, hq_shape_y, DX by (auto; nia). cbn [sumn nth]. rewrite (proj2 (Nat.eqb_neq _ _)) by nia.
      match goal with |- Rabs (?e - _) <= _ => replace e with 0 by ring end. apply Rabs_zero_tol.
    + rewrite NY, hq_shape_y, DY by (auto; nia). cbn [sumn nth]. rewrite c_nodal by auto.
      replace (if Nat.eqb ((p + 1) * p + (j * (p + 1) + i)) ((p + 1) * p + (j' * (p + 1) + i')) then 1 else 0) with (if andb (Nat.eqb j j') (Nat.eqb i i') then 1 else 0).
      * pose proof (near_delta j j' (o p j (nth j' (leg_nodes p) 0)) (if Nat.eqb i i' then 1 else 0) (Nat.eqb i i') (o_nodal p j j' Hp Hj Hj') eq_refl) as N.
        match goal with |- Rabs (?e - _) <= _ => replace e with (o p j (nth j' (leg_nodes p) 0) * (if Nat.eqb i i' then 1 else 0)) by ring end. exact N.
      * destruct (Nat.eqb_spec i i'), (Nat.eqb_spec j j'), (Nat.eqb_spec ((p + 1) * p + (j * (p + 1) + i)) ((p + 1) * p + (j' * (p + 1) + i'))); cbn [andb]; try reflexivity; exfalso; try (subst; lia); nia.
Qed.

Lemma near_delta3 i l (v w1 w2 : R) (b1 b2 : bool) : Rabs (v - (if Nat.eqb i l then 1 else 0)) <= tol -> w1 = (if b1 then 1 else 0) -> w2 = (if b2 then 1 else 0) ->
  Rabs (v * w1 * w2 - (if andb (Nat.eqb i l) (andb b1 b2) then 1 else 0)) <= tol.
Proof.
  intros H E1 E2. rewrite Rmult_assoc. apply (near_delta i l v (w1 * w2) (andb b1 b2) H). rewrite E1, E2. destruct b1, b2; cbn [andb]; ring.
Qed.
Lemma flat3_eqb n1 n2 k j i k' j' i' : (j < n2)%nat -> (i < n1)%nat -> (j' < n2)%nat -> (i' < n1)%nat ->
  Nat.eqb ((k * n2 + j) * n1 + i) ((k' * n2 + j') * n1 + i') = andb (Nat.eqb i i') (andb (Nat.eqb j j') (Nat.eqb k k')).
Proof.
  intros Hj Hi Hj' Hi'. destruct (flat_mix n1 n2 k j i Hj Hi) as (A & B & C). destruct (flat_mix n1 n2 k' j' i' Hj' Hi') as (A' & B' & C').
  destruct (Nat.eqb_spec i i') as [->|N]; [|rewrite (proj2 (Nat.eqb_neq _ _)); [reflexivity|]; intros E; rewrite E in C; congruence].
  destruct (Nat.eqb_spec j j') as [->|N]; [|rewrite (proj2 (Nat.eqb_neq _ _)); [reflexivity|]; intros E; rewrite E in B; congruence].
  destruct (Nat.eqb_spec k k') as [->|N]; [now rewrite Nat.eqb_refl|rewrite (proj2 (Nat.eqb_neq _ _)); [reflexivity|]; intros E; rewrite E in A; congruence].
Qed.
Lemma eqb_shift a x y : Nat.eqb (a + x) (a + y) = Nat.eqb x y.
Proof. destruct (Nat.eqb_spec x y), (Nat.eqb_spec (a + x) (a + y)); try reflexivity; lia. Qed.
Lemma if_pair {A} (P Q : bool) (a b : A) : P = Q -> (if P then a else b) = (if Q then a else b).
Proof. now intros ->. Qed.
Lemma hex_nodes s p : root5 s -> (1 <= p <= 3)%nat -> nodal_to tol 3 (hx_ndof p) (hx_nodes s p) (hx_dirs p) (hx_shape s p).
Proof.
  intros H5 Hp. assert (Hp' : (p <= 3)%nat) by lia. pose proof (leg_nodes_len p Hp) as LE. pose proof (lob_nodes_len s p Hp) as LO.
  set (m := ((p + 1) * (p + 1) * p)%nat). pose (pt := fun x y z : R => [x; y; z]).
  assert (G1 : length (outer3 pt (leg_nodes p) (lob_nodes s (p + 1)) (lob_nodes s (p + 1))) = m) by (rewrite outer3_length, LE, LO; unfold m; lia).
  assert (G2 : length (outer3 pt (lob_nodes s (p + 1)) (leg_nodes p) (lob_nodes s (p + 1))) = m) by (rewrite outer3_length, LE, LO; unfold m; lia).
  assert (G3 : length (outer3 pt (lob_nodes s (p + 1)) (lob_nodes s (p + 1)) (leg_nodes p)) = m) by (rewrite outer3_length, LE, LO; unfold m; lia).
  assert (NE : hx_nodes s p = outer3 pt (leg_nodes p) (lob_nodes s (p + 1)) (lob_nodes s (p + 1)) ++ outer3 pt (lob_nodes s (p + 1)) (leg_nodes p) (lob_nodes s (p + 1)) ++
     outer3 pt (lob_nodes s (p + 1)) (lob_nodes s (p + 1)) (leg_nodes p)) by reflexivity.
  assert (NX : forall k j i, (k < p + 1)%nat -> (j < p + 1)%nat -> (i < p)%nat -> nth ((k * (p + 1) + j) * p + i) (hx_nodes s p) [] = [nth i (leg_nodes p) 0; nth j (lob_nodes s (p + 1)) 0; nth k (lob_nodes s (p + 1)) 0]).
  { intros k j i Hk Hj Hi. rewrite NE, at_first by (rewrite G1; unfold m; nia).
    pose proof (outer3_at pt (leg_nodes p) (lob_nodes s (p + 1)) (lob_nodes s (p + 1)) 0 0 0 [] i j k) as H. rewrite LE, LO in H. now apply H. }
  assert (NY : forall k j i, (k < p + 1)%nat -> (j < p)%nat -> (i < p + 1)%nat -> nth (m + ((k * p + j) * (p + 1) + i)) (hx_nodes s p) [] = [nth i (lob_nodes s (p + 1)) 0; nth j (leg_nodes p) 0; nth k (lob_nodes s (p + 1)) 0]).
  { intros k j i Hk Hj Hi. rewrite NE, (at_second _ _ [] _ m G1), at_first by (rewrite G2; unfold m; nia).
    pose proof (outer3_at pt (lob_nodes s (p + 1)) (leg_nodes p) (lob_nodes s (p + 1)) 0 0 0 [] i j k) as H. rewrite LE, LO in H. now apply H. }
  assert (NZ : forall k j i, (k < p)%nat -> (j < p + 1)%nat -> (i < p + 1)%nat -> nth (m + (m + ((k * (p + 1) + j) * (p + 1) + i))) (hx_nodes s p) [] = [nth i (lob_nodes s (p + 1)) 0; nth j (lob_nodes s (p + 1)) 0; nth k (leg_nodes p) 0]).
  { intros k j i Hk Hj Hi. rewrite NE, (at_second _ _ [] _ m G1), (at_second _ _ [] _ m G2).
    pose proof (outer3_at pt (lob_nodes s (p + 1)) (lob_nodes s (p + 1)) (leg_nodes p) 0 0 0 [] i j k) as H. rewrite LE, LO in H. now apply H. }
  assert (ME : (p * (p + 1) * (p + 1) = m)%nat) by (unfold m; lia).
  assert (DX : forall l, (l < m)%nat -> nth l (hx_dirs p) [] = [1; 0; 0]).
  { intros l Hl. unfold hx_dirs. rewrite ME. cbv zeta. rewrite at_first by (rewrite repeat_length; lia). now apply nth_repeat_lt. }
  assert (DY : forall l, (l < m)%nat -> nth (m + l) (hx_dirs p) [] = [0; 1; 0]).
  { intros l Hl. unfold hx_dirs. rewrite ME. cbv zeta. rewrite (at_second _ _ [] _ m) by apply repeat_length. rewrite at_first by (rewrite repeat_length; lia). now apply nth_repeat_lt. }
  assert (DZ : forall l, (l < m)%nat -> nth (m + (m + l)) (hx_dirs p) [] = [0; 0; 1]).
  { intros l Hl. unfold hx_dirs. rewrite ME. cbv zeta. rewrite (at_second _ _ [] _ m) by apply repeat_length. rewrite (at_second _ _ [] _ m) by apply repeat_length. now apply nth_repeat_lt. }
  assert (RX : forall k j i, (k < p + 1)%nat -> (j < p + 1)%nat -> (i < p)%nat -> ((k * (p + 1) + j) * p + i < m)%nat) by (intros; unfold m; nia).
  assert (RY : forall k j i, (k < p + 1)%nat -> (j < p)%nat -> (i < p + 1)%nat -> ((k * p + j) * (p + 1) + i < m)%nat) by (intros; unfold m; nia).
  assert (RZ : forall k j i, (k < p)%nat -> (j < p + 1)%nat -> (i < p + 1)%nat -> ((k * (p + 1) + j) * (p + 1) + i < m)%nat) by (intros; unfold m; nia).
  split; [|split].
  - rewrite NE, !app_length, G1, G2, G3. unfold hx_ndof, m. lia.
  - unfold hx_dirs. cbv zeta. rewrite !app_length, !repeat_length. unfold hx_ndof. lia.
  - intros k0 l0 Hk0 Hl0. destruct (hx_split p k0 Hk0) as [(k & j & i & Hk & Hj & Hi & ->)|[(k & j & i & Hk & Hj & Hi & ->)|(k & j & i & Hk & Hj & Hi & ->)]]; fold m;
      destruct (hx_split p l0 Hl0) as [(k' & j' & i' & Hk' & Hj' & Hi' & ->)|[(k' & j' & i' & Hk' & Hj' & Hi' & ->)|(k' & j' & i' & Hk' & Hj' & Hi' & ->)]]; fold m;
      [rewrite NX, hx_shape_x, DX by auto|rewrite NY, hx_shape_x, DY by auto|rewrite NZ, hx_shape_x, DZ by auto|
       rewrite NX, (hx_shape_y s p Hp' _ _ _ k j i Hk Hj Hi), DX by auto|rewrite NY, (hx_shape_y s p Hp' _ _ _ k j i Hk Hj Hi), DY by auto|rewrite NZ, (hx_shape_y s p Hp' _ _ _ k j i Hk Hj Hi), DZ by auto|
       rewrite NX, (hx_shape_z s p Hp' _ _ _ k j i Hk Hj Hi), DX by auto|rewrite NY, (hx_shape_z s p Hp' _ _ _ k j i Hk Hj Hi), DY by auto|rewrite NZ, (hx_shape_z s p Hp' _ _ _ k j i Hk Hj Hi), DZ by auto];
      cbn [sumn nth].
    + rewrite flat3_eqb by auto.
      match goal with |- Rabs (?e - _) <= _ => replace e with (o p i (nth i' (leg_nodes p) 0) * c s p j (nth j' (lob_nodes s (p + 1)) 0) * c s p k (nth k' (lob_nodes s (p + 1)) 0)) by ring end.
      apply near_delta3; [now apply o_nodal|now apply c_nodal|now apply c_nodal].
    + rewrite (proj2 (Nat.eqb_neq _ _)) by (pose proof (RX k j i Hk Hj Hi); lia). match goal with |- Rabs (?e - _) <= _ => replace e with 0 by ring end. apply Rabs_zero_tol.
    + rewrite (proj2 (Nat.eqb_neq _ _)) by (pose proof (RX k j i Hk Hj Hi); lia). match goal with |- Rabs (?e - _) <= _ => replace e with 0 by ring end. apply Rabs_zero_tol.
    + rewrite (proj2 (Nat.eqb_neq _ _)) by (pose proof (RX k' j' i' Hk' Hj' Hi'); lia). match goal with |- Rabs (?e - _) <= _ => replace e with 0 by ring end. apply Rabs_zero_tol.
    + rewrite eqb_shift, flat3_eqb by auto. rewrite (if_pair _ (andb (Nat.eqb j j') (andb (Nat.eqb i i') (Nat.eqb k k'))) 1 0) by (destruct (Nat.eqb i i'), (Nat.eqb j j'); reflexivity).
      match goal with |- Rabs (?e - _) <= _ => replace e with (o p j (nth j' (leg_nodes p) 0) * c s p i (nth i' (lob_nodes s (p + 1)) 0) * c s p k (nth k' (lob_nodes s (p + 1)) 0)) by ring end.
      apply near_delta3; [now apply o_nodal|now apply c_nodal|now apply c_nodal].
    + rewrite (proj2 (Nat.eqb_neq _ _)) by (pose proof (RY k j i Hk Hj Hi); lia). match goal with |- Rabs (?e - _) <= _ => replace e with 0 by ring end. apply Rabs_zero_tol.
    + rewrite (proj2 (Nat.eqb_neq _ _)) by (pose proof (RX k' j' i' Hk' Hj' Hi'); lia). match goal with |- Rabs (?e - _) <= _ => replace e with 0 by ring end. apply Rabs_zero_tol.
    + rewrite (proj2 (Nat.eqb_neq _ _)) by (pose proof (RY k' j' i' Hk' Hj' Hi'); lia). match goal with |- Rabs (?e - _) <= _ => replace e with 0 by ring end. apply Rabs_zero_tol.
    + rewrite !eqb_shift, flat3_eqb by auto. rewrite (if_pair _ (andb (Nat.eqb k k') (andb (Nat.eqb i i') (Nat.eqb j j'))) 1 0) by (destruct (Nat.eqb i i'), (Nat.eqb j j'), (Nat.eqb k k'); reflexivity).
      match goal with |- Rabs (?e - _) <= _ => replace e with (o p k (nth k' (leg_nodes p) 0) * c s p i (nth i' (lob_nodes s (p + 1)) 0) * c s p j (nth j' (lob_nodes s (p + 1)) 0)) by ring end.
      apply near_delta3; [now apply o_nodal|now apply c_nodal|now apply c_nodal].
Qed.
(** example: the lowest-order quadrilateral *)
Lemma unit_circulation s x y : let u := {| d2x := fun j _ => if Nat.eqb j 0 then 1 else -1; d2y := fun _ i => if Nat.eqb i 0 then -1 else 1 |} in
  hq_field_curl s 1 u [x; y] = 4 /\ hq_field s 1 u 0 [x; y] = 1 - 2 * y /\ hq_field s 1 u 1 [x; y] = 2 * x - 1.
Proof.
  cbv zeta. rewrite hq_field_curl_at by lia. destruct (hq_field_at s 1 ltac:(lia) {| d2x := fun j _ => if Nat.eqb j 0 then 1 else -1; d2y := fun _ i => if Nat.eqb i 0 then -1 else 1 |} x y) as [-> ->].
  cbn [Nat.add sumn d2x d2y Nat.eqb]. unfold o, c, dc. cbn. repeat split; lra.
Qed.

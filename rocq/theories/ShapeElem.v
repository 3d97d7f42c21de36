(** * Shape-aware integrals over elements and boundary elements; geometric factors *)
From Coq Require Import Reals List Bool Lra Lia Arith ZArith.
Import ListNotations.
From Verif Require Import Sums Tensor MatAlg ShapeAware StateMgr.
Local Open Scope R_scope.

(** The nodal functions of the mesh and their parent-space derivatives at the quadrature points of an
    element (finite_element<geom, H1<p, dim>>::interpolate; the functions are C33's) *)
Record geometry := { nodes : nat; phi : nat -> nat -> R; dphi : nat -> nat -> nat -> R }.
(** compute_geometric_factors, one element and quadrature point (geometric_factors.cpp:30-59); the Jacobian is
    stored transposed and read back transposed (finite_element.hpp:258-263, domain_integral_kernels.hpp:115-119) *)
Definition position (G : geometry) (X : nat -> nat -> R) (q : nat) : nat -> R := fun i => sumn (nodes G) (fun a => X a i * phi G a q).
Definition gradient (G : geometry) (X : nat -> nat -> R) (q : nat) : nat -> nat -> R := fun i j => sumn (nodes G) (fun a => X a i * dphi G a q j).
Definition stored (G : geometry) (X : nat -> nat -> R) (q : nat) : nat -> nat -> R := fun j i => gradient G X q i j.
Definition jacobian (G : geometry) (X : nat -> nat -> R) (q : nat) : nat -> nat -> R := fun row col => stored G X q col row.

(** degrees of freedom and, per degree of freedom and quadrature point, the value and derivative of its function *)
Record functions := { count : nat; at_point : nat -> nat -> (nat -> R) * (nat -> nat -> R) }.
Definition field (F : functions) (U : nat -> R) (q : nat) : (nat -> R) * (nat -> nat -> R) :=
  (fun i => sumn (count F) (fun k => U k * fst (at_point F k q) i), fun i j => sumn (count F) (fun k => U k * snd (at_point F k q) i j)).
(** evaluation_kernel_impl, one element (domain_integral_kernels.hpp:171-217): the residual entry of each test
    function, and the quadrature data; the update flag is a matter for C17 *)
Definition tested (n : nat) (test : space) (v : (nat -> R) * (nat -> nat -> R)) (out : list R * list (list R)) : R :=
  sumn (values n test) (fun i => nth i (fst out) 0 * fst v i) + sumn (rows test) (fun i => sumn (cols n test) (fun j => nth j (nth i (snd out) []) 0 * snd v i j)).
Definition element {St} (n : nat) (test : space) (V : functions) (nq : nat) (w : nat -> R) (pt : nat -> option ((list R * list (list R)) * St)) : option (list R * list St) :=
  match each pt (seq 0 nq) with
  | None => None
  | Some outs => Some (tab1 (count V) (fun k => sumn nq (fun q => match nth_error outs q with Some o => w q * tested n test (at_point V k q) (fst o) | None => 0 end)), map snd outs)
  end.
(** serac::Functional on a mesh with the element's nodes at [X] *)
Definition plain_element {St} n test V trials qf t G nq w (X : nat -> nat -> R) (st : nat -> St) (args : list (functions * (nat -> R))) :=
  element n test V nq w (fun q => plain_point n test trials qf t (position G X q) (jacobian G X q) (st q) (map (fun '(F, U) => field F U q) args)).
(** serac::ShapeAwareFunctional with shape displacement [P] in the mesh's own nodal space *)
Definition shape_element {St} n test V trials qf t G nq w (X P : nat -> nat -> R) (st : nat -> St) (args : list (functions * (nat -> R))) :=
  element n test V nq w (fun q => shape_point n test trials qf t (position G X q) (jacobian G X q) (st q) (position G P q, gradient G P q) (map (fun '(F, U) => field F U q) args)).

Lemma each_ext {A B} (f g : A -> option B) l : (forall a, In a l -> f a = g a) -> each f l = each g l.
Proof. induction l as [|a l IH]; intros H; [reflexivity|]. cbn [each]. rewrite H by (left; reflexivity). rewrite IH; [reflexivity|]. intros; apply H; right; auto. Qed.
Lemma shape_element_ok {St} n test V trials (qf : qfunction St) t G nq w X P st args : dim23 n -> List.Forall (fun s => fam s = HCURL -> n = 2%nat) trials ->
  (forall q, (q < nq)%nat -> detn n (jacobian G X q) <> 0 /\ detn n (jacobian G (fun a i => X a i + P a i) q) <> 0) ->
  shape_element n test V trials qf t G nq w X P st args = plain_element n test V trials qf t G nq w (fun a i => X a i + P a i) st args.
Proof.
  intros Hn HF HJ. unfold shape_element, plain_element, element. rewrite (each_ext _ (fun q => plain_point n test trials qf t (position G (fun a i => X a i + P a i) q) (jacobian G (fun a i => X a i + P a i) q) (st q) (map (fun '(F, U) => field F U q) args))); [reflexivity|].
  intros q Hq. apply in_seq in Hq. destruct (HJ q ltac:(lia)) as [N1 N2]. apply shape_moves; auto.
  - intros i _. unfold position. rewrite <- sumn_plus. apply sumn_ext. intros. ring.
  - intros i j _ _. unfold madd, jacobian, stored, gradient. rewrite <- sumn_plus. apply sumn_ext. intros. ring.
Qed.

(** ** boundary integrals *)
(** cross (tensor.hpp:904-924) and norm *)
Definition cross (n : nat) (J : nat -> nat -> R) : list R :=
  if Nat.eqb n 2 then [J 1%nat 0%nat; - J 0%nat 0%nat]
  else [J 1%nat 0%nat * J 2%nat 1%nat - J 2%nat 0%nat * J 1%nat 1%nat; J 2%nat 0%nat * J 0%nat 1%nat - J 0%nat 0%nat * J 2%nat 1%nat; J 0%nat 0%nat * J 1%nat 1%nat - J 1%nat 0%nat * J 0%nat 1%nat].
Definition area (n : nat) (J : nat -> nat -> R) : R := sqrt (fold_right (fun x s => x * x + s) 0 (cross n J)).
(** batch_apply_qf of boundary integrals (boundary_integral_kernels.hpp:115-158), one quadrature point; fields keep their parent derivatives *)
Definition boundary_point (n : nat) (qf : R -> list R * list (list R) -> list (list R * list (list R)) -> list R) (t : R) (X : nat -> R) (J : nat -> nat -> R) args : list R :=
  map (fun v => v * area n J) (qf t (tab1 n X, tab2 n (n - 1) J) args).
(** ShapeAwareBoundaryIntegrandWrapper and compute_boundary_area_correction (shape_aware_functional.hpp:155-176, 482-507) *)
Definition boundary_wrapped (n : nat) (qf : R -> list R * list (list R) -> list (list R * list (list R)) -> list R) (X : nat -> R) (J : nat -> nat -> R) (p : (nat -> R) * (nat -> nat -> R)) (t : R) args : list R :=
  map (fun v => v * (area n (madd J (snd p)) / area n J)) (qf t (tab1 n (fun i => X i + fst p i), tab2 n (n - 1) (madd J (snd p))) args).
Definition shape_boundary_point n qf t X J p args := boundary_point n (fun t _ => boundary_wrapped n qf X J p t) t X J args.
Lemma shape_boundary_ok n qf t X J p args : area n J <> 0 -> shape_boundary_point n qf t X J p args = boundary_point n qf t (fun i => X i + fst p i) (madd J (snd p)) args.
Proof. intros NA. unfold shape_boundary_point, boundary_point, boundary_wrapped. rewrite map_map. apply map_ext. intros v. field. exact NA. Qed.
Lemma sum_squares l : sqrt (fold_right (fun x s => x * x + s) 0 l) <> 0 <-> exists i, (i < length l)%nat /\ nth i l 0 <> 0.
Proof.
  assert (P : forall l, 0 <= fold_right (fun x s => x * x + s) 0 l) by (clear; induction l as [|x l IH]; cbn [fold_right]; [lra|nra]). split.
  - intros H. assert (Q : fold_right (fun x s => x * x + s) 0 l <> 0) by (intros E; apply H; rewrite E; apply sqrt_0). clear H. induction l as [|x l IH]; [cbn in Q; lra|].
    destruct (Req_EM_T x 0) as [->|E]; [|exists 0%nat; split; [cbn; lia|exact E]]. destruct IH as [i [Hi E]]; [cbn [fold_right] in Q; intros E; apply Q; rewrite E; ring|]. exists (Datatypes.S i). split; [cbn; lia|exact E].
  - intros [i [Hi E]] H. apply sqrt_eq_0 in H; [|apply P]. revert i Hi E. induction l as [|x l IH]; intros i Hi E; [cbn in Hi; lia|]. cbn [fold_right] in H. pose proof (P l) as P'.
    destruct i as [|i]; cbn [nth] in E; [nra|]. apply (IH ltac:(nra) i); [cbn in Hi; lia|exact E].
Qed.
Lemma area_nonzero n J : dim23 n -> (area n J <> 0 <-> exists i, (i < n)%nat /\ nth i (cross n J) 0 <> 0).
Proof. intros Hn. assert (L : length (cross n J) = n) by (destruct Hn as [-> | ->]; reflexivity). unfold area. rewrite sum_squares, L. reflexivity. Qed.

(** ** which geometries the factors are computed for (geometric_factors.cpp:86-137, 167-215) *)
Inductive shape := SEGMENT | TRIANGLE | SQUARE | TETRAHEDRON | CUBE.
Definition domain_orders (g : shape) : list nat := match g with TRIANGLE | TETRAHEDRON => [1] | SQUARE | CUBE => [1; 2; 3] | SEGMENT => [] end%nat.
Definition boundary_orders (g : shape) : list nat := match g with SEGMENT | TRIANGLE | SQUARE => [1; 2; 3] | _ => [] end%nat.
(** GeometricFactors constructors: without a matching kernel a line is printed and the freshly allocated arrays, not initialised, are used: reading them is [Undef] *)
Definition factors {A} (orders : shape -> list nat) (g : shape) (p q : nat) (computed : A) : outcome A :=
  if existsb (Nat.eqb p) (orders g) && existsb (Nat.eqb q) [1; 2; 3; 4]%nat then Done computed else Undef.
Lemma factors_ok {A} (c : A) g p q : (1 <= p <= 3)%nat -> (1 <= q <= 4)%nat ->
  (In g [SQUARE; CUBE] -> factors domain_orders g p q c = Done c) /\ (p = 1%nat -> In g [TRIANGLE; TETRAHEDRON] -> factors domain_orders g p q c = Done c) /\ (In g [SEGMENT; TRIANGLE; SQUARE] -> factors boundary_orders g p q c = Done c).
Proof.
  intros Hp Hq. unfold factors. assert (P : p = 1%nat \/ p = 2%nat \/ p = 3%nat) by lia. assert (Q : q = 1%nat \/ q = 2%nat \/ q = 3%nat \/ q = 4%nat) by lia.
  split; [|split]; intros; repeat match goal with H : In _ _ |- _ => cbn [In] in H | H : _ \/ _ |- _ => destruct H end; subst; try contradiction; try discriminate; reflexivity.
Qed.
Lemma factors_simplex {A} (c : A) g p q : (2 <= p)%nat -> In g [TRIANGLE; TETRAHEDRON] -> factors domain_orders g p q c = Undef.
Proof. intros Hp [<-|[<-|[]]]; unfold factors; cbn [domain_orders existsb]; destruct (Nat.eqb_spec p 1); try lia; reflexivity. Qed.

(** a linear triangle whose second corner is pulled out *)
Definition triangle : geometry := {| nodes := 3; phi := fun a _ => 1 / 3; dphi := fun a _ j => match a, j with 0%nat, _ => -1 | 1%nat, 0%nat => 1 | 2%nat, 1%nat => 1 | _, _ => 0 end |}.
Definition corners : nat -> nat -> R := fun a i => match a, i with 1%nat, 0%nat => 1 | 2%nat, 1%nat => 1 | _, _ => 0 end.
Definition pulled : nat -> nat -> R := fun a i => match a, i with 1%nat, 0%nat => 1 | _, _ => 0 end.
Lemma triangle_ok : detn 2 (jacobian triangle corners 0) = 1 /\ detn 2 (jacobian triangle (fun a i => corners a i + pulled a i) 0) = 2.
Proof. unfold detn, det2, jacobian, stored, gradient. cbn [sumn triangle nodes dphi corners pulled Nat.eqb]. split; ring. Qed.
Lemma edge_ok : area 2 (fun i _ => match i with 0%nat => 3 | _ => 4 end) <> 0.
Proof. apply area_nonzero; [left; reflexivity|]. exists 0%nat. split; [lia|]. cbn. lra. Qed.
(** ** specification of the surface element: normal to the tangents, and the square root of the Gram determinant of the tangents *)
Definition gram (n : nat) (J : nat -> nat -> R) (a b : nat) : R := sumn n (fun i => J i a * J i b).
Definition gram_det (n : nat) (J : nat -> nat -> R) : R := if Nat.eqb n 2 then gram n J 0 0 else gram n J 0 0 * gram n J 1 1 - gram n J 0 1 * gram n J 1 0.
Lemma cross_normal n J b : dim23 n -> (b < n - 1)%nat -> sumn n (fun i => nth i (cross n J) 0 * J i b) = 0.
Proof. intros [-> | ->] H; [assert (b = 0)%nat as -> by lia|assert (E : b = 0%nat \/ b = 1%nat) by lia; destruct E as [-> | ->]]; cbn [sumn cross Nat.eqb nth]; ring. Qed.
Lemma area_gram n J : dim23 n -> area n J = sqrt (gram_det n J).
Proof. intros [-> | ->]; unfold area, gram_det, gram, cross; cbn [Nat.eqb fold_right sumn]; f_equal; ring. Qed.
Lemma surface_measure n J : dim23 n -> (forall b, (b < n - 1)%nat -> sumn n (fun i => nth i (cross n J) 0 * J i b) = 0) /\ area n J = sqrt (gram_det n J).
Proof. intros H. split; [intros b; apply cross_normal, H|apply area_gram, H]. Qed.

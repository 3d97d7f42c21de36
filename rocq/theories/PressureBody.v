(** * The volume inside a surface which bounds elements of the mesh (C85) *)
From Coq Require Import NArith ZArith Reals List Lia Lra Bool Permutation.
From Verif Require Import Prelude DofCodec Sums Restriction Kernels FunctionalModel Assembly Tensor MatAlg Materials ShapeAware ShapeDefs ShapeTensor WeakForm WeakFormFacts WeakFormPhysics WeakFormWork EnergySolid FrameResidual PatchTest PatchMesh PatchHex PatchGeom PatchLoad PatchSkin Pressure PressureRun.
Import ListNotations.
Local Open Scope R_scope.

(** ** specification *)
Section Spec.
Context {St : Type} (n : nat) (f : functional St) (terms : list (solid_term St)).
(** the elements of the integrals in [body] fill the surface on which pressures act: at every node each face is met from its other
    side, by an element or by a pressed boundary element *)
Definition pressed_at (a : nat) : list face := flat_map (fun k => match nth_error terms k with Some (SPressure _ _) => skin_at n f k a | _ => [] end) (seq 0 (length (f_integrals f))).
Definition fills (body : list nat) (a : nat) : Prop :=
  let faces := flat_map (fun k => faces_at n f k a) body ++ map flip (pressed_at a) in Permutation faces (map flip faces).
(** their volume when the nodes are at [x], by the quadrature rule of the functional *)
Definition body_volume (body : list nat) (x : nat -> nat -> R) : R :=
  suml body (fun k => over_points f (fun k' Ig g G r le q => if Nat.eqb k' k then if Nat.eqb (gk_dim1 G) (S n) then
     detn n (fun i j => field_at G r x le q i (S j)) else 0 else 0)).
End Spec.

(** ** one element *)
Definition dot_area (n : nat) (x : nat -> vec) (a : nat) (p : face) : R := sumn n (fun j => x a j * area_vec x a p j).
Lemma corners_edges N (x : nat -> vec) : suml (corner_faces 2 N) (fun p => dot_area 2 x (fst p) (snd p)) = edge_sum N (fun l => x l 0%nat) (fun l => x l 1%nat) - edge_sum N (fun l => x l 1%nat) (fun l => x l 0%nat).
Proof.
  unfold edge_sum. rewrite <- (Rplus_0_r (suml _ _)). unfold Rminus. rewrite <- (Rmult_1_l (suml _ (fun p => match snd p with Edge l b => (if l then 1 / 2 else - 1 / 2) * (x b 0%nat - x (fst p) 0%nat) * _ | _ => 0 end))), <- Ropp_mult_distr_l_reverse, <- suml_scal_l, <- suml_plus, Rplus_0_r.
  apply suml_ext. intros [e p] Hp. assert (K : match p with Edge _ _ => True | _ => False end).
  { revert Hp. unfold corner_faces, outside. destruct N as [|[|[|[|[|N]]]]]; cbn [flat_map turns app In]; intuition (match goal with H : (_, _) = (_, _) |- _ => injection H as <- <- end; exact Logic.I). }
  destruct p as [l b|b d|b c d]; try contradiction. unfold dot_area. cbn [fst snd area_vec sumn]. unfold rot, vsub. destruct l; field.
Qed.
Lemma corners_faces N (x : nat -> vec) : suml (corner_faces 3 N) (fun p => dot_area 3 x (fst p) (snd p)) =
  face_sum N (fun l => x l 0%nat) (fun l => x l 1%nat) (fun l => x l 2%nat) + face_sum N (fun l => x l 1%nat) (fun l => x l 2%nat) (fun l => x l 0%nat) + face_sum N (fun l => x l 2%nat) (fun l => x l 0%nat) (fun l => x l 1%nat).
Proof.
  unfold face_sum. rewrite <- !suml_plus. apply suml_ext. intros [e p] Hp.
  assert (K : match p with Edge _ _ => False | _ => True end).
  { revert Hp. unfold corner_faces, outside. destruct N as [|[|[|[|[|[|[|[|[|N]]]]]]]]]; cbn [flat_map turns app In]; intuition (match goal with H : (_, _) = (_, _) |- _ => injection H as <- <- end; exact Logic.I). }
  destruct p as [l b|b d|b c d]; [contradiction| |]; unfold dot_area; cbn [fst snd area_vec sumn]; unfold cross3, vsub, cr; ring.
Qed.
Lemma area_rename n (v : nat -> nat) x e p : dot_area n (fun l => x (v l)) e p = dot_area n x (v e) (rename v p).
Proof. unfold dot_area. apply sumn_ext. intros j _. f_equal. now destruct p. Qed.
Lemma element_volume {St} n (D : dim23 n) kappa s (G : gkernel St) (LK : linear_kernel n kappa s G) (v : nat -> nat) (x : nat -> vec) :
  INR n * sumn (gk_nq G) (fun q => detn n (fun i k => sumn (es_n (gk_test G)) (fun l => x (v l) i * es_B (gk_test G) l q (S k))) * gk_w G q)
  = kappa * suml (corner_faces n (es_n (gk_test G))) (fun p => dot_area n x (v (fst p)) (rename v (snd p))).
Proof.
  set (N := es_n (gk_test G)). set (X i := fun l => x (v l) i).
  rewrite (suml_ext _ _ (fun p => dot_area n (fun l => x (v l)) (fst p) (snd p))) by (intros; symmetry; apply area_rename).
  destruct D as [En | En].
  - assert (P := fun c g => plane n (or_introl En) kappa s G LK v x c g En). rewrite En in *. rewrite corners_edges. cbn [INR].
    assert (A := P (X 0%nat) (X 1%nat)). assert (B := P (X 1%nat) (X 0%nat)). unfold jac2 in A, B. fold N in A, B.
    rewrite (sumn_ext _ _ (fun q => (deriv N (fun l q0 k => es_B (gk_test G) l q0 (S k)) (X 0%nat) q 0 * deriv N (fun l q0 k => es_B (gk_test G) l q0 (S k)) (X 1%nat) q 1
       - deriv N (fun l q0 k => es_B (gk_test G) l q0 (S k)) (X 0%nat) q 1 * deriv N (fun l q0 k => es_B (gk_test G) l q0 (S k)) (X 1%nat) q 0) * gk_w G q)) by (intros q _; reflexivity).
    fold (X 0%nat) (X 1%nat). rewrite Rmult_minus_distr_l, <- A, <- B.
    rewrite <- (Rmult_1_l (sumn (gk_nq G) (fun q => (deriv N _ (X 1%nat) q 0 * _ - _) * _))). unfold Rminus at 2. rewrite <- Ropp_mult_distr_l_reverse, <- !sumn_scal_l, <- sumn_plus. apply sumn_ext. intros q _. ring.
  - assert (P := fun c g h => space n (or_intror En) kappa s G LK c g h En). rewrite En in *. rewrite corners_faces. cbn [INR].
    fold (X 0%nat) (X 1%nat) (X 2%nat). rewrite !Rmult_plus_distr_l, <- !P. unfold jac3. fold N. rewrite <- !sumn_plus, <- sumn_scal_l. apply sumn_ext. intros q _.
    unfold detn, det3. cbn [Nat.eqb]. unfold deriv, X. ring.
Qed.
(** the cone over a face is its share of position times area vector *)
Lemma push_cone n x c : dim23 n -> shaped n c -> push n x x c = INR n * cone n x c.
Proof.
  intros D [-> | [(-> & a & b & ->) | (-> & [(a & b & d & ->) | (a & b & e & d & ->)])]].
  - destruct D as [-> | ->]; unfold push, cone, turns; cbn [suml]; ring.
  - unfold push, turns. cbn [suml fst snd sumn area_vec INR]. unfold rot, vsub, cone. field.
  - unfold push, turns. cbn [suml fst snd sumn area_vec INR]. unfold cross3, vsub, cone, tet. field.
  - unfold push, turns. cbn [suml fst snd sumn area_vec INR]. unfold cross3, vsub, cone, tet. field.
Qed.

(** ** by nodes *)
Lemma by_nodes {A} nn (l : list A) (nd : A -> nat) (F : A -> R) : (forall p, In p l -> (nd p < nn)%nat) ->
  suml l F = sumn nn (fun a => suml l (fun p => if Nat.eqb (nd p) a then F p else 0)).
Proof.
  intros H. rewrite <- suml_sumn_swap. apply suml_ext. intros p Hp.
  rewrite (sumn_ext nn _ (fun a => if Nat.eqb a (nd p) then F p else 0)) by (intros a _; now rewrite Nat.eqb_sym). symmetry. apply (sumn_delta nn (nd p) (fun _ => F p)). now apply H.
Qed.
Lemma corner_lt n N p : In p (corner_faces n N) -> (fst p < N)%nat.
Proof.
  unfold corner_faces, outside. destruct n as [|[|[|[|n]]]]; try (intros []; fail); destruct N as [|[|[|[|[|[|[|[|[|N]]]]]]]]]; try (intros []; fail); cbn [flat_map turns app In]; intuition (subst; cbn [fst]; lia).
Qed.
Section Body.
Context {St : Type} (n : nat) (D : dim23 n) (f : functional St) (o : ordering) (nn : nat) (terms : list (solid_term St)) (kappa s : R) (jac : nat -> nat -> nat -> nat -> mat) (x : nat -> nat -> R).
Context (Hfit : all_fit f) (Hlay : layout f o nn n) (HM : linear_mesh n f jac kappa s).
Lemma node_lt Ig g G r le j : In Ig (f_integrals f) -> nth_error (i_geoms Ig) g = Some G -> nth_error (f_test f (i_type Ig)) g = Some r -> (le < length (gk_elems G))%nat -> (j < es_n (gk_test G))%nat ->
  (node_of r (nth le (gk_elems G) 0%nat) j < nn)%nat.
Proof.
  intros HI E2 E3 Hle Hj. destruct (Hfit Ig g G r HI E2 E3) as (F1 & F2 & F3). destruct (Hlay (i_type Ig) r (nth_error_In _ _ E3)) as (Hp & _ & Hnn & Hnc).
  rewrite <- Hnn. apply (plain_node_of r _ 0%nat j Hp).
  - now apply F3, nth_In.
  - rewrite Hnc. destruct D as [-> | ->]; lia.
  - lia.
Qed.
Lemma integral_volume k : INR n * over_points f (fun k' Ig g G r le q => if Nat.eqb k' k then if Nat.eqb (gk_dim1 G) (S n) then detn n (fun i j => field_at G r x le q i (S j)) else 0 else 0) =
  kappa * sumn nn (fun a => suml (faces_at n f k a) (dot_area n x a)).
Proof.
  unfold over_points, faces_at.
  set (T := fun k' => match nth_error (f_integrals f) k' with None => 0 | Some Ig => sumn (length (i_geoms Ig)) (fun g => match nth_error (i_geoms Ig) g, nth_error (f_test f (i_type Ig)) g with
      | Some G, Some r => sumn (length (gk_elems G)) (fun le => sumn (gk_nq G) (fun q => (if Nat.eqb (gk_dim1 G) (S n) then detn n (fun i j => field_at G r x le q i (S j)) else 0) * gk_w G q)) | _, _ => 0 end) end).
  rewrite (sumn_ext (length (f_integrals f)) _ (fun k' => if Nat.eqb k' k then T k' else 0)).
  2:{ intros k' _. unfold T. destruct (nth_error (f_integrals f) k') as [Ig|]; [|now destruct (Nat.eqb k' k)].
      destruct (Nat.eqb k' k); [reflexivity|]. apply sumn_zero. intros g _. destruct (nth_error (i_geoms Ig) g) as [G|]; [|reflexivity].
      destruct (nth_error (f_test f (i_type Ig)) g) as [r|]; [|reflexivity]. apply sumn_zero. intros le _. apply sumn_zero. intros. ring. }
  destruct (nth_error (f_integrals f) k) as [Ig|] eqn:E1.
  2:{ rewrite (sumn_zero nn) by reflexivity. rewrite Rmult_0_r. rewrite sumn_zero; [ring|]. intros k' _. destruct (Nat.eqb_spec k' k) as [->|]; [|reflexivity]. unfold T. now rewrite E1. }
  rewrite (sumn_delta _ k T) by (apply nth_error_Some; congruence). unfold T. rewrite E1.
  rewrite (sumn_ext nn _ (fun a => sumn (length (i_geoms Ig)) (fun g => suml (match nth_error (i_geoms Ig) g, nth_error (f_test f (i_type Ig)) g with
      | Some G, Some r => if Nat.eqb (gk_dim1 G) (S n) then
          flat_map (fun le => flat_map (fun p => let v := node_of r (nth le (gk_elems G) 0%nat) in if Nat.eqb (v (fst p)) a then [rename v (snd p)] else [])
                     (corner_faces n (es_n (gk_test G)))) (seq 0 (length (gk_elems G))) else []
      | _, _ => [] end) (dot_area n x a)))) by (intros a _; now rewrite suml_flat_map, suml_seq).
  rewrite (sumn_swap nn (length (i_geoms Ig))), <- !sumn_scal_l. apply sumn_ext. intros g _.
  destruct (nth_error (i_geoms Ig) g) as [G|] eqn:E2; [|rewrite (sumn_zero nn) by reflexivity; ring].
  destruct (nth_error (f_test f (i_type Ig)) g) as [r|] eqn:E3; [|rewrite (sumn_zero nn) by reflexivity; ring].
  destruct (Nat.eqb_spec (gk_dim1 G) (S n)) as [Ed|].
  2:{ rewrite (sumn_zero nn) by reflexivity. rewrite sumn_zero; [ring|]. intros le _. apply sumn_zero. intros. ring. }
  destruct (HM k Ig g G E1 E2 Ed) as [LK _].
  rewrite (sumn_ext nn _ (fun a => sumn (length (gk_elems G)) (fun le => suml (corner_faces n (es_n (gk_test G))) (fun p =>
     if Nat.eqb (node_of r (nth le (gk_elems G) 0%nat) (fst p)) a then dot_area n x (node_of r (nth le (gk_elems G) 0%nat) (fst p)) (rename (node_of r (nth le (gk_elems G) 0%nat)) (snd p)) else 0)))).
  2:{ intros a _. rewrite suml_flat_map, suml_seq. apply sumn_ext. intros le _. rewrite suml_flat_map. apply suml_ext. intros p _. cbv zeta.
      destruct (Nat.eqb_spec (node_of r (nth le (gk_elems G) 0%nat) (fst p)) a) as [->|]; cbn [suml]; ring. }
  rewrite (sumn_swap nn (length (gk_elems G))), <- !sumn_scal_l. apply sumn_ext. intros le Hle.
  rewrite <- (by_nodes nn (corner_faces n (es_n (gk_test G))) (fun p => node_of r (nth le (gk_elems G) 0%nat) (fst p))
     (fun p => dot_area n x (node_of r (nth le (gk_elems G) 0%nat) (fst p)) (rename (node_of r (nth le (gk_elems G) 0%nat)) (snd p)))).
  - rewrite <- (element_volume n D kappa s G LK (node_of r (nth le (gk_elems G) 0%nat)) x). reflexivity.
  - intros p Hp. apply (node_lt Ig g G r le (fst p) (nth_error_In _ _ E1) E2 E3 Hle). now apply (corner_lt n).
Qed.
Lemma walls_push k : suml (walls n f k) (push n x x) = sumn nn (fun a => suml (skin_at n f k a) (dot_area n x a)).
Proof.
  unfold walls, skin_at. destruct (nth_error (f_integrals f) k) as [Ig|] eqn:E1; [|rewrite (sumn_zero nn) by reflexivity; reflexivity].
  rewrite suml_flat_map, suml_seq.
  rewrite (sumn_ext nn _ (fun a => sumn (length (i_geoms Ig)) (fun g => suml (match nth_error (i_geoms Ig) g, nth_error (f_test f (i_type Ig)) g with
      | Some G, Some r => if Nat.eqb (gk_dim1 G) n then
          flat_map (fun le => flat_map (fun p => let v := node_of r (nth le (gk_elems G) 0%nat) in if Nat.eqb (v (fst p)) a then [rename v (snd p)] else [])
                     (turns (skin n (es_n (gk_test G))))) (seq 0 (length (gk_elems G))) else []
      | _, _ => [] end) (dot_area n x a)))) by (intros a _; now rewrite suml_flat_map, suml_seq).
  rewrite (sumn_swap nn (length (i_geoms Ig))). apply sumn_ext. intros g _.
  destruct (nth_error (i_geoms Ig) g) as [G|] eqn:E2; [|rewrite (sumn_zero nn) by reflexivity; reflexivity].
  destruct (nth_error (f_test f (i_type Ig)) g) as [r|] eqn:E3; [|rewrite (sumn_zero nn) by reflexivity; reflexivity].
  destruct (Nat.eqb_spec (gk_dim1 G) n) as [Ed|]; [|rewrite (sumn_zero nn) by reflexivity; reflexivity].
  rewrite suml_map, suml_seq.
  rewrite (sumn_ext nn _ (fun a => sumn (length (gk_elems G)) (fun le => suml (turns (skin n (es_n (gk_test G)))) (fun p =>
     if Nat.eqb (node_of r (nth le (gk_elems G) 0%nat) (fst p)) a then dot_area n x (node_of r (nth le (gk_elems G) 0%nat) (fst p)) (rename (node_of r (nth le (gk_elems G) 0%nat)) (snd p)) else 0)))).
  2:{ intros a _. rewrite suml_flat_map, suml_seq. apply sumn_ext. intros le _. rewrite suml_flat_map. apply suml_ext. intros p _. cbv zeta.
      destruct (Nat.eqb_spec (node_of r (nth le (gk_elems G) 0%nat) (fst p)) a) as [->|]; cbn [suml]; ring. }
  rewrite (sumn_swap nn (length (gk_elems G))). apply sumn_ext. intros le Hle.
  rewrite <- (by_nodes nn (turns (skin n (es_n (gk_test G)))) (fun p => node_of r (nth le (gk_elems G) 0%nat) (fst p))
     (fun p => dot_area n x (node_of r (nth le (gk_elems G) 0%nat) (fst p)) (rename (node_of r (nth le (gk_elems G) 0%nat)) (snd p)))).
  - unfold push. rewrite turns_map, suml_map. reflexivity.
  - intros p Hp. apply (node_lt Ig g G r le (fst p) (nth_error_In _ _ E1) E2 E3 Hle). now apply (skin_turns_lt n).
Qed.
Theorem body_inside body : (forall a, (a < nn)%nat -> fills n f terms body a) -> body_volume n f body x = kappa * volume_in n x (pressed n f terms).
Proof.
  intros FI. assert (NZ : INR n <> 0) by (destruct D as [-> | ->]; cbn [INR]; lra). apply (Rmult_eq_reg_l (INR n)); [|exact NZ].
  transitivity (kappa * sumn nn (fun a => suml (flat_map (fun k => faces_at n f k a) body) (dot_area n x a))).
  { unfold body_volume. rewrite <- suml_scal_l. rewrite (suml_ext body _ (fun k => kappa * sumn nn (fun a => suml (faces_at n f k a) (dot_area n x a)))) by (intros; apply integral_volume).
    rewrite suml_scal_l. f_equal. rewrite suml_sumn_swap. apply sumn_ext. intros a _. now rewrite suml_flat_map. }
  transitivity (kappa * sumn nn (fun a => suml (pressed_at n f terms a) (dot_area n x a))).
  { f_equal. apply sumn_ext. intros a Ha. assert (E := FI a Ha). unfold fills in E. cbv zeta in E.
    assert (FL : forall p, dot_area n x a (flip p) = - 1 * dot_area n x a p) by (intros p; unfold dot_area; rewrite <- sumn_scal_l; apply sumn_ext; intros; rewrite area_flip; ring).
    assert (S := suml_perm _ _ (dot_area n x a) E). rewrite suml_map, suml_app, suml_app, !suml_map in S.
    rewrite !(suml_ext _ (fun p => dot_area n x a (flip p)) (fun p => - 1 * dot_area n x a p)) in S by (intros; apply FL).
    rewrite (suml_ext (pressed_at n f terms a) (fun p => dot_area n x a (flip (flip p))) (dot_area n x a)) in S by (intros; rewrite !FL; ring).
    rewrite !suml_scal_l in S. lra. }
  rewrite <- Rmult_assoc, (Rmult_comm (INR n) kappa), Rmult_assoc. f_equal. unfold volume_in. rewrite <- suml_scal_l.
  rewrite (suml_ext (pressed n f terms) _ (push n x x)) by (intros c Hc; symmetry; apply push_cone; [exact D|exact (proj1 (Forall_forall _ _) (pressed_shaped n f terms) c Hc)]).
  unfold pressed, pressed_at. rewrite suml_flat_map, suml_seq.
  rewrite (sumn_ext nn _ (fun a => sumn (length (f_integrals f)) (fun k => suml (match nth_error terms k with Some (SPressure _ _) => skin_at n f k a | _ => [] end) (dot_area n x a)))) by (intros; now rewrite suml_flat_map, suml_seq).
  rewrite (sumn_swap nn (length (f_integrals f))). apply sumn_ext. intros k _. destruct (nth_error terms k) as [[on rho sigma|b|tr|on p]|]; try (rewrite (sumn_zero nn) by reflexivity; reflexivity). symmetry. apply walls_push.
Qed.
End Body.

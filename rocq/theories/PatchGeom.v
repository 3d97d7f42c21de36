(** * The patch test on conforming meshes of linear elements (C72) *)
From Coq Require Import NArith ZArith Reals List Lia Lra Bool Permutation.
From Verif Require Import Prelude DofCodec Sums Restriction Kernels FunctionalModel Assembly Tensor MatAlg Materials ShapeAware ShapeDefs ShapeTensor WeakForm WeakFormFacts WeakFormPhysics WeakFormWork EnergySolid FrameResidual PatchTest PatchMesh PatchHex.
Import ListNotations.
Local Open Scope R_scope.

(** one element: nodes v, positions x; what it contributes to node a *)
Definition around (n N a : nat) (v : nat -> nat) : list face := flat_map (fun p => if Nat.eqb (v (fst p)) a then [rename v (snd p)] else []) (corner_faces n N).
Lemma around_sum n N a v x j : suml (around n N a v) (fun p => area_vec x a p j) =
  suml (corner_faces n N) (fun p => area_vec x (v (fst p)) (rename v (snd p)) j * (if Nat.eqb (v (fst p)) a then 1 else 0)).
Proof.
  unfold around. rewrite suml_flat_map. apply suml_ext. intros p _. destruct (Nat.eqb_spec (v (fst p)) a) as [->|]; cbn [suml]; ring.
Qed.
Lemma around_edges N a v x : suml (around 2 N a v) (fun p => area_vec x a p 0%nat) = edge_sum N (fun l => if Nat.eqb (v l) a then 1 else 0) (fun l => x (v l) 1%nat) /\
  suml (around 2 N a v) (fun p => area_vec x a p 1%nat) = - edge_sum N (fun l => if Nat.eqb (v l) a then 1 else 0) (fun l => x (v l) 0%nat).
Proof.
  assert (C : N = 3%nat \/ N = 4%nat \/ corner_faces 2 N = []).
  { destruct N as [|[|[|[|[|N]]]]]; auto. }
  rewrite !around_sum. unfold edge_sum. destruct C as [-> | [-> | ->]].
  - split; unfold corner_faces, outside, turns; cbn [flat_map app suml fst snd rename area_vec]; unfold rot, vsub; field.
  - split; unfold corner_faces, outside, turns; cbn [flat_map app suml fst snd rename area_vec]; unfold rot, vsub; field.
  - cbn [suml]. split; ring.
Qed.
Lemma around_faces N a v x : let c := (fun l => if Nat.eqb (v l) a then 1 else 0) in let X i := (fun l => x (v l) i) in
  suml (around 3 N a v) (fun p => area_vec x a p 0%nat) = face_sum N c (X 1%nat) (X 2%nat) /\
  suml (around 3 N a v) (fun p => area_vec x a p 1%nat) = face_sum N c (X 2%nat) (X 0%nat) /\
  suml (around 3 N a v) (fun p => area_vec x a p 2%nat) = face_sum N c (X 0%nat) (X 1%nat).
Proof.
  intros c X. assert (K : forall p, In p (corner_faces 3 N) -> match snd p with Edge _ _ => False | _ => True end).
  { assert (C : N = 4%nat \/ N = 8%nat \/ corner_faces 3 N = []). { destruct N as [|[|[|[|[|[|[|[|[|N]]]]]]]]]; auto. }
    apply Forall_forall. destruct C as [-> | [-> | ->]]; unfold corner_faces, outside, turns; cbn [flat_map app]; repeat constructor. }
  rewrite !around_sum. unfold face_sum. repeat split; apply suml_ext; intros [l p] Hp; specialize (K _ Hp); cbn [fst snd] in *;
    (destruct p as [lv b|b d|b e d]; [contradiction| |]); cbn [rename area_vec]; unfold cross3, vsub, cr, c, X; ring.
Qed.

Section Element.
Context {St : Type} (n : nat) (D : dim23 n) (kappa s : R) (G : gkernel St) (LK : linear_kernel n kappa s G).
Context (v : nat -> nat) (x : nat -> vec) (a : nat).
Let N := es_n (gk_test G).
Let dB l q k := es_B (gk_test G) l q (S k).
Let grd (g : nat -> R) q k := sumn N (fun l => g l * es_B (gk_test G) l q (S k)).
Lemma shapes : (n = 2%nat /\ (N = 3%nat \/ N = 4%nat)) \/ (n = 3%nat /\ (N = 4%nat \/ N = 8%nat)).
Proof.
  destruct LK as (pt & NE & _). fold N in NE. destruct D as [En | En]; [left|right]; (split; [exact En|]); rewrite En in NE;
    destruct N as [|[|[|[|[|[|[|[|[|N0]]]]]]]]]; auto; now destruct NE.
Qed.
Lemma plane c g : n = 2%nat -> jac2 (gk_nq G) N dB (gk_w G) c g = kappa * edge_sum N c g.
Proof.
  intros En. destruct LK as (pt & NE & HB & Hm). fold N in HB, Hm. destruct shapes as [[_ [E | E]] | [E _]]; [| |rewrite En in E; discriminate]; rewrite E, En in HB, Hm; rewrite E.
  - apply (tri_identity s kappa _ _ _ pt); [intros; now apply HB|]. rewrite (sumn_ext _ _ (fun q => pt q 0%nat ^ 0 * pt q 1%nat ^ 0 * pt q 2%nat ^ 0 * gk_w G q)) by (intros; cbn [pow]; ring).
    rewrite (Hm 0%nat 0%nat 0%nat (1 / 2)) by (cbn; auto). field.
  - apply (quad_identity s kappa _ _ _ pt); [intros; now apply HB|]. intros p q Hp Hq. rewrite (sumn_ext _ _ (fun i => pt i 0%nat ^ p * pt i 1%nat ^ q * pt i 2%nat ^ 0 * gk_w G i)) by (intros; cbn [pow]; ring).
    apply Hm. cbn [moments flat_map map app]. assert (Cp : p = 0%nat \/ p = 1%nat) by lia. assert (Cq : q = 0%nat \/ q = 1%nat) by lia.
    destruct Cp as [-> | ->], Cq as [-> | ->]; cbn [In]; tauto.
Qed.
Lemma space c g h : n = 3%nat -> jac3 (gk_nq G) N dB (gk_w G) c g h = kappa * face_sum N c g h.
Proof.
  intros En. destruct LK as (pt & NE & HB & Hm). fold N in HB, Hm. destruct shapes as [[E _] | [_ [E | E]]]; [rewrite En in E; discriminate| |]; rewrite E, En in HB, Hm; rewrite E.
  - apply (tet_identity s kappa _ _ _ pt); [intros; now apply HB|]. rewrite (sumn_ext _ _ (fun q => pt q 0%nat ^ 0 * pt q 1%nat ^ 0 * pt q 2%nat ^ 0 * gk_w G q)) by (intros; cbn [pow]; ring).
    rewrite (Hm 0%nat 0%nat 0%nat (1 / 6)) by (cbn; auto). field.
  - apply (hex_identity s kappa _ _ _ pt); [intros; now apply HB|]. intros p q r Hp Hq Hr. apply Hm.
    unfold moments. apply in_flat_map. exists p. split; [cbn; lia|]. apply in_flat_map. exists q. split; [cbn; lia|]. apply in_map_iff. exists r. split; [reflexivity|cbn; lia].
Qed.
(** contribution of the element to the integral of the gradient of the shape function of node a *)
Lemma element_integral (J : nat -> mat) j : (j < n)%nat ->
  (forall q, (q < gk_nq G)%nat -> invn n (J q) <> None) ->
  (forall q i k, (q < gk_nq G)%nat -> (i < n)%nat -> (k < n)%nat -> J q i k = sumn N (fun l => x (v l) i * es_B (gk_test G) l q (S k))) ->
  sumn (gk_nq G) (fun q => grad_at n (J q) (fun _ b => sumn N (fun l => (if Nat.eqb (v l) a then 1 else 0) * es_B (gk_test G) l q b)) 0%nat j * detn n (J q) * gk_w G q)
  = kappa * suml (around n N a v) (fun p => area_vec x a p j).
Proof.
  intros Hj HJ HX. set (c := fun l => if Nat.eqb (v l) a then 1 else 0).
  rewrite (sumn_ext _ _ (fun q => detn n (fun i k => if Nat.eqb i j then grd c q k else grd (fun l => x (v l) i) q k) * gk_w G q)).
  - destruct shapes as [[En _] | [En _]].
    + assert (P := fun c g => plane c g En). rewrite En in Hj |- *. destruct (around_edges N a v x) as [A0 A1]. destruct j as [|[|j]]; [| |lia].
      * rewrite A0, <- P. apply sumn_ext. intros q _. unfold detn, det2. cbn [Nat.eqb]. reflexivity.
      * rewrite A1. fold c. rewrite Ropp_mult_distr_r_reverse, <- P. unfold jac2. rewrite <- (Rmult_1_l (sumn _ _)) at 1. 
        rewrite <- (Ropp_involutive (1 * _)), <- Ropp_mult_distr_l_reverse. f_equal. rewrite <- sumn_scal_l. apply sumn_ext. intros q _. unfold detn, det2. cbn [Nat.eqb]. unfold deriv, grd, dB. ring.
    + assert (P := fun c g h => space c g h En). rewrite En in Hj |- *. destruct (around_faces N a v x) as (A0 & A1 & A2). destruct j as [|[|[|j]]]; [| | |lia].
      * rewrite A0, <- P. apply sumn_ext. intros q _. unfold detn, det3. cbn [Nat.eqb]. unfold deriv, grd, dB, c. ring.
      * rewrite A1, <- P. apply sumn_ext. intros q _. unfold detn, det3. cbn [Nat.eqb]. unfold deriv, grd, dB, c. ring.
      * rewrite A2, <- P. apply sumn_ext. intros q _. unfold detn, det3. cbn [Nat.eqb]. unfold deriv, grd, dB, c. ring.
  - intros q Hq. f_equal. unfold grad_at. destruct (invn n (J q)) as [K|] eqn:EK; [|now destruct (HJ q Hq)].
    refine (eq_trans (cramer n (J q) K (fun k => grd c q k) j D EK Hj) _). apply detn_ext; [exact D|]. intros i k Hi Hk. destruct (Nat.eqb i j); [reflexivity|]. now rewrite HX.
Qed.
End Element.

(** ** the mesh *)
Section Mesh.
Context {St : Type} (n : nat) (D : dim23 n) (f : functional St) (pos : nat -> nat -> nat -> nat -> vec) (jac : nat -> nat -> nat -> nat -> mat) (xref : nat -> nat -> R) (kappa s : R).
(** the elements of the domain integrals are linear and not degenerate *)
Definition linear_mesh : Prop := forall k Ig g G, nth_error (f_integrals f) k = Some Ig -> nth_error (i_geoms Ig) g = Some G -> gk_dim1 G = S n ->
  linear_kernel n kappa s G /\ forall le q, (le < length (gk_elems G))%nat -> (q < gk_nq G)%nat -> invn n (jac k g le q) <> None.

Theorem mesh_integral k a j : isoparametric n f pos jac xref -> linear_mesh -> (j < n)%nat ->
  gradient_integral n f jac k a j = kappa * suml (faces_at n f k a) (fun p => area_vec xref a p j).
Proof.
  intros HI LM Hj. unfold gradient_integral, over_points, faces_at.
  set (T := fun k' => match nth_error (f_integrals f) k' with None => 0 | Some Ig => sumn (length (i_geoms Ig)) (fun g => match nth_error (i_geoms Ig) g, nth_error (f_test f (i_type Ig)) g with
      | Some G, Some r => sumn (length (gk_elems G)) (fun le => sumn (gk_nq G) (fun q => (if Nat.eqb (gk_dim1 G) (S n) then
          grad_at n (jac k' g le q) (field_at G r (hat a) le q) 0%nat j * detn n (jac k' g le q) else 0) * gk_w G q)) | _, _ => 0 end) end).
  rewrite (sumn_ext (length (f_integrals f)) _ (fun k' => if Nat.eqb k' k then T k' else 0)).
  2:{ intros k' _. unfold T. destruct (nth_error (f_integrals f) k') as [Ig|]; [|now destruct (Nat.eqb k' k)].
      destruct (Nat.eqb k' k); [reflexivity|]. apply sumn_zero. intros g _. destruct (nth_error (i_geoms Ig) g) as [G|]; [|reflexivity].
      destruct (nth_error (f_test f (i_type Ig)) g) as [r|]; [|reflexivity]. apply sumn_zero. intros le _. apply sumn_zero. intros. ring. }
  destruct (nth_error (f_integrals f) k) as [Ig|] eqn:E1.
  2:{ cbn [suml]. rewrite Rmult_0_r. apply sumn_zero. intros k' _. destruct (Nat.eqb_spec k' k) as [->|]; [|reflexivity]. unfold T. now rewrite E1. }
  rewrite (sumn_delta _ k T) by (apply nth_error_Some; congruence). unfold T. rewrite E1, suml_flat_map, suml_seq, <- sumn_scal_l. apply sumn_ext. intros g _.
  destruct (nth_error (i_geoms Ig) g) as [G|] eqn:E2; [|cbn [suml]; ring]. destruct (nth_error (f_test f (i_type Ig)) g) as [r|] eqn:E3; [|cbn [suml]; ring].
  destruct (Nat.eqb_spec (gk_dim1 G) (S n)) as [Ed|].
  - destruct (LM k Ig g G E1 E2 Ed) as [LK INV]. rewrite suml_flat_map, suml_seq, <- sumn_scal_l. apply sumn_ext. intros le Hle.
    assert (A := element_integral n D kappa s G LK (node_of r (nth le (gk_elems G) 0%nat)) xref a (fun q => jac k g le q) j Hj (fun q Hq => INV le q Hle Hq)).
    refine (eq_trans _ (A _)); [reflexivity|]. intros q i k0 Hq Hi Hk. destruct (HI k Ig g G r le q E1 E2 E3 Hle Hq) as [_ HJ]. rewrite <- HJ by lia. reflexivity.
  - cbn [suml]. rewrite Rmult_0_r. apply sumn_zero. intros le _. apply sumn_zero. intros. ring.
Qed.
(** the elements of all integrals together *)
Definition all_faces (a : nat) : list face := flat_map (fun k => faces_at n f k a) (seq 0 (length (f_integrals f))).
Lemma all_faces_sum a j : suml (all_faces a) (fun p => area_vec xref a p j) = sumn (length (f_integrals f)) (fun k => suml (faces_at n f k a) (fun p => area_vec xref a p j)).
Proof. unfold all_faces. now rewrite suml_flat_map, suml_seq. Qed.
End Mesh.

(** ** the patch test *)
(** force at a node of a uniformly strained mesh *)
Theorem reaction {St} n (f : functional St) o nn terms pos jac xref kappa s A c (P : nat -> mat) t wrt upd Ls (m m' : mem St) L :
  dim23 n -> wf f (nn * n) (fun w => length (Ls w)) -> all_fit f -> layout f o nn n -> two_spaces n f -> isoparametric n f pos jac xref -> unity f -> linear_mesh n f jac kappa s ->
  evaluate f t wrt upd Ls (nn * n) m = Ok (L, m') -> solid_residual n f t Ls m terms pos jac ->
  affine n n nn A c xref (nodal_values o nn n (Ls 0%nat)) -> (forall a i, (a < nn)%nat -> (i < n)%nat -> nodal_values o nn n (Ls 1%nat) a i = 0) ->
  (forall k T, nth_error terms k = Some T -> responds n A (P k) T) ->
  forall a i, (a < nn)%nat -> (i < n)%nat -> off_surface n f a ->
  nodal_values o nn n L a i = kappa * sumn (length (f_integrals f)) (fun k => sumn n (fun j => P k i j * suml (faces_at n f k a) (fun p => area_vec xref a p j))).
Proof.
  intros D W F LY TS ISO U LM EV RES AF REST MAT a i Ha Hi OFF.
  rewrite (patch_force n D f o nn terms pos jac xref A c P t wrt upd Ls m m' L W F LY TS ISO U EV RES AF REST MAT a i Ha Hi OFF).
  rewrite <- sumn_scal_l. apply sumn_ext. intros k _. rewrite <- sumn_scal_l. apply sumn_ext. intros j Hj.
  rewrite (mesh_integral n D f pos jac xref kappa s k a j ISO LM Hj). ring.
Qed.
Theorem patch {St} n (f : functional St) o nn terms pos jac xref kappa s A c (P : mat) t wrt upd Ls (m m' : mem St) L :
  dim23 n -> wf f (nn * n) (fun w => length (Ls w)) -> all_fit f -> layout f o nn n -> two_spaces n f -> isoparametric n f pos jac xref -> unity f -> linear_mesh n f jac kappa s ->
  evaluate f t wrt upd Ls (nn * n) m = Ok (L, m') -> solid_residual n f t Ls m terms pos jac ->
  affine n n nn A c xref (nodal_values o nn n (Ls 0%nat)) -> (forall a i, (a < nn)%nat -> (i < n)%nat -> nodal_values o nn n (Ls 1%nat) a i = 0) ->
  List.Forall (responds n A P) terms ->
  forall a, (a < nn)%nat -> off_surface n f a -> Permutation (all_faces n f a) (map flip (all_faces n f a)) ->
  forall i, (i < n)%nat -> nodal_values o nn n L a i = 0.
Proof.
  intros D W F LY TS ISO U LM EV RES AF REST MAT a Ha OFF CL i Hi.
  rewrite (reaction n f o nn terms pos jac xref kappa s A c (fun _ => P) t wrt upd Ls m m' L D W F LY TS ISO U LM EV RES AF REST) by
    (auto; intros k T E; apply nth_error_In in E; now apply (proj1 (Forall_forall _ _) MAT)).
  rewrite sumn_swap. rewrite (sumn_zero n); [ring|]. intros j _. rewrite sumn_scal_l, <- all_faces_sum, (closed_sum xref a _ j CL). ring.
Qed.
Theorem patch_regions {St} n (f : functional St) o nn terms pos jac xref kappa s A c (P : nat -> mat) t wrt upd Ls (m m' : mem St) L :
  dim23 n -> wf f (nn * n) (fun w => length (Ls w)) -> all_fit f -> layout f o nn n -> two_spaces n f -> isoparametric n f pos jac xref -> unity f -> linear_mesh n f jac kappa s ->
  evaluate f t wrt upd Ls (nn * n) m = Ok (L, m') -> solid_residual n f t Ls m terms pos jac ->
  affine n n nn A c xref (nodal_values o nn n (Ls 0%nat)) -> (forall a i, (a < nn)%nat -> (i < n)%nat -> nodal_values o nn n (Ls 1%nat) a i = 0) ->
  (forall k T, nth_error terms k = Some T -> responds n A (P k) T) ->
  forall a, (a < nn)%nat -> off_surface n f a -> (forall k, surrounded n f k a) ->
  forall i, (i < n)%nat -> nodal_values o nn n L a i = 0.
Proof.
  intros D W F LY TS ISO U LM EV RES AF REST MAT a Ha OFF CL i Hi.
  rewrite (reaction n f o nn terms pos jac xref kappa s A c P t wrt upd Ls m m' L D W F LY TS ISO U LM EV RES AF REST MAT a i Ha Hi OFF).
  rewrite (sumn_zero (length (f_integrals f))); [ring|]. intros k _. apply sumn_zero. intros j _. rewrite (closed_sum xref a _ j (CL k)). ring.
Qed.
Theorem heat_patch {St} n (f : functional St) o nn terms pos jac grad xref kappa s A c (q : vec) t wrt upd Ls (m m' : mem St) L :
  dim23 n -> wf f (nn * 1) (fun w => length (Ls w)) -> all_fit f -> layout f o nn 1 -> two_spaces 1 f -> isoparametric n f pos jac xref -> unity f -> linear_mesh n f jac kappa s ->
  evaluate f t wrt upd Ls (nn * 1) m = Ok (L, m') -> heat_residual n f t Ls m terms pos jac grad ->
  affine n 1 nn A c xref (nodal_values o nn 1 (Ls 0%nat)) -> (forall a, (a < nn)%nat -> nodal_values o nn 1 (Ls 1%nat) a 0%nat = 0) ->
  List.Forall (conducts n (A 0%nat) q) terms ->
  forall a, (a < nn)%nat -> off_surface n f a ->
  nodal_values o nn 1 L a 0%nat = - kappa * sumn n (fun j => q j * suml (all_faces n f a) (fun p => area_vec xref a p j)) /\
  (Permutation (all_faces n f a) (map flip (all_faces n f a)) -> nodal_values o nn 1 L a 0%nat = 0).
Proof.
  intros D W F LY TS ISO U LM EV RES AF REST MAT a Ha OFF.
  assert (E : nodal_values o nn 1 L a 0%nat = - kappa * sumn n (fun j => q j * suml (all_faces n f a) (fun p => area_vec xref a p j))).
  { rewrite (patch_heat n D f o nn terms pos jac grad xref A c (fun _ => q) t wrt upd Ls m m' L W F LY TS ISO U EV RES AF REST) by
      (auto; intros k T E; apply nth_error_In in E; now apply (proj1 (Forall_forall _ _) MAT)).
    rewrite Ropp_mult_distr_l_reverse. f_equal. rewrite sumn_swap, <- sumn_scal_l. apply sumn_ext. intros j Hj. rewrite sumn_scal_l, all_faces_sum.
    rewrite (sumn_ext (length (f_integrals f)) _ (fun k => kappa * suml (faces_at n f k a) (fun p => area_vec xref a p j))) by (intros k _; now apply (mesh_integral n D f pos jac xref kappa s k a j ISO LM)).
    rewrite sumn_scal_l. ring. }
  split; [exact E|]. intros CL. rewrite E. rewrite (sumn_zero n); [ring|]. intros j _. rewrite (closed_sum xref a _ j CL). ring.
Qed.

(** ** materials without state *)
Definition respects (n : nat) (sigma : mat -> option mat) : Prop := forall H H' s, meq n H H' -> sigma H = Some s -> exists s', sigma H' = Some s' /\ meq n s' s.
Lemma flux_same n on s s' H H' P P' : dim23 n -> meq n H H' -> meq n s s' -> flux n on s H = Some P -> flux n on s' H' = Some P' -> meq n P P'.
Proof.
  intros D EH Es EP EP'. apply (flux_unique n on s' H' P' P D EP').
  set (dx K := fun i j => ident i j + if on then K i j else 0).
  assert (Ed : meq n (dx H') (dx H)). { intros i j Hi Hj. unfold dx. destruct on; [now rewrite EH|reflexivity]. }
  assert (A := flux_moment n on s H P D EP). fold (dx H) in A. change (meq n (mmul n P (transpose (dx H'))) (mscal (detn n (dx H')) s')).
  intros i j Hi Hj. rewrite (detn_ext n _ _ D Ed).
  transitivity (mmul n P (transpose (dx H)) i j); [apply rmul_ext; [reflexivity|intros k Hk; unfold transpose; now apply Ed]|].
  rewrite (A i j Hi Hj). unfold mscal. now rewrite Es.
Qed.
Theorem stateless {St} n on rho sigma A s P : dim23 n -> respects n sigma -> sigma A = Some s -> flux n on s A = Some P ->
  responds n A P (SMaterial on rho (fun _ : St => sigma)).
Proof.
  intros D HR Es EP _ H s1 P1 EH E1 F1. destruct (HR H A s1 EH E1) as (s2 & E2 & M). rewrite E2 in Es. injection Es as ->.
  apply (flux_same n on s1 s H A P1 P D EH (meq_sym _ _ _ M) F1 EP).
Qed.
Theorem materials_respect n K G : dim23 n -> respects n (stvk n K G) /\ respects n (neo_hookean n K G).
Proof. intros D. split; intros H H' s E Es; [now apply (stvk_same n K G H H' s)|]. unfold neo_hookean in *. now apply (neo_same n _ _ H H' s). Qed.

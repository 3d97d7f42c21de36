(** * The patch test at loaded nodes of meshes of linear elements (C72) *)
From Coq Require Import NArith ZArith Reals List Lia Lra Bool Permutation.
From Verif Require Import Prelude DofCodec Sums Restriction Kernels FunctionalModel Assembly Tensor MatAlg Materials ShapeAware ShapeDefs ShapeTensor WeakForm WeakFormFacts WeakFormPhysics WeakFormWork EnergySolid FrameResidual PatchTest PatchMesh PatchHex PatchGeom PatchLoad.
Import ListNotations.
Local Open Scope R_scope.

(** ** specification *)
(** a boundary element with N nodes, seen from the side its normal points to; nodes of quads are lexicographic *)
Definition skin (n N : nat) : list nat := match n, N with 2, 2 => [0; 1] | 3, 3 => [0; 1; 2] | 3, 4 => [0; 1; 3; 2] | _, _ => [] end%nat.
Section Mesh.
Context {St : Type} (n : nat) (f : functional St).
(** the boundary elements of integral [k] at node [a] *)
Definition skin_at (k a : nat) : list face :=
  match nth_error (f_integrals f) k with None => [] | Some Ig =>
    flat_map (fun g => match nth_error (i_geoms Ig) g, nth_error (f_test f (i_type Ig)) g with
      | Some G, Some r => if Nat.eqb (gk_dim1 G) n then
          flat_map (fun le => flat_map (fun p => let v := node_of r (nth le (gk_elems G) 0%nat) in if Nat.eqb (v (fst p)) a then [rename v (snd p)] else [])
                     (turns (skin n (es_n (gk_test G))))) (seq 0 (length (gk_elems G))) else []
      | _, _ => [] end) (seq 0 (length (i_geoms Ig))) end.
Definition all_skin (a : nat) : list face := flat_map (fun k => skin_at k a) (seq 0 (length (f_integrals f))).
(** every face around the node is met from its other side, by an element or by a loaded boundary element *)
Definition enclosed (a : nat) : Prop :=
  let faces := all_faces n f a ++ map flip (all_skin a) in Permutation faces (map flip faces).

(** tables of linear boundary elements: values and derivatives *)
Definition linear_values (s : R) (N : nat) (pt : nat -> R) : list R :=
  match n, N with 2, 2 => seg_fn s 1 [pt 0] | 3, 3 => tri_shape s 1 (pt 0) (pt 1) | 3, 4 => quad_fn s 1 [pt 0; pt 1] | _, _ => [] end%nat.
Definition linear_slopes (s : R) (N : nat) (pt : nat -> R) : list (list R) :=
  match n, N with 2, 2 => seg_gr s 1 [pt 0] | 3, 3 => tri_grad s 1 (pt 0) (pt 1) | 3, 4 => quad_gr s 1 [pt 0; pt 1] | _, _ => [] end%nat.
(** monomials which the rule has to integrate: 1, x on segments; 1, x, y on triangles; products of 1, x, x^2 on squares *)
Definition skin_moments (N : nat) : list (nat * nat * R) :=
  match n, N with
  | 2%nat, 2%nat => [((0, 0)%nat, 1); ((1, 0)%nat, 1 / 2)]
  | 3%nat, 3%nat => [((0, 0)%nat, 1 / 2); ((1, 0)%nat, 1 / 6); ((0, 1)%nat, 1 / 6)]
  | 3%nat, 4%nat => flat_map (fun a => map (fun b => ((a, b), 1 / (INR a + 1) / (INR b + 1))) [0; 1; 2]%nat) [0; 1; 2]%nat
  | _, _ => [] end.
Definition linear_skin_kernel (kappa s : R) (G : gkernel St) : Prop :=
  exists pt : nat -> nat -> R, skin n (es_n (gk_test G)) <> [] /\
   (forall l q, (l < es_n (gk_test G))%nat -> (q < gk_nq G)%nat -> es_B (gk_test G) l q 0%nat = nth l (linear_values s (es_n (gk_test G)) (pt q)) 0) /\
   (forall l q k, (l < es_n (gk_test G))%nat -> (q < gk_nq G)%nat -> (S k < n)%nat ->
      es_B (gk_test G) l q (S k) = nth k (nth l (linear_slopes s (es_n (gk_test G)) (pt q)) []) 0) /\
   (forall a b I, In (a, b, I) (skin_moments (es_n (gk_test G))) -> sumn (gk_nq G) (fun q => pt q 0%nat ^ a * pt q 1%nat ^ b * gk_w G q) = kappa * I).
Definition linear_skin (kappa s : R) : Prop := forall Ig G, In Ig (f_integrals f) -> In G (i_geoms Ig) -> gk_dim1 G = n -> linear_skin_kernel kappa s G.
End Mesh.

(** ** one boundary element *)
Definition skin_around (n N a : nat) (v : nat -> nat) : list face := flat_map (fun p => if Nat.eqb (v (fst p)) a then [rename v (snd p)] else []) (turns (skin n N)).
Lemma skin_around_sum n N a v x j : suml (skin_around n N a v) (fun p => area_vec x a p j) =
  suml (turns (skin n N)) (fun p => area_vec x (v (fst p)) (rename v (snd p)) j * (if Nat.eqb (v (fst p)) a then 1 else 0)).
Proof. unfold skin_around. rewrite suml_flat_map. apply suml_ext. intros p _. destruct (Nat.eqb_spec (v (fst p)) a) as [->|]; cbn [suml]; ring. Qed.

Section Element.
Context {St : Type} (n : nat) (D : dim23 n) (kappa s : R) (G : gkernel St) (LK : linear_skin_kernel n kappa s G).
Context (v : nat -> nat) (x : nat -> vec) (a : nat).
Let N := es_n (gk_test G).
Let grd (g : nat -> R) q b := sumn N (fun l => g l * es_B (gk_test G) l q b).
Lemma skin_shapes : (n = 2%nat /\ N = 2%nat) \/ (n = 3%nat /\ (N = 3%nat \/ N = 4%nat)).
Proof.
  destruct LK as (pt & NE & _). fold N in NE. destruct D as [En | En]; [left|right]; (split; [exact En|]); rewrite En in NE;
    destruct N as [|[|[|[|[|N0]]]]]; auto; now destruct NE.
Qed.
(** one entry of the cross product of the derivatives of two coordinates, weighted with a shape function *)
Lemma skin_line (c g : nat -> R) : n = 2%nat -> sumn (gk_nq G) (fun q => grd c q 0 * grd g q 1 * gk_w G q) = kappa * ((c 0%nat + c 1%nat) / 2 * (g 1%nat - g 0%nat)).
Proof.
  intros En. destruct LK as (pt & NE & HV & HB & Hm). fold N in HV, HB, Hm. destruct skin_shapes as [[_ E] | [E _]]; [|rewrite En in E; discriminate]. rewrite E, En in HV, HB, Hm.
  unfold grd. rewrite E.
  rewrite (sumn_ext _ _ (fun q => (c 0%nat * (g 1%nat - g 0%nat)) * (pt q 0%nat ^ 0 * pt q 1%nat ^ 0 * gk_w G q) + (c 1%nat - c 0%nat) * (g 1%nat - g 0%nat) * (pt q 0%nat ^ 1 * pt q 1%nat ^ 0 * gk_w G q))).
  - rewrite sumn_plus, !sumn_scal_l. rewrite (Hm 0%nat 0%nat 1), (Hm 1%nat 0%nat (1 / 2)) by (cbn; auto). field.
  - intros q Hq. cbn [sumn]. rewrite !HV, !HB by lia. unfold linear_values, linear_slopes, seg_fn, seg_gr, lob_list, lob_d_list. cbn [Nat.add lob lob_d map nth pow]. ring.
Qed.
Lemma mass_moment (pt : nat -> nat -> R) (bl bm : nat) : (forall p q, (p <= 2)%nat -> (q <= 2)%nat -> sumn (gk_nq G) (fun i => pt i 0%nat ^ p * pt i 1%nat ^ q * gk_w G i) = kappa * (1 / (INR p + 1) / (INR q + 1))) ->
  (bl < 4)%nat -> (bm < 4)%nat ->
  sumn (gk_nq G) (fun q => nth bl (quad_fn s 1 [pt q 0%nat; pt q 1%nat]) 0 * nth bm (quad_fn s 1 [pt q 0%nat; pt q 1%nat]) 0 * gk_w G q) =
  kappa * (if Nat.eqb bl bm then 1 / 9 else if Nat.eqb (bl + bm) 3 then 1 / 36 else 1 / 18).
Proof.
  intros H Hl Hm. set (M p q := sumn (gk_nq G) (fun i => pt i 0%nat ^ p * pt i 1%nat ^ q * gk_w G i)).
  (* factors (1 - x) or x, (1 - y) or y *)
  assert (X : forall (a0 a1 a2 b0 b1 b2 : R), sumn (gk_nq G) (fun i => (a0 + a1 * pt i 0%nat + a2 * pt i 0%nat ^ 2) * (b0 + b1 * pt i 1%nat + b2 * pt i 1%nat ^ 2) * gk_w G i) =
     a0 * b0 * M 0%nat 0%nat + a0 * b1 * M 0%nat 1%nat + a0 * b2 * M 0%nat 2%nat + a1 * b0 * M 1%nat 0%nat + a1 * b1 * M 1%nat 1%nat + a1 * b2 * M 1%nat 2%nat
     + a2 * b0 * M 2%nat 0%nat + a2 * b1 * M 2%nat 1%nat + a2 * b2 * M 2%nat 2%nat).
  { intros. unfold M. rewrite <- !sumn_scal_l, <- !sumn_plus. apply sumn_ext. intros. ring. }
  assert (Y : forall a0 a1 a2 b0 b1 b2, sumn (gk_nq G) (fun i => (a0 + a1 * pt i 0%nat + a2 * pt i 0%nat ^ 2) * (b0 + b1 * pt i 1%nat + b2 * pt i 1%nat ^ 2) * gk_w G i) =
     kappa * ((a0 + a1 / 2 + a2 / 3) * (b0 + b1 / 2 + b2 / 3))).
  { intros. rewrite X. unfold M. rewrite !H by lia. cbn [INR]. field. }
  assert (Z : forall (e f : R -> R) a0 a1 a2 b0 b1 b2 r, (forall u, e u = a0 + a1 * u + a2 * u ^ 2) -> (forall u, f u = b0 + b1 * u + b2 * u ^ 2) -> (a0 + a1 / 2 + a2 / 3) * (b0 + b1 / 2 + b2 / 3) = r ->
     sumn (gk_nq G) (fun i => e (pt i 0%nat) * f (pt i 1%nat) * gk_w G i) = kappa * r).
  { intros e f a0 a1 a2 b0 b1 b2 r He Hf Hr. rewrite <- Hr, <- Y. apply sumn_ext. intros. now rewrite He, Hf. }
  set (lo := fun u : R => 1 - u). set (up := fun u : R => u).
  assert (W : forall l q, (l < 4)%nat -> nth l (quad_fn s 1 [pt q 0%nat; pt q 1%nat]) 0 = (if Nat.odd l then up else lo) (pt q 0%nat) * (if Nat.ltb l 2 then lo else up) (pt q 1%nat)).
  { intros l q Hl'. unfold quad_fn, lob_list. cbn [Nat.add lob flat_map map app]. destruct l as [|[|[|[|l]]]]; [| | | |lia]; cbn [nth Nat.odd Nat.even negb Nat.ltb Nat.leb]; unfold lo, up; ring. }
  assert (Q : forall b b' : bool, exists a0 a1 a2, (forall u, (if b then up else lo) u * (if b' then up else lo) u = a0 + a1 * u + a2 * u ^ 2) /\ a0 + a1 / 2 + a2 / 3 = if Bool.eqb b b' then 1 / 3 else 1 / 6).
  { intros [|] [|]; cbn [Bool.eqb]; [exists 0, 0, 1|exists 0, 1, (-1)|exists 0, 1, (-1)|exists 1, (-2), 1]; (split; [intros; unfold lo, up; ring|field]). }
  destruct (Q (Nat.odd bl) (Nat.odd bm)) as (a0 & a1 & a2 & A1 & A2). destruct (Q (negb (Nat.ltb bl 2)) (negb (Nat.ltb bm 2))) as (b0 & b1 & b2 & B1 & B2).
  rewrite (sumn_ext _ _ (fun q => (fun u => (if Nat.odd bl then up else lo) u * (if Nat.odd bm then up else lo) u) (pt q 0%nat) *
      (fun u => (if negb (Nat.ltb bl 2) then up else lo) u * (if negb (Nat.ltb bm 2) then up else lo) u) (pt q 1%nat) * gk_w G q)).
  - refine (Z _ _ a0 a1 a2 b0 b1 b2 _ A1 B1 _). rewrite A2, B2.
    destruct bl as [|[|[|[|bl]]]]; [| | | |lia]; (destruct bm as [|[|[|[|bm]]]]; [| | | |lia]); cbn [Nat.odd Nat.even negb Nat.ltb Nat.leb Nat.eqb Nat.add Bool.eqb]; field.
  - intros q _. rewrite !W by auto. destruct (Nat.odd bl), (Nat.odd bm), (Nat.ltb bl 2), (Nat.ltb bm 2); cbn [negb]; ring.
Qed.
Lemma skin_plane (c g h : nat -> R) : n = 3%nat -> sumn (gk_nq G) (fun q => grd c q 0 * (grd g q 1 * grd h q 2 - grd h q 1 * grd g q 2) * gk_w G q) =
  kappa * suml (turns (skin 3 N)) (fun p => let e := fst p in match snd p with
    | Edge _ _ => 0
    | Tri b d => 1 / 6 * cr g h b e d e * c e
    | Quad b k d => (1 / 9 * cr g h b e d e + 1 / 18 * cr g h b e k b + 1 / 18 * cr g h k d d e + 1 / 36 * cr g h k d k b) * c e end).
Proof.
  intros En. destruct LK as (pt & NE & HV & HB & Hm). fold N in HV, HB, Hm. destruct skin_shapes as [[E _] | [_ [E | E]]]; [rewrite En in E; discriminate| |]; rewrite E, En in HV, HB, Hm; unfold grd; rewrite E.
  - set (C := (g 1%nat - g 0%nat) * (h 2%nat - h 0%nat) - (h 1%nat - h 0%nat) * (g 2%nat - g 0%nat)).
    rewrite (sumn_ext _ _ (fun q => (c 0%nat * C) * (pt q 0%nat ^ 0 * pt q 1%nat ^ 0 * gk_w G q) + ((c 1%nat - c 0%nat) * C) * (pt q 0%nat ^ 1 * pt q 1%nat ^ 0 * gk_w G q)
       + ((c 2%nat - c 0%nat) * C) * (pt q 0%nat ^ 0 * pt q 1%nat ^ 1 * gk_w G q))).
    + rewrite !sumn_plus, !sumn_scal_l. rewrite (Hm 0%nat 0%nat (1 / 2)), (Hm 1%nat 0%nat (1 / 6)), (Hm 0%nat 1%nat (1 / 6)) by (cbn; auto).
      unfold skin, turns. cbn [suml fst snd]. unfold cr, C. field.
    + intros q Hq. cbn [sumn]. rewrite !HV, !HB by lia. unfold linear_values, linear_slopes. cbn [tri_shape tri_grad nth pow]. unfold C. ring.
  - assert (Hm2 : forall p q, (p <= 2)%nat -> (q <= 2)%nat -> sumn (gk_nq G) (fun i => pt i 0%nat ^ p * pt i 1%nat ^ q * gk_w G i) = kappa * (1 / (INR p + 1) / (INR q + 1))).
    { intros p q Hp Hq. apply Hm. unfold skin_moments. apply in_flat_map. exists p. split; [cbn; lia|]. apply in_map_iff. exists q. split; [reflexivity|cbn; lia]. }
    (* the cross product is bilinear in the parent coordinates *)
    set (C := fun m => match m with
      | O => cr g h 1 0 2 0 | 1%nat => cr g h 1 0 3 1 | 2%nat => cr g h 3 2 2 0 | _ => cr g h 3 2 3 1 end).
    rewrite (sumn_ext _ _ (fun q => sumn 4 (fun l => sumn 4 (fun m => (c l * C m) * (nth l (quad_fn s 1 [pt q 0%nat; pt q 1%nat]) 0 * nth m (quad_fn s 1 [pt q 0%nat; pt q 1%nat]) 0 * gk_w G q))))).
    + transitivity (sumn 4 (fun l => sumn 4 (fun m => (c l * C m) * (kappa * (if Nat.eqb l m then 1 / 9 else if Nat.eqb (l + m) 3 then 1 / 36 else 1 / 18))))).
      * rewrite sumn_swap. apply sumn_ext. intros l Hl. rewrite sumn_swap. apply sumn_ext. intros m Hm'. rewrite sumn_scal_l. f_equal. now apply mass_moment.
      * unfold skin, turns. cbn [suml fst snd sumn Nat.eqb Nat.add]. unfold C, cr. field.
    + intros q Hq. cbn [sumn]. rewrite !HV, !HB by lia. unfold linear_values, linear_slopes, quad_fn, quad_gr, both, lob_list, lob_d_list.
      cbn [Nat.add lob lob_d combine map flat_map app nth fst snd]. unfold C, cr. ring.
Qed.
(** contribution of the boundary element to the integral of the shape function of node a times the normal *)
Lemma skin_integral (J : nat -> mat) j : (j < n)%nat ->
  (forall q i k, (q < gk_nq G)%nat -> (i < n)%nat -> (S k < n)%nat -> J q i k = sumn N (fun l => x (v l) i * es_B (gk_test G) l q (S k))) ->
  sumn (gk_nq G) (fun q => sumn N (fun l => (if Nat.eqb (v l) a then 1 else 0) * es_B (gk_test G) l q 0%nat) * crossn n (J q) j * gk_w G q)
  = kappa * suml (skin_around n N a v) (fun p => area_vec x a p j).
Proof.
  intros Hj HX. set (c := fun l => if Nat.eqb (v l) a then 1 else 0). rewrite skin_around_sum.
  assert (EX : sumn (gk_nq G) (fun q => sumn N (fun l => (if Nat.eqb (v l) a then 1 else 0) * es_B (gk_test G) l q 0%nat) * crossn n (J q) j * gk_w G q) =
    sumn (gk_nq G) (fun q => grd c q 0 * crossn n (fun i k => grd (fun l => x (v l) i) q (S k)) j * gk_w G q)).
  { apply sumn_ext. intros q Hq. unfold grd, c. f_equal. f_equal. apply crossn_ext; [exact D|]. intros i k Hi Hk. apply HX; auto. lia. }
  rewrite EX. clear EX HX. destruct skin_shapes as [[En EN] | [En EN]].
  - assert (P := fun c g => skin_line c g En). rewrite En in Hj |- *. rewrite EN. unfold skin, turns. cbn [suml fst snd rename area_vec]. unfold rot, vsub, crossn. cbn [Nat.eqb].
    destruct j as [|[|j]]; [| |lia].
    + rewrite P. unfold c. field.
    + rewrite (sumn_ext _ _ (fun q => -1 * (grd c q 0 * grd (fun l => x (v l) 0%nat) q 1 * gk_w G q))) by (intros; ring). rewrite sumn_scal_l, P. unfold c. field.
  - assert (P := fun c g h => skin_plane c g h En). rewrite En in Hj |- *. unfold crossn. cbn [Nat.eqb].
    assert (K : forall p, In p (turns (skin 3 N)) -> match snd p with Edge _ _ => False | _ => True end).
    { apply Forall_forall. destruct EN as [-> | ->]; unfold skin, turns; repeat constructor. }
    destruct j as [|[|[|j]]]; [| | |lia].
    + refine (eq_trans (P c (fun l => x (v l) 1%nat) (fun l => x (v l) 2%nat)) _). f_equal. apply suml_ext. intros [l p] Hp. specialize (K _ Hp). cbn [fst snd] in *. (destruct p as [lv b|b d|b e d]; [contradiction| |]); cbn [rename area_vec]; unfold cross3, vsub, cr, c; ring.
    + refine (eq_trans (P c (fun l => x (v l) 2%nat) (fun l => x (v l) 0%nat)) _). f_equal. apply suml_ext. intros [l p] Hp. specialize (K _ Hp). cbn [fst snd] in *. (destruct p as [lv b|b d|b e d]; [contradiction| |]); cbn [rename area_vec]; unfold cross3, vsub, cr, c; ring.
    + refine (eq_trans (P c (fun l => x (v l) 0%nat) (fun l => x (v l) 1%nat)) _). f_equal. apply suml_ext. intros [l p] Hp. specialize (K _ Hp). cbn [fst snd] in *. (destruct p as [lv b|b d|b e d]; [contradiction| |]); cbn [rename area_vec]; unfold cross3, vsub, cr, c; ring.
Qed.
End Element.

(** ** the mesh *)
Section Sum.
Context {St : Type} (n : nat) (D : dim23 n) (f : functional St) (pos : nat -> nat -> nat -> nat -> vec) (jac : nat -> nat -> nat -> nat -> mat) (xref : nat -> nat -> R) (kappa s : R).
Theorem mesh_normals k a j : isoparametric n f pos jac xref -> linear_skin n f kappa s -> (j < n)%nat ->
  normal_integral n f jac k a j = kappa * suml (skin_at n f k a) (fun p => area_vec xref a p j).
Proof.
  intros HI LM Hj. unfold normal_integral, over_points, skin_at.
  set (T := fun k' => match nth_error (f_integrals f) k' with None => 0 | Some Ig => sumn (length (i_geoms Ig)) (fun g => match nth_error (i_geoms Ig) g, nth_error (f_test f (i_type Ig)) g with
      | Some G, Some r => sumn (length (gk_elems G)) (fun le => sumn (gk_nq G) (fun q => (if Nat.eqb (gk_dim1 G) n then
          field_at G r (hat a) le q 0%nat 0%nat * crossn n (jac k' g le q) j else 0) * gk_w G q)) | _, _ => 0 end) end).
  rewrite (sumn_ext (length (f_integrals f)) _ (fun k' => if Nat.eqb k' k then T k' else 0)).
  2:{ intros k' _. unfold T. destruct (nth_error (f_integrals f) k') as [Ig|]; [|now destruct (Nat.eqb k' k)].
      destruct (Nat.eqb k' k); [reflexivity|]. apply sumn_zero. intros g _. destruct (nth_error (i_geoms Ig) g) as [G|]; [|reflexivity].
      destruct (nth_error (f_test f (i_type Ig)) g) as [r|]; [|reflexivity]. apply sumn_zero. intros le _. apply sumn_zero. intros. ring. }
  destruct (nth_error (f_integrals f) k) as [Ig|] eqn:E1.
  2:{ cbn [suml]. rewrite Rmult_0_r. apply sumn_zero. intros k' _. destruct (Nat.eqb_spec k' k) as [->|]; [|reflexivity]. unfold T. now rewrite E1. }
  rewrite (sumn_delta _ k T) by (apply nth_error_Some; congruence). unfold T. rewrite E1, suml_flat_map, suml_seq, <- sumn_scal_l. apply sumn_ext. intros g _.
  destruct (nth_error (i_geoms Ig) g) as [G|] eqn:E2; [|cbn [suml]; ring]. destruct (nth_error (f_test f (i_type Ig)) g) as [r|] eqn:E3; [|cbn [suml]; ring].
  destruct (Nat.eqb_spec (gk_dim1 G) n) as [Ed|].
  - assert (LK := LM Ig G (nth_error_In _ _ E1) (nth_error_In _ _ E2) Ed). rewrite suml_flat_map, suml_seq, <- sumn_scal_l. apply sumn_ext. intros le Hle.
    assert (A := skin_integral n D kappa s G LK (node_of r (nth le (gk_elems G) 0%nat)) xref a (fun q => jac k g le q) j Hj).
    refine (eq_trans _ (A _)); [reflexivity|]. intros q i k0 Hq Hi Hk. destruct (HI k Ig g G r le q E1 E2 E3 Hle Hq) as [_ HJ]. rewrite <- HJ by lia. reflexivity.
  - cbn [suml]. rewrite Rmult_0_r. apply sumn_zero. intros le _. apply sumn_zero. intros. ring.
Qed.
Lemma all_skin_sum a j : suml (all_skin n f a) (fun p => area_vec xref a p j) = sumn (length (f_integrals f)) (fun k => suml (skin_at n f k a) (fun p => area_vec xref a p j)).
Proof. unfold all_skin. now rewrite suml_flat_map, suml_seq. Qed.
Lemma enclosed_sum a j : enclosed n f a -> suml (all_faces n f a) (fun p => area_vec xref a p j) = suml (all_skin n f a) (fun p => area_vec xref a p j).
Proof.
  intros E. assert (C := closed_sum xref a _ j E). rewrite suml_app, suml_map in C.
  rewrite (suml_ext (all_skin n f a) (fun p => area_vec xref a (flip p) j) (fun p => - 1 * area_vec xref a p j)) in C by (intros; rewrite area_flip; ring).
  rewrite suml_scal_l in C. lra.
Qed.
End Sum.

(** ** the patch test under loads *)
Theorem loaded_patch {St} n (f : functional St) o nn terms pos jac xref kappa s A c (P : mat) t wrt upd Ls (m m' : mem St) L :
  dim23 n -> wf f (nn * n) (fun w => length (Ls w)) -> all_fit f -> layout f o nn n -> two_spaces n f -> isoparametric n f pos jac xref -> unity f ->
  linear_mesh n f jac kappa s -> linear_skin n f kappa s ->
  evaluate f t wrt upd Ls (nn * n) m = Ok (L, m') -> solid_residual n f t Ls m terms pos jac ->
  affine n n nn A c xref (nodal_values o nn n (Ls 0%nat)) -> (forall a i, (a < nn)%nat -> (i < n)%nat -> nodal_values o nn n (Ls 1%nat) a i = 0) ->
  List.Forall (responds n A P) terms ->
  forall a, (a < nn)%nat -> (forall k T, nth_error terms k = Some T -> touches n f k a -> pulls n t A P T) -> enclosed n f a ->
  forall i, (i < n)%nat -> nodal_values o nn n L a i = 0.
Proof.
  intros D W F LY TS ISO U LM LSK EV RES AF REST MAT a Ha LOAD CL i Hi.
  rewrite (loaded_force n D f o nn terms pos jac xref A c (fun _ => P) t wrt upd Ls m m' L W F LY TS ISO U EV RES AF REST) by
    (auto; intros k T E; apply nth_error_In in E; now apply (proj1 (Forall_forall _ _) MAT)).
  rewrite sumn_swap. apply sumn_zero. intros j Hj. rewrite sumn_scal_l.
  rewrite (sumn_ext (length (f_integrals f)) _ (fun k => kappa * suml (faces_at n f k a) (fun p => area_vec xref a p j) + - kappa * suml (skin_at n f k a) (fun p => area_vec xref a p j))) by
    (intros k _; rewrite (mesh_integral n D f pos jac xref kappa s k a j ISO LM Hj), (mesh_normals n D f pos jac xref kappa s k a j ISO LSK Hj); ring).
  rewrite sumn_plus, !sumn_scal_l, <- all_faces_sum, <- all_skin_sum, (enclosed_sum n f xref a j CL). ring.
Qed.
Theorem loaded_heat_patch {St} n (f : functional St) o nn terms pos jac grad xref kappa s A c (q : vec) t wrt upd Ls (m m' : mem St) L :
  dim23 n -> wf f (nn * 1) (fun w => length (Ls w)) -> all_fit f -> layout f o nn 1 -> two_spaces 1 f -> isoparametric n f pos jac xref -> unity f ->
  linear_mesh n f jac kappa s -> linear_skin n f kappa s ->
  evaluate f t wrt upd Ls (nn * 1) m = Ok (L, m') -> heat_residual n f t Ls m terms pos jac grad ->
  affine n 1 nn A c xref (nodal_values o nn 1 (Ls 0%nat)) -> (forall a, (a < nn)%nat -> nodal_values o nn 1 (Ls 1%nat) a 0%nat = 0) ->
  List.Forall (conducts n (A 0%nat) q) terms ->
  forall a, (a < nn)%nat -> (forall k T, nth_error terms k = Some T -> touches n f k a -> flows n t q T) -> enclosed n f a -> nodal_values o nn 1 L a 0%nat = 0.
Proof.
  intros D W F LY TS ISO U LM LSK EV RES AF REST MAT a Ha LOAD CL.
  rewrite (loaded_heat n D f o nn terms pos jac grad xref A c (fun _ => q) t wrt upd Ls m m' L W F LY TS ISO U EV RES AF REST) by
    (auto; intros k T E; apply nth_error_In in E; now apply (proj1 (Forall_forall _ _) MAT)).
  rewrite <- Ropp_0. f_equal. rewrite sumn_swap. apply sumn_zero. intros j Hj. rewrite sumn_scal_l.
  rewrite (sumn_ext (length (f_integrals f)) _ (fun k => kappa * suml (faces_at n f k a) (fun p => area_vec xref a p j) + - kappa * suml (skin_at n f k a) (fun p => area_vec xref a p j))) by
    (intros k _; rewrite (mesh_integral n D f pos jac xref kappa s k a j ISO LM Hj), (mesh_normals n D f pos jac xref kappa s k a j ISO LSK Hj); ring).
  rewrite sumn_plus, !sumn_scal_l, <- all_faces_sum, <- all_skin_sum, (enclosed_sum n f xref a j CL). ring.
Qed.

(** ** a pressure that balances a hydrostatic stress, on the reference or on the deformed surface *)
Lemma cofactor_det n F i j : dim23 n -> (i < n)%nat -> (j < n)%nat -> sumn n (fun k => cofactor n F i k * F j k) = if Nat.eqb i j then detn n F else 0.
Proof.
  intros [-> | ->] Hi Hj; unfold cofactor, detn, det2, det3; cbn [Nat.eqb sumn];
    [destruct i as [|[|i]]; [| |lia]; (destruct j as [|[|j]]; [| |lia])|destruct i as [|[|[|i]]]; [| | |lia]; (destruct j as [|[|[|j]]]; [| | |lia])]; cbn; ring.
Qed.
Theorem pressure_pulls {St} n on A (sg P : mat) p0 t : dim23 n -> flux n on sg A = Some P -> meq n sg (mscal (- p0) ident) -> pulls (St := St) n t A P (SPressure on (fun _ _ => p0)).
Proof.
  intros D EF ES. exists p0. split; [reflexivity|]. intros i j Hi Hj. symmetry.
  refine (flux_unique n on sg A P (fun i j => - p0 * cofactor n (if on then madd ident A else ident) i j) D EF _ i j Hi Hj).
  intros a b Ha Hb. unfold mmul, transpose, mscal.
  set (F := fun i0 j0 => ident i0 j0 + (if on then A i0 j0 else 0)).
  assert (EC : meq n (if on then madd ident A else ident) F) by (intros x y _ _; unfold F, madd; destruct on; [reflexivity|ring]).
  rewrite (sumn_ext n _ (fun k => - p0 * (cofactor n (if on then madd ident A else ident) a k * (if on then madd ident A else ident) b k))) by (intros k Hk; rewrite (EC b k Hb Hk); unfold F; ring).
  rewrite sumn_scal_l, cofactor_det by auto. rewrite (detn_ext n _ F D EC). unfold mscal in ES. rewrite ES by auto. fold F. unfold ident. destruct (Nat.eqb a b); ring.
Qed.

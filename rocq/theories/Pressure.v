(** * A uniform pressure on a closed surface (C85)
    The pressure terms of the solid module (solid_mechanics.hpp:1069-1103, WeakForm.v) on linear boundary elements which together
    close a surface: resultant, moments and work of the nodal forces. *)
From Coq Require Import NArith ZArith Reals List Lia Lra Bool Permutation.
From Coquelicot Require Import Coquelicot.
From Verif Require Import Prelude DofCodec Sums Restriction Kernels FunctionalModel Assembly Tensor MatAlg Materials ShapeAware ShapeDefs ShapeTensor WeakForm WeakFormFacts WeakFormPhysics WeakFormWork EnergySolid FrameResidual PatchTest PatchMesh PatchHex PatchGeom PatchLoad PatchSkin.
Import ListNotations.
Local Open Scope R_scope.

(** ** specification *)
(** a surface is a list of faces, each the cycle of its corners as seen from the side its normal points to: segments in the plane,
    triangles and quads in space.  It is closed when every edge of a face is run through as often in the opposite direction; in the
    plane, when as many segments end as start at every point *)
Definition rim (c : list nat) : list (nat * nat) :=
  match c with [a; b; d] => [(a, b); (b, d); (d, a)] | [a; b; e; d] => [(a, b); (b, e); (e, d); (d, a)] | _ => [] end.
Definition swap (e : nat * nat) : nat * nat := (snd e, fst e).
Definition closed (n : nat) (faces : list (list nat)) : Prop :=
  match n with
  | 2%nat => Permutation (flat_map (firstn 1) faces) (flat_map (skipn 1) faces)
  | _ => Permutation (flat_map rim faces) (map swap (flat_map rim faces)) end.
(** signed volume of the tetrahedron over a triangle with its apex at the origin *)
Definition tet (x : nat -> vec) (a b c : nat) : R :=
  1 / 6 * (x a 0%nat * (x b 1%nat * x c 2%nat - x b 2%nat * x c 1%nat) + x a 1%nat * (x b 2%nat * x c 0%nat - x b 0%nat * x c 2%nat) + x a 2%nat * (x b 0%nat * x c 1%nat - x b 1%nat * x c 0%nat)).
(** the cone over a face: an area in the plane; over a quad, the mean of the two ways of cutting it into triangles *)
Definition cone (n : nat) (x : nat -> vec) (c : list nat) : R :=
  match n, c with
  | 2%nat, [a; b] => 1 / 2 * (x a 0%nat * x b 1%nat - x a 1%nat * x b 0%nat)
  | 3%nat, [a; b; d] => tet x a b d
  | 3%nat, [a; b; e; d] => 1 / 2 * (tet x a b e + tet x a e d) + 1 / 2 * (tet x a b d + tet x b e d)
  | _, _ => 0 end.
(** volume (area in the plane) enclosed by a closed surface whose corners are at [x] *)
Definition volume_in (n : nat) (x : nat -> vec) (faces : list (list nat)) : R := suml faces (cone n x).

Section Mesh.
Context {St : Type} (n : nat) (f : functional St) (terms : list (solid_term St)).
(** the boundary elements of integral [k] *)
Definition walls (k : nat) : list (list nat) :=
  match nth_error (f_integrals f) k with None => [] | Some Ig =>
    flat_map (fun g => match nth_error (i_geoms Ig) g, nth_error (f_test f (i_type Ig)) g with
      | Some G, Some r => if Nat.eqb (gk_dim1 G) n then
          map (fun le => map (node_of r (nth le (gk_elems G) 0%nat)) (skin n (es_n (gk_test G)))) (seq 0 (length (gk_elems G))) else []
      | _, _ => [] end) (seq 0 (length (i_geoms Ig))) end.
(** the surface on which pressures act *)
Definition pressed : list (list nat) :=
  flat_map (fun k => match nth_error terms k with Some (SPressure _ _) => walls k | _ => [] end) (seq 0 (length (f_integrals f))).
End Mesh.
(** from time t1 to time t2 the pressures go from the uniform value p1 to p2 and all other loads stay as they are *)
Definition raised {St} (n : nat) (on : bool) (t1 t2 p1 p2 : R) (T : solid_term St) : Prop :=
  match T with
  | SMaterial _ _ _ => True
  | SBody b => forall X i, (i < n)%nat -> b X t2 i = b X t1 i
  | STraction tr => forall X nu i, (i < n)%nat -> tr X nu t2 i = tr X nu t1 i
  | SPressure on' p => on' = on /\ forall X, p X t1 = p1 /\ p X t2 = p2 end.

(** ** forms on faces *)
Definition push (n : nat) (h x : nat -> vec) (c : list nat) : R := suml (turns c) (fun p => sumn n (fun i => h (fst p) i * area_vec x (fst p) (snd p) i)).
Definition shaped (n : nat) (c : list nat) : Prop :=
  c = [] \/ (n = 2%nat /\ exists a b, c = [a; b]) \/ (n = 3%nat /\ ((exists a b d, c = [a; b; d]) \/ exists a b e d, c = [a; b; e; d])).
(** a quantity which faces only collect from their rims *)
Definition rim_only (n : nat) (F : list nat -> R) : Prop :=
  F [] = 0 /\
  (n = 2%nat -> exists g, forall a b, F [a; b] = g b - g a) /\
  (n = 3%nat -> exists g : nat * nat -> R, (forall e, g (swap e) = - g e) /\ (forall a b d, F [a; b; d] = suml (rim [a; b; d]) g) /\ forall a b e d, F [a; b; e; d] = suml (rim [a; b; e; d]) g).
Lemma rim_only_closed n F faces : dim23 n -> rim_only n F -> List.Forall (shaped n) faces -> closed n faces -> suml faces F = 0.
Proof.
  intros D (F0 & F2 & F3) SH CL. destruct D as [-> | ->]; unfold closed in CL.
  - destruct (F2 eq_refl) as (g & Eg). clear F2 F3.
    assert (A : suml faces F = suml (flat_map (skipn 1) faces) g - suml (flat_map (firstn 1) faces) g).
    { clear CL. induction SH as [|c faces Hc SH IH]; [cbn [suml flat_map]; ring|]. cbn [flat_map suml]. rewrite !suml_app, IH.
      destruct Hc as [-> | [(_ & a & b & ->) | (E & _)]]; [cbn [skipn firstn suml]; rewrite F0; ring| |discriminate]. rewrite Eg. cbn [skipn firstn suml]. ring. }
    rewrite A, (suml_perm _ _ g CL). ring.
  - destruct (F3 eq_refl) as (g & Ag & Et & Eq). clear F2 F3.
    assert (A : suml faces F = suml (flat_map rim faces) g).
    { clear CL. induction SH as [|c faces Hc SH IH]; [reflexivity|]. cbn [flat_map suml]. rewrite suml_app, IH. f_equal.
      destruct Hc as [-> | [(E & _) | (_ & [(a & b & d & ->) | (a & b & e & d & ->)])]]; [exact F0|discriminate|apply Et|apply Eq]. }
    rewrite A. assert (B := suml_perm _ _ g CL). rewrite suml_map in B.
    rewrite (suml_ext _ (fun e => g (swap e)) (fun e => - 1 * g e)) in B by (intros; rewrite Ag; ring). rewrite suml_scal_l in B. lra.
Qed.
Ltac faces_open := unfold push, turns, rim; cbn [suml fst snd sumn area_vec map]; unfold rot, cross3, vsub, cone, tet.
(** resultant *)
Lemma push_uniform n x i : dim23 n -> (i < n)%nat -> rim_only n (push n (fun _ d => if Nat.eqb d i then 1 else 0) x).
Proof.
  intros D Hi. split; [reflexivity|]. split; intros ->.
  - destruct i as [|[|i]]; [| |lia].
    + exists (fun a => x a 1%nat). intros a b. faces_open. cbn [Nat.eqb]. field.
    + exists (fun a => - x a 0%nat). intros a b. faces_open. cbn [Nat.eqb]. field.
  - exists (fun e => 1 / 2 * cross3 (x (fst e)) (x (snd e)) i). split; [|split].
    + intros [a b]. unfold swap, cross3. cbn [fst snd]. destruct i as [|[|i]]; ring.
    + intros a b d. destruct i as [|[|[|i]]]; [| | |lia]; faces_open; cbn [Nat.eqb]; field.
    + intros a b e d. destruct i as [|[|[|i]]]; [| | |lia]; faces_open; cbn [Nat.eqb]; field.
Qed.
(** moments *)
Definition spin_edge (x : nat -> vec) (m : nat) (e : nat * nat) : R :=
  1 / 6 * sumn 3 (fun d => x (fst e) d * x (fst e) d + x (fst e) d * x (snd e) d + x (snd e) d * x (snd e) d) * (x (snd e) m - x (fst e) m).
Lemma push_spin n x i l : dim23 n -> (i < n)%nat -> (l < n)%nat ->
  rim_only n (push n (fun a d => (if Nat.eqb d i then x a l else 0) - (if Nat.eqb d l then x a i else 0)) x).
Proof.
  intros D Hi Hl. split; [reflexivity|]. split; intros ->.
  - set (s := 1 / 2 * (INR l - INR i)). exists (fun a => s * (x a 0%nat * x a 0%nat + x a 1%nat * x a 1%nat)). intros a b. unfold s.
    destruct i as [|[|i]]; [| |lia]; (destruct l as [|[|l]]; [| |lia]); faces_open; cbn [Nat.eqb INR]; field.
  - assert (AN : forall s m e, s * spin_edge x m (swap e) = - (s * spin_edge x m e)) by (intros s m [a b]; unfold spin_edge, swap; cbn [fst snd sumn]; ring).
    destruct i as [|[|[|i]]]; [| | |lia]; (destruct l as [|[|[|l]]]; [| | |lia]);
      (* i = l; then the pairs *)
      [exists (fun e => 0 * spin_edge x 0 e)|exists (fun e => 1 * spin_edge x 2 e)|exists (fun e => -1 * spin_edge x 1 e)
      |exists (fun e => -1 * spin_edge x 2 e)|exists (fun e => 0 * spin_edge x 0 e)|exists (fun e => 1 * spin_edge x 0 e)
      |exists (fun e => 1 * spin_edge x 1 e)|exists (fun e => -1 * spin_edge x 0 e)|exists (fun e => 0 * spin_edge x 0 e)];
      (split; [apply AN|split; intros; faces_open; unfold spin_edge; cbn [Nat.eqb fst snd sumn]; field]).
Qed.
(** work: the cones over a moved face *)
Definition rim_work (n : nat) (h x : nat -> vec) (c : list nat) : R :=
  match n with
  | 2%nat => match c with [a; b] => 1 / 2 * (h b 0%nat * x b 1%nat - h b 1%nat * x b 0%nat) - 1 / 2 * (h a 0%nat * x a 1%nat - h a 1%nat * x a 0%nat) | _ => 0 end
  | _ => suml (rim c) (fun e => 1 / 6 * sumn 3 (fun i => (h (fst e) i + h (snd e) i) * cross3 (x (fst e)) (x (snd e)) i)) end.
Lemma rim_work_only n h x : dim23 n -> rim_only n (rim_work n h x).
Proof.
  intros D. split; [destruct D as [-> | ->]; reflexivity|]. split; intros ->.
  - exists (fun a => 1 / 2 * (h a 0%nat * x a 1%nat - h a 1%nat * x a 0%nat)). reflexivity.
  - eexists. split; [|split; intros; reflexivity]. intros [a b]. unfold swap, cross3. cbn [fst snd sumn]. ring.
Qed.
Definition moved (x h : nat -> vec) (tau : R) : nat -> vec := fun a i => x a i + tau * h a i.
Lemma cone_moved n x h tau c : dim23 n -> shaped n c ->
  cone n (moved x h tau) c = cone n x c + tau * (push n h x c - rim_work n h x c) +
     tau * tau * (if Nat.eqb n 2 then cone n h c else push n x h c - rim_work n x h c) + tau * tau * tau * (if Nat.eqb n 2 then 0 else cone n h c).
Proof.
  intros D [-> | [(-> & a & b & ->) | (-> & [(a & b & d & ->) | (a & b & e & d & ->)])]].
  - destruct D as [-> | ->]; unfold push, rim_work, cone, turns, rim; cbn [suml Nat.eqb]; ring.
  - unfold rim_work. faces_open. unfold moved. cbn [Nat.eqb]. field.
  - unfold rim_work. faces_open. unfold moved. cbn [Nat.eqb]. field.
  - unfold rim_work. faces_open. unfold moved. cbn [Nat.eqb]. field.
Qed.
Lemma cubic_slope (v a b c : R) : is_derive (fun tau => v + tau * a + tau * tau * b + tau * tau * tau * c) 0 a.
Proof.
  assert (E : 1 * a + (1 * 0 + 0 * 1) * b + ((1 * 0 + 0 * 1) * 0 + 0 * 0 * 1) * c = a) by ring. refine (eq_ind _ (fun d : R => is_derive (fun tau => v + tau * a + tau * tau * b + tau * tau * tau * c) 0 d) _ a E). auto_derive; [exact Logic.I|reflexivity].
Qed.
Theorem volume_slope n x h faces : dim23 n -> List.Forall (shaped n) faces -> closed n faces ->
  is_derive (fun tau => volume_in n (moved x h tau) faces) 0 (suml faces (push n h x)).
Proof.
  intros D SH CL. assert (Z : forall u w, suml faces (rim_work n u w) = 0) by (intros; exact (rim_only_closed n _ faces D (rim_work_only n u w D) SH CL)).
  set (B := suml faces (fun c => if Nat.eqb n 2 then cone n h c else push n x h c - rim_work n x h c)). set (C := suml faces (fun c => if Nat.eqb n 2 then 0 else cone n h c)).
  apply (is_derive_ext (fun tau => volume_in n x faces + tau * suml faces (push n h x) + tau * tau * B + tau * tau * tau * C)).
  - intros tau. match goal with |- ?l = ?r => change (@eq R l r) end. unfold volume_in, B, C. rewrite (suml_ext faces (cone n (moved x h tau)) (fun c => cone n x c + tau * (push n h x c + - 1 * rim_work n h x c) +
     tau * tau * (if Nat.eqb n 2 then cone n h c else push n x h c - rim_work n x h c) + tau * tau * tau * (if Nat.eqb n 2 then 0 else cone n h c))).
    + rewrite !suml_plus, !suml_scal_l, suml_plus, suml_scal_l, Z. ring.
    + intros c Hc. rewrite cone_moved by (auto; now apply (proj1 (Forall_forall _ _) SH)). ring.
  - apply cubic_slope.
Qed.

(** ** boundary elements *)
Lemma turns_map (v : nat -> nat) c : turns (map v c) = map (fun p => (v (fst p), rename v (snd p))) (turns c).
Proof. destruct c as [|a [|b [|d [|e [|k c]]]]]; reflexivity. Qed.
Lemma skin_shaped n N v : shaped n (map v (skin n N)).
Proof.
  unfold skin. destruct n as [|[|[|[|n]]]]; try (left; reflexivity); destruct N as [|[|[|[|[|N]]]]]; try (left; reflexivity); right; [left|right|right]; (split; [reflexivity|]).
  - cbn [map]. eauto.
  - left. cbn [map]. eauto.
  - right. cbn [map]. repeat eexists.
Qed.
Lemma skin_turns_lt n N p : In p (turns (skin n N)) -> (fst p < N)%nat.
Proof.
  unfold skin. destruct n as [|[|[|[|n]]]]; try (intros []; fail); destruct N as [|[|[|[|[|N]]]]]; try (intros []; fail); cbn [turns In]; intuition (subst; cbn [fst]; lia).
Qed.
Lemma skin_push {St} n (D : dim23 n) kappa s (G : gkernel St) (LK : linear_skin_kernel n kappa s G) (v : nat -> nat) (x h : nat -> vec) (J : nat -> mat) :
  (forall q i k, (q < gk_nq G)%nat -> (i < n)%nat -> (S k < n)%nat -> J q i k = sumn (es_n (gk_test G)) (fun l => x (v l) i * es_B (gk_test G) l q (S k))) ->
  sumn (gk_nq G) (fun q => sumn n (fun i => crossn n (J q) i * sumn (es_n (gk_test G)) (fun l => h (v l) i * es_B (gk_test G) l q 0%nat)) * gk_w G q)
  = kappa * push n h x (map v (skin n (es_n (gk_test G)))).
Proof.
  intros HX. set (N := es_n (gk_test G)) in *.
  (* local node numbers are distinct: collect the shape function of each *)
  assert (E : forall i q, sumn N (fun l => h (v l) i * es_B (gk_test G) l q 0%nat) = sumn N (fun e => h (v e) i * sumn N (fun l => (if Nat.eqb l e then 1 else 0) * es_B (gk_test G) l q 0%nat))).
  { intros i q. apply sumn_ext. intros e He. f_equal. rewrite (sumn_ext N _ (fun l => if Nat.eqb l e then es_B (gk_test G) l q 0%nat else 0)) by (intros l _; destruct (Nat.eqb l e); ring). now rewrite sumn_delta. }
  transitivity (sumn n (fun i => sumn N (fun e => h (v e) i * sumn (gk_nq G) (fun q => sumn N (fun l => (if Nat.eqb l e then 1 else 0) * es_B (gk_test G) l q 0%nat) * crossn n (J q) i * gk_w G q)))).
  - transitivity (sumn (gk_nq G) (fun q => sumn n (fun i => sumn N (fun e => h (v e) i * (sumn N (fun l => (if Nat.eqb l e then 1 else 0) * es_B (gk_test G) l q 0%nat) * crossn n (J q) i * gk_w G q))))).
    + apply sumn_ext. intros q _. rewrite <- sumn_scal_r. apply sumn_ext. intros i _. rewrite E. rewrite <- sumn_scal_l, <- sumn_scal_r. apply sumn_ext. intros. ring.
    + rewrite sumn_swap. apply sumn_ext. intros i _. rewrite sumn_swap. apply sumn_ext. intros e _. now rewrite sumn_scal_l.
  - transitivity (sumn n (fun i => kappa * suml (turns (skin n N)) (fun p => h (v (fst p)) i * area_vec x (v (fst p)) (rename v (snd p)) i))).
    + apply sumn_ext. intros i Hi.
      transitivity (sumn N (fun e => kappa * suml (turns (skin n N)) (fun p => if Nat.eqb (fst p) e then h (v e) i * area_vec (fun l => x (v l)) (fst p) (snd p) i else 0))).
      * apply sumn_ext. intros e He.
        assert (A := skin_integral n D kappa s G LK (fun l => l) (fun l => x (v l)) e J i Hi HX). fold N in A. rewrite A.
        rewrite (skin_around_sum n N e (fun l => l) (fun l => x (v l)) i), <- Rmult_assoc, (Rmult_comm (h (v e) i) kappa), Rmult_assoc. f_equal.
        rewrite <- suml_scal_l. apply suml_ext. intros p _. destruct (Nat.eqb_spec (fst p) e) as [->|]; [|ring].
        replace (rename (fun l => l) (snd p)) with (snd p) by (now destruct (snd p)). ring.
      * rewrite sumn_scal_l. f_equal. rewrite <- suml_sumn_swap. apply suml_ext. intros p Hp.
        rewrite (sumn_ext N _ (fun e => if Nat.eqb e (fst p) then h (v e) i * area_vec (fun l => x (v l)) (fst p) (snd p) i else 0)) by (intros e _; now rewrite Nat.eqb_sym).
        rewrite (sumn_delta N (fst p) (fun e => h (v e) i * area_vec (fun l => x (v l)) (fst p) (snd p) i)) by (now apply (skin_turns_lt n)). f_equal. now destruct (snd p).
    + rewrite sumn_scal_l. f_equal. unfold push. rewrite turns_map, suml_map. cbn [fst snd]. now rewrite <- suml_sumn_swap.
Qed.

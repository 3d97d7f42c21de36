(** * A conducting triangle: non-vacuity witness for the heat part of C68 *)
From Coq Require Import NArith ZArith Reals List Lia Lra Bool.
From Verif Require Import Prelude DofCodec Sums Restriction Kernels FunctionalModel Assembly Tensor MatAlg Materials MaterialFacts ShapeAware WeakForm WeakFormFacts WeakFormPhysics WeakFormWork WeakFormEx Fit Ode OdeEx Energy EnergySolid EnergyRun EnergyEx EnergyHeat.
Import ListNotations.
Local Open Scope R_scope.

Lemma heat_point_ok n T t X J u a : dim23 n -> (is_volume_h T = true -> detn n J <> 0) -> (is_volume_h T = false -> vnorm n (crossn n J) <> 0) ->
  exists p out, heat_point n T t X J u a = Some p /\ point_out n p = Some out.
Proof.
  intros D HJ HS.
  assert (VO : detn n J <> 0 -> forall s P, exists out, point_out n (Volume J s P) = Some out).
  { intros NZ s P. destruct (invn_works n (transpose J) D) as (K & E); [rewrite detn_transpose by exact D; exact NZ|]. unfold point_out, physical_to_parent. rewrite E. eauto. }
  destruct T as [mm|s|fl]; cbn [heat_point is_volume_h] in *.
  - specialize (HJ eq_refl). destruct (invn_works n J D HJ) as (K & EK). unfold grad_phys, parent_to_physical. rewrite EK. cbn [snd]. cbv zeta.
    match goal with |- exists p out, Some (Volume _ ?s ?P) = _ /\ _ => destruct (VO HJ s P) as (out & Eo) end. eexists _, out. split; [reflexivity|exact Eo].
  - specialize (HJ eq_refl). destruct (invn_works n J D HJ) as (K & EK). unfold grad_phys, parent_to_physical. rewrite EK. cbn [snd].
    match goal with |- exists p out, Some (Volume _ ?s ?P) = _ /\ _ => destruct (VO HJ s P) as (out & Eo) end. eexists _, out. split; [reflexivity|exact Eo].
  - destruct (Req_EM_T (vnorm n (crossn n J)) 0) as [E|_]; [destruct (HS eq_refl E)|]. eexists _, _. split; reflexivity.
Qed.
(** conductivity 2 along x, 3 along y and 1 across; a source growing in time and cooling towards a temperature growing in time, both at rate [c] *)
Definition hc_kappa : mat := fun i j => match i, j with O, O => 2 | S O, S O => 3 | _, _ => 1 end.
Section Rate.
Context (c : R).
Definition hc_terms : list heat_term :=
  [HMaterial (fourier_law 2 3 hc_kappa); HSource (fun X t u g => c * t * X 0%nat); HFlux (fun X nu t u => 4 * (u - c * t))].
Definition hc_f : functional unit :=
  ex_functional 1 (map (fun T => (is_volume_h T, fun t u a => out_of (heat_point 2 T t (tri_pos (is_volume_h T)) (tri_jac (is_volume_h T)) u a))) hc_terms).
Definition hc_params (w : nat) : list R := repeat 0 3.
Lemma hc_linear : List.Forall (linear_heat 2) hc_terms.
Proof.
  constructor; [|constructor; [|constructor; [|constructor]]].
  - apply fourier_linear. intros [|[|i]] [|[|j]] _ _; reflexivity.
  - intros X t u g. reflexivity.
  - apply (cooling_linear 2 (fun _ => 4) (fun t => c * t)).
Qed.
Lemma hc_wf x a : wf hc_f 3 (fun w => length (arguments 3 hc_params x a w)).
Proof. apply (ex_wf 1 _ (arguments 3 hc_params x a)); [lia|]. intros [|[|w]]; cbn [arguments]; [apply tab_length|apply tab_length|apply repeat_length]. Qed.
Lemma hc_spaces : two_spaces 1 hc_f.
Proof.
  split; [intros dt; split; reflexivity|]. intros Ig HI. apply ex_in in HI as (vol & qf & ->). split; [now exists []|]. intros G [<-|[]]. destruct vol; repeat split.
Qed.
Lemma hc_residual t x a : exists grad, heat_residual 2 hc_f t (arguments 3 hc_params x a) ex_mem hc_terms ex_pos ex_jac grad.
Proof.
  exists (fun k g le q => match nth_error (f_integrals hc_f) k with
    | Some Ig => match nth_error (i_geoms Ig) g with Some G => grad_at 2 (ex_jac k g le q) (qf_inputs G g (Es_of hc_f (arguments 3 hc_params x a) Ig) le q 0%nat) | None => fun _ _ => 0 end
    | None => fun _ _ => 0 end).
  intros k Ig g G le q E1 E2 Hle Hq. rewrite E1, E2. unfold hc_f, ex_functional in E1. cbn [f_integrals] in E1. rewrite map_map in E1. cbn [fst snd] in E1.
  destruct (nth_error hc_terms k) as [T|] eqn:ET.
  2:{ apply nth_error_None in ET. rewrite (proj2 (nth_error_None _ _)) in E1; [discriminate|]. rewrite map_length. exact ET. }
  rewrite (map_nth_error _ _ _ ET) in E1. injection E1 as <-. destruct g as [|g]; [|destruct g; discriminate]. injection E2 as <-.
  cbn [ex_kernel gk_elems length gk_nq] in Hle, Hq. assert (le = 0%nat) by lia. assert (q = 0%nat) by lia. subst le q. clear Hle Hq.
  assert (Hvol : vol_of k = is_volume_h T). { destruct k as [|[|[|k]]]; injection ET as <- || destruct k; try reflexivity; discriminate. }
  set (u := qf_inputs _ 0 _ 0 0 0%nat). set (a' := qf_inputs _ 0 _ 0 0 1%nat). unfold ex_pos, ex_jac. rewrite Hvol.
  destruct (heat_point_ok 2 T t (tri_pos (is_volume_h T)) (tri_jac (is_volume_h T)) u a') as (p & out & Ep & Eo).
  - now left.
  - intros ->. unfold tri_jac. rewrite detn_ident by (now left). lra.
  - intros ->. rewrite edge_norm. lra.
  - exists T, p, out. split; [reflexivity|]. split; [exact Ep|]. split; [exact Eo|]. split; [|split].
    + cbn [ex_kernel gk_dim1]. destruct (is_volume_h T); reflexivity.
    + intros ->. unfold tri_jac. destruct ident_inv as (K & EK). unfold grad_phys, parent_to_physical, grad_at. rewrite EK. reflexivity.
    + intros b _. unfold qf_out. cbn [ex_kernel gk_qf fst]. fold u a'. unfold out_of. now rewrite Ep, Eo.
Qed.
Lemma hc_oriented : oriented_heat 2 hc_f hc_terms ex_jac.
Proof.
  intros k Ig g G le q E1 E2 Hle Hq. destruct k as [|[|[|k]]]; [| | |destruct k; discriminate]; injection E1 as <-;
  (destruct g as [|g]; [|destruct g; discriminate]); injection E2 as <-; (split; [cbn; lra|]); intros mm ET; try discriminate.
  change (0 <= detn 2 ident). rewrite detn_ident by (now left). lra.
Qed.
Lemma hc_positive : positive_heat 2 hc_terms.
Proof.
  split.
  - intros mm [H|[H|[H|[]]]]; try discriminate. injection H as <-. intros X. split; [cbn; lra|]. intros h. unfold dotn. cbn [sumn]. rewrite !fourier_conducted. cbn [sumn hc_kappa].
    set (x := h 0%nat). set (y := h 1%nat). assert (A := Rle_0_sqr (x + y)). assert (B := Rle_0_sqr x). assert (C := Rle_0_sqr y). unfold Rsqr in *. lra.
  - intros fl [H|[H|[H|[]]]]; try discriminate. injection H as <-. intros X nu. unfold film. lra.
Qed.
Lemma hc_capacity : 0 < capacity_form 2 3 hc_f hc_terms ex_pos ex_jac (unit_at 1) (unit_at 1).
Proof.
  unfold capacity_form, over_points. cbn [hc_f ex_functional f_integrals map hc_terms length is_volume_h fst snd sumn nth_error ex_integral i_geoms i_type f_test ex_restr ex_kernel gk_elems gk_nq gk_w].
  cbn [capacity_density]. unfold ex_jac. cbn [vol_of tri_jac]. rewrite detn_ident by (now left). cbn [fourier_law fst].
  unfold test_field, interpolate, elem_dofs. cbn [gk_test ex_kernel es_n es_c tri_space gk_elems nth sumn es_B tri_B].
  vm_compute (gatherF _ _). cbn [nth Nat.add Nat.mul]. lra.
Qed.
Theorem conducting_triangle : dim23 2 /\ List.Forall (linear_heat 2) hc_terms /\ (forall x a, wf hc_f 3 (fun w => length (arguments 3 hc_params x a w))) /\ all_fit hc_f /\ two_spaces 1 hc_f /\
  (forall t x a, exists grad, heat_residual 2 hc_f t (arguments 3 hc_params x a) ex_mem hc_terms ex_pos ex_jac grad) /\ oriented_heat 2 hc_f hc_terms ex_jac /\ positive_heat 2 hc_terms /\
  exists solver, solves (heat_problem 3 hc_f ex_mem hc_params (fun i => negb (Nat.eqb i 1)) (fun _ _ => 0)) solver.
Proof.
  split; [now left|]. split; [exact hc_linear|]. split; [exact hc_wf|]. split; [apply ex_fit|]. split; [exact hc_spaces|]. split; [exact hc_residual|]. split; [exact hc_oriented|]. split; [exact hc_positive|].
  eexists. apply (one_free_solves (heat_problem 3 hc_f ex_mem hc_params (fun i => negb (Nat.eqb i 1)) (fun _ _ => 0)) _ _ _ 1 (capacity_symmetric 2 3 hc_f hc_terms ex_pos ex_jac) (conduct_symmetric 2 3 hc_f hc_terms ex_pos ex_jac hc_linear)
    (heat_motion 2 3 hc_f ex_mem hc_terms ex_pos ex_jac hc_params ltac:(now left) hc_linear _ _ hc_wf (ex_fit _ _) hc_spaces hc_residual)).
  - cbn. lia.
  - reflexivity.
  - exact hc_capacity.
  - apply (conduct_nonneg 2 3 hc_f hc_terms ex_pos ex_jac hc_oriented hc_positive).
Qed.
Lemma hc_unsupplied : c = 0 -> (forall s, In (HSource s) hc_terms -> forall X t, s X t 0 none = 0) /\ (forall q, In (HFlux q) hc_terms -> forall X nu t, q X nu t 0 = 0).
Proof.
  intros Z. split.
  - intros s [H|[H|[H|[]]]]; try discriminate. injection H as <-. intros. rewrite Z. ring.
  - intros s [H|[H|[H|[]]]]; try discriminate. injection H as <-. intros. rewrite Z. ring.
Qed.
End Rate.

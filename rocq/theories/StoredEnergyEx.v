(** * A triangle of a St. Venant-Kirchhoff material, stretched and released, and in free fall: non-vacuity witnesses for C87 *)
From Coq Require Import NArith ZArith Reals List Lia Lra Bool.
From Coquelicot Require Import Coquelicot.
From Verif Require Import Prelude DofCodec Sums Restriction Kernels FunctionalModel Assembly Dual LUDeriv Tensor MatAlg Materials MaterialFacts ShapeAware WeakForm WeakFormFacts WeakFormPhysics WeakFormWork WeakFormEx Fit Ode OdeEx Energy EnergySolid EnergyRun EnergyEx TracedSolidEx StoredEnergy StoredEnergyUse.
Import ListNotations.
Local Open Scope R_scope.

(** density 3; gravity -10 in the second direction *)
Definition sv_terms : list (solid_term unit) := [SMaterial true 3 (fun _ H => stvk 2 2 1 H); SBody (fun X t i => match i with O => 0 | _ => -30 end)].
Definition sv_f : functional unit :=
  ex_functional 2 (map (fun T => (is_volume T, fun t u a => out_of (solid_point 2 T t (tri_pos (is_volume T)) (tri_jac (is_volume T)) u a tt))) sv_terms).
Definition sv_psi (k : nat) (_ : unit) : mat -> R := energy_stvk 2 2 1.

Lemma sv_elastic : elastic 2 sv_terms sv_psi.
Proof.
  intros k T E. destruct k as [|[|k]]; [injection E as <-|injection E as <-; exact Logic.I|destruct k; discriminate]. exact (stvk_stores unit 2 3 2 1 (or_introl eq_refl)).
Qed.
Lemma sv_wf x a : wf sv_f 6 (fun w => length (arguments 6 no_params x a w)).
Proof. apply (ex_wf 2 _ (arguments 6 no_params x a)); [lia|]. intros [|[|w]]; cbn [arguments]; [apply tab_length|apply tab_length|apply repeat_length]. Qed.
Lemma sv_spaces : two_spaces 2 sv_f.
Proof.
  split; [intros dt; split; reflexivity|]. intros Ig HI. apply ex_in in HI as (vol & qf & ->). split; [now exists []|]. intros G [<-|[]]. destruct vol; repeat split.
Qed.
(** a field on the triangle *)
Lemma tri_field qf (x : vec) i : (i < 2)%nat -> let u := test_field (ex_kernel 2 true qf) (tri_r 2) (tab 6 x) 0 0 in
  u i 0%nat = / 3 * (x i + x (2 + i)%nat + x (4 + i)%nat) /\ u i 1%nat = x (2 + i)%nat - x i /\ u i 2%nat = x (4 + i)%nat - x i.
Proof.
  intros Hi u. unfold u, test_field, interpolate, elem_dofs. cbn [ex_kernel gk_test gk_elems nth es_n es_c es_B tri_space sumn tri_B].
  destruct i as [|[|i]]; [| |lia]; split; [|split| |split]; vm_compute nth; cbn [Nat.add]; lra.
Qed.
Definition upright_at (x : vec) : Prop := 0 < (1 + (x 2%nat - x 0%nat)) * (1 + (x 5%nat - x 1%nat)) - (x 4%nat - x 0%nat) * (x 3%nat - x 1%nat).
Lemma grad_ident u : meq 2 (grad_at 2 ident u) (fun i j => u i (S j)).
Proof.
  destruct ident_inv as (K & EK). assert (D : dim23 2) by (now left). destruct (invn_some 2 ident K D EK) as (IK & _ & _).
  assert (HK : meq 2 K ident). { intros i j Hi Hj. rewrite <- (IK i j Hi Hj). symmetry. now apply mmul_ident_l. }
  intros i j Hi Hj. unfold grad_at. rewrite EK. change (mmul 2 (fun i0 k => u i0 (S k)) K i j = u i (S j)).
  rewrite (rmul_ext 2 _ (fun i j => u i (S j)) K ident i j); [|reflexivity|intros; now apply HK]. now rewrite mmul_ident_r.
Qed.
Lemma sv_point qf x a t : upright_at x -> exists p out, solid_point 2 (SMaterial true 3 (fun (_ : unit) H => stvk 2 2 1 H)) t (tri_pos true) ident
    (test_field (ex_kernel 2 true qf) (tri_r 2) (tab 6 x) 0 0) a tt = Some p /\ point_out 2 p = Some out.
Proof.
  intros U. assert (D : dim23 2) by (now left). destruct ident_inv as (K & EK). set (u := test_field _ _ _ _ _).
  assert (EG : grad_phys 2 ident u = Some (grad_at 2 ident u)) by (unfold grad_phys, parent_to_physical, grad_at; rewrite EK; reflexivity).
  assert (PD : 0 < detn 2 (madd (grad_at 2 ident u) ident)).
  { rewrite (detn_ext 2 _ (madd (fun i j => u i (S j)) ident) D).
    2:{ intros i j Hi Hj. unfold madd. now rewrite (grad_ident u i j Hi Hj). }
    unfold detn, det2, madd, ident. cbn [Nat.eqb].
    destruct (tri_field qf x 0 ltac:(lia)) as (_ & A1 & A2). destruct (tri_field qf x 1 ltac:(lia)) as (_ & B1 & B2). fold u in A1, A2, B1, B2. rewrite A1, A2, B1, B2.
    unfold upright_at in U. cbn [Nat.add]. lra. }
  cbn [solid_point]. rewrite EG. unfold stvk, push. fold (madd (grad_at 2 ident u) ident) in *.
  assert (ED : detn 2 (defgrad (grad_at 2 ident u)) <> 0) by (unfold defgrad; lra).
  destruct (Req_EM_T (detn 2 (defgrad (grad_at 2 ident u))) 0) as [E|_]; [congruence|].
  match goal with |- context [flux 2 true ?s (grad_at 2 ident u)] => destruct (flux_defined 2 true s (grad_at 2 ident u) D (fun _ => PD)) as (P & ->) end.
  destruct (volume_out (fun i => 3 * a i 0%nat) P) as (out & Eo). eexists _, out. split; [reflexivity|exact Eo].
Qed.
Lemma sv_residual t x a : upright_at x -> solid_residual 2 sv_f t (arguments 6 no_params x a) ex_mem sv_terms ex_pos ex_jac.
Proof.
  intros U k Ig g G le q E1 E2 Hle Hq. assert (E1' := E1). assert (E2' := E2). unfold sv_f, ex_functional in E1. cbn [f_integrals] in E1. rewrite map_map in E1. cbn [fst snd] in E1.
  destruct (nth_error sv_terms k) as [T|] eqn:ET.
  2:{ apply nth_error_None in ET. rewrite (proj2 (nth_error_None _ _)) in E1; [discriminate|]. rewrite map_length. exact ET. }
  rewrite (map_nth_error _ _ _ ET) in E1. injection E1 as <-. destruct g as [|g]; [|destruct g; discriminate]. injection E2 as <-.
  cbn [ex_kernel gk_elems length gk_nq] in Hle, Hq. assert (le = 0%nat) by lia. assert (q = 0%nat) by lia. subst le q. clear Hle Hq.
  assert (HV : is_volume T = true /\ vol_of k = true) by (destruct k as [|[|k]]; [injection ET as <-; now split|injection ET as <-; now split|destruct k; discriminate]). destruct HV as [HV Hk].
  assert (E3 : nth_error (f_test sv_f (i_type (ex_integral 2 (is_volume T) (fun t0 u a0 => out_of (solid_point 2 T t0 (tri_pos (is_volume T)) (tri_jac (is_volume T)) u a0 tt))))) 0 = Some (tri_r 2)) by (rewrite HV; reflexivity).
  destruct (argument_field 2 6 sv_f no_params x a sv_spaces _ _ _ _ (tri_r 2) 0 0 E1' E2' E3) as [A0 A1]. clear E1' E2' E3.
  set (u := qf_inputs _ 0 _ 0 0 0%nat) in *. set (a' := qf_inputs _ 0 _ 0 0 1%nat) in *. unfold ex_pos, ex_jac. rewrite Hk.
  assert (EX : exists p out, solid_point 2 T t (tri_pos true) (tri_jac true) u a' tt = Some p /\ point_out 2 p = Some out).
  { destruct k as [|[|k]]; [injection ET as <-|injection ET as <-|destruct k; discriminate].
    - rewrite A0. apply sv_point. exact U.
    - destruct (volume_out (fun i => - 1 * match i with O => 0 | _ => -30 end) (fun _ _ => 0)) as (out & Eo). eexists _, out. split; [reflexivity|exact Eo]. }
  destruct EX as (p & out & Ep & Eo). exists T, p, out. split; [reflexivity|]. split; [exact Ep|]. split; [exact Eo|]. split.
  - cbn [ex_kernel gk_dim1]. destruct (is_volume T); reflexivity.
  - intros i b _ _. unfold qf_out. cbn [ex_kernel gk_qf fst]. fold u a'. unfold out_of. rewrite HV. now rewrite Ep, Eo.
Qed.
Lemma sv_forces t x a : upright_at x -> exists L, nodal_forces 2 6 sv_f ex_mem sv_terms ex_pos ex_jac no_params t x a L.
Proof.
  intros U. destruct (evaluate_spec sv_f t None false (arguments 6 no_params x a) 6 ex_mem (sv_wf x a)) as (L & E & _). exists L. split; [apply sv_wf|]. split; [now apply sv_residual|]. now exists None, false, ex_mem.
Qed.
(** the energies of the triangle *)
Lemma stvk_energy_ext A B : meq 2 A B -> energy_stvk 2 2 1 A = energy_stvk 2 2 1 B.
Proof.
  intros H. unfold energy_stvk, squared_norm, dev, green_strain, tr, mscal, msub, madd, mmul, transpose, ident. cbn [sumn]. now rewrite !H by lia.
Qed.
Definition sheared (x : vec) : mat := fun i j => x (2 * S j + i)%nat - x i.
Lemma sv_potential t x : potential 2 6 sv_f ex_mem sv_terms ex_pos ex_jac sv_psi t x = / 2 * energy_stvk 2 2 1 (sheared x) + 5 * (x 1%nat + x 3%nat + x 5%nat).
Proof.
  unfold potential, stored, load_form, over_points. cbn [f_integrals sv_f ex_functional map sv_terms length sumn nth_error is_volume ex_integral i_geoms i_type f_test ex_restr fst snd gk_elems gk_nq ex_kernel gk_w].
  cbn [stored_density load_density]. unfold ex_jac, ex_pos, sv_psi. cbn [vol_of]. change (tri_jac true) with ident. rewrite detn_ident by (now left).
  match goal with |- context [grad_at 2 ident ?u] => set (w := u) end.
  match goal with |- context [sumn 2 (fun i => _ * ?u i 0%nat)] => set (z := u) end.
  rewrite (stvk_energy_ext (grad_at 2 ident w) (sheared x)).
  - cbn [sumn].
    match goal with z := test_field (ex_kernel 2 true ?qf) _ _ _ _ |- _ => destruct (tri_field qf x 0 ltac:(lia)) as (Z0 & _); destruct (tri_field qf x 1 ltac:(lia)) as (Z1 & _) end.
    fold z in Z0, Z1. rewrite Z1. cbn [Nat.add]. field.
  - clear z. intros i j Hi Hj. rewrite (grad_ident w i j Hi Hj). unfold sheared.
    match goal with w := test_field (ex_kernel 2 true ?qf) _ _ _ _ |- _ => destruct (tri_field qf x i Hi) as (_ & W1 & W2) end. fold w in W1, W2.
    destruct j as [|[|j]]; [rewrite W1|rewrite W2|lia]; reflexivity.
Qed.
Definition forces_at (t : R) (x a : vec) : list R := match evaluate sv_f t None false (arguments 6 no_params x a) 6 ex_mem with Ok (L, _) => L | _ => [] end.
Lemma sv_forces_at t x a : upright_at x -> nodal_forces 2 6 sv_f ex_mem sv_terms ex_pos ex_jac no_params t x a (forces_at t x a).
Proof.
  intros U. destruct (evaluate_spec sv_f t None false (arguments 6 no_params x a) 6 ex_mem (sv_wf x a)) as (L & E & _). unfold forces_at. rewrite E. split; [apply sv_wf|]. split; [now apply sv_residual|].
  exists None, false, ex_mem. exact E.
Qed.

(** the second node is pulled away and comes back *)
Definition pull (s : R) : vec := fun i => if Nat.eqb i 2 then s * (1 - s) else 0.
Definition pull_rate (s : R) : vec := fun i => if Nat.eqb i 2 then 1 - 2 * s else 0.
Definition pull_energy (s : R) : R := / 2 * energy_stvk 2 2 1 (stretch (s * (1 - s)) 0).
Lemma pull_derive s : vderive 6 pull s (pull_rate s).
Proof.
  intros i _. unfold pull, pull_rate. destruct (Nat.eqb i 2); [|apply d_const]. auto_derive; [exact Logic.I|]. match goal with |- ?l = ?r => change (@eq R l r) end. ring.
Qed.
Lemma pull_upright s : -1 / 2 < s < 3 / 2 -> upright_at (pull s).
Proof. intros H. unfold upright_at, pull. cbn [Nat.eqb]. nra. Qed.
Lemma pull_potential s : potential 2 6 sv_f ex_mem sv_terms ex_pos ex_jac sv_psi 0 (pull s) = pull_energy s.
Proof.
  rewrite sv_potential. unfold pull_energy. rewrite (stvk_energy_ext (sheared (pull s)) (stretch (s * (1 - s)) 0)); [unfold pull; cbn [Nat.eqb]; ring|].
  intros i j Hi Hj. unfold sheared, pull, stretch. destruct i as [|[|i]]; [| |lia]; (destruct j as [|[|j]]; [| |lia]); cbn [Nat.add Nat.mul Nat.eqb]; ring.
Qed.
Lemma pull_energy_poly : exists c, forall s, pull_energy s = c * ((s * (1 - s) + / 2 * (s * (1 - s) * (s * (1 - s)))) * (s * (1 - s) + / 2 * (s * (1 - s) * (s * (1 - s))))).
Proof.
  exists (3 / 4). intros s. unfold pull_energy, energy_stvk, squared_norm, dev, green_strain, tr, mscal, msub, madd, mmul, transpose, ident, stretch. cbn [sumn Nat.eqb INR].
  replace 0.5 with (/ 2) by lra. field.
Qed.
Lemma pull_power s : -1 / 2 < s < 3 / 2 -> is_derive pull_energy s (dotn 6 (pull_rate s) (fun i => nth i (forces_at 0 (pull s) rest) 0)).
Proof.
  intros H. apply (is_derive_ext (fun s => potential 2 6 sv_f ex_mem sv_terms ex_pos ex_jac sv_psi 0 (pull s))); [intros; apply pull_potential|].
  refine (d_ext _ _ _ _ (slope_forces 2 6 sv_f ex_mem sv_terms ex_pos ex_jac no_params sv_psi (or_introl eq_refl) (ex_fit 2 _) sv_spaces 0 (pull s) rest _ pull (pull_rate s) s sv_elastic (sv_forces_at 0 (pull s) rest (pull_upright s H)) (pull_derive s) (fun i _ => eq_refl)) _).
  rewrite mass_rest. ring.
Qed.
Lemma pull_path tau : 0 <= tau <= 1 -> vderive 6 pull tau (pull_rate tau) /\ nodal_forces 2 6 sv_f ex_mem sv_terms ex_pos ex_jac no_params 0 (pull tau) rest (forces_at 0 (pull tau) rest) /\
  continuous (fun s => dotn 6 (pull_rate s) (fun i => nth i (forces_at 0 (pull s) rest) 0)) tau.
Proof.
  intros H. split; [apply pull_derive|]. split; [apply sv_forces_at, pull_upright; lra|].
  destruct pull_energy_poly as (c & Hc).
  pose (e := fun s => s * (1 - s) + / 2 * (s * (1 - s) * (s * (1 - s)))). pose (e' := fun s => (1 - 2 * s) * (1 + s * (1 - s))).
  assert (DE : forall s, is_derive pull_energy s (2 * c * e s * e' s)).
  { intros s. apply (is_derive_ext (fun s => c * (e s * e s))); [intros u; symmetry; apply Hc|]. unfold e, e'. auto_derive; [exact Logic.I|]. match goal with |- ?l = ?r => change (@eq R l r) end. field. }
  apply (continuous_ext_loc _ (fun s => 2 * c * e s * e' s) tau).
  - exists (mkposreal (/ 4) ltac:(lra)). intros s Hs. apply Rabs_def2 in Hs. unfold minus, plus, opp in Hs. cbn in Hs.
    rewrite <- (is_derive_unique _ _ _ (DE s)). apply is_derive_unique. apply pull_power. lra.
  - apply (ex_derive_continuous (fun s => 2 * c * e s * e' s)). unfold e, e'. auto_derive. exact Logic.I.
Qed.
(** the forces do work on the way out: the triangle has stored energy *)
Lemma pull_stores : pull 0 2%nat = 0 /\ pull 1 2%nat = 0 /\ 0 < pull_energy (1 / 2) - pull_energy 0.
Proof.
  split; [unfold pull; cbn; ring|]. split; [unfold pull; cbn; ring|]. unfold pull_energy, energy_stvk, squared_norm, dev, green_strain, tr, mscal, msub, madd, mmul, transpose, ident, stretch. cbn [sumn Nat.eqb INR]. lra.
Qed.

(** free fall *)
Definition fall (s : R) : vec := fun i => if Nat.odd i then -5 * (s * s) else 0.
Definition fall_rate (s : R) : vec := fun i => if Nat.odd i then -10 * s else 0.
Definition fall_rate2 (s : R) : vec := fun i => if Nat.odd i then -10 else 0.
Lemma fall_derive s : vderive 6 fall s (fall_rate s) /\ vderive 6 fall_rate s (fall_rate2 s).
Proof.
  split; intros i _; unfold fall, fall_rate, fall_rate2; (destruct (Nat.odd i); [|apply d_const]); (auto_derive; [exact Logic.I|]); match goal with |- ?l = ?r => change (@eq R l r) end; ring.
Qed.
Lemma fall_upright s : upright_at (fall s).
Proof. unfold upright_at, fall. cbn [Nat.odd Nat.even negb]. lra. Qed.
Lemma energy_flat A : is_derive (fun s => energy_stvk 2 2 1 (fun i j => s * A i j)) 0 0.
Proof.
  unfold energy_stvk, squared_norm, dev, green_strain, tr, mscal, msub, madd, mmul, transpose, ident. cbn [sumn Nat.eqb INR].
  generalize (A 0%nat 0%nat) (A 0%nat 1%nat) (A 1%nat 0%nat) (A 1%nat 1%nat). intros a b c d.
  auto_derive; [exact Logic.I|]. match goal with |- ?l = ?r => change (@eq R l r) end. field.
Qed.
Lemma sv_mass v a : mass_form 2 6 sv_f sv_terms ex_jac v a = / 6 * ((v 0%nat + v 2%nat + v 4%nat) * (a 0%nat + a 2%nat + a 4%nat) + (v 1%nat + v 3%nat + v 5%nat) * (a 1%nat + a 3%nat + a 5%nat)).
Proof.
  unfold mass_form, over_points. cbn [f_integrals sv_f ex_functional map sv_terms length sumn nth_error is_volume ex_integral i_geoms i_type f_test ex_restr fst snd gk_elems gk_nq ex_kernel gk_w].
  cbn [mass_density]. unfold ex_jac. cbn [vol_of]. change (tri_jac true) with ident. rewrite detn_ident by (now left). cbn [sumn].
  match goal with |- context [test_field (ex_kernel 2 true ?qf) _ _ _ _] => 
    destruct (tri_field qf v 0 ltac:(lia)) as (A0 & _); destruct (tri_field qf v 1 ltac:(lia)) as (A1 & _); destruct (tri_field qf a 0 ltac:(lia)) as (B0 & _); destruct (tri_field qf a 1 ltac:(lia)) as (B1 & _) end.
  rewrite A0, A1, B0, B1. cbn [Nat.add]. field.
Qed.
Lemma at_zero a b : a + 0 * b = a.
Proof. ring. Qed.
Lemma fall_free tau i : (i < 6)%nat -> nth i (forces_at tau (fall tau) (fall_rate2 tau)) 0 = 0.
Proof.
  intros Hi. set (L := forces_at tau (fall tau) (fall_rate2 tau)). pose (v := fun j => if Nat.eqb j i then 1 else 0).
  assert (A := slope_forces 2 6 sv_f ex_mem sv_terms ex_pos ex_jac no_params sv_psi (or_introl eq_refl) (ex_fit 2 _) sv_spaces tau (fall tau) (fall_rate2 tau) L (fun s j => fall tau j + s * v j) v 0
    sv_elastic (sv_forces_at tau (fall tau) (fall_rate2 tau) (fall_upright tau)) (line_derive 6 (fall tau) v) (fun j _ => at_zero (fall tau j) (v j))).
  assert (B : is_derive (fun s => potential 2 6 sv_f ex_mem sv_terms ex_pos ex_jac sv_psi tau (fun j => fall tau j + s * v j)) 0 (5 * (v 1%nat + v 3%nat + v 5%nat))).
  { apply (is_derive_ext (fun s => / 2 * energy_stvk 2 2 1 (fun a b => s * sheared v a b) + (-75 * (tau * tau) + 5 * (v 1%nat + v 3%nat + v 5%nat) * s))).
    - intros s. rewrite sv_potential. f_equal.
      + f_equal. apply stvk_energy_ext. intros a b Ha Hb. unfold sheared, fall. destruct a as [|[|a]]; [| |lia]; (destruct b as [|[|b]]; [| |lia]); cbn [Nat.add Nat.mul Nat.odd Nat.even negb]; ring.
      + unfold fall. cbn [Nat.odd Nat.even negb]. ring.
    - refine (d_ext _ _ _ _ (d_plus _ _ 0 _ _ (d_scal (/ 2) _ 0 0 (energy_flat (sheared v))) (d_plus (fun _ => -75 * (tau * tau)) _ 0 0 _ (d_const _ _) (d_scal (5 * (v 1%nat + v 3%nat + v 5%nat)) (fun s => s) 0 1 (is_derive_id 0)))) _). ring. }
  assert (E := eq_trans (eq_sym (is_derive_unique _ _ _ A)) (is_derive_unique _ _ _ B)). rewrite sv_mass in E.
  assert (ED : dotn 6 v (fun j => nth j L 0) = nth i L 0) by (exact (sumn_unit 6 i (fun j => nth j L 0) Hi)). rewrite ED in E.
  unfold fall_rate2 in E. cbn [Nat.odd Nat.even negb] in E. lra.
Qed.
Lemma fall_motion t1 t2 tau : t1 <= tau <= t2 -> vderive 6 fall tau (fall_rate tau) /\ vderive 6 fall_rate tau (fall_rate2 tau) /\
  nodal_forces 2 6 sv_f ex_mem sv_terms ex_pos ex_jac no_params tau (fall tau) (fall_rate2 tau) (forces_at tau (fall tau) (fall_rate2 tau)) /\
  forall i, (i < 6)%nat -> if (fun _ => true) i then nth i (forces_at tau (fall tau) (fall_rate2 tau)) 0 = 0 else fall_rate tau i = 0.
Proof.
  intros _. destruct (fall_derive tau) as [A B]. split; [exact A|]. split; [exact B|]. split; [apply sv_forces_at, fall_upright|]. exact (fall_free tau).
Qed.
Lemma sv_load t t' w : load_form 2 6 sv_f sv_terms ex_pos ex_jac t w = load_form 2 6 sv_f sv_terms ex_pos ex_jac t' w.
Proof. unfold load_form. apply over_points_ext. intros k Ig g G r le q _ _ _ _ _. destruct k as [|[|k]]; [reflexivity|reflexivity|destruct k; reflexivity]. Qed.
(** the linear elastic triangle of EnergyEx.v without loads, stretched in the first direction and free to contract in the second *)
Definition tension : vec := fun i => if Nat.eqb i 2 then 1 else if Nat.eqb i 5 then -2 / 5 else 0.
Definition el_psi (k : nat) (_ : unit) : mat -> R := energy_linear 2 2 1.
Lemma el_quadratic : quadratic 2 el_terms el_psi.
Proof.
  intros k on rho sigma st H E. destruct k as [|[|[|[|k]]]]; try discriminate; [|destruct k; discriminate]. injection E as <- <- <-. exact (linear_quadratic 2 2 1 H).
Qed.
Lemma el_stiffness v x : stiffness_form 2 6 el_f ex_mem el_terms ex_jac v x = / 2 * inner 2 2 (linear_isotropic 2 2 1 (sheared v)) (sheared x).
Proof.
  unfold stiffness_form, over_points. cbn [f_integrals el_f ex_functional map el_terms length sumn nth_error is_volume ex_integral i_geoms i_type f_test ex_restr fst snd gk_elems gk_nq ex_kernel gk_w].
  cbn [stiffness_density]. unfold ex_jac, stress_of. cbn [vol_of]. change (tri_jac true) with ident. rewrite detn_ident by (now left).
  set (w := test_field _ _ (tab 6 v) 0 0). set (z := test_field _ _ (tab 6 x) 0 0).
  assert (W : meq 2 (grad_at 2 ident w) (sheared v)).
  { intros i j Hi Hj. rewrite (grad_ident w i j Hi Hj). unfold sheared, w. match goal with |- test_field (ex_kernel 2 true ?qf) _ _ _ _ _ _ = _ => destruct (tri_field qf v i Hi) as (_ & W1 & W2) end.
    destruct j as [|[|j]]; [rewrite W1|rewrite W2|lia]; reflexivity. }
  assert (Z : meq 2 (grad_at 2 ident z) (sheared x)).
  { intros i j Hi Hj. rewrite (grad_ident z i j Hi Hj). unfold sheared, z. match goal with |- test_field (ex_kernel 2 true ?qf) _ _ _ _ _ _ = _ => destruct (tri_field qf x i Hi) as (_ & W1 & W2) end.
    destruct j as [|[|j]]; [rewrite W1|rewrite W2|lia]; reflexivity. }
  assert (S0 := proj2 (proj2 (isotropic_linear (St := unit) 2 3 2 1)) tt). destruct S0 as (S1 & _).
  assert (I0 : inner 2 2 (linear_isotropic 2 2 1 (grad_at 2 ident w)) (grad_at 2 ident z) = inner 2 2 (linear_isotropic 2 2 1 (sheared v)) (sheared x)) by (exact (inner_ext 2 _ _ _ _ (S1 _ _ W) Z)).
  rewrite I0. field.
Qed.
Lemma el_load w : load_form 2 6 el_f el_terms ex_pos ex_jac 0 w = 0.
Proof.
  unfold load_form. apply over_points_zero. intros k Ig g G r le q. destruct k as [|[|[|[|k]]]]; cbn [nth_error el_terms load_density]; [reflexivity| | | |destruct k; reflexivity]; cbn [sumn]; ring.
Qed.
Lemma tension_equilibrium : exists L, nodal_forces 2 6 el_f ex_mem el_terms ex_pos ex_jac no_params 0 tension rest L /\ (forall i, (i < 6)%nat -> Nat.eqb i 5 = true -> nth i L 0 = 0) /\
  0 < potential 2 6 el_f ex_mem el_terms ex_pos ex_jac el_psi 0 tension.
Proof.
  destruct (evaluate_spec el_f 0 None false (arguments 6 no_params tension rest) 6 ex_mem (el_wf tension rest)) as (L & E & _). exists L. split; [|split].
  - split; [apply el_wf|]. split; [apply el_residual|]. now exists None, false, ex_mem.
  - intros i Hi Ei. apply Nat.eqb_eq in Ei. subst i. pose (e := fun j => if Nat.eqb j 5 then 1 else 0).
    assert (B := solid_balance 2 6 el_f ex_mem el_terms ex_pos ex_jac no_params (or_introl eq_refl) el_linear 0 tension rest L ex_mem None false (el_wf tension rest) (ex_fit 2 _) el_spaces (el_residual 0 tension rest) E e).
    rewrite mass_rest, <- load_expand, el_load, el_stiffness in B. assert (ED : dotn 6 e (fun j => nth j L 0) = nth 5 L 0) by (exact (sumn_unit 6 5 (fun j => nth j L 0) Hi)). rewrite ED in B. rewrite B.
    unfold inner, linear_isotropic, iso_stress, lame, madd, mscal, small_strain, tr, ident, sheared, tension, e. cbn [sumn Nat.eqb Nat.add Nat.mul]. unfold mscal, madd, transpose. cbn [Nat.eqb Nat.add Nat.mul]. lra.
  - unfold potential. rewrite el_load, (stored_quadratic 2 6 el_f ex_mem el_terms ex_jac el_psi tension el_quadratic), el_stiffness.
    unfold inner, linear_isotropic, iso_stress, lame, madd, mscal, small_strain, tr, ident, sheared, tension. cbn [sumn Nat.eqb Nat.add Nat.mul]. unfold mscal, madd, transpose. cbn [Nat.eqb Nat.add Nat.mul]. lra.
Qed.

Theorem stretched_triangle : dim23 2 /\ all_fit sv_f /\ two_spaces 2 sv_f /\ elastic 2 sv_terms sv_psi /\
  (forall tau, Rmin 0 1 <= tau <= Rmax 0 1 -> vderive 6 pull tau (pull_rate tau) /\ nodal_forces 2 6 sv_f ex_mem sv_terms ex_pos ex_jac no_params 0 (pull tau) rest (forces_at 0 (pull tau) rest) /\
     continuous (fun s => dotn 6 (pull_rate s) (fun i => nth i (forces_at 0 (pull s) rest) 0)) tau) /\
  (forall i, (i < 6)%nat -> pull 1 i = pull 0 i) /\
  potential 2 6 sv_f ex_mem sv_terms ex_pos ex_jac sv_psi 0 (pull 0) < potential 2 6 sv_f ex_mem sv_terms ex_pos ex_jac sv_psi 0 (pull (1 / 2)).
Proof.
  split; [now left|]. split; [apply ex_fit|]. split; [exact sv_spaces|]. split; [exact sv_elastic|]. split; [|split].
  - intros tau H. rewrite Rmin_left, Rmax_right in H by lra. exact (pull_path tau H).
  - intros i _. unfold pull. destruct (Nat.eqb i 2); ring.
  - rewrite !pull_potential. destruct pull_stores as (_ & _ & H). lra.
Qed.
Theorem falling_triangle : elastic 2 sv_terms sv_psi /\ (forall tau w, 0 <= tau <= 2 -> load_form 2 6 sv_f sv_terms ex_pos ex_jac tau w = load_form 2 6 sv_f sv_terms ex_pos ex_jac 0 w) /\
  (forall tau, 0 <= tau <= 2 -> vderive 6 fall tau (fall_rate tau) /\ vderive 6 fall_rate tau (fall_rate2 tau) /\
     nodal_forces 2 6 sv_f ex_mem sv_terms ex_pos ex_jac no_params tau (fall tau) (fall_rate2 tau) (forces_at tau (fall tau) (fall_rate2 tau)) /\
     forall i, (i < 6)%nat -> if (fun _ => true) i then nth i (forces_at tau (fall tau) (fall_rate2 tau)) 0 = 0 else fall_rate tau i = 0) /\
  0 < kinetic 2 6 sv_f sv_terms ex_jac (fall_rate 2) /\ fall 2 1%nat = -20.
Proof.
  split; [exact sv_elastic|]. split; [intros; apply sv_load|]. split; [intros tau H; exact (fall_motion 0 2 tau H)|]. split.
  - unfold kinetic. rewrite sv_mass. unfold fall_rate. cbn [Nat.odd Nat.even negb]. lra.
  - unfold fall. cbn [Nat.odd Nat.even negb]. lra.
Qed.
Theorem tension_triangle : dim23 2 /\ all_fit el_f /\ two_spaces 2 el_f /\ List.Forall (linear_elastic 2) el_terms /\ quadratic 2 el_terms el_psi /\ oriented 2 el_f el_terms ex_jac /\ positive 2 el_terms /\
  exists L, nodal_forces 2 6 el_f ex_mem el_terms ex_pos ex_jac no_params 0 tension rest L /\ (forall i, (i < 6)%nat -> Nat.eqb i 5 = true -> nth i L 0 = 0) /\
    0 < potential 2 6 el_f ex_mem el_terms ex_pos ex_jac el_psi 0 tension.
Proof.
  split; [now left|]. split; [apply ex_fit|]. split; [exact el_spaces|]. split; [exact el_linear|]. split; [exact el_quadratic|]. split; [exact el_oriented|]. split; [exact el_positive|]. exact tension_equilibrium.
Qed.
Theorem mixed_laws : exists rho K G, 0 < rho /\ 0 < K /\ 0 < G /\ ~ exists psi, stores 2 (SMaterial true rho (fun (_ : unit) H => Some (linear_isotropic 2 K G H))) psi.
Proof. exists 1, 2, 1. split; [lra|]. split; [lra|]. split; [lra|]. apply (small_strain_stores_nothing unit tt). unfold lame. lra. Qed.

(** * A linear elastic triangle and a spring: non-vacuity witnesses for C68 *)
From Coq Require Import NArith ZArith Reals List Lia Lra Bool.
From Verif Require Import Prelude DofCodec Sums Restriction Kernels FunctionalModel Assembly Tensor MatAlg Materials MaterialFacts ShapeAware WeakForm WeakFormFacts WeakFormPhysics WeakFormWork WeakFormEx Fit Ode OdeEx Energy EnergySolid EnergyRun.
Import ListNotations.
Local Open Scope R_scope.

(** ** a linear elastic term can always be evaluated on a regular element *)
Lemma elastic_point_ok {St} n (T : solid_term St) t X J u a st : dim23 n -> linear_elastic n T -> (is_volume T = true -> detn n J <> 0) -> (is_volume T = false -> vnorm n (crossn n J) <> 0) ->
  exists p out, solid_point n T t X J u a st = Some p /\ point_out n p = Some out.
Proof.
  intros D LE HJ HS.
  assert (VO : detn n J <> 0 -> forall s P, exists out, point_out n (Volume J s P) = Some out).
  { intros NZ s P. destruct (invn_works n (transpose J) D) as (K & E); [rewrite detn_transpose by exact D; exact NZ|]. unfold point_out, physical_to_parent. rewrite E. eauto. }
  destruct T as [on rho sigma|b|tr|on pr]; cbn [solid_point is_volume linear_elastic] in *.
  - destruct LE as (-> & Hs & _). specialize (HJ eq_refl). destruct (invn_works n J D HJ) as (K & EK). unfold grad_phys, parent_to_physical. rewrite EK. cbn [snd].
    set (H := mmul n _ K). destruct (sigma st H) as [s|] eqn:Es; [|destruct (Hs st H Es)].
    unfold flux. destruct (invn_works n (madd (mscal 0 H) ident) D) as (B & EB).
    { rewrite (detn_ext n _ ident D) by (intros i j _ _; unfold madd, mscal; ring). rewrite detn_ident by exact D. lra. }
    rewrite EB. destruct (VO HJ (fun i => rho * a i 0%nat) (mscal (detn n (madd (mscal 0 H) ident)) (mmul n s (transpose B)))) as (out & Eo). eexists _, out. split; [reflexivity|exact Eo].
  - destruct (VO (HJ eq_refl) (fun i => - 1 * b X t i) (fun _ _ => 0)) as (out & Eo). eexists _, out. split; [reflexivity|exact Eo].
  - destruct (Req_EM_T (vnorm n (crossn n J)) 0) as [E|_]; [destruct (HS eq_refl E)|]. eexists _, _. split; reflexivity.
  - destruct (Req_EM_T (vnorm n (crossn n J)) 0) as [E|_]; [destruct (HS eq_refl E)|]. eexists _, _. split; reflexivity.
Qed.

Definition el_terms : list (solid_term unit) :=
  [SMaterial false 3 (fun _ H => Some (linear_isotropic 2 2 1 H)); SBody (fun X t i => t * X i); STraction (fun X nu t i => t * nu i); SPressure false (fun X t => 5 * t)].
Definition el_f : functional unit :=
  ex_functional 2 (map (fun T => (is_volume T, fun t u a => out_of (solid_point 2 T t (tri_pos (is_volume T)) (tri_jac (is_volume T)) u a tt))) el_terms).
Definition no_params (w : nat) : list R := repeat 0 6.

Lemma el_linear : List.Forall (linear_elastic 2) el_terms.
Proof. repeat constructor. all: exact (proj2 (proj2 (isotropic_linear (St := unit) 2 3 2 1)) tt) || discriminate || idtac. all: try apply (proj2 (proj2 (isotropic_linear (St := unit) 2 3 2 1))). Qed.
Lemma el_wf x a : wf el_f 6 (fun w => length (arguments 6 no_params x a w)).
Proof. apply (ex_wf 2 _ (arguments 6 no_params x a)); [lia|]. intros [|[|w]]; cbn [arguments]; [apply tab_length|apply tab_length|apply repeat_length]. Qed.
Lemma el_spaces : two_spaces 2 el_f.
Proof.
  split; [intros dt; split; reflexivity|]. intros Ig HI. apply ex_in in HI as (vol & qf & ->). split; [now exists []|]. intros G [<-|[]]. destruct vol; repeat split.
Qed.
Lemma el_residual t x a : solid_residual 2 el_f t (arguments 6 no_params x a) ex_mem el_terms ex_pos ex_jac.
Proof.
  intros k Ig g G le q E1 E2 Hle Hq. unfold el_f, ex_functional in E1. cbn [f_integrals] in E1. rewrite map_map in E1. cbn [fst snd] in E1.
  destruct (nth_error el_terms k) as [T|] eqn:ET.
  2:{ apply nth_error_None in ET. rewrite (proj2 (nth_error_None _ _)) in E1; [discriminate|]. rewrite map_length. exact ET. }
  rewrite (map_nth_error _ _ _ ET) in E1. injection E1 as <-. destruct g as [|g]; [|destruct g; discriminate]. injection E2 as <-.
  cbn [ex_kernel gk_elems length gk_nq] in Hle, Hq. assert (le = 0%nat) by lia. assert (q = 0%nat) by lia. subst le q. clear Hle Hq.
  assert (Hvol : vol_of k = is_volume T). { destruct k as [|[|[|[|k]]]]; injection ET as <- || destruct k; try reflexivity; discriminate. }
  set (u := qf_inputs _ 0 _ 0 0 0%nat). set (a' := qf_inputs _ 0 _ 0 0 1%nat). unfold ex_pos, ex_jac. rewrite Hvol.
  destruct (elastic_point_ok 2 T t (tri_pos (is_volume T)) (tri_jac (is_volume T)) u a' tt) as (p & out & Ep & Eo).
  - now left.
  - exact (proj1 (Forall_forall _ _) el_linear T (nth_error_In _ _ ET)).
  - intros ->. unfold tri_jac. rewrite detn_ident by (now left). lra.
  - intros ->. rewrite edge_norm. lra.
  - exists T, p, out. split; [reflexivity|]. split; [exact Ep|]. split; [exact Eo|]. split.
    + cbn [ex_kernel gk_dim1]. destruct (is_volume T); reflexivity.
    + intros i b _ _. unfold qf_out. cbn [ex_kernel gk_qf fst]. fold u a'. unfold out_of. now rewrite Ep, Eo.
Qed.
Lemma el_oriented : oriented 2 el_f el_terms ex_jac.
Proof.
  intros k Ig g G le q E1 E2 Hle Hq on rho sigma ET. destruct k as [|[|[|[|k]]]]; try discriminate; [|destruct k; discriminate]. injection E1 as <-.
  destruct g as [|g]; [|destruct g; discriminate]. injection E2 as <-. change (0 <= (/ 2) * detn 2 ident). rewrite detn_ident by (now left). lra.
Qed.
Lemma el_positive : positive 2 el_terms.
Proof.
  intros on rho sigma [H|[H|[H|[H|[]]]]]; try discriminate. injection H as <- <- <-. split; [lra|]. intros st A. unfold stress_of. apply isotropic_positive; [now left|lra|lra].
Qed.
Theorem elastic_triangle : linear_motion (elastic_problem 6 el_f ex_mem no_params (fun i => negb (Nat.eqb i 2)) (fun _ _ => 0)) (mass_form 2 6 el_f el_terms ex_jac) (stiffness_form 2 6 el_f ex_mem el_terms ex_jac) (load_vector 2 6 el_f el_terms ex_pos ex_jac).
Proof.
  apply elastic_motion; [now left|exact el_linear|exact el_wf|apply ex_fit|exact el_spaces|exact el_residual].
Qed.

(** ** a system with one free degree of freedom has a solver *)
Definition unit_at (i : nat) : vec := fun j => if Nat.eqb j i then 1 else 0.
Definition one_free_solver (m k : vec -> vec -> R) (f : R -> vec) (i : nat) (t c0 : R) (u guess : vec) : vec :=
  let s := (dotn (S i) (unit_at i) (f t) - m (unit_at i) guess - k (unit_at i) (vadd c0 u guess)) / (m (unit_at i) (unit_at i) + c0 * k (unit_at i) (unit_at i)) in
  fun j => guess j + s * unit_at i j.
Lemma dot_unit n i y : (i < n)%nat -> dotn n (unit_at i) y = y i.
Proof.
  intros Hi. unfold dotn, unit_at. rewrite (sumn_ext n _ (fun j => if Nat.eqb j i then y j else 0)) by (intros j _; destruct (Nat.eqb j i); ring). now apply (sumn_delta n i y).
Qed.
Lemma one_free_solves p m k f i : symmetric_form (p_n p) m -> symmetric_form (p_n p) k -> linear_motion p m k f -> (i < p_n p)%nat -> (forall j, p_ess p j = negb (Nat.eqb j i)) ->
  0 < m (unit_at i) (unit_at i) -> 0 <= k (unit_at i) (unit_at i) -> solves p (one_free_solver m k f i).
Proof.
  intros Bm Bk L Hi Es Pm Pk t c0 u guess Hc. split.
  - intros j Hj E. rewrite Es in E. destruct (Nat.eqb_spec j i) as [|Nj]; [discriminate|]. unfold one_free_solver. cbv zeta. set (s := _ / _).
    unfold unit_at. rewrite (proj2 (Nat.eqb_neq j i) Nj). ring.
  - intros j Hj E. rewrite Es in E. destruct (Nat.eqb_spec j i) as [->|]; [|discriminate]. clear E.
    rewrite <- (dot_unit (p_n p) i _ Hi). rewrite L. rewrite dot_unit by exact Hi. unfold one_free_solver. rewrite dot_unit by lia. cbv zeta. set (e := unit_at i).
    set (s := _ / _). rewrite (ext_r _ m Bm e _ (fun j => 1 * guess j + s * e j)) by (intros; ring). rewrite (comb2_r _ m Bm).
    rewrite (ext_r _ k Bk e _ (fun j => 1 * (vadd c0 u guess) j + c0 * s * e j)) by (intros; unfold vadd; ring). rewrite (comb2_r _ k Bk).
    assert (P : 0 < m e e + c0 * k e e) by (assert (0 <= c0 * k e e) by (now apply Rmult_le_pos); unfold e in *; lra).
    unfold s. field. lra.
Qed.
Lemma el_mass : mass_form 2 6 el_f el_terms ex_jac (unit_at 2) (unit_at 2) = / 6.
Proof.
  unfold mass_form, over_points. cbn [el_f ex_functional f_integrals map el_terms length is_volume fst snd sumn nth_error ex_integral i_geoms i_type f_test ex_restr ex_kernel gk_elems gk_nq gk_w].
  cbn [mass_density]. unfold ex_jac. cbn [vol_of tri_jac]. rewrite detn_ident by (now left).
  unfold test_field, interpolate, elem_dofs. cbn [gk_test ex_kernel es_n es_c tri_space gk_elems nth sumn es_B tri_B].
  vm_compute (gatherF _ _). cbn [nth Nat.add Nat.mul]. lra.
Qed.
Theorem elastic_triangle_all : dim23 2 /\ List.Forall (linear_elastic 2) el_terms /\ (forall x a, wf el_f 6 (fun w => length (arguments 6 no_params x a w))) /\ all_fit el_f /\ two_spaces 2 el_f /\
  (forall t x a, solid_residual 2 el_f t (arguments 6 no_params x a) ex_mem el_terms ex_pos ex_jac) /\ oriented 2 el_f el_terms ex_jac /\ positive 2 el_terms /\
  exists solver, solves (elastic_problem 6 el_f ex_mem no_params (fun i => negb (Nat.eqb i 2)) (fun _ _ => 0)) solver.
Proof.
  split; [now left|]. split; [exact el_linear|]. split; [exact el_wf|]. split; [apply ex_fit|]. split; [exact el_spaces|]. split; [exact el_residual|]. split; [exact el_oriented|]. split; [exact el_positive|].
  eexists. apply (one_free_solves (elastic_problem 6 el_f ex_mem no_params (fun i => negb (Nat.eqb i 2)) (fun _ _ => 0)) _ _ _ 2 (mass_symmetric 2 6 el_f el_terms ex_jac) (stiffness_symmetric 2 6 el_f ex_mem el_terms ex_jac el_linear) elastic_triangle).
  - cbn. lia.
  - reflexivity.
  - rewrite el_mass. lra.
  - apply (stiffness_nonneg 2 6 el_f ex_mem el_terms ex_jac el_oriented el_positive).
Qed.
Theorem elastic_triangle_momentum : dead_loads el_terms /\ layout el_f byVDIM 3 2 /\ unity el_f.
Proof.
  split; [|split; [apply ex_layout; lia|apply ex_unity]]. intros on p [H|[H|[H|[H|[]]]]]; try discriminate. now injection H.
Qed.

(** ** a spring *)
Definition spring_form (x y : vec) : R := x 0%nat * y 0%nat.
Theorem spring_all : solves spring spring_solver /\ extensional spring /\ symmetric_form (p_n spring) spring_form /\ linear_motion spring spring_form spring_form (fun _ _ => 0) /\
  nonnegative spring_form /\ unloaded (fun _ _ => 0) /\ fixed spring (fun _ => 0) /\ forall t x, begins spring None t t x.
Proof.
  split; [exact spring_solves|]. split; [exact spring_extensional|]. split; [|split; [|split; [|split; [|split]]]].
  - constructor; unfold spring_form; intros; cbn [p_n spring] in *; try ring. now rewrite H by lia.
  - intros t x a h. unfold dotn, spring_form. cbn [p_n spring sumn p_res]. ring.
  - intros x. apply Rle_0_sqr.
  - intros t i. reflexivity.
  - intros t i _ _. reflexivity.
  - intros t x. split; [reflexivity|]. intros i _ H. discriminate H.
Qed.
(** central differences with a step of 3 *)
Theorem central_unstable : exists p solver m k f x v states, solves p solver /\ extensional p /\ symmetric_form (p_n p) m /\ symmetric_form (p_n p) k /\ linear_motion p m k f /\
  unloaded f /\ nonnegative m /\ nonnegative k /\ begins p None 0 0 x /\ newmark_run p solver 0 (1 / 2) RateControl None 0 0 x v [3; 3] = Some states /\
  let '(x', v', _) := last states (x, v, x) in energy m k x' v' > 100 * energy m k x v.
Proof.
  destruct spring_all as (S1 & S2 & S3 & S4 & S5 & S6 & S7 & S8).
  set (x := (fun _ => 1) : vec). set (v := (fun _ => 0) : vec).
  destruct (begin_motion spring spring_solver S1 S2 RateControl None 0 0 x v (S8 0 x)) as (a0 & B & M).
  destruct (newmark_run_rate spring spring_solver S1 S2 0 (1 / 2) [3; 3]) with (mem := @None vec) (told := 0) (t := 0) (x := x) (v := v) (a0 := a0) as (st & E & T); [lra|repeat constructor; lra|exact B|].
  exists spring, spring_solver, spring_form, spring_form, (fun _ _ => 0), x, v, st. do 9 (split; [assumption || apply S8|]). split; [exact E|].
  destruct st as [|[[x1 v1] a1] [|[[x2 v2] a2] [|? ?]]]; cbn [trajectory] in T; try tauto. destruct T as (R1 & M1 & _ & R2 & M2 & _).
  assert (Z : (0 < p_n spring)%nat) by (cbn; lia). specialize (M 0%nat Z eq_refl). specialize (M1 0%nat Z eq_refl). specialize (M2 0%nat Z eq_refl).
  destruct (R1 0%nat Z) as [X1 V1]. destruct (R2 0%nat Z) as [X2 V2]. cbn [spring p_res] in M, M1, M2. unfold x, v in *. cbn [last]. unfold energy, spring_form.
  assert (A0 : a0 0%nat = -1) by lra. rewrite A0 in *. assert (EX1 : x1 0%nat = -7 / 2) by lra. rewrite EX1 in *. assert (A1 : a1 0%nat = 7 / 2) by lra. rewrite A1 in *.
  assert (EV1 : v1 0%nat = 15 / 4) by lra. rewrite EV1 in *. assert (EX2 : x2 0%nat = 47 / 2) by lra. rewrite EX2 in *. assert (A2 : a2 0%nat = -47 / 2) by lra. rewrite A2 in *.
  assert (EV2 : v2 0%nat = -105 / 4) by lra. rewrite EV2. lra.
Qed.

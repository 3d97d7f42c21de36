(** * The stiffness matrix of a supported linear elastic body is positive definite, and one Newton step solves the problem (C92)
    The matrix is the one assembled from integrands written with dual numbers (Assembly.v, TracedSolid.v, solid_mechanics.hpp:1179-1214) with
    the essential degrees of freedom eliminated (BoundaryElim.v); the Newton step is [x - d] with [A d = r] (equation_solver.cpp:59-194, Newton.v). *)
From Coq Require Import NArith ZArith Reals List Lia Lra Bool FunctionalExtensionality.
From Coquelicot Require Import Coquelicot.
From Verif Require Import Prelude DofCodec Sums Restriction Csr Kernels FunctionalModel FunctionalGrad FunctionalTotal Assembly Dual LUDeriv Tensor MatAlg Materials MaterialFacts ShapeAware WeakForm WeakFormFacts WeakFormPhysics WeakFormWork Fit Ode Energy EnergySolid EnergyRun StoredEnergy StoredEnergyUse.
From Verif Require Import BoundaryElim Newton QuasiStatic Traced TracedSolid TracedSolidEx StiffBody HeatUnique.
Import ListNotations.
Local Open Scope R_scope.

(** ** specification *)
(** linear elastic material with positive moduli in the undeformed geometry, loads which do not follow the deformation *)
Definition linear_integrand (T : integrand) : Prop :=
  match T with IMaterial on _ (ELinear K G) => on = false /\ 0 < K /\ 0 < G | IMaterial _ _ _ => False | IPressure on _ => on = false | _ => True end.
(** elements are not degenerate; those with material are not inverted *)
Definition regular_elements {St} (n : nat) (f : functional St) (terms : list integrand) (jac : nat -> nat -> nat -> nat -> mat) : Prop :=
  forall k Ig g G le q T, nth_error (f_integrals f) k = Some Ig -> nth_error (i_geoms Ig) g = Some G -> (le < length (gk_elems G))%nat -> (q < gk_nq G)%nat -> nth_error terms k = Some T ->
  match T with IMaterial _ _ _ => 0 < gk_w G q * detn n (jac k g le q) | IBody _ => detn n (jac k g le q) <> 0 | _ => vnorm n (crossn n (jac k g le q)) <> 0 end.
Definition as_terms {St} (n : nat) (terms : list integrand) : list (solid_term St) := map (fun T => term_of n T 0 0) terms.
(** the product of a matrix and a vector against the vector *)
Definition quadratic_form (N : nat) (A : mat) (v : vec) : R := sumn N (fun i => v i * mvec N A v i).
Definition positive_definite (N : nat) (A : mat) : Prop := forall v, (exists i, (i < N)%nat /\ v i <> 0) -> 0 < quadratic_form N A v.

Lemma form_entries N b (B : symmetric_form N b) v w : b v w = sumn N (fun i => v i * sumn N (fun j => b (unit i) (unit j) * w j)).
Proof.
  rewrite (form_expand N b B). apply sumn_ext. intros i Hi. f_equal. rewrite (form_sym N b B), (form_expand N b B). apply sumn_ext. intros j Hj. rewrite (form_sym N b B (unit j)). ring.
Qed.
Section Linear.
Context {St : Type} (n N : nat) (f : functional St) (terms : list integrand) (pos : nat -> nat -> nat -> nat -> vec) (jac : nat -> nat -> nat -> nat -> mat)
  (c : csr) (tsize : nat -> nat) (others : nat -> list R) (m : mem St).
Hypothesis (D : dim23 n) (F : all_fit f) (TS : two_spaces n f) (R0 : ready f N c tsize) (Fo : fitting tsize others) (HA : tsize 1%nat = N) (A0 : forall i, nth i (others 0%nat) 0 = 0)
  (W : solid_traced n f terms pos jac) (LI : List.Forall linear_integrand terms) (RE : regular_elements n f terms jac).
Notation params := (fun w => others (w - 1)%nat).
Notation sterms := (as_terms (St := St) n terms).
Notation K := (stiffness_form n N f m sterms jac).

Lemma args_rest y : arguments N params y rest = inputs others (tab N y).
Proof.
  apply functional_extensionality. intros [|[|w]]; cbn [arguments inputs]; [reflexivity| |f_equal; lia].
  apply (nth_ext _ _ 0 0); [rewrite tab_length, Fo; now rewrite HA|]. intros i Hi. rewrite tab_length in Hi. rewrite nth_tab by exact Hi. now rewrite A0.
Qed.
Lemma all_upright u : no_inverted_points n f (inputs others u) terms jac.
Proof.
  intros k Ig g G e q T E1 E2 He Hq ET. assert (R := RE k Ig g G e q T E1 E2 He Hq ET). assert (L := proj1 (Forall_forall _ _) LI T (nth_error_In _ _ ET)).
  destruct T as [on rho mt|b|tr|on p]; cbn [point_upright] in *; try exact R. destruct mt; try contradiction. destruct L as (-> & _). cbn [small negb orb]. intros Z. rewrite Z in R. lra.
Qed.
Lemma same_term T a b : linear_integrand T -> term_of (St := St) n T a b = term_of n T 0 0.
Proof. destruct T as [on rho [| | | |]|bf|tr|on p]; cbn [linear_integrand]; intros L; try contradiction; reflexivity. Qed.
Lemma sterm k T : nth_error terms k = Some T -> nth_error sterms k = Some (term_of n T 0 0).
Proof. intros E. unfold as_terms. exact (map_nth_error _ _ _ E). Qed.
Lemma term_s k (T : solid_term St) : nth_error sterms k = Some T -> exists T0, nth_error terms k = Some T0 /\ T = term_of n T0 0 0.
Proof.
  intros E. destruct (nth_error terms k) as [T0|] eqn:ET.
  - rewrite (sterm k T0 ET) in E. injection E as <-. now exists T0.
  - apply nth_error_None in ET. assert (nth_error sterms k = None) by (apply nth_error_None; unfold as_terms; now rewrite map_length). congruence.
Qed.
Lemma residual_s t y : solid_residual n f t (arguments N params y rest) m sterms pos jac.
Proof.
  rewrite args_rest. intros k Ig g G le q E1 E2 Hle Hq. destruct (W k Ig g G E1 E2) as (T & ET & Ed & _).
  assert (L := proj1 (Forall_forall _ _) LI T (nth_error_In _ _ ET)).
  destruct (upright_defined n f t _ m terms pos jac D (all_upright (tab N y)) k Ig g G le q T E1 E2 Hle Hq ET) as (p & out & EP & EO).
  exists (term_of n T 0 0), p, out. split; [now apply sterm|]. split; [now rewrite same_term in EP|]. split; [exact EO|].
  assert (Edim : gk_dim1 G = (if is_volume (term_of (St := St) n T 0 0) then S n else n)) by (rewrite Ed; destruct T; cbn [columns term_of is_volume]; try reflexivity; destruct D; subst; reflexivity).
  split; [exact Edim|]. intros i b Hi Hb. rewrite Ed in Hb. exact (solid_values n f t _ m terms pos jac k Ig g G le q T p out i b D W E1 E2 ET EP EO Hi ltac:(lia)).
Qed.
Lemma forces_s t y : exists L, force f N t others m (tab N y) L /\ nodal_forces n N f m sterms pos jac params t y rest L.
Proof.
  destruct (evaluate_quiet f N c tsize R0 t None others (tab N y) m m Fo (tab_length _ _) (fun _ _ _ _ => eq_refl)) as (L & m' & E & _). exists L. split; [now exists m'|].
  split; [rewrite args_rest; exact (wf_inputs f N c tsize R0 others _ Fo (tab_length _ _))|]. split; [apply residual_s|]. exists None, false, m'. rewrite args_rest. exact E.
Qed.
Lemma linear_s : List.Forall (linear_elastic n) sterms.
Proof.
  apply Forall_forall. intros T HT. apply in_map_iff in HT as (T0 & <- & HI). assert (L := proj1 (Forall_forall _ _) LI T0 HI).
  destruct T0 as [on rho [Ko Go| | | |]|bf|tr|on p]; cbn [linear_integrand] in L; try contradiction; cbn [term_of]; try exact Logic.I; [|exact L]. destruct L as (-> & _). apply isotropic_linear.
Qed.
Lemma solid_s : solid_elements n f sterms jac.
Proof.
  intros k Ig g G le q E1 E2 Hle Hq on rho sigma ET. destruct (term_s k _ ET) as (T0 & E0 & EQ). assert (R := RE k Ig g G le q T0 E1 E2 Hle Hq E0). destruct T0; try discriminate. exact R.
Qed.
Lemma stiff_s : stiff n sterms.
Proof.
  intros on rho sigma HT. apply in_map_iff in HT as (T0 & EQ & HI). assert (L := proj1 (Forall_forall _ _) LI T0 HI). destruct T0 as [on0 rho0 [Ko Go| | | |]|bf|tr|on0 p]; cbn [linear_integrand] in L; try contradiction; try discriminate.
  injection EQ as <- <- <-. destruct L as (_ & PK & PG). exact (isotropic_stiff St n Ko Go D PK PG).
Qed.
Let KS : symmetric_form N K := stiffness_symmetric n N f m sterms jac linear_s.
Lemma EV_s t y : exists L, nodal_forces n N f m sterms pos jac params t y rest L.
Proof. destruct (forces_s t y) as (L & _ & H). now exists L. Qed.

(** the assembled matrix does not depend on the displacement: it holds the strain energy *)
Theorem assembled_stiffness t u A : length u = N -> tangent f N c t others m u A -> forall i j, (i < N)%nat -> (j < N)%nat -> A i j = K (unit i) (unit j).
Proof.
  intros Hu HT i j Hi Hj. set (x := fun i => nth i u 0). set (y := fun s i => x i + s * unit j i).
  set (L := fun s => match evaluate f t None false (inputs others (tab N (y s))) N m with Ok (l, _) => l | _ => [] end).
  assert (FL : forall s, force f N t others m (tab N (y s)) (L s)).
  { intros s. destruct (forces_s t (y s)) as (l & (m' & E) & _). unfold L. rewrite E. now exists m'. }
  assert (NF : forall s, nodal_forces n N f m sterms pos jac params t (y s) rest (L s)).
  { intros s. destruct (forces_s t (y s)) as (l & (m' & E) & H). unfold L. now rewrite E. }
  assert (Q : is_derive (fun s : R => nth i (L s) 0) 0 (mvec N A (entries (tab N (unit j))) i)).
  { apply (solid_tangent n f terms pos jac N c tsize t others m u (tab N (unit j)) A L i D R0 Fo Hu (tab_length _ _) W (all_upright u) HT); [|exact Hi].
    intros s. assert (FS := FL s). replace (tab N (fun k => nth k u 0 + s * nth k (tab N (unit j)) 0)) with (tab N (y s)); [exact FS|].
    apply tab_ext. intros k Hk. unfold y, x. now rewrite nth_tab. }
  assert (E : forall s, nth i (L s) 0 = (K (unit i) x - load_vector n N f sterms pos jac t i) + s * K (unit i) (unit j)).
  { intros s. rewrite (force_entry n N f m sterms pos jac params D linear_s F TS t (y s) (L s) i (NF s) Hi). unfold y. rewrite (form_comb_r N K KS). ring. }
  assert (Q2 : is_derive (fun s : R => nth i (L s) 0) 0 (K (unit i) (unit j))).
  { apply (is_derive_ext (fun s => (K (unit i) x - load_vector n N f sterms pos jac t i) + s * K (unit i) (unit j))); [intros s; symmetry; apply E|].
    auto_derive; [exact Logic.I|]. match goal with |- ?l = ?r => change (@eq R l r) end. ring. }
  rewrite <- (is_derive_unique _ _ _ Q2), (is_derive_unique _ _ _ Q). symmetry. unfold mvec. rewrite (sumn_ext N _ (fun k => if Nat.eqb k j then A i k else 0)).
  - exact (sumn_delta N j (fun k => A i k) Hj).
  - intros k Hk. unfold entries. rewrite nth_tab by exact Hk. unfold unit. destruct (Nat.eqb k j); ring.
Qed.

(** what is left after elimination *)
Definition at_free (d : dofset) (v : vec) : vec := fun i => if d i then 0 else v i.
Lemma free_row A d v i : (forall i j, (i < N)%nat -> (j < N)%nat -> A i j = K (unit i) (unit j)) -> (i < N)%nat -> mvec N (eliminate d A) v i = if d i then v i else K (unit i) (at_free d v).
Proof.
  intros HE Hi. unfold mvec, eliminate. destruct (d i) eqn:Di; cbn [orb].
  - rewrite (sumn_ext N _ (fun j => if Nat.eqb j i then v j else 0)); [exact (sumn_delta N i v Hi)|]. intros j Hj. rewrite (Nat.eqb_sym j i). destruct (Nat.eqb i j); ring.
  - rewrite (form_sym N K KS), (form_expand N K KS). apply sumn_ext. intros j Hj. unfold at_free. destruct (d j) eqn:Dj.
    + destruct (Nat.eqb_spec i j) as [->|]; [congruence|ring].
    + rewrite HE by assumption. rewrite (form_sym N K KS (unit j)). ring.
Qed.
Lemma eliminated_form A d v : (forall i j, (i < N)%nat -> (j < N)%nat -> A i j = K (unit i) (unit j)) ->
  quadratic_form N (eliminate d A) v = sumn N (fun i => if d i then v i * v i else 0) + K (at_free d v) (at_free d v).
Proof.
  intros HE. rewrite (form_expand N K KS), <- sumn_plus. unfold quadratic_form. apply sumn_ext. intros i Hi. rewrite (free_row A d v i HE Hi). unfold at_free at 2. destruct (d i); ring.
Qed.
(** positive definite exactly when the body is supported *)
Theorem definite_supported t u A d : length u = N -> tangent f N c t others m u A -> (supported n N f sterms jac (fun i => negb (d i)) <-> positive_definite N (eliminate d A)).
Proof.
  intros Hu HT. assert (HE := assembled_stiffness t u A Hu HT). assert (ED := energy_definite n N f m sterms jac solid_s stiff_s). split.
  - intros SU v (i & Hi & NZ). rewrite (eliminated_form A d v HE).
    assert (P1 : forall j, (j < N)%nat -> 0 <= (if d j then v j * v j else 0)) by (intros j _; destruct (d j); [apply Rle_0_sqr|lra]).
    assert (S1 := sumn_nonneg N _ P1). destruct (ED (at_free d v)) as [P2 Q2]. set (s := sumn N _) in *.
    destruct (Rtotal_order 0 (s + K (at_free d v) (at_free d v))) as [H|[H|H]]; [exact H|exfalso|lra].
    assert (Zs : s = 0) by lra. assert (ZK : K (at_free d v) (at_free d v) = 0) by lra. apply NZ. destruct (d i) eqn:Di.
    + assert (Z := sumn_nonneg_zero N _ P1 Zs i Hi). cbv beta in Z. rewrite Di in Z. apply Rmult_integral in Z as [Z|Z]; exact Z.
    + assert (Z := SU _ (proj1 Q2 ZK)). assert (V := Z ltac:(intros j Hj Fj; unfold at_free; apply negb_false_iff in Fj; now rewrite Fj) i Hi). unfold at_free in V. now rewrite Di in V.
  - intros PD v SFv V0 i Hi. destruct (Req_dec (v i) 0) as [Z|NZ]; [exact Z|exfalso]. assert (P := PD v (ex_intro _ i (conj Hi NZ))). rewrite (eliminated_form A d v HE) in P.
    rewrite sumn_zero in P by (intros j Hj; destruct (d j) eqn:Dj; [rewrite V0 by (auto; now rewrite Dj); ring|reflexivity]).
    rewrite (form_ext N K KS (at_free d v) v) in P by (intros j Hj; unfold at_free; destruct (d j) eqn:Dj; [symmetry; apply V0; [exact Hj|now rewrite Dj]|reflexivity]).
    rewrite (form_sym N K KS), (form_ext N K KS (at_free d v) v) in P by (intros j Hj; unfold at_free; destruct (d j) eqn:Dj; [symmetry; apply V0; [exact Hj|now rewrite Dj]|reflexivity]).
    assert (Z := proj2 (proj2 (ED v)) SFv). lra.
Qed.
(** one Newton step from any displacement with the held values *)
Theorem newton_step t g x L A d delta : (forall i, (i < N)%nat -> d i = true -> x i = g i) -> force f N t others m (tab N x) L -> tangent f N c t others m (tab N x) A ->
  (forall i, (i < N)%nat -> mvec N (eliminate d A) delta i = if d i then 0 else nth i L 0) ->
  equilibrium n N f m sterms pos jac params t (fun i => negb (d i)) g (fun i => x i + (-1) * delta i).
Proof.
  intros HG HL HT HD. assert (HE := assembled_stiffness t _ A (tab_length _ _) HT).
  assert (D0 : forall i, (i < N)%nat -> d i = true -> delta i = 0). { intros i Hi Di. assert (Q := HD i Hi). rewrite (free_row A d delta i HE Hi), Di in Q. exact Q. }
  assert (NF : nodal_forces n N f m sterms pos jac params t x rest L).
  { destruct (forces_s t x) as (L' & (m1 & E1) & H). destruct HL as (m2 & E2). rewrite E1 in E2. injection E2 as <- _. exact H. }
  apply (balance_iff n N f m sterms pos jac params D linear_s F TS EV_s). split.
  - intros i Hi Fi. apply negb_false_iff in Fi. rewrite (D0 i Hi Fi), (HG i Hi Fi). ring.
  - intros i Hi Fi. apply negb_true_iff in Fi. assert (Q := HD i Hi). rewrite (free_row A d delta i HE Hi), Fi in Q.
    assert (Fe := force_entry n N f m sterms pos jac params D linear_s F TS t x L i NF Hi). rewrite (form_comb_r N K KS).
    rewrite (form_sym N K KS (unit i) delta), (form_ext N K KS delta (at_free d delta)), (form_sym N K KS (at_free d delta)), Q.
    + lra.
    + intros j Hj. unfold at_free. destruct (d j) eqn:Dj; [now apply D0|reflexivity].
Qed.
(** an equilibrium has no residual *)
Lemma equilibrium_residual t g x d L : equilibrium n N f m sterms pos jac params t (fun i => negb (d i)) g x -> force f N t others m (tab N x) L ->
  forall i, (i < N)%nat -> zeroed d (entries L) i = 0.
Proof.
  intros (_ & L' & (_ & _ & upd' & wrt' & m' & E') & Z) (m1 & E1) i Hi. unfold zeroed, entries. destruct (d i) eqn:Di; [reflexivity|].
  rewrite args_rest in E'. transitivity (nth i L' 0); [|exact (Z i Hi ltac:(now rewrite Di))]. apply (f_equal (fun l => nth i l 0)).
  destruct (evaluate_quiet f N c tsize R0 t None others (tab N x) m m Fo (tab_length _ _) (fun _ _ _ _ => eq_refl)) as (L0 & m0 & E0 & _ & Len0 & V0 & _).
  rewrite E0 in E1. injection E1 as <- _.
  destruct (evaluate_spec f t upd' wrt' (inputs others (tab N x)) N m (wf_inputs f N c tsize R0 others _ Fo (tab_length _ _))) as (L2 & A2 & B2 & C2).
  rewrite A2 in E'. injection E' as <- _. apply (nth_ext _ _ 0 0); [congruence|]. intros k Hk. rewrite V0 by lia. rewrite C2 by lia. reflexivity.
Qed.
(** the Newton solver with any line search: unless it accepts the start, it takes exactly one step and ends in equilibrium *)
Theorem newton_once t g d Fr J sys huge o x r0 n0 : of_material f N c d m t others Fr J -> (forall y, sys_res sys y = Some (Fr y)) -> (forall r, (forall i, (i < N)%nat -> r i = 0) -> sys_norm sys r = Some 0) ->
  (forall y i, (i < N)%nat -> mvec N (J y) (sys_lin sys y (Fr y)) i = Fr y i) -> 0 <= o_abs o -> (o_min o <= 1)%nat -> (1 <= o_max o)%nat ->
  (forall i, (i < N)%nat -> d i = true -> x i = g i) -> sys_norm sys (Fr x) = Some n0 -> Rmax (o_rel o * n0) (o_abs o) < n0 ->
  let res := newton huge sys o x r0 in
  res_verdict res = Converged /\ res_iters res = 1%nat /\ equilibrium n N f m sterms pos jac params t (fun i => negb (d i)) g (pt_x (res_pt res)).
Proof.
  intros (OF & OJ) HR HN HS PA M1 M2 HG E0 GT res. set (delta := sys_lin sys x (Fr x)). set (y := shifted x (-1) delta).
  assert (EQ : equilibrium n N f m sterms pos jac params t (fun i => negb (d i)) g y).
  { destruct (OF x) as (L & HL & EL). destruct (OJ x) as (A & HT & EA). apply (newton_step t g x L A d delta HG HL HT). intros i Hi. unfold delta. rewrite <- EA, HS by exact Hi. rewrite EL. reflexivity. }
  assert (FY : sys_norm sys (Fr y) = Some 0).
  { apply HN. destruct (OF y) as (L & HL & ->). exact (equilibrium_residual t g y d L EQ HL). }
  assert (GM : smax (o_rel o * n0) (o_abs o) = Rmax (o_rel o * n0) (o_abs o)).
  { unfold smax, rltb, Rmax. destruct (Rlt_dec (o_rel o * n0) (o_abs o)); destruct (Rle_dec (o_rel o * n0) (o_abs o)); lra. }
  assert (G0 := Rmax_r (o_rel o * n0) (o_abs o)). set (goal := Rmax (o_rel o * n0) (o_abs o)) in *.
  assert (ER : res = {| res_pt := {| pt_x := y; pt_r := Fr y; pt_norm := Some 0; pt_evals := 2 |}; res_verdict := Converged; res_iters := 1; res_goal := goal |}).
  { unfold res, newton. assert (EA : forall z r e, eval_at huge sys z r e = {| pt_x := z; pt_r := Fr z; pt_norm := sys_norm sys (Fr z); pt_evals := S e |}) by (intros z r e; unfold eval_at; now rewrite HR).
    rewrite EA. cbn [pt_norm]. rewrite E0, GM. destruct (o_max o) as [|k]; [lia|]. cbn [newton_loop pt_norm].
    replace (rleb n0 goal) with false by (symmetry; unfold rleb; destruct (Rle_dec n0 goal); [lra|reflexivity]). cbn [andb].
    assert (EI : snd (newton_iteration huge sys (o_ls o) {| pt_x := x; pt_r := Fr x; pt_norm := Some n0; pt_evals := 1 |}) = {| pt_x := y; pt_r := Fr y; pt_norm := Some 0; pt_evals := 2 |}).
    { unfold newton_iteration. cbn [pt_x pt_norm pt_r pt_evals]. rewrite EA. fold delta. fold y. rewrite FY.
      assert (NL : nltb (Some 0) (Some n0) = true) by (apply rltb_true; lra). 
      destruct (o_ls o) as [|ls]; cbn [backtrack pt_norm]; rewrite NL; cbn [andb Nat.ltb Nat.leb Nat.eqb negb snd]; reflexivity. }
    rewrite EI. destruct k as [|k]; cbn [newton_loop pt_norm]; (replace (rleb 0 goal) with true by (symmetry; apply rleb_true; lra)); rewrite (proj2 (Nat.leb_le _ _) M1); reflexivity. }
  rewrite ER. cbn [res_verdict res_iters res_pt pt_x]. split; [reflexivity|]. split; [reflexivity|exact EQ].
Qed.
(** the linear system of that step has exactly one solution *)
Theorem newton_system t u L A d : length u = N -> tangent f N c t others m u A -> supported n N f sterms jac (fun i => negb (d i)) ->
  exists delta : vec, (forall i, (i < N)%nat -> mvec N (eliminate d A) delta i = if d i then 0 else nth i L 0) /\
    forall delta' : vec, (forall i, (i < N)%nat -> mvec N (eliminate d A) delta' i = if d i then 0 else nth i L 0) -> forall i, (i < N)%nat -> delta' i = delta i.
Proof.
  intros Hu HT SU. assert (HE := assembled_stiffness t u A Hu HT). assert (ED := energy_definite n N f m sterms jac solid_s stiff_s).
  assert (IFF : forall delta : vec, (forall i, (i < N)%nat -> mvec N (eliminate d A) delta i = if d i then 0 else nth i L 0) <-> answer N K (fun i => negb (d i)) (fun i => nth i L 0) (fun _ => 0) delta).
  { intros delta. split.
    - intros H. assert (Z : forall i, (i < N)%nat -> d i = true -> delta i = 0) by (intros i Hi Di; assert (Q := H i Hi); rewrite (free_row A d delta i HE Hi), Di in Q; exact Q). split; intros i Hi Fi.
      + apply Z; [exact Hi|now apply negb_false_iff].
      + apply negb_true_iff in Fi. assert (Q := H i Hi). rewrite (free_row A d delta i HE Hi), Fi in Q. rewrite <- Q, !(form_sym N K KS (unit i)). apply (form_ext N K KS).
        intros j Hj. unfold at_free. destruct (d j) eqn:Dj; [now apply Z|reflexivity].
    - intros [Z H] i Hi. rewrite (free_row A d delta i HE Hi). destruct (d i) eqn:Di; [apply Z; [exact Hi|now rewrite Di]|].
      rewrite <- (H i Hi) by (now rewrite Di). rewrite !(form_sym N K KS (unit i)). apply (form_ext N K KS). intros j Hj. unfold at_free. destruct (d j) eqn:Dj; [symmetry; apply Z; [exact Hj|now rewrite Dj]|reflexivity]. }
  destruct (form_one N K KS (fun v => proj1 (ED v)) (fun i => negb (d i))) with (l := fun i => nth i L 0) (g := fun _ : nat => 0) as (x & X & U).
  - intros v Z. apply SU. now apply ED.
  - exists x. split; [now apply IFF|]. intros y Y. apply U. now apply IFF.
Qed.
End Linear.

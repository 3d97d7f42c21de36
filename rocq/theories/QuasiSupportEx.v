(** * The supports of a loaded triangle: non-vacuity witness for C73 *)
From Coq Require Import NArith ZArith Reals List Lia Lra Bool Permutation.
From Verif Require Import Prelude DofCodec Sums Restriction Csr Kernels FunctionalModel FunctionalGrad Assembly Tensor BoundaryElim Newton QuasiStatic QuasiNewton
  MatAlg Materials ShapeAware ShapeDefs WeakForm WeakFormFacts WeakFormPhysics WeakFormEx QuasiBalance FunctionalEx QuasiEx.
Import ListNotations.
Local Open Scope R_scope.

(** the triangle of C57 with all dofs but the last constrained; the step moves node 1 by (1, 0) *)
Definition held (i : nat) : bool := Nat.ltb i 5.
Definition held_at (t : R) : vec := fun i => if Nat.eqb i 2 then t + 1 else 0.
Definition six (w : nat) : nat := 6%nat.
Definition tri_start : state (St := unit) := {| s_u := [0; 0; 0; 0; 0; 0]; s_t := -1; s_cycle := 0; s_mem := ex_mem; s_prev := fun _ => [];
  s_react := [0; 0; 0; 0; 0; 0]; s_saved := []; s_files := [] |}.
Definition tri_pull (tol : R) : load := {| l_dt := 1; l_others := fun _ => [1; 1; 1; 1; 1; 1];
  l_solver := newton_solver (3 * 2) (fun _ b => b) {| o_rel := 0; o_abs := tol; o_min := 0; o_max := 1; o_ls := 0 |}; l_lin := fun _ b => b; l_warm := false |}.

Lemma tri_ready : exists c, ready solid_f (3 * 2) c six.
Proof.
  destruct (tri_plain 2 ltac:(lia)) as [P1 P2]. pose proof (plain_ids_ok _ P1) as I1. pose proof (plain_ids_ok _ P2) as I2.
  assert (W : wf_assembly solid_f 0 (3 * 2) (3 * 2)).
  { split; [|split; [|split; [|split]]].
    - intros [|] r [<-|[]]; split; assumption.
    - intros [|] r [<-|[]]; split; assumption.
    - intros [|]; reflexivity.
    - intros Ig HI. apply ex_in in HI as (vol & qf & ->). destruct vol; reflexivity.
    - intros Ig s g G rt rr HI Hs HG Ht Hr. apply ex_in in HI as (vol & qf & ->). destruct g as [|g]; [|destruct g; discriminate].
      injection HG as <-. destruct vol; injection Ht as <-; injection Hr as <-; repeat split; intros el [<-|[]]; cbn; lia. }
  destruct (table_for_mesh (3 * 2) (blocks_of solid_f 0 Elements) (map fst (lut_keys (emitted_all (blocks_of solid_f 0 Elements))))) as (c & _ & B).
  - intros te tr [E|[]]. injection E as <- <-. split; [exact P1|]. split; [exact P1|]. split; reflexivity.
  - intros r Hr. assert (X : exists a i, (a < 3)%nat /\ (i < 2)%nat /\ r = (a * 2 + i)%nat) by (exists (r / 2)%nat, (r mod 2)%nat; pose proof (Nat.div_mod r 2 ltac:(lia)); pose proof (Nat.mod_upper_bound r 2 ltac:(lia)); lia).
    destruct X as (a & i & Ha & Hi & ->). exists (L_id (tri_r 2) 0 0 0), (tri_r 2), (tri_r 2), 0%nat, a, 0%nat, i, 0%nat.
    split; [now left|]. split; [cbn; lia|]. split; [cbn; lia|]. split; [cbn; lia|]. split; [cbn; lia|]. split; [cbn; lia|].
    destruct a as [|[|[|a]]]; [| | |lia]; destruct i as [|[|i]]; try lia; reflexivity.
  - lia.
  - apply Permutation_refl.
  - exists c. split; [|split; [reflexivity|split; [exact W|split; [|split; [exact B|split; [lia|]]]]]].
    + apply (ex_wf 2 solid_ints (fun _ => [0; 0; 0; 0; 0; 0])); [lia|]. reflexivity.
    + intros [|] rt rr [|g] H1 H2; cbn in H1, H2; try (destruct g; discriminate); injection H1 as <-; injection H2 as <-; reflexivity.
    + intros x (te & tr & e & i & j & k & l & [E|[]] & He & Hi & Hj & Hk & Hl & ->). injection E as <- <-. cbn in He, Hi, Hj, Hk, Hl.
      exists (tri_r 2), (tri_r 2), e, i, j, k, l. split; [now left|]. assert (e = 0%nat) by lia. subst e.
      split; [cbn; lia|]. split; [cbn; lia|]. split; [cbn; lia|]. split; [cbn; lia|]. split; [cbn; lia|].
      destruct i as [|[|i]]; try lia; destruct j as [|[|j]]; try lia; destruct k as [|[|k]]; try lia; destruct l as [|[|l]]; try lia; reflexivity.
Qed.

Theorem tri_supports : exists c s' tol, ready solid_f (3 * 2) c six /\ sound (3 * 2) six tri_start /\ fitting six (l_others (tri_pull tol)) /\
  keeps_unit_rows (3 * 2) held (fun _ b => b) /\ step solid_f (3 * 2) c held held_at (tri_pull tol) tri_start = Ok (s', true) /\ 0 <= tol /\
  solid_residual 2 solid_f (s_t s') (inputs (l_others (tri_pull tol)) (s_u s')) (s_mem tri_start) solid_terms ex_pos ex_jac.
Proof.
  destruct tri_ready as (c & Rc).
  assert (Fo : forall tol, fitting six (l_others (tri_pull tol))) by (intros tol w; reflexivity).
  assert (Sd : sound (3 * 2) six tri_start) by (split; [reflexivity|cbn; intros H; lia]).
  assert (LK : keeps_unit_rows (3 * 2) held (fun _ b => b)) by (intros A b i _ _; reflexivity).
  (* the start of the solve does not depend on the tolerance *)
  destruct (warm_up_ok solid_f (3 * 2) c held held_at six Rc (tri_pull 0) tri_start Sd (Fo 0)) as (x0 & m1 & Wu & Bg & Sm).
  destruct (material_exists solid_f (3 * 2) c held six Rc (-1 + 1) (fun _ => [1; 1; 1; 1; 1; 1]) ex_mem (Fo 0)) as (F & J & H).
  set (tol := norm2 (3 * 2) (F x0)).
  assert (T0 : 0 <= tol) by apply sqrt_pos.
  assert (Pu : pure F J (l_solver (tri_pull tol) x0) = (x0, true)).
  { cbn [tri_pull l_solver newton_solver]. unfold newton_solver, ask. cbn [pure pt_norm o_rel o_abs o_max]. cbn [newton_loopS pt_norm o_min].
    rewrite smax_spec. fold tol. assert (Q : rleb tol (Rmax (0 * tol) tol) = true) by (apply rleb_true, Rmax_r). rewrite Q. reflexivity. }
  destruct (step_ok solid_f (3 * 2) c held held_at six Rc (tri_pull tol) tri_start Sd (Fo tol)) as (s' & ok & E & A & _ & _).
  assert (T : s_t s' = 0) by (rewrite (adv_time _ _ _ _ _ _ _ _ _ A); cbn; ring).
  assert (U : ok = true /\ s_u s' = tab (3 * 2) x0).
  { unfold step in E. change (warm_up solid_f (3 * 2) c held held_at (tri_pull tol) tri_start) with (warm_up solid_f (3 * 2) c held held_at (tri_pull 0) tri_start) in E.
    rewrite Wu in E. cbn [bindO fst snd] in E.
    destruct (solve_pure solid_f (3 * 2) c held six Rc (-1 + 1) (fun _ => [1; 1; 1; 1; 1; 1]) ex_mem F J (Fo 0) H (l_solver (tri_pull tol) x0) m1 Sm) as (m2 & So & _).
    rewrite Pu in So. change (s_t tri_start + l_dt (tri_pull tol)) with (-1 + 1) in E. change (l_others (tri_pull tol)) with (fun _ : nat => [1; 1; 1; 1; 1; 1]) in E.
    rewrite So in E. cbn [bindO fst snd] in E. destruct (evaluate _ _ _ _ _ _ _) as [[L m3]| |]; [|discriminate|discriminate].
    cbn [bindO fst snd] in E. injection E as <- <-. split; reflexivity. }
  destruct U as [-> U].
  assert (X : s_u s' = [0; 0; 1; 0; 0; 0]).
  { rewrite U. change (tab (3 * 2) x0) with [x0 0%nat; x0 1%nat; x0 2%nat; x0 3%nat; x0 4%nat; x0 5%nat].
    cbn [begins tri_pull l_warm] in Bg. rewrite !Bg. cbn. replace (-1 + 1 + 1) with 1 by ring. reflexivity. }
  exists c, s', tol. repeat (split; [auto|]). rewrite T, X. exact solid_described.
Qed.

(** a bar whose other inputs change: the warm start of the third step linearises about those of the first step, not of the second *)
Definition pull_other : load :=
  {| l_dt := 1; l_others := fun _ => [1; 1; 1]; l_solver := newton_solver 3 bar_inverse exact_options; l_lin := bar_inverse; l_warm := false |}.
Theorem previous_stale : exists c s1 s2, ready bar 3 c bar_sizes /\ run_steps bar 3 c clamped pulled [pull; pull_other] bar_start = Ok [s1; s2] /\
  forall ld, previous ld s2 0%nat <> l_others pull_other 0%nat.
Proof.
  destruct bar_ready as (c & Rc). 
  assert (Fo : List.Forall (fun x => fitting bar_sizes (l_others x)) [pull; pull_other]) by (repeat constructor; intros w; reflexivity).
  destruct (run_ok bar 3 c clamped pulled bar_sizes Rc [pull; pull_other] bar_start bar_start_sound Fo) as (l & E & Ch).
  destruct l as [|s1 [|s2 [|s3 l]]]; try (exfalso; revert Ch; cbn [chain]; tauto).
  exists c, s1, s2. split; [exact Rc|]. split; [exact E|]. intros ld.
  rewrite (previous_is_first bar 3 c clamped pulled bar_sizes pull [pull_other] bar_start [s1; s2] Rc bar_start_sound Fo eq_refl E s2 ld (or_intror (or_introl eq_refl))).
  cbn. intros Q. injection Q. lra.
Qed.

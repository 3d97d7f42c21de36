(** * A triangle with temperature dependent conductivity, a reaction and radiation, whose kernels run the expressions of its integrands (C82) *)
From Coq Require Import NArith ZArith Reals List Lia Lra Bool FunctionalExtensionality.
From Coquelicot Require Import Coquelicot.
From Verif Require Import Prelude DofCodec Sums Restriction Csr Kernels FunctionalModel FunctionalGrad FunctionalTotal Assembly Tensor BoundaryElim Newton QuasiStatic QuasiBalance Dual LU MatAlg Materials ShapeAware
  WeakForm WeakFormFacts WeakFormPhysics WeakFormEx Conductors Traced TracedSolid TracedSolidEx TracedHeat.
Import ListNotations.
Local Open Scope R_scope.

(** conductivity 2 + p + u / 2; a source exp(-u) + x; on the edge, radiation u^4 - 1 *)
Definition warm_terms : list heat_integrand :=
  [HIMaterial (CParGraded {| g_density := 3; g_cp := 1; g_kappa := 2; g_slope := / 2 |});
   HISource (fun X t => Bin Add (Un Exp (Un Neg (Var 0))) (Cst (X 0%nat + t)));
   HIFlux (fun X nu t => Bin Sub (Bin Mul (Bin Mul (Var 0) (Var 0)) (Bin Mul (Var 0) (Var 0))) (Cst 1))].
Definition warm_kernel (k : nat) : gkernel unit :=
  running [0%nat] (if vol_of k then 3%nat else 2%nat) 1%nat (fun _ => if vol_of k then / 2 else 1) (if vol_of k then tri_space 1 else edge_space 1)
    (fun s => if vol_of k then tri_space 1 else edge_space 1) (heat_place_of 2 warm_terms k) (heat_expr_of 2 warm_terms ex_pos ex_jac k 0%nat).
Definition warm_integral (k : nat) : integral unit :=
  {| i_type := if vol_of k then Elements else BoundaryElements; i_active := match k with O => [0; 1; 2] | _ => [0; 1] end%nat; i_geoms := [warm_kernel k] |}.
Definition warm_f : functional unit := {| f_test := ex_restr 1; f_trial := fun w => ex_restr 1; f_integrals := map warm_integral [0; 1; 2]%nat |}.
Lemma warm_integrals k Ig : nth_error (f_integrals warm_f) k = Some Ig -> (k < 3)%nat /\ Ig = warm_integral k.
Proof. cbn [warm_f f_integrals]. destruct k as [|[|[|k]]]; cbn; intros E; try (destruct k; discriminate); injection E as <-; (split; [lia|reflexivity]). Qed.
Lemma warm_traced : heat_traced 2 warm_f warm_terms ex_pos ex_jac.
Proof.
  intros k Ig g G E1 E2. apply warm_integrals in E1 as [Hk ->]. cbn [warm_integral i_geoms] in E2. destruct g as [|g]; [|destruct g; discriminate]. injection E2 as <-.
  assert (P : forall s, (0 < es_c (gk_trial (warm_kernel k) s))%nat) by (intros s; cbn; destruct (vol_of k); cbn; lia).
  assert (W : written (warm_kernel k) (heat_place_of 2 warm_terms k) (heat_expr_of 2 warm_terms ex_pos ex_jac k 0%nat)) by apply running_written.
  destruct k as [|[|[|k]]]; [| | |lia]; (eexists; split; [reflexivity|]); (split; [reflexivity|]); (split; [cbn; lia|]); (split; [exact P|exact W]).
Qed.
Lemma warm_wf : wf warm_f 3 (fun _ => 3%nat).
Proof.
  intros Ig HI. apply In_nth_error in HI as (k & E). apply warm_integrals in E as [Hk ->]. destruct (tri_plain 1 ltac:(lia)) as [P3 P4].
  pose proof (plain_ids_ok _ P3) as I3. pose proof (plain_ids_ok _ P4) as I4. cbn [r_num_nodes r_components tri_r edge_r] in I3, I4. split; [|split; [|split]].
  - cbn [warm_integral i_type]. destruct (vol_of k); intros r [<-|[]]; assumption.
  - cbn [warm_integral i_type]. intros w r. destruct (vol_of k); intros [<-|[]]; assumption.
  - cbn [warm_integral i_type i_geoms]. destruct (vol_of k); reflexivity.
  - cbn [warm_integral i_active]. destruct k; repeat constructor; cbn; intuition congruence.
Qed.
(** whatever the temperatures are *)
Lemma warm_admissible t Ls : heat_admissible 2 warm_f t Ls warm_terms ex_pos ex_jac.
Proof.
  intros k Ig g G e q T E1 E2 He Hq ET. apply warm_integrals in E1 as [Hk ->]. cbn [warm_integral i_geoms] in E2. destruct g as [|g]; [|destruct g; discriminate]. injection E2 as <-.
  set (u := qf_inputs _ _ _ _ _ _). clearbody u.
  destruct k as [|[|[|k]]]; [| | |lia]; injection ET as <-; cbn [user_fine].
  - split; [|exact Logic.I]. change (detn 2 ident <> 0). rewrite detn_ident by (now left). lra.
  - split; [change (detn 2 ident <> 0); rewrite detn_ident by (now left); lra|]. intros K _. split; [eexists; reflexivity|]. cbn [smooth un_smooth bin_smooth]. repeat split; auto.
  - split; [change (vnorm 2 (crossn 2 (tri_jac false)) <> 0); rewrite edge_norm; lra|]. split; [eexists; reflexivity|]. cbn [smooth un_smooth bin_smooth]. repeat split; auto.
Qed.

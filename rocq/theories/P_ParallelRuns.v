(** * C79: whole simulations do not depend on the number of processes *)
From Coq Require Import NArith ZArith Reals List Lia Bool Permutation.
From Verif Require Import Prelude DofCodec Sums Restriction Csr Kernels FunctionalModel FunctionalGrad FunctionalTotal Assembly FunctionalEx Tensor BoundaryElim Ode
  ParallelModel ParallelMatrix ParallelEx QuasiStatic QuasiAdjoint Transient HeatBack MotionBack Programs ProgramRuns ProgramBack ProgramSizes ProgramEx.
Import ListNotations.
Local Open Scope R_scope.

(** [shared W S f n tsize parts orders cs] (Programs.v): the processes of [parts] share the mesh of which [S], with residual f and n true
    dofs, is the undivided form, and can build their tables for the arguments in W; [cs] are the tables of the undivided mesh.
    [agree S parts x y]: x and y end alike, with equal results, and every process then remembers at its elements what S remembers there. *)

(** every program which evaluates a residual and assembles its derivatives, at points of its choice depending on all it has seen *)
Theorem C79_any_program : forall St A W (S : rank St) f n tsize parts orders cs (p : program A), shared W S f n tsize parts orders cs -> asks tsize W p ->
  forall m ms, ParallelModel.remember S parts m ms -> agree S parts (alone f n cs p m) (together (map fst parts) n tsize orders p ms).
Proof. exact @divided_run. Qed.
Print Assumptions C79_any_program.

(** quasi-static runs of C73: displacements, reactions, checkpoints and material state *)
Theorem C79_quasi_static : forall St (S : rank St) f n tsize parts orders cs (W : nat -> Prop), shared W S f n tsize parts orders cs -> tsize 0%nat = n -> W 0%nat ->
  forall bc target loads (s : state (St := St)) ms, QuasiStatic.sound n tsize s -> List.Forall (fun ld => fitting tsize (l_others ld)) loads ->
  ParallelModel.remember S parts (s_mem s) ms ->
  exists l ms', run_steps f n (cs 0%nat) bc target loads s = Ok l /\
    together (map fst parts) n tsize orders (p_run n bc target loads (bare s)) ms = Ok (map bare l, ms') /\
    ParallelModel.remember S parts (s_mem (final s l)) ms'.
Proof. exact @divided_quasi_static. Qed.
Print Assumptions C79_quasi_static.
Example C79_nonvacuous : exists c l ms, shared (fun _ => True) whole (local_functional whole) 3 (fun _ => 3%nat) two both (fun _ => c) /\
  ParallelModel.remember whole two before_whole [fresh 0; before_second] /\
  run_steps (local_functional whole) 3 c (Nat.eqb 0) (fun _ _ => 1) [pull; pull] at_rest = Ok l /\ length l = 2%nat /\
  together (map fst two) 3 (fun _ => 3%nat) both (p_run 3 (Nat.eqb 0) (fun _ _ => 1) [pull; pull] (bare at_rest)) [fresh 0; before_second] = Ok (map bare l, ms).
Proof. exact bar_case. Qed.

(** their reverse passes, of C74 *)
Theorem C79_quasi_static_sensitivity : forall St (S : rank St) f n tsize parts orders cs (W : nat -> Prop), shared W S f n tsize parts orders cs -> tsize 0%nat = n -> W 0%nat ->
  forall bcs lin dts saved others w loads k (b : backward (St := St)) ms, W (Datatypes.S w) -> fitting tsize others -> (forall u, In u saved -> length u = n) ->
  ParallelModel.remember S parts (b_mem b) ms ->
  match reverse_pass f n (cs 0%nat) bcs w (cs (Datatypes.S w)) lin dts saved others loads k b,
        together (map fst parts) n tsize orders (p_reverse_pass n bcs w lin dts saved others loads k (bare_back b)) ms with
  | Ok g, Ok (g', _) => g = g'
  | Refused, Refused => True
  | UB, UB => True
  | _, _ => False
  end.
Proof. exact @divided_reverse. Qed.
Print Assumptions C79_quasi_static_sensitivity.

(** dynamic and heat conduction runs of C76 *)
Theorem C79_dynamic : forall St (S : rank St) f n tsize parts orders cs (W : nat -> Prop), shared W S f n tsize parts orders cs -> tsize 0%nat = n -> W 0%nat ->
  tsize 1%nat = n -> W 1%nat -> forall bc target it en loads (s : motion (St := St)) ms, List.Forall (fun ld => params_fit tsize (k_params ld)) loads ->
  ParallelModel.remember S parts (d_mem s) ms ->
  agree S parts (bindO (dynamic_run f n (cs 0%nat) (cs 1%nat) bc target it en loads s) (fun l => Ok (map bare_motion l, d_mem (motion_end s l))))
    (together (map fst parts) n tsize orders (p_dynamic_run n bc target it en loads (bare_motion s)) ms).
Proof. exact @divided_motion. Qed.
Print Assumptions C79_dynamic.
Theorem C79_heat : forall St (S : rank St) f n tsize parts orders cs (W : nat -> Prop), shared W S f n tsize parts orders cs -> tsize 0%nat = n -> W 0%nat ->
  tsize 1%nat = n -> W 1%nat -> forall bc target en loads (s : warmth (St := St)) ms, List.Forall (fun ld => params_fit tsize (k_params ld)) loads ->
  ParallelModel.remember S parts (w_mem s) ms ->
  agree S parts (bindO (heat_run (heat_step f n (cs 0%nat) (cs 1%nat) bc target en) loads s) (fun l => Ok (map bare_heat l, w_mem (heat_end s l))))
    (together (map fst parts) n tsize orders (p_heat_run (p_heat_step n bc target en) loads (bare_warmth s)) ms).
Proof. exact @divided_heat. Qed.
Print Assumptions C79_heat.

(** and their reverse passes, of C77 and C78 *)
Theorem C79_heat_sensitivity : forall St (S : rank St) f n tsize parts orders cs (W : nat -> Prop), shared W S f n tsize parts orders cs -> tsize 0%nat = n -> W 0%nat ->
  tsize 1%nat = n -> W 1%nat -> forall bcs lin dts saved params w qu qv k (b : cooling St) ms, W (Datatypes.S (Datatypes.S w)) -> params_fit tsize params ->
  (forall u r, In (u, r) saved -> length u = n /\ length r = n) -> ParallelModel.remember S parts (q_mem b) ms ->
  agree S parts (bindO (heat_pass f n (cs 0%nat) (cs 1%nat) bcs w (cs (Datatypes.S (Datatypes.S w))) lin dts saved params qu qv k b) (fun r => Ok (fst r, bare_cooling (snd r), q_mem (snd r))))
    (together (map fst parts) n tsize orders (p_heat_pass n bcs w lin dts saved params qu qv k (bare_cooling b)) ms).
Proof. exact @divided_heat_pass. Qed.
Print Assumptions C79_heat_sensitivity.
Theorem C79_dynamic_sensitivity : forall St (S : rank St) f n tsize parts orders cs (W : nat -> Prop), shared W S f n tsize parts orders cs -> tsize 0%nat = n -> W 0%nat ->
  tsize 1%nat = n -> W 1%nat -> forall bcs lin dts saved params w qu qv qa k (b : receding St) ms, W (Datatypes.S (Datatypes.S w)) -> params_fit tsize params ->
  (forall u v a, In (u, v, a) saved -> length u = n /\ length a = n) -> ParallelModel.remember S parts (z_mem b) ms ->
  agree S parts (bindO (motion_pass f n (cs 0%nat) (cs 1%nat) bcs w (cs (Datatypes.S (Datatypes.S w))) lin dts saved params qu qv qa k b) (fun r => Ok (fst r, bare_receding (snd r), z_mem (snd r))))
    (together (map fst parts) n tsize orders (p_motion_pass n bcs w lin dts saved params qu qv qa k (bare_receding b)) ms).
Proof. exact @divided_motion_pass. Qed.
Print Assumptions C79_dynamic_sensitivity.

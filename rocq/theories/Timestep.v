(** * The clock a time integrator leaves behind

    HeatTransfer and SolidMechanics hand MFEM's integrator a dummy time (heat_transfer.hpp:348-355,
    solid_mechanics.hpp:1258-1265) and rely on time_ being set, by reference, by every right-hand
    side evaluation: FirstOrderODE::Solve assigns state_.time = time (odes.cpp:306) and
    SecondOrderODE::Solve does the same (odes.cpp:157).  So after a step time_ is the time of the
    *last* evaluation. *)
From Coq Require Import String List ZArith Reals Lra Lia.
From Verif Require Import Prelude Ledger.
Import ListNotations.
Open Scope R_scope.

(** Integrators selectable in FirstOrderODE::SetTimestepper (odes.cpp:261-300) and Newmark of
    SecondOrderODE::SetTimestepper (odes.cpp:22-75).  SDIRK23, SDIRK34 and the generalised-alpha family
    are left out. *)
Inductive integrator := QuasiStatic | BackwardEuler | SDIRK33 | ForwardEuler | RK2 | RK3SSP | RK4 | ImplicitMidpoint | NewmarkMethod.

(** Times at which MFEM evaluates the operator in one step (dependency: mfem/linalg/ode.cpp, transcribed from its
    documentation; [a], [c] are the SDIRK33 abscissae 0.4358665215 and (1+a)/2).  For [QuasiStatic] the module
    itself executes time_ += dt (heat_transfer.hpp:337, solid_mechanics.hpp:1625). *)
Definition stages (m : integrator) (t dt : R) : list R :=
  match m with
  | QuasiStatic => [t + dt]
  | BackwardEuler => [t + dt]
  | SDIRK33 => let a := 435866521508459 / 1000000000000000 in [t + a * dt; t + (1 + a) / 2 * dt; t + dt]
  | ForwardEuler => [t]
  | RK2 => [t; t + 1 / 2 * dt]
  | RK3SSP => [t; t + dt; t + 1 / 2 * dt]
  | RK4 => [t; t + dt / 2; t + dt / 2; t + dt]
  | ImplicitMidpoint => [t + dt / 2]
  | NewmarkMethod => [t + dt]
  end.

(** time_ after the step: the last assignment wins. *)
Definition time_after (m : integrator) (t dt : R) : R := fold_left (fun _ s => s) (stages m t dt) t.

Definition exact_clock (m : integrator) : bool :=
  match m with ForwardEuler | RK2 | RK3SSP | ImplicitMidpoint => false | _ => true end.

Lemma time_after_exact m t dt : exact_clock m = true -> time_after m t dt = t + dt.
Proof. destruct m; simpl; intros; try discriminate; reflexivity. Qed.

Lemma time_after_inexact m t dt : exact_clock m = false -> dt <> 0 -> time_after m t dt <> t + dt.
Proof. destruct m; simpl; intros E Hdt; try discriminate; unfold time_after; simpl; lra. Qed.

(** The configurations of the real modules. *)
Definition solid_dynamic : config :=
  {| names := ["displacement"; "velocity"; "acceleration"]%string;
     settable := ["displacement"; "velocity"]%string; lookahead := true;
     stage_time := time_after NewmarkMethod |}.
Definition solid_quasistatic : config :=
  {| names := ["displacement"]%string; settable := ["displacement"; "velocity"]%string; lookahead := true;
     stage_time := time_after QuasiStatic |}.
Definition heat (m : integrator) : config :=
  {| names := match m with QuasiStatic => ["temperature"] | _ => ["temperature"; "temperature_rate"] end%string;
     settable := ["temperature"]%string; lookahead := false;
     stage_time := time_after m |}.

Lemma good_solid_dynamic : good_config solid_dynamic.
Proof.
  split; [|reflexivity].
  repeat constructor; simpl; intuition discriminate.
Qed.
Lemma good_solid_quasistatic : good_config solid_quasistatic.
Proof. split; [|reflexivity]. repeat constructor; simpl; intuition discriminate. Qed.
Lemma good_heat m : exact_clock m = true -> good_config (heat m).
Proof.
  intros H. split.
  - destruct m; repeat constructor; simpl; intuition discriminate.
  - intros t dt. simpl. now apply time_after_exact.
Qed.

(** With forward Euler the clock stands still however many steps are taken. *)
Lemma forward_euler_clock_stands_still V (steps : list (R * (string -> V))) c t f s :
  run V (heat ForwardEuler) (map (fun p => OAdvance (fst p) (snd p)) steps) (reset V (heat ForwardEuler) c t f) = Ok s ->
  l_time V s = t.
Proof.
  assert (G : forall steps s0 s, l_time V s0 = t ->
     run V (heat ForwardEuler) (map (fun p => OAdvance (fst p) (snd p)) steps) s0 = Ok s -> l_time V s = t).
  { clear. induction steps as [|[dt g] r IH]; intros s0 s H0 E; simpl in E.
    - now inversion E; subst.
    - eapply IH; [|exact E]. simpl. exact H0. }
  intros E. eapply G; [|exact E]. reflexivity.
Qed.

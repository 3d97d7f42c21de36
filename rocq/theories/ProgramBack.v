(** * The reverse passes of the modules as programs which drive their residual (C75) *)
From Coq Require Import NArith ZArith Reals List Lia Lra Bool Permutation FunctionalExtensionality.
From Coquelicot Require Import Coquelicot.
From Verif Require Import Prelude DofCodec Sums Restriction Csr Kernels FunctionalModel FunctionalGrad FunctionalTotal Assembly Tensor MatAlg BoundaryElim Adjoint AdjointDeriv Ode
  QuasiStatic QuasiAdjoint Transient HeatBack MotionBack Programs ProgramRuns.
Import ListNotations.
Local Open Scope R_scope.

Notation going_back := (backward (St := unit)).
Definition bare_back {St} (b : backward (St := St)) : going_back :=
  {| b_u := b_u b; b_t := b_t b; b_end := b_end b; b_cycle := b_cycle b; b_load := b_load b; b_adj := b_adj b; b_mem := no_buffers |}.
Definition bare_cooling {St} (b : cooling St) : cooling unit :=
  {| q_u := q_u b; q_rate := q_rate b; q_t := q_t b; q_end := q_end b; q_cycle := q_cycle b; q_tl := q_tl b; q_rl := q_rl b; q_mu := q_mu b; q_adj := q_adj b; q_mem := no_buffers |}.
Definition bare_receding {St} (b : receding St) : receding unit :=
  {| z_u := z_u b; z_v := z_v b; z_a := z_a b; z_t := z_t b; z_end := z_end b; z_cycle := z_cycle b; z_ul := z_ul b; z_vl := z_vl b; z_al := z_al b;
     z_U := z_U b; z_V := z_V b; z_adj := z_adj b; z_mem := no_buffers |}.

Section Programs.
Variable n : nat.
Variable bcs : list dofset.
Variable w : nat.
Variable lin : mat -> vec -> vec.
Variable dts : list R.

Section Static.
Variable saved : list (list R).
Variable others : nat -> list R.
(** solid_mechanics.hpp:1340-1374, 1402-1404 *)
Definition p_reverse_step (b : going_back) : program going_back :=
  match b_cycle b with
  | O => Stop Refused
  | S k =>
      match nth_error dts k, nth_error saved (S k) with
      | Some dt, Some u =>
          after (p_jacobian n (b_t b) others (entries u)) (fun A =>
          let sys := adjoint_system n bcs A (b_load b) in
          Done {| b_u := u; b_t := b_t b - dt; b_end := b_t b; b_cycle := k; b_load := snd sys; b_adj := lin (fst sys) (snd sys); b_mem := no_buffers |})
      | _, _ => Stop Refused
      end
  end.
(** solid_mechanics.hpp:1407-1433 *)
Definition p_timestep_sensitivity (b : going_back) : program vec :=
  Differentiate (b_end b) (S w) false (inputs others (b_u b)) (fun _ P => Done (sensitivity n P (b_adj b))).
Fixpoint p_reverse_pass (loads : nat -> vec) (k : nat) (b : going_back) : program vec :=
  match k with
  | O => Done (fun _ => 0)
  | S k' =>
      after (p_reverse_step (set_load (loads k') b)) (fun b1 =>
      after (p_timestep_sensitivity b1) (fun g =>
      after (p_reverse_pass loads k' b1) (fun rest => Done (fun i => g i + rest i))))
  end.
End Static.

Section Heat.
Variable saved : list (list R * list R).
Variable params : nat -> list R.
(** heat_transfer.hpp:846-917 *)
Definition p_heat_back (b : cooling unit) : program (cooling unit) :=
  match q_cycle b with
  | O => Stop Refused
  | S k =>
      match nth_error dts k, nth_error saved (S k) with
      | Some dt, Some (u, r) =>
          after (p_jacobian n (q_t b) (inputs params r) (entries u)) (fun K =>
          after (p_mass n (q_t b) params (entries u) (entries r)) (fun M =>
          if Req_EM_T dt 0 then Stop UB else
          let J : mat := fun i j => M i j + dt * K i j in
          let rhs : vec := fun i => dt * q_tl b i + 1 * q_rl b i + - dt * q_mu b i in
          let lam := adjoint_solve n bcs lin J rhs in
          Done {| q_u := u; q_rate := r; q_t := q_t b - dt; q_end := q_t b; q_cycle := k; q_tl := q_tl b; q_rl := q_rl b;
                  q_mu := fun i => mvec n M lam i * (- 1 / dt) + 1 / dt * q_rl b i; q_adj := lam; q_mem := no_buffers |}))
      | _, _ => Stop Refused
      end
  end.
(** heat_transfer.hpp:928-965 *)
Definition p_heat_sensitivity (b : cooling unit) : program vec :=
  Differentiate (q_end b) (S (S w)) false (inputs (inputs params (q_rate b)) (q_u b)) (fun _ P => Done (sensitivity n P (q_adj b))).
Fixpoint p_heat_pass (qu : nat -> vec) (qv : nat -> option vec) (k : nat) (b : cooling unit) : program (vec * cooling unit) :=
  match k with
  | O => Done (vz, b)
  | S k' =>
      after (p_heat_back (heat_load (qu k') (qv k') b)) (fun b1 =>
      after (p_heat_sensitivity b1) (fun g =>
      after (p_heat_pass qu qv k' b1) (fun rest => Done ((fun i => g i + fst rest i) : vec, snd rest))))
  end.
End Heat.

Section Motion.
Variable saved : list (list R * list R * list R).
Variable params : nat -> list R.
(** solid_mechanics.hpp:1340-1360, 1376-1405, solid_mechanics.cpp:15-66 *)
Definition p_motion_back (b : receding unit) : program (receding unit) :=
  match z_cycle b with
  | O => Stop Refused
  | S k =>
      if (Nat.ltb (length dts) (S k) || Nat.ltb (length dts) k)%bool then Stop Refused else
      let dt' := nth (S k) dts 0 in let dt := nth k dts 0 in
      match nth_error saved (S k) with
      | Some (u, v, a) =>
          after (p_jacobian n (z_t b) (inputs params a) (entries u)) (fun K =>
          after (p_mass n (z_t b) params (entries u) (entries a)) (fun M =>
          let fac1 := 0.5 - nb in let fac2 := 1.0 - ng in let fac3 := nb in let fac4 := ng in
          let J : mat := fun i j => M i j + fac3 * dt * dt * K i j in
          let rhs : vec := fun i =>
            z_al b i + fac4 * dt * z_vl b i + fac3 * dt * dt * z_ul b i + (- dt' * fac2 - dt * fac4) * z_V b i +
            (- dt' * dt' * fac1 - dt * dt * fac3 - dt * dt' * fac4) * z_U b i in
          let lam := adjoint_solve n bcs lin J rhs in
          Done {| z_u := u; z_v := v; z_a := a; z_t := z_t b - dt; z_end := z_t b; z_cycle := k; z_ul := z_ul b; z_vl := z_vl b; z_al := z_al b;
                  z_V := fun i => z_V b i + dt' * z_U b i; z_U := fun i => z_U b i + mvec n (transpose K) lam i + - 1 * z_ul b i;
                  z_adj := lam; z_mem := no_buffers |}))
      | None => Stop Refused
      end
  end.
(** solid_mechanics.hpp:1407-1433 *)
Definition p_motion_sensitivity (b : receding unit) : program vec :=
  Differentiate (z_end b) (S (S w)) false (inputs (inputs params (z_a b)) (z_u b)) (fun _ P => Done (sensitivity n P (z_adj b))).
Fixpoint p_motion_pass (qu : nat -> vec) (qv qa : nat -> option vec) (k : nat) (b : receding unit) : program (vec * receding unit) :=
  match k with
  | O => Done (vz, b)
  | S k' =>
      after (p_motion_back (motion_load (qu k') (qv k') (qa k') b)) (fun b1 =>
      after (p_motion_sensitivity b1) (fun g =>
      after (p_motion_pass qu qv qa k' b1) (fun rest => Done ((fun i => g i + fst rest i) : vec, snd rest))))
  end.
End Motion.
End Programs.

(** ** on one process they are the passes of C74, C77 and C78 *)
Section Alone.
Context {St : Type}.
Notation mem := (mem St).
Variable f : functional St.
Variable n : nat.
Variable c cm cw : csr.
Variable bcs : list dofset.
Variable w : nat.
Variable lin : mat -> vec -> vec.
Variable dts : list R.
Variable cs : nat -> csr.
Hypothesis C0 : cs 0%nat = c.

Section Static.
Variable saved : list (list R).
Variable others : nat -> list R.
Hypothesis Cw : cs (S w) = cw.
Lemma alone_reverse_step b : alone f n cs (p_reverse_step n bcs lin dts saved others (bare_back b)) (b_mem b) =
  bindO (reverse_step f n c bcs lin dts saved others b) (fun b' => Ok (bare_back b', b_mem b')).
Proof.
  unfold p_reverse_step, reverse_step. cbn [bare_back b_cycle b_t b_load]. destruct (b_cycle b) as [|k]; [reflexivity|].
  destruct (nth_error dts k) as [dt|]; [|reflexivity]. destruct (nth_error saved (S k)) as [u|]; [|reflexivity].
  rewrite alone_after, (alone_jacobian f n c cs C0). destruct (jacobian f n c _ _ _ (b_mem b)) as [[A m]| |]; reflexivity.
Qed.
Theorem alone_reverse_pass loads k : forall b, bindO (alone f n cs (p_reverse_pass n bcs w lin dts saved others loads k (bare_back b)) (b_mem b)) (fun q => Ok (fst q)) =
  reverse_pass f n c bcs w cw lin dts saved others loads k b.
Proof.
  induction k as [|k IH]; intros b; [reflexivity|]. cbn [p_reverse_pass reverse_pass]. rewrite alone_after.
  change (set_load (loads k) (bare_back b)) with (bare_back (set_load (loads k) b)). change (b_mem b) with (b_mem (set_load (loads k) b)) at 1.
  rewrite alone_reverse_step. destruct (reverse_step f n c bcs lin dts saved others (set_load (loads k) b)) as [b1| |]; [|reflexivity|reflexivity]. cbn [bindO fst snd].
  unfold p_timestep_sensitivity, timestep_sensitivity, d_residual. cbn [after alone bare_back b_end b_u b_adj]. rewrite Cw.
  destruct (evaluate f _ (Some (S w)) false _ n (b_mem b1)) as [[L m1]| |]; [|reflexivity|reflexivity]. cbn [bindO fst snd].
  destruct (assemble f (S w) m1 cw) as [V| |]; [|reflexivity|reflexivity]. cbn [bindO fst snd]. rewrite alone_after.
  rewrite <- (IH (remember m1 b1)). change (bare_back (remember m1 b1)) with (bare_back b1). cbn [remember b_mem].
  destruct (alone f n cs _ m1) as [[v m2]| |]; reflexivity.
Qed.
End Static.

Hypothesis C1 : cs 1%nat = cm.
Hypothesis Cw : cs (S (S w)) = cw.
Section Heat.
Variable saved : list (list R * list R).
Variable params : nat -> list R.
Lemma alone_heat_back b : alone f n cs (p_heat_back n bcs lin dts saved params (bare_cooling b)) (q_mem b) =
  bindO (heat_back f n c cm bcs lin dts saved params b) (fun b' => Ok (bare_cooling b', q_mem b')).
Proof.
  unfold p_heat_back, heat_back. cbn [bare_cooling q_cycle q_t q_tl q_rl q_mu]. destruct (q_cycle b) as [|k]; [reflexivity|].
  destruct (nth_error dts k) as [dt|]; [|reflexivity]. destruct (nth_error saved (S k)) as [[u r]|]; [|reflexivity].
  rewrite alone_after, (alone_jacobian f n c cs C0). destruct (jacobian f n c _ _ _ (q_mem b)) as [[K m]| |]; [|reflexivity|reflexivity]. cbn [bindO fst snd].
  rewrite alone_after, (alone_mass f n cm cs C1). destruct (mass f n cm _ _ _ _ m) as [[M m2]| |]; [|reflexivity|reflexivity]. cbn [bindO fst snd].
  destruct (Req_EM_T dt 0); reflexivity.
Qed.
Theorem alone_heat_pass qu qv k : forall b, alone f n cs (p_heat_pass n bcs w lin dts saved params qu qv k (bare_cooling b)) (q_mem b) =
  bindO (heat_pass f n c cm bcs w cw lin dts saved params qu qv k b) (fun r => Ok (fst r, bare_cooling (snd r), q_mem (snd r))).
Proof.
  induction k as [|k IH]; intros b; [reflexivity|]. cbn [p_heat_pass heat_pass]. rewrite alone_after.
  change (heat_load (qu k) (qv k) (bare_cooling b)) with (bare_cooling (heat_load (qu k) (qv k) b)). change (q_mem b) with (q_mem (heat_load (qu k) (qv k) b)) at 1.
  rewrite alone_heat_back. destruct (heat_back f n c cm bcs lin dts saved params (heat_load (qu k) (qv k) b)) as [b1| |]; [|reflexivity|reflexivity]. cbn [bindO fst snd].
  unfold p_heat_sensitivity, heat_sensitivity. cbn [after alone bare_cooling q_end q_u q_rate q_adj]. rewrite Cw.
  destruct (evaluate f _ (Some (S (S w))) false _ n (q_mem b1)) as [[L m1]| |]; [|reflexivity|reflexivity]. cbn [bindO fst snd].
  destruct (assemble f (S (S w)) m1 cw) as [V| |]; [|reflexivity|reflexivity]. cbn [bindO fst snd]. rewrite alone_after.
  assert (X := IH (heat_remember m1 b1)). cbn [heat_remember q_mem] in X. change (bare_cooling (heat_remember m1 b1)) with (bare_cooling b1) in X. rewrite X.
  destruct (heat_pass f n c cm bcs w cw lin dts saved params qu qv k (heat_remember m1 b1)) as [[v b2]| |]; reflexivity.
Qed.
End Heat.
Section Motion.
Variable saved : list (list R * list R * list R).
Variable params : nat -> list R.
Lemma alone_motion_back b : alone f n cs (p_motion_back n bcs lin dts saved params (bare_receding b)) (z_mem b) =
  bindO (motion_back f n c cm bcs lin dts saved params b) (fun b' => Ok (bare_receding b', z_mem b')).
Proof.
  unfold p_motion_back, motion_back. cbn [bare_receding z_cycle z_t z_ul z_vl z_al z_U z_V]. destruct (z_cycle b) as [|k]; [reflexivity|].
  unfold checkpointed_dt. destruct (Nat.ltb (length dts) (S k)); [reflexivity|]. destruct (Nat.ltb (length dts) k); [reflexivity|]. cbn [orb bindO].
  destruct (nth_error saved (S k)) as [[[u v] a]|]; [|reflexivity].
  rewrite alone_after, (alone_jacobian f n c cs C0). destruct (jacobian f n c _ _ _ (z_mem b)) as [[K m]| |]; [|reflexivity|reflexivity]. cbn [bindO fst snd].
  rewrite alone_after, (alone_mass f n cm cs C1). destruct (mass f n cm _ _ _ _ m) as [[M m2]| |]; reflexivity.
Qed.
Theorem alone_motion_pass qu qv qa k : forall b, alone f n cs (p_motion_pass n bcs w lin dts saved params qu qv qa k (bare_receding b)) (z_mem b) =
  bindO (motion_pass f n c cm bcs w cw lin dts saved params qu qv qa k b) (fun r => Ok (fst r, bare_receding (snd r), z_mem (snd r))).
Proof.
  induction k as [|k IH]; intros b; [reflexivity|]. cbn [p_motion_pass motion_pass]. rewrite alone_after.
  change (motion_load (qu k) (qv k) (qa k) (bare_receding b)) with (bare_receding (motion_load (qu k) (qv k) (qa k) b)). change (z_mem b) with (z_mem (motion_load (qu k) (qv k) (qa k) b)) at 1.
  rewrite alone_motion_back. destruct (motion_back f n c cm bcs lin dts saved params (motion_load (qu k) (qv k) (qa k) b)) as [b1| |]; [|reflexivity|reflexivity]. cbn [bindO fst snd].
  unfold p_motion_sensitivity, motion_sensitivity. cbn [after alone bare_receding z_end z_u z_a z_adj]. rewrite Cw.
  destruct (evaluate f _ (Some (S (S w))) false _ n (z_mem b1)) as [[L m1]| |]; [|reflexivity|reflexivity]. cbn [bindO fst snd].
  destruct (assemble f (S (S w)) m1 cw) as [V| |]; [|reflexivity|reflexivity]. cbn [bindO fst snd]. rewrite alone_after.
  assert (X := IH (motion_remember m1 b1)). cbn [motion_remember z_mem] in X. change (bare_receding (motion_remember m1 b1)) with (bare_receding b1) in X. rewrite X.
  destruct (motion_pass f n c cm bcs w cw lin dts saved params qu qv qa k (motion_remember m1 b1)) as [[v b2]| |]; reflexivity.
Qed.
End Motion.
End Alone.

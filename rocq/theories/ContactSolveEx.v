(** * Contact solves: a spring against a wall (C65) *)
From Coq Require Import Reals Lra Lia List Arith Bool FunctionalExtensionality.
From Coquelicot Require Import Coquelicot.
Import ListNotations.
From Verif Require Import Sums Contact ContactEx ContactSolve ContactNewton.
Local Open Scope R_scope.

(** one Newton correction: the residual at (u, p), the exact solution of the eliminated system, the update *)
Definition newton_step internal ess geo n (K : (nat -> R) -> nat -> nat -> R) (t : R) (c : contact) (u : nat -> R) (p : list R) (c1 : contact) (u' : nat -> R) (p' : list R) : Prop :=
  exists r g m du dp, residual internal ess geo t c u p = Some (c1, r, map Some g) /\ identity_block c1 = Some m /\
    (forall i, (i < n)%nat -> elim_top n ess (K u) (its c1) geo u du dp i = r i) /\
    (forall q, (q < npd c1)%nat -> elim_bottom n ess (its c1) geo m u du dp q = nth q g 0) /\
    u' = (fun j => u j - du j) /\ p' = map (fun q => fst q - snd q) (combine p dp).

(** a unit spring with a load; the wall is at zero *)
Definition spring (load : R -> R) (t : R) (u : nat -> R) (_ : nat) : R := u 0%nat - load t.
Definition unit_K (_ : nat -> R) (_ _ : nat) : R := 1.
Definition wall (a : R) : surface := {| gapf := fun u _ => u 0%nat + a; bm := fun _ _ j => if Nat.eqb j 0 then 1 else 0; dbm := fun _ _ _ _ => 0 |}.
Definition free (_ : nat) : bool := false.
Definition at_ (x : R) (_ : nat) : R := x.
Definition touching (q : R) : interaction := {| lm := true; penalty := 0; tied := None; pres := [q]; gap := [0] |}.
Definition closed (q : R) : contact := refresh (add_interaction empty_contact (touching q)).
Lemma closed_reachable q : reachable (closed q).
Proof. apply r_merge, r_add; [constructor|]. split; [reflexivity|discriminate]. Qed.
Ltac go := repeat (cbn; unfold new_pressure, zero_at, inactive, geb; cbn; try decide_one); cbn.
Lemma geb_yes a b : b <= a -> geb a b = true. Proof. apply geb_true. Qed.
Lemma geb_no a b : a < b -> geb a b = false. Proof. apply geb_false. Qed.
Lemma tol_le : - tol <= 0. Proof. pose proof tol_pos. lra. Qed.

(** an evaluation at the wall, from a compressed state: whatever is asked for is used *)
Lemma eval_closed q v : q < 0 -> eval_contact (closed q) [[0]] [v] = Some (closed v).
Proof.
  intros H. unfold eval_contact, set_pressures, closed, touching. cbn -[Rle_dec]. unfold new_pressure, inactive, zero_at. cbn -[geb]. rewrite (geb_no q 0 H). cbn. reflexivity.
Qed.
Lemma gaps_wall c q x : its c = [touching q] -> gaps_at (its c) [wall 0] (at_ x) = [[x]].
Proof. intros ->. cbn. unfold at_. now rewrite Rplus_0_r. Qed.
Lemma merged_closed q : merged_gaps true (closed q) = Some [Some 0].
Proof. unfold merged_gaps, merged, closed, touching, inactive, zero_at. cbn -[geb]. destruct (geb q 0); cbn -[geb]; destruct (geb 0 (- tol)); reflexivity. Qed.
Lemma force_closed q x : forces (its (closed q)) [wall 0] (at_ x) 0 = q.
Proof. unfold forces, force_of. cbn. ring. Qed.
Lemma residual_closed load t q v : q < 0 ->
  exists r, residual (spring load) free [wall 0] t (closed q) (at_ 0) [v] = Some (closed v, r, [Some 0]) /\ r 0%nat = - load t + v.
Proof.
  intros H. unfold residual. rewrite (gaps_wall (closed q) q 0 eq_refl), (eval_closed q v H), merged_closed. eexists. split; [reflexivity|]. cbn beta. unfold free. rewrite force_closed. unfold spring, at_. ring.
Qed.
Lemma inactive_closed q : inactive (touching q) = if geb q 0 then [0%nat] else [].
Proof. unfold inactive, touching. cbn -[geb]. rewrite (geb_yes 0 (- tol) tol_le), andb_true_r. reflexivity. Qed.
Lemma identity_closed q : q < 0 -> exists m, identity_block (closed q) = Some m /\ m 0%nat = [].
Proof.
  intros H. destruct (identity_ok (closed q) (closed_reachable q)) as [m [E M]]; [repeat constructor|repeat constructor; discriminate|]. exists m. split; [exact E|]. rewrite M by (cbn; lia).
  unfold inactive_positions. cbn -[inactive]. rewrite inactive_closed, (geb_no q 0 H). reflexivity.
Qed.
(** pushed with load -1, then pulled with load 2 *)
Definition pull (t : R) : R := if Rle_dec t 0 then -1 else 2.
Definition pressed : sim := {| time := 0; ode := 0; disp := at_ 0; con := closed (-1) |}.
Definition stuck : sim := {| time := 1; ode := 1; disp := at_ 0; con := closed 0 |}.
Lemma pressed_settled : exists c', converged (spring pull) free [wall 0] 1 0 (closed (-1)) (at_ 0) [-1] c' /\ its c' = its (closed (-1)).
Proof.
  destruct (residual_closed pull 0 (-1) (-1) ltac:(lra)) as [r [E Hr]]. exists (closed (-1)). split; [|reflexivity]. exists r, [Some 0]. split; [exact E|]. split; [|reflexivity].
  intros j Hj. assert (j = 0%nat) by lia. subst j. rewrite Hr. unfold pull. destruct (Rle_dec 0 0); lra.
Qed.
Lemma pull_1 : pull (0 + 1) = 2. Proof. unfold pull. destruct (Rle_dec (0 + 1) 0); lra. Qed.
Lemma one_correction : newton_step (spring pull) free [wall 0] 1 unit_K (0 + 1) (closed (-1)) (at_ 0) [-1] (closed (-1)) (at_ 0) [2].
Proof.
  destruct (residual_closed pull (0 + 1) (-1) (-1) ltac:(lra)) as [r [E Hr]]. rewrite pull_1 in Hr. destruct (identity_closed (-1) ltac:(lra)) as [m [Em M]].
  exists r, [0], m, (fun _ => 0), [-3]. split; [exact E|]. split; [exact Em|].
  assert (A : active (touching (-1)) 0 = true) by (unfold active; rewrite inactive_closed, (geb_no (-1) 0) by lra; reflexivity).
  split; [|split; [|split]].
  - intros i Hi. assert (i = 0%nat) by lia. subst i. rewrite Hr. unfold elim_top, free, stiffness, stiff_of, rows, unit_K. cbn -[row]. unfold row. cbn [fst snd]. change (active {| lm := true; penalty := 0; tied := None; pres := [-1]; gap := [0] |} 0) with (active (touching (-1)) 0). rewrite A. cbn. lra.
  - intros q Hq. cbn in Hq. assert (q = 0%nat) by lia. subst q. unfold elim_bottom. rewrite M. cbn [suml]. rewrite sumn_zero by (intros; unfold free; ring). cbn. lra.
  - apply functional_extensionality. intros j. unfold at_. ring.
  - cbn. f_equal. lra.
Qed.
Lemma set_closed q v : 0 <= q -> set_pressures (closed q) [v] = Some (closed 0).
Proof.
  intros H. unfold set_pressures, closed, touching. cbn -[Rle_dec]. unfold new_pressure, inactive, zero_at. cbn -[geb]. rewrite (geb_yes q 0 H), (geb_yes 0 (- tol) tol_le). cbn. reflexivity.
Qed.
Lemma stuck_converged : converged (spring pull) free [wall 0] 1 (0 + 1) (closed (-1)) (at_ 0) [2] (closed 2).
Proof.
  destruct (residual_closed pull (0 + 1) (-1) 2 ltac:(lra)) as [r [E Hr]]. exists r, [Some 0]. split; [exact E|]. split; [|reflexivity]. intros j Hj. assert (j = 0%nat) by lia. subst j. rewrite Hr, pull_1. lra.
Qed.
Lemma stuck_step : step_multipliers (spring pull) free [wall 0] 1 pressed 1 stuck.
Proof.
  exists (closed (-1)), (closed 2), (closed 0), [2]. split; [apply closed_reachable|]. split; [reflexivity|]. split; [reflexivity|]. split; [exact stuck_converged|]. split; [apply set_closed; lra|].
  unfold stuck. cbn [disp]. f_equal; [cbn; lra|cbn; lra|]. rewrite (gaps_wall (closed 0) 0 0 eq_refl). reflexivity.
Qed.
Theorem separation_refuted : exists internal K geo s p c1 u1 p1 c2 s',
  (* the previous step ended in balance *)
  (exists c', converged internal free geo 1 (time s) (con s) (disp s) p c' /\ its c' = its (con s)) /\ merged_pressures (con s) = Some (map Some p) /\ reachable (con s) /\
  (* Newton's method: one correction, then a zero residual, so the solver stops *)
  newton_step internal free geo 1 K (time s + 1) (con s) (disp s) p c1 u1 p1 /\ converged internal free geo 1 (time s + 1) c1 u1 p1 c2 /\
  u1 = disp s' /\ step_multipliers internal free geo 1 s 1 s' /\
  (* the answer is not in balance, although a balanced state with positive gap exists *)
  internal (time s') (disp s') 0%nat + forces (its (con s')) geo (disp s') 0 <> 0 /\
  exists x, internal (time s') (at_ x) 0%nat = 0 /\ List.Forall (fun s => 0 < gapf s (at_ x) 0%nat) geo.
Proof.
  exists (spring pull), unit_K, [wall 0], pressed, [-1], (closed (-1)), (at_ 0), [2], (closed 2), stuck.
  split; [exact pressed_settled|]. split; [reflexivity|]. split; [apply closed_reachable|]. split; [exact one_correction|]. split; [exact stuck_converged|]. split; [reflexivity|]. split; [exact stuck_step|].
  assert (P : pull 1 = 2) by (unfold pull; destruct (Rle_dec 1 0); lra). split.
  - cbn [con disp stuck time]. rewrite force_closed. unfold spring, at_. rewrite P. lra.
  - exists 2. cbn [time stuck]. split; [unfold spring, at_; rewrite P; lra|]. constructor; [cbn; unfold at_; lra|constructor].
Qed.

(** ** penalty enforcement: loads stay at the initial time *)
Definition far : interaction := {| lm := false; penalty := 1000; tied := None; pres := [0]; gap := [10] |}.
Definition apart : contact := refresh (add_interaction empty_contact far).
Lemma apart_reachable : reachable apart.
Proof. apply r_merge, r_add; [constructor|]. split; [reflexivity|discriminate]. Qed.
Definition rest (t : R) : sim := {| time := t; ode := 0; disp := at_ 0; con := apart |}.
Lemma eval_apart : eval_contact apart [[10]] [] = Some apart.
Proof.
  unfold eval_contact, set_pressures, apart, far. cbn -[Rle_dec]. unfold new_pressure, inactive, zero_at. cbn -[geb]. rewrite (geb_yes 0 0 (Rle_refl 0)), (geb_yes 10 (- tol)) by (pose proof tol_le; lra). cbn. reflexivity.
Qed.
Lemma gaps_apart : gaps_at (its apart) [wall 10] (at_ 0) = [[10]].
Proof. cbn. unfold at_. do 2 f_equal. lra. Qed.
Lemma force_apart u : forces (its apart) [wall 10] u 0 = 0.
Proof. unfold forces, force_of. cbn. ring. Qed.
Lemma rest_step t : step_penalty (spring (fun t => t)) free [wall 10] 1 (rest t) 1 (rest (t + 1)).
Proof.
  exists apart, apart. split; [exact apart_reachable|]. split; [reflexivity|]. split; [reflexivity|]. split.
  - cbn [rest disp ode]. unfold converged, residual. rewrite gaps_apart, eval_apart. eexists. eexists. split; [reflexivity|]. split; [|reflexivity]. intros j Hj. assert (j = 0%nat) by lia. subst j. cbn beta. unfold free. rewrite force_apart. unfold spring, at_. lra.
  - cbn [rest disp time ode]. unfold rest. f_equal. rewrite gaps_apart. reflexivity.
Qed.
Theorem penalty_time_refuted : exists internal geo s s', reachable (con s) /\ ode s = time s /\ step_penalty internal free geo 1 s 1 s' /\ internal (time s') (disp s') 0%nat + forces (its (con s')) geo (disp s') 0 <> 0.
Proof.
  exists (spring (fun t => t)), [wall 10], (rest 0), (rest (0 + 1)). split; [exact apart_reachable|]. split; [reflexivity|]. split; [apply rest_step|]. cbn [rest time disp con]. rewrite force_apart. unfold spring, at_. lra.
Qed.
Theorem penalty_balance internal ess geo n s dt s' : step_penalty internal ess geo n s dt s' ->
  time s' = time s + dt /\ ode s' = ode s /\ forall j, (j < n)%nat -> ess j = false -> internal (ode s) (disp s') j + forces (its (con s')) geo (disp s') j = 0.
Proof.
  intros (c0 & c1 & Hr & Lg & Lp & (r & g & E & Z & Eg) & E'). split; [rewrite E'; reflexivity|]. split; [rewrite E'; reflexivity|]. intros j Hj He. unfold residual in E. set (gs := gaps_at (its c0) geo (disp s')) in *.
  pose proof (gaps_fits (its c0) geo (disp s') Lg) as F. fold gs in F.
  destruct (eval_its c0 gs [] Hr F (eq_sym Lp)) as [sl [c1' [S [Cv [E1 [I1 [R1 N1]]]]]]]. rewrite E1 in E.
  destruct (merge_facts c1' R1) as [_ [_ [M _]]]. rewrite M in E. injection E as -> Er E. specialize (Z j Hj). rewrite <- Er, He in Z. rewrite E'. cbn [disp con update_gaps its].
  rewrite (forces_pres (put_gaps (its c1) (gaps_at (its c1) geo (disp s'))) (its c1)); [exact Z|].
  clear. generalize (gaps_at (its c1) geo (disp s')). induction (its c1) as [|a l IH]; intros [|x gs]; cbn [put_gaps map]; try reflexivity. f_equal. apply IH.
Qed.

(** ** the derivative theorems apply to the pressed spring *)
Lemma closed_settled : exists c', eval_contact (closed (-1)) (gaps_at (its (closed (-1))) [wall 0] (at_ 0)) [-1] = Some c' /\ its c' = its (closed (-1)).
Proof. exists (closed (-1)). split; [|reflexivity]. rewrite (gaps_wall (closed (-1)) (-1) 0 eq_refl). apply eval_closed. lra. Qed.
Lemma closed_off_edge : List.Forall off_edge (its (closed (-1))).
Proof. constructor; [|constructor]. intros _ k Hk. change (In k (inactive (touching (-1)))) in Hk. rewrite inactive_closed, (geb_no (-1) 0) in Hk by lra. destruct Hk. Qed.
Lemma wall_smooth a u du : smooth 1 (wall a) u du.
Proof.
  split.
  - intros k. cbn. unfold moved. auto_derive; [exact Logic.I|]. cbn. ring.
  - intros k i. cbn. evar_last; [apply (is_derive_const (if Nat.eqb i 0 then 1 else 0) 0)|]. unfold zero; cbn. ring.
Qed.

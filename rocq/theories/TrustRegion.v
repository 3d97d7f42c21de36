(** * Trust-region solver (C28, C30)

    numerics/equation_solver.cpp, class TrustRegion, over the reals.  A division by zero (and the square root of a negative
    number) makes the step undefined: [None]. *)
From Coq Require Import Reals Lra Lia Bool.
From Verif Require Import Sums Tensor Newton.
Local Open Scope R_scope.

Definition add_scaled (z : vec) (t : R) (d : vec) : vec := fun i => z i + t * d i.

(** equation_solver.cpp:323 and 333: tau = (sqrt((tr*tr - zz)*dd + zd*zd) - zd) / dd *)
Definition boundary_tau (tr zz zd dd : R) : option R :=
  if Req_EM_T dd 0 then None else
  let disc := (tr * tr - zz) * dd + zd * zd in
  if Rlt_dec disc 0 then None else Some ((sqrt disc - zd) / dd).
(** equation_solver.cpp:320-325 projectToBoundaryWithCoefs *)
Definition to_boundary (z d : vec) (tr zz zd dd : R) : option vec :=
  match boundary_tau tr zz zd dd with Some tau => Some (add_scaled z tau d) | None => None end.
(** equation_solver.cpp:328-336 projectToBoundaryBetweenWithCoefs: z.Add(-tau, z); z.Add(tau, y) *)
Definition to_boundary_between (z y : vec) (tr zz zy yy : R) : option vec :=
  let dd := yy - 2 * zy + zz in
  let zd := zy - zz in
  match boundary_tau tr zz zd dd with Some tau => Some (add_scaled (add_scaled z (- tau) z) tau y) | None => None end.

(** equation_solver.cpp:339-362 doglegStep *)
Definition dogleg (n : nat) (cp newtonP : vec) (tr : R) : option vec :=
  let cc := vdot n cp cp in
  let nn := vdot n newtonP newtonP in
  let tt := tr * tr in
  if Rle_dec tt cc then (if Req_EM_T cc 0 then None else Some (fun i => sqrt (tt / cc) * cp i))
  else if Rlt_dec nn cc then Some cp
  else if Rlt_dec tt nn then to_boundary_between cp newtonP tr cc (vdot n cp newtonP) nn
  else Some newtonP.

Inductive tr_status := Interior | NegativeCurvature | OnBoundary.
Record cg_state := { cg_z : vec; cg_r : vec; cg_d : vec; cg_rPr : R; cg_zz : R; cg_zd : R; cg_dd : R }.

(** equation_solver.cpp:398-438: the loop of solveTrustRegionModelProblem; [fuel] is max_cg_iterations + 1 - cgIter *)
Fixpoint cg_loop (n : nat) (H P : vec -> vec) (tr tol2 : R) (min_it fuel it : nat) (s : cg_state) : option (vec * tr_status) :=
  match fuel with
  | O => Some (cg_z s, Interior)
  | S k =>
      let Hd := H (cg_d s) in
      let curv := vdot n (cg_d s) Hd in
      let alpha := if Req_EM_T curv 0 then 0 else cg_rPr s / curv in
      let zp := add_scaled (cg_z s) alpha (cg_d s) in
      let zzp := vdot n zp zp in
      let boundary st :=
        match to_boundary (cg_z s) (cg_d s) tr (cg_zz s) (cg_zd s) (cg_dd s) with Some z => Some (z, st) | None => None end in
      if Rle_dec curv 0 then boundary NegativeCurvature
      else if Rlt_dec (tr * tr) zzp then boundary OnBoundary
      else
        let r' := add_scaled (cg_r s) alpha Hd in
        let Pr := P r' in
        let rPr' := vdot n r' Pr in
        if (rleb (vdot n r' r') tol2 && Nat.leb min_it it)%bool then Some (zp, Interior)
        else if Req_EM_T (cg_rPr s) 0 then None
        else
          let beta := rPr' / cg_rPr s in
          let d' := fun i => - 1 * Pr i + beta * cg_d s i in
          cg_loop n H P tr tol2 min_it k (S it)
            {| cg_z := zp; cg_r := r'; cg_d := d'; cg_rPr := rPr'; cg_zz := zzp; cg_zd := vdot n zp d'; cg_dd := vdot n d' d' |}
  end.
(** equation_solver.cpp:366-397; the caller has set z to 0 (reset, line 559) *)
Definition cg_start (n : nat) (P : vec -> vec) (r0 : vec) : cg_state :=
  let d := fun i => 0 + - 1 * P r0 i in
  {| cg_z := fun _ => 0; cg_r := r0; cg_d := d; cg_rPr := vdot n r0 (P r0); cg_zz := 0; cg_zd := 0; cg_dd := vdot n d d |}.
Definition cg_solve (n : nat) (H P : vec -> vec) (tr tol : R) (min_it max_it : nat) (r0 : vec) : option (vec * tr_status) :=
  if (rleb (vdot n r0 r0) (tol * tol) && Nat.leb min_it 0)%bool then Some (fun _ => 0, Interior)
  else cg_loop n H P tr (tol * tol) min_it max_it 1 (cg_start n P r0).

(** ** norms *)
Lemma vdot_add_scaled n z t d :
  vdot n (add_scaled z t d) (add_scaled z t d) = vdot n z z + 2 * t * vdot n z d + t * t * vdot n d d.
Proof.
  unfold vdot, add_scaled. rewrite <- !sumn_scal_l, <- !sumn_plus. apply sumn_ext. intros i _. ring.
Qed.
Lemma vdot_nonneg n z : 0 <= vdot n z z.
Proof. apply sumn_nonneg. intros i _. nra. Qed.
Lemma boundary_tau_spec tr zz zd dd tau : boundary_tau tr zz zd dd = Some tau -> zz + 2 * tau * zd + tau * tau * dd = tr * tr.
Proof.
  unfold boundary_tau. destruct (Req_EM_T dd 0) as [|Hd]; [discriminate|].
  destruct (Rlt_dec _ 0) as [|Hs]; [discriminate|]. intros E. injection E as <-.
  set (disc := (tr * tr - zz) * dd + zd * zd) in *. assert (Q : sqrt disc * sqrt disc = disc) by (apply sqrt_sqrt; lra).
  assert (X : zz + 2 * ((sqrt disc - zd) / dd) * zd + (sqrt disc - zd) / dd * ((sqrt disc - zd) / dd) * dd =
    zz + (sqrt disc * sqrt disc - zd * zd) / dd) by (field; exact Hd).
  rewrite X, Q. unfold disc. field. exact Hd.
Qed.
Lemma boundary_tau_total tr zz zd dd : 0 < dd -> zz <= tr * tr -> exists tau, boundary_tau tr zz zd dd = Some tau /\ 0 <= tau.
Proof.
  intros Hd Hz. unfold boundary_tau. destruct (Req_EM_T dd 0); [lra|].
  assert (D : zd * zd <= (tr * tr - zz) * dd + zd * zd) by nra.
  destruct (Rlt_dec _ 0) as [N|N]; [nra|]. eexists. split; [reflexivity|].
  assert (zd <= sqrt ((tr * tr - zz) * dd + zd * zd)).
  { destruct (Rle_dec zd 0) as [Z|Z]; [pose proof (sqrt_pos ((tr * tr - zz) * dd + zd * zd)); lra|].
    rewrite <- (sqrt_square zd) at 1 by lra. apply sqrt_le_1; nra. }
  apply Rmult_le_pos; [lra|]. left. apply Rinv_0_lt_compat. exact Hd.
Qed.

Theorem to_boundary_norm n z d tr s :
  to_boundary z d tr (vdot n z z) (vdot n z d) (vdot n d d) = Some s -> vdot n s s = tr * tr.
Proof.
  unfold to_boundary. destruct (boundary_tau _ _ _ _) as [tau|] eqn:E; [|discriminate]. intros X. injection X as <-.
  rewrite vdot_add_scaled. apply boundary_tau_spec. exact E.
Qed.
Theorem to_boundary_between_norm n z y tr s :
  to_boundary_between z y tr (vdot n z z) (vdot n z y) (vdot n y y) = Some s -> vdot n s s = tr * tr.
Proof.
  unfold to_boundary_between. destruct (boundary_tau _ _ _ _) as [tau|] eqn:E; [|discriminate]. intros X. injection X as <-.
  apply boundary_tau_spec in E. rewrite <- E.
  transitivity ((1 - tau) * (1 - tau) * vdot n z z + 2 * tau * (1 - tau) * vdot n z y + tau * tau * vdot n y y); [|ring].
  unfold vdot, add_scaled. rewrite <- !sumn_scal_l, <- !sumn_plus. apply sumn_ext. intros i _. ring.
Qed.
Theorem dogleg_within n cp np tr s : dogleg n cp np tr = Some s -> vdot n s s <= tr * tr.
Proof.
  unfold dogleg. destruct (Rle_dec _ _) as [A|A].
  - destruct (Req_EM_T _ 0) as [|Hc]; [discriminate|]. intros E. injection E as <-.
    assert (P : 0 < vdot n cp cp) by (pose proof (vdot_nonneg n cp); lra).
    assert (T : 0 <= tr * tr / vdot n cp cp) by (apply Rmult_le_pos; [nra|left; apply Rinv_0_lt_compat; exact P]).
    right. transitivity (sqrt (tr * tr / vdot n cp cp) * sqrt (tr * tr / vdot n cp cp) * vdot n cp cp).
    + unfold vdot. rewrite <- sumn_scal_l. apply sumn_ext. intros i _. ring.
    + rewrite sqrt_sqrt by exact T. field. exact Hc.
  - destruct (Rlt_dec _ (vdot n cp cp)) as [B|B]; [intros E; injection E as <-; lra|].
    destruct (Rlt_dec _ _) as [C|C]; [intros E; apply to_boundary_between_norm in E; lra|]. intros E. injection E as <-. lra.
Qed.
(** with a positive radius the dogleg step is always defined *)
Theorem dogleg_total n cp np tr : 0 < tr -> exists s, dogleg n cp np tr = Some s.
Proof.
  intros Ht. unfold dogleg. assert (0 < tr * tr) by nra. destruct (Rle_dec _ _) as [A|A].
  - destruct (Req_EM_T _ 0) as [Hc|Hc]; [lra|]. eexists; reflexivity.
  - destruct (Rlt_dec _ (vdot n cp cp)) as [B|B]; [eexists; reflexivity|].
    destruct (Rlt_dec _ _) as [C|C]; [|eexists; reflexivity].
    assert (D : 0 < vdot n np np - 2 * vdot n cp np + vdot n cp cp).
    { assert (Q : vdot n np np - 2 * vdot n cp np + vdot n cp cp = vdot n (add_scaled np (-1) cp) (add_scaled np (-1) cp)).
      { rewrite vdot_add_scaled. assert (vdot n cp np = vdot n np cp) by (apply sumn_ext; intros; ring). lra. }
      rewrite Q. destruct (Rle_lt_or_eq_dec _ _ (vdot_nonneg n (add_scaled np (-1) cp))) as [Z|Z]; [exact Z|]. exfalso.
      assert (Eq : vdot n np np = vdot n cp cp); [|lra]. unfold vdot. apply sumn_ext. intros i Hi.
      assert (Zi := sumn_nonneg_zero n (fun i => add_scaled np (-1) cp i * add_scaled np (-1) cp i)
        ltac:(intros; nra) (eq_sym Z) i Hi). unfold add_scaled in Zi. cbv beta in Zi.
      assert (np i = cp i) by nra. rewrite H0. reflexivity. }
    unfold to_boundary_between.
    destruct (boundary_tau_total tr (vdot n cp cp) (vdot n cp np - vdot n cp cp) _ D ltac:(lra)) as [tau [E _]].
    rewrite E. eexists; reflexivity.
Qed.

(** ** the conjugate-gradient solve *)
Definition cg_inv (n : nat) (tr : R) (s : cg_state) : Prop :=
  cg_zz s = vdot n (cg_z s) (cg_z s) /\ cg_zd s = vdot n (cg_z s) (cg_d s) /\ cg_dd s = vdot n (cg_d s) (cg_d s) /\
  cg_zz s <= tr * tr.
Lemma cg_loop_within n H P tr tol2 m : forall fuel it s z st, cg_inv n tr s ->
  cg_loop n H P tr tol2 m fuel it s = Some (z, st) ->
  vdot n z z <= tr * tr /\ (st <> Interior -> vdot n z z = tr * tr).
Proof.
  induction fuel as [|k IH]; intros it s z st [A [B [C D]]]; cbn [cg_loop].
  - intros E. injection E as <- <-. split; [lra|]. intros X. contradiction.
  - set (curv := vdot n (cg_d s) (H (cg_d s))). set (alpha := if Req_EM_T curv 0 then 0 else cg_rPr s / curv).
    set (zp := add_scaled (cg_z s) alpha (cg_d s)).
    assert (Bd : forall q : tr_status, (match to_boundary (cg_z s) (cg_d s) tr (cg_zz s) (cg_zd s) (cg_dd s) with Some z => Some (z, q) | None => None end) = Some (z, st) ->
      vdot n z z <= tr * tr /\ (st <> Interior -> vdot n z z = tr * tr)).
    { intros q. destruct (to_boundary _ _ _ _ _ _) as [w|] eqn:E; [|discriminate]. intros X. injection X as -> ->.
      rewrite A, B, C in E. apply to_boundary_norm in E. split; [lra|]. intros _. exact E. }
    destruct (Rle_dec curv 0) as [L|L]; [apply Bd|]. destruct (Rlt_dec _ _) as [O|O]; [apply Bd|].
    destruct (rleb _ tol2 && Nat.leb m it)%bool.
    + intros E. injection E as <- <-. split; [lra|]. intros X. contradiction.
    + destruct (Req_EM_T (cg_rPr s) 0); [discriminate|]. intros E. eapply IH; [|exact E].
      unfold cg_inv. cbn [cg_z cg_d cg_zz cg_zd cg_dd]. repeat split; try reflexivity. lra.
Qed.
Lemma cg_start_inv n P tr r0 : cg_inv n tr (cg_start n P r0).
Proof.
  unfold cg_inv, cg_start. cbn [cg_z cg_d cg_zz cg_zd cg_dd]. repeat split.
  - unfold vdot. symmetry. apply sumn_zero. intros. ring.
  - unfold vdot. symmetry. apply sumn_zero. intros. ring.
  - nra.
Qed.
Theorem cg_within n H P tr tol m mx r0 z st : cg_solve n H P tr tol m mx r0 = Some (z, st) ->
  vdot n z z <= tr * tr /\ (st <> Interior -> vdot n z z = tr * tr).
Proof.
  unfold cg_solve. destruct (rleb _ _ && _)%bool.
  - intros E. injection E as <- <-. split; [|intros X; contradiction].
    replace (vdot n (fun _ => 0) (fun _ => 0)) with 0; [nra|]. unfold vdot. symmetry. apply sumn_zero. intros. ring.
  - apply cg_loop_within. apply cg_start_inv.
Qed.

(** the residual and the direction stay conjugate whatever the operators are *)
Definition cg_conj (n : nat) (s : cg_state) : Prop := vdot n (cg_r s) (cg_d s) = - cg_rPr s.
Lemma vdot_combine n (a p q : vec) k : vdot n a (fun i => - 1 * p i + k * q i) = - 1 * vdot n a p + k * vdot n a q.
Proof. unfold vdot. rewrite <- !sumn_scal_l, <- sumn_plus. apply sumn_ext. intros. ring. Qed.
Lemma cg_conj_step n (r Hd d Pr : vec) (rPr curv : R) : curv <> 0 -> rPr <> 0 -> curv = vdot n d Hd -> vdot n r d = - rPr ->
  let r' := add_scaled r (rPr / curv) Hd in
  vdot n r' (fun i => - 1 * Pr i + vdot n r' Pr / rPr * d i) = - vdot n r' Pr.
Proof.
  intros Hc Hr Ec Er r'. assert (Z : vdot n r' d = 0).
  { transitivity (vdot n r d + rPr / curv * vdot n d Hd).
    - unfold r', vdot, add_scaled. rewrite <- sumn_scal_l, <- sumn_plus. apply sumn_ext. intros. ring.
    - rewrite Er, <- Ec. field. exact Hc. }
  transitivity (- 1 * vdot n r' Pr + vdot n r' Pr / rPr * vdot n r' d).
  - apply vdot_combine.
  - rewrite Z. ring.
Qed.
Lemma cg_loop_total n H P tr tol2 : (forall r, vdot n r r <> 0 -> 0 < vdot n r (P r)) -> 0 <= tol2 ->
  forall fuel it s, cg_inv n tr s -> cg_conj n s -> 0 < cg_rPr s ->
  exists z st, cg_loop n H P tr tol2 0 fuel it s = Some (z, st).
Proof.
  intros HP Ht. induction fuel as [|k IH]; intros it s [A [B [C D]]] Cj Pos; cbn [cg_loop]; [eauto|].
  set (curv := vdot n (cg_d s) (H (cg_d s))).
  assert (Dd : 0 < cg_dd s).
  { rewrite C. destruct (Rle_lt_or_eq_dec _ _ (vdot_nonneg n (cg_d s))) as [Z|Z]; [exact Z|]. exfalso.
    assert (vdot n (cg_r s) (cg_d s) = 0); [|unfold cg_conj in Cj; lra]. unfold vdot. apply sumn_zero. intros i Hi.
    assert (Zi := sumn_nonneg_zero n (fun i => cg_d s i * cg_d s i) ltac:(intros; nra) (eq_sym Z) i Hi). cbv beta in Zi.
    assert (cg_d s i = 0) by nra. rewrite H0. ring. }
  assert (Bd : forall q : tr_status, exists z st, (match to_boundary (cg_z s) (cg_d s) tr (cg_zz s) (cg_zd s) (cg_dd s) with Some z => Some (z, q) | None => None end) = Some (z, st)).
  { intros q. unfold to_boundary. destruct (boundary_tau_total tr (cg_zz s) (cg_zd s) (cg_dd s) Dd D) as [tau [E _]]. rewrite E. eauto. }
  destruct (Rle_dec curv 0) as [L|L]; [apply Bd|]. destruct (Rlt_dec _ _) as [O|O]; [apply Bd|].
  destruct (Req_EM_T curv 0) as [|Nc]; [lra|].
  set (r' := add_scaled (cg_r s) (cg_rPr s / curv) (H (cg_d s))) in *.
  destruct (rleb (vdot n r' r') tol2 && Nat.leb 0 it)%bool eqn:G; [eauto|].
  destruct (Req_EM_T (cg_rPr s) 0) as [|Nr]; [lra|]. apply IH.
  - unfold cg_inv. cbn [cg_z cg_d cg_zz cg_zd cg_dd]. repeat split; try reflexivity. lra.
  - unfold cg_conj. cbn [cg_r cg_d cg_rPr]. apply (cg_conj_step n (cg_r s) (H (cg_d s)) (cg_d s) (P r') (cg_rPr s) curv); auto.
  - cbn [cg_rPr]. apply HP. intros Z. rewrite andb_false_iff in G. destruct G as [G|G]; [|discriminate].
    unfold rleb in G. destruct (Rle_dec (vdot n r' r') tol2); [discriminate|]. rewrite Z in n0. lra.
Qed.
(** with a positive definite preconditioner and no minimum iteration count the solve never divides by zero *)
Theorem cg_total n H P tr tol mx r0 : (forall r, vdot n r r <> 0 -> 0 < vdot n r (P r)) ->
  exists z st, cg_solve n H P tr tol 0 mx r0 = Some (z, st).
Proof.
  intros HP. unfold cg_solve. destruct (rleb _ _ && _)%bool eqn:G; [eauto|].
  assert (N : vdot n r0 r0 <> 0).
  { intros Z. rewrite andb_false_iff in G. destruct G as [G|G]; [|discriminate]. unfold rleb in G.
    destruct (Rle_dec (vdot n r0 r0) (tol * tol)); [discriminate|]. rewrite Z in n0. nra. }
  apply cg_loop_total; auto.
  - nra.
  - apply cg_start_inv.
  - unfold cg_conj, cg_start. cbn [cg_r cg_d cg_rPr]. unfold vdot. rewrite <- sumn_opp. apply sumn_ext. intros. ring.
  - cbn [cg_start cg_rPr]. apply HP. exact N.
Qed.

(** *** the quadratic model decreases along the solve (symmetric Hessian) *)
Definition quadratic_model (n : nat) (H : vec -> vec) (r0 z : vec) : R := vdot n r0 z + 0.5 * vdot n z (H z).
Record symmetric_linear (n : nat) (H : vec -> vec) : Prop := {
  sl_zero : forall i, H (fun _ => 0) i = 0;
  sl_add : forall z t d i, H (add_scaled z t d) i = H z i + t * H d i;
  sl_sym : forall x y, vdot n x (H y) = vdot n y (H x) }.
Lemma vdot_comm n x y : vdot n x y = vdot n y x.
Proof. apply sumn_ext. intros. ring. Qed.
Lemma model_along n H r0 z t d : symmetric_linear n H ->
  quadratic_model n H r0 (add_scaled z t d) =
  quadratic_model n H r0 z + t * vdot n (fun i => r0 i + H z i) d + 0.5 * (t * t) * vdot n d (H d).
Proof.
  intros SL. unfold quadratic_model.
  assert (A : vdot n r0 (add_scaled z t d) = vdot n r0 z + t * vdot n r0 d).
  { unfold vdot, add_scaled. rewrite <- sumn_scal_l, <- sumn_plus. apply sumn_ext. intros. ring. }
  assert (B : vdot n (add_scaled z t d) (H (add_scaled z t d)) =
    vdot n z (H z) + t * vdot n z (H d) + t * vdot n d (H z) + t * t * vdot n d (H d)).
  { unfold vdot. rewrite <- !sumn_scal_l, <- !sumn_plus. apply sumn_ext. intros i _. rewrite (sl_add n H SL). unfold add_scaled. ring. }
  assert (C : vdot n (fun i => r0 i + H z i) d = vdot n r0 d + vdot n d (H z)).
  { rewrite (vdot_comm n d). unfold vdot. rewrite <- sumn_plus. apply sumn_ext. intros. ring. }
  rewrite A, B, C, (sl_sym n H SL z d). lra.
Qed.
Definition cg_resid (n : nat) (H : vec -> vec) (r0 : vec) (s : cg_state) : Prop := forall i, cg_r s i = r0 i + H (cg_z s) i.
Lemma convex_between zz zd dd tt tau al : 0 <= dd -> zz <= tt -> 0 <= al -> zz + 2 * tau * zd + tau * tau * dd = tt ->
  tt < zz + 2 * al * zd + al * al * dd -> tau <= al.
Proof.
  intros Hd Hz Ha Et Eal. destruct (Rle_dec tau al) as [|N]; [assumption|]. exfalso. assert (al < tau) by lra.
  assert (0 < tau) by lra.
  (* phi(al) <= (1 - al/tau) phi(0) + al/tau phi(tau) *)
  assert (Q : tau * (zz + 2 * al * zd + al * al * dd) <= (tau - al) * zz + al * (zz + 2 * tau * zd + tau * tau * dd)).
  { assert (0 <= al * (tau - al) * (tau * dd)) by (apply Rmult_le_pos; [nra|nra]). nra. }
  rewrite Et in Q. assert (tau * tt < tau * (zz + 2 * al * zd + al * al * dd)) by (apply Rmult_lt_compat_l; assumption).
  assert ((tau - al) * zz <= (tau - al) * tt) by (apply Rmult_le_compat_l; lra). lra.
Qed.
Lemma cg_loop_model n H P tr tol2 m r0 : symmetric_linear n H ->
  forall fuel it s z st, cg_inv n tr s -> cg_conj n s -> cg_resid n H r0 s -> 0 <= cg_rPr s ->
  (forall r, 0 <= vdot n r (P r)) ->
  cg_loop n H P tr tol2 m fuel it s = Some (z, st) -> quadratic_model n H r0 z <= quadratic_model n H r0 (cg_z s).
Proof.
  intros SL. induction fuel as [|k IH]; intros it s z st [A [B [C D]]] Cj Rs Pos HP; cbn [cg_loop].
  { intros E. injection E as <- <-. lra. }
  set (curv := vdot n (cg_d s) (H (cg_d s))). set (alpha := if Req_EM_T curv 0 then 0 else cg_rPr s / curv).
  set (zp := add_scaled (cg_z s) alpha (cg_d s)).
  assert (Al : forall t, quadratic_model n H r0 (add_scaled (cg_z s) t (cg_d s)) =
    quadratic_model n H r0 (cg_z s) - t * cg_rPr s + 0.5 * (t * t) * curv).
  { intros t. rewrite (model_along n H r0 _ t _ SL). fold curv.
    assert (X : vdot n (fun i => r0 i + H (cg_z s) i) (cg_d s) = - cg_rPr s).
    { rewrite <- Cj. apply sumn_ext. intros i _. rewrite (Rs i). reflexivity. }
    rewrite X. ring. }
  assert (Dp : 0 <= cg_dd s) by (rewrite C; apply vdot_nonneg).
  assert (Bd : forall (q : tr_status), (match to_boundary (cg_z s) (cg_d s) tr (cg_zz s) (cg_zd s) (cg_dd s) with Some z => Some (z, q) | None => None end) = Some (z, st) ->
    exists tau, z = add_scaled (cg_z s) tau (cg_d s) /\ 0 <= tau /\ cg_zz s + 2 * tau * cg_zd s + tau * tau * cg_dd s = tr * tr).
  { intros q. unfold to_boundary. destruct (boundary_tau _ _ _ _) as [tau|] eqn:E; [|discriminate]. intros X. injection X as <- _.
    exists tau. split; [reflexivity|]. split; [|apply boundary_tau_spec; exact E].
    destruct (Rle_lt_or_eq_dec _ _ Dp) as [Dq|Dq].
    - destruct (boundary_tau_total tr (cg_zz s) (cg_zd s) (cg_dd s) Dq D) as [tau' [E' P']]. rewrite E in E'. injection E' as <-. exact P'.
    - exfalso. unfold boundary_tau in E. destruct (Req_EM_T (cg_dd s) 0); [discriminate|lra]. }
  destruct (Rle_dec curv 0) as [L|L].
  { intros E. destruct (Bd _ E) as [tau [-> [Tp _]]]. rewrite Al. nra. }
  assert (Ea : alpha = cg_rPr s / curv) by (unfold alpha; destruct (Req_EM_T curv 0); [lra|reflexivity]).
  assert (Ap : 0 <= alpha) by (rewrite Ea; apply Rmult_le_pos; [exact Pos|left; apply Rinv_0_lt_compat; lra]).
  assert (Er : cg_rPr s = alpha * curv) by (rewrite Ea; field; lra).
  destruct (Rlt_dec _ _) as [O|O].
  { intros E. destruct (Bd _ E) as [tau [-> [Tp Tq]]]. rewrite Al, Er.
    assert (tau <= alpha).
    { apply (convex_between (cg_zz s) (cg_zd s) (cg_dd s) (tr * tr)); auto. unfold zp in O. rewrite vdot_add_scaled in O.
      rewrite A, B, C. exact O. }
    assert (0 <= tau * curv * (alpha - 0.5 * tau)); [|lra]. apply Rmult_le_pos; [nra|lra]. }
  assert (Dn : quadratic_model n H r0 zp <= quadratic_model n H r0 (cg_z s)).
  { unfold zp. rewrite Al, Er. assert (0 <= alpha * alpha * curv); [|lra]. apply Rmult_le_pos; nra. }
  destruct (rleb _ tol2 && Nat.leb m it)%bool.
  { intros E. injection E as <- <-. exact Dn. }
  destruct (Req_EM_T (cg_rPr s) 0) as [|Nr]; [discriminate|]. intros E. eapply Rle_trans; [|exact Dn].
  refine (IH _ _ _ _ _ _ _ _ _ E).
  - unfold cg_inv. cbn [cg_z cg_d cg_zz cg_zd cg_dd]. repeat split; try reflexivity. lra.
  - unfold cg_conj. cbn [cg_r cg_d cg_rPr]. rewrite Ea.
    apply (cg_conj_step n (cg_r s) (H (cg_d s)) (cg_d s) (P (add_scaled (cg_r s) (cg_rPr s / curv) (H (cg_d s)))) (cg_rPr s) curv); auto; lra.
  - unfold cg_resid. cbn [cg_r cg_z]. intros i. unfold zp. rewrite (sl_add n H SL). unfold add_scaled. rewrite (Rs i). ring.
  - cbn [cg_rPr]. apply HP.
  - exact HP.
Qed.
Theorem cg_model_decreases n H P tr tol m mx r0 z st : symmetric_linear n H -> (forall r, 0 <= vdot n r (P r)) ->
  cg_solve n H P tr tol m mx r0 = Some (z, st) -> quadratic_model n H r0 z <= 0.
Proof.
  intros SL HP. assert (Z : quadratic_model n H r0 (fun _ => 0) = 0).
  { unfold quadratic_model, vdot. rewrite (sumn_zero n (fun i => r0 i * 0)) by (intros; ring).
    rewrite (sumn_zero n (fun i => 0 * H (fun _ => 0) i)) by (intros; ring). lra. }
  unfold cg_solve. destruct (rleb _ _ && _)%bool; [intros E; injection E as <- <-; lra|]. intros E. rewrite <- Z.
  apply (cg_loop_model n H P tr (tol * tol) m r0 SL _ _ _ _ _ (cg_start_inv n P tr r0)) in E; auto.
  - unfold cg_conj, cg_start. cbn [cg_r cg_d cg_rPr]. unfold vdot. rewrite <- sumn_opp. apply sumn_ext. intros. ring.
  - unfold cg_resid, cg_start. cbn [cg_r cg_z]. intros i. rewrite (sl_zero n H SL). ring.
  - cbn [cg_start cg_rPr]. apply HP.
Qed.

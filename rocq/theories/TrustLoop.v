(** * The outer trust-region iteration (C28, C30): equation_solver.cpp:475-684 TrustRegion::Mult *)
From Coq Require Import Reals Lra Lia Bool.
From Verif Require Import Sums Tensor Newton TrustRegion.
Local Open Scope R_scope.

(** equation_solver.cpp:205-227 TrustRegionSettings *)
Definition t1 : R := / 4.
Definition t2 : R := 7 / 4.
Definition eta1 : R := / 10 ^ 9.
Definition eta2 : R := / 10.
Definition eta3 : R := 6 / 10.

(** the quotient of two doubles, the second of which is a negative zero when it vanishes *)
Inductive quotient := Fin (q : R) | PlusInf | MinusInf | NaN.
Definition divide (a b : R) : quotient :=
  if Req_EM_T b 0 then (if Rlt_dec 0 a then MinusInf else if Rlt_dec a 0 then PlusInf else NaN) else Fin (a / b).
Definition at_least (q : quotient) (b : R) : bool := match q with Fin a => rleb b a | PlusInf => true | _ => false end.
Definition above (q : quotient) (b : R) : bool := match q with Fin a => rltb b a | PlusInf => true | _ => false end.

(** equation_solver.cpp:636-645: rho from the work estimate and the model; modelImprove is -modelObjective, so a vanishing
    model objective (a sum, hence +0.0) gives the divisor -0.0 *)
Definition rho_of (real : num) (model : R) : quotient :=
  match real with
  | None => NaN
  | Some re => if Rlt_dec 0 model then divide (- re) (- - model) else divide (- re) (- model)
  end.
(** equation_solver.cpp:647-651 *)
Definition next_radius (rho : quotient) (st : tr_status) (tr : R) : R :=
  if negb (at_least rho eta2) then tr * t1
  else if (above rho eta3 && match st with OnBoundary => true | _ => false end)%bool then tr * t2 else tr.

Record tr_system := { ts_sys : system; ts_hess : vec -> vec -> vec; ts_prec : vec -> vec -> vec }.
Record tr_state := { tr_pt : point; tr_size : R; tr_pred : vec }.

Section Loop.
Variable huge : R.
Variable n : nat.
Variable ts : tr_system.

(** equation_solver.cpp:558-588: Cauchy point and model-problem step at the current point; [cg_max] is the linear iteration limit *)
Definition cauchy (H : vec -> vec) (r : vec) (tr : R) : option (vec * R) :=
  let gKg := vdot n r (H r) in
  if Rlt_dec 0 gKg then
    let cp := fun i => - vdot n r r / gKg * r i in Some (cp, vdot n cp cp)
  else if Req_EM_T (sqrt (vdot n r r)) 0 then None
  else Some (fun i => - tr / sqrt (vdot n r r) * r i, tr * tr).
Definition proposal (H P : vec -> vec) (r : vec) (tr tol : R) (cg_min cg_max : nat) : option (vec * vec * tr_status) :=
  match cauchy H r tr with
  | None => None
  | Some (cp, c2) =>
      if Rle_dec (tr * tr) c2 then
        if Req_EM_T (sqrt c2) 0 then None else
        let cp' := fun i => tr / sqrt c2 * cp i in Some (cp', cp', OnBoundary)
      else match cg_solve n H P tr tol cg_min cg_max r with
           | Some (z, st) => Some (cp, z, st)
           | None => None
           end
  end.

(** equation_solver.cpp:591-672: the trials of one outer iteration; [fuel] trials are left.  [None]: a step became undefined. *)
Fixpoint trials (goal : R) (H : vec -> vec) (cp z : vec) (st : tr_status) (fuel : nat) (s : tr_state) : option tr_state :=
  match fuel with
  | O => Some s
  | S k =>
      match dogleg n cp z (tr_size s) with
      | None => None
      | Some d =>
          let r := pt_r (tr_pt s) in
          let model := vdot n r d + 0.5 * vdot n d (H d) in
          let x' := fun i => pt_x (tr_pt s) i + d i in
          let p' := eval_at huge (ts_sys ts) x' (tr_pred s) (pt_evals (tr_pt s)) in
          let real := match sys_res (ts_sys ts) x' with
                      | Some rp => match sys_norm (ts_sys ts) rp with Some _ => Some (0.5 * (vdot n r d + vdot n rp d)) | None => None end
                      | None => Some huge
                      end in
          if nleb (pt_norm p') (Some goal) then Some {| tr_pt := p'; tr_size := tr_size s; tr_pred := pt_r p' |} else
          let rho := rho_of real model in
          let size' := next_radius rho st (tr_size s) in
          if at_least rho eta1 then Some {| tr_pt := p'; tr_size := size'; tr_pred := pt_r p' |}
          else trials goal H cp z st k
                 {| tr_pt := {| pt_x := pt_x (tr_pt s); pt_r := r; pt_norm := pt_norm (tr_pt s); pt_evals := pt_evals p' |};
                    tr_size := size'; tr_pred := pt_r p' |}
      end
  end.
Definition tr_iteration (o : options) (goal : R) (cg_max : nat) (s : tr_state) : option tr_state :=
  let x := pt_x (tr_pt s) in
  let nrm := match pt_norm (tr_pt s) with Some v => v | None => 0 end in
  match proposal (ts_hess ts x) (ts_prec ts x) (pt_r (tr_pt s)) (tr_size s) (smax (0.5 * goal) (5 / 10 ^ 5 * nrm)) (o_min o) cg_max with
  | Some (cp, z, st) => trials goal (ts_hess ts x) cp z st (S (o_ls o)) s
  | None => None
  end.
(** equation_solver.cpp:516-673; same stopping tests as the Newton solver *)
Fixpoint tr_loop (o : options) (goal : R) (cg_max fuel it : nat) (s : tr_state) : option result :=
  let stop v := Some {| res_pt := tr_pt s; res_verdict := v; res_iters := it; res_goal := goal |} in
  match pt_norm (tr_pt s) with
  | None => stop Undefined
  | Some nrm =>
      if (rleb nrm goal && Nat.leb (o_min o) it)%bool then stop Converged else
      match fuel with
      | O => stop Failed
      | S k => match tr_iteration o goal cg_max s with Some s' => tr_loop o goal cg_max k (S it) s' | None => None end
      end
  end.
(** [None] also when the first residual evaluation throws: that exception leaves Mult *)
Definition tr_solve (o : options) (scaling : R) (cg_max : nat) (x : vec) : option result :=
  match sys_res (ts_sys ts) x with
  | None => None
  | Some r =>
      let p := {| pt_x := x; pt_r := r; pt_norm := sys_norm (ts_sys ts) r; pt_evals := 1 |} in
      match sys_norm (ts_sys ts) r with
      | None => Some {| res_pt := p; res_verdict := Undefined; res_iters := 0; res_goal := 0 |}
      | Some n0 => tr_loop o (smax (o_rel o * n0) (o_abs o)) cg_max (o_max o) 0
                     {| tr_pt := p; tr_size := scaling * sqrt (vdot n (fun _ => 1) (fun _ => 1)); tr_pred := fun _ => 0 |}
      end
  end.

(** ** the ratio test *)
Lemma eta1_pos : 0 < eta1. Proof. unfold eta1. apply Rinv_0_lt_compat. apply pow_lt. lra. Qed.
Theorem accepted_work real model : model <> 0 -> at_least (rho_of (Some real) model) eta1 = true -> real < 0.
Proof.
  intros Hm. pose proof eta1_pos as He. unfold rho_of. destruct (Rlt_dec 0 model) as [P|P]; unfold divide.
  - destruct (Req_EM_T (- - model) 0) as [Z|Z]; [lra|]. cbn [at_least]. rewrite rleb_true. intros A.
    assert (E : - real = - real / - - model * model) by (field; lra).
    assert (0 < - real / - - model * model) by (apply Rmult_lt_0_compat; lra). lra.
  - destruct (Req_EM_T (- model) 0) as [Z|Z]; [lra|]. cbn [at_least]. rewrite rleb_true. intros A.
    assert (E : - real = - real / - model * - model) by (field; lra).
    assert (0 < - real / - model * - model) by (apply Rmult_lt_0_compat; lra). lra.
Qed.
(** the radius grows only with an accepted step *)
Lemma radius_bounds rho st tr : 0 < tr -> 0 < next_radius rho st tr <= t2 * tr /\ (at_least rho eta1 = false -> next_radius rho st tr = t1 * tr).
Proof.
  intros Ht. unfold next_radius, t1, t2. destruct (at_least rho eta2) eqn:E; cbn [negb].
  - assert (A : at_least rho eta1 = true).
    { destruct rho; cbn [at_least] in *; auto. apply rleb_true in E. apply rleb_true. eapply Rle_trans; [|exact E].
      unfold eta1, eta2. apply Rinv_le_contravar; [lra|]. cbn [pow]. lra. }
    rewrite A. split; [|discriminate]. destruct (above _ _ && _)%bool; lra.
  - split; [lra|]. intros. lra.
Qed.

(** ** one outer iteration *)
Definition trial_work (r d : vec) (rp : vec) : R := 0.5 * (vdot n r d + vdot n rp d).
Theorem trials_spec goal H cp z st : forall fuel s s', 0 < tr_size s -> trials goal H cp z st fuel s = Some s' -> honest huge (ts_sys ts) (tr_pt s) ->
  honest huge (ts_sys ts) (tr_pt s') /\ 0 < tr_size s' /\ (pt_evals (tr_pt s') <= pt_evals (tr_pt s) + fuel)%nat /\
  ((pt_x (tr_pt s') = pt_x (tr_pt s) /\ pt_norm (tr_pt s') = pt_norm (tr_pt s) /\ tr_size s' = t1 ^ fuel * tr_size s) \/
   exists d, pt_x (tr_pt s') = (fun i => pt_x (tr_pt s) i + d i) /\ vdot n d d <= tr_size s * tr_size s /\
     (nleb (pt_norm (tr_pt s')) (Some goal) = true \/
      vdot n (pt_r (tr_pt s)) d + 0.5 * vdot n d (H d) = 0 \/
      (sys_res (ts_sys ts) (pt_x (tr_pt s')) = None /\ huge < 0) \/
      exists rp, sys_res (ts_sys ts) (pt_x (tr_pt s')) = Some rp /\ trial_work (pt_r (tr_pt s)) d rp < 0)).
Proof.
  induction fuel as [|k IH]; intros s s' Ht; cbn [trials].
  { intros E Hn. injection E as <-. split; [exact Hn|]. split; [exact Ht|]. split; [lia|]. left. cbn [pow]. repeat split; ring. }
  destruct (dogleg n cp z (tr_size s)) as [d|] eqn:Ed; [|discriminate]. assert (Dn := dogleg_within _ _ _ _ _ Ed).
  set (x' := fun i => pt_x (tr_pt s) i + d i). set (model := vdot n (pt_r (tr_pt s)) d + 0.5 * vdot n d (H d)).
  set (p' := eval_at huge (ts_sys ts) x' (tr_pred s) (pt_evals (tr_pt s))).
  assert (Hp : honest huge (ts_sys ts) p') by apply eval_honest.
  assert (Xp : pt_x p' = x') by apply eval_x. assert (Ep : pt_evals p' = S (pt_evals (tr_pt s))) by apply eval_evals.
  destruct (nleb (pt_norm p') (Some goal)) eqn:G.
  { intros E Hn. injection E as <-. cbn [tr_pt tr_size]. split; [exact Hp|]. split; [exact Ht|]. split; [lia|]. right. exists d. auto. }
  set (real := match sys_res (ts_sys ts) x' with Some rp => _ | None => _ end). set (rho := rho_of real model).
  destruct (radius_bounds rho st (tr_size s) Ht) as [[R1 _] R2].
  destruct (at_least rho eta1) eqn:A; intros E Hn.
  - injection E as <-. cbn [tr_pt tr_size]. split; [exact Hp|]. split; [exact R1|]. split; [lia|]. right. exists d. split; [exact Xp|].
    split; [exact Dn|]. right. destruct (Req_EM_T model 0) as [Z|Z]; [left; exact Z|]. right. rewrite Xp. unfold rho, real in A.
    destruct (sys_res (ts_sys ts) x') as [rp|].
    + right. exists rp. split; [reflexivity|]. destruct (sys_norm (ts_sys ts) rp); [|discriminate].
      exact (accepted_work _ _ Z A).
    + left. split; [reflexivity|]. exact (accepted_work _ _ Z A).
  - pose proof (fun a => IH _ _ a E) as Q. cbn [tr_size] in Q. destruct (Q R1) as [I1 [I2 [I3 I4]]].
    { unfold honest in Hn |- *. cbn [tr_pt pt_x pt_r pt_norm]. exact Hn. }
    cbn [tr_pt tr_size pt_x pt_norm pt_evals pt_r] in *. split; [exact I1|]. split; [exact I2|]. split; [lia|].
    specialize (R2 eq_refl). destruct I4 as [[J1 [J2 J3]]|[d' [J1 [J2 J3]]]].
    + left. split; [exact J1|]. split; [exact J2|]. rewrite J3, R2. cbn [pow]. ring.
    + right. exists d'. split; [exact J1|]. split; [|exact J3]. eapply Rle_trans; [exact J2|]. rewrite R2.
      assert (0 < tr_size s * tr_size s) by nra. unfold t1. nra.
Qed.
Lemma vdot_scaled k (v : vec) : vdot n (fun i => k * v i) (fun i => k * v i) = k * k * vdot n v v.
Proof. unfold vdot. rewrite <- sumn_scal_l. apply sumn_ext. intros. ring. Qed.
Theorem proposal_within H P r tr tol mn mx cp z st : 0 < tr -> proposal H P r tr tol mn mx = Some (cp, z, st) ->
  vdot n cp cp <= tr * tr /\ vdot n z z <= tr * tr.
Proof.
  intros Ht. unfold proposal, cauchy.
  assert (Sc : forall (v : vec) c2, vdot n v v = c2 -> tr * tr <= c2 ->
    vdot n (fun i => tr / sqrt c2 * v i) (fun i => tr / sqrt c2 * v i) = tr * tr).
  { intros v c2 Ev L. assert (0 < c2) by nra. assert (Q := sqrt_sqrt c2 ltac:(lra)). assert (0 < sqrt c2) by (apply sqrt_lt_R0; lra).
    transitivity (tr / sqrt c2 * (tr / sqrt c2) * vdot n v v).
    - unfold vdot. rewrite <- sumn_scal_l. apply sumn_ext. intros. ring.
    - rewrite Ev. rewrite <- Q at 3. field. lra. }
  destruct (Rlt_dec 0 _) as [G|G].
  - set (cp0 := fun i => - vdot n r r / vdot n r (H r) * r i). destruct (Rle_dec _ _) as [L|L].
    + destruct (Req_EM_T _ 0); [discriminate|]. intros E. injection E as <- <- _. pose proof (Sc cp0 _ eq_refl L) as Q. split; apply Req_le; exact Q.
    + destruct (cg_solve _ _ _ _ _ _ _ _) as [[z' st']|] eqn:Ec; [|discriminate]. intros E. injection E as <- <- _.
      apply cg_within in Ec. lra.
  - destruct (Req_EM_T (sqrt (vdot n r r)) 0) as [|Nz]; [discriminate|]. destruct (Rle_dec _ _) as [L|L]; [|lra].
    destruct (Req_EM_T _ 0); [discriminate|]. intros E. injection E as <- <- _.
    assert (V : vdot n (fun i => - tr / sqrt (vdot n r r) * r i) (fun i => - tr / sqrt (vdot n r r) * r i) = tr * tr).
    { assert (Q := sqrt_sqrt _ (vdot_nonneg n r)).
      transitivity (- tr / sqrt (vdot n r r) * (- tr / sqrt (vdot n r r)) * vdot n r r).
      - apply vdot_scaled.
      - rewrite <- Q at 3. field. exact Nz. }
    pose proof (Sc _ _ V L) as Q. split; apply Req_le; exact Q.
Qed.

(** ** the solver's verdict *)
Lemma tr_loop_spec o goal cg : forall fuel it s r, 0 < tr_size s -> honest huge (ts_sys ts) (tr_pt s) -> tr_loop o goal cg fuel it s = Some r ->
  honest huge (ts_sys ts) (res_pt r) /\ (it <= res_iters r <= it + fuel)%nat /\
  (pt_evals (res_pt r) <= pt_evals (tr_pt s) + (res_iters r - it) * (o_ls o + 1))%nat /\
  (res_verdict r = Converged -> exists v, pt_norm (res_pt r) = Some v /\ v <= goal /\ (o_min o <= res_iters r)%nat) /\
  (res_verdict r = Failed -> res_iters r = (it + fuel)%nat /\
     forall v, pt_norm (res_pt r) = Some v -> goal < v \/ (res_iters r < o_min o)%nat) /\
  (res_verdict r = Undefined -> pt_norm (res_pt r) = None).
Proof.
  induction fuel as [|k IH]; intros it s r Ht Hn; cbn [tr_loop]; destruct (pt_norm (tr_pt s)) as [nrm|] eqn:En.
  - destruct (rleb nrm goal && Nat.leb (o_min o) it)%bool eqn:G; intros E; injection E as <-; cbn [res_pt res_goal res_iters res_verdict];
      (split; [exact Hn|]); (split; [lia|]); (split; [lia|]).
    + apply andb_true_iff in G. destruct G as [G1 G2]. apply rleb_true in G1. apply PeanoNat.Nat.leb_le in G2.
      split; [intros _; exists nrm; auto|]. split; discriminate.
    + split; [discriminate|]. split; [|discriminate]. intros _. split; [lia|]. intros v Hv. rewrite En in Hv. injection Hv as <-.
      apply andb_false_iff in G. destruct G as [G|G]; [left|right; apply PeanoNat.Nat.leb_gt in G; exact G].
      unfold rleb in G. destruct (Rle_dec nrm goal); [discriminate|lra].
  - intros E; injection E as <-. cbn [res_pt res_goal res_iters res_verdict]. (split; [exact Hn|]); (split; [lia|]); (split; [lia|]).
    split; [discriminate|]. split; [discriminate|]. auto.
  - destruct (rleb nrm goal && Nat.leb (o_min o) it)%bool eqn:G.
    + intros E; injection E as <-. cbn [res_pt res_goal res_iters res_verdict]. (split; [exact Hn|]); (split; [lia|]); (split; [lia|]).
      apply andb_true_iff in G. destruct G as [G1 G2]. apply rleb_true in G1. apply PeanoNat.Nat.leb_le in G2.
      split; [intros _; exists nrm; auto|]. split; discriminate.
    + unfold tr_iteration. destruct (proposal _ _ _ _ _ _ _) as [[[cp z] st]|]; [|discriminate].
      destruct (trials goal _ cp z st (S (o_ls o)) s) as [s'|] eqn:Es; [|discriminate].
      destruct (trials_spec _ _ _ _ _ _ _ _ Ht Es Hn) as [H' [T' [Ev _]]]. intros E.
      destruct (IH (S it) s' r T' H' E) as [A [C [D [F [K L]]]]]. split; [exact A|]. split; [lia|]. split.
      * eapply PeanoNat.Nat.le_trans; [exact D|]. replace (res_iters r - it)%nat with (S (res_iters r - S it)) by lia. cbn [Nat.mul]. lia.
      * split; [exact F|]. split; [|exact L]. intros V. destruct (K V) as [F1 F2]. split; [lia|exact F2].
  - intros E; injection E as <-. cbn [res_pt res_goal res_iters res_verdict]. (split; [exact Hn|]); (split; [lia|]); (split; [lia|]).
    split; [discriminate|]. split; [discriminate|]. auto.
Qed.
Lemma first_radius scaling : 0 < scaling -> (0 < n)%nat -> 0 < scaling * sqrt (vdot n (fun _ => 1) (fun _ => 1)).
Proof.
  intros Hs Hn. apply Rmult_lt_0_compat; [exact Hs|]. apply sqrt_lt_R0. unfold vdot. rewrite sumn_const.
  assert (0 < INR n) by (apply lt_0_INR; exact Hn). lra.
Qed.
Theorem tr_converged o scaling cg x r n0 res : 0 < scaling -> (0 < n)%nat ->
  sys_res (ts_sys ts) x = Some r -> sys_norm (ts_sys ts) r = Some n0 -> Rmax (o_rel o * n0) (o_abs o) < huge ->
  tr_solve o scaling cg x = Some res -> res_verdict res = Converged ->
  exists rf nf, sys_res (ts_sys ts) (pt_x (res_pt res)) = Some rf /\ sys_norm (ts_sys ts) rf = Some nf /\
    nf <= Rmax (o_rel o * n0) (o_abs o) /\ (o_min o <= res_iters res)%nat.
Proof.
  intros Hs Hn Er En Hg. unfold tr_solve. rewrite Er, En, smax_spec. intros E V.
  destruct (fun Ht Hh => tr_loop_spec o _ cg _ _ _ res Ht Hh E) as [A [_ [_ [C _]]]].
  - cbn [tr_size]. apply first_radius; assumption.
  - unfold honest. cbn [tr_pt pt_x pt_r pt_norm]. rewrite Er, En. auto.
  - destruct (C V) as [v [Hv [Le Mi]]]. unfold honest in A. destruct (sys_res (ts_sys ts) (pt_x (res_pt res))) as [rf|] eqn:Ef.
    + destruct A as [_ A]. rewrite A in Hv. exists rf, v. auto.
    + rewrite A in Hv. injection Hv as <-. lra.
Qed.
Theorem tr_limits o scaling cg x res : 0 < scaling -> (0 < n)%nat -> tr_solve o scaling cg x = Some res ->
  (res_iters res <= o_max o)%nat /\ (pt_evals (res_pt res) <= 1 + res_iters res * (o_ls o + 1))%nat /\
  (res_verdict res = Failed -> res_iters res = o_max o) /\ (res_verdict res = Undefined -> pt_norm (res_pt res) = None).
Proof.
  intros Hs Hn. unfold tr_solve. destruct (sys_res (ts_sys ts) x) as [r|] eqn:Er; [|discriminate].
  destruct (sys_norm (ts_sys ts) r) as [n0|] eqn:En.
  - intros E. destruct (fun Ht Hh => tr_loop_spec o _ cg _ _ _ res Ht Hh E) as [A [B [C [D [F G]]]]].
    + cbn [tr_size]. apply first_radius; assumption.
    + unfold honest. cbn [tr_pt pt_x pt_r pt_norm]. rewrite Er, En. auto.
    + cbn [tr_pt pt_evals] in C. rewrite PeanoNat.Nat.sub_0_r in C. split; [lia|]. split; [lia|]. split; [|exact G]. intros V. destruct (F V). lia.
  - intros E. injection E as <-. cbn [res_iters res_pt pt_evals res_verdict]. repeat split; try lia; try discriminate.
Qed.
End Loop.

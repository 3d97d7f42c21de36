(** * The adjoint results as derivatives of objectives along families of solutions (C25, C26, C27)

    Specification side: a family of designs and initial conditions is parameterised by a real [s]; the solutions of the
    discrete equations depend on it differentiably.  The theorems give the derivative of the objective at [s = 0]. *)
From Coq Require Import Reals Lra Lia Bool List.
From Coquelicot Require Import Coquelicot.
From Verif Require Import Sums Tensor MatAlg BoundaryElim Adjoint.
Import ListNotations.
Local Open Scope R_scope.

(** a differentiable curve of vectors and its tangent at 0 *)
Definition curve (n : nat) (c : R -> vec) (d : vec) : Prop := forall i, (i < n)%nat -> is_derive (fun s => c s i) 0 (d i).
Definition starts (n : nat) (c : R -> vec) (x : vec) : Prop := forall i, (i < n)%nat -> c 0 i = x i.
(** [K], [M], [P] are the derivatives of the vector function [F] of state, rate and parameters *)
Definition jacobian3 (n np : nat) (F : vec -> vec -> vec -> vec) (u v p : vec) (K M P : mat) : Prop :=
  forall cu du cv dv cp dp, curve n cu du -> curve n cv dv -> curve np cp dp -> starts n cu u -> starts n cv v -> starts np cp p ->
  forall i, (i < n)%nat ->
  is_derive (fun s => F (cu s) (cv s) (cp s) i) 0 (rows n n K du i + rows n n M dv i + rows n np P dp i).
Definition gradient3 (n np : nat) (Q : vec -> vec -> vec -> R) (u v p : vec) (qu qv qp : vec) : Prop :=
  forall cu du cv dv cp dp, curve n cu du -> curve n cv dv -> curve np cp dp -> starts n cu u -> starts n cv v -> starts np cp p ->
  is_derive (fun s => Q (cu s) (cv s) (cp s)) 0 (vdot n qu du + vdot n qv dv + vdot np qp dp).
Definition gradient4 (n np : nat) (Q : vec -> vec -> vec -> vec -> R) (u v a p : vec) (qu qv qa qp : vec) : Prop :=
  forall cu du cv dv ca da cp dp, curve n cu du -> curve n cv dv -> curve n ca da -> curve np cp dp ->
  starts n cu u -> starts n cv v -> starts n ca a -> starts np cp p ->
  is_derive (fun s => Q (cu s) (cv s) (ca s) (cp s)) 0 (vdot n qu du + vdot n qv dv + vdot n qa da + vdot np qp dp).

Lemma derive_unique0 (f : R -> R) (x l l' : R) : is_derive f x l -> is_derive f x l' -> l = l'.
Proof. intros A B. apply is_derive_unique in A. apply is_derive_unique in B. congruence. Qed.
Lemma derive_locally_const (f : R -> R) (c l : R) : locally 0 (fun s => f s = c) -> is_derive f 0 l -> l = 0.
Proof.
  intros L D. apply (derive_unique0 f 0 l 0 D). apply (is_derive_ext_loc (fun _ => c)).
  - apply filter_imp with (2 := L). intros; symmetry; assumption.
  - apply (is_derive_const c 0).
Qed.
Lemma derive_locally_eq (f g : R -> R) (l l' : R) : locally 0 (fun s => f s = g s) -> is_derive f 0 l -> is_derive g 0 l' -> l = l'.
Proof. intros L D D'. apply (derive_unique0 g 0 l l'); [|exact D']. apply (is_derive_ext_loc f); assumption. Qed.
Lemma curve_scal_plus (f g : R -> R) (c a b : R) : is_derive f 0 a -> is_derive g 0 b -> is_derive (fun s => f s + c * g s) 0 (a + c * b).
Proof.
  intros A B. apply (is_derive_plus f (fun s => c * g s) 0 a (c * b)); [exact A|]. apply (is_derive_scal g 0 c b B).
Qed.

(** ** quasi-static *)
Theorem static_gradient n np bcs lin res Q u p J P qu qp du dp :
  curve n u du -> curve np p dp ->
  jacobian3 n np (fun u _ p => res u p) (u 0) vz (p 0) J (fun _ _ => 0) P ->
  gradient3 n np (fun u _ p => Q u p) (u 0) vz (p 0) qu vz qp ->
  (* equilibrium at free dofs, prescribed values elsewhere, along the family *)
  (forall i, (i < n)%nat -> any bcs i = false -> locally 0 (fun s => res (u s) (p s) i = 0)) ->
  (forall i, (i < n)%nat -> any bcs i = true -> locally 0 (fun s => u s i = u 0 i)) ->
  lin_ok n bcs lin J ->
  is_derive (fun s => Q (u s) (p s)) 0
    (vdot np (fun k => qp k + sensitivity n P (static_adjoint n bcs lin J qu) k) dp).
Proof.
  intros Cu Cp Jac Grad Eq Held L.
  assert (Cz : curve n (fun _ => vz) vz) by (intros i _; apply (is_derive_const (vz i) 0)).
  assert (Sn : forall m (c : R -> vec), starts m c (c 0)) by (intros m c i _; reflexivity).
  assert (D := Grad u du (fun _ => vz) vz p dp Cu Cz Cp (Sn n u) (Sn n (fun _ => vz)) (Sn np p)). cbv beta in D.
  assert (T : static_tangent n np (any bcs) J P du dp).
  { split; intros i Hi Ei.
    - assert (X := Jac u du (fun _ => vz) vz p dp Cu Cz Cp (Sn n u) (Sn n (fun _ => vz)) (Sn np p) i Hi). cbv beta in X.
      assert (Y := derive_locally_const _ 0 _ (Eq i Hi Ei) X). unfold rows at 2 in Y. rewrite (sumn_zero n) in Y by (intros; unfold vz; ring). lra.
    - exact (derive_locally_const _ (u 0 i) _ (Held i Hi Ei) (Cu i Hi)). }
  assert (S := static_sensitivity n np bcs lin J P qu du dp L T).
  rewrite vdot_plus_l, <- S. rewrite vdot_zero_l in D. replace (vdot np qp dp + vdot n qu du) with (vdot n qu du + 0 + vdot np qp dp) by ring.
  exact D.
Qed.
Lemma sum_derive m (f : R -> vec) (l : vec) : (forall i, (i < m)%nat -> is_derive (fun s => f s i) 0 (l i)) ->
  is_derive (fun s => sumn m (f s)) 0 (sumn m l).
Proof.
  induction m as [|m IH]; intros H; [apply (is_derive_const 0 0)|]. cbn [sumn].
  apply (is_derive_plus (fun s => sumn m (f s)) (fun s => f s m) 0); [apply IH; intros; apply H; lia|apply H; lia].
Qed.
(** reactions in a given direction *)
Theorem reaction_gradient n np bcs lin res u p J P d du dp :
  curve n u du -> curve np p dp ->
  jacobian3 n np (fun u _ p => res u p) (u 0) vz (p 0) J (fun _ _ => 0) P ->
  (forall i, (i < n)%nat -> any bcs i = false -> locally 0 (fun s => res (u s) (p s) i = 0)) ->
  (forall i, (i < n)%nat -> any bcs i = true -> locally 0 (fun s => u s i = u 0 i)) ->
  lin_ok n bcs lin J ->
  is_derive (fun s => vdot n d (res (u s) (p s))) 0
    (vdot np (fun k => sensitivity n P (static_adjoint n bcs lin J (reaction_load n J d)) k + sensitivity n P d k) dp).
Proof.
  intros Cu Cp Jac Eq Held L.
  assert (Cz : curve n (fun _ => vz) vz) by (intros i _; apply (is_derive_const (vz i) 0)).
  assert (Sn : forall m (c : R -> vec), starts m c (c 0)) by (intros m c i _; reflexivity).
  assert (X : forall i, (i < n)%nat -> is_derive (fun s => res (u s) (p s) i) 0 (rows n n J du i + rows n np P dp i)).
  { intros i Hi. assert (X := Jac u du (fun _ => vz) vz p dp Cu Cz Cp (Sn n u) (Sn n (fun _ => vz)) (Sn np p) i Hi). cbv beta in X.
    unfold rows at 2 in X. rewrite (sumn_zero n) in X by (intros; unfold vz; ring). rewrite Rplus_0_r in X. exact X. }
  assert (T : static_tangent n np (any bcs) J P du dp).
  { split; intros i Hi Ei.
    - exact (derive_locally_const _ 0 _ (Eq i Hi Ei) (X i Hi)).
    - exact (derive_locally_const _ (u 0 i) _ (Held i Hi Ei) (Cu i Hi)). }
  rewrite <- (reaction_sensitivity n np bcs lin J P d du dp L T). unfold vdot.
  apply (sum_derive n (fun s i => d i * res (u s) (p s) i)). intros i Hi. apply (is_derive_scal (fun s => res (u s) (p s) i) 0 (d i)). now apply X.
Qed.

(** ** heat conduction: families of backward Euler histories *)
Record heat_family_step := { hf_step : heat_step; hf_res : vec -> vec -> vec -> vec; hf_obj : vec -> vec -> vec -> R;
  hf_qp : vec; hf_u : R -> vec; hf_v : R -> vec; hf_du : vec; hf_dv : vec }.
Fixpoint heat_family (n np : nat) (d : dofset) (direct : bool) (p u0 : R -> vec) (fs : list heat_family_step) : Prop :=
  match fs with
  | [] => True
  | f :: rest =>
      curve n (hf_u f) (hf_du f) /\ curve n (hf_v f) (hf_dv f) /\
      jacobian3 n np (hf_res f) (hf_u f 0) (hf_v f 0) (p 0) (h_K (hf_step f)) (h_M (hf_step f)) (h_P (hf_step f)) /\
      gradient3 n np (hf_obj f) (hf_u f 0) (hf_v f 0) (p 0) (h_qu (hf_step f)) (rate_part (h_qv (hf_step f))) (hf_qp f) /\
      (* the discrete equations *)
      (forall i, (i < n)%nat -> locally 0 (fun s => hf_u f s i = u0 s i + h_dt (hf_step f) * hf_v f s i)) /\
      (forall i, (i < n)%nat -> d i = false -> locally 0 (fun s => hf_res f (hf_u f s) (hf_v f s) (p s) i = 0)) /\
      (forall i, (i < n)%nat -> d i = true -> locally 0 (fun s =>
         if direct then hf_u f s i = hf_u f 0 i else hf_v f s i = hf_v f 0 i)) /\
      heat_family n np d direct p (hf_u f) rest
  end.
Fixpoint heat_total (p : R -> vec) (fs : list heat_family_step) (s : R) : R :=
  match fs with [] => 0 | f :: rest => hf_obj f (hf_u f s) (hf_v f s) (p s) + heat_total p rest s end.
Fixpoint explicit_part (fs : list heat_family_step) : vec :=
  match fs with [] => vz | f :: rest => fun k => hf_qp f k + explicit_part rest k end.
Notation heat_steps := (map hf_step) (only parsing).

Lemma heat_family_tangent n np d direct p dp fs : curve np p dp -> forall u0 du0, curve n u0 du0 ->
  heat_family n np d direct p u0 fs ->
  heat_tangent n np d direct du0 dp (map hf_step fs) (map (fun f => (hf_du f, hf_dv f)) fs).
Proof.
  intros Cp. induction fs as [|f rest IH]; intros u0 du0 C0 F; [exact Logic.I|].
  cbn [heat_family map heat_tangent] in *. destruct F as [Cu [Cv [Jac [_ [Kin [Eq [Held F]]]]]]].
  assert (Sn : forall m (c : R -> vec), starts m c (c 0)) by (intros m c i _; reflexivity).
  split; [|split; [|split]].
  - intros i Hi. apply (derive_locally_eq (fun s => hf_u f s i) (fun s => u0 s i + h_dt (hf_step f) * hf_v f s i)).
    + now apply Kin.
    + now apply Cu.
    + apply curve_scal_plus; [now apply C0|now apply Cv].
  - intros i Hi Ei. apply (derive_locally_const (fun s => hf_res f (hf_u f s) (hf_v f s) (p s) i) 0); [now apply Eq|].
    apply (Jac (hf_u f) (hf_du f) (hf_v f) (hf_dv f) p dp); auto.
  - intros i Hi Ei. assert (H := Held i Hi Ei). destruct direct.
    + exact (derive_locally_const _ _ _ H (Cu i Hi)).
    + exact (derive_locally_const _ _ _ H (Cv i Hi)).
  - exact (IH (hf_u f) (hf_du f) Cu F).
Qed.
Lemma heat_total_derive n np d direct p dp fs : curve np p dp -> forall u0, heat_family n np d direct p u0 fs ->
  is_derive (heat_total p fs) 0
    (heat_objective n (map hf_step fs) (map (fun f => (hf_du f, hf_dv f)) fs) + vdot np (explicit_part fs) dp).
Proof.
  intros Cp. induction fs as [|f rest IH]; intros u0 F.
  - cbn [heat_total map heat_objective explicit_part]. rewrite vdot_zero_l, Rplus_0_r. apply (is_derive_const 0 0).
  - cbn [heat_family] in F. destruct F as [Cu [Cv [_ [Grad [_ [_ [_ F]]]]]]].
    assert (Sn : forall m (c : R -> vec), starts m c (c 0)) by (intros m c i _; reflexivity).
    assert (D := Grad (hf_u f) (hf_du f) (hf_v f) (hf_dv f) p dp Cu Cv Cp (Sn _ _) (Sn _ _) (Sn _ _)).
    assert (D' := IH (hf_u f) F).
    assert (X := is_derive_plus _ _ 0 _ _ D D'). cbn [heat_total map heat_objective explicit_part].
    rewrite (vdot_plus_l np). unfold plus in X. cbn in X.
    match type of X with is_derive _ _ ?a => match goal with |- is_derive _ _ ?b => replace b with a by ring end end. exact X.
Qed.
Theorem heat_gradient n np bcs lin direct p dp fs u0 du0 :
  (forall f, In f fs -> heat_step_ok n bcs lin (hf_step f)) -> uniform_loads (map hf_step fs) ->
  curve np p dp -> curve n u0 du0 ->
  (direct = false -> forall i, (i < n)%nat -> any bcs i = true -> du0 i = 0) ->
  heat_family n np (any bcs) direct p u0 fs ->
  let a := heat_reverse n bcs lin (map hf_step fs) in
  is_derive (heat_total p fs) 0
    (vdot n (ha_mu a) du0 +
     vdot np (fun k => total_sensitivity n h_P (map hf_step fs) (ha_lambdas a) k + explicit_part fs k) dp).
Proof.
  intros Ok Ul Cp C0 Z F a.
  assert (T := heat_family_tangent n np (any bcs) direct p dp fs Cp u0 du0 C0 F).
  assert (E := heat_adjoint_exact n np bcs lin direct dp (map hf_step fs)).
  assert (Ok' : forall s, In s (map hf_step fs) -> heat_step_ok n bcs lin s).
  { intros s Hs. apply in_map_iff in Hs. destruct Hs as [f [<- Hf]]. now apply Ok. }
  specialize (E Ok' Ul du0 _ Z T). assert (D := heat_total_derive n np (any bcs) direct p dp fs Cp u0 F).
  rewrite E in D. rewrite (vdot_plus_l np). unfold a.
  match type of D with is_derive _ _ ?x => match goal with |- is_derive _ _ ?b => replace b with x by ring end end. exact D.
Qed.

(** ** solid mechanics: families of Newmark histories *)
Record newmark_family_step := { nf_step : newmark_step; nf_res : vec -> vec -> vec -> vec;
  nf_obj : vec -> vec -> vec -> vec -> R; nf_qp : vec;
  nf_u : R -> vec; nf_v : R -> vec; nf_a : R -> vec; nf_du : vec; nf_dv : vec; nf_da : vec }.
(** [en] tells what is prescribed at constrained dofs: displacement (true) or velocity (false); in a step of length zero,
    the acceleration *)
Fixpoint newmark_family (n np : nat) (d : dofset) (en : bool) (p u0 v0 a0 : R -> vec) (fs : list newmark_family_step) : Prop :=
  match fs with
  | [] => True
  | f :: rest =>
      let dt := s_dt (nf_step f) in
      curve n (nf_u f) (nf_du f) /\ curve n (nf_v f) (nf_dv f) /\ curve n (nf_a f) (nf_da f) /\
      jacobian3 n np (nf_res f) (nf_u f 0) (nf_a f 0) (p 0) (s_K (nf_step f)) (s_M (nf_step f)) (s_P (nf_step f)) /\
      gradient4 n np (nf_obj f) (nf_u f 0) (nf_v f 0) (nf_a f 0) (p 0)
        (s_qu (nf_step f)) (rate_part (s_qv (nf_step f))) (rate_part (s_qa (nf_step f))) (nf_qp f) /\
      (forall i, (i < n)%nat -> locally 0 (fun s =>
         nf_u f s i = u0 s i + dt * v0 s i + dt * dt * ((1 / 4) * a0 s i + (1 / 4) * nf_a f s i) /\
         nf_v f s i = v0 s i + dt * ((1 / 2) * a0 s i + (1 / 2) * nf_a f s i))) /\
      (forall i, (i < n)%nat -> d i = false -> locally 0 (fun s => nf_res f (nf_u f s) (nf_a f s) (p s) i = 0)) /\
      (forall i, (i < n)%nat -> d i = true -> locally 0 (fun s =>
         if Req_EM_T dt 0 then nf_a f s i = nf_a f 0 i else
         if en then nf_u f s i = nf_u f 0 i else nf_v f s i = nf_v f 0 i)) /\
      newmark_family n np d en p (nf_u f) (nf_v f) (nf_a f) rest
  end.
Fixpoint newmark_total (p : R -> vec) (fs : list newmark_family_step) (s : R) : R :=
  match fs with [] => 0 | f :: rest => nf_obj f (nf_u f s) (nf_v f s) (nf_a f s) (p s) + newmark_total p rest s end.
Fixpoint newmark_explicit (fs : list newmark_family_step) : vec :=
  match fs with [] => vz | f :: rest => fun k => nf_qp f k + newmark_explicit rest k end.
Definition variations (fs : list newmark_family_step) : list variation := map (fun f => (nf_du f, nf_dv f, nf_da f)) fs.

Lemma newmark_family_tangent n np d en p dp fs : curve np p dp -> forall u0 v0 a0 du0 dv0 da0,
  curve n u0 du0 -> curve n v0 dv0 -> curve n a0 da0 ->
  (forall i, (i < n)%nat -> d i = true -> du0 i = 0 /\ dv0 i = 0 /\ da0 i = 0) ->
  newmark_family n np d en p u0 v0 a0 fs ->
  newmark_tangent n np d du0 dv0 da0 dp (map nf_step fs) (variations fs).
Proof.
  intros Cp. induction fs as [|f rest IH]; intros u0 v0 a0 du0 dv0 da0 C0 C1 C2 Z F; [exact Logic.I|].
  cbn [newmark_family map variations newmark_tangent] in *. destruct F as [Cu [Cv [Ca [Jac [_ [Kin [Eq [Held F]]]]]]]].
  set (dt := s_dt (nf_step f)) in *.
  assert (Sn : forall m (c : R -> vec), starts m c (c 0)) by (intros m c i _; reflexivity).
  assert (K : forall i, (i < n)%nat -> nf_du f i = du0 i + dt * dv0 i + dt * dt * (1 / 4 * da0 i + 1 / 4 * nf_da f i) /\
                                   nf_dv f i = dv0 i + dt * (1 / 2 * da0 i + 1 / 2 * nf_da f i)).
  { intros i Hi. assert (L := Kin i Hi). split.
    - apply (derive_locally_eq (fun s => nf_u f s i)
        (fun s => u0 s i + dt * v0 s i + dt * dt * (1 / 4 * a0 s i + 1 / 4 * nf_a f s i))).
      + apply filter_imp with (2 := L). intros s [A _]. exact A.
      + now apply Cu.
      + apply (curve_scal_plus (fun s => u0 s i + dt * v0 s i) (fun s => 1 / 4 * a0 s i + 1 / 4 * nf_a f s i)).
        * apply curve_scal_plus; [now apply C0|now apply C1].
        * apply (curve_scal_plus (fun s => 1 / 4 * a0 s i) (fun s => nf_a f s i)); [|now apply Ca].
          apply (is_derive_scal (fun s => a0 s i) 0 (1 / 4) (da0 i)). now apply C2.
    - apply (derive_locally_eq (fun s => nf_v f s i) (fun s => v0 s i + dt * (1 / 2 * a0 s i + 1 / 2 * nf_a f s i))).
      + apply filter_imp with (2 := L). intros s [_ A]. exact A.
      + now apply Cv.
      + apply (curve_scal_plus (fun s => v0 s i) (fun s => 1 / 2 * a0 s i + 1 / 2 * nf_a f s i)); [now apply C1|].
        apply (curve_scal_plus (fun s => 1 / 2 * a0 s i) (fun s => nf_a f s i)); [|now apply Ca].
        apply (is_derive_scal (fun s => a0 s i) 0 (1 / 2) (da0 i)). now apply C2. }
  assert (Za : forall i, (i < n)%nat -> d i = true -> nf_da f i = 0).
  { intros i Hi Ei. assert (H := Held i Hi Ei). destruct (Z i Hi Ei) as [Zu [Zv Zc]]. destruct (K i Hi) as [Ku Kv].
    rewrite Zu, Zv, Zc in *. destruct (Req_EM_T dt 0) as [D|D].
    - exact (derive_locally_const _ _ _ H (Ca i Hi)).
    - destruct en.
      + assert (X := derive_locally_const _ _ _ H (Cu i Hi)). rewrite X in Ku.
        assert (Y : dt * dt * nf_da f i = 0) by lra. apply Rmult_integral in Y. destruct Y as [Y|Y]; [|exact Y].
        apply Rmult_integral in Y. tauto.
      + assert (X := derive_locally_const _ _ _ H (Cv i Hi)). rewrite X in Kv.
        assert (Y : dt * nf_da f i = 0) by lra. apply Rmult_integral in Y. tauto. }
  split; [exact K|]. split; [|split].
  - intros i Hi Ei. apply (derive_locally_const (fun s => nf_res f (nf_u f s) (nf_a f s) (p s) i) 0); [now apply Eq|].
    apply (Jac (nf_u f) (nf_du f) (nf_a f) (nf_da f) p dp); auto.
  - exact Za.
  - apply (IH (nf_u f) (nf_v f) (nf_a f)); auto. intros i Hi Ei. destruct (Z i Hi Ei) as [Zu [Zv Zc]]. destruct (K i Hi) as [Ku Kv].
    rewrite Ku, Kv, Zu, Zv, Zc, (Za i Hi Ei). repeat split; ring.
Qed.
Lemma newmark_total_derive n np d en p dp fs : curve np p dp -> forall u0 v0 a0, newmark_family n np d en p u0 v0 a0 fs ->
  is_derive (newmark_total p fs) 0
    (newmark_objective n (map nf_step fs) (variations fs) + vdot np (newmark_explicit fs) dp).
Proof.
  intros Cp. induction fs as [|f rest IH]; intros u0 v0 a0 F.
  - cbn [newmark_total map variations newmark_objective newmark_explicit]. rewrite vdot_zero_l, Rplus_0_r. apply (is_derive_const 0 0).
  - cbn [newmark_family] in F. destruct F as [Cu [Cv [Ca [_ [Grad [_ [_ [_ F]]]]]]]].
    assert (Sn : forall m (c : R -> vec), starts m c (c 0)) by (intros m c i _; reflexivity).
    assert (D := Grad (nf_u f) (nf_du f) (nf_v f) (nf_dv f) (nf_a f) (nf_da f) p dp Cu Cv Ca Cp (Sn _ _) (Sn _ _) (Sn _ _) (Sn _ _)).
    assert (D' := IH _ _ _ F).
    assert (X := is_derive_plus _ _ 0 _ _ D D'). cbn [newmark_total map variations newmark_objective newmark_explicit].
    rewrite (vdot_plus_l np). unfold plus in X. cbn in X. fold (variations rest).
    match type of X with is_derive _ _ ?a => match goal with |- is_derive _ _ ?b => replace b with a by ring end end. exact X.
Qed.
(** the history starts with a step of length zero (which computes the initial acceleration) *)
Theorem newmark_gradient n np bcs lin en p dp f fs u0 v0 du0 dv0 :
  s_dt (nf_step f) = 0 ->
  (forall g, In g (f :: fs) -> newmark_step_ok n bcs lin (nf_step g)) -> newmark_loads (map nf_step (f :: fs)) ->
  curve np p dp -> curve n u0 du0 -> curve n v0 dv0 ->
  (forall i, (i < n)%nat -> any bcs i = true -> du0 i = 0 /\ dv0 i = 0) ->
  newmark_family n np (any bcs) en p u0 v0 (fun _ => vz) (f :: fs) ->
  let a := newmark_reverse n bcs lin (map nf_step (f :: fs)) in
  is_derive (newmark_total p (f :: fs)) 0
    (vdot n (na_U a) du0 + vdot n (na_V a) dv0 +
     vdot np (fun k => total_sensitivity n s_P (map nf_step (f :: fs)) (na_lambdas a) k + newmark_explicit (f :: fs) k) dp).
Proof.
  intros D0 Ok Ld Cp C0 C1 Z F a.
  assert (Cz : curve n (fun _ => vz) vz) by (intros i _; apply (is_derive_const (vz i) 0)).
  assert (Z' : forall i, (i < n)%nat -> any bcs i = true -> du0 i = 0 /\ dv0 i = 0 /\ vz i = 0).
  { intros i Hi Ei. destruct (Z i Hi Ei). auto. }
  assert (T := newmark_family_tangent n np (any bcs) en p dp (f :: fs) Cp u0 v0 _ du0 dv0 vz C0 C1 Cz Z' F).
  assert (Ok' : forall s, In s (map nf_step (f :: fs)) -> newmark_step_ok n bcs lin s).
  { intros s Hs. apply in_map_iff in Hs. destruct Hs as [g [<- Hg]]. now apply Ok. }
  assert (E := newmark_initial_sensitivity n np bcs lin dp (nf_step f) (map nf_step fs) D0 Ok' Ld du0 dv0 vz _ T).
  assert (D := newmark_total_derive n np (any bcs) en p dp (f :: fs) Cp _ _ _ F). cbn [map] in D.
  rewrite E in D. rewrite (vdot_plus_l np). unfold a. cbn [map].
  match type of D with is_derive _ _ ?x => match goal with |- is_derive _ _ ?b => replace b with x by ring end end. exact D.
Qed.

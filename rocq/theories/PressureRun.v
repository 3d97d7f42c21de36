(** * The nodal forces of a pressure which acts all around (C85) *)
From Coq Require Import NArith ZArith Reals List Lia Lra Bool Permutation.
From Coquelicot Require Import Coquelicot.
From Verif Require Import Prelude DofCodec Sums Restriction Kernels FunctionalModel Assembly Tensor MatAlg Materials ShapeAware ShapeDefs ShapeTensor WeakForm WeakFormFacts WeakFormPhysics WeakFormWork EnergySolid FrameResidual PatchTest PatchMesh PatchHex PatchGeom PatchLoad PatchSkin Pressure.
Import ListNotations.
Local Open Scope R_scope.

Lemma walls_shaped {St} n (f : functional St) k : List.Forall (shaped n) (walls n f k).
Proof.
  apply Forall_forall. intros c. unfold walls. destruct (nth_error (f_integrals f) k) as [Ig|]; [|intros []].
  rewrite in_flat_map. intros (g & _ & H). destruct (nth_error (i_geoms Ig) g) as [G|]; [|destruct H]. destruct (nth_error (f_test f (i_type Ig)) g) as [r|]; [|destruct H].
  destruct (Nat.eqb (gk_dim1 G) n); [|destruct H]. apply in_map_iff in H. destruct H as (le & <- & _). apply skin_shaped.
Qed.
Lemma pressed_shaped {St} n (f : functional St) terms : List.Forall (shaped n) (pressed n f terms).
Proof.
  apply Forall_forall. intros c. unfold pressed. rewrite in_flat_map. intros (k & _ & H). destruct (nth_error terms k) as [[on rho sigma|b|tr|on p]|]; try (destruct H; fail).
  exact (proj1 (Forall_forall _ _) (walls_shaped n f k) c H).
Qed.
Lemma field_plus {St} (G : gkernel St) r (u w : nat -> nat -> R) le q i b : field_at G r (fun a c => u a c + w a c) le q i b = field_at G r u le q i b + field_at G r w le q i b.
Proof. unfold field_at, interpolate. rewrite <- sumn_plus. apply sumn_ext. intros. ring. Qed.
Lemma field_zero {St} (G : gkernel St) r le q i b : field_at G r (fun _ _ => 0) le q i b = 0.
Proof. unfold field_at, interpolate. apply sumn_zero. intros. ring. Qed.

Section Solid.
Context {St : Type} (n : nat) (D : dim23 n) (f : functional St) (o : ordering) (nn : nat) (terms : list (solid_term St))
  (pos : nat -> nat -> nat -> nat -> vec) (jac : nat -> nat -> nat -> nat -> mat) (xref : nat -> nat -> R) (kappa s : R) (on : bool).
Context (t1 t2 p1 p2 : R) (wrt : option nat) (upd : bool) (Ls : nat -> list R) (m m1 m2 : mem St) (L1 L2 : list R).
Context (Hwf : wf f (nn * n) (fun w => length (Ls w))) (Hfit : all_fit f) (Hlay : layout f o nn n) (HS : two_spaces n f) (HI : isoparametric n f pos jac xref)
  (HL : linear_skin n f kappa s)
  (EV1 : evaluate f t1 wrt upd Ls (nn * n) m = Ok (L1, m1)) (RES1 : solid_residual n f t1 Ls m terms pos jac)
  (EV2 : evaluate f t2 wrt upd Ls (nn * n) m = Ok (L2, m2)) (RES2 : solid_residual n f t2 Ls m terms pos jac)
  (UP : List.Forall (raised n on t1 t2 p1 p2) terms).
Notation place := (node_position n Ls o nn on xref).
(** the change of the nodal forces *)
Definition gain (a i : nat) : R := nodal_values o nn n L2 a i - nodal_values o nn n L1 a i.

(** tangents of the pressed surface *)
Lemma tangents k Ig g G r le q i b : nth_error (f_integrals f) k = Some Ig -> nth_error (i_geoms Ig) g = Some G -> nth_error (f_test f (i_type Ig)) g = Some r ->
  (le < length (gk_elems G))%nat -> (q < gk_nq G)%nat -> (i < n)%nat -> (S b < gk_dim1 G)%nat ->
  jac k g le q i b + (if on then qf_inputs G g (Es_of f Ls Ig) le q 0%nat i (S b) else 0) = field_at G r place le q i (S b).
Proof.
  intros E1 E2 E3 Hle Hq Hi Hb. destruct (HI k Ig g G r le q E1 E2 E3 Hle Hq) as [_ HJ]. rewrite <- HJ by auto. unfold node_position. rewrite field_plus. f_equal.
  destruct on; [|symmetry; apply field_zero].
  now rewrite (argument_nodal n f o nn Ls 0%nat k Ig g G r le q i (S b) Hfit Hlay HS (le_S _ _ (le_n _)) E1 E2 E3 Hle Hi).
Qed.
Lemma gain_points h : sumn nn (fun a => sumn n (fun i => gain a i * h a i)) =
  over_points f (fun k Ig g G r le q => match nth_error terms k with Some (SPressure _ _) =>
     (p2 - p1) * sumn n (fun i => crossn n (fun r0 c0 => field_at G r place le q r0 (S c0)) i * field_at G r h le q i 0%nat) | _ => 0 end).
Proof.
  destruct (solid_work_gradients n f t1 Ls m terms pos jac D RES1 h) as (grad & gradw & stress & HG).
  assert (W1 := solid_work n f t1 wrt upd Ls m m1 L1 o nn terms pos jac D Hwf Hfit Hlay EV1 RES1 h grad gradw stress HG).
  assert (W2 := solid_work n f t2 wrt upd Ls m m2 L2 o nn terms pos jac D Hwf Hfit Hlay EV2 RES2 h grad gradw stress HG).
  rewrite (sumn_ext nn _ (fun a => sumn n (fun c => nth (dof_number o nn n a c) L2 0 * h a c) - sumn n (fun c => nth (dof_number o nn n a c) L1 0 * h a c))).
  2:{ intros a _. rewrite <- sumn_minus. apply sumn_ext. intros i _. unfold gain, nodal_values. ring. }
  rewrite sumn_minus, W1, W2. clear W1 W2. rewrite <- over_points_minus. apply over_points_ext. intros k Ig g G r le q E1 E2 E3 Hle Hq.
  destruct (nth_error terms k) as [T|] eqn:ET; [|ring]. assert (U := proj1 (Forall_forall _ _) UP T (nth_error_In _ _ ET)).
  destruct T as [on' rho sigma|b|tr|on' p]; cbn [solid_power raised] in *.
  - ring.
  - rewrite (sumn_ext n (fun i => b (pos k g le q) t2 i * _) (fun i => b (pos k g le q) t1 i * field_at G r h le q i 0%nat)) by (intros i Hi; now rewrite U). ring.
  - rewrite (sumn_ext n (fun i => tr (pos k g le q) _ t2 i * _) (fun i => tr (pos k g le q) (unit_normal n (jac k g le q)) t1 i * field_at G r h le q i 0%nat)) by (intros i Hi; now rewrite U). ring.
  - destruct U as [-> U]. destruct (U (pos k g le q)) as [-> ->].
    destruct (RES1 k Ig g G le q E1 E2 Hle Hq) as (T & p0 & out & A1 & _ & _ & A4 & _). rewrite ET in A1. injection A1 as <-. cbn [is_volume] in A4.
    rewrite <- Rmult_minus_distr_r. f_equal. apply sumn_ext. intros i Hi. f_equal. apply crossn_ext; [exact D|]. intros a b Ha Hb. apply (tangents k Ig); auto. lia.
Qed.
(** the work of the change on any nodal field *)
Theorem gain_work h : sumn nn (fun a => sumn n (fun i => gain a i * h a i)) = (p2 - p1) * kappa * suml (pressed n f terms) (push n h place).
Proof.
  rewrite gain_points. unfold over_points, pressed. rewrite suml_flat_map, suml_seq, <- sumn_scal_l. apply sumn_ext. intros k _.
  destruct (nth_error terms k) as [[on' rho sigma|b|tr|on' p]|] eqn:ET;
    try (cbn [suml]; rewrite Rmult_0_r; destruct (nth_error (f_integrals f) k) as [Ig|]; [|reflexivity]; apply sumn_zero; intros g _; destruct (nth_error (i_geoms Ig) g) as [G|]; [|reflexivity];
      destruct (nth_error (f_test f (i_type Ig)) g) as [r|]; [|reflexivity]; apply sumn_zero; intros le _; apply sumn_zero; intros; ring).
  unfold walls. destruct (nth_error (f_integrals f) k) as [Ig|] eqn:E1; [|cbn [suml]; ring]. rewrite suml_flat_map, suml_seq, <- sumn_scal_l. apply sumn_ext. intros g _.
  destruct (nth_error (i_geoms Ig) g) as [G|] eqn:E2; [|cbn [suml]; ring]. destruct (nth_error (f_test f (i_type Ig)) g) as [r|] eqn:E3; [|cbn [suml]; ring].
  destruct (Nat.eqb_spec (gk_dim1 G) n) as [Ed|NE].
  - assert (LK := HL Ig G (nth_error_In _ _ E1) (nth_error_In _ _ E2) Ed). rewrite suml_map, suml_seq, <- sumn_scal_l. apply sumn_ext. intros le Hle.
    assert (A := skin_push n D kappa s G LK (node_of r (nth le (gk_elems G) 0%nat)) place h (fun q r0 c0 => field_at G r place le q r0 (S c0)) (fun q i k0 _ _ _ => eq_refl)).
    rewrite Rmult_assoc. rewrite <- A, <- sumn_scal_l. apply sumn_ext. intros q _. rewrite Rmult_assoc. reflexivity.
  - cbn [suml]. rewrite Rmult_0_r. apply sumn_zero. intros le Hle. apply sumn_zero. intros q Hq. exfalso. apply NE.
    destruct (RES1 k Ig g G le q E1 E2 Hle Hq) as (T & p0 & out & A1 & _ & _ & A4 & _). rewrite ET in A1. injection A1 as <-. exact A4.
Qed.

Context (CL : closed n (pressed n f terms)).
(** it is the change of pressure times the change of the enclosed volume *)
Theorem pressure_work h : exists slope : R,
  is_derive (fun tau => volume_in n (fun a i => place a i + tau * h a i) (pressed n f terms)) 0 slope /\
  sumn nn (fun a => sumn n (fun i => gain a i * h a i)) = (p2 - p1) * kappa * slope.
Proof.
  exists (suml (pressed n f terms) (push n h place)). split; [|apply gain_work].
  exact (volume_slope n place h _ D (pressed_shaped n f terms) CL).
Qed.
Theorem pressure_resultant i : (i < n)%nat -> sumn nn (fun a => gain a i) = 0.
Proof.
  intros Hi. assert (W := gain_work (fun _ d => if Nat.eqb d i then 1 else 0)).
  rewrite (rim_only_closed n _ _ D (push_uniform n place i D Hi) (pressed_shaped n f terms) CL), Rmult_0_r in W. rewrite <- W. apply sumn_ext. intros a _.
  rewrite (sumn_ext n _ (fun d => if Nat.eqb d i then gain a d else 0)) by (intros d _; destruct (Nat.eqb d i); ring). now rewrite sumn_delta.
Qed.
Theorem pressure_moment i l : (i < n)%nat -> (l < n)%nat -> sumn nn (fun a => place a l * gain a i - place a i * gain a l) = 0.
Proof.
  intros Hi Hl. assert (W := gain_work (fun a d => (if Nat.eqb d i then place a l else 0) - (if Nat.eqb d l then place a i else 0))).
  rewrite (rim_only_closed n _ _ D (push_spin n place i l D Hi Hl) (pressed_shaped n f terms) CL), Rmult_0_r in W. rewrite <- W. apply sumn_ext. intros a _.
  rewrite (sumn_ext n _ (fun d => (if Nat.eqb d i then place a l * gain a d else 0) - (if Nat.eqb d l then place a i * gain a d else 0))) by (intros d _; destruct (Nat.eqb d i), (Nat.eqb d l); ring).
  rewrite sumn_minus, (sumn_delta n i (fun d => place a l * gain a d)), (sumn_delta n l (fun d => place a i * gain a d)) by assumption. ring.
Qed.
End Solid.

(** * The reverse pass of a quasi-static run (C74)

    reverseAdjointTimestep and the sensitivities of SolidMechanics for quasi-static problems, after a run of QuasiStatic.v. *)
From Coq Require Import NArith ZArith Reals List Lia Lra Bool FunctionalExtensionality.
From Coquelicot Require Import Coquelicot.
From Verif Require Import Prelude DofCodec Sums Restriction Csr Kernels FunctionalModel FunctionalGrad FunctionalTotal Assembly Tensor MatAlg BoundaryElim Adjoint AdjointDeriv QuasiStatic.
Import ListNotations.
Local Open Scope R_scope.

(** values of one of the other arguments: a parameter field, or the shape displacement *)
Definition with_param (others : nat -> list R) (w : nat) (p : list R) : nat -> list R := fun v => if Nat.eqb v w then p else others v.

Section Reverse.
Context {St : Type}.
Notation mem := (mem St).
Variable f : functional St.
Variable n : nat.
Variable c : csr.
Variable bcs : list dofset.
(** the argument whose sensitivity is asked for is number [S w]; it has [np] entries, and [cw] is the pattern of its gradient *)
Variable w np : nat.
Variable cw : csr.
Variable lin : mat -> vec -> vec.
(** timesteps_ and the checkpointed displacements, by cycle (C02), and the arguments in force during the reverse pass *)
Variable dts : list R.
Variable saved : list (list R).
Variable others : nat -> list R.

(** displacement_, time_, time_end_step_, cycle_, displacement_adjoint_load_, adjoint_displacement_ and the buffers *)
Record backward := { b_u : list R; b_t : R; b_end : R; b_cycle : nat; b_load : vec; b_adj : vec; b_mem : mem }.
(** the forward run ends; nothing is done *)
Definition turn (s : state (St := St)) : backward :=
  {| b_u := s_u s; b_t := s_t s; b_end := 0; b_cycle := s_cycle s; b_load := fun _ => 0; b_adj := fun _ => 0; b_mem := s_mem s |}.
(** solid_mechanics.hpp:1311-1338 setAdjointLoad, "displacement" entry *)
Definition set_load (q : vec) (b : backward) : backward :=
  {| b_u := b_u b; b_t := b_t b; b_end := b_end b; b_cycle := b_cycle b; b_load := fun i => - q i; b_adj := b_adj b; b_mem := b_mem b |}.
(** solid_mechanics.hpp:1340-1374, 1402-1404 reverseAdjointTimestep, quasi-static branch; the loop over the conditions changes the load too *)
Definition reverse_step (b : backward) : outcome backward :=
  match b_cycle b with
  | O => Refused
  | S k =>
      match nth_error dts k, nth_error saved (S k) with
      | Some dt, Some u =>
          bindO (jacobian f n c (b_t b) others (entries u) (b_mem b)) (fun p =>
          let sys := adjoint_system n bcs (fst p) (b_load b) in
          Ok {| b_u := u; b_t := b_t b - dt; b_end := b_t b; b_cycle := k; b_load := snd sys; b_adj := lin (fst sys) (snd sys); b_mem := snd p |})
      | _, _ => Refused
      end
  end.
(** solid_mechanics.hpp:1614-1617: the gradient with respect to a parameter, 1423-1427 with respect to the shape displacement, assembled *)
Definition d_residual (b : backward) : outcome (mat * mem) :=
  bindO (evaluate f (b_end b) (Some (S w)) false (inputs others (b_u b)) n (b_mem b)) (fun p =>
  bindO (assemble f (S w) (snd p) cw) (fun V => Ok (csr_entry cw V : mat, snd p))).
(** solid_mechanics.hpp:1407-1433 computeTimestepSensitivity, computeTimestepShapeSensitivity *)
Definition timestep_sensitivity (b : backward) : outcome (vec * mem) :=
  bindO (d_residual b) (fun p => Ok (sensitivity n (fst p) (b_adj b), snd p)).
(** solid_mechanics.hpp:1466-1477 computeDualAdjointLoad for the reactions in a direction *)
Definition reaction_adjoint_load (d : vec) (b : backward) : outcome backward :=
  bindO (jacobian f n c (b_t b) others (entries (b_u b)) (b_mem b)) (fun p =>
  Ok (set_load (reaction_load n (fst p) d) {| b_u := b_u b; b_t := b_t b; b_end := b_end b; b_cycle := b_cycle b; b_load := b_load b; b_adj := b_adj b; b_mem := snd p |})).
(** solid_mechanics.hpp:1480-1504 computeDualSensitivity, computeDualShapeSensitivity *)
Definition dual_sensitivity (d : vec) (b : backward) : outcome (vec * mem) :=
  bindO (d_residual b) (fun p => Ok (sensitivity n (fst p) d, snd p)).
Definition remember (m : mem) (b : backward) : backward :=
  {| b_u := b_u b; b_t := b_t b; b_end := b_end b; b_cycle := b_cycle b; b_load := b_load b; b_adj := b_adj b; b_mem := m |}.

(** the user's loop: for every cycle from the last to the first set the load of that cycle, step back and add up the sensitivities *)
Fixpoint reverse_pass (loads : nat -> vec) (k : nat) (b : backward) : outcome vec :=
  match k with
  | O => Ok (fun _ => 0)
  | S k' =>
      bindO (reverse_step (set_load (loads k') b)) (fun b1 =>
      bindO (timestep_sensitivity b1) (fun g =>
      bindO (reverse_pass loads k' (remember (snd g) b1)) (fun rest => Ok (fun i => fst g i + rest i))))
  end.
(** the same for the reactions in the direction d *)
Fixpoint reaction_pass (d : nat -> vec) (k : nat) (b : backward) : outcome vec :=
  match k with
  | O => Ok (fun _ => 0)
  | S k' =>
      bindO (reaction_adjoint_load (d k') b) (fun b0 =>
      bindO (reverse_step b0) (fun b1 =>
      bindO (timestep_sensitivity b1) (fun g =>
      bindO (dual_sensitivity (d k') (remember (snd g) b1)) (fun h =>
      bindO (reaction_pass d k' (remember (snd h) b1)) (fun rest => Ok (fun i => fst g i + fst h i + rest i))))))
  end.
End Reverse.

Section Facts.
Context {St : Type}.
Notation mem := (mem St).
Variable f : functional St.
Variable n : nat.
Variable c : csr.
Variable tsize : nat -> nat.
Hypothesis R0 : ready f n c tsize.
Variable w np : nat.
Variable cw : csr.
(** the same for the parameter *)
Definition ready_for : Prop :=
  tsize (S w) = np /\ wf_assembly f (S w) n np /\ same_elements f (S w) /\ valid_csr n (coupled (blocks_of f (S w) Elements)) cw /\
  (forall x, coupled (blocks_of f (S w) BoundaryElements) x -> coupled (blocks_of f (S w) Elements) x).
Hypothesis Rw : ready_for.

(** the material does not look at its state *)
Definition memoryless : Prop := forall Ig G e q t v st st', In Ig (f_integrals f) -> In G (i_geoms Ig) ->
  fst (gk_qf G e q t v st) = fst (gk_qf G e q t v st').

Lemma res_sum_memoryless t Ls (m m' : mem) k : memoryless -> res_sum f t Ls m 0 (f_integrals f) k = res_sum f t Ls m' 0 (f_integrals f) k.
Proof.
  intros M. assert (Gen : forall ints j, (forall Ig, In Ig ints -> In Ig (f_integrals f)) -> res_sum f t Ls m j ints k = res_sum f t Ls m' j ints k).
  { induction ints as [|Ig ints IH]; intros j H; [reflexivity|]. cbn [res_sum]. rewrite IH by (intros; apply H; now right). f_equal.
    unfold res_contrib, res_blocks.
    assert (HG : forall Gs rs g, (forall G, In G Gs -> In G (i_geoms Ig)) ->
      blocks_from g Gs rs (fun g G r => eval_geom t G r g (Es_of f Ls Ig) (m_q m j g)) = blocks_from g Gs rs (fun g G r => eval_geom t G r g (Es_of f Ls Ig) (m_q m' j g))).
    { induction Gs as [|G Gs IHG]; intros [|r rs] g HGs; cbn [blocks_from]; try reflexivity. f_equal.
      - unfold eval_geom. f_equal. apply functional_extensionality. intros le. f_equal. apply functional_extensionality. intros q.
        apply (M Ig); [apply H; now left|apply HGs; now left].
      - apply IHG. intros G' H'. apply HGs. now right. }
    now rewrite HG. }
  apply Gen. auto.
Qed.
Lemma force_memoryless t others (m m' : mem) u L : memoryless -> fitting tsize others -> length u = n -> force f n t others m u L -> force f n t others m' u L.
Proof.
  intros M Fo Hu (m1 & E). destruct (evaluate_quiet f n c tsize R0 t None others u m m Fo Hu (same_refl m)) as (L1 & m2 & E1 & _ & Le1 & V1 & _).
  destruct (evaluate_quiet f n c tsize R0 t None others u m' m' Fo Hu (same_refl m')) as (L2 & m3 & E2 & _ & Le2 & V2 & _).
  rewrite E1 in E. injection E as <- _. exists m3. rewrite E2. f_equal. f_equal. apply (same_list n); auto. intros k Hk. rewrite V1, V2 by exact Hk. now apply res_sum_memoryless.
Qed.

Lemma written_of v t Ls (m m1 : mem) : stored_at f v t Ls m m1 -> all_written f v m1.
Proof. intros S k Ig s g G e q A B C D E. rewrite (S k Ig s g G e q A B C D E). discriminate. Qed.

(** a matrix is what assembling the stored derivatives gives *)
Lemma assembled_rows v m1 cc V tot dx i : wf_assembly f v n tot -> same_elements f v -> all_written f v m1 -> valid_csr n (coupled (blocks_of f v Elements)) cc ->
  (forall x, coupled (blocks_of f v BoundaryElements) x -> coupled (blocks_of f v Elements) x) ->
  assemble f v m1 cc = Ok V -> length dx = tot -> (i < n)%nat ->
  sumn tot (fun j => csr_entry cc V i j * nth j dx 0) = jvp_sum f v m1 dx 0 (f_integrals f) i.
Proof.
  intros WA SE WR VC Bd B Hd Hi. destruct R0 as (_ & _ & _ & _ & _ & Z & _).
  destruct (assembled_agrees f v m1 cc n tot WA SE WR VC Z Bd) as (V' & B' & Ag). rewrite B in B'. injection B' as <-.
  destruct (Ag dx Hd) as (act & A1 & A2 & A3). destruct (action_written f v m1 dx n tot WA WR Hd) as (act' & A1' & _ & A3').
  rewrite A1 in A1'. injection A1' as <-. rewrite <- A3', <- A3 by exact Hi. now rewrite (spmv_entries cc V dx i tot Hd).
Qed.

(** the gradient with respect to the parameter, as assembled *)
Definition param_tangent (t : R) (others : nat -> list R) (m : mem) (u : list R) (P : mat) : Prop :=
  exists L m' V, evaluate f t (Some (S w)) false (inputs others u) n m = Ok (L, m') /\ assemble f (S w) m' cw = Ok V /\ P = csr_entry cw V.

(** the nodal forces as a function of displacement and parameter *)
Definition nodal (t : R) (others : nat -> list R) (m : mem) (u p : vec) : vec :=
  fun i => res_sum f t (inputs (with_param others w (tab np p)) (tab n u)) m 0 (f_integrals f) i.
Lemma param_fits others p : fitting tsize others -> length p = np -> fitting tsize (with_param others w p).
Proof. intros Fo Hp v. unfold with_param. destruct (Nat.eqb_spec v w) as [->|]; [|apply Fo]. destruct Rw as (E & _). congruence. Qed.
Lemma tab_same m (x y : vec) : (forall i, (i < m)%nat -> x i = y i) -> tab m x = tab m y.
Proof. intros H. unfold tab. apply map_ext_in. intros i Hi. apply in_seq in Hi. apply H. lia. Qed.
Lemma tab_of m L : length L = m -> tab m (entries L) = L.
Proof. intros H. apply (same_list m); [apply tab_length|exact H|]. intros k Hk. now rewrite nth_tab. Qed.

Lemma bound_active : exists W, forall Ig, In Ig (f_integrals f) -> NoDup (i_active Ig) /\ forall v, In v (i_active Ig) -> (v < W)%nat.
Proof.
  destruct R0 as (Wf & _). assert (B : exists W, forall Ig, In Ig (f_integrals f) -> forall v, In v (i_active Ig) -> (v < W)%nat).
  { induction (f_integrals f) as [|Ig l (W & H)]; [exists 0%nat; intros ? []|]. exists (Nat.max W (S (list_max (i_active Ig)))). intros J [<-|HJ] v Hv.
    - assert (X := proj1 (list_max_le (i_active Ig) (list_max (i_active Ig))) (le_n _)). rewrite List.Forall_forall in X. specialize (X v Hv). lia.
    - specialize (H J HJ v Hv). lia. }
  destruct B as (W & B). exists W. intros Ig HI. split; [apply (Wf Ig HI)|now apply B].
Qed.

(** tangent and parameter gradient are the joint derivative of the nodal forces *)
Theorem joint_derivative t others (m : mem) u p A P : fitting tsize others -> length u = n -> length p = np ->
  ad_joint f t (inputs (with_param others w p) u) m ->
  tangent f n c t (with_param others w p) m u A -> param_tangent t (with_param others w p) m u P ->
  jacobian3 n np (fun u _ p => nodal t others m u p) (entries u) vz (entries p) A (fun _ _ => 0) P.
Proof.
  intros Fo Hu Hp Had (L0 & m0 & V0 & E0 & B0 & ->) (L1 & m1 & V1 & E1 & B1 & ->) cu du cv dv cp dp Cu _ Cp Su _ Sp i Hi.
  pose proof (param_fits others p Fo Hp) as Fp. pose proof R0 as (Wf & Ts & WA & SE & VC & Z & Bd). pose proof Rw as (Tw & WAw & SEw & VCw & Bdw).
  destruct (evaluate_quiet f n c tsize R0 t (Some 0%nat) (with_param others w p) u m m Fp Hu (same_refl m)) as (L0' & m0' & E0' & _ & _ & _ & Em0).
  rewrite E0' in E0. injection E0 as _ Q. subst m0'. assert (S0 := mem_sum_stored f 0 t false (inputs (with_param others w p) u) m). rewrite <- Em0 in S0.
  destruct (evaluate_quiet f n c tsize R0 t (Some (S w)) (with_param others w p) u m m Fp Hu (same_refl m)) as (L1' & m1' & E1' & _ & _ & _ & Em1).
  rewrite E1' in E1. injection E1 as _ Q. subst m1'. assert (S1 := mem_sum_stored f (S w) t false (inputs (with_param others w p) u) m). rewrite <- Em1 in S1.
  set (Lc := fun eps => inputs (with_param others w (tab np (cp eps))) (tab n (cu eps))).
  assert (L00 : Lc 0 = inputs (with_param others w p) u).
  { unfold Lc. rewrite (tab_same n (cu 0) (entries u)) by exact Su. rewrite (tab_same np (cp 0) (entries p)) by exact Sp. now rewrite !tab_of. }
  set (dL := fun a => match a with O => tab n du | S v => if Nat.eqb v w then tab np dp else [] end).
  destruct bound_active as (W & HW). set (ms := fun a => if Nat.eqb a 0 then m0 else if Nat.eqb a (S w) then m1 else mem_sum f t (Some a) false (Lc 0) 0 (f_integrals f) m).
  assert (HdL : forall a j, is_derive (fun eps => nth j (Lc eps a) 0) 0 (nth j (dL a) 0)).
  { assert (T : forall N (cc : R -> vec) dd j, curve N cc dd -> is_derive (fun eps => nth j (tab N (cc eps)) 0) 0 (nth j (tab N dd) 0)).
    { intros N cc dd j H. destruct (Nat.lt_ge_cases j N) as [X|X].
      - rewrite nth_tab by exact X. apply (is_derive_ext (fun eps => cc eps j)); [intros eps; now rewrite nth_tab|now apply H].
      - rewrite nth_tab0 by exact X. apply (is_derive_ext (fun _ => 0)); [intros eps; now rewrite nth_tab0|apply (is_derive_const (K:=R_AbsRing) (V:=R_NormedModule))]. }
    intros [|v] j; unfold Lc, dL; cbn [inputs]; [now apply T|]. unfold with_param. destruct (Nat.eqb v w); [now apply T|].
    replace (nth j [] 0) with 0 by (now destruct j). apply (is_derive_const (K:=R_AbsRing) (V:=R_NormedModule)). }
  assert (X := total_derivative f t Lc dL m ms (Nat.max W (S (S w))) i).
  assert (X' : is_derive (fun eps => res_sum f t (Lc eps) m 0 (f_integrals f) i) 0 (sumn (Nat.max W (S (S w))) (fun a => jvp_sum f a (ms a) (dL a) 0 (f_integrals f) i))).
  { apply X; [|exact HdL|now rewrite L00|].
    - intros Ig HI. destruct (HW Ig HI) as [ND B]. split; [exact ND|]. intros v Hv. specialize (B v Hv). lia.
    - intros a _. unfold ms. destruct (Nat.eqb_spec a 0) as [->|]; [now rewrite L00|]. destruct (Nat.eqb_spec a (S w)) as [->|]; [now rewrite L00|apply mem_sum_stored]. }
  clear X. assert (Sum : sumn (Nat.max W (S (S w))) (fun a => jvp_sum f a (ms a) (dL a) 0 (f_integrals f) i) =
    jvp_sum f 0 m0 (tab n du) 0 (f_integrals f) i + jvp_sum f (S w) m1 (tab np dp) 0 (f_integrals f) i).
  { rewrite <- (sumn_arguments (Nat.max W (S (S w))) [0%nat; S w] (fun a => jvp_sum f a (ms a) (dL a) 0 (f_integrals f) i)).
    - cbn [length sumn nth]. unfold ms, dL. cbn [Nat.eqb]. rewrite !Nat.eqb_refl. ring.
    - repeat constructor; cbn; [intros [H|[]]; discriminate|intros []].
    - intros v [<-|[<-|[]]]; lia.
    - intros v Hv. apply jvp_sum_zero. intros j. unfold dL. destruct v as [|v]; [exfalso; apply Hv; now left|]. destruct (Nat.eqb_spec v w) as [->|]; [|now destruct j].
      exfalso. apply Hv. right. now left. }
  rewrite Sum in X'.
  rewrite <- (assembled_rows 0 m0 c V0 n (tab n du) i WA SE (written_of 0 _ _ _ _ S0) VC Bd B0 (tab_length n du) Hi) in X'.
  rewrite <- (assembled_rows (S w) m1 cw V1 np (tab np dp) i WAw SEw (written_of (S w) _ _ _ _ S1) VCw Bdw B1 (tab_length np dp) Hi) in X'.
  replace (rows n n (csr_entry c V0) du i + rows n n (fun _ _ => 0) dv i + rows n np (csr_entry cw V1) dp i) with
    (sumn n (fun j => csr_entry c V0 i j * nth j (tab n du) 0) + sumn np (fun j => csr_entry cw V1 i j * nth j (tab np dp) 0)); [exact X'|].
  unfold rows. rewrite (sumn_zero n (fun j => 0 * dv j)) by (intros; ring).
  rewrite (sumn_ext n (fun j => csr_entry c V0 i j * nth j (tab n du) 0) (fun j => csr_entry c V0 i j * du j)) by (intros j Hj; now rewrite nth_tab).
  rewrite (sumn_ext np (fun j => csr_entry cw V1 i j * nth j (tab np dp) 0) (fun j => csr_entry cw V1 i j * dp j)) by (intros j Hj; now rewrite nth_tab). ring.
Qed.
End Facts.

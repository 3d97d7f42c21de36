(** * Strong enforcement of essential boundary conditions (C45)

    boundary_condition.cpp, boundary_condition_manager.hpp and warmStartDisplacement of solid_mechanics.hpp, over the reals.
    Matrices of size n are functions of their indices.  MFEM's HypreParMatrix::EliminateRowsCols and EliminateBC are not in
    /repo and are modelled from their documentation: the first puts unit rows and columns at the listed dofs and returns the
    removed entries; the second subtracts the removed columns times the given values from the right-hand side, then writes the
    values (times the unit diagonal) into the listed entries. *)
From Coq Require Import Reals Lra Lia Bool List.
From Verif Require Import Sums Tensor.
Import ListNotations.
Local Open Scope R_scope.

Notation dofset := (nat -> bool) (only parsing).
(** EliminateRowsCols, as called in boundary_condition.cpp:117 and boundary_condition_manager.hpp:93 *)
Definition eliminate (d : dofset) (A : mat) : mat := fun i j =>
  if d i || d j then (if Nat.eqb i j then 1 else 0) else A i j.
Definition removed (d : dofset) (A : mat) : mat := fun i j => if d i || d j then A i j else 0.
(** EliminateBC, as called in boundary_condition.cpp:118 and solid_mechanics.hpp:1753 *)
Definition eliminate_rhs (n : nat) (d : dofset) (Ae : mat) (x b : vec) : vec := fun i =>
  if d i then x i else b i - mvec n Ae x i.
(** boundary_condition.cpp:115-119 BoundaryCondition::apply *)
Definition apply_bc (n : nat) (x : vec) (d : dofset) (sys : mat * vec) : mat * vec :=
  let (A, b) := sys in (eliminate d A, eliminate_rhs n d (removed d A) x b).
(** the loops "for (const auto& bc : bcs_.essentials()) bc.apply(...)", solid_mechanics.hpp:1367-1369, heat_transfer.hpp:869-871 *)
Definition apply_all (n : nat) (x : vec) (bcs : list dofset) (sys : mat * vec) : mat * vec :=
  fold_left (fun s d => apply_bc n x d s) bcs sys.
Definition any (bcs : list dofset) : dofset := fun i => existsb (fun d => d i) bcs.

(** ** specification *)
(** [y] solves the n equations A y = b *)
Definition solution (n : nat) (A : mat) (b y : vec) : Prop := forall i, (i < n)%nat -> mvec n A y i = b i.
(** [y] takes the given values on constrained dofs and meets the original equations on all others *)
Definition constrained_solution (n : nat) (d : dofset) (x : vec) (A : mat) (b y : vec) : Prop :=
  (forall i, (i < n)%nat -> d i = true -> y i = x i) /\
  (forall i, (i < n)%nat -> d i = false -> mvec n A y i = b i).

Lemma mvec_ext n A B x y i : (forall j, (j < n)%nat -> A i j * x j = B i j * y j) -> mvec n A x i = mvec n B y i.
Proof. intros H. unfold mvec. now apply sumn_ext. Qed.
Lemma eliminate_essential_row n d A y i : (i < n)%nat -> d i = true -> mvec n (eliminate d A) y i = y i.
Proof.
  intros Hi E. unfold mvec, eliminate. rewrite E. cbn [orb].
  rewrite (sumn_ext n _ (fun j => if Nat.eqb j i then y j else 0)); [now apply sumn_delta|].
  intros j _. rewrite (PeanoNat.Nat.eqb_sym j i). destruct (Nat.eqb i j); ring.
Qed.
Lemma eliminate_free_row n d A x y i : d i = false -> (forall j, (j < n)%nat -> d j = true -> y j = x j) ->
  mvec n (eliminate d A) y i = mvec n A y i - mvec n (removed d A) x i.
Proof.
  intros E Y. unfold mvec. rewrite <- sumn_minus. apply sumn_ext. intros j Hj. unfold eliminate, removed. rewrite E. cbn [orb].
  destruct (d j) eqn:Ej; [|ring]. rewrite (Y j Hj Ej). destruct (PeanoNat.Nat.eqb_spec i j) as [->|]; [congruence|ring].
Qed.

Theorem eliminate_iff n d A x b y :
  solution n (eliminate d A) (eliminate_rhs n d (removed d A) x b) y <-> constrained_solution n d x A b y.
Proof.
  split.
  - intros H. assert (V : forall i, (i < n)%nat -> d i = true -> y i = x i).
    { intros i Hi E. rewrite <- (eliminate_essential_row n d A y i Hi E), (H i Hi). unfold eliminate_rhs. now rewrite E. }
    split; [exact V|]. intros i Hi E. assert (X := H i Hi). rewrite (eliminate_free_row n d A x y i E V) in X.
    unfold eliminate_rhs in X. rewrite E in X. lra.
  - intros [V Q] i Hi. unfold eliminate_rhs. destruct (d i) eqn:E.
    + rewrite eliminate_essential_row by assumption. now apply V.
    + rewrite (eliminate_free_row n d A x y i E V), (Q i Hi E). ring.
Qed.

(** one condition after the other is the same as all at once: systems with the same entries *)
Definition same_system (n : nat) (s t : mat * vec) : Prop :=
  (forall i j, (i < n)%nat -> (j < n)%nat -> fst s i j = fst t i j) /\ (forall i, (i < n)%nat -> snd s i = snd t i).
Lemma same_system_refl n s : same_system n s s.
Proof. split; auto. Qed.
Lemma same_system_trans n s t u : same_system n s t -> same_system n t u -> same_system n s u.
Proof. intros [A B] [C D]. split; intros; [rewrite A, C|rewrite B, D]; auto. Qed.
Lemma same_solution n s t y : same_system n s t -> solution n (fst s) (snd s) y -> solution n (fst t) (snd t) y.
Proof.
  intros [A B] H i Hi. rewrite <- B, <- H by exact Hi. apply mvec_ext. intros j Hj. now rewrite A.
Qed.
Lemma apply_bc_same n x d s t : same_system n s t -> same_system n (apply_bc n x d s) (apply_bc n x d t).
Proof.
  destruct s as [A b], t as [A' b']. intros [HA Hb]. cbn [fst snd] in *. split; cbn [apply_bc fst snd].
  - intros i j Hi Hj. unfold eliminate. rewrite HA by assumption. reflexivity.
  - intros i Hi. unfold eliminate_rhs. rewrite Hb by exact Hi. destruct (d i); [reflexivity|]. f_equal. apply mvec_ext.
    intros j Hj. unfold removed. now rewrite HA.
Qed.
Lemma apply_twice n x d e s : same_system n (apply_bc n x e (apply_bc n x d s)) (apply_bc n x (fun i => d i || e i) s).
Proof.
  destruct s as [A b]. split; cbn [apply_bc fst snd].
  - intros i j _ _. unfold eliminate. destruct (d i), (d j), (e i), (e j), (Nat.eqb i j); reflexivity.
  - intros i Hi. unfold eliminate_rhs. destruct (e i) eqn:Ei; [now rewrite orb_true_r|]. rewrite orb_false_r.
    destruct (d i) eqn:Di.
    + assert (Z : mvec n (removed e (eliminate d A)) x i = 0); [|rewrite Z; ring].
      unfold mvec. apply sumn_zero. intros j Hj. unfold removed, eliminate. rewrite Ei, Di. cbn [orb].
      destruct (e j) eqn:Ej; [|ring]. destruct (PeanoNat.Nat.eqb_spec i j) as [->|]; [congruence|ring].
    + assert (Z : mvec n (removed (fun k => d k || e k) A) x i = mvec n (removed d A) x i + mvec n (removed e (eliminate d A)) x i).
      { unfold mvec. rewrite <- sumn_plus. apply sumn_ext. intros j _. unfold removed, eliminate. rewrite Ei, Di. cbn [orb].
        destruct (d j) eqn:Dj, (e j) eqn:Ej; cbn [orb]; try ring.
        destruct (PeanoNat.Nat.eqb_spec i j) as [->|]; [congruence|ring]. }
      rewrite Z. ring.
Qed.
Lemma apply_none n x d s : (forall i, d i = false) -> same_system n (apply_bc n x d s) s.
Proof.
  destruct s as [A b]. intros H. split; cbn [apply_bc fst snd].
  - intros i j _ _. unfold eliminate. now rewrite !H.
  - intros i _. unfold eliminate_rhs. rewrite H. unfold mvec. rewrite sumn_zero; [ring|].
    intros j _. unfold removed. rewrite !H. cbn [orb]. ring.
Qed.
Lemma apply_all_same n x bcs s t : same_system n s t -> same_system n (apply_all n x bcs s) (apply_all n x bcs t).
Proof. revert s t. induction bcs as [|d bcs IH]; intros s t H; [exact H|]. cbn [apply_all fold_left]. apply IH. now apply apply_bc_same. Qed.
Lemma apply_bc_ext n x d e s : (forall i, d i = e i) -> same_system n (apply_bc n x d s) (apply_bc n x e s).
Proof.
  destruct s as [A b]. intros H. split; cbn [apply_bc fst snd].
  - intros i j _ _. unfold eliminate. now rewrite !H.
  - intros i _. unfold eliminate_rhs. rewrite H. destruct (e i); [reflexivity|]. f_equal. apply mvec_ext. intros j _. unfold removed. now rewrite !H.
Qed.
Theorem apply_all_union n x bcs s : same_system n (apply_all n x bcs s) (apply_bc n x (any bcs) s).
Proof.
  assert (G : forall d, same_system n (apply_all n x bcs (apply_bc n x d s)) (apply_bc n x (fun i => d i || any bcs i) s)).
  { induction bcs as [|e bcs IH]; intros d.
    - cbn [apply_all fold_left]. apply apply_bc_ext. intros i. cbn [any existsb]. now rewrite orb_false_r.
    - change (apply_all n x (e :: bcs) (apply_bc n x d s)) with (apply_all n x bcs (apply_bc n x e (apply_bc n x d s))).
      eapply same_system_trans; [apply apply_all_same, apply_twice|]. eapply same_system_trans; [apply IH|].
      apply apply_bc_ext. intros i. cbn [any existsb]. now rewrite orb_assoc. }
  eapply same_system_trans; [|eapply same_system_trans; [apply (G (fun _ => false))|]].
  - apply apply_all_same. assert (X := apply_none n x (fun _ => false) s (fun _ => eq_refl)). destruct X as [X Y].
    split; intros; symmetry; auto.
  - apply apply_bc_ext. reflexivity.
Qed.
Lemma same_system_sym n s t : same_system n s t -> same_system n t s.
Proof. intros [A B]. split; intros; symmetry; auto. Qed.

Theorem apply_all_iff n x bcs A b y :
  solution n (fst (apply_all n x bcs (A, b))) (snd (apply_all n x bcs (A, b))) y <-> constrained_solution n (any bcs) x A b y.
Proof.
  rewrite <- (eliminate_iff n (any bcs) A x b y).
  assert (X := apply_all_union n x bcs (A, b)). split; intros H.
  - exact (same_solution n _ _ y X H).
  - exact (same_solution n _ _ y (same_system_sym _ _ _ X) H).
Qed.

(** ** Newton systems: residual with zeroed essential entries, eliminated Jacobian
    (solid_mechanics.hpp:1118-1131, heat_transfer.hpp:709-731) *)
Definition zeroed (d : dofset) (r : vec) : vec := fun i => if d i then 0 else r i.
Theorem newton_correction n d J r y : solution n (eliminate d J) (zeroed d r) y <-> constrained_solution n d (fun _ => 0) J r y.
Proof.
  rewrite <- (eliminate_iff n d J (fun _ => 0) r y). unfold solution.
  assert (X : forall i, zeroed d r i = eliminate_rhs n d (removed d J) (fun _ => 0) r i).
  { intros i. unfold zeroed, eliminate_rhs. destruct (d i); [reflexivity|]. unfold mvec. rewrite sumn_zero by (intros; ring). ring. }
  split; intros H i Hi; [rewrite <- X|rewrite X]; now apply H.
Qed.

(** ** warm start, solid_mechanics.hpp:1731-1769: [g] the prescribed values at the end of the step, [r] the residual with the new
    time, [J] the Jacobian of the previous solution, [lin] the linear solver.  The code writes the essential entries of the
    right-hand side once more after EliminateBC (lines 1754-1757); they are already there. *)
Definition warm_start (n : nat) (d : dofset) (lin : mat -> vec -> vec) (use : bool) (J : mat) (r g u : vec) : vec :=
  let du0 : vec := fun i => if d i then g i - u i else 0 in
  let du := if use then
      let b := eliminate_rhs n d (removed d J) du0 (fun i => - r i) in
      lin (eliminate d J) (fun i => if d i then du0 i else b i)
    else du0 in
  fun i => u i + du i.
Theorem warm_start_ok n d lin J r g u :
  (forall b, solution n (eliminate d J) b (lin (eliminate d J) b)) ->
  (forall i, (i < n)%nat -> d i = true -> warm_start n d lin true J r g u i = g i) /\
  (forall i, (i < n)%nat -> d i = false ->
     r i + mvec n J (fun j => warm_start n d lin true J r g u j - u j) i = 0).
Proof.
  intros L.
  set (du0 := fun i => if d i then g i - u i else 0). set (b := eliminate_rhs n d (removed d J) du0 (fun i => - r i)).
  set (rhs := fun i => if d i then du0 i else b i).
  assert (W : forall i, warm_start n d lin true J r g u i = u i + lin (eliminate d J) rhs i) by reflexivity.
  assert (Sl : solution n (eliminate d J) b (lin (eliminate d J) rhs)).
  { intros i Hi. rewrite (L rhs i Hi). unfold rhs, b, eliminate_rhs. destruct (d i); reflexivity. }
  apply eliminate_iff in Sl. destruct Sl as [V Q]. split.
  - intros i Hi E. rewrite W, (V i Hi E). unfold du0. rewrite E. ring.
  - intros i Hi E. rewrite (mvec_ext n J J _ (lin (eliminate d J) rhs)) by (intros; rewrite W; ring). rewrite (Q i Hi E). ring.
Qed.
Theorem cold_start_ok n d lin J r g u i : warm_start n d lin false J r g u i = if d i then g i else u i.
Proof. unfold warm_start. cbv zeta. destruct (d i); ring. Qed.

(** concrete: a 2 x 2 system, dof 0 prescribed to 3 *)
Definition sample_matrix : mat := fun i j => match i, j with O, O => 2 | O, _ => -1 | S _, O => -1 | S _, S _ => 4 end.
Lemma sample_solution :
  solution 2 (fst (apply_all 2 (fun _ => 3) [fun i => Nat.eqb i 0; fun i => Nat.eqb i 0] (sample_matrix, fun _ => 5)))
    (snd (apply_all 2 (fun _ => 3) [fun i => Nat.eqb i 0; fun i => Nat.eqb i 0] (sample_matrix, fun _ => 5)))
    (fun i => match i with O => 3 | _ => 2 end).
Proof.
  apply apply_all_iff. split.
  - intros i Hi E. destruct i as [|[|i]]; cbn in E; [reflexivity|discriminate|lia].
  - intros i Hi E. destruct i as [|[|i]]; cbn in E; [discriminate| |lia]. cbn. ring.
Qed.
Lemma sample_linear_solver b : solution 2 (eliminate (fun i => Nat.eqb i 0) sample_matrix) b
  ((fun A c i => c i / A i i) (eliminate (fun i => Nat.eqb i 0) sample_matrix) b).
Proof. intros i Hi. destruct i as [|[|i]]; [| |lia]; cbn; field. Qed.

(** * Driving a material model through a history (C66)

    physics/materials/material_verification_tools.hpp:41-121 (uniaxial_stress_test, single_quadrature_point_test) and
    numerics/functional/tuple_tensor_dual_functions.hpp:691-711 (find_root), over the reals.  A material is any function of
    time (through the parameter functions of time), state and displacement gradient that may fail ([None]: NaN); its
    derivative with respect to the two lateral strains, which the dual numbers of [find_root] carry, is an argument of
    its own, so that no theorem depends on it unless it says so. *)
From Coq Require Import Reals Lra Lia List.
From Verif Require Import Sums Tensor LU MatAlg Materials.
Import ListNotations.
Local Open Scope R_scope.

(** tuple_tensor_dual_functions.hpp:697-698: epsilon = 1.0e-8 *)
Definition root_tolerance : R := / 10 ^ 8.
Definition length_of (n : nat) (r : vec) : R := sqrt (sumn n (fun i => r i * r i)).

(** tuple_tensor_dual_functions.hpp:702-708: [f x] is the value and the Jacobian at [x] *)
Fixpoint newton_loop (n : nat) (f : vec -> option (vec * mat)) (k : nat) (x : vec) : option vec :=
  match k with
  | O => Some x
  | S k' =>
      match f x with
      | None => None
      | Some (r, J) =>
          if Rlt_dec (length_of n r) root_tolerance then Some x
          else match linear_solve n J r with None => None | Some d => newton_loop n f k' (fun i => x i - d i) end
      end
  end.
(** max_iterations = 10 *)
Definition find_root (n : nat) (f : vec -> option (vec * mat)) (x0 : vec) : option vec := newton_loop n f 10 x0.

(** ** single_quadrature_point_test, material_verification_tools.hpp:100-121 *)
(** dt = t_max / (num_steps - 1); with one step it is infinite in the code, and added to [t] after the only entry *)
Definition spacing (t_max : R) (num_steps : nat) : R := t_max / INR (num_steps - 1).

Section Point.
Context {St In Out : Type} (material : St -> In -> option (Out * St)) (f : R -> In).
Fixpoint point_loop (k : nat) (t dt : R) (st : St) : option (list (R * St * In * Out)) :=
  match k with
  | O => Some []
  | S k' => match material st (f t) with
            | None => None
            | Some (out, st') => match point_loop k' (t + dt) dt st' with None => None | Some h => Some ((t, st', f t, out) :: h) end
            end
  end.
Definition point_test (t_max : R) (num_steps : nat) (st : St) : option (list (R * St * In * Out)) :=
  point_loop num_steps 0 (spacing t_max num_steps) st.
End Point.

(** ** uniaxial_stress_test, material_verification_tools.hpp:41-78 *)
(** du_dx with the three normal strains and no shear *)
Definition normal_strains (e : R) (x : vec) : mat := fun i j =>
  match i, j with O, O => e | 1%nat, 1%nat => x 0%nat | 2%nat, 2%nat => x 1%nat | _, _ => 0 end.
Definition lateral (s : mat) : vec := fun i => match i with O => s 1%nat 1%nat | _ => s 2%nat 2%nat end.

Section Uniaxial.
Context {St : Type} (material : R -> St -> mat -> option (mat * St)) (slope : R -> St -> mat -> mat) (epsilon : R -> R).
(** sigma_yy_and_zz: a copy of the state is passed *)
Definition lateral_stress (t : R) (st : St) (x : vec) : option (vec * mat) :=
  match material t st (normal_strains (epsilon t) x) with
  | None => None
  | Some (s, _) => Some (lateral s, slope t st (normal_strains (epsilon t) x))
  end.
Fixpoint uniaxial_loop (k : nat) (t dt : R) (st : St) (guess : vec) : option (list (R * mat * mat * St)) :=
  match k with
  | O => Some []
  | S k' =>
      match find_root 2 (lateral_stress t st) guess with
      | None => None
      | Some x =>
          let H := normal_strains (epsilon t) x in
          match material t st H with
          | None => None
          | Some (s, st') => match uniaxial_loop k' (t + dt) dt st' x with None => None | Some h => Some ((t, H, s, st') :: h) end
          end
      end
  end.
Definition uniaxial_test (t_max : R) (num_steps : nat) (st : St) : option (list (R * mat * mat * St)) :=
  uniaxial_loop num_steps 0 (spacing t_max num_steps) st (fun _ => 0).
End Uniaxial.

(** ** what the returned histories are *)
Section PointFacts.
Context {St In Out : Type} (material : St -> In -> option (Out * St)) (f : R -> In).
Lemma point_loop_entries : forall k t dt st h, point_loop material f k t dt st = Some h ->
  length h = k /\ forall i e, nth_error h i = Some e ->
    fst (fst (fst e)) = t + INR i * dt /\ snd (fst e) = f (t + INR i * dt) /\
    exists before, (match i with O => Some st | S j => option_map (fun e => snd (fst (fst e))) (nth_error h j) end) = Some before /\
      material before (f (t + INR i * dt)) = Some (snd e, snd (fst (fst e))).
Proof.
  induction k as [|k IH]; intros t dt st h E; cbn [point_loop] in E.
  - injection E as <-. split; [reflexivity|]. intros [|i] e H; discriminate.
  - destruct (material st (f t)) as [[out st']|] eqn:Em; [|discriminate].
    destruct (point_loop material f k (t + dt) dt st') as [h'|] eqn:El; [|discriminate]. injection E as <-.
    destruct (IH _ _ _ _ El) as [L H]. split; [cbn [length]; now rewrite L|].
    intros [|i] e He; cbn [nth_error] in He.
    + injection He as <-. cbn [fst snd INR]. rewrite Rmult_0_l, Rplus_0_r. split; [reflexivity|]. split; [reflexivity|].
      exists st. split; [reflexivity|exact Em].
    + destruct (H i e He) as [H1 [H2 [b [Hb H3]]]].
      replace (t + INR (S i) * dt) with (t + dt + INR i * dt) by (rewrite S_INR; ring).
      split; [exact H1|]. split; [exact H2|]. exists b. split; [|exact H3].
      destruct i as [|i]; cbn [nth_error option_map]; [injection Hb as <-; reflexivity|exact Hb].
Qed.

Theorem point_entries t_max n st h : point_test material f t_max n st = Some h ->
  length h = n /\ forall i t s x out, nth_error h i = Some (t, s, x, out) ->
    t = INR i * (t_max / INR (n - 1)) /\ x = f t /\
    exists before, match i with O => before = st | S j => exists t' x' out', nth_error h j = Some (t', before, x', out') end /\
      material before (f t) = Some (out, s).
Proof.
  intros E. unfold point_test in E. destruct (point_loop_entries _ _ _ _ _ E) as [L H]. split; [exact L|].
  intros i t s x out He. destruct (H i _ He) as [H1 [H2 [b [Hb H3]]]]. cbn [fst snd] in *. rewrite Rplus_0_l in *. fold (spacing t_max n).
  split; [exact H1|]. rewrite <- H1 in H2, H3. split; [exact H2|]. exists b. split; [|exact H3].
  destruct i as [|i]; [injection Hb as ->; reflexivity|]. destruct (nth_error h i) as [[[[t' s'] x'] o']|]; [|discriminate].
  cbn in Hb. injection Hb as ->. now exists t', x', o'.
Qed.

(** nothing is refused: a material that always answers gives a history of every length *)
Theorem point_total t_max n st : (forall s x, exists o, material s x = Some o) -> exists h, point_test material f t_max n st = Some h.
Proof.
  intros T. unfold point_test. generalize 0 (spacing t_max n). revert st.
  induction n as [|n IH]; intros st t dt; cbn [point_loop]; [now exists []|].
  destruct (T st (f t)) as [[o s'] ->]. destruct (IH s' (t + dt) dt) as [h ->]. now eexists.
Qed.
End PointFacts.

Section UniaxialFacts.
Context {St : Type} (material : R -> St -> mat -> option (mat * St)) (slope : R -> St -> mat -> mat) (epsilon : R -> R).
Notation loop' := (uniaxial_loop material slope epsilon).
Lemma uniaxial_loop_entries : forall k t dt st g h, loop' k t dt st g = Some h ->
  length h = k /\ forall i e, nth_error h i = Some e ->
    let ti := t + INR i * dt in
    fst (fst (fst e)) = ti /\
    exists before guess x, (match i with O => Some st | S j => option_map snd (nth_error h j) end) = Some before /\
      find_root 2 (lateral_stress material slope epsilon ti before) guess = Some x /\
      snd (fst (fst e)) = normal_strains (epsilon ti) x /\
      material ti before (normal_strains (epsilon ti) x) = Some (snd (fst e), snd e).
Proof.
  induction k as [|k IH]; intros t dt st g h E; cbn [uniaxial_loop] in E.
  - injection E as <-. split; [reflexivity|]. intros [|i] e H; discriminate.
  - destruct (find_root 2 (lateral_stress material slope epsilon t st) g) as [x|] eqn:Ef; [|discriminate]. cbv zeta in E.
    destruct (material t st (normal_strains (epsilon t) x)) as [[s st']|] eqn:Em; [|discriminate].
    destruct (loop' k (t + dt) dt st' x) as [h'|] eqn:El; [|discriminate]. injection E as <-.
    destruct (IH _ _ _ _ _ El) as [L H]. split; [cbn [length]; now rewrite L|]. cbv zeta in *.
    intros [|i] e He; cbn [nth_error] in He.
    + injection He as <-. cbn [fst snd INR]. rewrite Rmult_0_l, Rplus_0_r. split; [reflexivity|].
      exists st, g, x. split; [reflexivity|]. split; [exact Ef|]. split; [reflexivity|exact Em].
    + destruct (H i e He) as [H1 [b [g' [y [Hb [H2 [H3 H4]]]]]]].
      replace (t + INR (S i) * dt) with (t + dt + INR i * dt) by (rewrite S_INR; ring).
      split; [exact H1|]. exists b, g', y. split; [|split; [exact H2|split; [exact H3|exact H4]]].
      destruct i as [|i]; cbn [nth_error option_map]; [injection Hb as <-; reflexivity|exact Hb].
Qed.

Theorem uniaxial_entries t_max n st h : uniaxial_test material slope epsilon t_max n st = Some h ->
  length h = n /\ forall i t H s st', nth_error h i = Some (t, H, s, st') ->
    t = INR i * (t_max / INR (n - 1)) /\
    H 0%nat 0%nat = epsilon t /\ (forall a b, (a < 3)%nat -> (b < 3)%nat -> a <> b -> H a b = 0) /\
    exists before, match i with O => before = st | S j => exists t' H' s', nth_error h j = Some (t', H', s', before) end /\
      material t before H = Some (s, st').
Proof.
  intros E. unfold uniaxial_test in E. destruct (uniaxial_loop_entries _ _ _ _ _ _ E) as [L K]. split; [exact L|].
  intros i t H s st' He. destruct (K i _ He) as [H1 [b [g [x [Hb [H2 [H3 H4]]]]]]]. cbn [fst snd] in *. rewrite Rplus_0_l in *. fold (spacing t_max n).
  rewrite <- H1 in *. split; [reflexivity|]. rewrite H3. split; [reflexivity|]. split.
  { intros a c Ha Hc N. destruct a as [|[|[|a]]], c as [|[|[|c]]]; try lia; reflexivity. }
  exists b. split; [|exact H4].
  destruct i as [|i]; [injection Hb as ->; reflexivity|]. destruct (nth_error h i) as [[[[t' H'] s'] b']|]; [|discriminate].
  cbn in Hb. injection Hb as ->. now exists t', H', s'.
Qed.
End UniaxialFacts.

(** ** find_root *)
(** if one of the ten tests is met, the returned point is a root to within the tolerance *)
Lemma newton_loop_stops n f : forall k x y, newton_loop n f k x = Some y ->
  (exists r J, f y = Some (r, J) /\ length_of n r < root_tolerance) \/
  (exists path : nat -> vec, path 0%nat = x /\ path k = y /\ forall i, (i < k)%nat -> exists r J d, f (path i) = Some (r, J) /\
     root_tolerance <= length_of n r /\ (forall j, (j < n)%nat -> mvec n J d j = r j) /\ path (S i) = fun j => path i j - d j).
Proof.
  induction k as [|k IH]; intros x y E; cbn [newton_loop] in E.
  - injection E as <-. right. exists (fun _ => x). split; [reflexivity|]. split; [reflexivity|]. intros; lia.
  - destruct (f x) as [[r J]|] eqn:Ef; [|discriminate].
    destruct (Rlt_dec (length_of n r) root_tolerance) as [L|L].
    + injection E as <-. left. now exists r, J.
    + destruct (linear_solve n J r) as [d|] eqn:Ed; [|discriminate].
      destruct (IH _ _ E) as [H|[p [P0 [Pk P]]]]; [now left|]. right.
      exists (fun i => match i with O => x | S j => p j end). split; [reflexivity|]. split; [exact Pk|].
      intros [|i] Hi.
      * exists r, J, d. split; [exact Ef|]. split; [lra|]. split; [exact (linear_solve_ok n J r d Ed)|exact P0].
      * apply P. lia.
Qed.

(** two equations whose value is affine with an invertible matrix: one step suffices *)
Lemma sumn2 g : sumn 2 g = g 0%nat + g 1%nat.
Proof. cbn [sumn]. ring. Qed.

Lemma affine_root f (c : vec) (J : mat) x0 : det2 J <> 0 ->
  (forall x, exists r J', f x = Some (r, J') /\ (forall i, (i < 2)%nat -> r i = c i + mvec 2 J x i) /\ meq 2 J' J) ->
  exists y r J', find_root 2 f x0 = Some y /\ f y = Some (r, J') /\ length_of 2 r < root_tolerance.
Proof.
  intros D A. unfold find_root. assert (P : 0 < root_tolerance) by (unfold root_tolerance; apply Rinv_0_lt_compat, pow_lt; lra).
  change (newton_loop 2 f 10 x0) with (newton_loop 2 f (S (S 8)) x0). cbn [newton_loop].
  destruct (A x0) as [r [J' [E [R M]]]]. rewrite E. destruct (Rlt_dec (length_of 2 r) root_tolerance) as [L|L].
  { now exists x0, r, J'. }
  assert (D' : det2 J' <> 0) by (unfold det2 in *; rewrite !M by lia; exact D).
  destruct (linear_solve_2 J' r D') as [d [-> Hd]].
  destruct (A (fun i => x0 i - d i)) as [r1 [J1 [E1 [R1 M1]]]]. rewrite E1.
  assert (Z : forall i, (i < 2)%nat -> r1 i = 0).
  { intros i Hi. rewrite R1 by exact Hi. assert (Hi' := Hd i Hi). rewrite R in Hi' by exact Hi.
    unfold mvec in *. rewrite sumn2 in *. rewrite !M in Hi' by lia. rewrite sumn2 in Hi'. lra. }
  assert (Z' : length_of 2 r1 = 0).
  { unfold length_of. rewrite sumn_zero; [apply sqrt_0|]. intros i Hi. rewrite Z by exact Hi. ring. }
  rewrite Z'. destruct (Rlt_dec 0 root_tolerance) as [_|N]; [|contradiction].
  exists (fun i => x0 i - d i), r1, J1. split; [reflexivity|]. split; [exact E1|]. rewrite Z'. exact P.
Qed.

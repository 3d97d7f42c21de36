(** Property theorems C66: material test drivers report the response of the material along the prescribed history. *)
From Coq Require Import Reals Lra Lia List.
From Verif Require Import Sums Tensor LU MatAlg Materials MaterialTest MaterialTestEx.
Import ListNotations.
Local Open Scope R_scope.

(** single point test: entry [i] is at time i t_max / (n - 1), holds the prescribed input, and output and state are those of
    the material called once with the state of the entry before it *)
Theorem C66_point_history : forall (St In Out : Type) (material : St -> In -> option (Out * St)) (f : R -> In) t_max n st h,
  point_test material f t_max n st = Some h ->
  length h = n /\ forall i t s x out, nth_error h i = Some (t, s, x, out) ->
    t = INR i * (t_max / INR (n - 1)) /\ x = f t /\
    exists before, match i with O => before = st | S j => exists t' x' out', nth_error h j = Some (t', before, x', out') end /\
      material before (f t) = Some (out, s).
Proof. exact @point_entries. Qed.
Print Assumptions C66_point_history.

Theorem C66_point_answers : forall (St In Out : Type) (material : St -> In -> option (Out * St)) (f : R -> In) t_max n st,
  (forall s x, exists o, material s x = Some o) -> exists h, point_test material f t_max n st = Some h.
Proof. exact @point_total. Qed.
Print Assumptions C66_point_answers.

(** uniaxial test: the same, with the prescribed axial strain and no shear; the search for the lateral strains leaves no
    trace in the state *)
Theorem C66_uniaxial_history : forall (St : Type) (material : R -> St -> mat -> option (mat * St)) slope epsilon t_max n st h,
  uniaxial_test material slope epsilon t_max n st = Some h ->
  length h = n /\ forall i t H s st', nth_error h i = Some (t, H, s, st') ->
    t = INR i * (t_max / INR (n - 1)) /\
    H 0%nat 0%nat = epsilon t /\ (forall a b, (a < 3)%nat -> (b < 3)%nat -> a <> b -> H a b = 0) /\
    exists before, match i with O => before = st | S j => exists t' H' s', nth_error h j = Some (t', H', s', before) end /\
      material t before H = Some (s, st').
Proof. exact @uniaxial_entries. Qed.
Print Assumptions C66_uniaxial_history.

(** find_root: a root to within 1e-8, or the tenth Newton iterate, whose residual is not looked at *)
Theorem C66_find_root : forall n f x y, find_root n f x = Some y ->
  (exists r J, f y = Some (r, J) /\ length_of n r < / 10 ^ 8) \/
  (exists path : nat -> vec, path 0%nat = x /\ path 10%nat = y /\ forall i, (i < 10)%nat -> exists r J d, f (path i) = Some (r, J) /\
     / 10 ^ 8 <= length_of n r /\ (forall j, (j < n)%nat -> mvec n J d j = r j) /\ path (S i) = fun j => path i j - d j).
Proof. exact (fun n f => newton_loop_stops n f 10). Qed.
Print Assumptions C66_find_root.

(** lateral stresses vanish to 1e-8 for every material whose lateral stresses are affine in the lateral strains.
    Missing: other materials, for which ten steps may not suffice *)
Theorem C66_lateral_stress_partial : forall (St : Type) (material : R -> St -> mat -> option (mat * St)) slope epsilon t_max n st,
  (forall t st, exists (c : vec) (J : mat), det2 J <> 0 /\
     forall x, exists s st', material t st (normal_strains (epsilon t) x) = Some (s, st') /\
       (forall i, (i < 2)%nat -> lateral s i = c i + mvec 2 J x i) /\ meq 2 (slope t st (normal_strains (epsilon t) x)) J) ->
  exists h, uniaxial_test material slope epsilon t_max n st = Some h /\
  forall t H s st', In (t, H, s, st') h -> length_of 2 (lateral s) < / 10 ^ 8.
Proof. exact @affine_uniaxial. Qed.
Print Assumptions C66_lateral_stress_partial.

(** the linear isotropic material gives Young's modulus and Poisson's ratio *)
Theorem C66_linear_isotropic : forall K G epsilon t_max n, 0 < K -> 0 < G ->
  exists h, uniaxial_test (linear_material K G) (linear_slope K G) epsilon t_max n tt = Some h /\ length h = n /\
  forall i t H s st, nth_error h i = Some (t, H, s, st) -> t = INR i * (t_max / INR (n - 1)) /\
    H 0%nat 0%nat = epsilon t /\ Rabs (s 0%nat 0%nat - 9 * K * G / (3 * K + G) * epsilon t) <= 2 * / 10 ^ 8 /\
    forall j, (1 <= j < 3)%nat -> Rabs (H j j + (3 * K - 2 * G) / (2 * (3 * K + G)) * epsilon t) <= 2 * / 10 ^ 8 / G.
Proof. exact linear_uniaxial. Qed.
Print Assumptions C66_linear_isotropic.

(** a material (with its true derivative) whose lateral stresses can vanish, reported with lateral stress above the tolerance *)
Theorem C66_lateral_stress_refuted : exists (material : R -> unit -> mat -> option (mat * unit)) slope epsilon,
  (forall t x i j, (i < 2)%nat -> (j < 2)%nat -> forall s,
     option_map fst (lateral_stress material slope epsilon t tt x) = Some s ->
     exists J, option_map snd (lateral_stress material slope epsilon t tt x) = Some J /\
       derivable_pt_lim (fun h => match lateral_stress material slope epsilon t tt (fun m => x m + if Nat.eqb m j then h else 0) with
                                  | Some (r, _) => r i | None => 0 end) 0 (J i j)) /\
  (forall t, exists x s, lateral_stress material slope epsilon t tt x = Some s /\ forall i, (i < 2)%nat -> fst s i = 0) /\
  exists h t H s st, uniaxial_test material slope epsilon 1 2 tt = Some h /\ nth_error h 0 = Some (t, H, s, st) /\ / 10 ^ 8 < length_of 2 (lateral s).
Proof. exact uniaxial_inexact. Qed.
Print Assumptions C66_lateral_stress_refuted.

(** non-vacuity: a counting material driven for three steps *)
Example C66_nonvacuous : exists h, point_test (fun (s : nat) (x : R) => Some (x + INR s, S s)) (fun t => 2 * t) 1 3 0%nat = Some h /\ length h = 3%nat.
Proof. eexists. split; reflexivity. Qed.
Example C66_linear_nonvacuous : exists h, uniaxial_test (linear_material 1 1) (linear_slope 1 1) (fun t => t) 1 5 tt = Some h /\ length h = 5%nat.
Proof. destruct (linear_uniaxial 1 1 (fun t => t) 1 5 Rlt_0_1 Rlt_0_1) as [h [E [L _]]]. exists h. exact (conj E L). Qed.

(** * Property C63. Specification: along, partials, differential, geometry, curl, covariant in Piola.v *)
From Coq Require Import Reals List.
From Coquelicot Require Import Coquelicot.
From Verif Require Import Sums Tensor MatAlg ShapeAware Piola.
Local Open Scope R_scope.

(** nodal fields: if the field U on the deformed element has gradient D at the image of a parent point, then U as
    seen in parent coordinates has partial derivatives there, and the code turns the value and those derivatives into
    the value of U and D *)
Theorem C63_gradient : forall n r phi jac U x D f, dim23 n -> (f = H1 \/ f = L2) -> detn n (jac x) <> 0 -> partials n n phi x (jac x) -> differential n r U (phi x) D ->
  exists D' p, partials n r (fun y => U (phi y)) x D' /\ parent_to_physical n f (jac x) (U (phi x), D') = Some p /\
    (forall i, (i < r)%nat -> fst p i = U (phi x) i) /\ (forall i j, (i < r)%nat -> (j < n)%nat -> snd p i j = D i j).
Proof. exact physical_gradient. Qed.
Print Assumptions C63_gradient.
(** edge fields: given the covariant components of V in the parent element and their curl there, the code returns V and
    the curl of V, on every curved element *)
Theorem C63_curl : forall n phi jac V x D, dim23 n -> detn n (jac x) <> 0 -> geometry n phi jac x -> differential n n V (phi x) D ->
  exists D' p, partials n n (covariant n phi jac V) x D' /\ parent_to_physical n HCURL (jac x) (covariant n phi jac V x, fun _ => curl n D') = Some p /\
    (forall i, (i < n)%nat -> fst p i = V (phi x) i) /\ (forall a, (a < curls n)%nat -> snd p 0%nat a = curl n D a).
Proof. exact physical_curl. Qed.
Print Assumptions C63_curl.
(** non-vacuity: a bilinear element whose Jacobian varies, and a rotating field *)
Example C63_bilinear : geometry 2 ex_map ex_jac ex_at /\ detn 2 (ex_jac ex_at) = 2 /\ differential 2 2 ex_turn (ex_map ex_at) ex_turn_d /\ curl 2 ex_turn_d 0 = 2.
Proof. exact ex_geometry. Qed.

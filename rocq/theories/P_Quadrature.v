(** * Property C32: quadrature rules *)
From Coq Require Import Reals List.
From Verif Require Import Sums Simplex Quadrature.
Import ListNotations.
Local Open Scope R_scope.

Theorem C32_segment : forall n, (1 <= n <= 8)%nat -> exists t, seg_table n = Some t /\ good_rule (to_rule t) 1 n /\
  forall P, total_degree 1 (2 * n - 1) P -> exists v, seg_int (poly1 P) v /\ Rabs (quad (to_rule t) (evalp P) - v) <= / 10 ^ 14 * coef_sum P.
Proof. exact seg_rules. Qed.
Print Assumptions C32_segment.
(** degrees 1, 2, 4, 5, 7 *)
Theorem C32_triangle : forall n, (1 <= n <= 5)%nat -> exists t, tri_table n = Some t /\ good_rule (to_rule t) 2 (n * (n + 1) / 2) /\
  forall P, total_degree 2 (tri_degree n) P -> exists v, tri_int (poly2 P) v /\ Rabs (quad (to_rule t) (evalp P) - v) <= / 10 ^ 14 * coef_sum P.
Proof. exact tri_rules. Qed.
Print Assumptions C32_triangle.
(** degrees 1, 2, 3, 5, 6, 8 *)
Theorem C32_tetrahedron : forall n, (1 <= n <= 6)%nat -> exists t, tet_table n = Some t /\ good_rule (to_rule t) 3 (n * (n + 1) * (n + 2) / 6) /\
  forall P, total_degree 3 (tet_degree n) P -> exists v, tet_int (poly3 P) v /\ Rabs (quad (to_rule t) (evalp P) - v) <= / 10 ^ 14 * coef_sum P.
Proof. exact tet_rules. Qed.
Print Assumptions C32_tetrahedron.
(** degree 2n-1 in each variable *)
Theorem C32_square : forall n, (1 <= n <= 8)%nat -> exists t, seg_table n = Some t /\
  length (square_rule (to_rule t)) = (n * n)%nat /\
  (forall wp, In wp (square_rule (to_rule t)) -> 0 < fst wp /\ length (snd wp) = 2%nat /\ forall x, In x (snd wp) -> 0 < x < 1) /\
  forall P, each_degree 2 (2 * n - 1) P -> exists v, square_int (poly2 P) v /\
    Rabs (quad (square_rule (to_rule t)) (evalp P) - v) <= 3 * / 10 ^ 14 * coef_sum P.
Proof. exact square_rules. Qed.
Print Assumptions C32_square.
Theorem C32_cube : forall n, (1 <= n <= 8)%nat -> exists t, seg_table n = Some t /\
  length (cube_rule (to_rule t)) = (n * n * n)%nat /\
  (forall wp, In wp (cube_rule (to_rule t)) -> 0 < fst wp /\ length (snd wp) = 3%nat /\ forall x, In x (snd wp) -> 0 < x < 1) /\
  forall P, each_degree 3 (2 * n - 1) P -> exists v, cube_int (poly3 P) v /\
    Rabs (quad (cube_rule (to_rule t)) (evalp P) - v) <= 5 * / 10 ^ 14 * coef_sum P.
Proof. exact cube_rules. Qed.
Print Assumptions C32_cube.
Example C32_case : total_degree 3 8 [(2, [8; 0; 0]%nat); (- 1, [3; 2; 3]%nat); (5, [0; 0; 0]%nat)].
Proof. exact sample_degree. Qed.

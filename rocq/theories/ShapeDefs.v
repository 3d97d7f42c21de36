(** * Shape functions (C33), transcribed from polynomials.hpp and detail/*_H1.inl

    [s] stands for the constant sqrt5 = 2.23606797749978981. *)
From Coq Require Import Reals List.
Import ListNotations.
Local Open Scope R_scope.

(** detail/triangle_H1.inl:30, detail/tetrahedron_H1.inl:29 *)
Definition tri_ndof (p : nat) : nat := ((p + 1) * (p + 2) / 2)%nat.
Definition tet_ndof (p : nat) : nat := ((p + 1) * (p + 2) * (p + 3) / 6)%nat.
(** detail/triangle_H1.inl:79-144 shape_function; polynomial order p *)
Definition tri_shape (s : R) (p : nat) (x y : R) : list R :=
  match p with
  | 1%nat => [
      1 - x - y;
      x;
      y]
  | 2%nat => [
      (-1 + x + y) * (-1 + 2 * x + 2 * y);
      -4 * x * (-1 + x + y);
      x * (-1 + 2 * x);
      -4 * y * (-1 + x + y);
      4 * x * y;
      y * (-1 + 2 * y)]
  | 3%nat => [
      -((-1 + x + y) * (1 + 5 * x * x + 5 * (-1 + y) * y + x * (-5 + 11 * y)));
      (5 * x * (-1 + x + y) * (-1 - s + 2 * s * x + (3 + s) * y)) / 2;
      (-5 * x * (-1 + x + y) * (1 - s + 2 * s * x + (-3 + s) * y)) / 2;
      x * (1 + 5 * x * x + y - y * y - x * (5 + y));
      (5 * y * (-1 + x + y) * (-1 - s + (3 + s) * x + 2 * s * y)) / 2;
      -27 * x * y * (-1 + x + y);
      (5 * x * y * (-2 + (3 + s) * x - (-3 + s) * y)) / 2;
      (5 * y * (-1 + x + y) * (5 - 3 * s + 2 * (-5 + 2 * s) * x + 5 * (-1 + s) * y)) / (-5 + s);
      (-5 * x * y * (2 + (-3 + s) * x - (3 + s) * y)) / 2;
      y * (1 + x - x * x - x * y + 5 * (-1 + y) * y)]
  | _ => repeat 0 (tri_ndof p)
  end.
(** detail/triangle_H1.inl:144-224 shape_function_gradient; polynomial order p *)
Definition tri_grad (s : R) (p : nat) (x y : R) : list (list R) :=
  match p with
  | 1%nat => [
      [-1; -1];
      [1; 0];
      [0; 1]]
  | 2%nat => [
      [-3 + 4 * x + 4 * y; -3 + 4 * x + 4 * y];
      [-4 * (-1 + 2 * x + y); -4 * x];
      [-1 + 4 * x; 0];
      [-4 * y; -4 * (-1 + x + 2 * y)];
      [4 * y; 4 * x];
      [0; -1 + 4 * y]]
  | 3%nat => [
      [-6 - 15 * x * x + 4 * x * (5 - 8 * y) + (21 - 16 * y) * y; -6 - 16 * x * x + x * (21 - 32 * y) + 5 * (4 - 3 * y) * y];
      [(5 * (6 * s * x * x + x * (-2 - 6 * s + 6 * (1 + s) * y) + (-1 + y) * (-1 - s + (3 + s) * y))) / 2; (5 * x * (-2 * (2 + s) + 3 * (1 + s) * x + 2 * (3 + s) * y)) / 2];
      [(-5 * (6 * s * x * x + (-1 + y) * (1 - s + (-3 + s) * y) + x * (2 - 6 * s + 6 * (-1 + s) * y))) / 2; (-5 * x * (4 - 2 * s + 3 * (-1 + s) * x + 2 * (-3 + s) * y)) / 2];
      [1 + 15 * x * x + y - y * y - 2 * x * (5 + y); -(x * (-1 + x + 2 * y))];
      [(5 * y * (-2 * (2 + s) + 2 * (3 + s) * x + 3 * (1 + s) * y)) / 2; (5 * (1 + s - 2 * (2 + s) * x + (3 + s) * x * x + 6 * (1 + s) * x * y + 2 * y * (-1 - 3 * s + 3 * s * y))) / 2];
      [-27 * y * (-1 + 2 * x + y); -27 * x * (-1 + x + 2 * y)];
      [(-5 * y * (2 - 2 * (3 + s) * x + (-3 + s) * y)) / 2; (5 * x * (-2 + (3 + s) * x - 2 * (-3 + s) * y)) / 2];
      [(-5 * y * (4 - 2 * s + 2 * (-3 + s) * x + 3 * (-1 + s) * y)) / 2; (-5 * (-1 + s + (-3 + s) * x * x + 2 * y * (1 - 3 * s + 3 * s * y) + x * (4 - 2 * s + 6 * (-1 + s) * y))) / 2];
      [(5 * y * (-2 - 2 * (-3 + s) * x + (3 + s) * y)) / 2; (-5 * x * (2 + (-3 + s) * x - 2 * (3 + s) * y)) / 2];
      [-(y * (-1 + 2 * x + y)); 1 + x - x * x - 2 * (5 + x) * y + 15 * y * y]]
  | _ => repeat [0; 0] (tri_ndof p)
  end.
(** detail/tetrahedron_H1.inl:46-155 shape_function; polynomial order p *)
Definition tet_shape (s : R) (p : nat) (x y z : R) : list R :=
  match p with
  | 1%nat => [
      1 - x - y - z;
      x;
      y;
      z]
  | 2%nat => [
      (-1 + x + y + z) * (-1 + 2 * x + 2 * y + 2 * z);
      -4 * x * (-1 + x + y + z);
      x * (-1 + 2 * x);
      -4 * y * (-1 + x + y + z);
      4 * x * y;
      y * (-1 + 2 * y);
      -4 * z * (-1 + x + y + z);
      4 * x * z;
      4 * y * z;
      z * (-1 + 2 * z)]
  | 3%nat => [
      -((-1 + x + y + z) * (1 + 5 * x * x + 5 * y * y + 5 * (-1 + z) * z + y * (-5 + 11 * z) + x * (-5 + 11 * y + 11 * z)));
      (5 * x * (-1 + x + y + z) * (-1 - s + 2 * s * x + (3 + s) * y + (3 + s) * z)) / 2;
      (-5 * x * (-1 + x + y + z) * (1 - s + 2 * s * x + (-3 + s) * y + (-3 + s) * z)) / 2;
      x * (1 + 5 * x * x + y - y * y + z - y * z - z * z - x * (5 + y + z));
      (5 * y * (-1 + x + y + z) * (-1 - s + (3 + s) * x + 2 * s * y + (3 + s) * z)) / 2;
      -27 * x * y * (-1 + x + y + z);
      (5 * x * y * (-2 + (3 + s) * x - (-3 + s) * y)) / 2;
      (-5 * y * (-1 + x + y + z) * (1 - s + (-3 + s) * x + 2 * s * y + (-3 + s) * z)) / 2;
      (-5 * x * y * (2 + (-3 + s) * x - (3 + s) * y)) / 2;
      y * (1 - x * x + 5 * y * y + z - z * z - y * (5 + z) - x * (-1 + y + z));
      (5 * z * (-1 + x + y + z) * (-439204 - 196418 * s + (710647 + 317811 * s) * x + (710647 + 317811 * s) * y + 606965 * z + 271443 * s * z)) / (271443 + 121393 * s);
      -27 * x * z * (-1 + x + y + z);
      (5 * x * z * (-5 - 3 * s + (15 + 7 * s) * x + 2 * s * z)) / (5 + 3 * s);
      -27 * y * z * (-1 + x + y + z);
      27 * x * y * z;
      (5 * y * z * (-5 - 3 * s + (15 + 7 * s) * y + 2 * s * z)) / (5 + 3 * s);
      (5 * z * (-1 + x + y + z) * (88555 + 39603 * s + (54730 + 24476 * s) * x + (54730 + 24476 * s) * y - 5 * (64079 + 28657 * s) * z)) / (143285 + 64079 * s);
      (-5 * x * z * (2 + (-3 + s) * x - (3 + s) * z)) / 2;
      (-5 * y * z * (2 + (-3 + s) * y - (3 + s) * z)) / 2;
      -(z * (-1 + x * x + y * y + y * (-1 + z) - 5 * (-1 + z) * z + x * (-1 + y + z)))]
  | _ => repeat 0 (tet_ndof p)
  end.
(** detail/tetrahedron_H1.inl:155-320 shape_function_gradient; polynomial order p *)
Definition tet_grad (s : R) (p : nat) (x y z : R) : list (list R) :=
  match p with
  | 1%nat => [
      [-1; -1; -1];
      [1; 0; 0];
      [0; 1; 0];
      [0; 0; 1]]
  | 2%nat => [
      [-3 + 4 * x + 4 * y + 4 * z; -3 + 4 * x + 4 * y + 4 * z; -3 + 4 * x + 4 * y + 4 * z];
      [-4 * (-1 + 2 * x + y + z); -4 * x; -4 * x];
      [-1 + 4 * x; 0; 0];
      [-4 * y; -4 * (-1 + x + 2 * y + z); -4 * y];
      [4 * y; 4 * x; 0];
      [0; -1 + 4 * y; 0];
      [-4 * z; -4 * z; -4 * (-1 + x + y + 2 * z)];
      [4 * z; 0; 4 * x];
      [0; 4 * z; 4 * y];
      [0; 0; -1 + 4 * z]]
  | 3%nat => [
      [-6 - 15 * x * x - 16 * y * y + y * (21 - 33 * z) + (21 - 16 * z) * z - 4 * x * (-5 + 8 * y + 8 * z); -6 - 16 * x * x + 20 * y + x * (21 - 32 * y - 33 * z) + 21 * z - (3 * y + 4 * z) * (5 * y + 4 * z); -6 - 16 * x * x + 21 * y + x * (21 - 33 * y - 32 * z) + 20 * z - (4 * y + 3 * z) * (4 * y + 5 * z)];
      [(5 * (6 * s * x * x + x * (-2 - 6 * s + 6 * (1 + s) * y + 6 * (1 + s) * z) + (-1 + y + z) * (-1 - s + (3 + s) * y + (3 + s) * z))) / 2; (5 * x * (-4 - 2 * s + 3 * (1 + s) * x + 2 * (3 + s) * y + 2 * (3 + s) * z)) / 2; (5 * x * (-4 - 2 * s + 3 * (1 + s) * x + 2 * (3 + s) * y + 2 * (3 + s) * z)) / 2];
      [-15 * s * x * x - (5 * (-1 + y + z) * (1 - s + (-3 + s) * y + (-3 + s) * z)) / 2 - 5 * x * (1 - 3 * s + 3 * (-1 + s) * y + 3 * (-1 + s) * z); (-5 * x * (4 - 2 * s + 3 * (-1 + s) * x + 2 * (-3 + s) * y + 2 * (-3 + s) * z)) / 2; (-5 * x * (4 - 2 * s + 3 * (-1 + s) * x + 2 * (-3 + s) * y + 2 * (-3 + s) * z)) / 2];
      [1 + 15 * x * x + y - y * y + z - y * z - z * z - 2 * x * (5 + y + z); -(x * (-1 + x + 2 * y + z)); -(x * (-1 + x + y + 2 * z))];
      [(5 * y * (-2 * (2 + s) + 2 * (3 + s) * x + 3 * (1 + s) * y + 2 * (3 + s) * z)) / 2; 15 * s * y * y + 5 * y * (-1 - 3 * s + 3 * (1 + s) * x + 3 * (1 + s) * z) + (5 * (-1 + x + z) * (-1 - s + (3 + s) * x + (3 + s) * z)) / 2; (5 * y * (-2 * (2 + s) + 2 * (3 + s) * x + 3 * (1 + s) * y + 2 * (3 + s) * z)) / 2];
      [-27 * y * (-1 + 2 * x + y + z); -27 * x * (-1 + x + 2 * y + z); -27 * x * y];
      [(-5 * y * (2 - 2 * (3 + s) * x + (-3 + s) * y)) / 2; (5 * x * (-2 + (3 + s) * x - 2 * (-3 + s) * y)) / 2; 0];
      [(-5 * y * (4 - 2 * s + 2 * (-3 + s) * x + 3 * (-1 + s) * y + 2 * (-3 + s) * z)) / 2; -15 * s * y * y - (5 * (-1 + x + z) * (1 - s + (-3 + s) * x + (-3 + s) * z)) / 2 - 5 * y * (1 - 3 * s + 3 * (-1 + s) * x + 3 * (-1 + s) * z); (-5 * y * (4 - 2 * s + 2 * (-3 + s) * x + 3 * (-1 + s) * y + 2 * (-3 + s) * z)) / 2];
      [(5 * y * (-2 - 2 * (-3 + s) * x + (3 + s) * y)) / 2; (-5 * x * (2 + (-3 + s) * x - 2 * (3 + s) * y)) / 2; 0];
      [-(y * (-1 + 2 * x + y + z)); 1 - x * x + 15 * y * y + z - z * z - 2 * y * (5 + z) - x * (-1 + 2 * y + z); -(y * (-1 + x + y + 2 * z))];
      [(5 * z * (-2 * (2 + s) + 2 * (3 + s) * x + 2 * (3 + s) * y + 3 * (1 + s) * z)) / 2; (5 * z * (-2 * (2 + s) + 2 * (3 + s) * x + 2 * (3 + s) * y + 3 * (1 + s) * z)) / 2; (5 * (1 + s + (3 + s) * x * x - 2 * (2 + s) * y + (3 + s) * y * y + 6 * (1 + s) * y * z + 2 * z * (-1 - 3 * s + 3 * s * z) + 2 * x * (-2 - s + (3 + s) * y + 3 * (1 + s) * z))) / 2];
      [-27 * z * (-1 + 2 * x + y + z); -27 * x * z; -27 * x * (-1 + x + y + 2 * z)];
      [(-5 * z * (2 - 2 * (3 + s) * x + (-3 + s) * z)) / 2; 0; (5 * x * (-2 + (3 + s) * x - 2 * (-3 + s) * z)) / 2];
      [-27 * y * z; -27 * z * (-1 + x + 2 * y + z); -27 * y * (-1 + x + y + 2 * z)];
      [27 * y * z; 27 * x * z; 27 * x * y];
      [0; (-5 * z * (2 - 2 * (3 + s) * y + (-3 + s) * z)) / 2; (5 * y * (-2 + (3 + s) * y - 2 * (-3 + s) * z)) / 2];
      [(-5 * z * (4 - 2 * s + 2 * (-3 + s) * x + 2 * (-3 + s) * y + 3 * (-1 + s) * z)) / 2; (-5 * z * (4 - 2 * s + 2 * (-3 + s) * x + 2 * (-3 + s) * y + 3 * (-1 + s) * z)) / 2; (-5 * (-3 + s) * x * x) / 2 - 5 * x * (2 - s + (-3 + s) * y + 3 * (-1 + s) * z) - (5 * (-1 + s + (-3 + s) * y * y + 2 * z * (1 - 3 * s + 3 * s * z) + y * (4 - 2 * s + 6 * (-1 + s) * z))) / 2];
      [(5 * z * (-2 - 2 * (-3 + s) * x + (3 + s) * z)) / 2; 0; (-5 * x * (2 + (-3 + s) * x - 2 * (3 + s) * z)) / 2];
      [0; (5 * z * (-2 - 2 * (-3 + s) * y + (3 + s) * z)) / 2; (-5 * y * (2 + (-3 + s) * y - 2 * (3 + s) * z)) / 2];
      [-(z * (-1 + 2 * x + y + z)); -(z * (-1 + x + 2 * y + z)); 1 + x - x * x + y - x * y - y * y - 2 * (5 + x + y) * z + 15 * z * z]]
  | _ => repeat [0; 0; 0] (tet_ndof p)
  end.
(** polynomials.hpp:494-513 GaussLobattoInterpolation *)
Definition lob (s : R) (n : nat) (x : R) : option (list R) :=
  match n with
  | 1%nat => Some [1]
  | 2%nat => Some [1 - x;
      x]
  | 3%nat => Some [(-1 + x) * (-1 + 2 * x);
      -4 * (-1 + x) * x;
      x * (-1 + 2 * x)]
  | 4%nat => Some [-(-1 + x) * (1 + 5 * (-1 + x) * x);
      - (1 / 2) * s * (5 + s - 10 * x) * (-1 + x) * x;
      - (1 / 2) * s * (-1 + x) * x * (-5 + s + 10 * x);
      x * (1 + 5 * (-1 + x) * x)]
  | _ => None
  end.
(** polynomials.hpp:521-540 GaussLobattoInterpolationDerivative *)
Definition lob_d (s : R) (n : nat) (x : R) : option (list R) :=
  match n with
  | 1%nat => Some [0]
  | 2%nat => Some [-1;
      1]
  | 3%nat => Some [-3 + 4 * x;
      4 - 8 * x;
      -1 + 4 * x]
  | 4%nat => Some [-6 + 5 * (4 - 3 * x) * x;
      (5 / 2) * (1 + s + 2 * x * (-1 - 3 * s + 3 * s * x));
      - (5 / 2) * (-1 + s + 2 * x * (1 - 3 * s + 3 * s * x));
      1 + 5 * x * (-2 + 3 * x)]
  | _ => None
  end.

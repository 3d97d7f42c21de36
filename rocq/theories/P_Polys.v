(** * Property C44 *)
From Coq Require Import Reals List.
From Coquelicot Require Import Coquelicot.
From Verif Require Import Sums Polys.
Import ListNotations.
Local Open Scope R_scope.

Theorem C44_powers : forall n x, (1 <= n)%nat -> exists l, powers n x = Some l /\ length l = n /\ forall i, (i < n)%nat -> nth i l 0 = x ^ i.
Proof. exact powers_spec. Qed.
Print Assumptions C44_powers.
Theorem C44_chebyshev_first : forall n t, length (chebyshev_t n (cos t)) = n /\ forall i, (i < n)%nat -> nth i (chebyshev_t n (cos t)) 0 = cos (INR i * t).
Proof. exact chebyshev_t_spec. Qed.
Print Assumptions C44_chebyshev_first.
Theorem C44_chebyshev_second : forall n t, length (chebyshev_u n (cos t)) = n /\ forall i, (i < n)%nat -> sin t * nth i (chebyshev_u n (cos t)) 0 = sin (INR (i + 1) * t).
Proof. exact chebyshev_u_spec. Qed.
Print Assumptions C44_chebyshev_second.
(** degree i, value one at one, orthogonal on (-1, 1) *)
Theorem C44_legendre : forall n, (forall x, length (legendre n x) = n) /\
  (forall i, (i < n)%nat -> nth i (legendre n 1) 0 = 1 /\ exists c, length c = S i /\ forall x, nth i (legendre n x) 0 = horner c x) /\
  (forall m k, (m < n)%nat -> (k < n)%nat -> m <> k -> is_RInt (fun x => nth m (legendre n x) 0 * nth k (legendre n x) 0) (-1) 1 0).
Proof. exact legendre_spec. Qed.
Print Assumptions C44_legendre.
Example C44_legendre_case : legendre 4 (/ 2) = [1; / 2; - / 8; - (7 / 16)].
Proof. exact legendre_sample. Qed.
(** up to thirteen entries; the factorial is an int *)
Theorem C44_bernstein_partial : forall n s, (1 <= n <= 13)%nat -> exists l, bernstein n s = Some l /\ length l = n /\
  (forall i, (i < n)%nat -> nth i l 0 = Binomial.C (n - 1) i * s ^ i * (1 - s) ^ (n - 1 - i)) /\ suml l (fun v => v) = 1.
Proof. exact bernstein_spec. Qed.
Print Assumptions C44_bernstein_partial.
(** from fourteen entries on (n - 1)! leaves the range of int *)
Theorem C44_bernstein_refuted : forall n s, (14 <= n)%nat -> bernstein n s = None.
Proof. exact bernstein_limit. Qed.
Print Assumptions C44_bernstein_refuted.

(** * Open interpolation polynomials on segments and their derivatives (C62) *)
From Coq Require Import Reals Lra Lia List Arith.
From Coquelicot Require Import Coquelicot.
From Verif Require Import Sums Quadrature QuadTables ShapeDefs ShapeFacts ShapeTensor SumFactor Hcurl HcurlFacts.
Import ListNotations.
Local Open Scope R_scope.

(** polynomials.hpp:594-609 GaussLegendreInterpolationDerivative, used by segment_Hcurl.inl:34-37; the values are
    [leg_list] (segment_Hcurl.inl:29-32) *)
Definition leg_d_list (n : nat) (x : R) : list R :=
  match n with
  | 1%nat => [0]
  | 2%nat => [-1.7320508075688772935274463415; 1.7320508075688772935274463415]
  | 3%nat => [-4.6243277820691389617264218 + 6.6666666666666666666666667 * x;
              6.66666666666666666666666667 - 13.3333333333333333333333333 * x;
              -2.04233888459752770494024487 + 6.66666666666666666666666667 * x]
  | 4%nat => [-8.5460236078721987659730185 + (28.651716708343776305933241 - 22.261620204116838315601927 * x) * x;
              13.8071669256895770661586947 + x * (-62.776444726892120424116461 + 56.386348222665182433785147 * x);
              -7.4170704214626390758273806 + (49.996251718438244443453833 - 56.386348222665182433785147 * x) * x;
              2.15592710364526077564170438 + x * (-15.871523699889900325270613 + 22.2616202041168383156019272 * x)]
  | _ => repeat 0 n
  end.
(** the exact derivatives of the tabulated polynomials *)
Definition leg_exact (n : nat) (x : R) : list R :=
  match n with
  | 1%nat => [0]
  | 2%nat => [-(1.732050807568877293527446342); 1.732050807568877293527446342]
  | 3%nat => [-4.6243277820691389617264218 + 2 * (3.33333333333333333333333333 * x);
              6.66666666666666666666666667 - 2 * (6.666666666666666666666666667 * x);
              -2.04233888459752770494024487 + 2 * (3.33333333333333333333333333 * x)]
  | _ => [-8.546023607872198765973019 + x * (2 * 14.325858354171888152966621 - 3 * (7.420540068038946105200642 * x));
          13.807166925689577066158695 + x * (2 * -31.388222363446060212058231 + 3 * (18.795449407555060811261716 * x));
          -7.41707042146263907582738061 + x * (2 * 24.9981258592191222217269164 - 3 * (18.79544940755506081126171563 * x));
          2.15592710364526077564170438 + x * (2 * -7.9357618499449501626353065 + 3 * (7.4205400680389461052006424 * x))]
  end.
Ltac poly := match goal with |- is_derive ?f _ ?d => evar_last; [auto_derive; [exact Logic.I|reflexivity]|cbv beta; lra] end.
Lemma leg_exact_derive n i (x : R) : (1 <= n <= 4)%nat -> (i < n)%nat -> is_derive (o n i) x (nth i (leg_exact n x) 0).
Proof.
  intros Hn Hi. destruct n as [|[|[|[|[|n]]]]]; try lia; destruct i as [|[|[|[|i]]]]; try lia; unfold o; cbn [leg_list leg_exact nth]; poly.
Qed.
Lemma leg_d_close n i x : (1 <= n <= 4)%nat -> (i < n)%nat -> 0 <= x <= 1 -> Rabs (nth i (leg_d_list n x) 0 - nth i (leg_exact n x) 0) <= tol.
Proof.
  intros Hn Hi Hx. assert (X2 : 0 <= x * x <= 1) by nra. unfold tol. destruct n as [|[|[|[|[|n]]]]]; try lia; destruct i as [|[|[|[|i]]]]; try lia; cbn [leg_d_list leg_exact nth]; apply Rabs_le; split; lra.
Qed.
Theorem segment_derivative n i (x : R) : (1 <= n <= 4)%nat -> (i < n)%nat -> 0 <= x <= 1 ->
  exists d, is_derive (fun t => nth i (leg_list n t) 0) x d /\ Rabs (nth i (leg_d_list n x) 0 - d) <= tol.
Proof. intros Hn Hi Hx. eexists. split; [exact (leg_exact_derive n i x Hn Hi)|now apply leg_d_close]. Qed.
Theorem segment_nodal n i l : (1 <= n <= 4)%nat -> (i < n)%nat -> (l < n)%nat -> Rabs (nth i (leg_list n (nth l (leg_nodes n) 0)) 0 - (if Nat.eqb i l then 1 else 0)) <= 50 * tol.
Proof.
  intros Hn Hi Hl. destruct (Nat.eq_dec n 4) as [->|]; [|pose proof (o_nodal n i l ltac:(lia) Hi Hl) as H; unfold o, tol in *; lra].
  unfold leg_nodes, tol; destruct i as [|[|[|[|i]]]]; try lia; destruct l as [|[|[|[|l]]]]; try lia; cbn [leg_nodes seg_nodes map nth leg_list Nat.eqb]; apply Rabs_le; lra.
Qed.

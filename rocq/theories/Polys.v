(** * Polynomial families of polynomials.hpp:370-486 (C44) *)
From Coq Require Import ZArith Reals Lra Lia List Arith Factorial.
From Coquelicot Require Import Coquelicot.
From Verif Require Import Sums.
Import ListNotations.
Local Open Scope R_scope.

(** ** the code *)
(** polynomials.hpp:370-381 factorial: int arithmetic, None when the product leaves the range of int *)
Definition int_max : Z := (2 ^ 31 - 1)%Z.
Fixpoint factorial (n : nat) : option Z :=
  match n with
  | O => Some 1%Z
  | S k => match factorial k with
           | Some v => if (v * Z.of_nat (S k) <=? int_max)%Z then Some (v * Z.of_nat (S k))%Z else None
           | None => None
           end
  end.
(** polynomials.hpp:389-398; n = 0 writes outside the array *)
Fixpoint power_loop (m : nat) (v x : R) : list R := match m with O => [] | S k => (v * x) :: power_loop k (v * x) x end.
Definition powers (n : nat) (x : R) : option (list R) := match n with O => None | S m => Some (1 :: power_loop m 1 x) end.
(** the shape of the three recurrences: entries 0 and 1, then entry i from i, entry i-1 and entry i-2 *)
Fixpoint loop2 (step : nat -> R -> R -> R) (m i : nat) (back1 back2 : R) : list R :=
  match m with O => [] | S k => step i back1 back2 :: loop2 step k (S i) (step i back1 back2) back1 end.
Definition recur (step : nat -> R -> R -> R) (a b : R) (n : nat) : list R :=
  match n with O => [] | S O => [a] | S (S m) => a :: b :: loop2 step m 2 b a end.
(** polynomials.hpp:407-419 *)
Definition chebyshev_t (n : nat) (x : R) : list R := recur (fun _ p1 p2 => 2 * x * p1 - p2) 1 x n.
(** polynomials.hpp:428-440 *)
Definition chebyshev_u (n : nat) (x : R) : list R := recur (fun _ p1 p2 => 2 * x * p1 - p2) 1 (2 * x) n.
(** polynomials.hpp:448-460 *)
Definition legendre (n : nat) (x : R) : list R := recur (fun i p1 p2 => ((2 * INR i - 1) * x * p1 - (INR i - 1) * p2) / INR i) 1 x n.
(** polynomials.hpp:467-486: B[i] = f; f *= s / (i + 1), then from the back B[n - i - 1] *= f; f *= t / (i + 1) *)
Fixpoint ramp (m i : nat) (f s : R) : list R := match m with O => [] | S k => f :: ramp k (S i) (f * (s / INR (i + 1))) s end.
Fixpoint zip_mul (a b : list R) : list R := match a, b with x :: a', y :: b' => x * y :: zip_mul a' b' | _, _ => [] end.
Definition bernstein (n : nat) (s : R) : option (list R) :=
  match factorial (n - 1) with
  | Some f => Some (zip_mul (ramp n 0 1 s) (rev (ramp n 0 (IZR f) (1 - s))))
  | None => None
  end.

(** ** the recurrences compute the sequence they define *)
Lemma loop2_seq (f : nat -> R) step : (forall i, (2 <= i)%nat -> f i = step i (f (i - 1)%nat) (f (i - 2)%nat)) ->
  forall m i, (2 <= i)%nat -> loop2 step m i (f (i - 1)%nat) (f (i - 2)%nat) = map f (seq i m).
Proof.
  intros H. induction m as [|m IH]; intros i Hi; [reflexivity|]. cbn [loop2 seq map]. rewrite <- (H i Hi). f_equal.
  rewrite <- (IH (S i)) by lia. replace (S i - 1)%nat with i by lia. replace (S i - 2)%nat with (i - 1)%nat by lia. reflexivity.
Qed.
Lemma recur_seq (f : nat -> R) step a b n : f 0%nat = a -> f 1%nat = b -> (forall i, (2 <= i)%nat -> f i = step i (f (i - 1)%nat) (f (i - 2)%nat)) ->
  recur step a b n = map f (seq 0 n).
Proof.
  intros Ha Hb H. destruct n as [|[|m]]; cbn [recur seq map]; rewrite ?Ha, ?Hb; try reflexivity. f_equal. f_equal.
  rewrite <- (loop2_seq f step H m 2) by lia. cbn [Nat.sub]. now rewrite Ha, Hb.
Qed.
Lemma nth_seq_map (f : nat -> R) n i : (i < n)%nat -> nth i (map f (seq 0 n)) 0 = f i.
Proof. intros H. rewrite (nth_indep _ 0 (f 0%nat)) by (rewrite map_length, seq_length; exact H). rewrite map_nth, seq_nth by exact H. reflexivity. Qed.

(** ** powers *)
Lemma power_loop_pow x : forall m k, power_loop m (x ^ k) x = map (fun i => x ^ i) (seq (S k) m).
Proof.
  induction m as [|m IH]; intros k; [reflexivity|]. cbn [power_loop seq map]. replace (x ^ k * x) with (x ^ S k) by (cbn [pow]; ring). f_equal. apply IH.
Qed.
Lemma powers_spec n x : (1 <= n)%nat -> exists l, powers n x = Some l /\ length l = n /\ forall i, (i < n)%nat -> nth i l 0 = x ^ i.
Proof.
  intros Hn. destruct n as [|m]; [lia|]. exists (map (fun i => x ^ i) (seq 0 (S m))). split; [|split].
  - cbn [powers seq map]. do 2 f_equal. exact (power_loop_pow x m 0).
  - now rewrite map_length, seq_length.
  - intros i Hi. apply (nth_seq_map (fun i => x ^ i)). exact Hi.
Qed.

(** ** Chebyshev *)
Lemma chebyshev_t_spec n t : length (chebyshev_t n (cos t)) = n /\ forall i, (i < n)%nat -> nth i (chebyshev_t n (cos t)) 0 = cos (INR i * t).
Proof.
  unfold chebyshev_t. rewrite (recur_seq (fun i => cos (INR i * t))).
  - split; [now rewrite map_length, seq_length|]. intros i Hi. apply (nth_seq_map (fun i => cos (INR i * t))). exact Hi.
  - cbn [INR]. now rewrite Rmult_0_l, cos_0.
  - cbn [INR]. now rewrite Rmult_1_l.
  - intros i Hi. rewrite !minus_INR by lia. cbn [INR]. set (a := (INR i - 1) * t).
    replace (INR i * t) with (a + t) by (unfold a; ring). replace ((INR i - (1 + 1)) * t) with (a - t) by (unfold a; ring). rewrite cos_plus, cos_minus. ring.
Qed.
Fixpoint cheb_u (i : nat) (x : R) : R * R := match i with O => (1, 0) | S k => let '(a, b) := cheb_u k x in (2 * x * a - b, a) end.
Lemma cheb_u_sin t : forall i, sin t * fst (cheb_u i (cos t)) = sin (INR (S i) * t) /\ sin t * snd (cheb_u i (cos t)) = sin (INR i * t).
Proof.
  induction i as [|i [A B]]; [split; cbn [cheb_u fst snd INR]|].
  - rewrite Rmult_1_l. ring.
  - rewrite !Rmult_0_l, sin_0. ring.
  - cbn [cheb_u]. destruct (cheb_u i (cos t)) as [a b] eqn:E. cbn [fst snd] in *. split; [|exact A].
    rewrite (S_INR (S i)). set (w := INR (S i) * t) in *. replace ((INR (S i) + 1) * t) with (w + t) by (unfold w; ring).
    replace (sin t * (2 * cos t * a - b)) with (2 * cos t * (sin t * a) - sin t * b) by ring. rewrite A, B.
    replace (INR i * t) with (w - t) by (unfold w; rewrite S_INR; ring). rewrite sin_plus, sin_minus. ring.
Qed.
Lemma chebyshev_u_seq n x : chebyshev_u n x = map (fun i => fst (cheb_u i x)) (seq 0 n).
Proof.
  apply (recur_seq (fun i => fst (cheb_u i x))); [reflexivity|cbn; ring|].
  intros [|[|i]] Hi; try lia. replace (S (S i) - 1)%nat with (S i) by lia. replace (S (S i) - 2)%nat with i by lia. cbn [cheb_u]. destruct (cheb_u i x) as [a b]. cbn [fst]. reflexivity.
Qed.
Lemma chebyshev_u_spec n t : length (chebyshev_u n (cos t)) = n /\ forall i, (i < n)%nat -> sin t * nth i (chebyshev_u n (cos t)) 0 = sin (INR (i + 1) * t).
Proof.
  rewrite chebyshev_u_seq. split; [now rewrite map_length, seq_length|]. intros i Hi. rewrite (nth_seq_map (fun i => fst (cheb_u i (cos t)))) by exact Hi.
  rewrite Nat.add_1_r. apply cheb_u_sin.
Qed.

(** ** Legendre *)
Fixpoint leg2 (i : nat) (x : R) : R * R :=
  match i with O => (1, 0) | S k => let '(a, b) := leg2 k x in (((2 * INR (S k) - 1) * x * a - (INR (S k) - 1) * b) / INR (S k), a) end.
Definition leg (i : nat) (x : R) : R := fst (leg2 i x).
Lemma leg_snd i x : snd (leg2 (S i) x) = leg i x.
Proof. unfold leg. cbn [leg2]. destruct (leg2 i x). reflexivity. Qed.
Lemma leg_0 x : leg 0 x = 1.
Proof. reflexivity. Qed.
Lemma leg_1 x : leg 1 x = x.
Proof. unfold leg. cbn. field. Qed.
Lemma leg_SS i x : leg (S (S i)) x = ((2 * INR (S (S i)) - 1) * x * leg (S i) x - (INR (S (S i)) - 1) * leg i x) / INR (S (S i)).
Proof. unfold leg at 1. change (leg2 (S (S i)) x) with (let '(a, b) := leg2 (S i) x in (((2 * INR (S (S i)) - 1) * x * a - (INR (S (S i)) - 1) * b) / INR (S (S i)), a)).
  rewrite <- (leg_snd i x). unfold leg. destruct (leg2 (S i) x). reflexivity. Qed.
Lemma legendre_seq n x : legendre n x = map (fun i => leg i x) (seq 0 n).
Proof.
  apply (recur_seq (fun i => leg i x)); [apply leg_0|apply leg_1|]. intros [|[|i]] Hi; try lia.
  replace (S (S i) - 1)%nat with (S i) by lia. replace (S (S i) - 2)%nat with i by lia. apply leg_SS.
Qed.
Fixpoint dleg2 (i : nat) (x : R) : R * R :=
  match i with O => (0, 0) | S k => let '(a, b) := dleg2 k x in (((2 * INR (S k) - 1) * (leg k x + x * a) - (INR (S k) - 1) * b) / INR (S k), a) end.
Definition dleg (i : nat) (x : R) : R := fst (dleg2 i x).
Lemma dleg_snd i x : snd (dleg2 (S i) x) = dleg i x.
Proof. unfold dleg. cbn [dleg2]. destruct (dleg2 i x). reflexivity. Qed.
Lemma dleg_1 x : dleg 1 x = 1.
Proof. unfold dleg. cbn. field. Qed.
Lemma dleg_SS i x : dleg (S (S i)) x = ((2 * INR (S (S i)) - 1) * (leg (S i) x + x * dleg (S i) x) - (INR (S (S i)) - 1) * dleg i x) / INR (S (S i)).
Proof. unfold dleg at 1. change (dleg2 (S (S i)) x) with (let '(a, b) := dleg2 (S i) x in (((2 * INR (S (S i)) - 1) * (leg (S i) x + x * a) - (INR (S (S i)) - 1) * b) / INR (S (S i)), a)).
  rewrite <- (dleg_snd i x). unfold dleg. destruct (dleg2 (S i) x). reflexivity. Qed.
Lemma pair_ind (P : nat -> Prop) : P 0%nat -> P 1%nat -> (forall i, P i -> P (S i) -> P (S (S i))) -> forall i, P i.
Proof. intros A B H i. enough (P i /\ P (S i)) by tauto. induction i as [|i [IH1 IH2]]; auto. Qed.
Lemma leg_derive i : forall x : R, is_derive (leg i) x (dleg i x).
Proof.
  revert i. apply (pair_ind (fun i => forall x : R, is_derive (leg i) x (dleg i x))).
  - intros x. apply (is_derive_ext (fun _ : R => 1)); [intros; symmetry; apply leg_0|]. unfold dleg. cbn [dleg2 fst]. auto_derive; [exact Logic.I|reflexivity].
  - intros x. apply (is_derive_ext (fun x : R => x)); [intros; symmetry; apply leg_1|]. rewrite dleg_1. auto_derive; [exact Logic.I|reflexivity].
  - intros i H0 H1 x. assert (N : INR (S (S i)) <> 0) by (apply not_0_INR; lia).
    apply (is_derive_ext (fun x : R => ((2 * INR (S (S i)) - 1) * x * leg (S i) x - (INR (S (S i)) - 1) * leg i x) / INR (S (S i)))); [intros; symmetry; apply leg_SS|].
    rewrite dleg_SS. specialize (H0 x). specialize (H1 x). set (k := INR (S (S i))) in *. clearbody k.
    set (f := leg (S i)) in *. set (g := leg i) in *. clearbody f g. auto_derive.
    + repeat split; [exists (dleg (S i) x); exact H1|exists (dleg i x); exact H0].
    + rewrite (is_derive_unique f x _ H1 : Derive (fun y : R => f y) x = _), (is_derive_unique g x _ H0 : Derive (fun y : R => g y) x = _). unfold Rdiv. ring.
Qed.
(** (1 - x^2) P_i' and the two classical relations *)
Lemma leg_relations i x : x * dleg (S i) x - dleg i x = INR (S i) * leg (S i) x /\ (x * x - 1) * dleg (S i) x = INR (S i) * (x * leg (S i) x - leg i x).
Proof.
  induction i as [|i [A C]].
  - rewrite leg_1, leg_0, dleg_1. unfold dleg. cbn [dleg2 fst INR]. split; ring.
  - assert (K : 0 < INR (S (S i))) by (apply lt_0_INR; lia). assert (KS : INR (S (S i)) = INR (S i) + 1) by apply S_INR.
    set (k := INR (S (S i))) in *. set (h := INR (S i)) in *.
    set (D2 := dleg (S (S i)) x) in *. assert (E : k * D2 = (2 * k - 1) * (leg (S i) x + x * dleg (S i) x) - (k - 1) * dleg i x) by (unfold D2; rewrite dleg_SS; fold k; field; lra).
    assert (L : k * leg (S (S i)) x = (2 * k - 1) * x * leg (S i) x - (k - 1) * leg i x) by (rewrite leg_SS; fold k; field; lra).
    set (P := leg (S i) x) in *. set (P0 := leg i x) in *. set (P2 := leg (S (S i)) x) in *. set (D := dleg (S i) x) in *. set (D0 := dleg i x) in *.
    assert (B : D2 - x * D = k * P).
    { apply Rmult_eq_reg_l with k; [|lra]. replace (k * (D2 - x * D)) with (k * D2 - k * x * D) by ring. rewrite E.
      replace D0 with (x * D - h * P) by (rewrite <- A; ring). rewrite KS. ring. }
    assert (A2 : x * D2 - D = k * P2).
    { replace D2 with (x * D + k * P) by (rewrite <- B; ring). replace (x * (x * D + k * P) - D) with ((x * x - 1) * D + k * x * P) by ring. rewrite C, L, KS. ring. }
    split; [exact A2|].
    replace ((x * x - 1) * D2) with (x * (x * D2 - D) - (D2 - x * D)) by ring. rewrite A2, B. ring.
Qed.
Definition flow (i : nat) (x : R) : R := match i with O => 0 | S k => INR (S k) * (leg k x - x * leg (S k) x) end.
Lemma flow_is i x : flow i x = (1 - x * x) * dleg i x.
Proof. destruct i as [|k]; [unfold dleg; cbn; ring|]. cbn [flow]. destruct (leg_relations k x) as [_ C]. replace ((1 - x * x) * dleg (S k) x) with (- ((x * x - 1) * dleg (S k) x)) by ring. rewrite C. ring. Qed.
Lemma flow_derive i (x : R) : is_derive (flow i) x (- (INR i * (INR i + 1)) * leg i x).
Proof.
  destruct i as [|k]; cbn [flow].
  - replace (- (INR 0 * (INR 0 + 1)) * leg 0 x) with 0 by (cbn [INR]; ring). apply (is_derive_ext (fun _ : R => 0)); [reflexivity|]. auto_derive; [exact Logic.I|reflexivity].
  - destruct (leg_relations k x) as [A _]. pose proof (leg_derive k x) as H0. pose proof (leg_derive (S k) x) as H1.
    apply (is_derive_ext (fun x : R => INR (S k) * (leg k x - x * leg (S k) x))); [reflexivity|].
    set (h := INR (S k)) in *. set (f := leg (S k)) in *. set (g := leg k) in *. clearbody h f g. auto_derive.
    + repeat split; [exists (dleg k x); exact H0|exists (dleg (S k) x); exact H1].
    + rewrite (is_derive_unique f x _ H1 : Derive (fun y : R => f y) x = _), (is_derive_unique g x _ H0 : Derive (fun y : R => g y) x = _).
      replace (dleg k x) with (x * dleg (S k) x - h * f x) by (rewrite <- A; ring). ring.
Qed.
Lemma leg_continuous i x : continuous (leg i) x.
Proof. apply (ex_derive_continuous (V := R_NormedModule)). exists (dleg i x). apply leg_derive. Qed.
Lemma leg_orthogonal m k : m <> k -> is_RInt (fun x => leg m x * leg k x) (-1) 1 0.
Proof.
  intros Ne. set (lam := INR k * (INR k + 1) - INR m * (INR m + 1)).
  assert (Hl : lam <> 0).
  { unfold lam. assert (INR m <> INR k) by (intros E; apply INR_eq in E; contradiction). pose proof (pos_INR m). pose proof (pos_INR k).
    replace (INR k * (INR k + 1) - INR m * (INR m + 1)) with ((INR k - INR m) * (INR k + INR m + 1)) by ring. apply Rmult_integral_contrapositive_currified; lra. }
  set (W := fun x => (flow m x * leg k x - flow k x * leg m x) / lam).
  assert (W1 : W 1 = 0) by (unfold W; rewrite !flow_is; field; exact Hl). assert (Wm : W (-1) = 0) by (unfold W; rewrite !flow_is; field; exact Hl).
  replace 0 with (minus (W 1) (W (-1))) by (rewrite W1, Wm; unfold minus, plus, opp; cbn; ring).
  apply (is_RInt_derive W (fun x => leg m x * leg k x)).
  - intros x _. unfold W. pose proof (leg_derive k x) as Hk. pose proof (leg_derive m x) as Hm. pose proof (flow_derive k x) as Fk. pose proof (flow_derive m x) as Fm.
    pose proof (flow_is k x) as Ek. pose proof (flow_is m x) as Em.
    set (fk := flow k) in *. set (fm := flow m) in *. set (f := leg k) in *. set (g := leg m) in *. unfold lam in *. set (a := INR k) in *. set (b := INR m) in *. clearbody fk fm f g a b. auto_derive.
    + repeat split; eexists; eassumption.
    + rewrite (is_derive_unique f x _ Hk : Derive (fun y : R => f y) x = _), (is_derive_unique g x _ Hm : Derive (fun y : R => g y) x = _), (is_derive_unique fk x _ Fk : Derive (fun y : R => fk y) x = _), (is_derive_unique fm x _ Fm : Derive (fun y : R => fm y) x = _).
      rewrite Ek, Em. field. exact Hl.
  - intros x _. apply (continuous_mult (leg m) (leg k)); apply leg_continuous.
Qed.
Lemma leg_at_one i : leg i 1 = 1.
Proof.
  revert i. apply pair_ind; [apply leg_0|apply leg_1|]. intros i H0 H1. rewrite leg_SS, H0, H1. assert (INR (S (S i)) <> 0) by (apply not_0_INR; lia). field. assumption.
Qed.
(** degree i *)
Fixpoint horner (c : list R) (x : R) : R := match c with [] => 0 | a :: r => a + x * horner r x end.
Fixpoint padd (a b : list R) : list R := match a, b with [], l => l | l, [] => l | x :: a', y :: b' => (x + y) :: padd a' b' end.
Definition pscal (k : R) (a : list R) : list R := map (fun v => k * v) a.
Lemma padd_horner x : forall a b, horner (padd a b) x = horner a x + horner b x.
Proof. induction a as [|u a IH]; intros [|v b]; cbn [padd horner]; try ring. rewrite IH. ring. Qed.
Lemma pscal_horner k x a : horner (pscal k a) x = k * horner a x.
Proof. unfold pscal. induction a as [|u a IH]; cbn [map horner]; [ring|]. rewrite IH. ring. Qed.
Lemma padd_length : forall a b, length (padd a b) = Nat.max (length a) (length b).
Proof. induction a as [|u a IH]; intros [|v b]; cbn [padd length]; try lia. rewrite IH. lia. Qed.
Lemma leg_poly i : exists c, length c = S i /\ forall x, leg i x = horner c x.
Proof.
  revert i. apply pair_ind.
  - exists [1]. split; [reflexivity|]. intros x. rewrite leg_0. cbn. ring.
  - exists [0; 1]. split; [reflexivity|]. intros x. rewrite leg_1. cbn. ring.
  - intros i [c0 [L0 E0]] [c1 [L1 E1]]. set (k := INR (S (S i))). exists (padd (0 :: pscal ((2 * k - 1) / k) c1) (pscal (- (k - 1) / k) c0)). split.
    + rewrite padd_length. unfold pscal. cbn [length]. rewrite !map_length, L0, L1. lia.
    + intros x. rewrite padd_horner. cbn [horner]. rewrite !pscal_horner, <- E0, <- E1, leg_SS. fold k. assert (k <> 0) by (apply not_0_INR; lia). field. assumption.
Qed.
Lemma legendre_spec n : (forall x, length (legendre n x) = n) /\
  (forall i, (i < n)%nat -> nth i (legendre n 1) 0 = 1 /\ exists c, length c = S i /\ forall x, nth i (legendre n x) 0 = horner c x) /\
  (forall m k, (m < n)%nat -> (k < n)%nat -> m <> k -> is_RInt (fun x => nth m (legendre n x) 0 * nth k (legendre n x) 0) (-1) 1 0).
Proof.
  split; [|split].
  - intros x. rewrite legendre_seq. now rewrite map_length, seq_length.
  - intros i Hi. split.
    + rewrite legendre_seq, (nth_seq_map (fun i => leg i 1)) by exact Hi. apply leg_at_one.
    + destruct (leg_poly i) as [c [L E]]. exists c. split; [exact L|]. intros x. rewrite legendre_seq, (nth_seq_map (fun i => leg i x)) by exact Hi. apply E.
  - intros m k Hm Hk Ne. apply (is_RInt_ext (fun x => leg m x * leg k x)); [|apply leg_orthogonal; exact Ne].
    intros x _. rewrite legendre_seq, (nth_seq_map (fun i => leg i x) n m), (nth_seq_map (fun i => leg i x) n k) by assumption. reflexivity.
Qed.

(** ** Bernstein *)
Lemma factorial_value n : forall f, factorial n = Some f -> IZR f = INR (fact n).
Proof.
  induction n as [|n IH]; intros f; cbn [factorial].
  - intros [= <-]. reflexivity.
  - destruct (factorial n) as [v|]; [|discriminate]. set (k := Z.of_nat (S n)). assert (K : IZR k = INR (S n)) by (symmetry; apply INR_IZR_INZ). clearbody k.
    destruct (_ <=? _)%Z; [|discriminate]. intros [= <-]. rewrite mult_IZR, (IH v eq_refl), K. change (fact (S n)) with (S n * fact n)%nat. rewrite mult_INR. ring.
Qed.
Lemma factorial_ok n : (n <= 12)%nat -> exists f, factorial n = Some f /\ IZR f = INR (fact n).
Proof.
  intros Hn. assert (H : exists f, factorial n = Some f) by (do 13 (destruct n as [|n]; [eexists; reflexivity|]); lia).
  destruct H as [f F]. exists f. split; [exact F|]. apply factorial_value. exact F.
Qed.
Lemma ramp_spec (s : R) : forall m i f, ramp m i (f * s ^ i / INR (fact i)) s = map (fun k => f * s ^ k / INR (fact k)) (seq i m).
Proof.
  induction m as [|m IH]; intros i f; [reflexivity|]. cbn [ramp seq map]. f_equal. rewrite <- IH. f_equal.
  rewrite Nat.add_1_r. change (fact (S i)) with (S i * fact i)%nat. rewrite mult_INR. cbn [pow]. field. split; [apply INR_fact_neq_0|apply not_0_INR; lia].
Qed.
Lemma ramp_is s m f : ramp m 0 f s = map (fun k => f * s ^ k / INR (fact k)) (seq 0 m).
Proof. rewrite <- ramp_spec. f_equal. cbn [pow fact INR]. field. Qed.
Lemma zip_mul_nth : forall a b i, length a = length b -> nth i (zip_mul a b) 0 = nth i a 0 * nth i b 0.
Proof. induction a as [|x a IH]; intros [|y b] i L; cbn [length] in L; try discriminate; destruct i; cbn [zip_mul nth]; try ring. apply IH. lia. Qed.
Lemma zip_mul_length : forall a b, length a = length b -> length (zip_mul a b) = length a.
Proof. induction a as [|x a IH]; intros [|y b] L; cbn [length] in L; try discriminate; cbn [zip_mul length]; auto. Qed.
Lemma suml_nth : forall l, suml l (fun v => v) = sumn (length l) (fun i => nth i l 0).
Proof. induction l as [|a l IH]; [reflexivity|]. cbn [length suml]. rewrite sumn_S_l. cbn [nth]. now rewrite IH. Qed.
Lemma sumn_sum_f f n : sumn (S n) f = sum_f_R0 f n.
Proof. induction n as [|n IH]; [cbn; ring|]. cbn [sumn sum_f_R0] in *. now rewrite IH. Qed.
Lemma bernstein_spec n s : (1 <= n <= 13)%nat -> exists l, bernstein n s = Some l /\ length l = n /\
  (forall i, (i < n)%nat -> nth i l 0 = Binomial.C (n - 1) i * s ^ i * (1 - s) ^ (n - 1 - i)) /\ suml l (fun v => v) = 1.
Proof.
  intros Hn. destruct (factorial_ok (n - 1)) as [f [F Ff]]; [lia|]. unfold bernstein. rewrite F. eexists. split; [reflexivity|].
  set (a := ramp n 0 1 s). set (b := rev (ramp n 0 (IZR f) (1 - s))).
  assert (La : length a = n) by (unfold a; now rewrite ramp_is, map_length, seq_length).
  assert (Lb : length b = n) by (unfold b; now rewrite rev_length, ramp_is, map_length, seq_length).
  assert (E : forall i, (i < n)%nat -> nth i (zip_mul a b) 0 = Binomial.C (n - 1) i * s ^ i * (1 - s) ^ (n - 1 - i)).
  { intros i Hi. rewrite zip_mul_nth by congruence. unfold a, b. rewrite rev_nth by (rewrite ramp_is, map_length, seq_length; exact Hi). rewrite !ramp_is, map_length, seq_length.
    rewrite (nth_seq_map (fun k => 1 * s ^ k / INR (fact k))) by exact Hi. rewrite (nth_seq_map (fun k => IZR f * (1 - s) ^ k / INR (fact k))) by lia.
    replace (n - S i)%nat with (n - 1 - i)%nat by lia. rewrite Ff. unfold Binomial.C. field. split; apply INR_fact_neq_0. }
  split; [rewrite zip_mul_length; congruence|]. split; [exact E|].
  rewrite suml_nth, zip_mul_length, La by congruence. destruct n as [|m]; [lia|]. rewrite sumn_sum_f.
  rewrite <- (pow1 m). replace (1 ^ m) with ((s + (1 - s)) ^ m) by (f_equal; ring). rewrite binomial. apply sum_eq. intros i Hi. rewrite E by lia. replace (S m - 1)%nat with m by lia. reflexivity.
Qed.
Lemma bernstein_limit n s : (14 <= n)%nat -> bernstein n s = None.
Proof.
  intros Hn. unfold bernstein. assert (H : forall k, (13 <= k)%nat -> factorial k = None).
  { intros k. induction k as [|k IH]; intros Hk; [lia|]. destruct (Nat.eq_dec (S k) 13) as [->|Ne]; [reflexivity|]. cbn [factorial]. rewrite IH by lia. reflexivity. }
  rewrite H by lia. reflexivity.
Qed.
Lemma legendre_sample : legendre 4 (/ 2) = [1; / 2; - / 8; - (7 / 16)].
Proof. unfold legendre. cbn [recur loop2 INR]. repeat (apply (f_equal2 (@cons R)); [field|]). reflexivity. Qed.

(** * Integrals of monomials over the reference elements (specification side of C32) *)
From Coq Require Import Reals Lra Lia Factorial.
From Coquelicot Require Import Coquelicot.
Local Open Scope R_scope.

(** iterated integrals over [0,1], the unit square and cube, and the reference triangle and tetrahedron *)
Definition seg_int (f : R -> R) (v : R) : Prop := is_RInt f 0 1 v.
Definition tri_int (f : R -> R -> R) (v : R) : Prop :=
  exists g : R -> R, (forall x, 0 <= x <= 1 -> is_RInt (f x) 0 (1 - x) (g x)) /\ is_RInt g 0 1 v.
Definition tet_int (f : R -> R -> R -> R) (v : R) : Prop :=
  exists (g : R -> R -> R) (h : R -> R),
    (forall x y, 0 <= x <= 1 -> 0 <= y <= 1 - x -> is_RInt (f x y) 0 (1 - x - y) (g x y)) /\
    (forall x, 0 <= x <= 1 -> is_RInt (g x) 0 (1 - x) (h x)) /\ is_RInt h 0 1 v.
Definition square_int (f : R -> R -> R) (v : R) : Prop :=
  exists g : R -> R, (forall x, 0 <= x <= 1 -> is_RInt (f x) 0 1 (g x)) /\ is_RInt g 0 1 v.
Definition cube_int (f : R -> R -> R -> R) (v : R) : Prop :=
  exists (g : R -> R -> R) (h : R -> R),
    (forall x y, 0 <= x <= 1 -> 0 <= y <= 1 -> is_RInt (f x y) 0 1 (g x y)) /\
    (forall x, 0 <= x <= 1 -> is_RInt (g x) 0 1 (h x)) /\ is_RInt h 0 1 v.

(** ** linearity *)
Lemma rint_plus (f g : R -> R) (a b u v : R) : is_RInt f a b u -> is_RInt g a b v -> is_RInt (fun x => f x + g x) a b (u + v).
Proof. intros. apply (is_RInt_plus (V := R_NormedModule) f g a b u v); assumption. Qed.
Lemma rint_scal (f : R -> R) (a b k u : R) : is_RInt f a b u -> is_RInt (fun x => k * f x) a b (k * u).
Proof. intros. apply (is_RInt_scal (V := R_NormedModule) f a b k u). assumption. Qed.
Lemma rint_ext (f g : R -> R) (a b u v : R) : (forall x, f x = g x) -> u = v -> is_RInt f a b u -> is_RInt g a b v.
Proof. intros E <- H. apply (is_RInt_ext f); [intros x _; apply E|exact H]. Qed.
Lemma rint_zero (a b : R) : is_RInt (fun _ => 0) a b 0.
Proof. assert (H := is_RInt_const (V := R_NormedModule) a b 0). refine (eq_rect _ (fun v => is_RInt _ a b v) H _ _). apply Rmult_0_r. Qed.
Lemma rint_derive (F f : R -> R) (a b : R) : (forall x : R, is_derive F x (f x)) -> (forall x : R, continuous f x) -> is_RInt f a b (F b - F a).
Proof. intros D C. apply (is_RInt_derive (V := R_CompleteNormedModule) F f a b); intros; auto. Qed.

(** ** the beta integral *)
Lemma cont_poly (f : R -> R) : (forall x : R, ex_derive f x) -> forall x : R, continuous f x.
Proof. intros H x. apply (ex_derive_continuous (V := R_NormedModule) f x). apply H. Qed.
Lemma INR_fact_S n : INR (fact (S n)) = INR (S n) * INR (fact n).
Proof. change (fact (S n)) with (S n * fact n)%nat. apply mult_INR. Qed.
Lemma INR_fact_pos n : 0 < INR (fact n).
Proof. apply lt_0_INR. apply lt_O_fact. Qed.
Definition beta (a b : nat) : R := INR (fact a) * INR (fact b) / INR (fact (a + b + 1)).
Lemma beta_step a b : beta a (S b) = INR (S b) / INR (S a) * beta (S a) b.
Proof.
  unfold beta. rewrite !INR_fact_S. replace (S a + b + 1)%nat with (a + S b + 1)%nat by lia.
  pose proof (INR_fact_pos (a + S b + 1)). assert (0 < INR (S a)) by (apply lt_0_INR; lia). field. split; lra.
Qed.
Lemma beta_zero a : beta a 0 = / INR (S a).
Proof.
  unfold beta. replace (a + 0 + 1)%nat with (S a) by lia. rewrite INR_fact_S. change (INR (fact 0)) with 1.
  pose proof (INR_fact_pos a). assert (0 < INR (S a)) by (apply lt_0_INR; lia). field. split; lra.
Qed.
Lemma derive_pow_right (L : R) n (x : R) : is_derive (fun t : R => (L - t) ^ n) x (- (INR n * (L - x) ^ pred n)).
Proof. auto_derive; [exact Logic.I|unfold Rminus; ring]. Qed.
Lemma derive_pow_left n (x : R) : is_derive (fun t : R => t ^ n) x (INR n * x ^ pred n).
Proof. auto_derive; [exact Logic.I|ring]. Qed.
Lemma ex_derive_prod (L : R) a b (x : R) : ex_derive (fun t : R => t ^ a * (L - t) ^ b) x.
Proof. auto_derive. split; exact Logic.I. Qed.
Theorem beta_integral L : forall b a, is_RInt (fun t => t ^ a * (L - t) ^ b) 0 L (beta a b * L ^ (a + b + 1)).
Proof.
  induction b as [|b IH]; intros a.
  - rewrite beta_zero. assert (P : 0 < INR (S a)) by (apply lt_0_INR; lia).
    apply (rint_ext (fun t => t ^ a) _ _ _ (/ INR (S a) * L ^ S a - / INR (S a) * 0 ^ S a)).
    + intros. cbn. ring.
    + replace (a + 0 + 1)%nat with (S a) by lia. cbn [pow]. ring.
    + apply (rint_derive (fun t => / INR (S a) * t ^ S a)).
      * intros x. evar_last; [apply (is_derive_scal (fun t => t ^ S a) x (/ INR (S a))); apply derive_pow_left|].
        cbn [pred]. unfold scal. cbn. unfold mult. cbn. field. cbn in P. lra.
      * apply cont_poly. intros x. eexists. apply derive_pow_left.
  - assert (P : 0 < INR (S a)) by (apply lt_0_INR; lia).
    assert (By : is_RInt (fun t => t ^ a * (L - t) ^ S b + - (INR (S b) / INR (S a)) * (t ^ S a * (L - t) ^ b)) 0 L 0).
    { apply (rint_ext (fun t => t ^ a * (L - t) ^ S b + - (INR (S b) / INR (S a)) * (t ^ S a * (L - t) ^ b)) _ _ _
        (/ INR (S a) * (L ^ S a * (L - L) ^ S b) - / INR (S a) * (0 ^ S a * (L - 0) ^ S b))).
      - reflexivity.
      - cbn [pow]. ring.
      - apply (rint_derive (fun t => / INR (S a) * (t ^ S a * (L - t) ^ S b))).
        + intros x. evar_last.
          * apply (is_derive_scal (fun t => t ^ S a * (L - t) ^ S b) x (/ INR (S a))).
            apply (is_derive_mult (fun t => t ^ S a) (fun t => (L - t) ^ S b) x _ _ (derive_pow_left (S a) x) (derive_pow_right L (S b) x)).
            intros; apply Rmult_comm.
          * unfold scal, plus, mult. cbn [pred]. cbn -[INR pow]. unfold mult. cbn -[INR pow]. field. lra.
        + apply cont_poly. intros x. apply (ex_derive_plus (fun t => t ^ a * (L - t) ^ S b) (fun t => - (INR (S b) / INR (S a)) * (t ^ S a * (L - t) ^ b))).
          * apply ex_derive_prod.
          * apply (ex_derive_scal (fun t => t ^ S a * (L - t) ^ b)). apply ex_derive_prod. }
    assert (Sum := rint_plus _ _ _ _ _ _ By (rint_scal _ 0 L (INR (S b) / INR (S a)) _ (IH (S a)))).
    revert Sum. apply rint_ext.
    + intros. ring.
    + rewrite beta_step. replace (S a + b + 1)%nat with (a + S b + 1)%nat by lia. ring.
Qed.

(** ** monomials *)
Theorem seg_mono a : seg_int (fun x => x ^ a) (INR (fact a) / INR (fact (a + 1))).
Proof.
  unfold seg_int. assert (H := beta_integral 1 0 a). revert H. apply rint_ext.
  - intros. cbn. ring.
  - unfold beta. rewrite pow1. change (INR (fact 0)) with 1. replace (a + 0 + 1)%nat with (a + 1)%nat by lia. unfold Rdiv. ring.
Qed.
Lemma fact_ratio b : beta b 0 = / INR (S b). Proof. apply beta_zero. Qed.
Theorem tri_mono a b : tri_int (fun x y => x ^ a * y ^ b) (INR (fact a) * INR (fact b) / INR (fact (a + b + 2))).
Proof.
  exists (fun x => x ^ a * (/ INR (S b) * (1 - x) ^ S b)). assert (P : 0 < INR (S b)) by (apply lt_0_INR; lia). split.
  - intros x _. apply rint_scal. assert (H := beta_integral (1 - x) 0 b). revert H. apply rint_ext.
    + intros. cbn. ring.
    + rewrite beta_zero. replace (b + 0 + 1)%nat with (S b) by lia. reflexivity.
  - assert (H := rint_scal _ 0 1 (/ INR (S b)) _ (beta_integral 1 (S b) a)). revert H. apply rint_ext.
    + intros. ring.
    + rewrite pow1. unfold beta. rewrite (INR_fact_S b). replace (a + S b + 1)%nat with (a + b + 2)%nat by lia.
      pose proof (INR_fact_pos (a + b + 2)). field. split; lra.
Qed.
Theorem tet_mono a b c : tet_int (fun x y z => x ^ a * y ^ b * z ^ c)
  (INR (fact a) * INR (fact b) * INR (fact c) / INR (fact (a + b + c + 3))).
Proof.
  exists (fun x y => x ^ a * y ^ b * (/ INR (S c) * (1 - x - y) ^ S c)),
    (fun x => x ^ a * (/ INR (S c) * (beta b (S c) * (1 - x) ^ (b + S c + 1)))).
  assert (P : 0 < INR (S c)) by (apply lt_0_INR; lia). split; [|split].
  - intros x y _ _. apply rint_scal. assert (H := beta_integral (1 - x - y) 0 c). revert H. apply rint_ext.
    + intros. cbn. ring.
    + rewrite beta_zero. replace (c + 0 + 1)%nat with (S c) by lia. reflexivity.
  - intros x _. assert (H := rint_scal _ 0 (1 - x) (x ^ a * / INR (S c)) _ (beta_integral (1 - x) (S c) b)). revert H. apply rint_ext.
    + intros. ring.
    + ring.
  - assert (H := rint_scal _ 0 1 (/ INR (S c) * beta b (S c)) _ (beta_integral 1 (b + S c + 1) a)). revert H. apply rint_ext.
    + intros. ring.
    + rewrite pow1. unfold beta. rewrite (INR_fact_S c). replace (a + (b + S c + 1) + 1)%nat with (a + b + c + 3)%nat by lia.
      pose proof (INR_fact_pos (a + b + c + 3)). pose proof (INR_fact_pos (b + S c + 1)). field. repeat split; lra.
Qed.
Theorem square_mono a b : square_int (fun x y => x ^ a * y ^ b) (INR (fact a) / INR (fact (a + 1)) * (INR (fact b) / INR (fact (b + 1)))).
Proof.
  exists (fun x => x ^ a * (INR (fact b) / INR (fact (b + 1)))). split.
  - intros x _. apply rint_scal. apply seg_mono.
  - assert (H := rint_scal _ 0 1 (INR (fact b) / INR (fact (b + 1))) _ (seg_mono a)). revert H. apply rint_ext; intros; ring.
Qed.
Theorem cube_mono a b c : cube_int (fun x y z => x ^ a * y ^ b * z ^ c)
  (INR (fact a) / INR (fact (a + 1)) * (INR (fact b) / INR (fact (b + 1))) * (INR (fact c) / INR (fact (c + 1)))).
Proof.
  exists (fun x y => x ^ a * y ^ b * (INR (fact c) / INR (fact (c + 1)))),
    (fun x => x ^ a * ((INR (fact b) / INR (fact (b + 1))) * (INR (fact c) / INR (fact (c + 1))))). split; [|split].
  - intros x y _ _. apply rint_scal. apply seg_mono.
  - intros x _. assert (H := rint_scal _ 0 1 (x ^ a * (INR (fact c) / INR (fact (c + 1)))) _ (seg_mono b)). revert H. apply rint_ext; intros; ring.
  - assert (H := rint_scal _ 0 1 ((INR (fact b) / INR (fact (b + 1))) * (INR (fact c) / INR (fact (c + 1)))) _ (seg_mono a)).
    revert H. apply rint_ext; intros; ring.
Qed.
(** ** linear combinations *)
Lemma seg_zero : seg_int (fun _ => 0) 0. Proof. apply rint_zero. Qed.
Lemma seg_comb (f g : R -> R) k u v : seg_int f u -> seg_int g v -> seg_int (fun x => k * f x + g x) (k * u + v).
Proof. intros A B. apply rint_plus; [apply rint_scal|]; assumption. Qed.
Lemma tri_zero : tri_int (fun _ _ => 0) 0.
Proof. exists (fun _ => 0). split; intros; apply rint_zero. Qed.
Lemma tri_comb (f g : R -> R -> R) k u v : tri_int f u -> tri_int g v -> tri_int (fun x y => k * f x y + g x y) (k * u + v).
Proof.
  intros [F [A B]] [G [C D]]. exists (fun x => k * F x + G x). split.
  - intros x Hx. apply rint_plus; [apply rint_scal; apply A|apply C]; exact Hx.
  - apply rint_plus; [apply rint_scal|]; assumption.
Qed.
Lemma square_zero : square_int (fun _ _ => 0) 0.
Proof. exists (fun _ => 0). split; intros; apply rint_zero. Qed.
Lemma square_comb (f g : R -> R -> R) k u v : square_int f u -> square_int g v -> square_int (fun x y => k * f x y + g x y) (k * u + v).
Proof.
  intros [F [A B]] [G [C D]]. exists (fun x => k * F x + G x). split.
  - intros x Hx. apply rint_plus; [apply rint_scal; apply A|apply C]; exact Hx.
  - apply rint_plus; [apply rint_scal|]; assumption.
Qed.
Lemma tet_zero : tet_int (fun _ _ _ => 0) 0.
Proof. exists (fun _ _ => 0), (fun _ => 0). split; [|split]; intros; apply rint_zero. Qed.
Lemma tet_comb (f g : R -> R -> R -> R) k u v : tet_int f u -> tet_int g v -> tet_int (fun x y z => k * f x y z + g x y z) (k * u + v).
Proof.
  intros [F [F' [A [A' B]]]] [G [G' [C [C' D]]]]. exists (fun x y => k * F x y + G x y), (fun x => k * F' x + G' x). split; [|split].
  - intros x y Hx Hy. apply rint_plus; [apply rint_scal; apply A|apply C]; assumption.
  - intros x Hx. apply rint_plus; [apply rint_scal; apply A'|apply C']; exact Hx.
  - apply rint_plus; [apply rint_scal|]; assumption.
Qed.
Lemma cube_zero : cube_int (fun _ _ _ => 0) 0.
Proof. exists (fun _ _ => 0), (fun _ => 0). split; [|split]; intros; apply rint_zero. Qed.
Lemma cube_comb (f g : R -> R -> R -> R) k u v : cube_int f u -> cube_int g v -> cube_int (fun x y z => k * f x y z + g x y z) (k * u + v).
Proof.
  intros [F [F' [A [A' B]]]] [G [G' [C [C' D]]]]. exists (fun x y => k * F x y + G x y), (fun x => k * F' x + G' x). split; [|split].
  - intros x y Hx Hy. apply rint_plus; [apply rint_scal; apply A|apply C]; assumption.
  - intros x Hx. apply rint_plus; [apply rint_scal; apply A'|apply C']; exact Hx.
  - apply rint_plus; [apply rint_scal|]; assumption.
Qed.

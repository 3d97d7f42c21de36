(** Proofs for Isotropic.v (C86). *)
From Coq Require Import Reals Lra Lia Bool List.
From Verif Require Import Sums Tensor Isotropic.
Local Open Scope R_scope.

Definition ok (n : nat) (r : res) (t : ty) (s : sem t) : Prop := match r with Value v => stands n v t s | Absent => True | Undefined => False end.

Lemma delta_sum n (f : nat -> R) k : (k < n)%nat -> sumn n (fun i => delta i k * f i) = f k.
Proof. exact (sumn_ident n f k). Qed.
Lemma delta_comm i j : delta i j = delta j i.
Proof. exact (ident_comm i j). Qed.
Lemma delta_same i : delta i i = 1.
Proof. unfold delta. now rewrite PeanoNat.Nat.eqb_refl. Qed.
Lemma delta_sum_l n (f : nat -> R) k : (k < n)%nat -> sumn n (fun i => delta k i * f i) = f k.
Proof. intros H. rewrite <- (delta_sum n f k H). apply sumn_ext. intros i _. now rewrite delta_comm. Qed.

Ltac byentry := cbn in *; intros; repeat match goal with
  | H : forall i : nat, (i < ?n)%nat -> _ = _ |- context [?x ?i] => match type of H with context [x] => rewrite (H i) by assumption end
  | H : forall i j : nat, (i < ?n)%nat -> (j < ?n)%nat -> _ = _ |- context [?x ?i ?j] => match type of H with context [x] => rewrite (H i j) by assumption end
  | H : forall i j k l : nat, (i < ?n)%nat -> _ |- context [?x ?i ?j ?k ?l] => match type of H with context [x] => rewrite (H i j k l) by assumption end
  | H : ?x = _ |- context [?x] => is_var x; rewrite H end.

Lemma neg_ok n v t x : stands n v t x -> ok n (neg v) t (each t Ropp x).
Proof.
  destruct v, t; cbn [stands ok neg]; intros H; try contradiction; try exact Logic.I; unfold each; byentry; ring.
Qed.
Lemma add_ok n v w t x y : stands n v t x -> stands n w t y -> ok n (add v w) t (zip t Rplus x y).
Proof.
  destruct v, w, t; cbn [stands ok add]; intros H K; try contradiction; try exact Logic.I; byentry; unfold delta; try ring.
Qed.
Lemma sub_ok n v w t x y : stands n v t x -> stands n w t y -> ok n (sub v w) t (zip t Rminus x y).
Proof.
  destruct v, w, t; cbn [stands ok sub neg]; intros H K; try contradiction; try exact Logic.I; byentry; unfold delta; try ring.
Qed.
Lemma scaled_ok n s v t x : stands n v t x -> ok n (scaled s v) t (each t (Rmult s) x).
Proof.
  destruct v, t; cbn [stands ok scaled]; intros H; try contradiction; unfold each; byentry; try ring.
Qed.
Lemma scale_ok n v w t x y : stands n v Scal x -> stands n w t y -> ok n (mul n v w) t (each t (Rmult x) y).
Proof.
  destruct v; cbn [stands]; intros H K; try contradiction; subst.
  - destruct w, t; cbn [stands ok mul] in *; try contradiction; try exact Logic.I; unfold each; byentry; ring.
  - destruct w; cbn [mul]; try exact (scaled_ok n _ _ t y K).
Qed.
Lemma rscale_ok n v w t x y : stands n v t x -> stands n w Scal y -> ok n (mul n v w) t (each t (Rmult y) x).
Proof.
  destruct w; cbn [stands]; intros H K; try contradiction; subst.
  - destruct v, t; cbn [stands ok mul] in *; try contradiction; try exact Logic.I; unfold each; byentry; ring.
  - destruct v; cbn [mul]; try exact (scaled_ok n _ _ t x H).
    destruct t; cbn [stands ok scaled] in *; try contradiction. unfold each; byentry; ring.
Qed.
Lemma div_ok n v w t x y : stands n v t x -> stands n w Scal y -> y <> 0 -> ok n (div v w) t (each t (fun u => u / y) x).
Proof.
  destruct w; cbn [stands]; intros H K Y; try contradiction; subst.
  destruct v, t; cbn [stands ok div] in *; try contradiction; try exact Logic.I;
    try (destruct (Req_EM_T x0 0) as [E|_]; [now destruct Y|]); cbn [ok stands]; unfold each; byentry; try reflexivity; field; assumption.
Qed.

(** ** products *)
Lemma dot_vv n v w x y : stands n v Vect x -> stands n w Vect y -> ok n (dot n v w) Scal (sumn n (fun k => x k * y k)).
Proof.
  destruct v, w; cbn [stands ok dot dense_dot]; intros H K; try contradiction; try exact Logic.I; cbn in *.
  - apply sumn_zero. byentry. ring.
  - apply sumn_zero. byentry. ring.
  - unfold vdot. apply sumn_ext. byentry. ring.
Qed.
Lemma dot_vm n v w x y : stands n v Vect x -> stands n w Matr y -> ok n (dot n v w) Vect (fun j => sumn n (fun k => x k * y k j)).
Proof.
  destruct v, w; cbn [stands ok dot dense_dot]; intros H K; try contradiction; try exact Logic.I; cbn in *; intros j Hj.
  - apply sumn_zero. byentry. ring.
  - apply sumn_zero. byentry. ring.
  - apply sumn_zero. byentry. ring.
  - unfold vmat. apply sumn_ext. byentry. ring.
  - rewrite (sumn_ext n _ (fun k => delta k j * (x0 k * v))); [now rewrite delta_sum|]. byentry. ring.
Qed.
Lemma dot_mv n v w x y : stands n v Matr x -> stands n w Vect y -> ok n (dot n v w) Vect (fun i => sumn n (fun k => x i k * y k)).
Proof.
  destruct v, w; cbn [stands ok dot dense_dot]; intros H K; try contradiction; try exact Logic.I; cbn in *; intros j Hj.
  - apply sumn_zero. byentry. ring.
  - apply sumn_zero. byentry. ring.
  - unfold mvec. apply sumn_ext. byentry. ring.
  - apply sumn_zero. byentry. ring.
  - rewrite (sumn_ext n _ (fun k => delta j k * (v * x0 k))); [now rewrite delta_sum_l|]. byentry. ring.
Qed.
Lemma dot_mm n v w x y : stands n v Matr x -> stands n w Matr y -> ok n (dot n v w) Matr (fun i j => sumn n (fun k => x i k * y k j)).
Proof.
  destruct v, w; cbn [stands ok dot dense_dot]; intros H K; try contradiction; try exact Logic.I; cbn in *; intros i j Hi Hj.
  - apply sumn_zero. byentry. ring.
  - apply sumn_zero. byentry. ring.
  - apply sumn_zero. byentry. ring.
  - unfold mmul. apply sumn_ext. byentry. ring.
  - rewrite (sumn_ext n _ (fun k => delta k j * (A i k * v))); [now rewrite (delta_sum n (fun k => A i k * v))|]. byentry. ring.
  - apply sumn_zero. byentry. ring.
  - rewrite (sumn_ext n _ (fun k => delta i k * (v * A k j))); [now rewrite (delta_sum_l n (fun k => v * A k j))|]. byentry. ring.
Qed.
Lemma in_ok n v w x y : stands n v Matr x -> stands n w Matr y -> ok n (ddot n v w) Scal (sumn n (fun i => sumn n (fun j => x i j * y i j))).
Proof.
  destruct v, w; cbn [stands ok ddot]; intros H K; try contradiction; try exact Logic.I; cbn in *.
  - unfold inner. apply sumn_ext; intros i Hi. apply sumn_ext; intros j Hj. byentry. ring.
  - rewrite <- inner_ident. unfold inner. apply sumn_ext; intros i Hi. apply sumn_ext; intros j Hj. byentry. change (ident i j) with (delta i j). ring.
Qed.
Lemma four_ok n v w x y : stands n v Four x -> stands n w Matr y ->
  ok n (ddot n v w) Matr (fun i j => sumn n (fun k => sumn n (fun l => x i j k l * y k l))).
Proof.
  destruct v, w; cbn [stands ok ddot]; intros H K; try contradiction; try exact Logic.I; cbn in *; intros i j Hi Hj.
  - unfold double_dot4. apply sumn_ext; intros k Hk. apply sumn_ext; intros l Hl. byentry. ring.
  - transitivity (iso4_double_dot n c1 c2 c3 A i j).
    + rewrite (iso4_apply n c1 c2 c3 A i j Hi Hj). unfold double_dot4. apply sumn_ext; intros k Hk. apply sumn_ext; intros l Hl. byentry.
      unfold iso4. unfold ident, delta. lra.
    + unfold iso4_double_dot, ident. ring.
Qed.

(** ** functions of one tensor *)
Lemma sym_ok n v x : stands n v Matr x -> ok n (unary n Sym v) Matr (fun i j => (x i j + x j i) / 2).
Proof.
  destruct v; cbn [stands ok unary]; intros H; try contradiction; try exact Logic.I; cbn in *; intros i j Hi Hj; rewrite !H by assumption.
  - unfold sym. lra.
  - rewrite (delta_comm j i). lra.
Qed.
Lemma anti_ok n v x : stands n v Matr x -> ok n (unary n Antisym v) Matr (fun i j => (x i j - x j i) / 2).
Proof.
  destruct v; cbn [stands ok unary]; intros H; try contradiction; try exact Logic.I; cbn in *; intros i j Hi Hj; rewrite !H by assumption.
  - unfold antisym. lra.
  - rewrite (delta_comm j i). lra.
Qed.
Lemma tr_ok n v x : stands n v Matr x -> ok n (unary n Trace v) Scal (sumn n (fun i => x i i)).
Proof.
  destruct v; cbn [stands ok unary]; intros H; try contradiction; try exact Logic.I; cbn in *.
  - unfold tr. apply sumn_ext. intros i Hi. now apply H.
  - rewrite (sumn_ext n _ (fun _ => v)); [rewrite sumn_const; ring|]. intros i Hi. rewrite H by assumption. rewrite delta_same. ring.
Qed.
Lemma T_ok n v x : stands n v Matr x -> ok n (unary n Transp v) Matr (fun i j => x j i).
Proof.
  destruct v; cbn [stands ok unary]; intros H; try contradiction; try exact Logic.I; cbn in *; intros i j Hi Hj; rewrite !H by assumption.
  - reflexivity.
  - now rewrite delta_comm.
Qed.
Lemma dev_ok n v x : (0 < n)%nat -> stands n v Matr x -> ok n (unary n Dev v) Matr (fun i j => x i j - sumn n (fun k => x k k) / INR n * delta i j).
Proof.
  intros Hn. destruct v; cbn [stands ok unary]; intros H; try contradiction; try exact Logic.I; cbn in *; intros i j Hi Hj.
  rewrite (sumn_ext n (fun k => x k k) (fun k => A k k)) by (intros k Hk; now apply H). rewrite H by assumption.
  unfold dev, tr, delta. destruct (Nat.eqb i j); ring.
Qed.
Lemma det_ok n v x d : stands n v Matr x -> determinant n x d -> ok n (unary n Det v) Scal d.
Proof.
  destruct v; cbn [stands ok unary]; intros H D; try contradiction; try exact Logic.I; cbn in H; destruct D as [[-> D]|[-> D]]; cbn; rewrite D; rewrite !H by lia.
  - unfold det2. ring.
  - unfold det3. ring.
  - unfold delta; cbn [Nat.eqb]. ring.
  - unfold delta; cbn [Nat.eqb]. ring.
Qed.
Lemma sq_v n v x : stands n v Vect x -> ok n (unary n SqNorm v) Scal (sumn n (fun i => x i * x i)).
Proof.
  destruct v; cbn [stands ok unary]; intros H; try contradiction; try exact Logic.I; cbn in *.
  unfold vdot. apply sumn_ext. intros i Hi. now rewrite H.
Qed.
Lemma norm_v n v x : stands n v Vect x -> ok n (unary n Norm v) Scal (sqrt (sumn n (fun i => x i * x i))).
Proof.
  destruct v; cbn [stands ok unary]; intros H; try contradiction; try exact Logic.I; cbn in *.
  - rewrite sumn_zero; [apply sqrt_0|]. intros i Hi. rewrite H by assumption. ring.
  - f_equal. unfold vdot. apply sumn_ext. intros i Hi. now rewrite H.
Qed.
Lemma square_iso n v : sumn n (fun i => sumn n (fun j => v * delta i j * (v * delta i j))) = v * v * INR n.
Proof.
  rewrite (sumn_ext n _ (fun _ => v * v)); [rewrite sumn_const; ring|]. intros i Hi.
  rewrite (sumn_ext n _ (fun j => delta i j * (v * v * delta i j))); [|intros; ring].
  rewrite (delta_sum_l n (fun j => v * v * delta i j)) by exact Hi. rewrite delta_same. ring.
Qed.
Lemma sq_m n v x : stands n v Matr x -> ok n (unary n SqNorm v) Scal (sumn n (fun i => sumn n (fun j => x i j * x i j))).
Proof.
  destruct v; cbn [stands ok unary]; intros H; try contradiction; try exact Logic.I; cbn in *.
  - unfold squared_norm. apply sumn_ext; intros i Hi. apply sumn_ext; intros j Hj. now rewrite H.
  - rewrite <- square_iso. apply sumn_ext; intros i Hi. apply sumn_ext; intros j Hj. now rewrite H.
Qed.
Lemma norm_m n v x : stands n v Matr x -> ok n (unary n Norm v) Scal (sqrt (sumn n (fun i => sumn n (fun j => x i j * x i j)))).
Proof.
  intros H. assert (Q := sq_m n v x H). destruct v; cbn [stands ok unary] in *; try contradiction; try exact Logic.I; cbn in *.
  - rewrite sumn_zero; [apply sqrt_0|]. intros i Hi. apply sumn_zero. intros j Hj. rewrite H by assumption. ring.
  - unfold norm. now rewrite Q.
  - now rewrite Q.
Qed.
Lemma inv_ok n v x y : (0 < n)%nat -> stands n v Matr x ->
  (forall i j, (i < n)%nat -> (j < n)%nat -> sumn n (fun k => x i k * y k j) = delta i j) ->
  (forall i j, (i < n)%nat -> (j < n)%nat -> sumn n (fun k => y i k * x k j) = delta i j) -> ok n (unary n Inv v) Matr y.
Proof.
  intros Hn. destruct v; cbn [stands]; intros H P Q; try contradiction; try exact Logic.I; cbn in H.
  - assert (PA : meq n (mmul n A y) ident). { intros i j Hi Hj. refine (eq_trans _ (P i j Hi Hj)). unfold mmul. apply sumn_ext; intros k Hk. now rewrite H. }
    assert (QA : meq n (mmul n y A) ident). { intros i j Hi Hj. refine (eq_trans _ (Q i j Hi Hj)). unfold mmul. apply sumn_ext; intros k Hk. now rewrite H. }
    unfold unary. destruct n as [|[|[|[|n]]]]; try exact Logic.I.
    + destruct (inv2 A) as [B|] eqn:E.
      * cbn. intros i j Hi Hj. exact (inverse_unique 2 A y B QA (proj1 (inv2_mul A B E)) i j Hi Hj).
      * unfold inv2 in E. destruct (Req_EM_T (det2 A) 0) as [D|]; [|discriminate]. exact (inverse2_det A y PA D).
    + destruct (inv3 A) as [B|] eqn:E.
      * cbn. intros i j Hi Hj. exact (inverse_unique 3 A y B QA (proj1 (inv3_mul A B E)) i j Hi Hj).
      * unfold inv3 in E. destruct (Req_EM_T (det3 A) 0) as [D|]; [|discriminate]. exact (inverse3_det A y PA D).
  - assert (PA : forall i j, (i < n)%nat -> (j < n)%nat -> v * y i j = delta i j).
    { intros i j Hi Hj. rewrite <- (P i j Hi Hj). rewrite (sumn_ext n _ (fun k => delta i k * (v * y k j))).
      - now rewrite (delta_sum_l n (fun k => v * y k j)).
      - intros k Hk. rewrite H by assumption. ring. }
    unfold unary. destruct (Req_EM_T v 0) as [E|E].
    + specialize (PA 0%nat 0%nat Hn Hn). rewrite delta_same, E in PA. cbn. lra.
    + cbn [ok stands same]. intros i j Hi Hj. rewrite <- (PA i j Hi Hj). field. exact E.
Qed.

(** [*] between two arrays is [dot], where it is not the constructor of a nested isotropic tensor *)
Definition not_nesting (v w : value) : Prop := match v, w with (Vec _ | Mat _), Iso _ => False | _, _ => True end.
Definition array (t : ty) : Prop := match t with Scal => False | _ => True end.

Lemma mul_dot n v w t u (x : sem t) (y : sem u) r (s : sem r) : array t -> array u -> stands n v t x -> stands n w u y -> not_nesting v w ->
  (v = Zero -> w = Zero -> stands n Zero r s) -> ok n (dot n v w) r s -> ok n (mul n v w) r s.
Proof.
  intros At Au H K N Z. destruct v; destruct t; try contradiction; destruct w; destruct u; try contradiction; cbn [mul dot dense_dot ok not_nesting] in *;
    try contradiction; try (intros; exact Logic.I); try (intros _; exact (Z eq_refl eq_refl)); try (intros X; exact X).
Qed.

Theorem means_ok n rho sigma : (0 < n)%nat -> (forall k, stands n (rho k) (projT1 (sigma k)) (projT2 (sigma k))) ->
  forall e t s, means n sigma e t s -> plain n rho e -> ok n (eval n rho e) t s.
Proof.
  intros Hn R e t s M. induction M; intros P.
  - cbn. specialize (R k). rewrite H in R. exact R.
  - cbn [plain] in P. specialize (IHM P). cbn [eval]. destruct (eval n rho e); try exact IHM. now apply neg_ok.
  - destruct P as (P1 & P2 & _). specialize (IHM1 P1). specialize (IHM2 P2). cbn [eval].
    destruct (eval n rho a), (eval n rho b); cbn [ok] in IHM1, IHM2; try contradiction; try exact Logic.I. now apply add_ok.
  - destruct P as (P1 & P2 & _). specialize (IHM1 P1). specialize (IHM2 P2). cbn [eval].
    destruct (eval n rho a), (eval n rho b); cbn [ok] in IHM1, IHM2; try contradiction; try exact Logic.I. now apply sub_ok.
  - destruct P as (P1 & P2 & _). specialize (IHM1 P1). specialize (IHM2 P2). cbn [eval].
    destruct (eval n rho a), (eval n rho b); cbn [ok] in IHM1, IHM2; try contradiction; try exact Logic.I. now apply scale_ok.
  - destruct P as (P1 & P2 & _). specialize (IHM1 P1). specialize (IHM2 P2). cbn [eval].
    destruct (eval n rho a), (eval n rho b); cbn [ok] in IHM1, IHM2; try contradiction; try exact Logic.I. now apply rscale_ok.
  - destruct P as (P1 & P2 & _). specialize (IHM1 P1). specialize (IHM2 P2). cbn [eval].
    destruct (eval n rho a), (eval n rho b); cbn [ok] in IHM1, IHM2; try contradiction; try exact Logic.I. now apply div_ok.
  - destruct P as (P1 & P2 & P3). specialize (IHM1 P1). specialize (IHM2 P2). cbn [eval].
    destruct (eval n rho a) as [v| |], (eval n rho b) as [w| |]; cbn [ok] in IHM1, IHM2; try contradiction; try exact Logic.I.
    assert (D := dot_vv n v w x y IHM1 IHM2). destruct H as [-> | ->]; [|exact D].
    apply (mul_dot n v w Vect Vect x y Scal); auto; try exact Logic.I.
    intros -> ->. cbn in *. apply sumn_zero. intros k Hk. rewrite IHM1, IHM2 by assumption. ring.
  - destruct P as (P1 & P2 & P3). specialize (IHM1 P1). specialize (IHM2 P2). cbn [eval].
    destruct (eval n rho a) as [v| |], (eval n rho b) as [w| |]; cbn [ok] in IHM1, IHM2; try contradiction; try exact Logic.I.
    assert (D := dot_vm n v w x y IHM1 IHM2). destruct H as [-> | ->]; [|exact D].
    apply (mul_dot n v w Vect Matr x y Vect); auto; try exact Logic.I.
    intros -> ->. cbn in *. intros i Hi. apply sumn_zero. intros k Hk. rewrite IHM1, IHM2 by assumption. ring.
  - destruct P as (P1 & P2 & P3). specialize (IHM1 P1). specialize (IHM2 P2). cbn [eval].
    destruct (eval n rho a) as [v| |], (eval n rho b) as [w| |]; cbn [ok] in IHM1, IHM2; try contradiction; try exact Logic.I.
    assert (D := dot_mv n v w x y IHM1 IHM2). destruct H as [-> | ->]; [|exact D].
    apply (mul_dot n v w Matr Vect x y Vect); auto; try exact Logic.I.
    intros -> ->. cbn in *. intros i Hi. apply sumn_zero. intros k Hk. rewrite IHM1, IHM2 by assumption. ring.
  - destruct P as (P1 & P2 & P3). specialize (IHM1 P1). specialize (IHM2 P2). cbn [eval].
    destruct (eval n rho a) as [v| |], (eval n rho b) as [w| |]; cbn [ok] in IHM1, IHM2; try contradiction; try exact Logic.I.
    assert (D := dot_mm n v w x y IHM1 IHM2). destruct H as [-> | ->]; [|exact D].
    apply (mul_dot n v w Matr Matr x y Matr); auto; try exact Logic.I.
    intros -> ->. cbn in *. intros i j Hi Hj. apply sumn_zero. intros k Hk. rewrite IHM1, IHM2 by assumption. ring.
  - destruct P as (P1 & P2 & _). specialize (IHM1 P1). specialize (IHM2 P2). cbn [eval].
    destruct (eval n rho a), (eval n rho b); cbn [ok] in IHM1, IHM2; try contradiction; try exact Logic.I. now apply in_ok.
  - destruct P as (P1 & P2 & _). specialize (IHM1 P1). specialize (IHM2 P2). cbn [eval].
    destruct (eval n rho a), (eval n rho b); cbn [ok] in IHM1, IHM2; try contradiction; try exact Logic.I. now apply four_ok.
  - specialize (IHM P). cbn [eval]. destruct (eval n rho e); try exact IHM. now apply sym_ok.
  - specialize (IHM P). cbn [eval]. destruct (eval n rho e); try exact IHM. now apply anti_ok.
  - specialize (IHM P). cbn [eval]. destruct (eval n rho e); try exact IHM. now apply tr_ok.
  - specialize (IHM P). cbn [eval]. destruct (eval n rho e); try exact IHM. now apply T_ok.
  - specialize (IHM P). cbn [eval]. destruct (eval n rho e); try exact IHM. now apply (inv_ok n v x y).
  - specialize (IHM P). cbn [eval]. destruct (eval n rho e); try exact IHM. now apply (det_ok n v x d).
  - specialize (IHM P). cbn [eval]. destruct (eval n rho e); try exact IHM. now apply norm_v.
  - specialize (IHM P). cbn [eval]. destruct (eval n rho e); try exact IHM. now apply norm_m.
  - specialize (IHM P). cbn [eval]. destruct (eval n rho e); try exact IHM. now apply sq_v.
  - specialize (IHM P). cbn [eval]. destruct (eval n rho e); try exact IHM. now apply sq_m.
  - specialize (IHM P). cbn [eval]. destruct (eval n rho e); try exact IHM. now apply dev_ok.
Qed.

(** ** programs without zeros and isotropic tensors always have their overloads *)
Lemma array_ty n v t (s : sem t) : stands n v t s -> dense v ->
  match t with Scal => exists x, v = Num x | Vect => exists x, v = Vec x | Matr => exists x, v = Mat x | Four => exists x, v = Ten x end.
Proof. destruct v, t; cbn; intros; try contradiction; eexists; reflexivity. Qed.

Theorem dense_ok n rho sigma : n = 2%nat \/ n = 3%nat -> (forall k, stands n (rho k) (projT1 (sigma k)) (projT2 (sigma k))) -> (forall k, dense (rho k)) ->
  forall e t s, means n sigma e t s -> (exists v, eval n rho e = Value v /\ dense v /\ stands n v t s) /\ plain n rho e.
Proof.
  intros Hd R D e t s M. assert (Hn : (0 < n)%nat) by lia.
  assert (G : (exists v, eval n rho e = Value v /\ dense v) /\ plain n rho e).
  { induction M;
    try (destruct IHM1 as ((v & E & Dv) & P1), IHM2 as ((w & F & Dw) & P2);
         assert (S1 := means_ok n rho sigma Hn R _ _ _ M1 P1); assert (S2 := means_ok n rho sigma Hn R _ _ _ M2 P2);
         rewrite E in S1; rewrite F in S2; cbn [ok] in S1, S2);
    try (destruct IHM as ((v & E & Dv) & P1); assert (S1 := means_ok n rho sigma Hn R _ _ _ M P1); rewrite E in S1; cbn [ok] in S1).
    - split; [exists (rho k); now split|]. specialize (D k). cbn. destruct (rho k); try exact Logic.I; contradiction.
    - split; [|exact P1]. cbn [eval]. rewrite E. destruct v; try contradiction; eexists; split; try reflexivity; exact Logic.I.
    - split; [|now repeat split]. cbn [eval]. rewrite E, F. destruct v; try contradiction; destruct t; try contradiction; destruct w; try contradiction;
        eexists; split; try reflexivity; exact Logic.I.
    - split; [|now repeat split]. cbn [eval]. rewrite E, F. destruct v; try contradiction; destruct t; try contradiction; destruct w; try contradiction;
        eexists; split; try reflexivity; exact Logic.I.
    - split. + cbn [eval]. rewrite E, F. destruct v; try contradiction; destruct w; try contradiction; eexists; split; try reflexivity; exact Logic.I.
      + cbn [plain]. rewrite E, F. repeat split; try assumption. destruct v; try contradiction; exact Logic.I.
    - split. + cbn [eval]. rewrite E, F. destruct w; try contradiction; destruct v; try contradiction; eexists; split; try reflexivity; exact Logic.I.
      + cbn [plain]. rewrite E, F. repeat split; try assumption. destruct w; try contradiction; destruct v; exact Logic.I.
    - split; [|now repeat split]. cbn [eval]. rewrite E, F. destruct w; try contradiction. cbn in S2. subst y.
      destruct v; try contradiction; cbn [binary div]; destruct (Req_EM_T x0 0); try contradiction; eexists; split; try reflexivity; exact Logic.I.
    - destruct v; try contradiction; destruct w; try contradiction. split.
      + cbn [eval]. rewrite E, F. destruct H as [-> | ->]; eexists; split; try reflexivity; exact Logic.I.
      + cbn [plain]. rewrite E, F. repeat split; try assumption. destruct o; exact Logic.I.
    - destruct v; try contradiction; destruct w; try contradiction. split.
      + cbn [eval]. rewrite E, F. destruct H as [-> | ->]; eexists; split; try reflexivity; exact Logic.I.
      + cbn [plain]. rewrite E, F. repeat split; try assumption. destruct o; exact Logic.I.
    - destruct v; try contradiction; destruct w; try contradiction. split.
      + cbn [eval]. rewrite E, F. destruct H as [-> | ->]; eexists; split; try reflexivity; exact Logic.I.
      + cbn [plain]. rewrite E, F. repeat split; try assumption. destruct o; exact Logic.I.
    - destruct v; try contradiction; destruct w; try contradiction. split.
      + cbn [eval]. rewrite E, F. destruct H as [-> | ->]; eexists; split; try reflexivity; exact Logic.I.
      + cbn [plain]. rewrite E, F. repeat split; try assumption. destruct o; exact Logic.I.
    - destruct v; try contradiction; destruct w; try contradiction. split; [|now repeat split].
      cbn [eval]. rewrite E, F. eexists; split; try reflexivity; exact Logic.I.
    - destruct v; try contradiction; destruct w; try contradiction. split; [|now repeat split].
      cbn [eval]. rewrite E, F. eexists; split; try reflexivity; exact Logic.I.
    - destruct v; try contradiction. split; [|exact P1]. cbn [eval]. rewrite E. eexists; split; try reflexivity; exact Logic.I.
    - destruct v; try contradiction. split; [|exact P1]. cbn [eval]. rewrite E. eexists; split; try reflexivity; exact Logic.I.
    - destruct v; try contradiction. split; [|exact P1]. cbn [eval]. rewrite E. eexists; split; try reflexivity; exact Logic.I.
    - destruct v; try contradiction. split; [|exact P1]. cbn [eval]. rewrite E. eexists; split; try reflexivity; exact Logic.I.
    - split; [|exact P1]. assert (O := inv_ok n v x y Hn S1 H H0). cbn [eval]. rewrite E. destruct v; try contradiction.
      destruct (unary n Inv (Mat A)) as [w| |] eqn:U; [|exfalso|contradiction].
      + exists w. split; [reflexivity|]. revert U. unfold unary. destruct Hd as [-> | ->].
        * destruct (inv2 A); [|discriminate]. intros U. injection U as <-. exact Logic.I.
        * destruct (inv3 A); [|discriminate]. intros U. injection U as <-. exact Logic.I.
      + revert U. unfold unary. destruct Hd as [-> | ->]; [destruct (inv2 A)|destruct (inv3 A)]; discriminate.
    - destruct v; try contradiction. split; [|exact P1]. cbn [eval]. rewrite E. destruct Hd as [-> | ->]; eexists; split; try reflexivity; exact Logic.I.
    - destruct v; try contradiction. split; [|exact P1]. cbn [eval]. rewrite E. eexists; split; try reflexivity; exact Logic.I.
    - destruct v; try contradiction. split; [|exact P1]. cbn [eval]. rewrite E. eexists; split; try reflexivity; exact Logic.I.
    - destruct v; try contradiction. split; [|exact P1]. cbn [eval]. rewrite E. eexists; split; try reflexivity; exact Logic.I.
    - destruct v; try contradiction. split; [|exact P1]. cbn [eval]. rewrite E. eexists; split; try reflexivity; exact Logic.I.
    - destruct v; try contradiction. split; [|exact P1]. cbn [eval]. rewrite E. eexists; split; try reflexivity; exact Logic.I. }
  destruct G as ((v & E & Dv) & P). split; [|exact P]. exists v. split; [exact E|]. split; [exact Dv|].
  assert (O := means_ok n rho sigma Hn R e t s M P). now rewrite E in O.
Qed.

(** ** cases *)
(** lambda tr(sym H) I + 2 mu sym H, with the identity isotropic, and zero added *)
Definition hooke : expr := E2 Add (E2 Add (E2 Mul (E2 Mul (Var 0) (E1 Trace (E1 Sym (Var 1)))) (Var 2)) (Var 4)) (E2 Mul (Var 3) (E1 Sym (Var 1))).
Definition hooke_values (H : mat) (l m2 : R) : nat -> value := fun k => match k with 0%nat => Num l | 1%nat => Mat H | 2%nat => Iso 1 | 3%nat => Num m2 | _ => Zero end.
Definition hooke_meanings (H : mat) (l m2 : R) : nat -> {t : ty & sem t} := fun k => match k with
  | 0%nat => existT _ Scal (l : sem Scal) | 1%nat => existT _ Matr (H : sem Matr) | 2%nat => existT _ Matr (delta : sem Matr) | 3%nat => existT _ Scal (m2 : sem Scal)
  | _ => existT _ Matr ((fun _ _ => 0) : sem Matr) end.
Lemma hooke_case H l m2 : exists s v,
  (forall k, stands 3 (hooke_values H l m2 k) (projT1 (hooke_meanings H l m2 k)) (projT2 (hooke_meanings H l m2 k))) /\
  means 3 (hooke_meanings H l m2) hooke Matr s /\ plain 3 (hooke_values H l m2) hooke /\ eval 3 (hooke_values H l m2) hooke = Value v /\
  (forall i j, (i < 3)%nat -> (j < 3)%nat -> s i j = l * (H 0%nat 0%nat + H 1%nat 1%nat + H 2%nat 2%nat) * delta i j + m2 * ((H i j + H j i) / 2)).
Proof.
  eexists _, _. split; [|split; [|split; [|split]]].
  - intros k. destruct k as [|[|[|[|k]]]]; cbn; try reflexivity; intros; ring.
  - unfold hooke. apply M_add; [apply M_add; [apply M_scale; [apply M_scale|]|]|apply M_scale].
    + now apply M_var.
    + apply M_tr, M_sym. now apply M_var.
    + now apply M_var.
    + now apply (M_var 3 _ 4).
    + now apply M_var.
    + apply M_sym. now apply M_var.
  - repeat split.
  - reflexivity.
  - intros i j Hi Hj. unfold each, zip. cbn [sumn]. lra.
Qed.

(** antisym(A * I): the product is an isotropic tensor with a matrix for its value, whose antisymmetric part is [zero] *)
Definition nested : expr := E1 Antisym (E2 Mul (Var 0) (Var 1)).
Definition nested_values : nat -> value := fun k => match k with 0%nat => Mat (mat2 0 2 0 0) | _ => Iso 1 end.
Definition nested_meanings : nat -> {t : ty & sem t} := fun k => match k with 0%nat => existT _ Matr (mat2 0 2 0 0 : sem Matr) | _ => existT _ Matr (delta : sem Matr) end.
Lemma nested_wrong : exists (s : sem Matr) v,
  (forall k, stands 2 (nested_values k) (projT1 (nested_meanings k)) (projT2 (nested_meanings k))) /\
  means 2 nested_meanings nested Matr s /\ eval 2 nested_values nested = Value v /\ ~ stands 2 v Matr s /\ s 0%nat 1%nat = 1 /\ v = Zero.
Proof.
  eexists _, _. split; [|split; [|split; [|split; [|split]]]].
  - intros k. destruct k as [|k]; cbn; intros; ring.
  - apply M_anti, M_mm; [now left|now apply M_var|now apply (M_var 2 _ 1)].
  - reflexivity.
  - cbn [stands same]. intros H. specialize (H 0%nat 1%nat ltac:(lia) ltac:(lia)). revert H. unfold mat2, delta. cbn [sumn Nat.eqb]. lra.
  - unfold mat2, delta. cbn [sumn Nat.eqb]. lra.
  - reflexivity.
Qed.
(** dot(inv(A * I), x) multiplies by the reciprocals of the entries *)
Definition recip : expr := E2 Dot (E1 Inv (E2 Mul (Var 0) (Var 1))) (Var 2).
Definition recip_values : nat -> value := fun k => match k with 0%nat => Mat (mat2 1 1 1 2) | 1%nat => Iso 1 | _ => Vec (fun _ => 1) end.
Definition recip_meanings : nat -> {t : ty & sem t} := fun k => match k with
  | 0%nat => existT _ Matr (mat2 1 1 1 2 : sem Matr) | 1%nat => existT _ Matr (delta : sem Matr) | _ => existT _ Vect ((fun _ => 1) : sem Vect) end.
Lemma recip_wrong : exists (s : sem Vect) x,
  (forall k, stands 2 (recip_values k) (projT1 (recip_meanings k)) (projT2 (recip_meanings k))) /\
  means 2 recip_meanings recip Vect s /\ eval 2 recip_values recip = Value (Vec x) /\ s 0%nat = 1 /\ x 0%nat = 2.
Proof.
  eexists _, _. split; [|split; [|split; [|split]]].
  - intros k. destruct k as [|[|k]]; cbn; intros; try ring; reflexivity.
  - apply (M_mv 2 recip_meanings Dot _ _ (mat2 2 (-1) (-1) 1) (fun _ => 1)); [now right| |now apply (M_var 2 _ 2)].
    eapply M_inv; [apply M_mm; [now left|now apply M_var|now apply (M_var 2 _ 1)]| |];
      intros i j Hi Hj; destruct i as [|[|i]]; [| |lia| | |lia]; (destruct j as [|[|j]]; [| |lia]); unfold mat2, delta; cbn [sumn Nat.eqb]; lra.
  - unfold recip. cbn [eval binary mul unary recip_values]. cbn [seq forallb].
    destruct (Req_EM_T (1 * mat2 1 1 1 2 0%nat 0%nat) 0) as [E|_]; [unfold mat2 in E; lra|].
    destruct (Req_EM_T (1 * mat2 1 1 1 2 0%nat 1%nat) 0) as [E|_]; [unfold mat2 in E; lra|].
    destruct (Req_EM_T (1 * mat2 1 1 1 2 1%nat 0%nat) 0) as [E|_]; [unfold mat2 in E; lra|].
    destruct (Req_EM_T (1 * mat2 1 1 1 2 1%nat 1%nat) 0) as [E|_]; [unfold mat2 in E; lra|].
    cbn [andb]. reflexivity.
  - unfold mat2. cbn [sumn]. lra.
  - unfold mvec, mat2. cbn [sumn]. lra.
Qed.
Definition hooke_dense (H : mat) (l m2 : R) : nat -> value := fun k => match k with
  | 0%nat => Num l | 1%nat => Mat H | 2%nat => Mat ident | 3%nat => Num m2 | _ => Mat (fun _ _ => 0) end.
Lemma hooke_dense_case H l m2 : (forall k, dense (hooke_dense H l m2 k)) /\
  (forall k, stands 3 (hooke_dense H l m2 k) (projT1 (hooke_meanings H l m2 k)) (projT2 (hooke_meanings H l m2 k))) /\
  exists s, means 3 (hooke_meanings H l m2) hooke Matr s.
Proof.
  split; [|split].
  - intros k. destruct k as [|[|[|[|k]]]]; exact Logic.I.
  - intros k. destruct k as [|[|[|[|k]]]]; cbn; reflexivity.
  - destruct (hooke_case H l m2) as (s & v & _ & M & _). now exists s.
Qed.

(** ** a value is only returned where there is one *)
Theorem quotient_defined n rho a b v w t x y r : eval n rho a = Value v -> eval n rho b = Value w -> stands n v t x -> stands n w Scal y -> v <> Zero ->
  eval n rho (E2 Div a b) = Value r -> y <> 0.
Proof.
  intros Ea Eb Hv Hw NZ E. cbn [eval] in E. rewrite Ea, Eb in E. cbn in E.
  destruct w; cbn [stands] in Hw; try contradiction; subst; destruct v; cbn [div] in E; try discriminate; try (now destruct NZ);
    destruct (Req_EM_T x0 0); try discriminate; assumption.
Qed.
Theorem inverse_defined n rho a v x r : eval n rho a = Value v -> stands n v Matr x -> eval n rho (E1 Inv a) = Value r ->
  exists y, stands n r Matr y /\ forall i j, (i < n)%nat -> (j < n)%nat -> sumn n (fun k => x i k * y k j) = delta i j.
Proof.
  intros Ea Hv E. cbn [eval] in E. rewrite Ea in E. cbn beta iota in E.
  destruct v; cbn [stands] in Hv; try contradiction; cbn [unary] in E; try discriminate; cbn in Hv.
  - destruct n as [|[|[|[|n]]]]; try discriminate.
    + destruct (inv2 A) as [B|] eqn:EB; [|discriminate]. injection E as <-. exists B. split; [cbn; auto|]. intros i j Hi Hj.
      refine (eq_trans _ (proj1 (inv2_mul A B EB) i j Hi Hj)). unfold mmul. apply sumn_ext. intros k Hk. now rewrite Hv.
    + destruct (inv3 A) as [B|] eqn:EB; [|discriminate]. injection E as <-. exists B. split; [cbn; auto|]. intros i j Hi Hj.
      refine (eq_trans _ (proj1 (inv3_mul A B EB) i j Hi Hj)). unfold mmul. apply sumn_ext. intros k Hk. now rewrite Hv.
  - destruct (Req_EM_T v 0) as [|NZ]; [discriminate|]. injection E as <-. exists (fun i j => 1 / v * delta i j). split; [cbn; auto|]. intros i j Hi Hj.
    rewrite (sumn_ext n _ (fun k => delta i k * (v * (1 / v) * delta k j))) by (intros k Hk; rewrite Hv by auto; ring).
    rewrite (delta_sum_l n (fun k => v * (1 / v) * delta k j)) by auto. field. exact NZ.
Qed.
Lemma defined_case : eval 3 (fun _ => Num 2) (E2 Div (Var 0) (Var 1)) = Value (Num (2 / 2)) /\ eval 3 (fun _ => Num 0) (E2 Div (Var 0) (Var 1)) = Undefined /\
  eval 3 (fun _ => Iso 2) (E1 Inv (Var 0)) = Value (Iso (1 / 2)) /\ eval 3 (fun _ => Iso 0) (E1 Inv (Var 0)) = Undefined.
Proof.
  cbn. destruct (Req_EM_T 2 0) as [E|_]; [lra|]. destruct (Req_EM_T 0 0) as [_|E]; [|now destruct E]. now repeat split.
Qed.

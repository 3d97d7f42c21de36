(** * Functions of a symmetric matrix: algebra and derivative (C58)

    Everything here is about an orthogonal matrix Q and numbers l with A Q = Q diag(l), of any size; the code's function of a
    matrix is [comp Q l f]. *)
From Coq Require Import Reals Lra Lia Bool Psatz.
From Verif Require Import Sums Tensor.
Local Open Scope R_scope.

Section Size.
Variable n : nat.
Definition orth (Q : mat) : Prop := meq n (mmul n (transpose Q) Q) ident /\ meq n (mmul n Q (transpose Q)) ident.
Definition eigs (A Q : mat) (l : vec) : Prop := forall i k, (i < n)%nat -> (k < n)%nat -> sumn n (fun j => A i j * Q j k) = l k * Q i k.
Definition symmetricn (A : mat) : Prop := forall i j, (i < n)%nat -> (j < n)%nat -> A i j = A j i.
(** Q diag(f(l)) Q^T *)
Definition comp (Q : mat) (l : vec) (f : R -> R) : mat := fun i j => sumn n (fun k => f (l k) * Q i k * Q j k).
(** how the columns of two bases meet *)
Definition meet (Q Q' : mat) (a b : nat) : R := sumn n (fun k => Q k a * Q' k b).

Lemma cols Q a b : orth Q -> (a < n)%nat -> (b < n)%nat -> sumn n (fun k => Q k a * Q k b) = ident a b.
Proof. intros [H _] Ha Hb. exact (H a b Ha Hb). Qed.
Lemma rows_ Q i j : orth Q -> (i < n)%nat -> (j < n)%nat -> sumn n (fun k => Q i k * Q j k) = ident i j.
Proof. intros [_ H] Ha Hb. exact (H i j Ha Hb). Qed.
Lemma ident_sym i j : ident i j = ident j i.
Proof. unfold ident. now rewrite Nat.eqb_sym. Qed.

Lemma meet_back Q Q' i b : orth Q -> (i < n)%nat -> sumn n (fun a => Q i a * meet Q Q' a b) = Q' i b.
Proof.
  intros O Hi. unfold meet.
  transitivity (sumn n (fun k => ident k i * Q' k b)); [|now apply (sumn_ident n (fun k => Q' k b))].
  rewrite (sumn_ext n _ (fun a => sumn n (fun k => Q i a * Q k a * Q' k b))).
  2:{ intros a _. rewrite <- sumn_scal_l. apply sumn_ext. intros. ring. }
  rewrite sumn_swap. apply sumn_ext. intros k Hk. rewrite sumn_scal_r, rows_ by assumption. now rewrite ident_sym.
Qed.
Lemma meet_fore Q Q' j a : orth Q' -> (j < n)%nat -> sumn n (fun b => meet Q Q' a b * Q' j b) = Q j a.
Proof.
  intros O Hj. unfold meet.
  transitivity (sumn n (fun k => ident k j * Q k a)); [|now apply (sumn_ident n (fun k => Q k a))].
  rewrite (sumn_ext n _ (fun b => sumn n (fun k => Q' k b * Q' j b * Q k a))).
  2:{ intros b _. rewrite <- sumn_scal_r. apply sumn_ext. intros. ring. }
  rewrite sumn_swap. apply sumn_ext. intros k Hk. now rewrite sumn_scal_r, rows_ by assumption.
Qed.

Lemma comp_id A Q l : orth Q -> eigs A Q l -> meq n (comp Q l (fun x => x)) A.
Proof.
  intros O E i j Hi Hj. unfold comp.
  transitivity (sumn n (fun m => ident m j * A i m)); [|now apply (sumn_ident n (fun m => A i m))].
  rewrite (sumn_ext n _ (fun k => sumn n (fun m => Q m k * Q j k * A i m))).
  2:{ intros k Hk. rewrite <- (E i k Hi Hk), <- sumn_scal_r. apply sumn_ext. intros. ring. }
  rewrite sumn_swap. apply sumn_ext. intros m Hm. now rewrite sumn_scal_r, rows_ by assumption.
Qed.
Lemma comp_const Q l c : orth Q -> meq n (comp Q l (fun _ => c)) (fun i j => c * ident i j).
Proof.
  intros O i j Hi Hj. unfold comp. rewrite <- (rows_ Q i j O Hi Hj), <- sumn_scal_l. apply sumn_ext. intros. ring.
Qed.
Lemma comp_sym Q l f i j : comp Q l f i j = comp Q l f j i.
Proof. unfold comp. apply sumn_ext. intros. ring. Qed.
Lemma comp_eigs Q l f : orth Q -> eigs (comp Q l f) Q (fun k => f (l k)).
Proof.
  intros O i k Hi Hk. unfold comp.
  rewrite (sumn_ext n _ (fun j => sumn n (fun m => f (l m) * Q i m * (Q j m * Q j k)))).
  2:{ intros j _. rewrite <- sumn_scal_r. apply sumn_ext. intros. ring. }
  rewrite sumn_swap. transitivity (sumn n (fun m => ident m k * (f (l m) * Q i m))).
  - apply sumn_ext. intros m Hm. rewrite sumn_scal_l, cols by assumption. ring.
  - now rewrite (sumn_ident n (fun m => f (l m) * Q i m)).
Qed.
Lemma comp_mul Q l f g : orth Q -> meq n (mmul n (comp Q l f) (comp Q l g)) (comp Q l (fun x => f x * g x)).
Proof.
  intros O i j Hi Hj. unfold mmul.
  rewrite (sumn_ext n _ (fun m => sumn n (fun k => comp Q l f i m * Q m k * (g (l k) * Q j k)))).
  2:{ intros m _. unfold comp at 2. rewrite <- sumn_scal_l. apply sumn_ext. intros. ring. }
  rewrite sumn_swap. unfold comp at 2. apply sumn_ext. intros k Hk. rewrite sumn_scal_r, (comp_eigs Q l f O i k Hi Hk). ring.
Qed.
Lemma comp_tr Q l f : orth Q -> tr n (comp Q l f) = sumn n (fun k => f (l k)).
Proof.
  intro O. unfold tr, comp. rewrite sumn_swap. apply sumn_ext. intros k Hk.
  rewrite (sumn_ext n _ (fun i => f (l k) * (Q i k * Q i k))) by (intros; ring).
  rewrite sumn_scal_l, cols by assumption. unfold ident. rewrite Nat.eqb_refl. ring.
Qed.
Lemma comp_ext Q l f g : (forall k, (k < n)%nat -> f (l k) = g (l k)) -> meq n (comp Q l f) (comp Q l g).
Proof. intros H i j Hi Hj. unfold comp. apply sumn_ext. intros k Hk. now rewrite H. Qed.
Lemma comp_compose Q l f g : meq n (comp Q (fun k => f (l k)) g) (comp Q l (fun x => g (f x))).
Proof. intros i j _ _. reflexivity. Qed.

(** the change of a matrix between the two bases *)
Lemma between A A' Q l Q' l' a b : symmetricn A -> eigs A Q l -> eigs A' Q' l' -> (a < n)%nat -> (b < n)%nat ->
  sumn n (fun k => sumn n (fun m => Q k a * (A' k m - A k m) * Q' m b)) = (l' b - l a) * meet Q Q' a b.
Proof.
  intros S E E' Ha Hb.
  transitivity (sumn n (fun k => Q k a * sumn n (fun m => A' k m * Q' m b)) - sumn n (fun m => sumn n (fun k => A m k * Q k a) * Q' m b)).
  - rewrite (sumn_ext n _ (fun k => Q k a * sumn n (fun m => A' k m * Q' m b) - sumn n (fun m => A m k * Q k a * Q' m b))).
    2:{ intros k Hk. rewrite <- sumn_scal_l, <- sumn_minus. apply sumn_ext. intros m Hm. rewrite (S k m Hk Hm). ring. }
    rewrite sumn_minus. f_equal. rewrite sumn_swap. apply sumn_ext. intros m _. now rewrite sumn_scal_r.
  - rewrite (sumn_ext n _ (fun k => l' b * (Q k a * Q' k b))) by (intros k Hk; rewrite (E' k b Hk Hb); ring).
    rewrite (sumn_ext n (fun m => sumn n (fun k => A m k * Q k a) * Q' m b) (fun m => l a * (Q m a * Q' m b))) by (intros m Hm; rewrite (E m a Hm Ha); ring).
    rewrite !sumn_scal_l. unfold meet. ring.
Qed.

(** ** the exact change of a function of a matrix *)
Definition secant_of (f : R -> R) (g : R -> R -> R) (x y : R) : Prop := g x y * (y - x) = f y - f x.
Lemma comp_change A A' Q l Q' l' f g : symmetricn A -> orth Q -> orth Q' -> eigs A Q l -> eigs A' Q' l' ->
  (forall a b, (a < n)%nat -> (b < n)%nat -> secant_of f g (l a) (l' b)) ->
  forall i j, (i < n)%nat -> (j < n)%nat ->
  comp Q' l' f i j - comp Q l f i j =
  sumn n (fun a => sumn n (fun k => sumn n (fun m => Q i a * Q k a * (A' k m - A k m) * comp Q' l' (g (l a)) m j))).
Proof.
  intros S O O' E E' G i j Hi Hj.
  transitivity (sumn n (fun a => sumn n (fun b => Q i a * Q' j b * meet Q Q' a b * (f (l' b) - f (l a))))).
  - transitivity (sumn n (fun b => f (l' b) * Q' j b * sumn n (fun a => Q i a * meet Q Q' a b)) -
                  sumn n (fun a => f (l a) * Q i a * sumn n (fun b => meet Q Q' a b * Q' j b))).
    + f_equal; unfold comp; apply sumn_ext; intros k Hk; [rewrite meet_back by assumption|rewrite meet_fore by assumption]; ring.
    + rewrite (sumn_ext n (fun b => f (l' b) * Q' j b * sumn n (fun a => Q i a * meet Q Q' a b))
                 (fun b => sumn n (fun a => f (l' b) * Q' j b * (Q i a * meet Q Q' a b)))) by (intros; now rewrite sumn_scal_l).
      rewrite sumn_swap, <- sumn_minus. apply sumn_ext. intros a Ha. rewrite <- sumn_scal_l, <- sumn_minus. apply sumn_ext. intros b Hb. ring.
  - apply sumn_ext. intros a Ha.
    transitivity (sumn n (fun b => Q i a * g (l a) (l' b) * Q' j b * sumn n (fun k => sumn n (fun m => Q k a * (A' k m - A k m) * Q' m b)))).
    + apply sumn_ext. intros b Hb. rewrite (between A A' Q l Q' l' a b S E E' Ha Hb).
      assert (X := G a b Ha Hb). unfold secant_of in X. rewrite <- X. ring.
    + rewrite (sumn_ext n _ (fun b => sumn n (fun k => sumn n (fun m => Q i a * Q k a * (A' k m - A k m) * (g (l a) (l' b) * Q' m b * Q' j b))))).
      2:{ intros b Hb. rewrite <- sumn_scal_l. apply sumn_ext. intros k Hk. rewrite <- sumn_scal_l. apply sumn_ext. intros m Hm. ring. }
      rewrite sumn_swap. apply sumn_ext. intros k Hk. rewrite sumn_swap. apply sumn_ext. intros m Hm. rewrite sumn_scal_l. reflexivity.
Qed.

(** the function of a matrix depends on the matrix only *)
Lemma comp_unique A Q l Q' l' f : symmetricn A -> orth Q -> orth Q' -> eigs A Q l -> eigs A Q' l' -> meq n (comp Q' l' f) (comp Q l f).
Proof.
  intros S O O' E E' i j Hi Hj.
  set (g := fun x y => if Req_EM_T x y then 0 else (f y - f x) / (y - x)).
  assert (X := comp_change A A Q l Q' l' f g S O O' E E').
  assert (Z : comp Q' l' f i j - comp Q l f i j = 0); [|lra].
  rewrite X; auto.
  - apply sumn_zero. intros a _. apply sumn_zero. intros k _. apply sumn_zero. intros m _. ring.
  - intros a b _ _. unfold secant_of, g. destruct (Req_EM_T (l a) (l' b)) as [->|N]; [ring|field; lra].
Qed.
Lemma comp_unique' A A' Q l Q' l' f : meq n A A' -> symmetricn A -> orth Q -> orth Q' -> eigs A Q l -> eigs A' Q' l' -> meq n (comp Q' l' f) (comp Q l f).
Proof.
  intros M S O O' E E'. apply (comp_unique A); auto. intros i k Hi Hk. rewrite <- (E' i k Hi Hk). apply sumn_ext. intros j Hj. now rewrite (M i j Hi Hj).
Qed.

(** ** size of the entries, and nearness of the eigenvalues *)
Lemma orth_le1 Q i k : orth Q -> (i < n)%nat -> (k < n)%nat -> Rabs (Q i k) <= 1.
Proof.
  intros O Hi Hk. assert (X := rows_ Q i i O Hi Hi). unfold ident in X. rewrite Nat.eqb_refl in X.
  assert (Y : Q i k * Q i k <= 1).
  { rewrite <- X. rewrite <- (sumn_delta n k (fun k => Q i k * Q i k) Hk). apply sumn_le. intros m _.
    assert (0 <= Q i m * Q i m) by apply Rle_0_sqr. destruct (Nat.eqb m k); lra. }
  apply Rabs_le. split; nra.
Qed.
Definition dist (A A' : mat) : R := sumn n (fun k => sumn n (fun m => Rabs (A' k m - A k m))).
Lemma dist_nonneg A A' : 0 <= dist A A'.
Proof. apply sumn_nonneg. intros. apply sumn_nonneg. intros. apply Rabs_pos. Qed.
Lemma near A A' Q l Q' l' a b : symmetricn A -> orth Q -> orth Q' -> eigs A Q l -> eigs A' Q' l' -> (a < n)%nat -> (b < n)%nat ->
  Rabs (l' b - l a) * Rabs (meet Q Q' a b) <= dist A A'.
Proof.
  intros S O O' E E' Ha Hb. rewrite <- Rabs_mult, <- (between A A' Q l Q' l' a b S E E' Ha Hb).
  eapply Rle_trans; [apply sumn_abs|]. apply sumn_le. intros k Hk. eapply Rle_trans; [apply sumn_abs|]. apply sumn_le. intros m Hm.
  rewrite !Rabs_mult. assert (X := orth_le1 Q k a O Hk Ha). assert (Y := orth_le1 Q' m b O' Hm Hb).
  assert (P := Rabs_pos (A' k m - A k m)). assert (PX := Rabs_pos (Q k a)). assert (PY := Rabs_pos (Q' m b)).
  assert (Rabs (Q k a) * Rabs (A' k m - A k m) <= Rabs (A' k m - A k m)) by nra.
  assert (0 <= Rabs (Q k a) * Rabs (A' k m - A k m)) by nra. nra.
Qed.
Lemma meet_le1 Q Q' a b : orth Q -> orth Q' -> (a < n)%nat -> (b < n)%nat -> Rabs (meet Q Q' a b) <= 1.
Proof.
  intros O O' Ha Hb.
  (* 2 |sum x y| <= sum x^2 + sum y^2 = 2 *)
  assert (X := cols Q a a O Ha Ha). assert (Y := cols Q' b b O' Hb Hb). unfold ident in X, Y. rewrite Nat.eqb_refl in X, Y.
  assert (P : 0 <= sumn n (fun k => (Q k a - Q' k b) * (Q k a - Q' k b))) by (apply sumn_nonneg; intros; apply Rle_0_sqr).
  assert (M : 0 <= sumn n (fun k => (Q k a + Q' k b) * (Q k a + Q' k b))) by (apply sumn_nonneg; intros; apply Rle_0_sqr).
  rewrite (sumn_ext n _ (fun k => Q k a * Q k a + Q' k b * Q' k b - 2 * (Q k a * Q' k b))) in P by (intros; ring).
  rewrite (sumn_ext n _ (fun k => Q k a * Q k a + Q' k b * Q' k b + 2 * (Q k a * Q' k b))) in M by (intros; ring).
  rewrite sumn_minus, sumn_plus, sumn_scal_l, X, Y in P. rewrite !sumn_plus, sumn_scal_l, X, Y in M.
  fold (meet Q Q' a b) in P, M. apply Rabs_le. lra.
Qed.
(** some eigenvalue of A is close to the given one of A' *)
Lemma some_near A A' Q l Q' l' b : symmetricn A -> orth Q -> orth Q' -> eigs A Q l -> eigs A' Q' l' -> (b < n)%nat ->
  exists a, (a < n)%nat /\ Rabs (l' b - l a) <= INR n * dist A A'.
Proof.
  intros S O O' E E' Hb.
  assert (Ex : exists a, (a < n)%nat /\ 1 <= INR n * Rabs (meet Q Q' a b)).
  { (* otherwise the squares of the meeting numbers do not add up to one *)
    assert (T : sumn n (fun a => meet Q Q' a b * meet Q Q' a b) = 1).
    { transitivity (sumn n (fun k => Q' k b * Q' k b)); [|rewrite cols by assumption; unfold ident; now rewrite Nat.eqb_refl].
      rewrite (sumn_ext n (fun k => Q' k b * Q' k b) (fun k => sumn n (fun a => Q k a * meet Q Q' a b) * Q' k b)) by (intros k Hk; now rewrite meet_back).
      rewrite (sumn_ext n (fun k => sumn n (fun a => Q k a * meet Q Q' a b) * Q' k b) (fun k => sumn n (fun a => meet Q Q' a b * (Q k a * Q' k b)))).
      2:{ intros k Hk. rewrite <- sumn_scal_r. apply sumn_ext. intros. ring. }
      rewrite sumn_swap. apply sumn_ext. intros a Ha. rewrite sumn_scal_l. reflexivity. }
    assert (Np : 0 < INR n) by (apply lt_0_INR; lia).
    assert (Dec : forall m, (m <= n)%nat -> (exists a, (a < m)%nat /\ 1 <= INR n * Rabs (meet Q Q' a b)) \/
       (m = 0%nat \/ INR n * sumn m (fun a => meet Q Q' a b * meet Q Q' a b) < INR m)).
    { induction m as [|m IH]; intro Hm; [right; now left|].
      destruct (IH ltac:(lia)) as [[a [Ha X]]|X]; [left; exists a; split; [lia|exact X]|].
      destruct (Rle_dec 1 (INR n * Rabs (meet Q Q' m b))) as [Y|Y]; [left; exists m; split; [lia|exact Y]|].
      right. right. cbn [sumn]. rewrite S_INR.
      assert (Z : INR n * (meet Q Q' m b * meet Q Q' m b) < 1).
      { assert (L := meet_le1 Q Q' m b O O' ltac:(lia) Hb). assert (P := Rabs_pos (meet Q Q' m b)).
        replace (meet Q Q' m b * meet Q Q' m b) with (Rabs (meet Q Q' m b) * Rabs (meet Q Q' m b)) by (rewrite <- Rabs_mult; apply Rabs_pos_eq, Rle_0_sqr).
        set (r := Rabs (meet Q Q' m b)) in *. clearbody r.
        assert (V : INR n * r * r <= INR n * r * 1) by (apply Rmult_le_compat_l; [apply Rmult_le_pos; lra|exact L]). lra. }
      destruct X as [->|X]; [cbn [sumn INR]; lra|lra]. }
    destruct (Dec n (le_n n)) as [X|[X|X]]; [exact X|lia|]. rewrite T in X. lra. }
  destruct Ex as [a [Ha X]]. exists a. split; [exact Ha|].
  assert (Y := near A A' Q l Q' l' a b S O O' E E' Ha Hb). assert (P := Rabs_pos (l' b - l a)).
  assert (Np : 0 <= INR n) by apply pos_INR.
  set (r := Rabs (l' b - l a)) in *. set (q := Rabs (meet Q Q' a b)) in *. clearbody r q.
  apply Rle_trans with (r * (INR n * q)).
  - rewrite <- (Rmult_1_r r) at 1. now apply Rmult_le_compat_l.
  - replace (r * (INR n * q)) with (INR n * (r * q)) by ring. now apply Rmult_le_compat_l.
Qed.
End Size.

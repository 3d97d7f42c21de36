(** * Finite sums of reals (no model content; shared lemmas) *)
From Coq Require Import Reals List Lra Lia Arith Permutation.
Import ListNotations.
Local Open Scope R_scope.

(** sum of f 0 .. f (n-1) *)
Fixpoint sumn (n : nat) (f : nat -> R) : R :=
  match n with O => 0 | S k => sumn k f + f k end.

Lemma sumn_ext n f g : (forall i, (i < n)%nat -> f i = g i) -> sumn n f = sumn n g.
Proof. induction n as [|n IH]; intros H; simpl; [reflexivity|]. rewrite IH, H by auto. reflexivity. Qed.
Lemma sumn_0 n : sumn n (fun _ => 0) = 0.
Proof. induction n as [|n IH]; simpl; [reflexivity|]. rewrite IH. ring. Qed.
Lemma sumn_zero n f : (forall i, (i < n)%nat -> f i = 0) -> sumn n f = 0.
Proof. intros H. rewrite (sumn_ext n f (fun _ => 0)) by auto. apply sumn_0. Qed.
Lemma sumn_plus n f g : sumn n (fun i => f i + g i) = sumn n f + sumn n g.
Proof. induction n as [|n IH]; simpl; [ring|]. rewrite IH. ring. Qed.
Lemma sumn_minus n f g : sumn n (fun i => f i - g i) = sumn n f - sumn n g.
Proof. induction n as [|n IH]; simpl; [ring|]. rewrite IH. ring. Qed.
Lemma sumn_opp n f : sumn n (fun i => - f i) = - sumn n f.
Proof. induction n as [|n IH]; simpl; [ring|]. rewrite IH. ring. Qed.
Lemma sumn_scal_l n c f : sumn n (fun i => c * f i) = c * sumn n f.
Proof. induction n as [|n IH]; simpl; [ring|]. rewrite IH. ring. Qed.
Lemma sumn_scal_r n c f : sumn n (fun i => f i * c) = sumn n f * c.
Proof. induction n as [|n IH]; simpl; [ring|]. rewrite IH. ring. Qed.
Lemma sumn_swap n m f : sumn n (fun i => sumn m (fun j => f i j)) = sumn m (fun j => sumn n (fun i => f i j)).
Proof.
  induction n as [|n IH]; simpl.
  - symmetry. apply sumn_0.
  - rewrite IH, sumn_plus. reflexivity.
Qed.
Lemma sumn_delta n k f : (k < n)%nat -> sumn n (fun i => if Nat.eqb i k then f i else 0) = f k.
Proof.
  induction n as [|n IH]; intros H; [lia|]. simpl. destruct (Nat.eqb_spec n k) as [->|E].
  - rewrite (sumn_zero k); [ring|]. intros i Hi. destruct (Nat.eqb_spec i k); [lia|reflexivity].
  - rewrite IH by lia. ring.
Qed.
Lemma sumn_delta_out n k f : (n <= k)%nat -> sumn n (fun i => if Nat.eqb i k then f i else 0) = 0.
Proof. intros H. apply sumn_zero. intros i Hi. destruct (Nat.eqb_spec i k); [lia|reflexivity]. Qed.
Lemma sumn_S_l n f : sumn (S n) f = f O + sumn n (fun i => f (S i)).
Proof. induction n as [|n IH]; [simpl; ring|]. cbn [sumn] in *. rewrite IH. ring. Qed.
Lemma sumn_app n m f : sumn (n + m) f = sumn n f + sumn m (fun i => f (n + i)%nat).
Proof.
  induction m as [|m IH]; [rewrite Nat.add_0_r; simpl; ring|].
  replace (n + S m)%nat with (S (n + m)) by lia. simpl. rewrite IH. ring.
Qed.
Lemma sumn_mul n m f : sumn (n * m) f = sumn n (fun i => sumn m (fun j => f (i * m + j)%nat)).
Proof.
  induction n as [|n IH]; [reflexivity|]. replace (S n * m)%nat with (n * m + m)%nat by lia.
  rewrite sumn_app, IH. simpl. reflexivity.
Qed.
Lemma sumn_le n f g : (forall i, (i < n)%nat -> f i <= g i) -> sumn n f <= sumn n g.
Proof. induction n as [|n IH]; intros H; simpl; [lra|]. assert (sumn n f <= sumn n g) by auto. assert (f n <= g n) by auto. lra. Qed.
Lemma sumn_nonneg n f : (forall i, (i < n)%nat -> 0 <= f i) -> 0 <= sumn n f.
Proof. intros H. rewrite <- (sumn_0 n). now apply sumn_le. Qed.
Lemma sumn_abs n f : Rabs (sumn n f) <= sumn n (fun i => Rabs (f i)).
Proof.
  induction n as [|n IH]; simpl; [rewrite Rabs_R0; lra|].
  eapply Rle_trans; [apply Rabs_triang|]. lra.
Qed.
Lemma sumn_nonneg_zero n f : (forall i, (i < n)%nat -> 0 <= f i) -> sumn n f = 0 -> forall i, (i < n)%nat -> f i = 0.
Proof.
  induction n as [|n IH]; intros H E i Hi; [lia|]. simpl in E.
  assert (0 <= sumn n f) by (apply sumn_nonneg; auto). assert (0 <= f n) by auto.
  destruct (Nat.eq_dec i n) as [->|]; [lra|]. apply IH; auto; [lra|lia].
Qed.
Lemma sumn_const n c : sumn n (fun _ => c) = INR n * c.
Proof. induction n as [|n IH]; [simpl; ring|]. rewrite S_INR. simpl. rewrite IH. ring. Qed.

(** sums over lists *)
Fixpoint suml {A} (l : list A) (f : A -> R) : R :=
  match l with [] => 0 | a :: r => f a + suml r f end.
Lemma suml_app {A} (l m : list A) f : suml (l ++ m) f = suml l f + suml m f.
Proof. induction l as [|a l IH]; simpl; [ring|]. rewrite IH. ring. Qed.
Lemma suml_ext {A} (l : list A) f g : (forall a, In a l -> f a = g a) -> suml l f = suml l g.
Proof. induction l as [|a l IH]; intros H; simpl; [reflexivity|]. rewrite H by (now left). rewrite IH; auto. intros; apply H; now right. Qed.
Lemma suml_zero {A} (l : list A) f : (forall a, In a l -> f a = 0) -> suml l f = 0.
Proof. induction l as [|a l IH]; intros H; simpl; [reflexivity|]. rewrite H by (now left). rewrite IH; [ring|]. intros; apply H; now right. Qed.
Lemma suml_plus {A} (l : list A) f g : suml l (fun a => f a + g a) = suml l f + suml l g.
Proof. induction l as [|a l IH]; simpl; [ring|]. rewrite IH. ring. Qed.
Lemma suml_scal_l {A} (l : list A) c f : suml l (fun a => c * f a) = c * suml l f.
Proof. induction l as [|a l IH]; simpl; [ring|]. rewrite IH. ring. Qed.
Lemma suml_scal_r {A} (l : list A) c f : suml l (fun a => f a * c) = suml l f * c.
Proof. induction l as [|a l IH]; simpl; [ring|]. rewrite IH. ring. Qed.
Lemma suml_map {A B} (h : A -> B) l f : suml (map h l) f = suml l (fun a => f (h a)).
Proof. induction l as [|a l IH]; simpl; [reflexivity|]. now rewrite IH. Qed.
Lemma suml_flat_map {A B} (h : A -> list B) l f : suml (flat_map h l) f = suml l (fun a => suml (h a) f).
Proof. induction l as [|a l IH]; simpl; [reflexivity|]. now rewrite suml_app, IH. Qed.
Lemma suml_swap {A B} (l : list A) (m : list B) f :
  suml l (fun a => suml m (fun b => f a b)) = suml m (fun b => suml l (fun a => f a b)).
Proof.
  induction l as [|a l IH]; simpl.
  - symmetry. now apply suml_zero.
  - rewrite IH, suml_plus. reflexivity.
Qed.
Lemma suml_sumn_swap {A} (l : list A) n f :
  suml l (fun a => sumn n (fun i => f a i)) = sumn n (fun i => suml l (fun a => f a i)).
Proof.
  induction l as [|a l IH]; simpl.
  - symmetry. apply sumn_0.
  - rewrite IH, sumn_plus. reflexivity.
Qed.
Lemma suml_seq n f : suml (seq 0 n) f = sumn n f.
Proof.
  induction n as [|n IH]; [reflexivity|]. rewrite seq_S, suml_app, IH. simpl. ring.
Qed.
Lemma suml_perm {A} (l m : list A) f : Permutation l m -> suml l f = suml m f.
Proof. induction 1; simpl; auto; lra. Qed.

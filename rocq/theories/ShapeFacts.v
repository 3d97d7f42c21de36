(** * Shape functions interpolate, reproduce polynomials and have the coded gradients (C33) *)
From Coq Require Import ZArith Reals Lra Lia List Bool.
From Coquelicot Require Import Coquelicot.
From Verif Require Import Sums Quadrature ShapeDefs.
Import ListNotations.
Local Open Scope R_scope.

(** ** specification, for shape functions taking a point to the list of their values *)
Definition kronecker (nodes : list (list R)) (shape : list R -> list R) : Prop :=
  forall i j, (i < length nodes)%nat -> (j < length nodes)%nat -> nth j (shape (nth i nodes [])) 0 = if Nat.eqb i j then 1 else 0.
Definition interpolant (nodes : list (list R)) (shape : list R -> list R) (f : list R -> R) (p : list R) : R :=
  suml (combine nodes (shape p)) (fun nv => f (fst nv) * snd nv).
Definition sums_to_one (d : nat) (shape : list R -> list R) : Prop := forall p, length p = d -> suml (shape p) (fun v => v) = 1.
Definition reproduces (deg : list (R * list nat) -> Prop) (d : nat) (nodes : list (list R)) (shape : list R -> list R) : Prop :=
  forall P, deg P -> forall p, length p = d -> interpolant nodes shape (evalp P) p = evalp P p.
Fixpoint update (p : list R) (a : nat) (t : R) : list R :=
  match p, a with [], _ => [] | _ :: r, O => t :: r | x :: r, S b => x :: update r b t end.
(** the a-th entry of the i-th gradient is the partial derivative of the i-th function *)
Definition exact_gradients (d : nat) (shape : list R -> list R) (grad : list R -> list (list R)) : Prop :=
  forall p, length p = d -> length (grad p) = length (shape p) /\
  forall i a, (i < length (shape p))%nat -> (a < d)%nat -> is_derive (fun t : R => nth i (shape (update p a t)) 0) (nth a p 0) (nth a (nth i (grad p) []) 0).

(** ** nodes: tests/simplex_basis_function_unit_tests.cpp:18-73 and GaussLobattoNodes (polynomials.hpp:27-33);
    0.27639... is (5 - sqrt5)/10 and 0.72360... is (5 + sqrt5)/10 *)
Definition lob_nodes (s : R) (n : nat) : list R :=
  match n with 2%nat => [0; 1] | 3%nat => [0; / 2; 1] | 4%nat => [0; (5 - s) / 10; (5 + s) / 10; 1] | _ => [] end.
Definition tri_nodes (s : R) (p : nat) : list (list R) :=
  let a := (5 - s) / 10 in let b := (5 + s) / 10 in let t := / 3 in
  match p with
  | 1%nat => [[0; 0]; [1; 0]; [0; 1]]
  | 2%nat => [[0; 0]; [/ 2; 0]; [1; 0]; [0; / 2]; [/ 2; / 2]; [0; 1]]
  | 3%nat => [[0; 0]; [a; 0]; [b; 0]; [1; 0]; [0; a]; [t; t]; [b; a]; [0; b]; [a; b]; [0; 1]]
  | _ => []
  end.
Definition tet_nodes (s : R) (p : nat) : list (list R) :=
  let a := (5 - s) / 10 in let b := (5 + s) / 10 in let t := / 3 in let h := / 2 in
  match p with
  | 1%nat => [[0; 0; 0]; [1; 0; 0]; [0; 1; 0]; [0; 0; 1]]
  | 2%nat => [[0; 0; 0]; [h; 0; 0]; [1; 0; 0]; [0; h; 0]; [h; h; 0]; [0; 1; 0]; [0; 0; h]; [h; 0; h]; [0; h; h]; [0; 0; 1]]
  | 3%nat => [[0; 0; 0]; [a; 0; 0]; [b; 0; 0]; [1; 0; 0]; [0; a; 0]; [t; t; 0]; [b; a; 0]; [0; b; 0]; [a; b; 0]; [0; 1; 0];
              [0; 0; a]; [t; 0; t]; [b; 0; a]; [0; t; t]; [t; t; t]; [0; b; a]; [0; 0; b]; [a; 0; b]; [0; a; b]; [0; 0; 1]]
  | _ => []
  end.
Definition tri_fn (s : R) (p : nat) (pt : list R) : list R := match pt with [x; y] => tri_shape s p x y | _ => [] end.
Definition tri_gr (s : R) (p : nat) (pt : list R) : list (list R) := match pt with [x; y] => tri_grad s p x y | _ => [] end.
Definition tet_fn (s : R) (p : nat) (pt : list R) : list R := match pt with [x; y; z] => tet_shape s p x y z | _ => [] end.
Definition tet_gr (s : R) (p : nat) (pt : list R) : list (list R) := match pt with [x; y; z] => tet_grad s p x y z | _ => [] end.
Definition root5 (s : R) : Prop := s * s = 5.

Lemma inv1 s : s * s = 5 -> / (-5 + s) = - (5 + s) / 20.
Proof. intros H. assert (-5 + s <> 0) by nra. field_simplify_eq [H]; auto. Qed.
Lemma inv2 s : s * s = 5 -> / (271443 + 121393 * s) = (271443 - 121393 * s) / 4.
Proof. intros H. assert (271443 + 121393 * s <> 0) by nra. field_simplify_eq [H]; auto. Qed.
Lemma inv3 s : s * s = 5 -> / (5 + 3 * s) = (5 - 3 * s) / -20.
Proof. intros H. assert (5 + 3 * s <> 0) by nra. field_simplify_eq [H]; auto. Qed.
Lemma inv4 s : s * s = 5 -> / (143285 + 64079 * s) = (143285 - 64079 * s) / 20.
Proof. intros H. assert (143285 + 64079 * s <> 0) by nra. field_simplify_eq [H]; auto. Qed.
Ltac no_inv H := unfold Rdiv; rewrite ?(inv1 _ H), ?(inv2 _ H), ?(inv3 _ H), ?(inv4 _ H).
Ltac entries H := match goal with
  | |- cons _ _ = cons _ _ => apply (f_equal2 (@cons _)); [entries H|entries H]
  | |- [] = [] => reflexivity
  | |- _ => first [reflexivity | no_inv H; field [H]]
  end.

(** ** Kronecker property *)
Definition unit_rows (n : nat) : list (list R) := map (fun i => map (fun j => if Nat.eqb i j then 1 else 0) (seq 0 n)) (seq 0 n).
Lemma kronecker_rows nodes shape : map shape nodes = unit_rows (length nodes) -> kronecker nodes shape.
Proof.
  intros H i j Hi Hj. assert (E : nth i (map shape nodes) [] = shape (nth i nodes [])).
  { rewrite (nth_indep _ [] (shape [])) by (now rewrite map_length). apply map_nth. }
  rewrite <- E, H. unfold unit_rows.
  set (f := fun i => map (fun j => if Nat.eqb i j then 1 else 0) (seq 0 (length nodes))).
  rewrite (nth_indep _ [] (f 0%nat)) by (now rewrite map_length, seq_length). rewrite map_nth, seq_nth by exact Hi. unfold f.
  set (g := fun j => if Nat.eqb (0 + i) j then 1 else 0).
  rewrite (nth_indep _ 0 (g 0%nat)) by (now rewrite map_length, seq_length). rewrite map_nth, seq_nth by exact Hj. reflexivity.
Qed.
Lemma tri_kronecker s p : root5 s -> (1 <= p <= 3)%nat -> kronecker (tri_nodes s p) (tri_fn s p).
Proof.
  unfold root5. intros H Hp. apply kronecker_rows. destruct p as [|[|[|[|p]]]]; try lia;
  cbn [tri_nodes length map tri_fn tri_shape unit_rows seq Nat.eqb]; entries H.
Qed.
Lemma tet_kronecker s p : root5 s -> (1 <= p <= 3)%nat -> kronecker (tet_nodes s p) (tet_fn s p).
Proof.
  unfold root5. intros H Hp. apply kronecker_rows. destruct p as [|[|[|[|p]]]]; try lia;
  cbn [tet_nodes length map tet_fn tet_shape unit_rows seq Nat.eqb]; entries H.
Qed.

(** ** reproduction *)
Fixpoint exps (d k : nat) : list (list nat) :=
  match d with
  | O => [[]]
  | S d' => flat_map (fun j => map (cons j) (exps d' (k - j))) (seq 0 (S k))
  end.
Lemma exps_in d : forall k e, length e = d -> (total e <= k)%nat -> In e (exps d k).
Proof.
  induction d as [|d IH]; intros k [|j e] L T; cbn [length] in L; try discriminate; [now left|].
  cbn [exps]. apply in_flat_map. exists j. cbn [total fold_right] in T. fold (total e) in T. split.
  - apply in_seq. lia.
  - apply in_map. apply IH; lia.
Qed.
Lemma interpolant_poly nodes shape P p : interpolant nodes shape (evalp P) p = suml P (fun m => fst m * interpolant nodes shape (mono (snd m)) p).
Proof.
  unfold interpolant, evalp. transitivity (suml (combine nodes (shape p)) (fun nv => suml P (fun m => fst m * (mono (snd m) (fst nv) * snd nv)))).
  - apply suml_ext. intros nv _. rewrite <- suml_scal_r. apply suml_ext. intros. ring.
  - rewrite suml_swap. apply suml_ext. intros m _. now rewrite suml_scal_l.
Qed.
Lemma reproduces_monos (deg : list (R * list nat) -> Prop) d nodes shape (E : list nat -> Prop) :
  (forall P, deg P -> forall m, In m P -> E (snd m)) -> (forall e p, E e -> length p = d -> interpolant nodes shape (mono e) p = mono e p) ->
  reproduces deg d nodes shape.
Proof.
  intros A B P HP p Lp. rewrite interpolant_poly. unfold evalp. apply suml_ext. intros m Hm. rewrite B; eauto.
Qed.
Ltac list_in H := cbn [In] in H; repeat (destruct H as [<-|H]; [|]); try contradiction.
Lemma tri_reproduces s p : root5 s -> (1 <= p <= 3)%nat -> reproduces (total_degree 2 p) 2 (tri_nodes s p) (tri_fn s p).
Proof.
  unfold root5. intros H Hp. apply (reproduces_monos _ _ _ _ (fun e => In e (exps 2 p))).
  - intros P HP m Hm. destruct (HP m Hm). apply exps_in; assumption.
  - intros e [|x [|y [|? ?]]] He L; try discriminate. unfold interpolant. destruct p as [|[|[|[|p]]]]; try lia;
    cbn [exps seq flat_map map app Nat.sub] in He; list_in He;
    cbn [tri_nodes combine tri_fn tri_shape suml fst snd mono pow]; no_inv H; field [H].
Qed.
Lemma tet_reproduces s p : root5 s -> (1 <= p <= 3)%nat -> reproduces (total_degree 3 p) 3 (tet_nodes s p) (tet_fn s p).
Proof.
  unfold root5. intros H Hp. apply (reproduces_monos _ _ _ _ (fun e => In e (exps 3 p))).
  - intros P HP m Hm. destruct (HP m Hm). apply exps_in; assumption.
  - intros e [|x [|y [|z [|? ?]]]] He L; try discriminate. unfold interpolant. destruct p as [|[|[|[|p]]]]; try lia;
    cbn [exps seq flat_map map app Nat.sub] in He; list_in He;
    cbn [tet_nodes combine tet_fn tet_shape suml fst snd mono pow]; no_inv H; field [H].
Qed.
Lemma suml_combine_snd {A} : forall (l : list A) (v : list R), length l = length v -> suml (combine l v) (fun nv => snd nv) = suml v (fun x => x).
Proof. induction l as [|a l IH]; intros [|x v] L; cbn [length] in L; try discriminate; [reflexivity|]. cbn [combine suml snd]. rewrite IH; auto. Qed.
Lemma sums_from_reproduces deg d nodes shape : reproduces deg d nodes shape -> deg [(1, repeat 0%nat d)] -> (forall p, length p = d -> length nodes = length (shape p)) ->
  (forall n, In n nodes -> length n = d) -> sums_to_one d shape.
Proof.
  intros H D L Ln p Lp. specialize (H _ D p Lp). rewrite <- (suml_combine_snd nodes) by (apply L; exact Lp).
  assert (M : forall q, length q = d -> evalp [(1, repeat 0%nat d)] q = 1).
  { intros q Lq. unfold evalp. cbn [suml fst snd]. replace (mono (repeat 0%nat d) q) with 1; [ring|]. clear - Lq. revert q Lq. induction d as [|d IH]; intros [|x q] Lq; cbn [length] in Lq; try discriminate; [reflexivity|].
    cbn [repeat mono pow]. rewrite <- IH by lia. ring. }
  rewrite (M p Lp) in H. rewrite <- H. unfold interpolant. apply suml_ext. intros [n v] Hi. cbn [fst snd]. rewrite M; [ring|]. apply Ln. apply in_combine_l in Hi. exact Hi.
Qed.
Lemma tri_sums s p : root5 s -> (1 <= p <= 3)%nat -> sums_to_one 2 (tri_fn s p).
Proof.
  intros H Hp. apply (sums_from_reproduces _ _ _ _ (tri_reproduces s p H Hp)).
  - intros t [<-|[]]. cbn. lia.
  - intros [|x [|y [|? ?]]] L; try discriminate. destruct p as [|[|[|[|p]]]]; try lia; reflexivity.
  - intros n Hn. destruct p as [|[|[|[|p]]]]; try lia; cbn [tri_nodes] in Hn; list_in Hn; reflexivity.
Qed.
Lemma tet_sums s p : root5 s -> (1 <= p <= 3)%nat -> sums_to_one 3 (tet_fn s p).
Proof.
  intros H Hp. apply (sums_from_reproduces _ _ _ _ (tet_reproduces s p H Hp)).
  - intros t [<-|[]]. cbn. lia.
  - intros [|x [|y [|z [|? ?]]]] L; try discriminate. destruct p as [|[|[|[|p]]]]; try lia; reflexivity.
  - intros n Hn. destruct p as [|[|[|[|p]]]]; try lia; cbn [tet_nodes] in Hn; list_in Hn; reflexivity.
Qed.


(** A symmetric positive definite matrix on which [linear_solve] divides by zero (tuple_tensor_dual_functions.hpp:361-443, modelled in LU.v). *)
From Coq Require Import Reals Lra Lia List.
From Verif Require Import Sums Tensor LU.
Import ListNotations.
Local Open Scope R_scope.

(** rows are ordered by the entries of the original matrix: column 0 picks row 1, column 1 then picks row 2; eliminating
    column 0 from (1, 4, 10) with (2, 8, 4) leaves (0, 0, 8), so the second pivot is 0 *)
Definition spd3 : mat := mat3 1 2 1 2 8 4 1 4 10.

Lemma spd3_symmetric i j : (i < 3)%nat -> (j < 3)%nat -> spd3 i j = spd3 j i.
Proof. intros Hi Hj. destruct i as [|[|[|i]]], j as [|[|[|j]]]; try lia; unfold spd3, mat3; reflexivity. Qed.

Lemma spd3_positive x : (exists i, (i < 3)%nat /\ x i <> 0) -> 0 < sumn 3 (fun i => x i * mvec 3 spd3 x i).
Proof.
  intros [i [Hi N]]. unfold mvec. cbn [sumn]. unfold spd3, mat3.
  set (a := x 0%nat) in *. set (b := x 1%nat) in *. set (c := x 2%nat) in *.
  match goal with |- 0 < ?e => replace e with ((a + 2 * b + c) * (a + 2 * b + c) + (2 * b + c) * (2 * b + c) + 8 * (c * c)) by ring end.
  assert (A1 := Rle_0_sqr (a + 2 * b + c)). assert (A2 := Rle_0_sqr (2 * b + c)). assert (A3 := Rle_0_sqr c). unfold Rsqr in *.
  assert (Z : forall v, v * v = 0 -> v = 0) by (intros v E; apply Rmult_integral in E; tauto).
  destruct (Rle_lt_dec ((a + 2 * b + c) * (a + 2 * b + c) + (2 * b + c) * (2 * b + c) + 8 * (c * c)) 0) as [L|L]; [|exact L].
  exfalso. assert (C := Z c ltac:(lra)). assert (B := Z (2 * b + c) ltac:(lra)). assert (A := Z (a + 2 * b + c) ltac:(lra)).
  apply N. destruct i as [|[|[|i]]]; [change (a = 0); lra|change (b = 0); lra|change (c = 0); lra|lia].
Qed.

Lemma spd3_abs r c : abs (spd3 r c) = spd3 r c.
Proof.
  assert (H : 0 <= spd3 r c) by (unfold spd3, mat3; destruct r as [|[|[|r]]], c as [|[|[|c]]]; lra).
  unfold abs. destruct (Rlt_dec (spd3 r c) 0); [lra|reflexivity].
Qed.

Definition ordered3 : mat := mat3 2 8 4 1 4 10 1 2 1.

Lemma spd3_pivots : forall i j, (i < 3)%nat -> (j < 3)%nat -> snd (pivots 3 spd3) i j = ordered3 i j.
Proof.
  assert (P0 : pivot_row 3 spd3 0 = 1%nat).
  { unfold pivot_row. cbn [seq fold_left fst snd Nat.sub]. rewrite !spd3_abs. unfold spd3, mat3.
    repeat (match goal with |- context [Rlt_dec ?a ?b] => is_real a; destruct (Rlt_dec a b) end; cbn [fst snd] in *; try (exfalso; lra)); reflexivity. }
  set (M1 := swapv spd3 1 0).
  assert (P1 : pivot_row 3 M1 1 = 2%nat).
  { unfold pivot_row, M1, swapv, updv. cbn [seq fold_left fst snd Nat.sub Nat.eqb]. rewrite !spd3_abs. unfold spd3, mat3.
    repeat (match goal with |- context [Rlt_dec ?a ?b] => is_real a; destruct (Rlt_dec a b) end; cbn [fst snd] in *; try (exfalso; lra)); reflexivity. }
  set (M2 := swapv M1 2 1).
  assert (P2 : pivot_row 3 M2 2 = 2%nat) by reflexivity.
  intros i j Hi Hj. unfold pivots. cbn [seq fold_left fst snd]. rewrite P0. fold M1. rewrite P1. fold M2. rewrite P2.
  unfold M2, M1, swapv, updv, ordered3, spd3, mat3. destruct i as [|[|[|i]]], j as [|[|[|j]]]; try lia; cbn [Nat.eqb]; reflexivity.
Qed.

Lemma spd3_fails b : linear_solve 3 spd3 b = None.
Proof.
  unfold linear_solve, factorize_lu. cbv zeta.
  destruct (eliminate 3 (snd (pivots 3 spd3))) as [[L U]|] eqn:E; [|reflexivity].
  exfalso. assert (N1 := eliminate_pivots 3 _ (L, U) E 1%nat ltac:(lia)).
  destruct (eliminate_inv 3 _ (L, U) E) as [Pr Di Up To Ze]. cbn [fst snd] in *.
  assert (Q : forall r c, (r < 3)%nat -> (c < 3)%nat -> L r 0%nat * U 0%nat c + L r 1%nat * U 1%nat c + L r 2%nat * U 2%nat c = ordered3 r c).
  { intros r c Hr Hc. rewrite <- spd3_pivots, <- Pr by assumption. cbn [sumn]. ring. }
  assert (Q00 := Q 0%nat 0%nat ltac:(lia) ltac:(lia)). assert (Q01 := Q 0%nat 1%nat ltac:(lia) ltac:(lia)).
  assert (Q10 := Q 1%nat 0%nat ltac:(lia) ltac:(lia)). assert (Q11 := Q 1%nat 1%nat ltac:(lia) ltac:(lia)).
  assert (L01 := Up 0%nat 1%nat ltac:(lia)). assert (L02 := Up 0%nat 2%nat ltac:(lia)). assert (L12 := Up 1%nat 2%nat ltac:(lia)).
  assert (D0 := Di 0%nat). assert (D1 := Di 1%nat). assert (Z10 := Ze 1%nat 0%nat ltac:(lia) ltac:(lia) ltac:(lia)).
  unfold ordered3, mat3 in *. rewrite L01, L02, D0 in Q00, Q01. rewrite D1, L12 in Q10, Q11. rewrite Z10 in Q10. apply N1.
  assert (U00 : U 0%nat 0%nat = 2) by lra. assert (U01 : U 0%nat 1%nat = 8) by lra. rewrite U00 in Q10. rewrite U01 in Q11. lra.
Qed.

Theorem positive_but_unsolved : exists A : mat,
  (forall i j, (i < 3)%nat -> (j < 3)%nat -> A i j = A j i) /\
  (forall x, (exists i, (i < 3)%nat /\ x i <> 0) -> 0 < sumn 3 (fun i => x i * mvec 3 A x i)) /\
  forall b, linear_solve 3 A b = None.
Proof. exists spd3. split; [exact spd3_symmetric|split; [exact spd3_positive|exact spd3_fails]]. Qed.

(** ** exactly when an answer is produced *)
(** the first [k] rows and columns of [A], with its rows taken in the order [P], send only 0 to 0 *)
Definition leading_regular (P : nat -> nat) (A : mat) (k : nat) : Prop :=
  forall x : vec, (forall i, (i < k)%nat -> sumn k (fun j => A (P i) j * x j) = 0) -> forall j, (j < k)%nat -> x j = 0.

Lemma upper_kernel n U x : (forall r k, (r < n)%nat -> (k < r)%nat -> U r k = 0) -> (forall i, (i < n)%nat -> U i i <> 0) ->
  (forall i, (i < n)%nat -> sumn n (fun j => U i j * x j) = 0) -> forall j, (j < n)%nat -> x j = 0.
Proof.
  intros Lo Nz E. assert (H : forall m j, (n - m <= j < n)%nat -> x j = 0).
  { induction m as [|m IH]; intros j Hj; [lia|]. destruct (PeanoNat.Nat.eq_dec j (n - S m)) as [->|N]; [|apply IH; lia].
    set (i := (n - S m)%nat) in *. assert (Hi : (i < n)%nat) by lia. assert (Ei := E i Hi).
    rewrite (sumn_ext n _ (fun j => if Nat.eqb j i then U i j * x j else 0)) in Ei.
    - rewrite sumn_delta in Ei by exact Hi. apply Rmult_integral in Ei. destruct Ei as [Z|Z]; [now apply Nz in Z|exact Z].
    - intros j Hj'. destruct (PeanoNat.Nat.eqb_spec j i) as [->|Nj]; [reflexivity|].
      destruct (PeanoNat.Nat.lt_ge_cases j i) as [L|L]; [rewrite Lo by assumption; ring|]. rewrite (IH j) by lia. ring. }
  intros j Hj. apply (H n). lia.
Qed.

Lemma lower_kernel n L y : (forall r k, (r < k)%nat -> L r k = 0) -> (forall i, L i i = 1) ->
  (forall i, (i < n)%nat -> sumn n (fun j => L i j * y j) = 0) -> forall j, (j < n)%nat -> y j = 0.
Proof.
  intros Up Di E. assert (H : forall m j, (j < m)%nat -> (j < n)%nat -> y j = 0).
  { induction m as [|m IH]; intros j Hj Hn; [lia|]. destruct (PeanoNat.Nat.eq_dec j m) as [->|N]; [|apply IH; lia].
    assert (Em := E m Hn). rewrite (sumn_ext n _ (fun j => if Nat.eqb j m then L m j * y j else 0)) in Em.
    - rewrite sumn_delta in Em by exact Hn. rewrite Di in Em. lra.
    - intros j Hj'. destruct (PeanoNat.Nat.eqb_spec j m) as [->|Nj]; [reflexivity|].
      destruct (PeanoNat.Nat.lt_ge_cases m j) as [L'|L']; [rewrite Up by assumption; ring|]. rewrite (IH j) by lia. ring. }
  intros j Hj. apply (H (S j)); lia.
Qed.

(** the leading block of a product of a lower matrix with another one *)
Lemma leading_product n L U A x k i : (k <= n)%nat -> (i < k)%nat -> (forall r m, (r < m)%nat -> L r m = 0) ->
  (forall r c, (r < n)%nat -> (c < n)%nat -> sumn n (fun m => L r m * U m c) = A r c) ->
  sumn k (fun j => A i j * x j) = sumn k (fun m => L i m * sumn k (fun j => U m j * x j)).
Proof.
  intros Hk Hi Up Pr. transitivity (sumn k (fun j => sumn k (fun m => L i m * U m j * x j))).
  - apply sumn_ext. intros j Hj. rewrite <- (Pr i j) by lia. replace n with (k + (n - k))%nat by lia. rewrite sumn_app.
    rewrite (sumn_zero (n - k)); [|intros m Hm; rewrite Up by lia; ring]. rewrite Rplus_0_r, <- sumn_scal_r. reflexivity.
  - rewrite sumn_swap. apply sumn_ext. intros m Hm. rewrite <- sumn_scal_l. apply sumn_ext. intros; ring.
Qed.

Lemma upper_singular i U : (forall r k, (r < S i)%nat -> (k < r)%nat -> U r k = 0) -> (forall r, (r < i)%nat -> U r r <> 0) -> U i i = 0 ->
  exists x : vec, x i = 1 /\ forall r, (r < S i)%nat -> sumn (S i) (fun j => U r j * x j) = 0.
Proof.
  intros Lo Nz Z.
  destruct (solve_factors_total i {| lu_P := fun r => r; lu_L := ident; lu_U := U |} (fun r => - U r i)) as [w Ew].
  { cbn [lu_L lu_U]. intros r Hr. split; [unfold ident; rewrite PeanoNat.Nat.eqb_refl; lra|now apply Nz]. }
  unfold solve_factors in Ew. cbn [lu_L lu_U lu_P] in Ew.
  destruct (solve_lower i ident (fun r => - U r i) (fun r => r)) as [y|] eqn:Ey; [|discriminate]. cbn [obind] in Ew.
  assert (Hy : forall r, (r < i)%nat -> y r = - U r i).
  { intros r Hr. assert (H := solve_lower_ok i ident _ _ y Ey ltac:(intros a b H; unfold ident; destruct (PeanoNat.Nat.eqb_spec a b); [lia|reflexivity]) r Hr).
    rewrite <- H. unfold ident. rewrite (sumn_ext i _ (fun k => if Nat.eqb k r then y k else 0)).
    - now rewrite sumn_delta.
    - intros k _. rewrite PeanoNat.Nat.eqb_sym. destruct (Nat.eqb k r); ring. }
  assert (Hw := solve_upper_ok i U y w Ew ltac:(intros; apply Lo; lia)).
  exists (updv w i 1). split; [apply updv_eq|]. intros r Hr. cbn [sumn]. rewrite updv_eq.
  rewrite (sumn_ext i _ (fun k => U r k * w k)) by (intros k Hk; rewrite updv_neq by lia; reflexivity).
  destruct (PeanoNat.Nat.eq_dec r i) as [->|N].
  - rewrite Z, sumn_zero; [ring|]. intros k Hk. rewrite Lo by lia. ring.
  - rewrite Hw, Hy by lia. ring.
Qed.

Lemma eliminate_regular n U0 : (forall k, (k <= n)%nat -> leading_regular (fun i => i) U0 k) ->
  exists LU, eliminate n U0 = Some LU /\ forall i, (i < n)%nat -> snd LU i i <> 0.
Proof.
  intros H. unfold eliminate.
  destruct (loop_total (fun i s => elim_inv n U0 i (S i) s /\ forall k, (k < i)%nat -> snd s k k <> 0)
             (elim_col n) n 0 (ident, U0)) as [s [E [_ H2]]].
  - intros i a Hi [HI Hk]. assert (Nz : snd a i i <> 0).
    { intros Z. destruct HI as [Pr Di Up To Ze]. destruct a as [L U]. cbn [fst snd] in *.
      destruct (upper_singular i U ltac:(intros; apply Ze; lia) Hk Z) as [x [X1 X0]].
      assert (K := H (S i) ltac:(lia) x). assert (x i = 0); [|lra]. apply K; [|lia]. intros r Hr.
      rewrite (leading_product n L U U0 x (S i) r ltac:(lia) Hr Up Pr). apply sumn_zero. intros m Hm. rewrite X0 by exact Hm. ring. }
    destruct (elim_col_total n i a ltac:(lia) Nz) as [a' [E [H1 H2]]]. exists a'. split; [exact E|]. split.
    + apply (elim_col_inv n U0 i a a'); [lia|exact HI|exact E].
    + intros k Hk'. rewrite H2 by lia. destruct (PeanoNat.Nat.eq_dec k i) as [->|N]; [exact Nz|]. apply Hk. lia.
  - split; [|intros; lia]. constructor; cbn [fst snd].
    + intros r c Hr Hc. exact (mmul_ident_l n U0 r c Hr Hc).
    + intros r. unfold ident. now rewrite PeanoNat.Nat.eqb_refl.
    + intros r k Hk. unfold ident. destruct (PeanoNat.Nat.eqb_spec r k); [lia|reflexivity].
    + intros r k Hk _. unfold ident. destruct (PeanoNat.Nat.eqb_spec r k); [lia|reflexivity].
    + intros r k _ H1 H2. lia.
  - exists s. split; [exact E|]. exact H2.
Qed.

(** each exchange brings the largest remaining entry of its column to the diagonal *)
Lemma pivot_row_max n U i r : (i <= r < n)%nat -> abs (U r i) <= abs (U (pivot_row n U i) i).
Proof.
  intros Hr. unfold pivot_row.
  assert (H : forall l mr, fst mr = abs (U (snd mr) i) ->
    let mr' := fold_left (fun mr j => if Rlt_dec (fst mr) (abs (U j i)) then (abs (U j i), j) else mr) l mr in
    fst mr' = abs (U (snd mr') i) /\ fst mr <= fst mr' /\ forall j, In j l -> abs (U j i) <= fst mr').
  { induction l as [|j l IH]; intros mr Hm; cbn [fold_left]; [split; [exact Hm|split; [lra|intros j []]]|].
    destruct (Rlt_dec (fst mr) (abs (U j i))) as [L|L].
    - destruct (IH (abs (U j i), j) eq_refl) as [A [B C]]. cbn [fst] in B. split; [exact A|split; [lra|]].
      intros k [<-|Hk]; [exact B|now apply C].
    - destruct (IH mr Hm) as [A [B C]]. split; [exact A|split; [exact B|]]. intros k [<-|Hk]; [lra|now apply C]. }
  destruct (H (seq (S i) (n - S i)) (abs (U i i), i) eq_refl) as [A [B C]]. rewrite <- A. cbn [fst] in B.
  destruct (PeanoNat.Nat.eq_dec r i) as [->|N]; [exact B|]. apply C. apply in_seq. lia.
Qed.

Lemma pivots_greedy n A : forall i r, (i < r < n)%nat -> abs (snd (pivots n A) r i) <= abs (snd (pivots n A) i i).
Proof.
  unfold pivots.
  assert (H : forall len lo (PU : (nat -> nat) * mat), (lo + len = n)%nat ->
    (forall i r, (i < lo)%nat -> (i < r < n)%nat -> abs (snd PU r i) <= abs (snd PU i i)) ->
    let PU' := fold_left (fun PU i => let r := pivot_row n (snd PU) i in (swapv (fst PU) r i, swapv (snd PU) r i)) (seq lo len) PU in
    forall i r, (i < n)%nat -> (i < r < n)%nat -> abs (snd PU' r i) <= abs (snd PU' i i)).
  { induction len as [|len IH]; intros lo PU E HU; cbn [seq fold_left].
    - intros i r Hi Hr. apply HU; lia.
    - apply IH; [lia|]. cbn [snd]. intros i r Hi Hr.
      assert (R := pivot_row_range n (snd PU) lo ltac:(lia)). set (p := pivot_row n (snd PU) lo) in *.
      assert (Sw : forall k, swapv (snd PU) p lo k = snd PU (if Nat.eqb k lo then p else if Nat.eqb k p then lo else k)).
      { intros k. unfold swapv, updv. destruct (Nat.eqb k lo), (Nat.eqb k p); reflexivity. }
      rewrite !Sw. destruct (PeanoNat.Nat.eq_dec i lo) as [->|N].
      + rewrite PeanoNat.Nat.eqb_refl. apply pivot_row_max.
        destruct (PeanoNat.Nat.eqb_spec r lo); [lia|]. destruct (PeanoNat.Nat.eqb_spec r p); lia.
      + destruct (PeanoNat.Nat.eqb_spec i lo); [lia|]. destruct (PeanoNat.Nat.eqb_spec i p); [lia|]. apply HU; [lia|].
        destruct (PeanoNat.Nat.eqb_spec r lo); [lia|]. destruct (PeanoNat.Nat.eqb_spec r p); lia. }
  intros i r Hr. apply (H n 0%nat (fun i => i, A)); try lia.
Qed.

Theorem solved_exactly n A b : exists P, perm_below n P /\
  (forall i r, (i < r < n)%nat -> Rabs (A (P r) i) <= Rabs (A (P i) i)) /\
  ((exists x, linear_solve n A b = Some x) <-> forall k, (k <= n)%nat -> leading_regular P A k).
Proof.
  exists (fst (pivots n A)). destruct (pivots_ok n A) as [HP HU]. split; [exact HP|]. split.
  { intros i r Hr. assert (G := pivots_greedy n A i r Hr). rewrite !HU, !abs_Rabs in G. exact G. }
  split.
  - intros [x E] k Hk z Hz. unfold linear_solve, factorize_lu in E. cbv zeta in E.
    destruct (eliminate n (snd (pivots n A))) as [[L U]|] eqn:Ee; [|discriminate]. cbn [obind] in E.
    destruct (eliminate_inv n _ (L, U) Ee) as [Pr Di Up To Ze]. cbn [fst snd] in *.
    unfold solve_factors in E. cbn [lu_L lu_U lu_P] in E. destruct (solve_lower n L b (fst (pivots n A))) as [y|]; [|discriminate]. cbn [obind] in E.
    assert (Nz := solve_upper_pivots n U y x E).
    apply (upper_kernel k U); [intros; apply Ze; lia|intros; apply Nz; lia|].
    apply (lower_kernel k L); [exact Up|exact Di|]. intros i Hi.
    rewrite <- (leading_product n L U (snd (pivots n A)) z k i Hk Hi Up Pr). rewrite HU. now apply Hz.
  - intros H. unfold linear_solve, factorize_lu. cbv zeta.
    destruct (eliminate_regular n (snd (pivots n A))) as [LU [E N]].
    + intros k Hk z Hz. apply (H k Hk). intros i Hi. rewrite <- HU. now apply Hz.
    + rewrite E. cbn [obind]. apply solve_factors_total. cbn [lu_L lu_U]. intros i Hi. split; [|now apply N].
      destruct (eliminate_inv n _ LU E) as [_ Di _ _ _]. rewrite Di. lra.
Qed.

(** * LU factorisation and linear solves (C19)

    tuple_tensor_dual_functions.hpp:361-443 (factorize_lu, linear_solve) and tensor.hpp:1486-1638 (triangular solves,
    linear_solve with factors, inv).  Doubles are real numbers; [None] stands for a division by zero, after which the
    code carries infinities or NaNs.  Right-hand sides with several columns are handled column by column by the code's
    row operations, so one column is modelled. *)
From Coq Require Import Reals Lra Lia Bool List.
From Verif Require Import Sums Tensor.
Import ListNotations.
Local Open Scope R_scope.

Definition obind {A B} (x : option A) (f : A -> option B) : option B :=
  match x with Some a => f a | None => None end.

(** [for (int i = lo; i < lo + len; i++) body] *)
Fixpoint loop {S} (len lo : nat) (f : nat -> S -> option S) (s : S) : option S :=
  match len with O => Some s | S k => obind (f lo s) (loop k (Datatypes.S lo) f) end.

Definition odiv (a b : R) : option R := if Req_EM_T b 0 then None else Some (a / b).
Definition updv {A} (y : nat -> A) (i : nat) (v : A) : nat -> A := fun k => if Nat.eqb k i then v else y k.
Definition set2 (M : mat) (i j : nat) (v : R) : mat := updv M i (updv (M i) j v).
Definition swapv {A} (y : nat -> A) (a b : nat) : nat -> A := updv (updv y a (y b)) b (y a).

(** tuple_tensor_dual_functions.hpp:364 the local abs *)
Definition abs (x : R) : R := if Rlt_dec x 0 then - x else x.

(** tuple_tensor_dual_functions.hpp:386-396: row of the largest entry of column [i] on or below the diagonal; the first
    one among equals *)
Definition pivot_row (n : nat) (U : mat) (i : nat) : nat :=
  snd (fold_left (fun mr j => if Rlt_dec (fst mr) (abs (U j i)) then (abs (U j i), j) else mr)
                 (seq (S i) (n - S i)) (abs (U i i), i)).

(** tuple_tensor_dual_functions.hpp:382-400: all row exchanges are made first, on the matrix as given *)
Definition pivots (n : nat) (A : mat) : (nat -> nat) * mat :=
  fold_left (fun PU i => let r := pivot_row n (snd PU) i in (swapv (fst PU) r i, swapv (snd PU) r i))
            (seq 0 n) (fun i => i, A).

(** tuple_tensor_dual_functions.hpp:402-411: elimination *)
Definition elim_row (i j : nat) (LU : mat * mat) : option (mat * mat) :=
  let L := fst LU in let U := snd LU in
  obind (odiv (U j i) (U i i)) (fun c =>
    Some (set2 L j i c, set2 (updv U j (fun k => U j k - c * U i k)) j i 0)).
Definition elim_col (n i : nat) (LU : mat * mat) : option (mat * mat) :=
  loop (n - S i) (S i) (elim_row i) LU.
Definition eliminate (n : nat) (U : mat) : option (mat * mat) := loop n 0 (elim_col n) (ident, U).

Record factors := { lu_P : nat -> nat; lu_L : mat; lu_U : mat }.
Definition factorize_lu (n : nat) (A : mat) : option factors :=
  let PU := pivots n A in
  obind (eliminate n (snd PU)) (fun LU => Some {| lu_P := fst PU; lu_L := fst LU; lu_U := snd LU |}).

(** tensor.hpp:1507-1520 *)
Definition solve_lower (n : nat) (L : mat) (b : vec) (P : nat -> nat) : option vec :=
  loop n 0 (fun i y => obind (odiv (b (P i) - sumn i (fun j => L i j * y j)) (L i i)) (fun v => Some (updv y i v)))
       (fun _ => 0).
(** tensor.hpp:1547-1559: i runs down from n - 1 *)
Definition solve_upper (n : nat) (U : mat) (y : vec) : option vec :=
  loop n 0 (fun k x => let i := (n - 1 - k)%nat in
       obind (odiv (y i - sumn k (fun l => U i (S i + l)%nat * x (S i + l)%nat)) (U i i)) (fun v => Some (updv x i v)))
       (fun _ => 0).
(** tensor.hpp:1565-1575 *)
Definition solve_factors (n : nat) (F : factors) (b : vec) : option vec :=
  obind (solve_lower n (lu_L F) b (lu_P F)) (fun y => solve_upper n (lu_U F) y).
(** tuple_tensor_dual_functions.hpp:419-443 on plain doubles *)
Definition linear_solve (n : nat) (A : mat) (b : vec) : option vec :=
  obind (factorize_lu n A) (fun F => solve_factors n F b).

(** tuple_tensor_dual_functions.hpp:419-443 with derivatives: value A, b and one direction dA, db *)
Definition linear_solve_dual (n : nat) (A dA : mat) (b db : vec) : option (vec * vec) :=
  obind (factorize_lu n A) (fun F => obind (solve_factors n F b) (fun x =>
    obind (solve_factors n F (fun i => db i - mvec n dA x i)) (fun dx => Some (x, dx)))).

(** tensor.hpp:1633-1638: the inverse for n > 3, column [j] solves for column [j] of the identity *)
Definition inv_column (n : nat) (A : mat) (j : nat) : option vec := linear_solve n A (fun i => ident i j).

(** ** loops *)
Lemma loop_inv {S} (Inv : nat -> S -> Prop) f : forall len lo s s',
  (forall i a a', (lo <= i < lo + len)%nat -> Inv i a -> f i a = Some a' -> Inv (Datatypes.S i) a') ->
  Inv lo s -> loop len lo f s = Some s' -> Inv (lo + len)%nat s'.
Proof.
  induction len as [|k IH]; intros lo s s' H I0 E; cbn [loop] in E.
  - injection E as <-. now rewrite PeanoNat.Nat.add_0_r.
  - destruct (f lo s) as [a|] eqn:Ef; [|discriminate]. cbn [obind] in E.
    rewrite <- PeanoNat.Nat.add_succ_comm. apply (IH (Datatypes.S lo) a s'); auto.
    + intros i b b' Hi. apply H. lia.
    + apply (H lo s a); [lia|assumption|assumption].
Qed.

Lemma loop_total {S} (Inv : nat -> S -> Prop) f : forall len lo s,
  (forall i a, (lo <= i < lo + len)%nat -> Inv i a -> exists a', f i a = Some a' /\ Inv (Datatypes.S i) a') ->
  Inv lo s -> exists s', loop len lo f s = Some s' /\ Inv (lo + len)%nat s'.
Proof.
  induction len as [|k IH]; intros lo s H I0; cbn [loop].
  - exists s. now rewrite PeanoNat.Nat.add_0_r.
  - destruct (H lo s ltac:(lia) I0) as [a [-> Ia]]. cbn [obind]. rewrite <- PeanoNat.Nat.add_succ_comm.
    apply IH; auto. intros i b Hi. apply H. lia.
Qed.

Lemma updv_eq {A} (y : nat -> A) i v : updv y i v i = v.
Proof. unfold updv. now rewrite PeanoNat.Nat.eqb_refl. Qed.
Lemma updv_neq {A} (y : nat -> A) i v k : k <> i -> updv y i v k = y k.
Proof. intros H. unfold updv. destruct (PeanoNat.Nat.eqb_spec k i); [contradiction|reflexivity]. Qed.
Lemma set2_eq M i j v : set2 M i j v i j = v.
Proof. unfold set2. now rewrite updv_eq, updv_eq. Qed.
Lemma set2_row M i j v r c : r <> i -> set2 M i j v r c = M r c.
Proof. intros H. unfold set2. now rewrite updv_neq. Qed.
Lemma set2_col M i j v c : c <> j -> set2 M i j v i c = M i c.
Proof. intros H. unfold set2. now rewrite updv_eq, updv_neq. Qed.
Lemma odiv_some a b c : odiv a b = Some c -> b <> 0 /\ c = a / b.
Proof. unfold odiv. destruct (Req_EM_T b 0); [discriminate|]. intros E; injection E as <-; auto. Qed.
Lemma odiv_ok a b : b <> 0 -> odiv a b = Some (a / b).
Proof. unfold odiv. destruct (Req_EM_T b 0); [contradiction|reflexivity]. Qed.

(** ** the exchanges permute the rows *)
Lemma pivot_row_range n U i : (i < n)%nat -> (i <= pivot_row n U i < n)%nat.
Proof.
  intros Hi. unfold pivot_row.
  assert (H : forall l mr, (forall j, In j l -> (i <= j < n)%nat) -> (i <= snd mr < n)%nat ->
    (i <= snd (fold_left (fun mr j => if Rlt_dec (fst mr) (abs (U j i)) then (abs (U j i), j) else mr) l mr) < n)%nat).
  { induction l as [|j l IH]; intros mr Hl Hm; cbn [fold_left]; [exact Hm|]. apply IH.
    - intros k Hk; apply Hl; now right.
    - destruct (Rlt_dec (fst mr) (abs (U j i))); [apply Hl; now left|exact Hm]. }
  apply H; [|simpl; lia]. intros j Hj. apply in_seq in Hj. lia.
Qed.

Lemma swapv_comp {A B} (y : nat -> A) (P : nat -> nat) (f : A -> B) a b k :
  f (swapv y a b k) = swapv (fun i => f (y i)) a b k.
Proof. unfold swapv, updv. destruct (Nat.eqb k b), (Nat.eqb k a); reflexivity. Qed.

Definition perm_below (n : nat) (P : nat -> nat) : Prop :=
  (forall i, (i < n)%nat -> (P i < n)%nat) /\ (forall r, (r < n)%nat -> exists i, (i < n)%nat /\ P i = r).

Lemma swapv_perm n P a b : (a < n)%nat -> (b < n)%nat -> perm_below n P -> perm_below n (swapv P a b).
Proof.
  intros Ha Hb [H1 H2]. split.
  - intros i Hi. unfold swapv, updv. destruct (Nat.eqb i b), (Nat.eqb i a); auto.
  - intros r Hr. destruct (H2 r Hr) as [i [Hi E]].
    destruct (PeanoNat.Nat.eq_dec i a) as [->|Na]; [|destruct (PeanoNat.Nat.eq_dec i b) as [->|Nb]].
    + exists b. split; [exact Hb|]. unfold swapv. now rewrite updv_eq.
    + exists a. split; [exact Ha|]. unfold swapv. destruct (PeanoNat.Nat.eq_dec a b) as [->|N].
      * now rewrite updv_eq.
      * rewrite updv_neq by exact N. now rewrite updv_eq.
    + exists i. split; [exact Hi|]. unfold swapv. now rewrite !updv_neq.
Qed.

Lemma pivots_ok n A : let PU := pivots n A in perm_below n (fst PU) /\ forall i, snd PU i = A (fst PU i).
Proof.
  unfold pivots.
  assert (H : forall l PU, (forall i, In i l -> (i < n)%nat) -> perm_below n (fst PU) -> (forall i, snd PU i = A (fst PU i)) ->
    let PU' := fold_left (fun PU i => let r := pivot_row n (snd PU) i in (swapv (fst PU) r i, swapv (snd PU) r i)) l PU in
    perm_below n (fst PU') /\ forall i, snd PU' i = A (fst PU' i)).
  { induction l as [|i l IH]; intros PU Hl HP HU; cbn [fold_left]; [now split|]. apply IH.
    - intros k Hk; apply Hl; now right.
    - cbn [fst snd]. assert (Hi : (i < n)%nat) by (apply Hl; now left). apply swapv_perm; auto.
      apply pivot_row_range; exact Hi.
    - cbn [fst snd]. intros k. unfold swapv, updv. destruct (Nat.eqb k i), (Nat.eqb k (pivot_row n (snd PU) i)); auto. }
  apply H; cbn [fst snd]; auto.
  - intros i Hi. apply in_seq in Hi. lia.
  - split; auto. intros r Hr. now exists r.
Qed.

(** ** elimination keeps L U *)
(** columns before [i] are finished, and in column [i] the rows before [j] *)
Record elim_inv (n : nat) (A : mat) (i j : nat) (LU : mat * mat) : Prop := {
  ei_prod : forall r c, (r < n)%nat -> (c < n)%nat -> sumn n (fun k => fst LU r k * snd LU k c) = A r c;
  ei_diag : forall r, fst LU r r = 1;
  ei_up : forall r k, (r < k)%nat -> fst LU r k = 0;
  ei_todo : forall r k, r <> k -> (i < k \/ (k = i /\ j <= r))%nat -> fst LU r k = 0;
  ei_zero : forall r k, (r < n)%nat -> (k < r)%nat -> (k < i \/ (k = i /\ r < j))%nat -> snd LU r k = 0
}.

Lemma sumn_two n f g p q : (p < n)%nat -> (q < n)%nat -> p <> q ->
  (forall k, (k < n)%nat -> k <> p -> k <> q -> f k = g k) -> f p + f q = g p + g q -> sumn n f = sumn n g.
Proof.
  intros Hp Hq N H E.
  assert (D : forall h, sumn n (fun k => (if Nat.eqb k p then h k else 0) + (if Nat.eqb k q then h k else 0)) = h p + h q).
  { intros h. rewrite sumn_plus, !sumn_delta by assumption. reflexivity. }
  assert (Z : sumn n (fun k => f k - g k) = 0).
  { rewrite (sumn_ext n _ (fun k => (if Nat.eqb k p then f k - g k else 0) + (if Nat.eqb k q then f k - g k else 0))).
    - rewrite (D (fun k => f k - g k)). lra.
    - intros k Hk. destruct (PeanoNat.Nat.eqb_spec k p), (PeanoNat.Nat.eqb_spec k q); subst; try lia; try lra.
      rewrite H by assumption. lra. }
  rewrite sumn_minus in Z. lra.
Qed.

Lemma elim_row_inv n A i j LU LU' : (i < j < n)%nat -> elim_inv n A i j LU -> elim_row i j LU = Some LU' ->
  elim_inv n A i (S j) LU' /\ snd LU i i <> 0 /\ snd LU' i = snd LU i.
Proof.
  intros Hij [Pr Di Up To Ze] E. unfold elim_row in E. destruct LU as [L U]. cbn [fst snd] in *.
  destruct (odiv (U j i) (U i i)) as [c|] eqn:Ec; [|discriminate]. cbn [obind] in E. injection E as <-.
  destruct (odiv_some _ _ _ Ec) as [Nz Hc]. split; [|split; [exact Nz|]].
  2:{ cbn [snd]. unfold set2. rewrite !updv_neq by lia. reflexivity. }
  assert (Lij : L j i = 0) by (apply To; lia).
  assert (Unew : forall k, set2 (updv U j (fun k => U j k - c * U i k)) j i 0 j k = U j k - c * U i k).
  { intros k. unfold set2. rewrite updv_eq. destruct (PeanoNat.Nat.eq_dec k i) as [->|N].
    - rewrite updv_eq, Hc. field. exact Nz.
    - rewrite updv_neq by exact N. now rewrite updv_eq. }
  assert (Uold : forall r k, r <> j -> set2 (updv U j (fun k => U j k - c * U i k)) j i 0 r k = U r k).
  { intros r k N. rewrite set2_row by exact N. now rewrite updv_neq. }
  constructor; cbn [fst snd].
  - intros r k Hr Hk. rewrite <- (Pr r k Hr Hk). destruct (PeanoNat.Nat.eq_dec r j) as [->|N].
    + apply (sumn_two n _ _ i j); try lia.
      * intros q Hq Ni Nj. now rewrite set2_col, Uold by assumption.
      * rewrite set2_eq, set2_col, Di, Lij, Unew, Uold by lia. ring.
    + apply sumn_ext. intros q Hq. rewrite set2_row by exact N. destruct (PeanoNat.Nat.eq_dec q j) as [->|Nq].
      * rewrite (To r j N) by (left; lia). ring.
      * now rewrite Uold.
  - intros r. destruct (PeanoNat.Nat.eq_dec r j) as [->|N]; [rewrite set2_col by lia|rewrite set2_row by exact N]; apply Di.
  - intros r k Hk. destruct (PeanoNat.Nat.eq_dec r j) as [->|N]; [rewrite set2_col by lia|rewrite set2_row by exact N]; apply Up; lia.
  - intros r k Nrk Hk. destruct (PeanoNat.Nat.eq_dec r j) as [->|N]; [rewrite set2_col by lia|rewrite set2_row by exact N];
      apply To; lia.
  - intros r k Hr Hk Hd. destruct (PeanoNat.Nat.eq_dec r j) as [->|N].
    + destruct (PeanoNat.Nat.eq_dec k i) as [->|Nk]; [apply set2_eq|].
      rewrite Unew. rewrite (Ze j k), (Ze i k) by lia. ring.
    + rewrite Uold by exact N. apply Ze; lia.
Qed.

Lemma elim_next n A i LU : elim_inv n A i n LU -> elim_inv n A (S i) (S (S i)) LU.
Proof.
  intros [Pr Di Up To Ze]. constructor; auto.
  - intros r k Nk Hk. destruct (PeanoNat.Nat.lt_ge_cases r k); [now apply Up|]. apply To; lia.
  - intros r k Hr Hk Hd. apply Ze; lia.
Qed.

Lemma elim_col_inv n A i LU LU' : (i < n)%nat -> elim_inv n A i (S i) LU -> elim_col n i LU = Some LU' ->
  elim_inv n A (S i) (S (S i)) LU'.
Proof.
  intros Hi HI E. apply elim_next. replace n with (S i + (n - S i))%nat at 2 by lia. unfold elim_col in E.
  refine (loop_inv (fun j s => elim_inv n A i j s) (elim_row i) (n - S i) (S i) LU LU' _ HI E).
  intros j a a' Hj Ha Ea. destruct (elim_row_inv n A i j a a') as [H _]; auto. lia.
Qed.

Lemma eliminate_inv n A LU : eliminate n A = Some LU -> elim_inv n A n (S n) LU.
Proof.
  intros E. unfold eliminate in E. change n with (0 + n)%nat at 2 3.
  refine (loop_inv (fun i s => elim_inv n A i (S i) s) (elim_col n) n 0 (ident, A) LU _ _ E).
  - intros i a a' Hi Ha Ea. apply (elim_col_inv n A i a a'); auto; lia.
  - constructor; cbn [fst snd].
    + intros r c Hr Hc. exact (mmul_ident_l n A r c Hr Hc).
    + intros r. unfold ident. now rewrite PeanoNat.Nat.eqb_refl.
    + intros r k H. unfold ident. destruct (PeanoNat.Nat.eqb_spec r k); [lia|reflexivity].
    + intros r k H _. unfold ident. destruct (PeanoNat.Nat.eqb_spec r k); [lia|reflexivity].
    + intros r k _ H1 H2. lia.
Qed.

(** ** triangular solves *)
Lemma solve_lower_ok n L b P y : solve_lower n L b P = Some y ->
  (forall r k, (r < k)%nat -> L r k = 0) -> forall i, (i < n)%nat -> sumn n (fun k => L i k * y k) = b (P i).
Proof.
  intros E Up.
  assert (H : (forall i, (i < n)%nat -> sumn (S i) (fun k => L i k * y k) = b (P i)) /\ forall k, (n <= k)%nat -> y k = 0).
  { change n with (0 + n)%nat. unfold solve_lower in E.
    refine (loop_inv (fun m y => (forall i, (i < m)%nat -> sumn (S i) (fun k => L i k * y k) = b (P i)) /\
              forall k, (m <= k)%nat -> y k = 0) _ n 0 (fun _ => 0) y _ _ E).
    - intros i a a' Hi [Ha1 Ha2] Ea. destruct (odiv _ (L i i)) as [v|] eqn:Ev; [|discriminate]. cbn [obind] in Ea.
      injection Ea as <-. destruct (odiv_some _ _ _ Ev) as [Nz Hv]. split.
      + intros r Hr. destruct (PeanoNat.Nat.eq_dec r i) as [->|N].
        * cbn [sumn]. rewrite updv_eq, Hv.
          rewrite (sumn_ext i _ (fun k => L i k * a k)).
          -- field. exact Nz.
          -- intros k Hk. rewrite updv_neq by lia. reflexivity.
        * rewrite <- (Ha1 r) by lia. apply sumn_ext. intros k Hk. rewrite updv_neq by lia. reflexivity.
      + intros k Hk. rewrite updv_neq by lia. apply Ha2. lia.
    - split; [lia|reflexivity]. }
  destruct H as [H _]. intros i Hi. rewrite <- (H i Hi). replace n with (S i + (n - S i))%nat by lia. rewrite sumn_app.
  rewrite (sumn_zero (n - S i)); [ring|]. intros k Hk. rewrite Up by lia. ring.
Qed.

Lemma solve_upper_ok n U y x : solve_upper n U y = Some x ->
  (forall r k, (r < n)%nat -> (k < r)%nat -> U r k = 0) ->
  forall i, (i < n)%nat -> sumn n (fun k => U i k * x k) = y i.
Proof.
  intros E Lo.
  assert (H : forall i, (n - n <= i < n)%nat -> sumn (n - S i) (fun l => U i (S i + l)%nat * x (S i + l)%nat) + U i i * x i = y i).
  { change n with (0 + n)%nat at 2. unfold solve_upper in E.
    refine (loop_inv (fun m x => forall i, (n - m <= i < n)%nat ->
       sumn (n - S i) (fun l => U i (S i + l)%nat * x (S i + l)%nat) + U i i * x i = y i) _ n 0 (fun _ => 0) x _ _ E).
    - intros k a a' Hk Ha Ea. cbv zeta in Ea. set (i := (n - 1 - k)%nat) in *.
      destruct (odiv _ (U i i)) as [v|] eqn:Ev; [|discriminate]. cbn [obind] in Ea.
      injection Ea as <-. destruct (odiv_some _ _ _ Ev) as [Nz Hv]. intros r Hr.
      destruct (PeanoNat.Nat.eq_dec r i) as [->|N].
      + rewrite updv_eq, Hv. replace (n - S i)%nat with k by lia.
        rewrite (sumn_ext k _ (fun l => U i (S i + l)%nat * a (S i + l)%nat)).
        * field. exact Nz.
        * intros l Hl. rewrite updv_neq by lia. reflexivity.
      + rewrite <- (Ha r) by lia. rewrite updv_neq by exact N. f_equal. apply sumn_ext. intros l Hl.
        rewrite updv_neq by lia. reflexivity.
    - intros i Hi. lia. }
  intros i Hi. rewrite <- (H i) by lia. replace n with (i + (1 + (n - S i)))%nat at 1 by lia.
  rewrite sumn_app, sumn_app. rewrite (sumn_zero i).
  2:{ intros k Hk. rewrite Lo by lia. ring. }
  cbn [sumn]. rewrite PeanoNat.Nat.add_0_r.
  rewrite (sumn_ext (n - S i) _ (fun l => U i (S i + l)%nat * x (S i + l)%nat)); [ring|].
  intros l _. replace (i + (1 + l))%nat with (S i + l)%nat by lia. reflexivity.
Qed.

(** ** a finite answer is a solution *)
Lemma solve_factors_ok n A F b x : factorize_lu n A = Some F -> solve_factors n F b = Some x ->
  forall i, (i < n)%nat -> mvec n A x i = b i.
Proof.
  intros EF Ex. unfold factorize_lu in EF. destruct (pivots_ok n A) as [[Pin Pon] HU].
  destruct (pivots n A) as [P U0]. cbn [fst snd] in *.
  destruct (eliminate n U0) as [[L U]|] eqn:Ee; [|discriminate]. cbn [obind fst snd] in EF. injection EF as <-.
  destruct (eliminate_inv n U0 (L, U) Ee) as [Pr Di Up To Ze]. cbn [fst snd] in *.
  unfold solve_factors in Ex. cbn [lu_L lu_P lu_U] in Ex.
  destruct (solve_lower n L b P) as [y|] eqn:Ey; [|discriminate]. cbn [obind] in Ex.
  assert (HL := solve_lower_ok n L b P y Ey Up).
  assert (HX := solve_upper_ok n U y x Ex ltac:(intros; apply Ze; lia)).
  intros r Hr. destruct (Pon r Hr) as [i [Hi <-]]. rewrite <- (HL i Hi). unfold mvec. rewrite <- HU.
  rewrite (sumn_ext n _ (fun c => sumn n (fun k => L i k * U k c * x c))).
  2:{ intros c Hc. rewrite <- (Pr i c Hi Hc). now rewrite sumn_scal_r. }
  rewrite sumn_swap. apply sumn_ext. intros k Hk. rewrite <- (HX k Hk), <- sumn_scal_l. apply sumn_ext. intros; ring.
Qed.

Theorem linear_solve_ok n A b x : linear_solve n A b = Some x -> forall i, (i < n)%nat -> mvec n A x i = b i.
Proof.
  intros E. unfold linear_solve in E. destruct (factorize_lu n A) as [F|] eqn:EF; [|discriminate].
  exact (solve_factors_ok n A F b x EF E).
Qed.

Theorem linear_solve_dual_ok n A dA b db x dx : linear_solve_dual n A dA b db = Some (x, dx) ->
  linear_solve n A b = Some x /\
  (forall i, (i < n)%nat -> mvec n A x i = b i) /\
  (forall i, (i < n)%nat -> mvec n A dx i + mvec n dA x i = db i).
Proof.
  intros E. unfold linear_solve_dual, linear_solve in *. destruct (factorize_lu n A) as [F|] eqn:EF; [|discriminate].
  cbn [obind] in *. destruct (solve_factors n F b) as [x'|] eqn:Ex; [|discriminate]. cbn [obind] in E.
  destruct (solve_factors n F (fun i => db i - mvec n dA x' i)) as [dx'|] eqn:Ed; [|discriminate]. cbn [obind] in E.
  injection E as <- <-.
  split; [reflexivity|]. split; [exact (solve_factors_ok n A F b x' EF Ex)|].
  intros i Hi. rewrite (solve_factors_ok n A F _ dx' EF Ed i Hi). ring.
Qed.

(** the answer does not depend on the right-hand side being solvable: success depends on A only *)
Lemma solve_factors_total n F b : (forall i, (i < n)%nat -> lu_L F i i <> 0 /\ lu_U F i i <> 0) ->
  exists x, solve_factors n F b = Some x.
Proof.
  intros H. unfold solve_factors.
  destruct (loop_total (fun _ _ => True) (fun i y => obind (odiv (b (lu_P F i) - sumn i (fun j => lu_L F i j * y j)) (lu_L F i i))
     (fun v => Some (updv y i v))) n 0 (fun _ => 0)) as [y [Ey _]]; auto.
  { intros i a Hi _. rewrite odiv_ok by (apply H; lia). cbn [obind]. eauto. }
  unfold solve_lower. rewrite Ey. cbn [obind]. unfold solve_upper.
  destruct (loop_total (fun _ _ => True) (fun k x => let i := (n - 1 - k)%nat in
       obind (odiv (y i - sumn k (fun l => lu_U F i (S i + l)%nat * x (S i + l)%nat)) (lu_U F i i)) (fun v => Some (updv x i v)))
     n 0 (fun _ => 0)) as [x [Ex _]]; auto.
  { intros i a Hi _. cbv zeta. rewrite odiv_ok by (apply H; lia). cbn [obind]. eauto. }
  exists x. exact Ex.
Qed.

(** success of [linear_solve] on one right-hand side means success on all *)
Lemma solve_upper_pivots n U y x : solve_upper n U y = Some x -> forall i, (i < n)%nat -> U i i <> 0.
Proof.
  intros E i Hi. unfold solve_upper in E.
  assert (H : forall i, (n - n <= i < n)%nat -> U i i <> 0).
  { change n with (0 + n)%nat at 2.
    refine (loop_inv (fun m (_ : vec) => forall i, (n - m <= i < n)%nat -> U i i <> 0) _ n 0 (fun _ => 0) x _ _ E).
    - intros k a a' Hk Ha Ea. cbv zeta in Ea. destruct (odiv _ (U (n - 1 - k)%nat (n - 1 - k)%nat)) as [v|] eqn:Ev; [|discriminate].
      destruct (odiv_some _ _ _ Ev) as [Nz _]. intros r Hr. destruct (PeanoNat.Nat.eq_dec r (n - 1 - k)%nat) as [->|N]; [exact Nz|].
      apply Ha. lia.
    - intros; lia. }
  apply H. lia.
Qed.

Lemma linear_solve_any_rhs n A b x b' : linear_solve n A b = Some x -> exists x', linear_solve n A b' = Some x'.
Proof.
  intros E. unfold linear_solve in *. destruct (factorize_lu n A) as [F|] eqn:EF; [|discriminate]. cbn [obind] in *.
  apply solve_factors_total. intros i Hi. split.
  - unfold factorize_lu in EF. cbv zeta in EF. destruct (eliminate n (snd (pivots n A))) as [[L U]|] eqn:Ee; [|discriminate].
    cbn [obind fst snd] in EF. injection EF as <-. destruct (eliminate_inv n _ (L, U) Ee) as [_ Di _ _ _]. cbn [lu_L fst] in *.
    rewrite Di. lra.
  - unfold solve_factors in E. destruct (solve_lower n (lu_L F) b (lu_P F)) as [y|]; [|discriminate]. cbn [obind] in E.
    exact (solve_upper_pivots n (lu_U F) y x E i Hi).
Qed.

(** the inverse for n > 3: columns assembled from the solves are a right inverse *)
Lemma inv_columns n A B : (forall j, (j < n)%nat -> inv_column n A j = Some (fun i => B i j)) -> meq n (mmul n A B) ident.
Proof. intros H i j Hi Hj. exact (linear_solve_ok n A _ _ (H j Hj) i Hi). Qed.

(** a zero pivot in the factorised matrix for an invertible matrix *)
Definition bad3 : mat := mat3 1 1 0 1 1 1 0 1 0.

Lemma bad3_invertible : det3 bad3 <> 0 /\ exists B, inv3 bad3 = Some B.
Proof.
  assert (D : det3 bad3 = -1) by (unfold det3, bad3, mat3; ring).
  split; [lra|]. apply inv3_defined. lra.
Qed.

Ltac is_real a := lazymatch a with context [Rlt_dec] => fail | _ => idtac end.

Lemma bad3_abs r c : abs (bad3 r c) = bad3 r c.
Proof.
  assert (H : 0 <= bad3 r c) by (unfold bad3, mat3; destruct r as [|[|r]], c as [|[|c]]; lra).
  unfold abs. destruct (Rlt_dec (bad3 r c) 0); [lra|reflexivity].
Qed.

Lemma bad3_pivots : forall i j, snd (pivots 3 bad3) i j = bad3 i j.
Proof.
  intros i j. unfold pivots. cbn [seq fold_left].
  assert (S0 : forall (M : mat) a k, swapv M a a k = M k).
  { intros M a k. unfold swapv, updv. destruct (PeanoNat.Nat.eqb_spec k a) as [->|]; [reflexivity|reflexivity]. }
  assert (R : forall M i, (forall r c, M r c = bad3 r c) -> (i < 3)%nat -> pivot_row 3 M i = i).
  { intros M k HM Hk. unfold pivot_row. small; cbn [seq fold_left fst snd Nat.sub]; rewrite ?HM, ?bad3_abs;
      unfold bad3, mat3;
      repeat (match goal with |- context [Rlt_dec ?a ?b] => is_real a; destruct (Rlt_dec a b) end; cbn [fst snd] in *;
              try (exfalso; lra)); reflexivity. }
  assert (M0 : forall r c, bad3 r c = bad3 r c) by reflexivity.
  cbn [fst snd]. rewrite (R bad3 0%nat M0) by lia.
  assert (M1 : forall r c, swapv bad3 0 0 r c = bad3 r c) by (intros; now rewrite S0).
  rewrite (R (swapv bad3 0 0) 1%nat M1) by lia.
  assert (M2 : forall r c, swapv (swapv bad3 0 0) 1 1 r c = bad3 r c) by (intros; now rewrite !S0).
  rewrite (R _ 2%nat M2) by lia. now rewrite !S0.
Qed.

Lemma elim_row_rows i j LU LU' : elim_row i j LU = Some LU' ->
  snd LU i i <> 0 /\ forall r, r <> j -> snd LU' r = snd LU r.
Proof.
  intros E. unfold elim_row in E. destruct (odiv (snd LU j i) (snd LU i i)) as [c|] eqn:Ec; [|discriminate].
  cbn [obind] in E. injection E as <-. destruct (odiv_some _ _ _ Ec) as [Nz _]. split; [exact Nz|].
  intros r N. cbn [snd]. unfold set2. now rewrite !updv_neq.
Qed.

Lemma elim_col_rows n i LU LU' : elim_col n i LU = Some LU' ->
  ((S i < n)%nat -> snd LU i i <> 0) /\ forall r, (r <= i)%nat -> snd LU' r = snd LU r.
Proof.
  intros E. unfold elim_col in E. split.
  - intros Hn. destruct (n - S i)%nat as [|m] eqn:Em; [lia|]. cbn [loop] in E.
    destruct (elim_row i (S i) LU) as [a|] eqn:Ea; [|discriminate]. now apply (elim_row_rows i (S i) LU a).
  - refine (loop_inv (fun _ s => forall r, (r <= i)%nat -> snd s r = snd LU r) _ _ _ LU LU' _ _ E); [|reflexivity].
    intros j a a' Hj Ha Ea r Hr. rewrite <- Ha by exact Hr. apply (elim_row_rows i j a a' Ea). lia.
Qed.

Lemma eliminate_pivots n A LU : eliminate n A = Some LU -> forall i, (S i < n)%nat -> snd LU i i <> 0.
Proof.
  intros E i Hi. unfold eliminate in E.
  assert (H : forall i, (i < 0 + n)%nat -> (S i < n)%nat -> snd LU i i <> 0).
  { refine (loop_inv (fun m s => forall i, (i < m)%nat -> (S i < n)%nat -> snd s i i <> 0) _ n 0 (ident, A) LU _ _ E); [|lia].
    intros k a a' Hk Ha Ea r Hr Hn. destruct (elim_col_rows n k a a' Ea) as [H1 H2].
    destruct (PeanoNat.Nat.eq_dec r k) as [->|N]; [rewrite H2 by lia; auto|]. rewrite H2 by lia. apply Ha; lia. }
  apply H; lia.
Qed.

Lemma bad3_fails b : linear_solve 3 bad3 b = None.
Proof.
  unfold linear_solve, factorize_lu. cbv zeta.
  destruct (eliminate 3 (snd (pivots 3 bad3))) as [[L U]|] eqn:E; [|reflexivity].
  exfalso. assert (N1 := eliminate_pivots 3 _ (L, U) E 1%nat ltac:(lia)).
  destruct (eliminate_inv 3 _ (L, U) E) as [Pr Di Up To Ze]. cbn [fst snd] in *.
  assert (Q : forall r c, (r < 3)%nat -> (c < 3)%nat -> L r 0%nat * U 0%nat c + L r 1%nat * U 1%nat c + L r 2%nat * U 2%nat c = bad3 r c).
  { intros r c Hr Hc. rewrite <- bad3_pivots, <- Pr by assumption. cbn [sumn]. ring. }
  assert (Q00 := Q 0%nat 0%nat ltac:(lia) ltac:(lia)). assert (Q01 := Q 0%nat 1%nat ltac:(lia) ltac:(lia)).
  assert (Q10 := Q 1%nat 0%nat ltac:(lia) ltac:(lia)). assert (Q11 := Q 1%nat 1%nat ltac:(lia) ltac:(lia)).
  assert (L01 := Up 0%nat 1%nat ltac:(lia)). assert (L02 := Up 0%nat 2%nat ltac:(lia)). assert (L12 := Up 1%nat 2%nat ltac:(lia)).
  assert (D0 := Di 0%nat). assert (D1 := Di 1%nat). assert (Z10 := Ze 1%nat 0%nat ltac:(lia) ltac:(lia) ltac:(lia)).
  unfold bad3, mat3 in *. rewrite L01, L02, D0 in Q00, Q01. rewrite D1, L12 in Q10, Q11. rewrite Z10 in Q10. apply N1. nra.
Qed.

(** ** 2x2: every invertible matrix is solved *)
Lemma pivots_2 A : exists a b c d, (forall i j, (i < 2)%nat -> (j < 2)%nat -> snd (pivots 2 A) i j = mat2 a b c d i j) /\
  abs c <= abs a /\ (a * d - b * c = det2 A \/ a * d - b * c = - det2 A).
Proof.
  unfold pivots. cbn [seq fold_left fst snd].
  assert (R1 : forall M, pivot_row 2 M 1 = 1%nat) by reflexivity. rewrite R1.
  set (r := pivot_row 2 A 0).
  assert (Hr : (r = 0%nat /\ abs (A 1%nat 0%nat) <= abs (A 0%nat 0%nat)) \/ (r = 1%nat /\ abs (A 0%nat 0%nat) < abs (A 1%nat 0%nat))).
  { unfold r, pivot_row. cbn [seq fold_left fst snd Nat.sub]. destruct (Rlt_dec (abs (A 0%nat 0%nat)) (abs (A 1%nat 0%nat))).
    - right; split; [reflexivity|assumption].
    - left; split; [reflexivity|]. lra. }
  destruct Hr as [[-> H]|[-> H]].
  - exists (A 0 0)%nat, (A 0 1)%nat, (A 1 0)%nat, (A 1 1)%nat. split; [|split; [lra|left; unfold det2; ring]].
    intros i j Hi Hj. small; reflexivity.
  - exists (A 1 0)%nat, (A 1 1)%nat, (A 0 0)%nat, (A 0 1)%nat. split; [|split; [lra|right; unfold det2; ring]].
    intros i j Hi Hj. small; reflexivity.
Qed.

Lemma abs_zero_le a c : abs c <= abs a -> a = 0 -> c = 0.
Proof. unfold abs. destruct (Rlt_dec c 0), (Rlt_dec a 0); lra. Qed.

Theorem linear_solve_2 A b : det2 A <> 0 -> exists x, linear_solve 2 A b = Some x /\
  (forall i, (i < 2)%nat -> mvec 2 A x i = b i).
Proof.
  intros D. assert (S : exists x, linear_solve 2 A b = Some x).
  { destruct (pivots_2 A) as [p [q [r [s [HU [Ha Hd]]]]]].
    assert (Np : p <> 0).
    { intros Z. assert (r = 0) by now apply (abs_zero_le p r). subst. destruct Hd as [Hd|Hd]; apply D; lra. }
    unfold linear_solve, factorize_lu. cbv zeta. unfold eliminate. cbn [loop]. unfold elim_col at 1. cbn [Nat.sub loop].
    unfold elim_row at 1. cbn [fst snd]. rewrite !HU by lia. cbn [mat2].
    rewrite odiv_ok by exact Np. cbn [obind]. unfold elim_col at 1. cbn [Nat.sub loop obind].
    apply solve_factors_total. cbn [lu_L lu_U fst snd]. intros i Hi. small.
    - split; unfold set2, updv, ident; cbn [Nat.eqb]; [lra|]. rewrite HU by lia. exact Np.
    - split; unfold set2, updv, ident; cbn [Nat.eqb]; [lra|]. rewrite !HU by lia. cbn [mat2].
      intros Z. assert (E : p * s - q * r = 0).
      { replace (p * s - q * r) with (p * (s - r / p * q)) by (field; exact Np). rewrite Z. ring. }
      destruct Hd as [Hd|Hd]; apply D; lra. }
  destruct S as [x E]. exists x. split; [exact E|]. exact (linear_solve_ok 2 A b x E).
Qed.

(** ** strictly column diagonally dominant matrices of any size are solved *)
Definition col_dominant (n : nat) (A : mat) : Prop :=
  forall j, (j < n)%nat -> sumn n (fun i => if Nat.eqb i j then 0 else Rabs (A i j)) < Rabs (A j j).

Lemma Rabs_div a b : b <> 0 -> Rabs (a / b) = Rabs a / Rabs b.
Proof. intros H. unfold Rdiv. rewrite Rabs_mult. f_equal. now apply Rabs_Rinv. Qed.

Lemma abs_Rabs x : abs x = Rabs x.
Proof. unfold abs, Rabs. destruct (Rlt_dec x 0), (Rcase_abs x); lra. Qed.

Lemma sumn_term n f k : (forall i, (i < n)%nat -> 0 <= f i) -> (k < n)%nat -> f k <= sumn n f.
Proof.
  intros H Hk. rewrite <- (sumn_delta n k f Hk). apply sumn_le. intros i Hi. destruct (Nat.eqb i k); [lra|now apply H].
Qed.

Lemma dominant_largest n A i r : col_dominant n A -> (i < n)%nat -> (r < n)%nat -> Rabs (A r i) <= Rabs (A i i).
Proof.
  intros H Hi Hr. destruct (PeanoNat.Nat.eq_dec r i) as [->|N]; [lra|].
  assert (K := H i Hi).
  assert (T := sumn_term n (fun r => if Nat.eqb r i then 0 else Rabs (A r i)) r).
  cbv beta in T. destruct (PeanoNat.Nat.eqb_spec r i); [contradiction|].
  assert (Rabs (A r i) <= sumn n (fun r => if Nat.eqb r i then 0 else Rabs (A r i))); [|lra].
  apply T; [|exact Hr]. intros k _. destruct (Nat.eqb k i); [lra|apply Rabs_pos].
Qed.

Lemma pivot_row_stay n U i : (forall r, (i < r < n)%nat -> abs (U r i) <= abs (U i i)) -> pivot_row n U i = i.
Proof.
  intros H. unfold pivot_row.
  assert (K : forall l, (forall j, In j l -> (i < j < n)%nat) ->
    fold_left (fun mr j => if Rlt_dec (fst mr) (abs (U j i)) then (abs (U j i), j) else mr) l (abs (U i i), i) = (abs (U i i), i)).
  { induction l as [|j l IH]; intros Hl; cbn [fold_left fst]; [reflexivity|].
    destruct (Rlt_dec (abs (U i i)) (abs (U j i))) as [L|L].
    - exfalso. specialize (H j (Hl j (or_introl eq_refl))). lra.
    - apply IH. intros k Hk. apply Hl. now right. }
  rewrite K; [reflexivity|]. intros j Hj. apply in_seq in Hj. lia.
Qed.

Lemma swapv_same {A} (y : nat -> A) a k : swapv y a a k = y k.
Proof. unfold swapv, updv. destruct (PeanoNat.Nat.eqb_spec k a) as [->|]; [reflexivity|reflexivity]. Qed.

(** matrices whose diagonal entries are the largest of their columns are not permuted *)
Lemma pivots_stay n A : (forall i r, (i < n)%nat -> (i < r < n)%nat -> Rabs (A r i) <= Rabs (A i i)) ->
  forall i j, snd (pivots n A) i j = A i j.
Proof.
  intros H. unfold pivots.
  assert (K : forall l (PU : (nat -> nat) * mat), (forall i, In i l -> (i < n)%nat) -> (forall i j, snd PU i j = A i j) ->
    forall i j, snd (fold_left (fun PU i => let r := pivot_row n (snd PU) i in (swapv (fst PU) r i, swapv (snd PU) r i)) l PU) i j = A i j).
  { induction l as [|k l IH]; intros PU Hl HU; cbn [fold_left]; [exact HU|]. apply IH.
    - intros i Hi; apply Hl; now right.
    - cbn [snd]. rewrite pivot_row_stay.
      + intros i j. now rewrite swapv_same.
      + intros r Hr. rewrite !HU, !abs_Rabs. apply H; [apply Hl; now left|exact Hr]. }
  apply K; cbn [snd]; [|reflexivity]. intros i Hi. apply in_seq in Hi. lia.
Qed.

Lemma elim_col_total n i LU : (i < n)%nat -> snd LU i i <> 0 ->
  exists LU', elim_col n i LU = Some LU' /\
    (forall r k, (i < r < n)%nat -> snd LU' r k = if Nat.eqb k i then 0 else snd LU r k - snd LU r i / snd LU i i * snd LU i k) /\
    (forall r, (r <= i)%nat -> snd LU' r = snd LU r).
Proof.
  intros Hi Nz. unfold elim_col.
  destruct (loop_total (fun j s =>
     (forall r k, (i < r < j)%nat -> snd s r k = if Nat.eqb k i then 0 else snd LU r k - snd LU r i / snd LU i i * snd LU i k) /\
     (forall r, (r <= i \/ j <= r)%nat -> snd s r = snd LU r)) (elim_row i) (n - S i) (S i) LU) as [s [E [H1 H2]]].
  - intros j a Hj [Ha Hb]. unfold elim_row. rewrite (Hb i), (Hb j) by lia. rewrite odiv_ok by exact Nz. cbn [obind].
    eexists; split; [reflexivity|]. cbn [snd]. split.
    + intros r k Hr. destruct (PeanoNat.Nat.eq_dec r j) as [->|N].
      * destruct (PeanoNat.Nat.eqb_spec k i) as [->|Nk]; [apply set2_eq|]. rewrite set2_col by exact Nk. now rewrite updv_eq.
      * rewrite set2_row by exact N. rewrite updv_neq by exact N. apply Ha. lia.
    + intros r Hr. unfold set2. rewrite !updv_neq by lia. apply Hb. lia.
  - split; [intros; lia|reflexivity].
  - exists s. split; [exact E|]. split.
    + intros r k Hr. apply H1. lia.
    + intros r Hr. apply H2. lia.
Qed.

(** dominance of the part of the matrix from row and column [i] on *)
Definition tail_dominant (n i : nat) (U : mat) : Prop :=
  forall j, (i <= j < n)%nat ->
    sumn n (fun r => if Nat.ltb r i then 0 else if Nat.eqb r j then 0 else Rabs (U r j)) < Rabs (U j j).

Lemma tail_dominant_step n i U U' : (i < n)%nat -> tail_dominant n i U ->
  (forall r k, (i < r < n)%nat -> U' r k = if Nat.eqb k i then 0 else U r k - U r i / U i i * U i k) ->
  tail_dominant n (S i) U'.
Proof.
  intros Hi HD HU j Hj.
  assert (Di := HD i ltac:(lia)). assert (Dj := HD j ltac:(lia)).
  assert (P : 0 < Rabs (U i i)).
  { eapply Rle_lt_trans; [|exact Di]. apply sumn_nonneg. intros r _. destruct (Nat.ltb r i), (Nat.eqb r i); try lra. apply Rabs_pos. }
  set (c := fun r => Rabs (U r i) / Rabs (U i i)).
  assert (Hc : sumn n (fun r => if Nat.ltb r i then 0 else if Nat.eqb r i then 0 else c r) < 1).
  { rewrite (sumn_ext n _ (fun r => (if Nat.ltb r i then 0 else if Nat.eqb r i then 0 else Rabs (U r i)) * / Rabs (U i i))).
    - rewrite sumn_scal_r. apply (Rmult_lt_reg_r (Rabs (U i i))); [exact P|]. rewrite Rmult_assoc, Rinv_l by lra. lra.
    - intros r _. unfold c. destruct (Nat.ltb r i), (Nat.eqb r i); unfold Rdiv; ring. }
  assert (Cpos : forall r, 0 <= c r).
  { intros r. unfold c. apply Rmult_le_pos; [apply Rabs_pos|]. left. now apply Rinv_0_lt_compat. }
  assert (Lhs : sumn n (fun r => if Nat.ltb r (S i) then 0 else if Nat.eqb r j then 0 else Rabs (U' r j))
     <= sumn n (fun r => (if Nat.ltb r i then 0 else if Nat.eqb r j then 0 else Rabs (U r j))
          - (if Nat.eqb r i then Rabs (U r j) else 0)
          + Rabs (U i j) * ((if Nat.ltb r i then 0 else if Nat.eqb r i then 0 else c r) - (if Nat.eqb r j then c r else 0)))).
  { apply sumn_le. intros r Hr.
    destruct (PeanoNat.Nat.ltb_spec r (S i)), (PeanoNat.Nat.ltb_spec r i), (PeanoNat.Nat.eqb_spec r j), (PeanoNat.Nat.eqb_spec r i);
      subst; try lia; try lra.
    rewrite HU by lia. destruct (PeanoNat.Nat.eqb_spec j i); [lia|].
    assert (T : Rabs (U r j - U r i / U i i * U i j) <= Rabs (U r j) + c r * Rabs (U i j)).
    { unfold Rminus. eapply Rle_trans; [apply Rabs_triang|]. rewrite Rabs_Ropp, Rabs_mult. unfold c.
      rewrite Rabs_div by (intros Z; rewrite Z, Rabs_R0 in P; lra). lra. }
    lra. }
  rewrite sumn_plus, sumn_minus, sumn_scal_l, sumn_minus, !sumn_delta in Lhs by lia.
  rewrite HU by lia. destruct (PeanoNat.Nat.eqb_spec j i); [lia|].
  assert (T : Rabs (U j j) - c j * Rabs (U i j) <= Rabs (U j j - U j i / U i i * U i j)).
  { eapply Rle_trans; [|apply Rabs_triang_inv]. rewrite Rabs_mult. unfold c.
    rewrite Rabs_div by (intros Z; rewrite Z, Rabs_R0 in P; lra). lra. }
  assert (Q : 0 <= Rabs (U i j)) by apply Rabs_pos.
  set (s1 := sumn n (fun r => if Nat.ltb r i then 0 else if Nat.eqb r i then 0 else c r)) in *.
  set (s2 := sumn n (fun r => if Nat.ltb r i then 0 else if Nat.eqb r j then 0 else Rabs (U r j))) in *.
  nra.
Qed.

Lemma eliminate_dominant n U : tail_dominant n 0 U -> exists LU, eliminate n U = Some LU /\
  forall i, (i < n)%nat -> snd LU i i <> 0.
Proof.
  intros HD. unfold eliminate.
  destruct (loop_total (fun i s => tail_dominant n i (snd s) /\ forall k, (k < i)%nat -> snd s k k <> 0)
             (elim_col n) n 0 (ident, U)) as [s [E [_ H2]]].
  - intros i a Hi [Hd Hk]. assert (Nz : snd a i i <> 0).
    { intros Z. specialize (Hd i ltac:(lia)). rewrite Z, Rabs_R0 in Hd.
      assert (0 <= sumn n (fun r => if Nat.ltb r i then 0 else if Nat.eqb r i then 0 else Rabs (snd a r i))); [|lra].
      apply sumn_nonneg. intros r _. destruct (Nat.ltb r i), (Nat.eqb r i); try lra. apply Rabs_pos. }
    destruct (elim_col_total n i a ltac:(lia) Nz) as [a' [E [H1 H2]]]. exists a'. split; [exact E|]. split.
    + apply (tail_dominant_step n i (snd a)); auto. lia.
    + intros k Hk'. rewrite H2 by lia. destruct (PeanoNat.Nat.eq_dec k i) as [->|N]; [exact Nz|]. apply Hk. lia.
  - cbn [snd]. split; [exact HD|lia].
  - exists s. split; [exact E|]. exact H2.
Qed.

Theorem linear_solve_dominant n A b : col_dominant n A -> exists x, linear_solve n A b = Some x /\
  forall i, (i < n)%nat -> mvec n A x i = b i.
Proof.
  intros HD. assert (S : exists x, linear_solve n A b = Some x).
  { unfold linear_solve, factorize_lu. cbv zeta.
    assert (HP := pivots_stay n A ltac:(intros; apply (dominant_largest n A); auto; lia)).
    destruct (eliminate_dominant n (snd (pivots n A))) as [LU [E N]].
    - intros j Hj. rewrite HP. rewrite (sumn_ext n _ (fun i => if Nat.eqb i j then 0 else Rabs (A i j))).
      + apply HD. lia.
      + intros r _. rewrite HP. reflexivity.
    - rewrite E. cbn [obind]. apply solve_factors_total. cbn [lu_L lu_U]. intros i Hi. split; [|now apply N].
      destruct (eliminate_inv n _ LU E) as [_ Di _ _ _]. rewrite Di. lra. }
  destruct S as [x E]. exists x. split; [exact E|]. exact (linear_solve_ok n A b x E).
Qed.

(** * Shape-aware functionals, at quadrature points and on elements
    Real arithmetic.  Vectors and matrices are index functions inside the kernels; what a q-function is given
    and gives back are lists of exactly the sizes of the C++ tensors.  Scalar components (one component) are
    one-element lists.  [None]: a Jacobian is singular, where the code divides by zero. *)
From Coq Require Import Reals List Bool Lra Lia Arith.
Import ListNotations.
From Verif Require Import Sums Tensor MatAlg.
Local Open Scope R_scope.

Inductive family := H1 | L2 | HCURL | QOI.                      (* finite_element.hpp:144-155 *)
Record space := { fam : family; comps : nat }.                  (* finite_element.hpp:158-230 *)
(** number of values, and rows and columns of the derivative or flux, in dimension [n] (2 or 3): H(curl)
    values are vectors, their curls a number in 2D and a vector in 3D (domain_integral_kernels.hpp:30-100) *)
Definition values (n : nat) (s : space) : nat := match fam s with HCURL => n | _ => comps s end.
Definition rows (s : space) : nat := match fam s with HCURL => 1%nat | QOI => 0%nat | _ => comps s end.
Definition cols (n : nat) (s : space) : nat := match fam s with HCURL => if Nat.eqb n 2 then 1%nat else n | _ => n end.

(** value and derivative at a point *)
Notation pair := ((nat -> R) * (nat -> nat -> R))%type (only parsing).
Notation tensors := (list R * list (list R))%type (only parsing).
Definition tab1 (m : nat) (v : nat -> R) : list R := map v (seq 0 m).
Definition tab2 (r c : nat) (M : nat -> nat -> R) : list (list R) := map (fun i => map (M i) (seq 0 c)) (seq 0 r).
Definition tensors_of (n : nat) (s : space) (u : pair) : tensors := (tab1 (values n s) (fst u), tab2 (rows s) (cols n s) (snd u)).
Definition pair_of (u : tensors) : pair := (fun i => nth i (fst u) 0, fun i j => nth j (nth i (snd u) []) 0).

(** parent_to_physical (finite_element.hpp:250-276), one quadrature point; J(row, col) = dx_row / dxi_col *)
Definition parent_to_physical (n : nat) (f : family) (J : nat -> nat -> R) (u : pair) : option pair :=
  match invn n J with
  | None => None
  | Some K => Some (match f with
                    | H1 | L2 => (fst u, mmul n (snd u) K)
                    | HCURL => (vmat n (fst u) K, if Nat.eqb n 3 then mmul n (fun i j => snd u i j / detn n J) (transpose J) else (fun i j => snd u i j / detn n J))
                    | QOI => u end)
  end.
(** physical_to_parent (finite_element.hpp:291-322) *)
Definition physical_to_parent (n : nat) (f : family) (J : nat -> nat -> R) (v : pair) : option pair :=
  match invn n (transpose J) with
  | None => None
  | Some KT => let dv := detn n (transpose J) in
               Some (match f with
                     | H1 | L2 => (fun i => fst v i * dv, fun i j => mmul n (snd v) KT i j * dv)
                     | HCURL => (fun i => vmat n (fst v) KT i * dv, if Nat.eqb n 3 then mmul n (snd v) (transpose (transpose J)) else snd v)
                     | QOI => (fun i => fst v i * dv, snd v) end)
  end.

(** a q-function: time, position and Jacobian, quadrature data, arguments; gives an output and the new
    quadrature data ([unit] when there is none) *)
Definition qfunction (St : Type) := R -> tensors -> St -> list tensors -> tensors * St.

Fixpoint each {A B} (f : A -> option B) (l : list A) : option (list B) :=
  match l with [] => Some [] | a :: l => match f a, each f l with Some b, Some bs => Some (b :: bs) | _, _ => None end end.
(** batch_apply_qf and its surroundings at one quadrature point of a domain integral
    (domain_integral_kernels.hpp:106-150, 178-204) *)
Definition domain_point {St} (n : nat) (test : space) (trials : list space) (qf : (nat -> R) -> (nat -> nat -> R) -> St -> list pair -> option (pair * St))
  (X : nat -> R) (J : nat -> nat -> R) (st : St) (args : list pair) : option (tensors * St) :=
  match each (fun '(s, u) => parent_to_physical n (fam s) J u) (combine trials args) with
  | None => None
  | Some us => match qf X J st us with
               | None => None
               | Some (out, st') => match physical_to_parent n (fam test) J out with None => None | Some r => Some (tensors_of n test r, st') end
               end
  end.
(** a user's q-function called directly, as serac::Functional does (domain_integral_kernels.hpp:121, 144) *)
Definition direct {St} (n : nat) (trials : list space) (qf : qfunction St) (t : R) (X : nat -> R) (J : nat -> nat -> R) (st : St) (us : list pair) : option (pair * St) :=
  let '(out, st') := qf t (tab1 n X, tab2 n n J) st (map (fun '(s, u) => tensors_of n s u) (combine trials us)) in Some (pair_of out, st').

(** ShapeCorrection::modify_trial_argument (shape_aware_functional.hpp:59-83) *)
Definition modify_trial (n : nat) (A B : nat -> nat -> R) (f : family) (u : pair) : pair :=
  match f with
  | H1 | L2 => (fst u, mmul n (snd u) B)
  | HCURL => (vmat n (fst u) B, if Nat.eqb n 2 then (fun i j => snd u i j / detn n A) else mmul n (snd u) (transpose A))
  | QOI => u
  end.
(** ShapeCorrection::modify_shape_aware_qf_return (hpp:96-119) *)
Definition modify_return (n : nat) (A B : nat -> nat -> R) (f : family) (v : pair) : pair :=
  match f with
  | QOI => (fun i => detn n A * fst v i, snd v)
  | H1 | L2 => (fun i => fst v i * detn n A, fun i j => mmul n (snd v) (transpose B) i j * detn n A)
  | HCURL => (fun i => vmat n (fst v) (transpose B) i * detn n A, if Nat.eqb n 3 then mmul n (snd v) A else snd v)
  end.
(** ShapeAwareIntegrandWrapper[WithState]::operator() and apply_shape_aware_qf_helper[_with_state]
    (hpp:200-219, 246-267, 354-440): the first argument is the shape displacement *)
Definition wrapped {St} (n : nat) (test : space) (trials : list space) (qf : qfunction St) (t : R) (X : nat -> R) (J : nat -> nat -> R) (st : St) (us : list pair) : option (pair * St) :=
  match us with
  | [] => None
  | p :: us => let A := madd ident (snd p) in
               match invn n A with
               | None => None
               | Some B => let '(out, st') := qf t (tab1 n (fun i => X i + fst p i), tab2 n n (madd J (mmul n (snd p) J))) st
                                                 (map (fun '(s, u) => tensors_of n s (modify_trial n A B (fam s) u)) (combine trials us)) in
                           Some (modify_return n A B (fam test) (pair_of out), st')
               end
  end.
Definition plain_point {St} n test trials (qf : qfunction St) t X J st args := domain_point n test trials (direct n trials qf t) X J st args.
Definition shape_space (n : nat) : space := {| fam := H1; comps := n |}.
Definition shape_point {St} n test trials (qf : qfunction St) t X J st p args := domain_point n test (shape_space n :: trials) (wrapped n test trials qf t) X J st (p :: args).

(** ** lemmas *)
Lemma tab1_ext m v w : (forall i, (i < m)%nat -> v i = w i) -> tab1 m v = tab1 m w.
Proof. intros H. apply map_ext_in. intros i Hi. apply in_seq in Hi. apply H. lia. Qed.
Lemma tab2_ext r c M N : (forall i j, (i < r)%nat -> (j < c)%nat -> M i j = N i j) -> tab2 r c M = tab2 r c N.
Proof. intros H. apply map_ext_in. intros i Hi. apply in_seq in Hi. apply map_ext_in. intros j Hj. apply in_seq in Hj. apply H; lia. Qed.
Lemma rmul_assoc n D A B i j : mmul n (mmul n D A) B i j = mmul n D (mmul n A B) i j.
Proof.
  unfold mmul. rewrite (sumn_ext n _ (fun k => sumn n (fun l => D i l * A l k * B k j))) by (intros; now rewrite <- sumn_scal_r). rewrite sumn_swap.
  apply sumn_ext. intros l _. rewrite <- sumn_scal_l. apply sumn_ext. intros. ring.
Qed.
Lemma rmul_ext n D D' A A' i j : (forall k, (k < n)%nat -> D i k = D' i k) -> (forall k, (k < n)%nat -> A k j = A' k j) -> mmul n D A i j = mmul n D' A' i j.
Proof. intros H G. unfold mmul. apply sumn_ext. intros k Hk. now rewrite H, G. Qed.
Lemma vmat_mmul n (v : nat -> R) A i : vmat n v A i = mmul n (fun _ => v) A 0%nat i.
Proof. reflexivity. Qed.

Section Moved.
Context (n : nat) (Hn : dim23 n) (J D K A B J' K' : nat -> nat -> R).
Context (HK : invn n J = Some K) (EA : A = madd ident (mmul n D K)) (HB : invn n A = Some B) (EJ : meq n J' (madd J D)) (HK' : invn n J' = Some K').
Lemma A_J : meq n (mmul n A J) J'.
Proof.
  destruct (invn_some n J K Hn HK) as [_ [KJ _]]. rewrite EA. intros i j Hi Hj. rewrite (EJ i j) by auto. rewrite (mmul_add_l n ident (mmul n D K) J i j) by auto. unfold madd at 1 2.
  rewrite (mmul_ident_l n J i j) by auto. f_equal. rewrite rmul_assoc.
  rewrite (rmul_ext n D D (mmul n K J) ident i j); [|auto|intros; now apply KJ]. now apply mmul_ident_r.
Qed.
Lemma A_J_shape : meq n (madd J (mmul n (mmul n D K) J)) J'.
Proof.
  destruct (invn_some n J K Hn HK) as [_ [KJ _]]. intros i j Hi Hj. rewrite EJ by auto. unfold madd. f_equal. rewrite rmul_assoc.
  rewrite (rmul_ext n D D (mmul n K J) ident i j); [|auto|intros; now apply KJ]. now apply mmul_ident_r.
Qed.
Lemma det_moved : detn n J' = detn n A * detn n J.
Proof. rewrite <- detn_mul by auto. apply detn_ext; auto. apply meq_sym, A_J. Qed.
Lemma inv_moved : meq n (mmul n K B) K'.
Proof.
  destruct (invn_some n J K Hn HK) as [JK [KJ _]]. destruct (invn_some n A B Hn HB) as [AB [BA _]]. apply (invn_unique n J' K' _ Hn HK').
  intros i j Hi Hj. rewrite rmul_assoc. rewrite (rmul_ext n K K (mmul n B J') J i j); [now apply KJ|auto|].
  intros k Hk. rewrite (rmul_ext n B B J' (mmul n A J) k j); [|auto|intros l Hl; symmetry; now apply A_J].
  rewrite <- rmul_assoc. rewrite (rmul_ext n (mmul n B A) ident J J k j); [now apply mmul_ident_l| |auto]. intros. now apply BA.
Qed.
Lemma det_nonzero : detn n A <> 0 /\ detn n J <> 0.
Proof. split; [apply (invn_some n A B Hn HB)|apply (invn_some n J K Hn HK)]. Qed.
End Moved.

Definition physical (n : nat) (J K : nat -> nat -> R) (f : family) (u : pair) : pair :=
  match f with
  | H1 | L2 => (fst u, mmul n (snd u) K)
  | HCURL => (vmat n (fst u) K, if Nat.eqb n 3 then mmul n (fun i j => snd u i j / detn n J) (transpose J) else (fun i j => snd u i j / detn n J))
  | QOI => u
  end.
Lemma each_some {A B} (f : A -> option B) g l : (forall a, f a = Some (g a)) -> each f l = Some (map g l).
Proof. intros H. induction l as [|a l IH]; [reflexivity|]. cbn [each map]. now rewrite H, IH. Qed.
Lemma combine_again {A B C} (g : A -> B -> C) l m : combine l (map (fun '(s, u) => g s u) (combine l m)) = map (fun '(s, u) => (s, g s u)) (combine l m).
Proof. revert m. induction l as [|a l IH]; intros [|b m]; try reflexivity. cbn [combine map]. now rewrite IH. Qed.
Lemma to_physical n J K trials args : invn n J = Some K -> each (fun '(s, u) => parent_to_physical n (fam s) J u) (combine trials args) = Some (map (fun '(s, u) => physical n J K (fam s) u) (combine trials args)).
Proof. intros HK. apply each_some. intros [s u]. unfold parent_to_physical. now rewrite HK. Qed.
Lemma inv_transpose n J K KT : dim23 n -> invn n J = Some K -> invn n (transpose J) = Some KT -> meq n KT (transpose K).
Proof.
  intros Hn HK HT. apply meq_sym. apply (invn_unique n (transpose J) KT _ Hn HT). intros i j Hi Hj. rewrite <- (transpose_mul n J K i j) by auto. unfold transpose at 1.
  destruct (invn_some n J K Hn HK) as [JK _]. rewrite JK by auto. apply ident_comm.
Qed.

Section Move.
Context (n : nat) (Hn : dim23 n) (J D K A B J' K' : nat -> nat -> R).
Context (HK : invn n J = Some K) (EA : A = madd ident (mmul n D K)) (HB : invn n A = Some B) (EJ : meq n J' (madd J D)) (HK' : invn n J' = Some K').
Lemma move_trial s u : (fam s = HCURL -> n = 2%nat) -> tensors_of n s (modify_trial n A B (fam s) (physical n J K (fam s) u)) = tensors_of n s (physical n J' K' (fam s) u).
Proof.
  intros Hs. pose proof (inv_moved n Hn J D K A B J' K' HK EA HB EJ HK') as HI. pose proof (det_moved n Hn J D K A J' HK EA EJ) as HD. destruct (det_nonzero n Hn J K A B HK HB) as [NA NJ].
  assert (G : forall (M : nat -> nat -> R) i j, (j < n)%nat -> mmul n (mmul n M K) B i j = mmul n M K' i j) by (intros; rewrite rmul_assoc; apply rmul_ext; auto).
  unfold tensors_of, values, rows, cols. destruct (fam s) eqn:F; cbn [modify_trial physical fst snd]; f_equal; try reflexivity.
  - apply tab2_ext. auto.
  - apply tab2_ext. auto.
  - apply tab1_ext. intros i Hi. rewrite (vmat_mmul n _ B), (vmat_mmul n (fst u) K'). exact (G (fun _ => fst u) 0%nat i Hi).
  - rewrite (Hs eq_refl). cbn [Nat.eqb]. apply tab2_ext. intros i j Hi Hj. rewrite (Hs eq_refl) in HD, NA, NJ. rewrite HD. field. auto.
Qed.
Lemma move_return test v r r' : physical_to_parent n (fam test) J (modify_return n A B (fam test) v) = Some r -> physical_to_parent n (fam test) J' v = Some r' -> tensors_of n test r = tensors_of n test r'.
Proof.
  pose proof (inv_moved n Hn J D K A B J' K' HK EA HB EJ HK') as HI. pose proof (det_moved n Hn J D K A J' HK EA EJ) as HD. pose proof (A_J n Hn J D K A J' HK EA EJ) as HA.
  unfold physical_to_parent. destruct (invn n (transpose J)) as [KT|] eqn:ET; [|discriminate]. destruct (invn n (transpose J')) as [KT'|] eqn:ET'; [|discriminate].
  pose proof (inv_transpose n J K KT Hn HK ET) as HT. pose proof (inv_transpose n J' K' KT' Hn HK' ET') as HT'. rewrite !detn_transpose by auto.
  assert (G : forall (M : nat -> nat -> R) i j, (j < n)%nat -> mmul n (fun a b => mmul n M (transpose B) a b * detn n A) KT i j * detn n J = mmul n M KT' i j * detn n J').
  { intros M i j Hj. rewrite HD. rewrite (rmul_ext n (fun a b => mmul n M (transpose B) a b * detn n A) (fun a b => mmul n M (transpose B) a b * detn n A) KT (transpose K) i j) by auto.
    rewrite (rmul_ext n M M KT' (mmul n (transpose B) (transpose K)) i j); [|auto|].
    - rewrite <- rmul_assoc. unfold mmul at 1 3. rewrite <- !sumn_scal_r. apply sumn_ext. intros. ring.
    - intros k Hk. rewrite HT' by auto. unfold transpose at 1. rewrite <- HI by auto. apply (transpose_mul n K B k j); auto. }
  intros E1 E2. injection E1 as <-. injection E2 as <-. unfold tensors_of, values, rows, cols.
  destruct (fam test) eqn:F; cbn [modify_return fst snd]; f_equal; try reflexivity.
  - apply tab1_ext. intros. rewrite HD. ring.
  - apply tab2_ext. auto.
  - apply tab1_ext. intros. rewrite HD. ring.
  - apply tab2_ext. auto.
  - apply tab1_ext. intros i Hi. exact (G (fun _ => fst v) 0%nat i Hi).
  - destruct Hn as [-> | ->]; cbn [Nat.eqb] in *; [reflexivity|]. apply tab2_ext. intros i j Hi Hj. rewrite rmul_assoc. apply rmul_ext; [auto|]. intros k Hk. now apply HA.
  - apply tab1_ext. intros. rewrite HD. ring.
Qed.
End Move.
Lemma shape_moves {St} n test trials (qf : qfunction St) t X J p D X' J' st args : dim23 n -> List.Forall (fun s => fam s = HCURL -> n = 2%nat) trials -> detn n J <> 0 -> detn n J' <> 0 ->
  (forall i, (i < n)%nat -> X' i = X i + p i) -> meq n J' (madd J D) ->
  shape_point n test trials qf t X J st (p, D) args = plain_point n test trials qf t X' J' st args.
Proof.
  intros Hn HF NJ NJ' EX0 EJ. destruct (invn_works n J Hn NJ) as [K HK]. destruct (invn_works n J' Hn NJ') as [K' HK'].
  set (A := madd ident (mmul n D K)). assert (HD : detn n J' = detn n A * detn n J) by (exact (det_moved n Hn J D K A J' HK eq_refl EJ)).
  assert (NA : detn n A <> 0) by (intros E0; apply NJ'; rewrite HD, E0; ring). destruct (invn_works n A Hn NA) as [B HB].
  assert (NT : detn n (transpose J) <> 0) by (now rewrite detn_transpose). assert (NT' : detn n (transpose J') <> 0) by (now rewrite detn_transpose).
  destruct (invn_works n _ Hn NT) as [KT HKT]. destruct (invn_works n _ Hn NT') as [KT' HKT'].
  unfold shape_point, plain_point, domain_point. rewrite (to_physical n J K) by auto. rewrite (to_physical n J' K') by auto. cbn [combine map physical fam shape_space fst snd].
  unfold wrapped, direct. cbv zeta. cbn [fst snd]. change (madd ident (mmul n D K)) with A. rewrite HB.
  rewrite (combine_again (fun s u => physical n J K (fam s) u) trials args), (combine_again (fun s u => physical n J' K' (fam s) u) trials args), !map_map.
  assert (EX : tab2 n n (madd J (mmul n (mmul n D K) J)) = tab2 n n J') by (apply tab2_ext; intros; eapply (A_J_shape n Hn J D K J' HK EJ); auto). change (madd ident (mmul n D K)) with A. rewrite EX, (tab1_ext n (fun i => X i + p i) X') by (intros; symmetry; auto).
  rewrite (map_ext_in (fun x : space * pair => let '(s, u) := let '(s, u) := x in (s, physical n J K (fam s) u) in tensors_of n s (modify_trial n A B (fam s) u)) (fun x : space * pair => let '(s, u) := let '(s, u) := x in (s, physical n J' K' (fam s) u) in tensors_of n s u)).
  2: { intros [s u] Hi. apply (move_trial n Hn J D K A B J' K'); auto. rewrite List.Forall_forall in HF. apply HF. eapply in_combine_l; eauto. }
  destruct (qf _ _ _ _) as [out st']. destruct (physical_to_parent n (fam test) J (modify_return n A B (fam test) (pair_of out))) as [r|] eqn:E1; [|unfold physical_to_parent in E1; rewrite HKT in E1; discriminate].
  destruct (physical_to_parent n (fam test) J' (pair_of out)) as [r'|] eqn:E2; [|unfold physical_to_parent in E2; rewrite HKT' in E2; discriminate].
  do 2 f_equal. apply (move_return n Hn J D K A B J' K' HK eq_refl HB EJ HK' test _ r r' E1 E2).
Qed.

(** H(curl) trial fields in 3D: what the q-function is given as the curl is det(I + dp/dX) times the curl on the moved mesh *)
Lemma shape_curl n J D K A B J' K' u : n = 3%nat -> invn n J = Some K -> A = madd ident (mmul n D K) -> invn n A = Some B -> meq n J' (madd J D) -> invn n J' = Some K' ->
  forall i j, (j < n)%nat -> snd (modify_trial n A B HCURL (physical n J K HCURL u)) i j = detn n A * snd (physical n J' K' HCURL u) i j.
Proof.
  intros E HK EA HB EJ HK' i j Hj. assert (Hn : dim23 n) by (right; exact E). pose proof (det_moved n Hn J D K A J' HK EA EJ) as HD. destruct (det_nonzero n Hn J K A B HK HB) as [NA NJ]. pose proof (A_J n Hn J D K A J' HK EA EJ) as HA.
  subst n. cbn [modify_trial physical Nat.eqb fst snd]. rewrite rmul_assoc. rewrite (rmul_ext 3 _ (fun i j => snd u i j / detn 3 J) _ (transpose J') i j); [|auto|].
  - unfold mmul. rewrite <- sumn_scal_l. apply sumn_ext. intros k Hk. rewrite HD. field. auto.
  - intros k Hk. rewrite <- (transpose_mul 3 A J k j) by auto. unfold transpose. now apply HA.
Qed.
(** a unit cube pulled to twice its height, a field with curl (0, 0, 1) in the parent element, and an integrand that reads the curl *)
Definition pull : nat -> nat -> R := fun i j => if (i =? 2)%nat && (j =? 2)%nat then 1 else 0.
Definition curl_only : qfunction unit := fun _ _ _ args => match args with [(_, [c])] => (([nth 2 c 0], []), tt) | _ => (([], []), tt) end.
Definition curl_args : list ((nat -> R) * (nat -> nat -> R)) := [((fun _ => 0), fun i j => if (j =? 2)%nat then 1 else 0)].
Definition qoi : space := {| fam := QOI; comps := 1 |}.
Definition hcurl : space := {| fam := HCURL; comps := 1 |}.
Lemma shape_curl_wrong : detn 3 ident = 1 /\ detn 3 (madd ident pull) = 2 /\
  shape_point 3 qoi [hcurl] curl_only 0 (fun _ => 0) ident tt ((fun _ => 0), pull) curl_args = Some (([4], []), tt) /\
  plain_point 3 qoi [hcurl] curl_only 0 (fun _ => 0) (madd ident pull) tt curl_args = Some (([2], []), tt).
Proof.
  assert (D1 : detn 3 ident = 1) by (apply detn_ident; right; reflexivity). assert (D2 : detn 3 (madd ident pull) = 2) by (unfold detn, det3, madd, ident, pull; cbn [Nat.eqb andb]; ring).
  split; [exact D1|]. split; [exact D2|]. assert (Hn : dim23 3) by (right; reflexivity).
  destruct (invn_works 3 ident Hn) as [K HK]; [rewrite D1; lra|]. destruct (invn_works 3 (madd ident pull) Hn) as [K' HK']; [rewrite D2; lra|].
  destruct (invn_works 3 (transpose ident) Hn) as [KT HKT]; [rewrite detn_transpose by auto; lra|]. destruct (invn_works 3 (transpose (madd ident pull)) Hn) as [KT' HKT']; [rewrite detn_transpose by auto; lra|].
  set (A := madd ident (mmul 3 pull K)). pose proof (det_moved 3 Hn ident pull K A (madd ident pull) HK eq_refl (fun _ _ _ _ => eq_refl)) as HD. rewrite D1, D2, Rmult_1_r in HD.
  destruct (invn_works 3 A Hn) as [B HB]; [lra|].
  assert (C : snd (physical 3 (madd ident pull) K' HCURL ((fun _ => 0), fun i j => if (j =? 2)%nat then 1 else 0)) 0%nat 2%nat = 1).
  { unfold physical. cbn [Nat.eqb snd]. rewrite D2. unfold mmul, transpose, madd, ident, pull. cbn [sumn Nat.eqb andb]. field. }
  pose proof (shape_curl 3 ident pull K A B (madd ident pull) K' ((fun _ => 0), fun i j => if (j =? 2)%nat then 1 else 0) eq_refl HK eq_refl HB (fun _ _ _ _ => eq_refl) HK' 0%nat 2%nat ltac:(lia)) as C'. rewrite C, <- HD in C'.
  split.
  - unfold shape_point, domain_point. rewrite (to_physical 3 ident K) by auto. unfold curl_args. cbn [combine map fam hcurl shape_space]. set (u := physical 3 ident K HCURL _) in *. unfold wrapped, physical. cbv zeta. cbn [fst snd]. change (madd ident (mmul 3 pull K)) with A. rewrite HB.
    cbn [combine map fam hcurl]. set (m := modify_trial 3 A B HCURL u) in *. change (tensors_of 3 hcurl m) with (tab1 3 (fst m), tab2 1 3 (snd m)). unfold tab2, tab1. cbn [seq map curl_only nth]. rewrite C'. unfold physical_to_parent. rewrite HKT. cbv zeta. rewrite detn_transpose, D1 by auto.
    unfold tensors_of, tab1, tab2. cbn. do 4 f_equal. change (det3 A) with (detn 3 A). rewrite <- HD. ring.
  - unfold plain_point, domain_point. rewrite (to_physical 3 (madd ident pull) K') by auto. unfold curl_args. cbn [combine map fam hcurl]. set (u := physical 3 (madd ident pull) K' HCURL _) in *. unfold direct. cbn [combine map fam hcurl].
    change (tensors_of 3 hcurl u) with (tab1 3 (fst u), tab2 1 3 (snd u)). unfold tab2, tab1. cbn [seq map curl_only nth]. rewrite C. unfold physical_to_parent. rewrite HKT'. cbv zeta. rewrite detn_transpose, D2 by auto.
    unfold tensors_of, tab1, tab2. cbn. do 4 f_equal. ring.
Qed.

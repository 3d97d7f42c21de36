(** * Totals and moments of residuals *)
From Coq Require Import NArith ZArith Reals List Lia Lra Bool.
From Verif Require Import Prelude DofCodec Sums Restriction Kernels FunctionalModel Assembly Tensor MatAlg Materials ShapeAware WeakForm.
Import ListNotations.
Local Open Scope R_scope.

(** ** nodal fields *)
Lemma dof_number_lt o nn nc a c : (a < nn)%nat -> (c < nc)%nat -> (dof_number o nn nc a c < nn * nc)%nat.
Proof. intros Ha Hc. destruct o; cbn; nia. Qed.
Lemma nodal_nth o nn nc h a c : (a < nn)%nat -> (c < nc)%nat -> nth (dof_number o nn nc a c) (nodal o nn nc h) 0 = h a c.
Proof.
  intros Ha Hc. unfold nodal. rewrite nth_tab by (now apply dof_number_lt). destruct o; cbn [dof_number].
  - rewrite (Nat.add_comm (c * nn)), Nat.mod_add, Nat.div_add by lia. rewrite Nat.mod_small, Nat.div_small by lia. reflexivity.
  - rewrite (Nat.add_comm (a * nc)), Nat.mod_add, Nat.div_add by lia. rewrite Nat.mod_small, Nat.div_small by lia. reflexivity.
Qed.
Lemma nodal_dot o nn nc h L : sumn (nn * nc) (fun k => nth k L 0 * nth k (nodal o nn nc h) 0) =
  sumn nn (fun a => sumn nc (fun c => nth (dof_number o nn nc a c) L 0 * h a c)).
Proof.
  destruct o.
  - rewrite (Nat.mul_comm nn nc), sumn_mul, sumn_swap. apply sumn_ext. intros a Ha. apply sumn_ext. intros c Hc.
    change (c * nn + a)%nat with (dof_number byNODES nn nc a c). now rewrite nodal_nth.
  - rewrite sumn_mul. apply sumn_ext. intros a Ha. apply sumn_ext. intros c Hc.
    change (a * nc + c)%nat with (dof_number byVDIM nn nc a c). now rewrite nodal_nth.
Qed.

Lemma plain_node_of r el c j : plain r -> (el < r_num_elements r)%nat -> (c < r_components r)%nat -> (j < r_nodes_per_elem r)%nat ->
  (node_of r el j < r_num_nodes r)%nat /\ Z.to_nat (L_id r el c j) = dof_number (r_ordering r) (r_num_nodes r) (r_components r) (node_of r el j) c.
Proof.
  intros Hp He Hc Hj. destruct (plain_L_id r el c j Hp He Hc Hj) as (n & Hn & Hd & ->). unfold node_of. rewrite Hd.
  destruct Hp as [_ Hs]. rewrite (proj1 (plain_round_trip (N.of_nat n) ltac:(change lim60 with 1152921504606846976%N; nia))).
  rewrite Nat2N.id, Nat2Z.id. split; [exact Hn|]. reflexivity.
Qed.

Section Facts.
Context {St : Type}.
Notation gkernel := (gkernel St). Notation integral := (integral St).
Notation functional := (functional St). Notation mem := (mem St).

(** all test restrictions number the same nodes in the same way *)
Definition layout (f : functional) (o : ordering) (nn nc : nat) : Prop :=
  forall dt r, In r (f_test f dt) -> plain r /\ r_ordering r = o /\ r_num_nodes r = nn /\ r_components r = nc.
(** a nodal field at a quadrature point: value in slot 0, parent derivatives in the others *)
Definition field_at (G : gkernel) (r : restriction) (h : nat -> nat -> R) (le q : nat) : slots :=
  interpolate (gk_test G) (fun i j => h (node_of r (nth le (gk_elems G) 0%nat) j) i) q.

Lemma test_field_nodal (f : functional) o nn nc dt G r h le q i b : layout f o nn nc -> In r (f_test f dt) -> fits G r ->
  (le < length (gk_elems G))%nat -> (i < nc)%nat -> test_field G r (nodal o nn nc h) le q i b = field_at G r h le q i b.
Proof.
  intros HL Hr (F1 & F2 & F3) Hle Hi. destruct (HL dt r Hr) as (Hp & Ho & Hnn & Hnc). unfold test_field, field_at.
  apply interpolate_ext. intros k Hk. unfold elem_dofs. rewrite F1, F2.
  assert (He : (nth le (gk_elems G) 0 < r_num_elements r)%nat) by (now apply F3, nth_In).
  rewrite gatherF_entry by (auto; lia). destruct (plain_node_of r (nth le (gk_elems G) 0%nat) i k Hp He) as [A B]; [lia|lia|].
  rewrite B, Ho, Hnn, Hnc. apply nodal_nth; [now rewrite <- Hnn|exact Hi].
Qed.

Lemma over_points_ext (f : functional) h h' :
  (forall n Ig g G r le q, nth_error (f_integrals f) n = Some Ig -> nth_error (i_geoms Ig) g = Some G -> nth_error (f_test f (i_type Ig)) g = Some r ->
     (le < length (gk_elems G))%nat -> (q < gk_nq G)%nat -> h n Ig g G r le q = h' n Ig g G r le q) -> over_points f h = over_points f h'.
Proof.
  intros H. unfold over_points. apply sumn_ext. intros n _. destruct (nth_error (f_integrals f) n) as [Ig|] eqn:E1; [|reflexivity].
  apply sumn_ext. intros g _. destruct (nth_error (i_geoms Ig) g) as [G|] eqn:E2; [|reflexivity].
  destruct (nth_error (f_test f (i_type Ig)) g) as [r|] eqn:E3; [|reflexivity].
  apply sumn_ext. intros le Hle. apply sumn_ext. intros q Hq. f_equal. now apply H.
Qed.
Lemma over_points_minus (f : functional) h h' : over_points f (fun n Ig g G r le q => h n Ig g G r le q - h' n Ig g G r le q) = over_points f h - over_points f h'.
Proof.
  unfold over_points. rewrite <- sumn_minus. apply sumn_ext. intros n _. destruct (nth_error (f_integrals f) n) as [Ig|]; [|ring].
  rewrite <- sumn_minus. apply sumn_ext. intros g _. destruct (nth_error (i_geoms Ig) g) as [G|]; [|ring].
  destruct (nth_error (f_test f (i_type Ig)) g) as [r|]; [|ring].
  rewrite <- sumn_minus. apply sumn_ext. intros le _. rewrite <- sumn_minus. apply sumn_ext. intros. ring.
Qed.

Section Evaluated.
Context (f : functional) (t : R) (wrt : option nat) (upd : bool) (Ls : nat -> list R) (m m' : mem) (L' : list R) (o : ordering) (nn nc : nat).
Context (Hwf : wf f (nn * nc) (fun w => length (Ls w))) (Hfit : all_fit f) (Hlay : layout f o nn nc)
        (He : evaluate f t wrt upd Ls (nn * nc) m = Ok (L', m')).

Theorem tested h : sumn nn (fun a => sumn nc (fun c => nth (dof_number o nn nc a c) L' 0 * h a c)) =
  over_points f (fun n Ig g G r le q => sumn nc (fun i => sumn (gk_dim1 G) (fun b => qf_out f t Ls m n Ig g G le q i b * field_at G r h le q i b))).
Proof.
  rewrite <- nodal_dot. rewrite (virtual_work f t wrt upd Ls (nn * nc) m L' m' Hwf Hfit He). apply over_points_ext.
  intros n Ig g G r le q E1 E2 E3 Hle Hq. assert (HI : In Ig (f_integrals f)) by (now apply nth_error_In in E1).
  assert (Hr : In r (f_test f (i_type Ig))) by (now apply nth_error_In in E3).
  pose proof (Hfit Ig g G r HI E2 E3) as F. destruct (Hlay (i_type Ig) r Hr) as (_ & _ & _ & Hnc). destruct F as (F1 & F2 & F3). rewrite F1, Hnc.
  apply sumn_ext. intros i Hi. apply sumn_ext. intros b _. f_equal.
  apply (test_field_nodal f o nn nc (i_type Ig)); auto. now split.
Qed.

(** one component weighted with a scalar nodal field *)
Definition scalar_at (G : gkernel) (r : restriction) (h : nat -> R) (le q b : nat) : R :=
  sumn (es_n (gk_test G)) (fun k => h (node_of r (nth le (gk_elems G) 0%nat) k) * es_B (gk_test G) k q b).
Theorem tested_component h i : (i < nc)%nat -> sumn nn (fun a => nth (dof_number o nn nc a i) L' 0 * h a) =
  over_points f (fun n Ig g G r le q => sumn (gk_dim1 G) (fun b => qf_out f t Ls m n Ig g G le q i b * scalar_at G r h le q b)).
Proof.
  intros Hi. pose proof (tested (fun a c => if Nat.eqb c i then h a else 0)) as T.
  transitivity (sumn nn (fun a => sumn nc (fun c => nth (dof_number o nn nc a c) L' 0 * (if Nat.eqb c i then h a else 0)))).
  - apply sumn_ext. intros a _. rewrite (sumn_ext nc _ (fun c => if Nat.eqb c i then nth (dof_number o nn nc a c) L' 0 * h a else 0)).
    + now rewrite (sumn_delta nc i (fun c => nth (dof_number o nn nc a c) L' 0 * h a)).
    + intros c _. destruct (Nat.eqb c i); ring.
  - rewrite T. apply over_points_ext. intros n Ig g G r le q _ _ _ _ _.
    rewrite (sumn_ext nc _ (fun c => if Nat.eqb c i then sumn (gk_dim1 G) (fun b => qf_out f t Ls m n Ig g G le q i b * scalar_at G r h le q b) else 0)).
    + now rewrite (sumn_delta nc i (fun _ => sumn (gk_dim1 G) (fun b => qf_out f t Ls m n Ig g G le q i b * scalar_at G r h le q b))).
    + intros c _. unfold field_at, interpolate, scalar_at. destruct (Nat.eqb_spec c i) as [->|].
      * reflexivity.
      * apply sumn_zero. intros b _. rewrite (sumn_zero (es_n (gk_test G))); [ring|]. intros. ring.
Qed.

(** the test functions of every geometry sum to one, their derivatives to zero *)
Definition unity : Prop := forall Ig G q, In Ig (f_integrals f) -> In G (i_geoms Ig) -> (q < gk_nq G)%nat -> (0 < gk_dim1 G)%nat /\
  forall b, (b < gk_dim1 G)%nat -> sumn (es_n (gk_test G)) (fun k => es_B (gk_test G) k q b) = if Nat.eqb b 0 then 1 else 0.
Theorem balance i : (i < nc)%nat -> unity -> total o nn nc L' i = over_points f (fun n Ig g G r le q => qf_out f t Ls m n Ig g G le q i 0%nat).
Proof.
  intros Hi HU. unfold total. pose proof (tested_component (fun _ => 1) i Hi) as T. cbv beta in T.
  rewrite (sumn_ext nn _ (fun a => nth (dof_number o nn nc a i) L' 0 * 1)) by (intros; ring). rewrite T.
  apply over_points_ext. intros n Ig g G r le q E1 E2 E3 Hle Hq.
  destruct (HU Ig G q) as [U1 U2]; [now apply nth_error_In in E1|now apply nth_error_In in E2|exact Hq|].
  rewrite (sumn_ext (gk_dim1 G) _ (fun b => if Nat.eqb b 0 then qf_out f t Ls m n Ig g G le q i b else 0)).
  - now rewrite (sumn_delta (gk_dim1 G) 0).
  - intros b Hb. unfold scalar_at. rewrite (sumn_ext _ _ (fun k => es_B (gk_test G) k q b)) by (intros; ring). rewrite U2 by auto.
    destruct (Nat.eqb b 0); ring.
Qed.
End Evaluated.
End Facts.

(** ** pairing at a point *)
Definition pair_dot (n : nat) (s : space) (a b : (nat -> R) * (nat -> nat -> R)) : R :=
  sumn (values n s) (fun i => fst a i * fst b i) + sumn (rows s) (fun i => sumn (cols n s) (fun j => snd a i j * snd b i j)).
Lemma inv_transpose n J K KT : dim23 n -> invn n J = Some K -> invn n (transpose J) = Some KT -> meq n KT (transpose K).
Proof.
  intros D EK EKT. destruct (invn_some n J K D EK) as (A & _ & _). apply meq_sym. apply (invn_unique n (transpose J) KT _ D EKT).
  intros i j Hi Hj. rewrite <- (transpose_mul n J K i j) by auto. unfold transpose at 1. rewrite A by auto. unfold ident. now rewrite Nat.eqb_sym.
Qed.
Lemma conj_row n (v u : vec) K KT : meq n KT (transpose K) -> 
  sumn n (fun j => sumn n (fun k => v k * KT k j) * u j) = sumn n (fun k => v k * sumn n (fun j => u j * K j k)).
Proof.
  intros H. rewrite (sumn_ext n _ (fun j => sumn n (fun k => v k * (u j * K j k)))).
  - rewrite sumn_swap. apply sumn_ext. intros k _. now rewrite sumn_scal_l.
  - intros j Hj. rewrite <- sumn_scal_r. apply sumn_ext. intros k Hk. rewrite (H k j) by auto. unfold transpose. ring.
Qed.
Theorem conjugate n s J u v pu pv : dim23 n -> parent_to_physical n (fam s) J u = Some pu -> physical_to_parent n (fam s) J v = Some pv ->
  pair_dot n s pv u = detn n J * pair_dot n s v pu.
Proof.
  intros D EU EV. unfold parent_to_physical in EU. destruct (invn n J) as [K|] eqn:EK; [|discriminate].
  unfold physical_to_parent in EV. destruct (invn n (transpose J)) as [KT|] eqn:EKT; [|discriminate].
  pose proof (inv_transpose n J K KT D EK EKT) as HT. destruct (invn_some n J K D EK) as (_ & _ & Hd).
  injection EU as <-. injection EV as <-. rewrite detn_transpose by auto. unfold pair_dot, values, rows, cols.
  assert (Hrow : forall r, sumn r (fun i => sumn n (fun j => mmul n (snd v) KT i j * detn n J * snd u i j)) =
       detn n J * sumn r (fun i => sumn n (fun j => snd v i j * mmul n (snd u) K i j))).
  { intros r. rewrite <- sumn_scal_l. apply sumn_ext. intros i _. unfold mmul. rewrite <- (conj_row n (snd v i) (snd u i) K KT HT), <- sumn_scal_l.
    apply sumn_ext. intros. ring. }
  destruct (fam s); cbn [fst snd].
  - rewrite Rmult_plus_distr_l, <- Hrow. f_equal. rewrite <- sumn_scal_l. apply sumn_ext. intros. ring.
  - rewrite Rmult_plus_distr_l, <- Hrow. f_equal. rewrite <- sumn_scal_l. apply sumn_ext. intros. ring.
  - rewrite Rmult_plus_distr_l. f_equal.
    + unfold vmat. rewrite <- (conj_row n (fst v) (fst u) K KT HT), <- sumn_scal_l. apply sumn_ext. intros. ring.
    + destruct D as [-> | ->]; cbn [Nat.eqb]; cbn [sumn].
      * field. exact Hd.
      * unfold mmul, transpose. cbn [sumn]. field. exact Hd.
  - cbn [sumn]. rewrite Rplus_0_r, Rplus_0_r, <- sumn_scal_l. apply sumn_ext. intros. ring.
Qed.

(** * A solid carried along by a rigid motion (C69)
    The residual evaluated by the solid module (solid_mechanics.hpp:808-1103, through Functional) in a configuration that
    was moved as a rigid body after the deformation, with the loads turned along: the nodal forces turn with the body. *)
From Coq Require Import NArith ZArith Reals List Lia Lra Bool.
From Verif Require Import Prelude DofCodec Sums Restriction Kernels FunctionalModel Assembly Tensor MatAlg Materials MaterialFacts ShapeAware WeakForm WeakFormFacts WeakFormPhysics WeakFormWork Ode Energy EnergySolid.
Import ListNotations.
Local Open Scope R_scope.

(** ** specification *)
(** what a turned observer sees of a vector *)
Definition turn (n : nat) (Q : mat) (v : vec) : vec := fun i => sumn n (fun d => Q i d * v d).
(** the stress of the material turns with the body, and loads at time t' are those of time t turned; a pressure follows
    the deformed surface *)
Definition turned {St} (n : nat) (Q : mat) (t t' : R) (T : solid_term St) : Prop :=
  match T with
  | SMaterial on _ sigma => on = true /\ forall st H H' s, sigma st H = Some s -> meq n H' (rotated n Q H) ->
      exists s', sigma st H' = Some s' /\ meq n s' (mmul n (mmul n Q s) (transpose Q))
  | SBody b => forall X i, (i < n)%nat -> b X t' i = turn n Q (b X t) i
  | STraction tr => forall X nu i, (i < n)%nat -> tr X nu t' i = turn n Q (tr X nu t) i
  | SPressure on p => on = true /\ forall X, p X t' = p X t
  end.
(** nodal displacements U' place every node where the rigid motion x -> Q x + c takes it from where U placed it *)
Definition carried (n nn : nat) (Q : mat) (c : vec) (xref U U' : nat -> nat -> R) : Prop :=
  forall a i, (a < nn)%nat -> (i < n)%nat -> xref a i + U' a i = turn n Q (fun d => xref a d + U a d) i + c i.

(** ** algebra *)
Lemma turn_adjoint n Q v w : sumn n (fun i => turn n Q v i * w i) = sumn n (fun d => v d * turn n (transpose Q) w d).
Proof.
  unfold turn, transpose. rewrite (sumn_ext n _ (fun i => sumn n (fun d => v d * (Q i d * w i)))).
  - rewrite sumn_swap. apply sumn_ext. intros d _. now rewrite sumn_scal_l.
  - intros i _. rewrite <- sumn_scal_r. apply sumn_ext. intros. ring.
Qed.
Lemma turn_ext n Q v w i : (forall d, (d < n)%nat -> v d = w d) -> turn n Q v i = turn n Q w i.
Proof. intros H. apply sumn_ext. intros d Hd. now rewrite H. Qed.
Lemma turn_scal n Q c v i : turn n Q (fun d => c * v d) i = c * turn n Q v i.
Proof. unfold turn. rewrite <- sumn_scal_l. apply sumn_ext. intros. ring. Qed.

(** a rotation takes the area vector along *)
Lemma turn_back n Q v i : rotation n Q -> (i < n)%nat -> turn n Q (turn n (transpose Q) v) i = v i.
Proof.
  intros (_ & Q2 & _) Hi. unfold turn, transpose.
  rewrite (sumn_ext n _ (fun d => sumn n (fun l => Q i d * Q l d * v l))) by (intros; rewrite <- sumn_scal_l; apply sumn_ext; intros; ring).
  rewrite sumn_swap. rewrite (sumn_ext n _ (fun l => if Nat.eqb l i then v l else 0)); [now rewrite sumn_delta|].
  intros l Hl. rewrite sumn_scal_r. specialize (Q2 i l Hi Hl). unfold mmul, transpose, ident in Q2. rewrite Q2, Nat.eqb_sym. destruct (Nat.eqb l i); ring.
Qed.
Lemma detn_bordered n Q v D : dim23 n -> rotation n Q -> detn n (bordered v (fun r c => turn n Q (fun d => D d c) r)) = detn n (bordered (turn n (transpose Q) v) D).
Proof.
  intros Dm HQ. transitivity (detn n (mmul n Q (bordered (turn n (transpose Q) v) D))).
  - apply detn_ext; [exact Dm|]. intros i j Hi Hj. unfold mmul. destruct j as [|j]; cbn [bordered]; [|reflexivity].
    symmetry. now apply (turn_back n Q v i).
  - destruct HQ as (_ & _ & Q3). rewrite detn_mul, Q3 by exact Dm. ring.
Qed.
Lemma crossn_turn n Q D i : dim23 n -> rotation n Q -> (i < n)%nat -> crossn n (fun r c => turn n Q (fun d => D d c) r) i = turn n Q (crossn n D) i.
Proof.
  intros Dm HQ Hi.
  assert (A : sumn n (fun k => crossn n (fun r c => turn n Q (fun d => D d c) r) k * (if Nat.eqb k i then 1 else 0)) =
              sumn n (fun k => turn n Q (crossn n D) k * (if Nat.eqb k i then 1 else 0))).
  { rewrite crossn_volume by exact Dm. rewrite detn_bordered by auto. rewrite turn_adjoint. now rewrite <- crossn_volume. }
  rewrite (sumn_ext n _ (fun k => if Nat.eqb k i then crossn n (fun r c => turn n Q (fun d => D d c) r) k else 0)) in A by (intros k _; destruct (Nat.eqb k i); ring).
  rewrite (sumn_ext n (fun k => turn n Q _ k * _) (fun k => if Nat.eqb k i then turn n Q (crossn n D) k else 0)) in A by (intros k _; destruct (Nat.eqb k i); ring).
  rewrite !sumn_delta in A by exact Hi. exact A.
Qed.

(** ** at a point *)
Lemma volume_invertible {St} n (T : solid_term St) t X J u a st p out : dim23 n -> solid_point n T t X J u a st = Some p -> point_out n p = Some out ->
  is_volume T = true -> exists K, invn n J = Some K.
Proof.
  intros D EP EO V. destruct T as [on rho sigma|b|tr|on pr]; try discriminate; cbn [solid_point] in EP.
  - unfold grad_phys, parent_to_physical in EP. destruct (invn n J) as [K|]; [now exists K|discriminate].
  - injection EP as <-. destruct (point_out_volume n _ _ _ out D EO) as (KT & EKT & _).
    destruct (invn n J) as [K|] eqn:EK; [now exists K|]. exfalso. destruct D as [-> | ->]; unfold invn in *; cbn [Nat.eqb] in *.
    + unfold inv2 in *. destruct (Req_EM_T (det2 J) 0) as [Z|]; [|discriminate]. destruct (Req_EM_T (det2 (transpose J)) 0) as [|NZ]; [discriminate|].
      apply NZ. rewrite <- Z. unfold det2, transpose. ring.
    + unfold inv3 in *. destruct (Req_EM_T (det3 J) 0) as [Z|]; [|discriminate]. destruct (Req_EM_T (det3 (transpose J)) 0) as [|NZ]; [discriminate|].
      apply NZ. rewrite <- Z. unfold det3, transpose. ring.
Qed.
Lemma grad_phys_at n J K u : invn n J = Some K -> grad_phys n J u = Some (grad_at n J u).
Proof. intros E. unfold grad_phys, parent_to_physical, grad_at. rewrite E. reflexivity. Qed.

(** gradient of the carried displacement *)
Lemma grad_carried n Q J K u u' : dim23 n -> invn n J = Some K ->
  (forall i k, (i < n)%nat -> (k < n)%nat -> J i k + u' i (S k) = turn n Q (fun d => J d k + u d (S k)) i) ->
  meq n (grad_at n J u') (rotated n Q (grad_at n J u)).
Proof.
  intros D EK HU i j Hi Hj. destruct (invn_some n J K D EK) as (JK & _ & _).
  assert (Id : forall a, (a < n)%nat -> sumn n (fun k => J a k * K k j) = ident a j) by (intros a Ha; exact (JK a j Ha Hj)).
  unfold grad_at, rotated. rewrite EK. unfold msub, mmul, defgrad, madd.
  rewrite (sumn_ext n (fun k => u' i (S k) * K k j) (fun k => turn n Q (fun d => J d k + u d (S k)) i * K k j - J i k * K k j)) by (intros k Hk; rewrite <- HU by auto; ring).
  rewrite sumn_minus, Id by exact Hi. f_equal. unfold turn.
  rewrite (sumn_ext n _ (fun k => sumn n (fun d => Q i d * ((J d k + u d (S k)) * K k j)))) by (intros; rewrite <- sumn_scal_r; apply sumn_ext; intros; ring).
  rewrite sumn_swap. apply sumn_ext. intros d Hd. rewrite sumn_scal_l. f_equal. rewrite <- (Id d Hd). rewrite Rplus_comm, <- sumn_plus. apply sumn_ext. intros. ring.
Qed.
Lemma grad_turn n Q J w w2 : (forall i k, (i < n)%nat -> (k < n)%nat -> w2 i (S k) = turn n Q (fun d => w d (S k)) i) ->
  forall i j, (i < n)%nat -> grad_at n J w2 i j = turn n Q (fun d => grad_at n J w d j) i.
Proof.
  intros H i j Hi. unfold grad_at. destruct (invn n J) as [K|].
  - rewrite (sumn_ext n _ (fun k => sumn n (fun d => Q i d * (w d (S k) * K k j)))).
    + rewrite sumn_swap. unfold turn. apply sumn_ext. intros d _. now rewrite sumn_scal_l.
    + intros k Hk. rewrite H by auto. unfold turn. rewrite <- sumn_scal_r. apply sumn_ext. intros. ring.
  - unfold turn. symmetry. apply sumn_zero. intros. ring.
Qed.
(** the Piola stress turns on its left leg *)
Lemma piola_turned {St} n Q t t' (T : solid_term St) st H H' P : dim23 n -> rotation n Q -> turned n Q t t' T -> meq n H' (rotated n Q H) ->
  is_piola n T st H P -> is_piola n T st H' (mmul n Q P).
Proof.
  intros D HQ HT EH HP. destruct T as [on rho sigma|b|tr|on pr]; cbn [is_piola turned] in *; try exact I.
  destruct HT as [-> Ob]. destruct HP as (s & Es & Ep). destruct (Ob st H H' s Es EH) as (s' & Es' & Eq). exists s'. split; [exact Es'|].
  change (fun i j => ident i j + H i j) with (madd ident H) in *. change (fun i j => ident i j + H' i j) with (madd ident H').
  assert (EF : meq n (madd ident H') (mmul n Q (madd ident H))).
  { rewrite EH. assert (EG : meq n (defgrad H) (madd ident H)) by (intros i j _ _; unfold defgrad, madd; ring).
    unfold rotated. rewrite EG. intros i j _ _. unfold madd at 1, msub. ring. }
  rewrite (detn_ext n _ _ D EF), detn_mul by exact D. destruct HQ as (_ & _ & Q3). rewrite Q3, Rmult_1_l.
  rewrite EF, Eq, transpose_mul. rewrite mmul_assoc, <- (mmul_assoc n P (transpose (madd ident H)) (transpose Q)), Ep.
  rewrite mmul_scal_l, mmul_scal_r, mmul_assoc. reflexivity.
Qed.

Lemma power_turned {St} n Q t t' (T : solid_term St) X J u u' a a' w w2 P Hw Hw2 : dim23 n -> rotation n Q -> turned n Q t t' T ->
  (forall i k, (i < n)%nat -> (k < (if is_volume T then n else n - 1))%nat -> J i k + u' i (S k) = turn n Q (fun d => J d k + u d (S k)) i) ->
  (forall i, (i < n)%nat -> a' i 0%nat = turn n Q (fun d => a d 0%nat) i) ->
  (forall i, (i < n)%nat -> w2 i 0%nat = turn n (transpose Q) (fun d => w d 0%nat) i) ->
  (is_volume T = true -> forall i j, (i < n)%nat -> (j < n)%nat -> Hw2 i j = turn n (transpose Q) (fun d => Hw d j) i) ->
  solid_power n T t' X J u' a' w (mmul n Q P) Hw = solid_power n T t X J u a w2 P Hw2.
Proof.
  intros D HQ HT HU HA HW HG.
  assert (Adj : forall v v' : vec, (forall i, (i < n)%nat -> v' i = turn n Q v i) -> sumn n (fun i => v' i * w i 0%nat) = sumn n (fun i => v i * w2 i 0%nat)).
  { intros v v' E. rewrite (sumn_ext n _ (fun i => turn n Q v i * w i 0%nat)) by (intros i Hi; now rewrite E). rewrite turn_adjoint.
    apply sumn_ext. intros i Hi. now rewrite HW. }
  destruct T as [on rho sigma|b|tr|on pr]; cbn [solid_power turned is_volume] in *.
  - f_equal. f_equal.
    + apply (Adj (fun i => rho * a i 0%nat) (fun i => rho * a' i 0%nat)). intros i Hi. rewrite HA, turn_scal by auto. reflexivity.
    + rewrite (sumn_ext n _ (fun i => sumn n (fun j => turn n Q (fun d => P d j) i * Hw i j))) by reflexivity.
      rewrite sumn_swap. rewrite (sumn_ext n _ (fun j => sumn n (fun d => P d j * turn n (transpose Q) (fun i => Hw i j) d))) by (intros j _; apply (turn_adjoint n Q (fun d => P d j) (fun i => Hw i j))).
      rewrite sumn_swap. apply sumn_ext. intros d Hd. apply sumn_ext. intros j Hj. now rewrite HG.
  - f_equal. f_equal. apply Adj. intros i Hi. now apply HT.
  - f_equal. f_equal. apply Adj. intros i Hi. now apply HT.
  - destruct HT as [-> Hp]. rewrite Hp. f_equal. apply Adj. intros i Hi.
    rewrite <- (crossn_turn n Q (fun r c => J r c + u r (S c)) i D HQ Hi). apply crossn_ext; [exact D|]. intros r c Hr Hc. now rewrite HU.
Qed.

(** a term that can be evaluated can still be evaluated after the motion *)
Lemma point_turned {St} n Q t t' (T : solid_term St) X J u u' a a' st p out : dim23 n -> rotation n Q -> turned n Q t t' T ->
  (forall i k, (i < n)%nat -> (k < (if is_volume T then n else n - 1))%nat -> J i k + u' i (S k) = turn n Q (fun d => J d k + u d (S k)) i) ->
  solid_point n T t X J u a st = Some p -> point_out n p = Some out -> exists p' out', solid_point n T t' X J u' a' st = Some p' /\ point_out n p' = Some out'.
Proof.
  intros D HQ HT HU EP EO. assert (INV := volume_invertible n T t X J u a st p out D EP EO).
  assert (VO : forall s P s' P' out0, point_out n (Volume J s P) = Some out0 -> exists out', point_out n (Volume J s' P') = Some out').
  { intros s P s' P' out0 E. unfold point_out, physical_to_parent in *. destruct (invn n (transpose J)); [eauto|discriminate]. }
  destruct T as [on rho sigma|b|tr|on pr]; cbn [solid_point is_volume turned] in *.
  - destruct HT as [-> Ob]. destruct (INV eq_refl) as (K & EK). rewrite (grad_phys_at n J K u EK) in EP. rewrite (grad_phys_at n J K u' EK).
    assert (ER := grad_carried n Q J K u u' D EK HU). set (H := grad_at n J u) in *. set (H' := grad_at n J u') in *.
    destruct (sigma st H) as [s|] eqn:Es; [|discriminate]. destruct (Ob st H H' s Es ER) as (s' & -> & _).
    destruct (flux n true s H) as [P|] eqn:EF; [|discriminate]. injection EP as <-. unfold flux in *.
    destruct (invn n (madd (madd (mscal 0 H) ident) H)) as [B|] eqn:EB; [|discriminate]. destruct (invn_some n _ B D EB) as (_ & _ & NZ).
    destruct (invn_works n (madd (madd (mscal 0 H') ident) H') D) as (B' & EB').
    { assert (E1 : meq n (madd (madd (mscal 0 H') ident) H') (mmul n Q (madd (madd (mscal 0 H) ident) H))).
      { assert (EG : meq n (defgrad H) (madd (madd (mscal 0 H) ident) H)) by (intros i j _ _; unfold defgrad, madd, mscal; ring).
        rewrite <- EG. rewrite ER. unfold rotated. intros i j _ _. unfold madd at 1 2, mscal, msub. ring. }
      destruct HQ as (_ & _ & Q3). rewrite (detn_ext n _ _ D E1), detn_mul, Q3 by exact D. now rewrite Rmult_1_l. }
    rewrite EB'. edestruct VO as (out' & E'); [exact EO|]. eexists _, out'. split; [reflexivity|exact E'].
  - injection EP as <-. edestruct VO as (out' & E'); [exact EO|]. eexists _, out'. split; [reflexivity|exact E'].
  - destruct (Req_EM_T _ _); [discriminate|]. eexists _, _. split; reflexivity.
  - destruct (Req_EM_T _ _); [discriminate|]. eexists _, _. split; reflexivity.
Qed.

(** ** nodal fields *)
Section Nodal.
Context {St : Type}.
Lemma argument_nodal n (f : functional St) o nn Ls s k Ig g G r le q i b : all_fit f -> layout f o nn n -> two_spaces n f -> (s <= 1)%nat ->
  nth_error (f_integrals f) k = Some Ig -> nth_error (i_geoms Ig) g = Some G -> nth_error (f_test f (i_type Ig)) g = Some r ->
  (le < length (gk_elems G))%nat -> (i < n)%nat ->
  qf_inputs G g (Es_of f Ls Ig) le q s i b = field_at G r (fun a c => nth (dof_number o nn n a c) (Ls s) 0) le q i b.
Proof.
  intros Hfit Hlay [S1 S2] Hs E1 E2 E3 Hle Hi. assert (HI : In Ig (f_integrals f)) by (now apply nth_error_In in E1).
  assert (Hr : In r (f_test f (i_type Ig))) by (now apply nth_error_In in E3).
  destruct (S2 Ig HI) as [(rest & Ea) S3]. destruct (S3 G (nth_error_In _ _ E2)) as (T0 & T1 & _). unfold qf_inputs.
  assert (ET : gk_trial G s = gk_test G) by (destruct s as [|[|s]]; auto; lia). rewrite ET.
  unfold field_at. apply interpolate_ext. intros j Hj. unfold elem_dofs, Es_of. rewrite Ea.
  assert (EE : nth g (nth s (map (fun w => map (fun r0 => gatherF r0 (Ls w)) (f_trial f w (i_type Ig))) (0%nat :: 1%nat :: rest)) []) [] = gatherF r (Ls s)).
  { destruct (S1 (i_type Ig)) as [H0 H1]. destruct s as [|[|s]]; [| |lia]; cbn [map nth]; rewrite ?H0, ?H1; apply (nth_error_nth (map (fun r0 => gatherF r0 _) (f_test f (i_type Ig))) g [] (map_nth_error (fun r0 => gatherF r0 _) g _ E3)). }
  rewrite EE.
  destruct (Hfit Ig g G r HI E2 E3) as (F1 & F2 & F3). destruct (Hlay (i_type Ig) r Hr) as (Hp & Ho & Hnn & Hnc). rewrite F1, F2.
  assert (Hel : (nth le (gk_elems G) 0 < r_num_elements r)%nat) by (now apply F3, nth_In).
  rewrite gatherF_entry by (auto; lia). destruct (plain_node_of r (nth le (gk_elems G) 0%nat) i j Hp Hel) as [A B]; [lia|lia|].
  now rewrite B, Ho, Hnn, Hnc.
Qed.
(** an element only reads its own nodes *)
Lemma field_nodes (f : functional St) o nn n k Ig g G r h h' le q i b : all_fit f -> layout f o nn n ->
  nth_error (f_integrals f) k = Some Ig -> nth_error (i_geoms Ig) g = Some G -> nth_error (f_test f (i_type Ig)) g = Some r -> (le < length (gk_elems G))%nat -> (i < n)%nat ->
  (forall a, (a < nn)%nat -> h a i = h' a i) -> field_at G r h le q i b = field_at G r h' le q i b.
Proof.
  intros Hfit Hlay E1 E2 E3 Hle Hi H. assert (HI : In Ig (f_integrals f)) by (now apply nth_error_In in E1).
  assert (Hr : In r (f_test f (i_type Ig))) by (now apply nth_error_In in E3).
  destruct (Hfit Ig g G r HI E2 E3) as (F1 & F2 & F3). destruct (Hlay (i_type Ig) r Hr) as (Hp & Ho & Hnn & Hnc).
  assert (Hel : (nth le (gk_elems G) 0 < r_num_elements r)%nat) by (now apply F3, nth_In).
  unfold field_at. apply interpolate_ext. intros j Hj. destruct (plain_node_of r (nth le (gk_elems G) 0%nat) i j Hp Hel) as [A _]; [lia|lia|].
  apply H. now rewrite <- Hnn.
Qed.
Lemma field_turn (G : gkernel St) r n Q h le q i b : field_at G r (fun a c => turn n Q (h a) c) le q i b = turn n Q (fun d => field_at G r h le q d b) i.
Proof.
  unfold field_at, interpolate, turn.
  rewrite (sumn_ext _ _ (fun k => sumn n (fun d => Q i d * (h (node_of r (nth le (gk_elems G) 0%nat) k) d * es_B (gk_test G) k q b)))) by (intros; rewrite <- sumn_scal_r; apply sumn_ext; intros; ring).
  rewrite sumn_swap. apply sumn_ext. intros d _. now rewrite sumn_scal_l.
Qed.
Lemma field_plus (G : gkernel St) r h h' le q i b : field_at G r (fun a c => h a c + h' a c) le q i b = field_at G r h le q i b + field_at G r h' le q i b.
Proof. unfold field_at, interpolate. rewrite <- sumn_plus. apply sumn_ext. intros. ring. Qed.
End Nodal.

(** ** the residual *)
(** the k-th integral of the functional computes the k-th term, whatever the state it is evaluated at *)
Definition implements {St} (n : nat) (f : functional St) (terms : list (solid_term St)) (pos : nat -> nat -> nat -> nat -> vec) (jac : nat -> nat -> nat -> nat -> mat) : Prop :=
  forall k Ig g G le q, nth_error (f_integrals f) k = Some Ig -> nth_error (i_geoms Ig) g = Some G -> (le < length (gk_elems G))%nat -> (q < gk_nq G)%nat ->
  exists T, nth_error terms k = Some T /\ gk_dim1 G = (if is_volume T then S n else n) /\
    forall t v st p out, solid_point n T t (pos k g le q) (jac k g le q) (v 0%nat) (v 1%nat) st = Some p -> point_out n p = Some out ->
    forall i b, (i < n)%nat -> (b < gk_dim1 G)%nat -> fst (gk_qf G le q t v st) i b = out i b.
(** value of component i of node a *)
Definition nodal_values (o : ordering) (nn n : nat) (Lw : list R) : nat -> nat -> R := fun a i => nth (dof_number o nn n a i) Lw 0.

Section Frame.
Context {St : Type} (n : nat) (D : dim23 n) (f : functional St) (o : ordering) (nn : nat) (terms : list (solid_term St))
  (pos : nat -> nat -> nat -> nat -> vec) (jac : nat -> nat -> nat -> nat -> mat) (xref : nat -> nat -> R) (Q : mat) (c : vec).
Context (t t' : R) (Ls Ls' : nat -> list R) (m m' : mem St).
Notation nodal_values := (nodal_values o nn n).
Hypothesis (HQ : rotation n Q) (Hfit : all_fit f) (Hlay : layout f o nn n) (TS : two_spaces n f) (HX : isoparametric n f pos jac xref) (HU1 : unity f)
  (RES : solid_residual n f t Ls m terms pos jac) (Hst : forall k g le q, m_q m' k g le q = m_q m k g le q)
  (HT : List.Forall (turned n Q t t') terms)
  (HU : carried n nn Q c xref (nodal_values (Ls 0%nat)) (nodal_values (Ls' 0%nat)))
  (HA : forall a i, (a < nn)%nat -> (i < n)%nat -> nodal_values (Ls' 1%nat) a i = turn n Q (nodal_values (Ls 1%nat) a) i).

Lemma carried_fields k Ig g G le q r (V : bool) : nth_error (f_integrals f) k = Some Ig -> nth_error (i_geoms Ig) g = Some G -> nth_error (f_test f (i_type Ig)) g = Some r ->
  (le < length (gk_elems G))%nat -> (q < gk_nq G)%nat -> gk_dim1 G = (if V then S n else n) ->
  (forall i j, (i < n)%nat -> (j < (if V then n else n - 1))%nat -> jac k g le q i j + qf_inputs G g (Es_of f Ls' Ig) le q 0%nat i (S j) =
     turn n Q (fun d => jac k g le q d j + qf_inputs G g (Es_of f Ls Ig) le q 0%nat d (S j)) i) /\
  (forall i, (i < n)%nat -> qf_inputs G g (Es_of f Ls' Ig) le q 1%nat i 0%nat = turn n Q (fun d => qf_inputs G g (Es_of f Ls Ig) le q 1%nat d 0%nat) i).
Proof.
  intros E1 E2 E3 Hle Hq Ed.
  destruct (HX k Ig g G r le q E1 E2 E3 Hle Hq) as [_ X2].
  destruct (HU1 Ig G q (nth_error_In _ _ E1) (nth_error_In _ _ E2) Hq) as [_ U2].
  assert (U : forall s Lv i b, (s <= 1)%nat -> (i < n)%nat -> qf_inputs G g (Es_of f Lv Ig) le q s i b = field_at G r (nodal_values (Lv s)) le q i b)
    by (intros s Lv i b Hs Hi; now apply (argument_nodal n f o nn Lv s k Ig g G r le q i b)).
  split.
  - intros i j Hi Hj. assert (Hj' : (S j < gk_dim1 G)%nat) by (rewrite Ed; destruct V; lia).
    rewrite <- X2, U, <- field_plus by (auto; lia).
    rewrite (field_nodes f o nn n k Ig g G r _ (fun a i => turn n Q (fun d => xref a d + nodal_values (Ls 0%nat) a d) i + (fun (_ : nat) => c) a i) le q i (S j) Hfit Hlay E1 E2 E3 Hle Hi)
      by (intros a Ha; now apply HU).
    rewrite (field_plus G r (fun a i => turn n Q (fun d => xref a d + nodal_values (Ls 0%nat) a d) i) (fun _ => c)), (field_turn G r n Q (fun a d => xref a d + nodal_values (Ls 0%nat) a d)).
    assert (Z : field_at G r (fun _ => c) le q i (S j) = 0).
    { unfold field_at, interpolate. rewrite sumn_scal_l, U2 by exact Hj'. cbn [Nat.eqb]. ring. }
    rewrite Z, Rplus_0_r. apply turn_ext. intros d Hd. rewrite field_plus, X2, U by (auto; lia). reflexivity.
  - intros i Hi. rewrite U by auto. rewrite (field_nodes f o nn n k Ig g G r _ (fun a i => turn n Q (nodal_values (Ls 1%nat) a) i) le q i 0%nat Hfit Hlay E1 E2 E3 Hle Hi) by (intros a Ha; now apply HA).
    rewrite (field_turn G r n Q (nodal_values (Ls 1%nat))). apply turn_ext. intros d Hd. now rewrite U.
Qed.

(** the residual can be evaluated after the motion *)
Lemma carried_residual N : wf f N (fun w => length (Ls w)) -> implements n f terms pos jac ->
  solid_residual n f t' Ls' m' terms pos jac.
Proof.
  intros HW IMP k Ig g G le q E1 E2 Hle Hq. destruct (RES k Ig g G le q E1 E2 Hle Hq) as (T & p & out & ET & EP & EO & Ed & EQ).
  destruct (HW Ig (nth_error_In _ _ E1)) as (_ & _ & Hlen & _).
  destruct (IMP k Ig g G le q E1 E2 Hle Hq) as (T' & ET' & _ & HI). rewrite ET in ET'. injection ET' as <-.
  destruct (nth_error (f_test f (i_type Ig)) g) as [r|] eqn:E3.
  2:{ exfalso. apply nth_error_None in E3. rewrite <- Hlen in E3. apply nth_error_None in E3. congruence. }
  destruct (carried_fields k Ig g G le q r (is_volume T) E1 E2 E3 Hle Hq Ed) as [HC _].
  assert (HTT := proj1 (Forall_forall _ _) HT T (nth_error_In _ _ ET)).
  destruct (point_turned n Q t t' T (pos k g le q) (jac k g le q) _ _ _ (qf_inputs G g (Es_of f Ls' Ig) le q 1%nat) _ p out D HQ HTT HC EP EO) as (p' & out' & EP' & EO').
  exists T, p', out'. split; [exact ET|]. rewrite Hst. split; [exact EP'|]. split; [exact EO'|]. split; [exact Ed|].
  intros i b Hi Hb. unfold qf_out. rewrite Hst. now apply (HI t' (qf_inputs G g (Es_of f Ls' Ig) le q) _ p' out' EP' EO').
Qed.

Context (wrt wrt' : option nat) (upd upd' : bool) (m1 m1' : mem St) (L L' : list R).
Hypothesis (Hwf : wf f (nn * n) (fun w => length (Ls w))) (Hwf' : wf f (nn * n) (fun w => length (Ls' w)))
  (EV : evaluate f t wrt upd Ls (nn * n) m = Ok (L, m1)) (EV' : evaluate f t' wrt' upd' Ls' (nn * n) m' = Ok (L', m1'))
  (RES' : solid_residual n f t' Ls' m' terms pos jac).
Lemma frame_tested h : sumn nn (fun a => sumn n (fun i => nodal_values L' a i * h a i)) =
  sumn nn (fun a => sumn n (fun i => nodal_values L a i * turn n (transpose Q) (h a) i)).
Proof.
  unfold FrameResidual.nodal_values.
  rewrite (tested f t' wrt' upd' Ls' m' m1' L' o nn n Hwf' Hfit Hlay EV' h).
  rewrite (tested f t wrt upd Ls m m1 L o nn n Hwf Hfit Hlay EV (fun a i => turn n (transpose Q) (h a) i)).
  apply over_points_ext. intros k Ig g G r le q E1 E2 E3 Hle Hq.
  destruct (RES k Ig g G le q E1 E2 Hle Hq) as (T & p & out & ET & EP & EO & Ed & EQ).
  destruct (RES' k Ig g G le q E1 E2 Hle Hq) as (T' & p' & out' & ET' & EP' & EO' & Ed' & EQ'). rewrite ET in ET'. injection ET' as <-. rewrite Hst in EP'.
  assert (HTT := proj1 (Forall_forall _ _) HT T (nth_error_In _ _ ET)).
  destruct (carried_fields k Ig g G le q r (is_volume T) E1 E2 E3 Hle Hq Ed) as [HC HAC].
  set (u := qf_inputs G g (Es_of f Ls Ig) le q 0%nat) in *. set (u' := qf_inputs G g (Es_of f Ls' Ig) le q 0%nat) in *.
  set (ac := qf_inputs G g (Es_of f Ls Ig) le q 1%nat) in *. set (ac' := qf_inputs G g (Es_of f Ls' Ig) le q 1%nat) in *.
  set (J := jac k g le q) in *. set (X := pos k g le q) in *. set (w := field_at G r h le q).
  set (w2 := field_at G r (fun a i => turn n (transpose Q) (h a) i) le q).
  assert (HW : forall i b, w2 i b = turn n (transpose Q) (fun d => w d b) i) by (intros; unfold w2, w; apply (field_turn G r n (transpose Q) h)).
  transitivity (sumn n (fun i => sumn (if is_volume T then S n else n) (fun b => out' i b * w i b))).
  { apply sumn_ext. intros i Hi. rewrite Ed. apply sumn_ext. intros b Hb. now rewrite EQ' by (auto; rewrite Ed; auto). }
  transitivity (sumn n (fun i => sumn (if is_volume T then S n else n) (fun b => out i b * w2 i b))).
  2:{ apply sumn_ext. intros i Hi. rewrite Ed. apply sumn_ext. intros b Hb. now rewrite EQ by (auto; rewrite Ed; auto). }
  assert (INV := volume_invertible n T t X J u ac _ p out D EP EO).
  assert (GR : is_volume T = true -> forall v, grad_phys n J v = Some (grad_at n J v)) by (intros V v; destruct (INV V) as (K & EK); now apply (grad_phys_at n J K)).
  assert (PI : exists P, is_piola n T (m_q m k g le q) (grad_at n J u) P /\ is_piola n T (m_q m k g le q) (grad_at n J u') (mmul n Q P)).
  { destruct (is_volume T) eqn:V; [|exists (fun _ _ => 0); destruct T; try discriminate; now split].
    assert (ER : meq n (grad_at n J u') (rotated n Q (grad_at n J u))) by (destruct (INV eq_refl) as (K & EK); now apply (grad_carried n Q J K)).
    assert (E0 : exists P, is_piola n T (m_q m k g le q) (grad_at n J u) P).
    { destruct T as [on rho sigma|b|tr|on pr]; try (exists (fun _ _ => 0); exact I). cbn [solid_point] in EP. rewrite (GR eq_refl u) in EP.
      destruct (sigma _ (grad_at n J u)) as [s|] eqn:Es; [|discriminate]. destruct (flux n on s _) as [P|] eqn:EF; [|discriminate].
      exists P, s. split; [exact Es|]. now apply flux_moment. }
    destruct E0 as (P & HP). exists P. split; [exact HP|]. now apply (piola_turned n Q t t' T _ (grad_at n J u)). }
  destruct PI as (P & HP & HP').
  rewrite (solid_point_power n T t' X J u' ac' _ p' out' (grad_at n J u') w (grad_at n J w) D EP' EO' (fun V => GR V u') (fun V => GR V w) (mmul n Q P) HP').
  rewrite (solid_point_power n T t X J u ac _ p out (grad_at n J u) w2 (grad_at n J w2) D EP EO (fun V => GR V u) (fun V => GR V w2) P HP).
  apply (power_turned n Q t t'); auto.
  intros V i j Hi Hj. now apply (grad_turn n (transpose Q) J w w2).
Qed.

(** the nodal forces turn with the body *)
Theorem frame a i : (a < nn)%nat -> (i < n)%nat -> nodal_values L' a i = turn n Q (nodal_values L a) i.
Proof.
  intros Ha Hi. pose (h := fun b j => if Nat.eqb b a then if Nat.eqb j i then 1 else 0 else 0).
  assert (A := frame_tested h).
  assert (S1 : forall V : nat -> nat -> R, sumn nn (fun b => sumn n (fun j => V b j * h b j)) = V a i).
  { intros V. rewrite (sumn_ext nn _ (fun b => if Nat.eqb b a then V b i else 0)); [now rewrite (sumn_delta nn a (fun b => V b i))|].
    intros b _. unfold h. destruct (Nat.eqb b a); [|apply sumn_zero; intros; ring].
    rewrite (sumn_ext n _ (fun j => if Nat.eqb j i then V b j else 0)) by (intros j _; destruct (Nat.eqb j i); ring). now rewrite sumn_delta. }
  rewrite S1 in A. rewrite A. rewrite <- (S1 (fun b => turn n Q (nodal_values L b))). apply sumn_ext. intros b _. symmetry. apply turn_adjoint.
Qed.
End Frame.

Theorem rigid_motion {St} n (f : functional St) o nn terms pos jac xref Q c t t' Ls Ls' (m m1 m' : mem St) wrt wrt' upd upd' L :
  dim23 n -> wf f (nn * n) (fun w => length (Ls w)) -> all_fit f -> layout f o nn n -> two_spaces n f -> isoparametric n f pos jac xref -> unity f -> implements n f terms pos jac ->
  rotation n Q -> List.Forall (turned n Q t t') terms ->
  evaluate f t wrt upd Ls (nn * n) m = Ok (L, m1) -> solid_residual n f t Ls m terms pos jac ->
  (forall k g le q, m_q m' k g le q = m_q m k g le q) -> (forall w, length (Ls' w) = length (Ls w)) ->
  carried n nn Q c xref (nodal_values o nn n (Ls 0%nat)) (nodal_values o nn n (Ls' 0%nat)) ->
  (forall a i, (a < nn)%nat -> (i < n)%nat -> nodal_values o nn n (Ls' 1%nat) a i = turn n Q (nodal_values o nn n (Ls 1%nat) a) i) ->
  exists L' m1', evaluate f t' wrt' upd' Ls' (nn * n) m' = Ok (L', m1') /\ solid_residual n f t' Ls' m' terms pos jac /\
    forall a i, (a < nn)%nat -> (i < n)%nat -> nodal_values o nn n L' a i = turn n Q (nodal_values o nn n L a) i.
Proof.
  intros D W F Lay TS HX HU IMP HQ HT EV RES Hst Hlen HC HA.
  assert (W' : wf f (nn * n) (fun w => length (Ls' w))).
  { intros Ig HI. destruct (W Ig HI) as (A & B & C1 & C2). split; [exact A|]. split; [|now split]. intros w r. rewrite Hlen. apply B. }
  assert (RES' := carried_residual n D f o nn terms pos jac xref Q c t t' Ls Ls' m m' HQ F Lay TS HX HU RES Hst HT HC HA (nn * n) W IMP).
  destruct (evaluate_spec f t' wrt' upd' Ls' (nn * n) m' W') as (L' & E' & _). eexists L', _. split; [exact E'|]. split; [exact RES'|].
  intros a i Ha Hi. eapply (frame n D f o nn terms pos jac xref Q c t t' Ls Ls' m m'); eauto.
Qed.

(** equilibrium is kept *)
Theorem equilibrium_kept {St} n (f : functional St) o nn terms pos jac xref Q c t t' Ls Ls' (m m1 m' : mem St) wrt wrt' upd upd' L :
  dim23 n -> wf f (nn * n) (fun w => length (Ls w)) -> all_fit f -> layout f o nn n -> two_spaces n f -> isoparametric n f pos jac xref -> unity f -> implements n f terms pos jac ->
  rotation n Q -> List.Forall (turned n Q t t') terms ->
  evaluate f t wrt upd Ls (nn * n) m = Ok (L, m1) -> solid_residual n f t Ls m terms pos jac ->
  (forall k g le q, m_q m' k g le q = m_q m k g le q) -> (forall w, length (Ls' w) = length (Ls w)) ->
  carried n nn Q c xref (nodal_values o nn n (Ls 0%nat)) (nodal_values o nn n (Ls' 0%nat)) ->
  (forall a i, (a < nn)%nat -> (i < n)%nat -> nodal_values o nn n (Ls' 1%nat) a i = turn n Q (nodal_values o nn n (Ls 1%nat) a) i) ->
  exists L' m1', evaluate f t' wrt' upd' Ls' (nn * n) m' = Ok (L', m1') /\
    forall a, (a < nn)%nat -> ((forall i, (i < n)%nat -> nodal_values o nn n L a i = 0) <-> (forall i, (i < n)%nat -> nodal_values o nn n L' a i = 0)).
Proof.
  intros D W F Lay TS HX HU IMP HQ HT EV RES Hst Hlen HC HA.
  destruct (rigid_motion n f o nn terms pos jac xref Q c t t' Ls Ls' m m1 m' wrt wrt' upd upd' L D W F Lay TS HX HU IMP HQ HT EV RES Hst Hlen HC HA) as (L' & m1' & E & _ & H).
  exists L', m1'. split; [exact E|]. intros a Ha. split.
  - intros Z i Hi. rewrite H by auto. unfold turn. apply sumn_zero. intros d Hd. rewrite Z by auto. ring.
  - intros Z i Hi. destruct HQ as (Q1 & _ & _).
    transitivity (turn n (transpose Q) (turn n Q (nodal_values o nn n L a)) i).
    + unfold turn. rewrite (sumn_ext n _ (fun d => sumn n (fun l => transpose Q i d * Q d l * nodal_values o nn n L a l))) by (intros; rewrite <- sumn_scal_l; apply sumn_ext; intros; ring).
      rewrite sumn_swap. rewrite (sumn_ext n _ (fun l => if Nat.eqb l i then nodal_values o nn n L a l else 0)); [now rewrite (sumn_delta n i)|].
      intros l Hl. rewrite sumn_scal_r. specialize (Q1 i l Hi Hl). unfold mmul, ident in Q1. rewrite Q1, Nat.eqb_sym. destruct (Nat.eqb l i); ring.
    + unfold turn at 1. apply sumn_zero. intros d Hd. rewrite <- H by auto. rewrite Z by auto. ring.
Qed.

(** ** materials *)
Lemma defgrad_ext n A B : meq n A B -> meq n (defgrad A) (defgrad B).
Proof. intros E i j Hi Hj. unfold defgrad, madd. now rewrite E. Qed.
Lemma push_same n H H' S S' s : dim23 n -> meq n H H' -> meq n S S' -> push n H S = Some s -> exists s', push n H' S' = Some s' /\ meq n s' s.
Proof.
  intros D EH ES E. unfold push in *. rewrite <- (detn_ext n _ _ D (defgrad_ext n H H' EH)). destruct (Req_EM_T (detn n (defgrad H)) 0); [discriminate|]. injection E as <-.
  eexists. split; [reflexivity|]. apply mscal_proper; [reflexivity|]. now rewrite (defgrad_ext n H H' EH), ES.
Qed.
Lemma green_same n H H' : meq n H H' -> meq n (green_strain n H) (green_strain n H').
Proof. intros E. rewrite !green_alt. now rewrite (defgrad_ext n H H' E). Qed.
Lemma stvk_same n K G H H' s : dim23 n -> meq n H H' -> stvk n K G H = Some s -> exists s', stvk n K G H' = Some s' /\ meq n s' s.
Proof. intros D E. apply push_same; auto. unfold svk_S. now rewrite (green_same n H H' E). Qed.
Lemma neo_same n l G H H' s : dim23 n -> meq n H H' -> neo n l G H = Some s -> exists s', neo n l G H' = Some s' /\ meq n s' s.
Proof.
  intros D E Hs. destruct (neo_some n l G H s D Hs) as [J Es]. assert (Ed := detn_ext n _ _ D (defgrad_ext n H H' E)).
  destruct (neo_defined n l G H' D) as (s' & E'); [rewrite <- Ed; exact J|]. exists s'. split; [exact E'|].
  destruct (neo_some n l G H' s' D E') as [_ ->]. rewrite Es, <- Ed. apply mscal_proper; [reflexivity|]. apply madd_proper; [reflexivity|]. apply mscal_proper; [reflexivity|]. rewrite !b_alt. now rewrite (defgrad_ext n H H' E).
Qed.
Theorem materials_turn n K G Q t t' rho (St : Type) : dim23 n -> rotation n Q ->
  turned n Q t t' (SMaterial true rho (fun _ : St => stvk n K G)) /\ turned n Q t t' (SMaterial true rho (fun _ : St => neo_hookean n K G)).
Proof.
  intros D HQ. split; (split; [reflexivity|]); intros _ H H' s Es EH.
  - destruct (stvk_objective n K G Q H s D HQ Es) as (s1 & E1 & M1). destruct (stvk_same n K G _ H' s1 D (meq_sym _ _ _ EH) E1) as (s2 & E2 & M2). exists s2. split; [exact E2|]. now rewrite M2.
  - unfold neo_hookean in *. destruct (neo_objective n _ G Q H s D HQ Es) as (s1 & E1 & M1). destruct (neo_same n _ G _ H' s1 D (meq_sym _ _ _ EH) E1) as (s2 & E2 & M2). exists s2. split; [exact E2|]. now rewrite M2.
Qed.

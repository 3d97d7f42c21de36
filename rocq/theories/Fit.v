(** * Fitting a field to a function of fields (C64)
    fit (fit.hpp:21-52): the mass functional phi_phi returns the field's value as source, phi_f returns the user's
    function; the fitted field solves M c = b.  phi_phi is linear in its argument, so M c, the action of its gradient,
    is its value at c; the conjugate gradient solver of mfem is not modelled: the residual b - M c it leaves is a
    parameter of the theorems. *)
From Coq Require Import NArith ZArith Reals List Lia Lra Bool.
From Verif Require Import Prelude DofCodec Sums Restriction Kernels FunctionalModel Assembly Tensor MatAlg Materials ShapeAware WeakForm WeakFormFacts WeakFormPhysics.
Import ListNotations.
Local Open Scope R_scope.

Section Fit.
Context {St St' : Type}.

(** a functional with domain integrals only, whose integrands return the source [src] and no flux *)
Definition source_functional {S} (n : nat) (f : functional S) t Ls (m : mem S) (jac : nat -> nat -> nat -> nat -> mat) (src : nat -> nat -> nat -> nat -> vec) : Prop :=
  forall k Ig g G le q, nth_error (f_integrals f) k = Some Ig -> nth_error (i_geoms Ig) g = Some G -> (le < length (gk_elems G))%nat -> (q < gk_nq G)%nat ->
  exists out, point_out n (Volume (jac k g le q) (src k g le q) (fun _ _ => 0)) = Some out /\ gk_dim1 G = Datatypes.S n /\
    forall i b, (i < es_c (gk_test G))%nat -> (b < gk_dim1 G)%nat -> qf_out f t Ls m k Ig g G le q i b = out i b.
(** fit.hpp:31-37: the source is the value of argument 0 *)
Definition mass_functional {S} (n : nat) (f : functional S) t Ls (m : mem S) jac : Prop :=
  forall k Ig g G le q, nth_error (f_integrals f) k = Some Ig -> nth_error (i_geoms Ig) g = Some G -> (le < length (gk_elems G))%nat -> (q < gk_nq G)%nat ->
  exists out, point_out n (Volume (jac k g le q) (fun i => qf_inputs G g (Es_of f Ls Ig) le q 0%nat i 0%nat) (fun _ _ => 0)) = Some out /\ gk_dim1 G = Datatypes.S n /\
    forall i b, (i < es_c (gk_test G))%nat -> (b < gk_dim1 G)%nat -> qf_out f t Ls m k Ig g G le q i b = out i b.
(** two functionals with the same elements, quadrature rules and test space (fit.hpp:31, 43 use the same mesh and space) *)
Definition skeleton {S} (f : functional S) :=
  (f_test f, map (fun Ig => (i_type Ig, map (fun G => (gk_elems G, gk_dim1 G, gk_nq G, gk_w G, gk_test G)) (i_geoms Ig))) (f_integrals f)).

(** ** specification: the squared error of a field against point values, integrated with the quadrature rule *)
Definition squared_error {S} (n : nat) (f : functional S) (jac : nat -> nat -> nat -> nat -> mat) (src : nat -> nat -> nat -> nat -> vec) (v : list R) : R :=
  over_points f (fun k Ig g G r le q => detn n (jac k g le q) * sumn (es_c (gk_test G)) (fun i => (src k g le q i - test_field G r v le q i 0%nat) ^ 2)).
Definition squared_distance {S} (n : nat) (f : functional S) (jac : nat -> nat -> nat -> nat -> mat) (v w : list R) : R :=
  over_points f (fun k Ig g G r le q => detn n (jac k g le q) * sumn (es_c (gk_test G)) (fun i => (test_field G r v le q i 0%nat - test_field G r w le q i 0%nat) ^ 2)).

Lemma sumn_term_le m (a : nat -> R) k : (forall j, (j < m)%nat -> 0 <= a j) -> (k < m)%nat -> a k <= sumn m a.
Proof.
  revert k. induction m as [|m IH]; intros k H Hk; [lia|]. cbn [sumn]. destruct (Nat.eq_dec k m) as [->|].
  - assert (0 <= sumn m a) by (apply sumn_nonneg; intros; apply H; lia). lra.
  - assert (a k <= sumn m a) by (apply IH; [intros; apply H; lia|lia]). specialize (H m ltac:(lia)). lra.
Qed.
Lemma same_points (f : functional St) (f' : functional St') h h' : skeleton f = skeleton f' ->
  (forall k Ig Ig' g (G : gkernel St) (G' : gkernel St') r le q, nth_error (f_integrals f) k = Some Ig -> nth_error (f_integrals f') k = Some Ig' -> nth_error (i_geoms Ig) g = Some G -> nth_error (i_geoms Ig') g = Some G' ->
     nth_error (f_test f (i_type Ig)) g = Some r -> nth_error (f_test f' (i_type Ig')) g = Some r -> gk_elems G = gk_elems G' -> gk_test G = gk_test G' ->
     (le < length (gk_elems G))%nat -> (q < gk_nq G)%nat -> (q < gk_nq G')%nat -> h k Ig g G r le q = h' k Ig' g G' r le q) -> over_points f h = over_points f' h'.
Proof.
  intros E H. unfold skeleton in E. injection E as ET EI. unfold over_points.
  assert (EL : length (f_integrals f) = length (f_integrals f')) by (apply (f_equal (@length _)) in EI; now rewrite !map_length in EI).
  rewrite EL. apply sumn_ext. intros k _. assert (EK := f_equal (fun l => nth_error l k) EI). cbv beta in EK. rewrite !nth_error_map in EK.
  destruct (nth_error (f_integrals f) k) as [Ig|] eqn:E1, (nth_error (f_integrals f') k) as [Ig'|] eqn:E2; try discriminate; [|reflexivity]. cbn [option_map] in EK. injection EK as Ety EG.
  assert (EL' : length (i_geoms Ig) = length (i_geoms Ig')) by (apply (f_equal (@length _)) in EG; now rewrite !map_length in EG).
  rewrite EL'. apply sumn_ext. intros g _. assert (Eg := f_equal (fun l => nth_error l g) EG). cbv beta in Eg. rewrite !nth_error_map in Eg.
  destruct (nth_error (i_geoms Ig) g) as [G|] eqn:E3, (nth_error (i_geoms Ig') g) as [G'|] eqn:E4; try discriminate; [|reflexivity]. cbn [option_map] in Eg. injection Eg as e1 e2 e3 e4 e5.
  rewrite <- ET, <- Ety. destruct (nth_error (f_test f (i_type Ig)) g) as [r|] eqn:E5; [|reflexivity]. rewrite <- e1, <- e3, <- e4.
  apply sumn_ext. intros le Hle. apply sumn_ext. intros q Hq. f_equal. apply (H k Ig Ig' g G G' r le q); auto; [rewrite <- ET, <- Ety; exact E5|now rewrite <- e3].
Qed.

Lemma source_work {S} n (f : functional S) t wrt upd Ls lsize m L' m' jac src v : dim23 n -> wf f lsize (fun w => length (Ls w)) -> all_fit f ->
  evaluate f t wrt upd Ls lsize m = Ok (L', m') -> source_functional n f t Ls m jac src ->
  sumn lsize (fun k => nth k L' 0 * nth k v 0) = over_points f (fun k Ig g G r le q => detn n (jac k g le q) * sumn (es_c (gk_test G)) (fun i => src k g le q i * test_field G r v le q i 0%nat)).
Proof.
  intros D W F E H. rewrite (virtual_work f t wrt upd Ls lsize m L' m' W F E v). apply over_points_ext. intros k Ig g G r le q E1 E2 E3 Hle Hq.
  destruct (H k Ig g G le q E1 E2 Hle Hq) as (out & EO & Ed & EQ). destruct (point_out_volume n _ _ _ out D EO) as (KT & _ & A & B).
  rewrite <- sumn_scal_l. apply sumn_ext. intros i Hi.
  rewrite (sumn_ext (gk_dim1 G) _ (fun b => if Nat.eqb b 0 then out i b * test_field G r v le q i b else 0)).
  - rewrite (sumn_delta (gk_dim1 G) 0 (fun b => out i b * test_field G r v le q i b)) by (rewrite Ed; lia). rewrite A. ring.
  - intros b Hb. rewrite EQ by auto. destruct b as [|b]; cbn [Nat.eqb]; [reflexivity|]. rewrite B. unfold mmul. rewrite sumn_zero by (intros; ring). ring.
Qed.
Lemma mass_source n (f : functional St) t c m jac : same_spaces f -> mass_functional n f t (fun _ => c) m jac -> exists src, source_functional n f t (fun _ => c) m jac src /\
  forall k Ig g G r le q, nth_error (f_integrals f) k = Some Ig -> nth_error (i_geoms Ig) g = Some G -> nth_error (f_test f (i_type Ig)) g = Some r ->
  (le < length (gk_elems G))%nat -> forall i, src k g le q i = test_field G r c le q i 0%nat.
Proof.
  intros [S1 S2] H. exists (fun k g le q i => match nth_error (f_integrals f) k with Some Ig => match nth_error (i_geoms Ig) g with Some G => qf_inputs G g (Es_of f (fun _ => c) Ig) le q 0%nat i 0%nat | None => 0 end | None => 0 end). split.
  - intros k Ig g G le q E1 E2 Hle Hq. destruct (H k Ig g G le q E1 E2 Hle Hq) as (out & EO & HO). exists out. rewrite E1, E2. split; [exact EO|exact HO].
  - intros k Ig g G r le q E1 E2 E3 Hle i. rewrite E1, E2. destruct (S2 Ig (nth_error_In _ _ E1)) as [(rest & Ea) S3]. unfold qf_inputs. rewrite (S3 G) by (now apply nth_error_In in E2).
    unfold test_field, Es_of. rewrite Ea. cbn [map nth]. rewrite S1. rewrite (nth_error_nth _ _ [] (map_nth_error (fun r0 => gatherF r0 c) g _ E3)). reflexivity.
Qed.
Lemma over_points_plus3 {S} (f : functional S) a b c : over_points f (fun k Ig g G r le q => a k Ig g G r le q + b k Ig g G r le q + 2 * c k Ig g G r le q) = over_points f a + over_points f b + 2 * over_points f c.
Proof.
  unfold over_points. rewrite <- sumn_scal_l, <- !sumn_plus. apply sumn_ext. intros k _. destruct (nth_error (f_integrals f) k) as [Ig|]; [|ring].
  rewrite <- sumn_scal_l, <- !sumn_plus. apply sumn_ext. intros g _. destruct (nth_error (i_geoms Ig) g) as [G|]; [|ring]. destruct (nth_error (f_test f (i_type Ig)) g) as [r|]; [|ring].
  rewrite <- sumn_scal_l, <- !sumn_plus. apply sumn_ext. intros le _. rewrite <- sumn_scal_l, <- !sumn_plus. apply sumn_ext. intros. ring.
Qed.
Lemma over_points_nonneg {S} (f : functional S) a : (forall k Ig g G r le q, nth_error (f_integrals f) k = Some Ig -> nth_error (i_geoms Ig) g = Some G ->
     (le < length (gk_elems G))%nat -> (q < gk_nq G)%nat -> 0 <= a k Ig g G r le q * gk_w G q) -> 0 <= over_points f a.
Proof.
  intros H. unfold over_points. apply sumn_nonneg. intros k _. destruct (nth_error (f_integrals f) k) as [Ig|] eqn:E1; [|lra].
  apply sumn_nonneg. intros g _. destruct (nth_error (i_geoms Ig) g) as [G|] eqn:E2; [|lra]. destruct (nth_error (f_test f (i_type Ig)) g) as [r|]; [|lra].
  apply sumn_nonneg. intros le Hle. apply sumn_nonneg. intros q Hq. now apply (H k).
Qed.

Context (n : nat) (fm : functional St) (fb : functional St') (lsize : nat) (c : list R) (mm mm' : mem St) (mb mb' : mem St') (Ls : nat -> list R)
  (Mc b : list R) (wrt : option nat) (jac : nat -> nat -> nat -> nat -> mat) (src : nat -> nat -> nat -> nat -> vec).
Hypothesis (D : dim23 n) (Wm : wf fm lsize (fun _ => length c)) (Fm : all_fit fm) (Wb : wf fb lsize (fun w => length (Ls w))) (Fb : all_fit fb)
  (Em : evaluate fm 0 wrt false (fun _ => c) lsize mm = Ok (Mc, mm')) (Eb : evaluate fb 0 None false Ls lsize mb = Ok (b, mb'))
  (SS : same_spaces fm) (HM : mass_functional n fm 0 (fun _ => c) mm jac) (HB : source_functional n fb 0 Ls mb jac src) (SK : skeleton fm = skeleton fb).

(** the error of any other field exceeds that of the fitted one by their distance, up to what the solver left *)
Theorem fit_error v : squared_error n fm jac src v = squared_error n fm jac src c + squared_distance n fm jac c v +
  2 * sumn lsize (fun k => (nth k b 0 - nth k Mc 0) * (nth k c 0 - nth k v 0)).
Proof.
  destruct (mass_source n fm 0 c mm jac SS HM) as (sm & HS & HE).
  assert (WB : forall w, sumn lsize (fun k => nth k b 0 * nth k w 0) = over_points fm (fun k Ig g G r le q => detn n (jac k g le q) * sumn (es_c (gk_test G)) (fun i => src k g le q i * test_field G r w le q i 0%nat))).
  { intros w. rewrite (source_work n fb 0 None false Ls lsize mb b mb' jac src w D Wb Fb Eb HB). symmetry. apply same_points; [exact SK|].
    intros k Ig Ig' g G G' r le q _ _ _ _ _ _ e1 e2 _ _ _. unfold test_field. rewrite e1, e2. reflexivity. }
  assert (WM : forall w, sumn lsize (fun k => nth k Mc 0 * nth k w 0) = over_points fm (fun k Ig g G r le q => detn n (jac k g le q) * sumn (es_c (gk_test G)) (fun i => test_field G r c le q i 0%nat * test_field G r w le q i 0%nat))).
  { intros w. rewrite (source_work n fm 0 wrt false (fun _ => c) lsize mm Mc mm' jac sm w D Wm Fm Em HS). apply over_points_ext.
    intros k Ig g G r le q E1 E2 E3 Hle Hq. f_equal. apply sumn_ext. intros i Hi. now rewrite (HE k Ig g G r le q E1 E2 E3 Hle i). }
  assert (X : sumn lsize (fun k => (nth k b 0 - nth k Mc 0) * (nth k c 0 - nth k v 0)) = over_points fm (fun k Ig g G r le q => detn n (jac k g le q) *
     sumn (es_c (gk_test G)) (fun i => (src k g le q i - test_field G r c le q i 0%nat) * (test_field G r c le q i 0%nat - test_field G r v le q i 0%nat)))).
  { transitivity (sumn lsize (fun k => nth k b 0 * nth k c 0) - sumn lsize (fun k => nth k b 0 * nth k v 0) - (sumn lsize (fun k => nth k Mc 0 * nth k c 0) - sumn lsize (fun k => nth k Mc 0 * nth k v 0))).
    - rewrite <- !sumn_minus. apply sumn_ext. intros. ring.
    - rewrite !WB, !WM, <- !over_points_minus. apply over_points_ext. intros k Ig g G r le q _ _ _ _ _. rewrite <- !Rmult_minus_distr_l. f_equal. rewrite <- !sumn_minus. apply sumn_ext. intros. ring. }
  rewrite X. unfold squared_error, squared_distance. rewrite <- over_points_plus3. apply over_points_ext. intros k Ig g G r le q _ _ _ _ _.
  rewrite <- !Rmult_plus_distr_l. rewrite (Rmult_comm 2), Rmult_assoc, <- Rmult_plus_distr_l. f_equal. rewrite <- sumn_scal_r, <- !sumn_plus. apply sumn_ext. intros. ring.
Qed.
(** solved to the last digit, it is the best approximation *)
Theorem fit_best : (forall k, (k < lsize)%nat -> nth k Mc 0 = nth k b 0) ->
  (forall k Ig g G le q, nth_error (f_integrals fm) k = Some Ig -> nth_error (i_geoms Ig) g = Some G -> (le < length (gk_elems G))%nat -> (q < gk_nq G)%nat -> 0 <= gk_w G q * detn n (jac k g le q)) ->
  forall v, squared_error n fm jac src c <= squared_error n fm jac src v.
Proof.
  intros ER HP v. rewrite (fit_error v). rewrite (sumn_zero lsize) by (intros k Hk; rewrite ER by auto; ring).
  assert (0 <= squared_distance n fm jac c v).
  { apply over_points_nonneg. intros k Ig g G r le q E1 E2 Hle Hq. specialize (HP k Ig g G le q E1 E2 Hle Hq).
    replace (detn n (jac k g le q) * sumn (es_c (gk_test G)) (fun i => (test_field G r c le q i 0%nat - test_field G r v le q i 0%nat) ^ 2) * gk_w G q)
      with (gk_w G q * detn n (jac k g le q) * sumn (es_c (gk_test G)) (fun i => (test_field G r c le q i 0%nat - test_field G r v le q i 0%nat) ^ 2)) by ring.
    apply Rmult_le_pos; [exact HP|]. apply sumn_nonneg. intros. apply pow2_ge_0. }
  lra.
Qed.
(** a function that is a field of the space solves the system *)
Theorem fit_consistent : (forall k Ig g G r le q, nth_error (f_integrals fm) k = Some Ig -> nth_error (i_geoms Ig) g = Some G -> nth_error (f_test fm (i_type Ig)) g = Some r ->
    (le < length (gk_elems G))%nat -> (q < gk_nq G)%nat -> forall i, (i < es_c (gk_test G))%nat -> src k g le q i = test_field G r c le q i 0%nat) ->
  forall k, (k < lsize)%nat -> nth k Mc 0 = nth k b 0.
Proof.
  intros HV k Hk. destruct (mass_source n fm 0 c mm jac SS HM) as (sm & HS & HE).
  set (e := tab lsize (fun l => if Nat.eqb l k then 1 else 0)).
  assert (EX : forall L, sumn lsize (fun l => nth l L 0 * nth l e 0) = nth k L 0).
  { intros L. rewrite (sumn_ext lsize _ (fun l => if Nat.eqb l k then nth l L 0 else 0)).
    - now apply (sumn_delta lsize k (fun l => nth l L 0)).
    - intros l Hl. unfold e. rewrite nth_tab by auto. destruct (Nat.eqb l k); ring. }
  rewrite <- (EX Mc), <- (EX b). rewrite (source_work n fm 0 wrt false (fun _ => c) lsize mm Mc mm' jac sm e D Wm Fm Em HS).
  rewrite (source_work n fb 0 None false Ls lsize mb b mb' jac src e D Wb Fb Eb HB). apply same_points; [exact SK|].
  intros k' Ig Ig' g G G' r le q E1 _ E2 _ E3 _ e1 e2 Hle Hq _. f_equal. unfold test_field. rewrite <- e2, <- e1. apply sumn_ext. intros i Hi.
  rewrite (HE k' Ig g G r le q E1 E2 E3 Hle i), (HV k' Ig g G r le q E1 E2 E3 Hle Hq i Hi). reflexivity.
Qed.
(** and the fitted field then agrees with the function at every quadrature point *)
Theorem fit_exact w : (forall k, (k < lsize)%nat -> nth k Mc 0 = nth k b 0) ->
  (forall k Ig g G le q, nth_error (f_integrals fm) k = Some Ig -> nth_error (i_geoms Ig) g = Some G -> (le < length (gk_elems G))%nat -> (q < gk_nq G)%nat -> 0 < gk_w G q * detn n (jac k g le q)) ->
  squared_error n fm jac src w = 0 ->
  forall k Ig g G r le q, nth_error (f_integrals fm) k = Some Ig -> nth_error (i_geoms Ig) g = Some G -> nth_error (f_test fm (i_type Ig)) g = Some r ->
    (le < length (gk_elems G))%nat -> (q < gk_nq G)%nat -> forall i, (i < es_c (gk_test G))%nat -> test_field G r c le q i 0%nat = src k g le q i.
Proof.
  intros ER HP HW. assert (B := fit_best ER (fun k Ig g G le q E1 E2 A C => Rlt_le _ _ (HP k Ig g G le q E1 E2 A C)) w). rewrite HW in B.
  intros k Ig g G r le q E1 E2 E3 Hle Hq i Hi.
  set (F := fun k (Ig : integral St) g (G : gkernel St) r le q => detn n (jac k g le q) * sumn (es_c (gk_test G)) (fun i => (src k g le q i - test_field G r c le q i 0%nat) ^ 2)).
  assert (PP : forall k Ig g G r le q, nth_error (f_integrals fm) k = Some Ig -> nth_error (i_geoms Ig) g = Some G -> (le < length (gk_elems G))%nat -> (q < gk_nq G)%nat -> 0 <= F k Ig g G r le q * gk_w G q).
  { intros k0 Ig0 g0 G0 r0 le0 q0 H1 H2 H3 H4. unfold F. specialize (HP k0 Ig0 g0 G0 le0 q0 H1 H2 H3 H4).
    replace (detn n (jac k0 g0 le0 q0) * sumn (es_c (gk_test G0)) (fun i0 => (src k0 g0 le0 q0 i0 - test_field G0 r0 c le0 q0 i0 0%nat) ^ 2) * gk_w G0 q0)
      with (gk_w G0 q0 * detn n (jac k0 g0 le0 q0) * sumn (es_c (gk_test G0)) (fun i0 => (src k0 g0 le0 q0 i0 - test_field G0 r0 c le0 q0 i0 0%nat) ^ 2)) by ring.
    apply Rmult_le_pos; [lra|]. apply sumn_nonneg. intros. apply pow2_ge_0. }
  assert (Z : F k Ig g G r le q * gk_w G q <= 0).
  { refine (Rle_trans _ _ _ _ B). unfold squared_error, over_points.
    refine (Rle_trans _ _ _ _ (sumn_term_le (length (f_integrals fm)) _ k _ _)); [|intros k0 _; destruct (nth_error (f_integrals fm) k0) as [Ig0|] eqn:H1; [|lra]|apply nth_error_Some; congruence].
    - cbv beta. rewrite E1. refine (Rle_trans _ _ _ _ (sumn_term_le (length (i_geoms Ig)) _ g _ _)); [|intros g0 _; destruct (nth_error (i_geoms Ig) g0) as [G0|] eqn:H2; [|lra]; destruct (nth_error (f_test fm (i_type Ig)) g0); [|lra]|apply nth_error_Some; congruence].
      + cbv beta. rewrite E2, E3. refine (Rle_trans _ _ _ _ (sumn_term_le (length (gk_elems G)) _ le _ Hle)); [|intros le0 H3; apply sumn_nonneg; intros q0 H4; now apply (PP k Ig g G r)].
        cbv beta. refine (Rle_trans _ _ _ _ (sumn_term_le (gk_nq G) _ q _ Hq)); [|intros q0 H4; now apply (PP k Ig g G r)]. apply Rle_refl.
      + apply sumn_nonneg. intros le0 H3. apply sumn_nonneg. intros q0 H4. now apply (PP k Ig g0 G0).
    - apply sumn_nonneg. intros g0 _. destruct (nth_error (i_geoms Ig0) g0) as [G0|] eqn:H2; [|lra]. destruct (nth_error (f_test fm (i_type Ig0)) g0); [|lra].
      apply sumn_nonneg. intros le0 H3. apply sumn_nonneg. intros q0 H4. now apply (PP k0 Ig0 g0 G0). }
  unfold F in Z. specialize (HP k Ig g G le q E1 E2 Hle Hq). set (X := fun i0 => (src k g le q i0 - test_field G r c le q i0 0%nat) ^ 2) in *.
  assert (S0 : 0 <= sumn (es_c (gk_test G)) X) by (apply sumn_nonneg; intros; unfold X; apply pow2_ge_0).
  assert (S1 : sumn (es_c (gk_test G)) X <= 0).
  { apply (Rmult_le_reg_l (gk_w G q * detn n (jac k g le q))); [exact HP|]. lra. }
  pose proof (sumn_term_le (es_c (gk_test G)) X i (fun j _ => pow2_ge_0 _) Hi) as T. unfold X in T at 1. pose proof (pow2_ge_0 (src k g le q i - test_field G r c le q i 0%nat)).
  assert (Q : (src k g le q i - test_field G r c le q i 0%nat) ^ 2 = 0) by lra. assert (R0 : src k g le q i - test_field G r c le q i 0%nat = 0) by nra. lra.
Qed.
End Fit.

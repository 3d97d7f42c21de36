(** * The assembled tangent matrix of an elastic body is symmetric (C89) *)
From Coq Require Import NArith ZArith Reals List Lia Lra Bool FunctionalExtensionality.
From Coquelicot Require Import Coquelicot.
From Verif Require Import Prelude DofCodec Sums Restriction Csr Kernels FunctionalModel FunctionalGrad FunctionalTotal Assembly Dual LUDeriv Tensor MatAlg Materials MaterialFacts ShapeAware WeakForm WeakFormFacts WeakFormPhysics WeakFormWork Fit Ode Energy EnergySolid EnergyRun StoredEnergy StoredEnergyUse SymmetricTangent SymmetricMaterials.
From Verif Require Import BoundaryElim Newton QuasiStatic Traced TracedSolid TracedSolidEx.
Import ListNotations.
Local Open Scope R_scope.

(** a law in small strains in the residual without geometric nonlinearity, a law in finite strains in the one with it; pressures follow the
    undeformed geometry *)
Definition matched (T : integrand) : Prop :=
  match T with IMaterial on _ m => on = negb (small m) | IPressure on _ => on = false | _ => True end.

Definition tangent_of {St} (n : nat) (T : integrand) (dK dG : R) : St -> mat -> mat -> mat -> R :=
  match T with
  | IMaterial _ _ (ELinear K G) => tangent_linear n (lame K G) G
  | IMaterial _ _ (EStVK K G) => tangent_stvk n K G
  | IMaterial _ _ (ENeo K G) => tangent_neo n (lame K G) G
  | IMaterial _ _ (EParLinear K G) => tangent_linear n (K + dK - 2 / INR n * (G + dG)) (G + dG)
  | IMaterial _ _ (EParNeo K G) => tangent_neo n (K + dK - 2 / INR n * (G + dG)) (G + dG)
  | _ => fun _ _ _ _ => 0 end.
Lemma tangent_of_symmetric St n T dK dG : symmetric_tangent (tangent_of (St := St) n T dK dG).
Proof. destruct T as [on rho [K G|K G|K G|K G|K G]|b|tr|on p]; cbn [tangent_of]; first [apply linear_symmetric|apply stvk_tangent_symmetric|apply neo_tangent_symmetric|intros st H D E; reflexivity]. Qed.
Lemma tangent_of_tangent St n T dK dG : dim23 n -> matched T -> has_tangent (St := St) n (term_of n T dK dG) (tangent_of n T dK dG).
Proof.
  intros D M. destruct T as [on rho m|b|tr|on p]; cbn [matched term_of] in *; try exact Logic.I; [|exact M]. subst on.
  destruct m as [K G|K G|K G|K G|K G]; cbn [small negb stress tangent_of].
  - exact (linear_tangent St n rho (lame K G) G D).
  - exact (stvk_tangent St n rho K G D).
  - exact (neo_tangent St n rho (lame K G) G D).
  - exact (linear_tangent St n rho _ _ D).
  - exact (neo_tangent St n rho _ _ D).
Qed.

(** ** configurations near one without inverted points *)
Lemma locally_below (P : nat -> R -> Prop) x n : (forall i, (i < n)%nat -> locally x (P i)) -> locally x (fun t => forall i, (i < n)%nat -> P i t).
Proof.
  induction n as [|n IH]; intros H; [apply filter_forall; intros t i Hi; lia|].
  assert (A := filter_and _ _ (IH (fun i Hi => H i (Nat.lt_lt_succ_r _ _ Hi))) (H n (Nat.lt_succ_diag_r n))). apply filter_imp with (2 := A).
  intros t (A1 & A2) i Hi. destruct (Nat.eq_dec i n) as [->|]; [exact A2|apply A1; lia].
Qed.
Lemma locally_list {A} (l : list A) x : forall (P : nat -> A -> R -> Prop), (forall k a, nth_error l k = Some a -> locally x (P k a)) ->
  locally x (fun t => forall k a, nth_error l k = Some a -> P k a t).
Proof.
  induction l as [|b l IH]; intros P H; [apply filter_forall; intros t [|k] a E; discriminate|].
  assert (Q := filter_and _ _ (H 0%nat b eq_refl) (IH (fun k => P (S k)) (fun k a E => H (S k) a E))). apply filter_imp with (2 := Q).
  intros t (Q1 & Q2) [|k] a E; [injection E as <-; exact Q1|exact (Q2 k a E)].
Qed.
Lemma positive_near (g : R -> R) l x : is_derive g x l -> 0 < g x -> locally x (fun t => 0 < g t).
Proof.
  intros H P. assert (C := cont_near g x (g x) (ex_derive_continuous g x (ex_intro _ l H)) P). apply filter_imp with (2 := C).
  intros t A. apply Rabs_def2 in A. lra.
Qed.
Lemma upright_near {St} n N J (G : gkernel St) r y v tau le q : dim23 n -> vderive N y tau v -> upright n J (test_field G r (tab N (y tau)) le q) ->
  locally tau (fun s => upright n J (test_field G r (tab N (y s)) le q)).
Proof.
  intros D HV U. unfold upright in *. set (M := fun s => madd J (fun i j => test_field G r (tab N (y s)) le q i (S j))).
  assert (HM : mderive n M tau (madd (fun _ _ => 0) (fun i j => test_field G r (tab N v) le q i (S j)))).
  { apply madd_derive; [apply mconst_derive|]. intros i j _ _. apply test_field_derive. exact HV. }
  destruct (invn_works n (M tau) D) as (B & EB); [intros Z; unfold M in Z; rewrite Z in U; lra|].
  exact (positive_near (fun s => detn n J * detn n (M s)) _ tau (d_scal (detn n J) _ tau _ (detn_derive n M _ tau B D EB HM)) U).
Qed.

Section Assembled.
Context {St : Type} (n N : nat) (f : functional St) (terms : list integrand) (pos : nat -> nat -> nat -> nat -> vec) (jac : nat -> nat -> nat -> nat -> mat)
  (c : csr) (tsize : nat -> nat) (t : R) (others : nat -> list R) (m : mem St) (u : list R).
Hypothesis (D : dim23 n) (F : all_fit f) (TS : two_spaces n f) (R0 : ready f N c tsize) (Fo : fitting tsize others) (HA : tsize 1%nat = N) (Hu : length u = N)
  (W : solid_traced n f terms pos jac) (U : no_inverted_points n f (inputs others u) terms jac) (M : forall T, In T terms -> matched T).

Let params (w : nat) : list R := others (w - 1).
Let a : vec := fun i => nth i (others 0%nat) 0.
Let x : vec := fun i => nth i u 0.
Let value (s k g le q : nat) : R :=
  match nth_error (f_integrals f) k with Some Ig => match nth_error (i_geoms Ig) g with Some G => qf_inputs G g (Es_of f (inputs others u) Ig) le q s 0%nat 0%nat | None => 0 end | None => 0 end.
Let term (k g le q : nat) : solid_term St :=
  match nth_error terms k with Some T => term_of n T (value 2 k g le q) (value 3 k g le q) | None => SBody (fun _ _ _ => 0) end.
Let C (k g le q : nat) : St -> mat -> mat -> mat -> R :=
  match nth_error terms k with Some T => tangent_of n T (value 2 k g le q) (value 3 k g le q) | None => fun _ _ _ _ => 0 end.

Lemma tab_entries (l : list R) k : length l = k -> tab k (fun i => nth i l 0) = l.
Proof.
  intros E. apply (nth_ext _ _ 0 0); [now rewrite tab_length|]. intros i Hi. rewrite tab_length in Hi. now rewrite nth_tab.
Qed.
Lemma arguments_inputs y : arguments N params y a = inputs others (tab N y).
Proof.
  apply functional_extensionality. intros [|[|w]]; cbn [arguments inputs]; [reflexivity| |unfold params; f_equal; lia].
  apply tab_entries. now rewrite Fo.
Qed.
Lemma slot_others y (Ig : integral St) (G : gkernel St) g le q s : In Ig (f_integrals f) -> (0 < s)%nat -> nth s (i_active Ig) 1%nat <> 0%nat ->
  qf_inputs G g (Es_of f (inputs others y) Ig) le q s = qf_inputs G g (Es_of f (inputs others u) Ig) le q s.
Proof.
  intros HI Hs HN. unfold qf_inputs, Es_of.
  assert (E : nth s (map (fun s0 => map (fun r => gatherF r (inputs others y s0)) (f_trial f s0 (i_type Ig))) (i_active Ig)) []
            = nth s (map (fun s0 => map (fun r => gatherF r (inputs others u s0)) (f_trial f s0 (i_type Ig))) (i_active Ig)) []); [|now rewrite E].
  destruct (lt_dec s (length (i_active Ig))) as [L|L].
  - rewrite !(nth_indep _ [] (map (fun r => gatherF r (inputs others u 1)) (f_trial f 1 (i_type Ig)))) by (rewrite map_length; auto).
    rewrite (map_nth (fun s0 => map (fun r => gatherF r (inputs others u s0)) (f_trial f s0 (i_type Ig))) (i_active Ig) 1%nat).
    change (map (fun r => gatherF r (inputs others u 1)) (f_trial f 1 (i_type Ig))) with ((fun s0 => map (fun r => gatherF r (inputs others y s0)) (f_trial f s0 (i_type Ig))) 1%nat) at 1.
    rewrite map_nth. destruct (nth s (i_active Ig) 1%nat); [now destruct HN|reflexivity].
  - rewrite !nth_overflow by (rewrite map_length; lia). reflexivity.
Qed.
Lemma active_slot Ig s : In Ig (f_integrals f) -> (0 < s)%nat -> nth s (i_active Ig) 1%nat <> 0%nat.
Proof.
  intros HI Hs. destruct (proj2 TS Ig HI) as [(rest & Ea) _]. destruct R0 as (Wf & _). destruct (Wf Ig HI) as (_ & _ & _ & ND). rewrite Ea in *.
  destruct s as [|s]; [lia|]. cbn [nth]. intros Z. inversion ND as [|b l N1 N2]; subst. apply N1. destruct s as [|s]; [discriminate|]. cbn in Z. right.
  destruct (lt_dec s (length rest)) as [L|L]; [rewrite <- Z; now apply nth_In|]. rewrite nth_overflow in Z by lia. discriminate.
Qed.
Lemma geometry Ig g G : In Ig (f_integrals f) -> nth_error (i_geoms Ig) g = Some G -> exists r, nth_error (f_test f (i_type Ig)) g = Some r.
Proof.
  intros HI E. destruct R0 as (Wf & _). destruct (Wf Ig HI) as (_ & _ & EL & _).
  destruct (nth_error (f_test f (i_type Ig)) g) as [r|] eqn:Er; [now exists r|]. apply nth_error_None in Er.
  assert (g < length (i_geoms Ig))%nat by (apply nth_error_Some; congruence). lia.
Qed.

Lemma residual_here y : no_inverted_points n f (inputs others (tab N y)) terms jac -> residual_of n f m term pos jac t (arguments N params y a).
Proof.
  intros UY. rewrite arguments_inputs. intros k Ig g G le q E1 E2 Hle Hq.
  destruct (W k Ig g G E1 E2) as (T & ET & Ed & _). assert (HI := nth_error_In _ _ E1).
  destruct (upright_defined n f t _ m terms pos jac D UY k Ig g G le q T E1 E2 Hle Hq ET) as (p & out & EP & EO).
  assert (ES : term k g le q = term_of n T (qf_inputs G g (Es_of f (inputs others (tab N y)) Ig) le q 2%nat 0%nat 0%nat) (qf_inputs G g (Es_of f (inputs others (tab N y)) Ig) le q 3%nat 0%nat 0%nat)).
  { unfold term, value. rewrite ET, E1, E2. rewrite !(slot_others (tab N y) Ig G g le q _ HI) by (first [lia|apply active_slot; [exact HI|lia]]). reflexivity. }
  rewrite ES. exists p, out. split; [exact EP|]. split; [exact EO|].
  assert (Edim : gk_dim1 G = (if is_volume (term_of (St := St) n T (qf_inputs G g (Es_of f (inputs others (tab N y)) Ig) le q 2%nat 0%nat 0%nat) (qf_inputs G g (Es_of f (inputs others (tab N y)) Ig) le q 3%nat 0%nat 0%nat)) then S n else n)).
  { rewrite Ed. destruct T; cbn [columns term_of is_volume]; try reflexivity; destruct D; subst; reflexivity. }
  split; [exact Edim|]. intros i b Hi Hb. rewrite Ed in Hb.
  exact (solid_values n f t _ m terms pos jac k Ig g G le q T p out i b D W E1 E2 ET EP EO Hi ltac:(lia)).
Qed.
Lemma field_of y k Ig g G r le q : nth_error (f_integrals f) k = Some Ig -> nth_error (i_geoms Ig) g = Some G -> nth_error (f_test f (i_type Ig)) g = Some r ->
  qf_inputs G g (Es_of f (inputs others (tab N y)) Ig) le q 0%nat = test_field G r (tab N y) le q.
Proof. intros E1 E2 E3. rewrite <- arguments_inputs. exact (proj1 (argument_field n N f params y a TS k Ig g G r le q E1 E2 E3)). Qed.
Lemma upright_nearby (y : R -> vec) v : vderive N y 0 v -> tab N (y 0) = u -> locally 0 (fun s => no_inverted_points n f (inputs others (tab N (y s))) terms jac).
Proof.
  intros HV H0.
  assert (A : locally 0 (fun s => forall k Ig, nth_error (f_integrals f) k = Some Ig -> forall g G, nth_error (i_geoms Ig) g = Some G ->
    forall e, (e < length (gk_elems G))%nat -> forall q, (q < gk_nq G)%nat -> forall k0 T, nth_error terms k0 = Some T -> k0 = k ->
    point_upright n T (jac k g e q) (qf_inputs G g (Es_of f (inputs others (tab N (y s))) Ig) e q 0%nat))).
  { apply locally_list. intros k Ig E1. apply locally_list. intros g G E2. apply locally_below. intros e He. apply locally_below. intros q Hq. apply locally_list. intros k0 T ET.
    destruct (geometry Ig g G (nth_error_In _ _ E1) E2) as (r & E3).
    destruct (Nat.eq_dec k0 k) as [->|NE]; [|apply filter_forall; intros s Z; contradiction].
    assert (UT := U k Ig g G e q T E1 E2 He Hq ET). rewrite <- H0, (field_of (y 0) k Ig g G r e q E1 E2 E3) in UT.
    assert (UN : locally 0 (fun s => point_upright n T (jac k g e q) (test_field G r (tab N (y s)) e q))).
    { destruct T as [on rho mt|b|tr|on p]; cbn [point_upright] in *; try (apply filter_forall; intros s; exact UT).
      destruct (on || negb (small mt))%bool; [|apply filter_forall; intros s; exact UT]. now apply (upright_near n N (jac k g e q) G r y v 0 e q). }
    apply filter_imp with (2 := UN). intros s Hs _. now rewrite (field_of (y s) k Ig g G r e q E1 E2 E3). }
  apply filter_imp with (2 := A). intros s Hs k Ig g G e q T E1 E2 He Hq ET. exact (Hs k Ig E1 g G E2 e He q Hq k T ET eq_refl).
Qed.

Theorem assembled_symmetric A : tangent f N c t others m u A -> forall i j, (i < N)%nat -> (j < N)%nat -> A i j = A j i.
Proof.
  intros HT.
  set (y := fun j s i => x i + s * unit_dof j i).
  assert (EV : forall j s, exists L m', evaluate f t None false (inputs others (tab N (y j s))) N m = Ok (L, m')).
  { intros j s. destruct (evaluate_quiet f N c tsize R0 t None others (tab N (y j s)) m m Fo (tab_length _ _) (fun _ _ _ _ => eq_refl)) as (L & m' & E & _). now exists L, m'. }
  set (L := fun j s => match evaluate f t None false (inputs others (tab N (y j s))) N m with Ok (l, _) => l | _ => [] end).
  assert (EL : forall j s, exists m', evaluate f t None false (inputs others (tab N (y j s))) N m = Ok (L j s, m')).
  { intros j s. unfold L. destruct (EV j s) as (l & m' & E). rewrite E. now exists m'. }
  assert (Y0 : forall j, tab N (y j 0) = u).
  { intros j. rewrite <- (tab_entries u N Hu). apply tab_ext. intros i _. unfold y, x. ring. }
  apply (stiffness_symmetric_at n N f m term pos jac params C D F TS t x a 0 L A).
  - intros k Ig g G le q E1 E2 _ _. destruct (W k Ig g G E1 E2) as (T & ET & _). unfold term, C. rewrite ET. apply tangent_of_tangent; [exact D|]. apply M. exact (nth_error_In _ _ ET).
  - intros k g le q. unfold C. destruct (nth_error terms k); [apply tangent_of_symmetric|intros st H X Y; reflexivity].
  - intros j Hj. apply filter_imp with (2 := upright_nearby (y j) (unit_dof j) (line_derive N x (unit_dof j)) (Y0 j)). intros s Us.
    assert (EA : (fun i => a i + s * (0 * unit_dof j i)) = a) by (apply functional_extensionality; intros; ring). rewrite EA.
    split; [|split].
    + rewrite arguments_inputs. exact (wf_inputs f N c tsize R0 others _ Fo (tab_length _ _)).
    + apply residual_here. exact Us.
    + destruct (EL j s) as (m' & E). exists None, false, m'. rewrite arguments_inputs. exact E.
  - intros i j Hi Hj.
    assert (Q := solid_tangent n f terms pos jac N c tsize t others m u (tab N (unit_dof j)) A (L j) i D R0 Fo Hu (tab_length _ _) W U HT).
    refine (d_ext _ _ _ _ (Q _ Hi) _).
    + intros s. destruct (EL j s) as (m' & E). exists m'. rewrite <- E. f_equal. f_equal. apply tab_ext. intros i0 Hi0. unfold y, x. now rewrite nth_tab.
    + unfold mvec. rewrite (sumn_ext N _ (fun k => (if Nat.eqb k j then 1 else 0) * A i k)).
      * exact (sumn_unit N j (fun k => A i k) Hj).
      * intros k Hk. unfold entries. rewrite nth_tab by auto. unfold unit_dof. ring.
Qed.
End Assembled.

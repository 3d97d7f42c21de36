(** * Tangents of materials which store energy; a law in small strains with geometric nonlinearity; a triangle (C89) *)
From Coq Require Import NArith ZArith Reals List Lia Lra Bool FunctionalExtensionality Permutation.
From Coquelicot Require Import Coquelicot.
From Verif Require Import Prelude DofCodec Sums Restriction Csr Kernels FunctionalModel FunctionalGrad FunctionalTotal Assembly Dual LUDeriv Tensor MatAlg Materials MaterialFacts ShapeAware WeakForm WeakFormFacts WeakFormPhysics WeakFormWork WeakFormEx Fit Ode Energy EnergySolid EnergyRun StoredEnergy StoredEnergyUse SymmetricTangent SymmetricMaterials.
From Verif Require Import BoundaryElim Newton QuasiStatic Traced TracedSolid TracedSolidEx SymmetricAssembled.
Import ListNotations.
Local Open Scope R_scope.

(** ** a material which stores energy has a symmetric tangent wherever the tangent is continuous *)
Definition plane (H D E : mat) (a b : R) : mat := fun i j => H i j + a * D i j + b * E i j.
Lemma plane_first n H D E a b : mderive n (fun z => plane H D E z b) a D.
Proof. intros i j _ _. unfold plane. refine (d_ext _ _ _ _ (d_plus _ _ a _ _ (d_plus _ _ a _ _ (d_const (H i j) a) (d_scal_r (D i j) (fun z => z) a 1 (is_derive_id a))) (d_const (b * E i j) a)) _). ring. Qed.
Lemma plane_second n H D E a b : mderive n (fun z => plane H D E a z) b E.
Proof. intros i j _ _. unfold plane. refine (d_ext _ _ _ _ (d_plus _ _ b _ _ (d_const (H i j + a * D i j) b) (d_scal_r (E i j) (fun z => z) b 1 (is_derive_id b))) _). ring. Qed.
Theorem stored_symmetric St n on rho sigma psi C (st : St) H D E : stores n (SMaterial on rho sigma) psi -> has_tangent n (SMaterial on rho sigma) C ->
  locally_2d (fun a b => exists s P, sigma st (plane H D E a b) = Some s /\ flux n on s (plane H D E a b) = Some P) 0 0 ->
  continuity_2d_pt (fun a b => C st (plane H D E a b) D E) 0 0 -> continuity_2d_pt (fun a b => C st (plane H D E a b) E D) 0 0 ->
  C st H D E = C st H E D.
Proof.
  intros HS HT HL C1 C2. set (T := SMaterial on rho sigma) in *.
  set (f := fun a b => psi st (plane H D E a b)). set (p := fun X a b => inner n n (piola_of n T st (plane H D E a b)) X).
  assert (HP : locally_2d (fun a b => has_stress n T st (plane H D E a b)) 0 0).
  { apply locally_2d_impl with (2 := HL). apply locally_2d_forall. intros a b (s & P & E1 & E2). cbn [has_stress T piola_of]. exists s. split; [exact E1|]. rewrite E1, E2. reflexivity. }
  assert (F1 : forall a b, has_stress n T st (plane H D E a b) -> is_derive (fun z => f z b) a (p D a b)).
  { intros a b (s & E1 & E2). exact (HS st (fun z => plane H D E z b) a D s _ (plane_first n H D E a b) E1 E2). }
  assert (F2 : forall a b, has_stress n T st (plane H D E a b) -> is_derive (fun z => f a z) b (p E a b)).
  { intros a b (s & E1 & E2). exact (HS st (fun z => plane H D E a z) b E s _ (plane_second n H D E a b) E1 E2). }
  assert (S21 : forall a b, locally_2d (fun a b => has_stress n T st (plane H D E a b)) a b -> is_derive (fun z => Derive (fun t => f z t) b) a (C st (plane H D E a b) D E)).
  { intros a b LP. assert (L1 := locally_2d_1d_const_y _ _ _ LP).
    refine (is_derive_ext_loc (fun z => p E z b) _ a _ _ _).
    - apply filter_imp with (2 := L1). intros z Hz. symmetry. apply is_derive_unique. now apply F2.
    - exact (HT st (fun z => plane H D E z b) a D E _ (plane_first n H D E a b) L1). }
  assert (S12 : forall a b, locally_2d (fun a b => has_stress n T st (plane H D E a b)) a b -> is_derive (fun z => Derive (fun t => f t z) a) b (C st (plane H D E a b) E D)).
  { intros a b LP. assert (L1 := locally_2d_1d_const_x _ _ _ LP).
    refine (is_derive_ext_loc (fun z => p D a z) _ b _ _ _).
    - apply filter_imp with (2 := L1). intros z Hz. symmetry. apply is_derive_unique. now apply F1.
    - exact (HT st (fun z => plane H D E a z) b E D _ (plane_second n H D E a b) L1). }
  assert (Q : Derive (fun z => Derive (fun t => f z t) 0) 0 = Derive (fun z => Derive (fun t => f t z) 0) 0).
  { apply Schwarz.
    - apply locally_2d_impl_strong with (2 := HP). apply locally_2d_forall. intros a b LP. assert (H0 := locally_2d_singleton _ _ _ LP).
      split; [eexists; now apply F1|]. split; [eexists; now apply F2|]. split; [eexists; now apply S21|eexists; now apply S12].
    - apply continuity_2d_pt_ext_loc with (2 := C1). apply locally_2d_impl_strong with (2 := HP). apply locally_2d_forall. intros a b LP. symmetry. apply is_derive_unique. now apply S21.
    - apply continuity_2d_pt_ext_loc with (2 := C2). apply locally_2d_impl_strong with (2 := HP). apply locally_2d_forall. intros a b LP. symmetry. apply is_derive_unique. now apply S12. }
  assert (Q3 := eq_trans (eq_sym (is_derive_unique _ _ _ (S21 0 0 HP))) (eq_trans Q (is_derive_unique _ _ _ (S12 0 0 HP)))). clear Q.
  assert (EH : plane H D E 0 0 = H) by (apply functional_extensionality; intros i; apply functional_extensionality; intros j; unfold plane; ring).
  now rewrite EH in Q3.
Qed.

(** ** a law in small strains in the residual with geometric nonlinearity: stretching one side stiffens the other differently than the other way round *)
Definition side (k : nat) : mat := fun i j => if (Nat.eqb i k && Nat.eqb j k)%bool then 1 else 0.
Lemma inner_side P k : (k < 2)%nat -> inner 2 2 P (side k) = P k k.
Proof. intros Hk. unfold inner, side. destruct k as [|[|k]]; [| |lia]; cbn [sumn Nat.eqb andb]; ring. Qed.
Lemma near_positive x : 0 < x -> locally x (fun t => 0 <= t).
Proof. intros H. exists (mkposreal x H). intros t B. apply Rabs_def2 in B. cbn in B. unfold minus, plus, opp in B. cbn in B. lra. Qed.
Theorem mixed_not_symmetric : exists rho K G, 0 < rho /\ 0 < K /\ 0 < G /\
  ~ exists C : unit -> mat -> mat -> mat -> R, has_tangent 2 (SMaterial true rho (fun _ H => Some (linear_isotropic 2 K G H))) C /\ symmetric_tangent C.
Proof.
  exists 1, 1, 1. split; [lra|]. split; [lra|]. split; [lra|]. intros (C & HT & HS).
  set (sigma := fun (_ : unit) H => Some (linear_isotropic 2 1 1 H)) in *. set (T := SMaterial true 1 sigma) in *. set (l := lame 1 1).
  assert (PQ : forall a b, 0 <= a -> 0 <= b -> has_stress 2 T tt (stretch a b) /\ piola_of 2 T tt (stretch a b) 0%nat 0%nat = (l * (a + b) + 2 * 1 * a) * (1 + b) /\
     piola_of 2 T tt (stretch a b) 1%nat 1%nat = (l * (a + b) + 2 * 1 * b) * (1 + a)).
  { intros a b Ha Hb. destruct (stretch_flux 1 1 a b Ha Hb) as (P & EP & P0 & P1). cbn [has_stress piola_of T sigma]. rewrite EP. split; [exists (linear_isotropic 2 1 1 (stretch a b)); now split|]. now split. }
  assert (MA : forall a b, mderive 2 (fun t => stretch t b) a (side 0)).
  { intros a b i j Hi Hj. unfold stretch, side. destruct i as [|[|i]]; [| |lia]; destruct j as [|[|j]]; try lia; cbn [Nat.eqb andb]; first [exact (is_derive_id _)|exact (d_const _ _)]. }
  assert (MB : forall a b, mderive 2 (fun t => stretch a t) b (side 1)).
  { intros a b i j Hi Hj. unfold stretch, side. destruct i as [|[|i]]; [| |lia]; destruct j as [|[|j]]; try lia; cbn [Nat.eqb andb]; first [exact (is_derive_id _)|exact (d_const _ _)]. }
  assert (A1 : is_derive (fun t => inner 2 2 (piola_of 2 T tt (stretch t 1)) (side 1)) 2 (C tt (stretch 2 1) (side 0) (side 1))).
  { refine (HT tt (fun t => stretch t 1) 2 (side 0) (side 1) (fun t => piola_of 2 T tt (stretch t 1)) (MA 2 1) _).
    apply filter_imp with (2 := near_positive 2 ltac:(lra)). intros t Ht. exact (proj1 (PQ t 1 Ht ltac:(lra))). }
  assert (A2 : is_derive (fun t => inner 2 2 (piola_of 2 T tt (stretch 2 t)) (side 0)) 1 (C tt (stretch 2 1) (side 1) (side 0))).
  { refine (HT tt (fun t => stretch 2 t) 1 (side 1) (side 0) (fun t => piola_of 2 T tt (stretch 2 t)) (MB 2 1) _).
    apply filter_imp with (2 := near_positive 1 ltac:(lra)). intros t Ht. exact (proj1 (PQ 2 t ltac:(lra) Ht)). }
  assert (B1 : is_derive (fun t => (l * (t + 1) + 2 * 1 * 1) * (1 + t)) 2 (l * (1 + 2) + (l * (2 + 1) + 2))).
  { refine (d_ext _ _ _ _ (d_mult _ _ 2 _ _ (d_plus _ _ 2 _ _ (d_scal l _ 2 _ (d_plus _ _ 2 _ _ (is_derive_id 2) (d_const 1 2))) (d_const (2 * 1 * 1) 2)) (d_plus _ _ 2 _ _ (d_const 1 2) (is_derive_id 2))) _).
    change (@one R_AbsRing) with 1. ring. }
  assert (B2 : is_derive (fun t => (l * (2 + t) + 2 * 1 * 2) * (1 + t)) 1 (l * (1 + 1) + (l * (2 + 1) + 4))).
  { refine (d_ext _ _ _ _ (d_mult _ _ 1 _ _ (d_plus _ _ 1 _ _ (d_scal l _ 1 _ (d_plus _ _ 1 _ _ (d_const 2 1) (is_derive_id 1))) (d_const (2 * 1 * 2) 1)) (d_plus _ _ 1 _ _ (d_const 1 1) (is_derive_id 1))) _).
    change (@one R_AbsRing) with 1. ring. }
  assert (D1 : C tt (stretch 2 1) (side 0) (side 1) = l * (1 + 2) + (l * (2 + 1) + 2)).
  { rewrite <- (is_derive_unique _ _ _ A1). apply is_derive_unique. apply (is_derive_ext_loc (fun t => (l * (t + 1) + 2 * 1 * 1) * (1 + t))); [|exact B1].
    apply filter_imp with (2 := near_positive 2 ltac:(lra)). intros t Ht. rewrite inner_side by lia. now rewrite (proj2 (proj2 (PQ t 1 Ht ltac:(lra)))). }
  assert (D2 : C tt (stretch 2 1) (side 1) (side 0) = l * (1 + 1) + (l * (2 + 1) + 4)).
  { rewrite <- (is_derive_unique _ _ _ A2). apply is_derive_unique. apply (is_derive_ext_loc (fun t => (l * (2 + t) + 2 * 1 * 2) * (1 + t))); [|exact B2].
    apply filter_imp with (2 := near_positive 1 ltac:(lra)). intros t Ht. rewrite inner_side by lia. now rewrite (proj1 (proj2 (PQ 2 t ltac:(lra) Ht))). }
  rewrite (HS tt (stretch 2 1) (side 0) (side 1)), D2 in D1. unfold l, lame in D1. lra.
Qed.

(** ** the triangle of TracedSolidEx.v: Neo-Hookean with parameters, body force and traction *)
Definition sy_terms : list integrand := [IMaterial true 3 (EParNeo 2 1); IBody (fun X t i => X i + t); ITraction (fun X nu t i => nu i)].
Definition sy_f : functional unit :=
  {| f_test := ex_restr 2; f_trial := fun w => ex_restr (comps w); f_integrals := map tri_integral [0; 1; 2]%nat |}.
Definition sy_size (w : nat) : nat := (3 * comps w)%nat.
Definition sy_others (w : nat) : list R := match w with O => [0; 0; 0; 0; 0; 0] | S O => [1; 1; 1] | S (S O) => [2; 0; 1] | _ => [0; 0; 0] end.
Lemma sy_sub k Ig : nth_error (f_integrals sy_f) k = Some Ig -> (k < 3)%nat /\ Ig = tri_integral k /\ nth_error (f_integrals tri_f) k = Some Ig /\ nth_error sy_terms k = nth_error tri_terms k.
Proof. cbn [sy_f f_integrals]. destruct k as [|[|[|k]]]; cbn; intros E; try (destruct k; discriminate); injection E as <-; (split; [lia|]; split; [reflexivity|]; split; reflexivity). Qed.
Lemma sy_traced : solid_traced 2 sy_f sy_terms ex_pos ex_jac.
Proof.
  intros k Ig g G E1 E2. apply sy_sub in E1 as (Hk & _ & E1 & ET). destruct (tri_traced k Ig g G E1 E2) as (T & E3 & H). exists T. split; [now rewrite ET|].
  destruct k as [|[|[|k]]]; [exact H|exact H|exact H|lia].
Qed.
Lemma sy_wf : wf sy_f 6 sy_size.
Proof. intros Ig HI. apply In_nth_error in HI as (k & E). apply sy_sub in E as (_ & _ & E & _). exact (tri_wf Ig (nth_error_In _ _ E)). Qed.
Lemma sy_fit : all_fit sy_f.
Proof.
  intros Ig g G r HI HG Hr. apply In_nth_error in HI as (k & E). apply sy_sub in E as (_ & -> & _). cbn [tri_integral i_geoms] in HG.
  destruct g as [|g]; [|destruct g; discriminate]. injection HG as <-. cbn [sy_f f_test tri_integral i_type] in Hr.
  unfold fits. cbn [tri_kernel running gk_test gk_elems]. destruct (vol_of k); injection Hr as <-; (split; [reflexivity|]; split; [reflexivity|]); intros el [<-|[]]; cbn; lia.
Qed.
Lemma sy_spaces : two_spaces 2 sy_f.
Proof.
  split; [intros dt; split; reflexivity|]. intros Ig HI. apply In_nth_error in HI as (k & E). apply sy_sub in E as (_ & -> & _). split.
  - destruct k; [exists [2; 3]%nat|exists []]; reflexivity.
  - intros G [<-|[]]. cbn [tri_kernel running gk_test gk_trial]. destruct (vol_of k); (split; [reflexivity|split; reflexivity]).
Qed.
Lemma sy_wf_assembly : wf_assembly sy_f 0 6 6.
Proof.
  destruct (tri_plain 2 ltac:(lia)) as [P1 P2]. pose proof (plain_ids_ok _ P1) as I1. pose proof (plain_ids_ok _ P2) as I2. cbn [r_num_nodes r_components tri_r edge_r] in I1, I2.
  split; [|split; [|split; [|split]]].
  - intros [|] rt [<-|[]]; split; assumption.
  - intros [|] rt [<-|[]]; split; assumption.
  - intros [|]; reflexivity.
  - intros Ig HI. apply In_nth_error in HI as (k & E). apply sy_sub in E as (_ & -> & _). cbn [tri_integral i_geoms i_type sy_f f_test]. destruct (vol_of k); reflexivity.
  - intros Ig s g G rt rr HI Hs HG Ht Hr. apply In_nth_error in HI as (k & E). apply sy_sub in E as (_ & -> & _). cbn [tri_integral i_geoms] in HG.
    destruct g as [|g]; [|destruct g; discriminate]. injection HG as <-.
    assert (s = 0%nat) as -> by (cbn [tri_integral i_active] in Hs; destruct k; injection Hs as <-; reflexivity).
    cbn [sy_f f_test f_trial tri_integral i_type] in Ht, Hr. unfold matches. cbn [tri_kernel running gk_test gk_trial gk_elems].
    destruct (vol_of k); injection Ht as <-; injection Hr as <-; repeat (split; [reflexivity|]); (split; [|reflexivity]); intros el [<-|[]]; cbn; lia.
Qed.
Lemma sy_ready : exists c, ready sy_f 6 c sy_size.
Proof.
  destruct (tri_plain 2 ltac:(lia)) as [P1 P2].
  destruct (table_for_mesh 6 (blocks_of sy_f 0 Elements) (map fst (lut_keys (emitted_all (blocks_of sy_f 0 Elements))))) as (c & _ & B).
  - intros te tr [E|[]]. inversion E; subst. split; [exact P1|]. split; [exact P1|]. split; reflexivity.
  - intros i Hi. destruct i as [|[|[|[|[|[|i]]]]]]; [| | | | | |lia];
    [exists 0%Z, (tri_r 2), (tri_r 2), 0%nat, 0%nat, 0%nat, 0%nat, 0%nat|exists 0%Z, (tri_r 2), (tri_r 2), 0%nat, 0%nat, 0%nat, 1%nat, 0%nat
    |exists 0%Z, (tri_r 2), (tri_r 2), 0%nat, 1%nat, 0%nat, 0%nat, 0%nat|exists 0%Z, (tri_r 2), (tri_r 2), 0%nat, 1%nat, 0%nat, 1%nat, 0%nat
    |exists 0%Z, (tri_r 2), (tri_r 2), 0%nat, 2%nat, 0%nat, 0%nat, 0%nat|exists 0%Z, (tri_r 2), (tri_r 2), 0%nat, 2%nat, 0%nat, 1%nat, 0%nat]; repeat split; cbn; auto; lia.
  - lia.
  - apply Permutation_refl.
  - exists c. split; [apply sy_wf|]. split; [reflexivity|]. split; [apply sy_wf_assembly|]. split; [|split; [exact B|split; [lia|]]].
    + intros [|] rt rr [|g] Ht Hr; try (destruct g; discriminate); injection Ht as <-; injection Hr as <-; reflexivity.
    + intros x (te & tr & e & i & j & k & l & [E|[]] & He & Hi & Hj & Hk & Hl & ->). inversion E; subst te tr. cbn in He, Hi, Hj, Hk, Hl.
      exists (tri_r 2), (tri_r 2), e, i, j, k, l. split; [left; reflexivity|]. cbn. repeat (split; [lia|]).
      assert (e = 0%nat) by lia. subst e. destruct i as [|[|i]]; [| |lia]; (destruct j as [|[|j]]; [| |lia]); reflexivity.
Qed.
Lemma sy_matched T : In T sy_terms -> matched T.
Proof. intros [<-|[<-|[<-|[]]]]; cbn; auto. Qed.
Lemma sy_upright x0 y0 x1 y1 x2 y2 : 0 < (1 + (x1 - x0)) * (1 + (y2 - y0)) - (x2 - x0) * (y1 - y0) ->
  no_inverted_points 2%nat sy_f (inputs sy_others [x0; y0; x1; y1; x2; y2]) sy_terms ex_jac.
Proof.
  intros P k Ig g G e q T E1 E2 He Hq ET. apply sy_sub in E1 as (Hk & _ & E1 & E). rewrite E in ET. exact (tri_upright x0 y0 x1 y1 x2 y2 sy_others P k Ig g G e q T E1 E2 He Hq ET).
Qed.
(** the triangle, stretched and sheared *)
Theorem sy_case : exists c A, all_fit sy_f /\ two_spaces 2 sy_f /\ ready sy_f 6 c sy_size /\ fitting sy_size sy_others /\ solid_traced 2 sy_f sy_terms ex_pos ex_jac /\
  no_inverted_points 2 sy_f (inputs sy_others [0; 0; 1; 1; 0; 1]) sy_terms ex_jac /\ (forall T, In T sy_terms -> matched T) /\
  tangent sy_f 6 c 0 sy_others ex_mem [0; 0; 1; 1; 0; 1] A.
Proof.
  destruct sy_ready as (c & Rc). assert (Fo : fitting sy_size sy_others) by (intros [|[|[|w]]]; reflexivity).
  destruct (tangent_exists sy_f 6 c sy_size Rc 0 sy_others [0; 0; 1; 1; 0; 1] ex_mem Fo eq_refl) as (A & HA). exists c, A.
  split; [apply sy_fit|]. split; [apply sy_spaces|]. split; [exact Rc|]. split; [exact Fo|]. split; [apply sy_traced|]. split; [apply sy_upright; lra|]. split; [exact sy_matched|exact HA].
Qed.

(** ** the system handed to the linear solver, and reciprocity *)
Lemma eliminated_symmetric N d (A : mat) : (forall i j, (i < N)%nat -> (j < N)%nat -> A i j = A j i) -> forall i j, (i < N)%nat -> (j < N)%nat -> eliminate d A i j = eliminate d A j i.
Proof.
  intros H i j Hi Hj. unfold eliminate. rewrite (orb_comm (d j)), (Nat.eqb_sym j i). destruct (d i || d j)%bool; [reflexivity|now apply H].
Qed.
Lemma symmetric_reciprocal N (A : mat) (u v : vec) : (forall i j, (i < N)%nat -> (j < N)%nat -> A i j = A j i) ->
  sumn N (fun i => v i * sumn N (fun j => A i j * u j)) = sumn N (fun i => u i * sumn N (fun j => A i j * v j)).
Proof.
  intros H. rewrite (sumn_ext N _ (fun i => sumn N (fun j => v i * (A i j * u j)))) by (intros; now rewrite sumn_scal_l).
  rewrite sumn_swap. apply sumn_ext. intros j Hj. rewrite <- sumn_scal_l. apply sumn_ext. intros i Hi. rewrite (H i j) by assumption. ring.
Qed.
Theorem solver_matrix_symmetric St n N (f : functional St) terms pos jac c tsize t others m u (d : dofset) : dim23 n -> all_fit f -> two_spaces n f -> ready f N c tsize ->
  fitting tsize others -> tsize 1%nat = N -> length u = N -> solid_traced n f terms pos jac -> no_inverted_points n f (inputs others u) terms jac ->
  (forall T, In T terms -> matched T) -> forall A, tangent f N c t others m u A ->
  (forall i j, (i < N)%nat -> (j < N)%nat -> eliminate d A i j = eliminate d A j i) /\
  (forall p q : vec, sumn N (fun i => q i * sumn N (fun j => A i j * p j)) = sumn N (fun i => p i * sumn N (fun j => A i j * q j))).
Proof.
  intros D F TS R0 Fo HA Hu W U M A HT. assert (Q := assembled_symmetric n N f terms pos jac c tsize t others m u D F TS R0 Fo HA Hu W U M A HT).
  split; [now apply eliminated_symmetric|]. intros p q. now apply symmetric_reciprocal.
Qed.

(** ** linear elasticity meets the hypotheses of [stored_symmetric] everywhere *)
Theorem linear_stored_case St n rho K G (st : St) H D E : dim23 n ->
  stores n (SMaterial false rho (fun (_ : St) H => Some (linear_isotropic n K G H))) (fun _ => energy_linear n K G) /\
  has_tangent n (SMaterial false rho (fun (_ : St) H => Some (linear_isotropic n K G H))) (tangent_linear n (lame K G) G) /\
  locally_2d (fun a b => exists s P, Some (linear_isotropic n K G (plane H D E a b)) = Some s /\ flux n false s (plane H D E a b) = Some P) 0 0 /\
  continuity_2d_pt (fun a b => tangent_linear n (lame K G) G st (plane H D E a b) D E) 0 0.
Proof.
  intros Dm. split; [exact (linear_stores St n rho K G Dm)|]. split; [exact (linear_tangent St n rho (lame K G) G Dm)|]. split.
  - apply locally_2d_forall. intros a b. eexists. unfold flux. cbv zeta. 
    destruct (invn_works n (madd (mscal 0 (plane H D E a b)) ident) Dm) as (B & EB).
    { assert (M : meq n (madd (mscal 0 (plane H D E a b)) ident) ident) by (intros i j _ _; unfold madd, mscal; ring). rewrite (detn_ext n _ _ Dm M), detn_ident by exact Dm. lra. }
    cbn [andb]. exists (mscal (detn n (madd (mscal 0 (plane H D E a b)) ident)) (mmul n (linear_isotropic n K G (plane H D E a b)) (transpose B))). split; [reflexivity|]. now rewrite EB.
  - unfold tangent_linear. apply continuity_2d_pt_const.
Qed.

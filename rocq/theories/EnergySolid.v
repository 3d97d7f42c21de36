(** * The residual of a linear elastic solid as inertia, stiffness and loads (C68)
    The residual evaluated by the solid module (solid_mechanics.hpp:808-1103, through Functional) tested against any
    vector is a mass form of the acceleration plus a stiffness form of the displacement minus the loads. *)
From Coq Require Import NArith ZArith Reals List Lia Lra Bool.
From Verif Require Import Prelude DofCodec Sums Restriction Kernels FunctionalModel Assembly Tensor MatAlg Materials MaterialFacts ShapeAware WeakForm WeakFormFacts WeakFormPhysics WeakFormWork Fit Ode Energy.
Import ListNotations.
Local Open Scope R_scope.

(** ** specification *)
(** physical gradient of a field given with its parent derivatives *)
Definition grad_at (n : nat) (J : mat) (u : slots) : mat :=
  match invn n J with Some K => fun i j => sumn n (fun k => u i (S k) * K k j) | None => fun _ _ => 0 end.
(** a term of small-displacement linear elasticity: the stress is a symmetric linear function of the gradient, and the
    geometry of the pressure is the undeformed one *)
Definition linear_law (n : nat) (C : mat -> mat) : Prop :=
  (forall A B, meq n A B -> meq n (C A) (C B)) /\
  (forall c A B, meq n (C (fun i j => c * A i j + B i j)) (fun i j => c * C A i j + C B i j)) /\
  (forall A B, inner n n (C A) B = inner n n (C B) A).
Definition stress_of {St} (sigma : St -> mat -> option mat) (st : St) (H : mat) : mat := match sigma st H with Some s => s | None => fun _ _ => 0 end.
Definition linear_elastic {St} (n : nat) (T : solid_term St) : Prop :=
  match T with
  | SMaterial on _ sigma => on = false /\ (forall st H, sigma st H <> None) /\ forall st, linear_law n (stress_of sigma st)
  | SPressure on _ => on = false
  | _ => True end.
(** densities per unit of parent measure: [v], [w] fields with derivatives *)
Definition mass_density {St} (n : nat) (T : solid_term St) (J : mat) (v w : slots) : R :=
  match T with SMaterial _ rho _ => rho * sumn n (fun i => v i 0%nat * w i 0%nat) * detn n J | _ => 0 end.
Definition stiffness_density {St} (n : nat) (T : solid_term St) (st : St) (J : mat) (v w : slots) : R :=
  match T with SMaterial _ _ sigma => inner n n (stress_of sigma st (grad_at n J v)) (grad_at n J w) * detn n J | _ => 0 end.
Definition load_density {St} (n : nat) (T : solid_term St) (t : R) (X : vec) (J : mat) (w : slots) : R :=
  match T with
  | SMaterial _ _ _ => 0
  | SBody b => sumn n (fun i => b X t i * w i 0%nat) * detn n J
  | STraction tr => sumn n (fun i => tr X (unit_normal n J) t i * w i 0%nat) * vnorm n (crossn n J)
  | SPressure _ p => - p X t * sumn n (fun i => crossn n J i * w i 0%nat)
  end.

(** ** quadrature sums *)
Lemma over_points_comb {S} (f : functional S) c d a b : over_points f (fun k Ig g G r le q => c * a k Ig g G r le q + d * b k Ig g G r le q) = c * over_points f a + d * over_points f b.
Proof.
  unfold over_points. rewrite <- !sumn_scal_l, <- !sumn_plus. apply sumn_ext. intros k _. destruct (nth_error (f_integrals f) k) as [Ig|]; [|ring].
  rewrite <- !sumn_scal_l, <- !sumn_plus. apply sumn_ext. intros g _. destruct (nth_error (i_geoms Ig) g) as [G|]; [|ring]. destruct (nth_error (f_test f (i_type Ig)) g) as [r|]; [|ring].
  rewrite <- !sumn_scal_l, <- !sumn_plus. apply sumn_ext. intros le _. rewrite <- !sumn_scal_l, <- !sumn_plus. apply sumn_ext. intros. ring.
Qed.
Lemma over_points_comb1 {S} (f : functional S) c a b : over_points f (fun k Ig g G r le q => c * a k Ig g G r le q + b k Ig g G r le q) = c * over_points f a + over_points f b.
Proof. rewrite <- (Rmult_1_l (over_points f b)), <- over_points_comb. apply over_points_ext. intros. ring. Qed.
Lemma tab_ext N (x y : nat -> R) : (forall i, (i < N)%nat -> x i = y i) -> tab N x = tab N y.
Proof. intros H. unfold tab. apply map_ext_in. intros i Hi. apply in_seq in Hi. apply H. lia. Qed.
Lemma nth_tab_comb N (x y : nat -> R) c i : nth i (tab N (fun j => c * x j + y j)) 0 = c * nth i (tab N x) 0 + nth i (tab N y) 0.
Proof. destruct (lt_dec i N); [now rewrite !nth_tab|]. rewrite !nth_tab0 by lia. ring. Qed.
Lemma test_field_comb {St} (G : gkernel St) r N x y c le q i b :
  test_field G r (tab N (fun j => c * x j + y j)) le q i b = c * test_field G r (tab N x) le q i b + test_field G r (tab N y) le q i b.
Proof.
  unfold test_field, interpolate. rewrite <- sumn_scal_l, <- sumn_plus. apply sumn_ext. intros k _. unfold elem_dofs, gatherF.
  set (I0 := ((_ * _ + i) * _ + k)%nat). clearbody I0. destruct (lt_dec I0 (esize r)).
  - rewrite !(nth_tab (esize r)) by auto. rewrite nth_tab_comb. ring.
  - rewrite !(nth_tab0 (esize r)) by lia. ring.
Qed.
Lemma grad_at_ext n J u v : (forall i b, u i b = v i b) -> forall i j, grad_at n J u i j = grad_at n J v i j.
Proof. intros H i j. unfold grad_at. destruct (invn n J); [|reflexivity]. apply sumn_ext. intros. now rewrite H. Qed.
Lemma grad_at_comb n J u v w c : (forall i b, u i b = c * v i b + w i b) -> forall i j, grad_at n J u i j = c * grad_at n J v i j + grad_at n J w i j.
Proof.
  intros H i j. unfold grad_at. destruct (invn n J); [|ring]. rewrite <- sumn_scal_l, <- sumn_plus. apply sumn_ext. intros. rewrite H. ring.
Qed.
Lemma inner_ext n A A' B B' : meq n A A' -> meq n B B' -> inner n n A B = inner n n A' B'.
Proof. intros H K. unfold inner. apply sumn_ext. intros i Hi. apply sumn_ext. intros j Hj. now rewrite H, K. Qed.
Lemma inner_comb n A B D c : inner n n (fun i j => c * A i j + B i j) D = c * inner n n A D + inner n n B D.
Proof. unfold inner. rewrite <- sumn_scal_l, <- sumn_plus. apply sumn_ext. intros i _. rewrite <- sumn_scal_l, <- sumn_plus. apply sumn_ext. intros. ring. Qed.
(** a symmetric form from one linearity law *)
Lemma form_of_comb N b : (forall x x' y, (forall i, (i < N)%nat -> x i = x' i) -> b x y = b x' y) ->
  (forall c x y z, b (fun i => c * x i + y i) z = c * b x z + b y z) -> (forall x y, b x y = b y x) -> symmetric_form N b.
Proof.
  intros E L S. assert (Z : forall z, b (fun _ => 0) z = 0).
  { intros z. assert (A := L 1 (fun _ => 0) (fun _ => 0) z). rewrite (E (fun i => 1 * 0 + 0) (fun _ => 0)) in A by (intros; ring). lra. }
  constructor; [exact E| |  |exact S].
  - intros x y z. rewrite (E _ (fun i => 1 * x i + y i)) by (intros; ring). rewrite L. ring.
  - intros c x z. rewrite (E _ (fun i => c * x i + 0)) by (intros; ring). rewrite (L c x (fun _ => 0) z), Z. ring.
Qed.

Section Solid.
Context {St : Type} (n N : nat) (f : functional St) (m : mem St) (terms : list (solid_term St)) (pos : nat -> nat -> nat -> nat -> vec) (jac : nat -> nat -> nat -> nat -> mat)
  (params : nat -> list R).
Notation at_term k h := (match nth_error terms k with Some T => h T | None => 0 end).
Definition mass_form (v w : vec) : R := over_points f (fun k Ig g G r le q =>
  match nth_error terms k with Some T => mass_density n T (jac k g le q) (test_field G r (tab N v) le q) (test_field G r (tab N w) le q) | None => 0 end).
Definition stiffness_form (v w : vec) : R := over_points f (fun k Ig g G r le q =>
  match nth_error terms k with Some T => stiffness_density n T (m_q m k g le q) (jac k g le q) (test_field G r (tab N v) le q) (test_field G r (tab N w) le q) | None => 0 end).
Definition load_form (t : R) (w : vec) : R := over_points f (fun k Ig g G r le q =>
  match nth_error terms k with Some T => load_density n T t (pos k g le q) (jac k g le q) (test_field G r (tab N w) le q) | None => 0 end).
(** the load on each degree of freedom *)
Definition load_vector (t : R) : vec := fun i => load_form t (fun j => if Nat.eqb j i then 1 else 0).

(** displacement and acceleration as arguments 0 and 1, parameters behind them (solid_mechanics.hpp: residual_(time, shape, u, a, params)) *)
Definition arguments (x a : vec) (w : nat) : list R := match w with O => tab N x | S O => tab N a | _ => params w end.
(** displacement and acceleration come from the space of the test functions *)
Definition two_spaces : Prop := (forall dt, f_trial f 0 dt = f_test f dt /\ f_trial f 1 dt = f_test f dt) /\
  forall Ig, In Ig (f_integrals f) -> (exists rest, i_active Ig = 0%nat :: 1%nat :: rest) /\
    forall G, In G (i_geoms Ig) -> gk_trial G 0%nat = gk_test G /\ gk_trial G 1%nat = gk_test G /\ es_c (gk_test G) = n.

Hypothesis (D : dim23 n) (LE : List.Forall (linear_elastic n) terms).

Lemma mass_symmetric : symmetric_form N mass_form.
Proof.
  apply form_of_comb.
  - intros x x' y H. unfold mass_form. now rewrite (tab_ext N x x' H).
  - intros c x y z. unfold mass_form. rewrite <- over_points_comb1. apply over_points_ext. intros k Ig g G r le q _ _ _ _ _.
    destruct (nth_error terms k) as [[on rho sigma|b|tr|on p]|]; cbn [mass_density]; try ring.
    rewrite (sumn_ext n _ (fun i => c * (test_field G r (tab N x) le q i 0%nat * test_field G r (tab N z) le q i 0%nat) + test_field G r (tab N y) le q i 0%nat * test_field G r (tab N z) le q i 0%nat))
      by (intros; rewrite test_field_comb; ring). rewrite sumn_plus, sumn_scal_l. ring.
  - intros x y. unfold mass_form. apply over_points_ext. intros k Ig g G r le q _ _ _ _ _. destruct (nth_error terms k) as [[on rho sigma|b|tr|on p]|]; cbn [mass_density]; try reflexivity.
    f_equal. f_equal. apply sumn_ext. intros. ring.
Qed.
Lemma stiffness_symmetric : symmetric_form N stiffness_form.
Proof.
  apply form_of_comb.
  - intros x x' y H. unfold stiffness_form. now rewrite (tab_ext N x x' H).
  - intros c x y z. unfold stiffness_form. rewrite <- over_points_comb1. apply over_points_ext. intros k Ig g G r le q _ _ _ _ _.
    destruct (nth_error terms k) as [T|] eqn:ET; [|ring]. assert (HT := proj1 (Forall_forall _ _) LE T (nth_error_In _ _ ET)).
    destruct T as [on rho sigma|b|tr|on p]; cbn [stiffness_density linear_elastic] in *; try ring. destruct HT as (_ & _ & HL). destruct (HL (m_q m k g le q)) as (X & L & _).
    rewrite (inner_ext n _ (fun i j => c * stress_of sigma (m_q m k g le q) (grad_at n (jac k g le q) (test_field G r (tab N x) le q)) i j +
        stress_of sigma (m_q m k g le q) (grad_at n (jac k g le q) (test_field G r (tab N y) le q)) i j) _ (grad_at n (jac k g le q) (test_field G r (tab N z) le q))).
    + rewrite inner_comb. ring.
    + intros i j Hi Hj. rewrite <- L by auto. apply X; auto. intros i' j' _ _. apply grad_at_comb. intros. apply test_field_comb.
    + intros i j _ _. reflexivity.
  - intros x y. unfold stiffness_form. apply over_points_ext. intros k Ig g G r le q _ _ _ _ _.
    destruct (nth_error terms k) as [T|] eqn:ET; [|reflexivity]. assert (HT := proj1 (Forall_forall _ _) LE T (nth_error_In _ _ ET)).
    destruct T as [on rho sigma|b|tr|on p]; cbn [stiffness_density linear_elastic] in *; try reflexivity. destruct HT as (_ & _ & HL). destruct (HL (m_q m k g le q)) as (_ & _ & S). now rewrite S.
Qed.
Lemma load_comb t c x y : load_form t (fun i => c * x i + y i) = c * load_form t x + load_form t y.
Proof.
  unfold load_form. rewrite <- over_points_comb1. apply over_points_ext. intros k Ig g G r le q _ _ _ _ _.
  destruct (nth_error terms k) as [[on rho sigma|b|tr|on p]|]; cbn [load_density]; try ring.
  - rewrite (sumn_ext n _ (fun i => c * (b (pos k g le q) t i * test_field G r (tab N x) le q i 0%nat) + b (pos k g le q) t i * test_field G r (tab N y) le q i 0%nat))
      by (intros; rewrite test_field_comb; ring). rewrite sumn_plus, sumn_scal_l. ring.
  - set (u := unit_normal n (jac k g le q)). rewrite (sumn_ext n _ (fun i => c * (tr (pos k g le q) u t i * test_field G r (tab N x) le q i 0%nat) + tr (pos k g le q) u t i * test_field G r (tab N y) le q i 0%nat))
      by (intros; rewrite test_field_comb; ring). rewrite sumn_plus, sumn_scal_l. ring.
  - rewrite (sumn_ext n _ (fun i => c * (crossn n (jac k g le q) i * test_field G r (tab N x) le q i 0%nat) + crossn n (jac k g le q) i * test_field G r (tab N y) le q i 0%nat))
      by (intros; rewrite test_field_comb; ring). rewrite sumn_plus, sumn_scal_l. ring.
Qed.
Lemma load_ext t x y : (forall i, (i < N)%nat -> x i = y i) -> load_form t x = load_form t y.
Proof. intros H. unfold load_form. now rewrite (tab_ext N x y H). Qed.
Lemma load_zero t : load_form t (fun _ => 0) = 0.
Proof. assert (A := load_comb t 1 (fun _ => 0) (fun _ => 0)). assert (B : load_form t (fun i => 1 * 0 + 0) = load_form t (fun _ => 0)) by (apply load_ext; intros; ring). lra. Qed.
Lemma load_expand t h : load_form t h = dotn N h (load_vector t).
Proof.
  assert (P : forall M, (M <= N)%nat -> load_form t (fun i => if (i <? M)%nat then h i else 0) = sumn M (fun i => h i * load_vector t i)).
  { induction M as [|M IH]; intros HM.
    - cbn [sumn]. transitivity (load_form t (fun _ => 0)); [|apply load_zero]. apply load_ext. intros i _. reflexivity.
    - cbn [sumn]. rewrite <- IH by lia. unfold load_vector. rewrite Rplus_comm, <- load_comb. apply load_ext. intros i _.
      destruct (Nat.eqb_spec i M) as [->|]; [|destruct (Nat.ltb_spec i (S M)), (Nat.ltb_spec i M); try lia; ring].
      rewrite (proj2 (Nat.ltb_lt M (S M))) by lia. rewrite Nat.ltb_irrefl. ring. }
  unfold dotn. rewrite <- (P N) by lia. apply load_ext. intros i Hi. rewrite (proj2 (Nat.ltb_lt i N) Hi). reflexivity.
Qed.

Lemma small_piola on rho sigma (st : St) H : on = false -> sigma st H <> None -> is_piola n (SMaterial on rho sigma) st H (stress_of sigma st H).
Proof.
  intros -> Hs. unfold stress_of. cbn [is_piola]. destruct (sigma st H) as [s|]; [|congruence]. exists s. split; [reflexivity|].
  assert (EI : meq n (fun i j => ident i j + 0) ident) by (intros i j _ _; ring).
  intros i j Hi Hj. unfold mscal. rewrite (detn_ext n _ _ D EI), detn_ident by exact D. rewrite Rmult_1_l.
  rewrite (rmul_ext n s s _ ident i j); [now apply mmul_ident_r|reflexivity|]. intros k Hk. unfold transpose. rewrite EI by auto. apply ident_comm.
Qed.

Section At.
Context (t : R) (x a : vec) (L' : list R) (m' : mem St) (wrt : option nat) (upd : bool).
Hypothesis (W : wf f N (fun w => length (arguments x a w))) (F : all_fit f) (TS : two_spaces)
  (RES : solid_residual n f t (arguments x a) m terms pos jac) (EV : evaluate f t wrt upd (arguments x a) N m = Ok (L', m')).

Lemma argument_field k Ig g G r le q : nth_error (f_integrals f) k = Some Ig -> nth_error (i_geoms Ig) g = Some G -> nth_error (f_test f (i_type Ig)) g = Some r ->
  qf_inputs G g (Es_of f (arguments x a) Ig) le q 0%nat = test_field G r (tab N x) le q /\
  qf_inputs G g (Es_of f (arguments x a) Ig) le q 1%nat = test_field G r (tab N a) le q.
Proof.
  intros E1 E2 E3. destruct TS as [S1 S2]. destruct (S2 Ig (nth_error_In _ _ E1)) as [(rest & Ea) S3]. destruct (S3 G (nth_error_In _ _ E2)) as (T0 & T1 & _).
  unfold qf_inputs. rewrite T0, T1. unfold test_field, Es_of. rewrite Ea. cbn [map nth]. destruct (S1 (i_type Ig)) as [-> ->].
  rewrite !(nth_error_nth _ _ [] (map_nth_error (fun r0 => gatherF r0 _) g _ E3)). now split.
Qed.

(** the residual against any vector: inertia, internal forces and loads *)
Theorem solid_balance h : dotn N h (fun i => nth i L' 0) = mass_form h a + stiffness_form h x - dotn N h (load_vector t).
Proof.
  rewrite <- load_expand.
  rewrite (form_sym N _ mass_symmetric h a), (form_sym N _ stiffness_symmetric h x).
  transitivity (sumn N (fun k => nth k L' 0 * nth k (tab N h) 0)).
  { unfold dotn. apply sumn_ext. intros i Hi. rewrite nth_tab by auto. ring. }
  rewrite (virtual_work f t wrt upd (arguments x a) N m L' m' W F EV (tab N h)).
  transitivity (over_points f (fun k Ig g G r le q => 1 * (1 * match nth_error terms k with Some T => mass_density n T (jac k g le q) (test_field G r (tab N a) le q) (test_field G r (tab N h) le q) | None => 0 end
     + 1 * match nth_error terms k with Some T => stiffness_density n T (m_q m k g le q) (jac k g le q) (test_field G r (tab N x) le q) (test_field G r (tab N h) le q) | None => 0 end)
     + (-1) * match nth_error terms k with Some T => load_density n T t (pos k g le q) (jac k g le q) (test_field G r (tab N h) le q) | None => 0 end)).
  2:{ rewrite (over_points_comb f 1 (-1)), (over_points_comb f 1 1). fold (mass_form a h) (stiffness_form x h) (load_form t h). ring. }
  apply over_points_ext. intros k Ig g G r le q E1 E2 E3 Hle Hq.
  destruct (RES k Ig g G le q E1 E2 Hle Hq) as (T & p & out & ET & EP & EO & Ed & EQ). rewrite ET.
  destruct (argument_field k Ig g G r le q E1 E2 E3) as [A0 A1]. rewrite A0, A1 in EP.
  destruct TS as [_ S2]. destruct (proj2 (S2 Ig (nth_error_In _ _ E1)) G (nth_error_In _ _ E2)) as (_ & _ & Ec). rewrite Ec.
  assert (HT := proj1 (Forall_forall _ _) LE T (nth_error_In _ _ ET)).
  set (X := test_field G r (tab N x) le q) in *. set (A := test_field G r (tab N a) le q) in *. set (Hh := test_field G r (tab N h) le q).
  transitivity (sumn n (fun i => sumn (if is_volume T then S n else n) (fun b => out i b * Hh i b))).
  { apply sumn_ext. intros i Hi. rewrite Ed. apply sumn_ext. intros b Hb. rewrite EQ by (auto; rewrite Ed; auto). reflexivity. }
  assert (INV : is_volume T = true -> exists K, invn n (jac k g le q) = Some K).
  { intros V. destruct T as [on rho sigma|b|tr|on pr]; try discriminate; cbn [solid_point] in EP.
    - unfold grad_phys, parent_to_physical in EP. destruct (invn n (jac k g le q)) as [K|]; [now exists K|discriminate].
    - injection EP as <-. destruct (point_out_volume n _ _ _ out D EO) as (KT & EKT & _).
      destruct (invn n (jac k g le q)) as [K|] eqn:EK; [now exists K|]. exfalso. destruct D as [-> | ->]; unfold invn in *; cbn [Nat.eqb] in *.
      + unfold inv2 in *. destruct (Req_EM_T (det2 (jac k g le q)) 0) as [Z|]; [|discriminate]. destruct (Req_EM_T (det2 (transpose (jac k g le q))) 0) as [|NZ]; [discriminate|].
        apply NZ. rewrite <- Z. unfold det2, transpose. ring.
      + unfold inv3 in *. destruct (Req_EM_T (det3 (jac k g le q)) 0) as [Z|]; [|discriminate]. destruct (Req_EM_T (det3 (transpose (jac k g le q))) 0) as [|NZ]; [discriminate|].
        apply NZ. rewrite <- Z. unfold det3, transpose. ring. }
  assert (GR : is_volume T = true -> forall u, grad_phys n (jac k g le q) u = Some (grad_at n (jac k g le q) u)).
  { intros V u. destruct (INV V) as (K & EK). unfold grad_phys, parent_to_physical, grad_at. rewrite EK. reflexivity. }
  rewrite (solid_point_power n T t (pos k g le q) (jac k g le q) X A (m_q m k g le q) p out (grad_at n (jac k g le q) X) Hh (grad_at n (jac k g le q) Hh) D EP EO
    (fun V => GR V X) (fun V => GR V Hh) (match T with SMaterial _ _ sigma => stress_of sigma (m_q m k g le q) (grad_at n (jac k g le q) X) | _ => fun _ _ => 0 end)).
  - destruct T as [on rho sigma|b|tr|on pr]; cbn [solid_power mass_density stiffness_density load_density linear_elastic] in *.
    + rewrite (sumn_ext n _ (fun i => rho * (A i 0%nat * Hh i 0%nat))) by (intros; ring). rewrite sumn_scal_l. unfold inner. ring.
    + ring.
    + ring.
    + rewrite HT. rewrite (sumn_ext n _ (fun i => crossn n (jac k g le q) i * Hh i 0%nat)); [ring|]. intros i _.
      rewrite (crossn_ext n _ (jac k g le q) i D); [reflexivity|]. intros; cbn; ring.
  - destruct T as [on rho sigma|b|tr|on pr]; cbn [is_piola]; try exact I. destruct HT as (On & Hs & _). apply small_piola; auto.
Qed.
End At.
End Solid.

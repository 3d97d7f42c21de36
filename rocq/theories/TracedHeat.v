(** * The integrands of heat transfer on dual numbers (C82)

    The conductors of materials/thermal_material.hpp and parameterized_thermal_material.hpp and the three integrands of heat_transfer.hpp (material
    379-406, source 488-506, flux 538-553) as expressions over the operations of dual.hpp.  Sources and fluxes come from the user, as expressions.
    Two of the conductors stop the program when the conductivity at a point is negative (Conductors.v, C51); this is not repeated here. *)
From Coq Require Import NArith ZArith Reals List Lia Lra Bool FunctionalExtensionality.
From Coquelicot Require Import Coquelicot.
From Verif Require StateMgr.
From Verif Require Import Prelude DofCodec Sums Restriction Csr Kernels FunctionalModel FunctionalGrad FunctionalTotal Assembly Tensor BoundaryElim Newton QuasiStatic QuasiBalance Dual LU LUDeriv MatAlg Materials ShapeAware
  WeakForm Conductors Traced TracedSolid TracedInv.
Import ListNotations.
Local Open Scope R_scope.

Inductive conductor :=
| CIsotropic (m : isotropic)           (* thermal_material.hpp:20-66 LinearIsotropicConductor *)
| CGraded (m : graded)                 (* 69-129 IsotropicConductorWithLinearConductivityVsTemperature *)
| CMatrix (rc : R) (kappa : Tensor.mat)       (* 136-187 LinearConductor; rc is density times specific heat capacity *)
| CParIsotropic (m : isotropic)        (* parameterized_thermal_material.hpp:21-63: one parameter, added to the conductivity *)
| CParGraded (m : graded).             (* 83-138 *)
Definition heat_parameters (m : conductor) : nat := match m with CParIsotropic _ | CParGraded _ => 1%nat | _ => 0%nat end.
Definition capacity (m : conductor) : R :=
  match m with CIsotropic m | CParIsotropic m => i_density m * i_cp m | CGraded m | CParGraded m => g_density m * g_cp m | CMatrix rc _ => rc end.
(** conductivity at temperature [u] with parameter [p] *)
Definition conductivity (m : conductor) (p u : R) : R :=
  match m with CIsotropic m => i_kappa m | CParIsotropic m => i_kappa m + p | CGraded m => g_kappa m + g_slope m * u | CParGraded m => g_kappa m + p + g_slope m * u | CMatrix _ _ => 0 end.
Definition conduct (n : nat) (m : conductor) (p : R) (_ : vec) (u : R) (grad : vec) : R * vec :=
  (capacity m, match m with CMatrix _ k => fun i => sumn n (fun j => -1 * k i j * grad j) | _ => fun i => -1 * conductivity m p u * grad i end).
(** the same as the models of C51 *)
Lemma conduct_isotropic n m p X u (grad : list R) : isotropic_response m grad = (fst (conduct n (CIsotropic m) p X u (fun i => nth i grad 0)), tab (length grad) (snd (conduct n (CIsotropic m) p X u (fun i => nth i grad 0)))).
Proof.
  unfold isotropic_response, conduct. cbn [fst snd capacity conductivity]. f_equal. apply nth_ext with (d := -1 * i_kappa m * 0) (d' := 0).
  - now rewrite map_length, tab_length.
  - rewrite map_length. intros i Hi. rewrite (map_nth (fun g => -1 * i_kappa m * g)). now rewrite nth_tab by exact Hi.
Qed.
Lemma conduct_graded n m p X u (grad : list R) r : graded_response m u grad = StateMgr.Done r ->
  r = (fst (conduct n (CGraded m) p X u (fun i => nth i grad 0)), tab (length grad) (snd (conduct n (CGraded m) p X u (fun i => nth i grad 0)))) /\ 0 <= conductivity (CGraded m) p u.
Proof.
  unfold graded_response, conduct. cbv zeta. destruct (ltb (g_kappa m + g_slope m * u) 0) eqn:E; [discriminate|]. intros H. injection H as <-. cbn [fst snd capacity conductivity]. split.
  - f_equal. apply nth_ext with (d := -1 * (g_kappa m + g_slope m * u) * 0) (d' := 0); [now rewrite map_length, tab_length|].
    rewrite map_length. intros i Hi. rewrite (map_nth (fun g => -1 * (g_kappa m + g_slope m * u) * g)). now rewrite nth_tab by exact Hi.
  - apply ltb_false in E. lra.
Qed.

Lemma conduct_as_before n p X u (grad : list R) :
  (forall m, isotropic_response m grad = (fst (conduct n (CIsotropic m) p X u (fun i => nth i grad 0)), tab (length grad) (snd (conduct n (CIsotropic m) p X u (fun i => nth i grad 0))))) /\
  (forall m r, graded_response m u grad = StateMgr.Done r ->
    r = (fst (conduct n (CGraded m) p X u (fun i => nth i grad 0)), tab (length grad) (snd (conduct n (CGraded m) p X u (fun i => nth i grad 0)))) /\ 0 <= conductivity (CGraded m) p u).
Proof. split; [intros m; apply conduct_isotropic|intros m r; apply conduct_graded]. Qed.
Definition e_conductivity (m : conductor) (p u : expr) : expr :=
  match m with
  | CIsotropic m => Cst (i_kappa m) | CParIsotropic m => Bin Add (Cst (i_kappa m)) p
  | CGraded m => Bin Add (Cst (g_kappa m)) (Bin Mul (Cst (g_slope m)) u)
  | CParGraded m => Bin Add (Bin Add (Cst (g_kappa m)) p) (Bin Mul (Cst (g_slope m)) u)
  | CMatrix _ _ => Cst 0
  end.
Definition e_conduct (n : nat) (m : conductor) (p u : expr) (grad : nat -> expr) : nat -> expr :=
  match m with
  | CMatrix _ k => fun i => esum n (fun j => Bin Mul (Cst (-1 * k i j)) (grad j))
  | _ => fun i => Bin Mul (Bin Mul (Cst (-1)) (e_conductivity m p u)) (grad i)
  end.

Lemma fine_esum k x n f g : (forall i, (i < n)%nat -> fine k x (f i) (g i)) -> fine k x (esum n f) (sumn n g).
Proof. induction n as [|n IH]; intros H; cbn [esum sumn]; [apply fine_cst|]. apply fine_add; [apply IH; intros; apply H; lia|apply H; lia]. Qed.
Lemma conduct_fine k x n m p u grad pv uv gv X i : fine k x p pv -> fine k x u uv -> (forall j, (j < n)%nat -> fine k x (grad j) (gv j)) -> (i < n)%nat ->
  fine k x (e_conduct n m p u grad i) (snd (conduct n m pv X uv gv) i).
Proof.
  intros Fp Fu Fg Hi. destruct m; cbn [e_conduct conduct snd e_conductivity conductivity]; try (apply fine_mul; [|now apply Fg]; apply fine_mul; [apply fine_cst|]; repeat first [apply fine_add|apply fine_mul|apply fine_cst|assumption]).
  apply fine_esum. intros j Hj. apply fine_mul; [apply fine_cst|now apply Fg].
Qed.

(** ** Expressions put into expressions *)
Lemma eval_subst s x y e : (forall v, eval (s v) x = Some (y v)) -> eval (subst s e) x = eval e y.
Proof.
  intros H. induction e as [v|c|u a IHa|b a IHa c IHc|a IHa c IHc t IHt f IHf]; cbn [subst eval]; auto.
  - now rewrite IHa.
  - now rewrite IHa, IHc.
  - now rewrite IHa, IHc, IHt, IHf.
Qed.
Lemma is_dual_subst k s e : is_dual k (subst s e) = is_dual (fun v => is_dual k (s v)) e.
Proof. induction e; cbn [subst is_dual]; congruence. Qed.
Lemma fine_subst k x s y e r : (forall v, fine k x (s v) (y v)) -> (forall k', fine k' y e r) -> fine k x (subst s e) r.
Proof.
  intros H F. destruct (F (fun v => is_dual k (s v))) as [E Sm]. clear F.
  assert (Ev : forall e, eval (subst s e) x = eval e y) by (intros e'; apply eval_subst; intros v; apply H).
  split; [now rewrite Ev|]. clear E. induction e as [v|c|u a IHa|b a IHa c IHc|a IHa c IHc t IHt f IHf]; cbn [subst smooth] in *.
  - apply H.
  - exact Logic.I.
  - rewrite is_dual_subst. setoid_rewrite Ev. destruct Sm. split; [now apply IHa|assumption].
  - rewrite !is_dual_subst. setoid_rewrite Ev. destruct Sm as (S1 & S2 & S3). split; [now apply IHa|]. split; [now apply IHc|exact S3].
  - setoid_rewrite Ev. destruct Sm as (S1 & S2 & S3). split; [now apply IHa|]. split; [now apply IHc|]. intros v w E1 E2. destruct (S3 v w E1 E2) as (N & T & G). split; [|split; auto].
    rewrite ?is_dual_subst in *. exact N.
Qed.

(** ** The integrands *)
Inductive heat_integrand :=
| HIMaterial (m : conductor)
| HISource (s : vec -> R -> expr)            (* over the temperature (variable 0) and its gradient (variables from 1) *)
| HIFlux (q : vec -> vec -> R -> expr).      (* over the temperature (variable 0) *)
Definition value_of (e : expr) (x : nat -> R) : R := match eval e x with Some y => y | None => 0 end.
Definition heat_vars (u : R) (grad : vec) (v : nat) : R := match v with O => u | S j => grad j end.
Definition heat_term_of (n : nat) (T : heat_integrand) (p : R) : heat_term :=
  match T with
  | HIMaterial m => HMaterial (conduct n m p)
  | HISource s => HSource (fun X t u grad => value_of (s X t) (heat_vars u (fun j => if Nat.ltb j n then grad j else 0)))
  | HIFlux q => HFlux (fun X nu t u => value_of (q X nu t) (fun _ => u))
  end.
Definition heat_columns (n : nat) (T : heat_integrand) : nat := match T with HIFlux _ => (n - 1)%nat | _ => n end.
Definition heat_params_of (T : heat_integrand) : nat := match T with HIMaterial m => heat_parameters m | _ => 0%nat end.
(** temperature with its gradient in the parent element, rate, parameter *)
Definition heat_place (c np : nat) : placement := fun v =>
  (if v <=? c then (0, 0, v) else if v =? c + 1 then (1, 0, 0) else if v <? c + 2 + np then (2 + (v - (c + 2)), 0, 0) else (0, 0, 0))%nat.
Definition heat_expr (n : nat) (T : heat_integrand) (t : R) (X : vec) (J : Tensor.mat) (b : nat) : expr :=
  let c := heat_columns n T in
  match T with
  | HIMaterial m =>
      match invn n J, invn n (transpose J) with
      | Some K, Some KT =>
          let H := fun j => esum n (fun l => Bin Mul (Var (S l)) (Cst (K l j))) in
          let q := e_conduct n m (Var (c + 2)) (Var 0) H in
          match b with
          | O => Bin Mul (Bin Mul (Cst (capacity m)) (Var (c + 1))) (Cst (detn n (transpose J)))
          | S j => Bin Mul (esum n (fun l => Bin Mul (Bin Mul (Cst (-1)) (q l)) (Cst (KT l j)))) (Cst (detn n (transpose J)))
          end
      | _, _ => undefined
      end
  | HISource s =>
      match invn n J, invn n (transpose J) with
      | Some K, Some KT =>
          let vars := fun v => match v with O => Var 0 | S j => if Nat.ltb j n then esum n (fun l => Bin Mul (Var (S l)) (Cst (K l j))) else Cst 0 end in
          match b with O => Bin Mul (Bin Mul (Cst (-1)) (subst vars (s X t))) (Cst (detn n (transpose J))) | S _ => Cst 0 end
      | _, _ => undefined
      end
  | HIFlux q =>
      let nu := crossn n J in
      match b with O => Bin Mul (subst (fun _ => Var 0) (q X (fun l => nu l / vnorm n nu) t)) (Cst (vnorm n nu)) | S _ => Cst 0 end
  end.
(** the user's expression gives a number and is differentiable: always so for the materials *)
Definition agreeable (e : expr) (x : nat -> R) : Prop := (exists y, eval e x = Some y) /\ smooth everything x e.
Definition user_fine (n : nat) (T : heat_integrand) (t : R) (X : vec) (J : Tensor.mat) (u : slots) : Prop :=
  match T with
  | HIMaterial _ => True
  | HISource s => forall K, invn n J = Some K -> agreeable (s X t) (heat_vars (u 0%nat 0%nat) (fun j => if Nat.ltb j n then sumn n (fun l => u 0%nat (S l) * K l j) else 0))
  | HIFlux q => agreeable (q X (fun l => crossn n J l / vnorm n (crossn n J)) t) (fun _ => u 0%nat 0%nat)
  end.

Lemma read_temperature c np v a : (a <= c)%nat -> read (heat_place c np) v a = v 0%nat 0%nat a.
Proof. intros H. unfold read, heat_place. destruct (Nat.leb_spec a c); [reflexivity|lia]. Qed.
Lemma read_rate c np v : read (heat_place c np) v (c + 1) = v 1%nat 0%nat 0%nat.
Proof. unfold read, heat_place. destruct (Nat.leb_spec (c + 1) c); [lia|]. now rewrite Nat.eqb_refl. Qed.
Lemma read_heat_parameter c np v : (0 < np)%nat -> read (heat_place c np) v (c + 2) = v 2%nat 0%nat 0%nat.
Proof.
  intros H. unfold read, heat_place. destruct (Nat.leb_spec (c + 2) c); [lia|]. destruct (Nat.eqb_spec (c + 2) (c + 1)); [lia|]. destruct (Nat.ltb_spec (c + 2) (c + 2 + np)); [|lia].
  now replace (c + 2 - (c + 2))%nat with 0%nat by lia.
Qed.
Lemma agreeable_fine k e x : agreeable e x -> fine k x e (value_of e x).
Proof. intros [(y & E) Sm]. unfold value_of. rewrite E. split; [exact E|]. apply (smooth_mono everything k); [intros i _; reflexivity|exact Sm]. Qed.

(** wherever an integrand gives numbers, its expression has their values and is differentiable *)
Theorem heat_integrand_fine k n (T : heat_integrand) t X J (v : nat -> slots) p out b : dim23 n ->
  heat_point n (heat_term_of n T (v 2%nat 0%nat 0%nat)) t X J (v 0%nat) (v 1%nat) = Some p -> point_out n p = Some out ->
  user_fine n T t X J (v 0%nat) -> (b <= heat_columns n T)%nat ->
  fine k (read (heat_place (heat_columns n T) (heat_params_of T)) v) (heat_expr n T t X J b) (out 0%nat b).
Proof.
  intros D E O U Hb. set (x := read _ v). destruct T as [m|s|q]; cbn [heat_term_of heat_point heat_columns heat_params_of] in *.
  - unfold grad_phys, parent_to_physical in E. unfold heat_expr. cbn [heat_columns]. cbv zeta. destruct (invn n J) as [K|] eqn:EK; [|discriminate]. cbn [snd fst] in E. injection E as <-.
    cbn [point_out] in O. unfold physical_to_parent in O. destruct (invn n (transpose J)) as [KT|] eqn:EKT; [|discriminate]. injection O as <-. cbn [slots_of fst snd].
    assert (FH : forall j, (j < n)%nat -> fine k x (esum n (fun l => Bin Mul (Var (S l)) (Cst (K l j)))) (mmul n (fun i j => v 0%nat i (S j)) K 0%nat j)).
    { intros j Hj. unfold mmul. apply fine_esum. intros l Hl. apply fine_mul; [|apply fine_cst]. eapply fine_eq; [apply fine_var|]. unfold x. apply read_temperature. lia. }
    destruct b as [|j].
    + apply fine_mul; [|apply fine_cst]. apply fine_mul; [apply fine_cst|]. eapply fine_eq; [apply fine_var|]. unfold x. apply read_rate.
    + apply fine_mul; [|apply fine_cst]. unfold mmul at 1. apply fine_esum. intros l Hl. apply fine_mul; [|apply fine_cst]. apply fine_mul; [apply fine_cst|].
      assert (F0 : fine k x (Var 0) (v 0%nat 0%nat 0%nat)) by (eapply fine_eq; [apply fine_var|unfold x; apply read_temperature; lia]).
      change (fine k x (e_conduct n m (Var (n + 2)) (Var 0) (fun j => esum n (fun l => Bin Mul (Var (S l)) (Cst (K l j)))) l)
        (snd (conduct n m (v 2%nat 0%nat 0%nat) X (v 0%nat 0%nat 0%nat) (mmul n (fun i j => v 0%nat i (S j)) K 0%nat)) l)).
      destruct (heat_parameters m) as [|np] eqn:Ep.
      * replace (conduct n m (v 2%nat 0%nat 0%nat) X) with (conduct n m (x (n + 2)%nat) X) by (destruct m; try discriminate; reflexivity).
        apply (conduct_fine k x n m (Var (n + 2)) (Var 0) _ (x (n + 2)%nat) (v 0%nat 0%nat 0%nat) _ X); [apply fine_var|exact F0|exact FH|exact Hl].
      * apply (conduct_fine k x n m (Var (n + 2)) (Var 0) _ (v 2%nat 0%nat 0%nat) (v 0%nat 0%nat 0%nat) _ X); [|exact F0|exact FH|exact Hl]. eapply fine_eq; [apply fine_var|]. unfold x. apply read_heat_parameter. lia.
  - unfold grad_phys, parent_to_physical in E. unfold heat_expr. cbv zeta. destruct (invn n J) as [K|] eqn:EK; [|discriminate]. cbn [snd fst] in E. injection E as <-.
    cbn [point_out] in O. unfold physical_to_parent in O. destruct (invn n (transpose J)) as [KT|] eqn:EKT; [|discriminate]. injection O as <-. cbn [slots_of fst snd].
    destruct b as [|j].
    + apply fine_mul; [|apply fine_cst]. apply fine_mul; [apply fine_cst|].
      apply (fine_subst k x _ (heat_vars (v 0%nat 0%nat 0%nat) (fun j => if Nat.ltb j n then sumn n (fun l => v 0%nat 0%nat (S l) * K l j) else 0))).
      * intros [|j]; cbn [heat_vars]; [eapply fine_eq; [apply fine_var|unfold x; apply read_temperature; lia]|].
        destruct (Nat.ltb_spec j n); [|apply fine_cst]. apply fine_esum. intros l Hl. apply fine_mul; [|apply fine_cst]. eapply fine_eq; [apply fine_var|]. unfold x. apply read_temperature. lia.
      * intros k'. apply agreeable_fine. now apply U.
    + eapply fine_eq; [apply fine_cst|]. change (0 = mmul n (fun _ _ => 0) KT 0%nat j * detn n (transpose J)). unfold mmul. rewrite sumn_zero; [ring|]. intros l _. ring.
  - destruct (Req_EM_T (vnorm n (crossn n J)) 0) as [|N]; [discriminate|]. injection E as <-. cbn [point_out] in O. injection O as <-. unfold heat_expr. cbv zeta.
    destruct b as [|j]; [|apply fine_cst]. apply fine_mul; [|apply fine_cst]. apply (fine_subst k x _ (fun _ => v 0%nat 0%nat 0%nat)).
    + intros _. eapply fine_eq; [apply fine_var|unfold x; apply read_temperature; lia].
    + intros k'. now apply agreeable_fine.
Qed.

(** ** Functionals made of these integrands *)
Definition heat_body (n : nat) (T : heat_integrand) (t : R) (X : vec) (J : Tensor.mat) (i b : nat) : expr :=
  if (Nat.eqb i 0 && Nat.leb b (heat_columns n T))%bool then heat_expr n T t X J b else Cst 0.
Section Functionals.
Context {St : Type}.
Notation gkernel := (gkernel St). Notation functional := (functional St). Notation mem := (mem St).
Definition heat_place_of (n : nat) (terms : list heat_integrand) (k : nat) : placement :=
  match nth_error terms k with Some T => heat_place (heat_columns n T) (heat_params_of T) | None => fun _ => (0, 0, 0)%nat end.
Definition heat_expr_of (n : nat) (terms : list heat_integrand) (pos : nat -> nat -> nat -> nat -> vec) (jac : nat -> nat -> nat -> nat -> Tensor.mat) : body_of (St := St) :=
  fun k g e q t st i b => match nth_error terms k with Some T => heat_body n T t (pos k g e q) (jac k g e q) i b | None => Cst 0 end.
(** integral k of the functional is integrand k, run on doubles for the residual and on duals for the derivatives; temperature and rate are its
    first two arguments, the parameter follows *)
Definition heat_traced (n : nat) (f : functional) (terms : list heat_integrand) pos jac : Prop :=
  forall k Ig g G, nth_error (f_integrals f) k = Some Ig -> nth_error (i_geoms Ig) g = Some G ->
    exists T, nth_error terms k = Some T /\ gk_dim1 G = S (heat_columns n T) /\ (2 + heat_params_of T <= length (i_active Ig))%nat /\
      (forall s, (0 < es_c (gk_trial G s))%nat) /\ written G (heat_place_of n terms k) (heat_expr_of n terms pos jac k g).
(** no flat elements, and sources and fluxes of the user are differentiable at the temperatures met *)
Definition heat_admissible (n : nat) (f : functional) (t : R) (Ls : nat -> list R) (terms : list heat_integrand) pos (jac : nat -> nat -> nat -> nat -> Tensor.mat) : Prop :=
  forall k Ig g G e q T, nth_error (f_integrals f) k = Some Ig -> nth_error (i_geoms Ig) g = Some G -> (e < length (gk_elems G))%nat -> (q < gk_nq G)%nat ->
    nth_error terms k = Some T ->
    match T with HIFlux _ => vnorm n (crossn n (jac k g e q)) <> 0 | _ => detn n (jac k g e q) <> 0 end /\
    user_fine n T t (pos k g e q) (jac k g e q) (qf_inputs G g (Es_of f Ls Ig) e q 0%nat).

Lemma heat_place_ok c np (G : gkernel) nargs : gk_dim1 G = S c -> (2 + np <= nargs)%nat -> (forall s, (0 < es_c (gk_trial G s))%nat) -> placed G nargs (heat_place c np).
Proof.
  intros E Hp Ep v. unfold heat_place. destruct (Nat.leb_spec v c); [split; [lia|]; split; [apply Ep|lia]|].
  destruct (Nat.eqb_spec v (c + 1)); [split; [lia|]; split; [apply Ep|lia]|]. destruct (Nat.ltb_spec v (c + 2 + np)); (split; [lia|]); (split; [apply Ep|lia]).
Qed.
Lemma heat_all n f terms pos jac : heat_traced n f terms pos jac -> all_written f (fun k _ => heat_place_of n terms k) (heat_expr_of n terms pos jac).
Proof.
  intros H k Ig g G Hk HG. destruct (H k Ig g G Hk HG) as (T & ET & E1 & E2 & E5 & W). split; [|exact W]. unfold heat_place_of. rewrite ET. now apply heat_place_ok.
Qed.
Lemma heat_defined n (T : heat_integrand) p t X J u ut : dim23 n -> match T with HIFlux _ => vnorm n (crossn n J) <> 0 | _ => detn n J <> 0 end ->
  exists q out, heat_point n (heat_term_of n T p) t X J u ut = Some q /\ point_out n q = Some out.
Proof.
  intros D N. assert (O : forall s P, detn n J <> 0 -> exists out, point_out n (Volume J s P) = Some out).
  { intros s P NJ. unfold point_out, physical_to_parent. destruct (invn_works n (transpose J) D) as (B & EB); [now rewrite detn_transpose|]. rewrite EB. eauto. }
  destruct T as [m|s|q]; cbn [heat_term_of heat_point] in *.
  - unfold grad_phys, parent_to_physical. destruct (invn_works n J D N) as (K & EK). rewrite EK. eexists. edestruct O as (out & Eo); [exact N|]. exists out. split; [reflexivity|exact Eo].
  - unfold grad_phys, parent_to_physical. destruct (invn_works n J D N) as (K & EK). rewrite EK. eexists. edestruct O as (out & Eo); [exact N|]. exists out. split; [reflexivity|exact Eo].
  - destruct (Req_EM_T (vnorm n (crossn n J)) 0); [contradiction|]. eexists. eexists. split; reflexivity.
Qed.
Lemma heat_regular n f t Ls m terms pos jac w : dim23 n -> heat_traced n f terms pos jac -> heat_admissible n f t Ls terms pos jac ->
  regular f w (fun k _ => heat_place_of n terms k) (heat_expr_of n terms pos jac) t Ls m.
Proof.
  intros D H Df k Ig g G e q Hk HG He Hq i b. destruct (H k Ig g G Hk HG) as (T & ET & _). cbv zeta. unfold heat_expr_of, heat_place_of. rewrite ET.
  destruct (Df k Ig g G e q T Hk HG He Hq ET) as (N & U). set (v := qf_inputs G g (Es_of f Ls Ig) e q) in *. unfold heat_body.
  destruct (Nat.eqb_spec i 0) as [->|]; [|split; [now eexists|destruct w; intros; exact Logic.I]].
  destruct (Nat.leb_spec b (heat_columns n T)) as [Hb|]; [|split; [now eexists|destruct w; intros; exact Logic.I]]. cbn [andb].
  destruct (heat_defined n T (v 2%nat 0%nat 0%nat) t (pos k g e q) (jac k g e q) (v 0%nat) (v 1%nat) D N) as (p & out & E & O).
  assert (F := fun k0 => heat_integrand_fine k0 n T t (pos k g e q) (jac k g e q) v p out b D E O U Hb).
  split; [exists (out 0%nat b); apply (F everything)|]. destruct w as [w|]; [intros s _; apply F|apply F].
Qed.
(** the residual consists of the terms of WeakForm.v *)
Theorem heat_values n f t Ls (m : mem) terms pos jac k Ig g G e q T : dim23 n -> heat_traced n f terms pos jac -> heat_admissible n f t Ls terms pos jac ->
  nth_error (f_integrals f) k = Some Ig -> nth_error (i_geoms Ig) g = Some G -> (e < length (gk_elems G))%nat -> (q < gk_nq G)%nat -> nth_error terms k = Some T ->
  let v := qf_inputs G g (Es_of f Ls Ig) e q in
  exists p out, heat_point n (heat_term_of n T (v 2%nat 0%nat 0%nat)) t (pos k g e q) (jac k g e q) (v 0%nat) (v 1%nat) = Some p /\ point_out n p = Some out /\
    forall b, (b <= heat_columns n T)%nat -> fst (gk_qf G e q t v (m_q m k g e q)) 0%nat b = out 0%nat b.
Proof.
  intros D H Df Hk HG He Hq ET v. destruct (H k Ig g G Hk HG) as (T' & ET' & _ & _ & _ & (W & _)). destruct (Df k Ig g G e q T Hk HG He Hq ET) as (N & U).
  destruct (heat_defined n T (v 2%nat 0%nat 0%nat) t (pos k g e q) (jac k g e q) (v 0%nat) (v 1%nat) D N) as (p & out & E & O). exists p, out. split; [exact E|]. split; [exact O|].
  intros b Hb. apply W. unfold heat_place_of, heat_expr_of. rewrite ET. unfold heat_body. destruct (Nat.leb_spec b (heat_columns n T)); [|lia]. cbn [Nat.eqb andb].
  exact (proj1 (heat_integrand_fine everything n T t (pos k g e q) (jac k g e q) v p out b D E O U Hb)).
Qed.
Theorem heat_joint n f t Ls m terms pos jac : dim23 n -> heat_traced n f terms pos jac -> heat_admissible n f t Ls terms pos jac -> ad_joint f t Ls m.
Proof. intros D H Df. exact (ad_is_joint f _ _ t Ls m (heat_all n f terms pos jac H) (heat_regular n f t Ls m terms pos jac None D H Df)). Qed.
Theorem heat_argument n f t Ls m terms pos jac w : dim23 n -> heat_traced n f terms pos jac -> heat_admissible n f t Ls terms pos jac -> ad_correct_at f w t Ls m.
Proof. intros D H Df. exact (ad_is_correct f _ _ w t Ls m (heat_all n f terms pos jac H) (heat_regular n f t Ls m terms pos jac (Some w) D H Df)). Qed.
Theorem heat_gradient n (f : functional) terms pos jac lsize tsize w rq dx h1 h2 (m0 mend : mem) : dim23 n ->
  wf f lsize tsize -> List.Forall (FunctionalGrad.fits tsize) (h1 ++ rq :: h2) -> length dx = tsize w ->
  rq_wrt rq = Some w -> List.Forall (fun r => rq_wrt r <> Some w) h2 ->
  run f lsize (h1 ++ rq :: h2) m0 = Ok mend -> heat_traced n f terms pos jac -> heat_admissible n f (rq_t rq) (rq_in rq) terms pos jac ->
  exists mbefore (res : R -> list R) (act : list R), run f lsize h1 m0 = Ok mbefore /\
    (forall eps, exists m', evaluate f (rq_t rq) None false (shiftL (rq_in rq) w dx eps) lsize mbefore = Ok (res eps, m')) /\
    action f w mend dx lsize = Ok act /\ length act = lsize /\
    forall k, (k < lsize)%nat -> is_derive (fun eps => nth k (res eps) 0) 0 (nth k act 0).
Proof.
  intros D A1 A2 A3 A4 A5 A6 W U.
  destruct (traced_gradient f _ _ lsize tsize w rq dx h1 h2 m0 mend A1 A2 A3 A4 A5 A6 (heat_all n f terms pos jac W)) as (mb & E & X). exists mb.
  destruct (X (heat_regular n f (rq_t rq) (rq_in rq) mb terms pos jac (Some w) D W U)) as (res & act & Y). exists res, act. split; [exact E|exact Y].
Qed.
Theorem heat_arguments n (f : functional) terms pos jac lsize tsize t (Lc : R -> nat -> list R) dL (m : mem) W : dim23 n ->
  wf f lsize tsize -> (forall eps w, length (Lc eps w) = tsize w) -> (forall w, length (dL w) = tsize w) ->
  (forall Ig w, In Ig (f_integrals f) -> In w (i_active Ig) -> (w < W)%nat) ->
  (forall w i, is_derive (fun eps => nth i (Lc eps w) 0) 0 (nth i (dL w) 0)) -> heat_traced n f terms pos jac -> heat_admissible n f t (Lc 0) terms pos jac ->
  exists (res : R -> list R) (act : nat -> list R),
    (forall eps, exists m', evaluate f t None false (Lc eps) lsize m = Ok (res eps, m')) /\
    (forall w, exists mw, evaluate f t (Some w) false (Lc 0) lsize m = Ok (res 0, mw) /\ action f w mw (dL w) lsize = Ok (act w)) /\
    forall k, (k < lsize)%nat -> is_derive (fun eps => nth k (res eps) 0) 0 (sumn W (fun w => nth k (act w) 0)).
Proof.
  intros D A1 A2 A3 A4 A5 Wr U. exact (traced_arguments f _ _ lsize tsize t Lc dL m W A1 A2 A3 A4 A5 (heat_all n f terms pos jac Wr) (heat_regular n f t (Lc 0) m terms pos jac None D Wr U)).
Qed.
End Functionals.

(** * The integrands of solid mechanics on dual numbers (C82)

    The elastic materials of materials/solid_material.hpp and parameterized_solid_material.hpp, and the four integrands of solid_mechanics.hpp
    (material 808-853, body force 955-1002, traction 1024-1043, pressure 1069-1103), as expressions over the operations of dual.hpp. *)
From Coq Require Import NArith ZArith Reals List Lia Lra Bool FunctionalExtensionality.
From Coquelicot Require Import Coquelicot.
From Verif Require Import Prelude DofCodec Sums Restriction Kernels FunctionalModel FunctionalGrad FunctionalTotal Dual Tensor LU LUDeriv MatAlg Materials ShapeAware WeakForm Traced.
Import ListNotations.
Local Open Scope R_scope.

(** ** Expressions with their value, differentiable where they are evaluated *)
Definition fine (k : nat -> bool) (x : nat -> R) (e : expr) (y : R) : Prop := eval e x = Some y /\ smooth k x e.
Section Fine.
Variables (k : nat -> bool) (x : nat -> R).
Notation fine := (fine k x).
Lemma fine_eq e y y' : fine e y -> y = y' -> fine e y'.
Proof. now intros H <-. Qed.
Lemma fine_var i : fine (Var i) (x i).
Proof. split; [reflexivity|exact Logic.I]. Qed.
Lemma fine_cst c : fine (Cst c) c.
Proof. split; [reflexivity|exact Logic.I]. Qed.
Lemma fine_bin b a c v w y : fine a v -> fine c w -> bin_std b v w = Some y -> (forall p q, bin_smooth b p q v w) -> fine (Bin b a c) y.
Proof.
  intros [E1 S1] [E2 S2] E Sm. split; [cbn [eval]; rewrite E1; cbn [obind]; rewrite E2; exact E|]. split; [exact S1|]. split; [exact S2|].
  intros _ v' w' F1 F2. rewrite E1 in F1. rewrite E2 in F2. injection F1 as <-. injection F2 as <-. apply Sm.
Qed.
Lemma fine_add a c v w : fine a v -> fine c w -> fine (Bin Add a c) (v + w).
Proof. intros A B. apply (fine_bin Add a c v w); auto. intros p q; exact Logic.I. Qed.
Lemma fine_sub a c v w : fine a v -> fine c w -> fine (Bin Sub a c) (v - w).
Proof. intros A B. apply (fine_bin Sub a c v w); auto. intros p q; exact Logic.I. Qed.
Lemma fine_mul a c v w : fine a v -> fine c w -> fine (Bin Mul a c) (v * w).
Proof. intros A B. apply (fine_bin Mul a c v w); auto. intros p q; exact Logic.I. Qed.
Lemma fine_div a c v w : fine a v -> fine c w -> w <> 0 -> fine (Bin Div a c) (v / w).
Proof. intros A B N. apply (fine_bin Div a c v w); auto. cbn [bin_std]. unfold std_div. destruct (Req_EM_T w 0); [contradiction|reflexivity]. Qed.
Lemma fine_neg a v : fine a v -> fine (Un Neg a) (- v).
Proof. intros [E S0]. split; [cbn [eval]; rewrite E; reflexivity|]. split; [exact S0|]. intros _ w _; exact Logic.I. Qed.
Lemma fine_log1p a v l : fine a v -> log1p v = Some l -> fine (Un Log1p a) l.
Proof.
  intros [E S0] L. unfold log1p in L. destruct (Rlt_dec 0 (1 + v)) as [P|]; [|discriminate]. injection L as <-. split.
  - cbn [eval]. rewrite E. cbn [obind un_std]. now apply std_log_ok.
  - split; [exact S0|]. intros _ w F. rewrite E in F. injection F as <-. cbn [un_smooth]. lra.
Qed.
End Fine.
Ltac fin := repeat first [ apply fine_add | apply fine_sub | apply fine_mul | apply fine_neg | apply fine_cst | eassumption ].

(** ** Tensors of expressions: tensor.hpp on dual entries *)
Definition emat := nat -> nat -> expr.
Definition mfine (n m : nat) k x (A : emat) (M : mat) : Prop := forall i j, (i < n)%nat -> (j < m)%nat -> fine k x (A i j) (M i j).
Fixpoint esum (n : nat) (f : nat -> expr) : expr := match n with O => Cst 0 | S n => Bin Add (esum n f) (f n) end.
Definition emul (n : nat) (A B : emat) : emat := fun i j => esum n (fun l => Bin Mul (A i l) (B l j)).
Definition eadd (A B : emat) : emat := fun i j => Bin Add (A i j) (B i j).
Definition escal (c : expr) (A : emat) : emat := fun i j => Bin Mul c (A i j).
Definition etrans (A : emat) : emat := fun i j => A j i.
Definition ecst (M : mat) : emat := fun i j => Cst (M i j).
Definition etr (n : nat) (A : emat) : expr := esum n (fun i => A i i).
Definition edev (n : nat) (A : emat) : emat := fun i j => if Nat.eqb i j then Bin Sub (A i j) (Bin Div (etr n A) (Cst (INR n))) else A i j.
Definition edet (n : nat) (A : emat) : expr :=
  if Nat.eqb n 2 then Bin Sub (Bin Mul (A 0 0)%nat (A 1 1)%nat) (Bin Mul (A 0 1)%nat (A 1 0)%nat)
  else let m3 := fun a b c => Bin Mul (Bin Mul a b) c in
    Bin Sub (Bin Sub (Bin Sub (Bin Add (Bin Add (m3 (A 0 0)%nat (A 1 1)%nat (A 2 2)%nat) (m3 (A 0 1)%nat (A 1 2)%nat (A 2 0)%nat)) (m3 (A 0 2)%nat (A 1 0)%nat (A 2 1)%nat))
      (m3 (A 0 0)%nat (A 1 2)%nat (A 2 1)%nat)) (m3 (A 0 1)%nat (A 1 0)%nat (A 2 2)%nat)) (m3 (A 0 2)%nat (A 1 1)%nat (A 2 0)%nat).
Definition edetApIm1 (n : nat) (A : emat) : expr :=
  if Nat.eqb n 2 then Bin Add (Bin Add (Bin Sub (A 0 0)%nat (Bin Mul (A 0 1)%nat (A 1 0)%nat)) (A 1 1)%nat) (Bin Mul (A 0 0)%nat (A 1 1)%nat)
  else let m2 := fun a b => Bin Mul a b in let m3 := fun a b c => Bin Mul (Bin Mul a b) c in let p1 := fun a => Bin Add (Cst 1) a in
    Bin Add (Bin Add (Bin Add (Bin Add (Bin Sub (Bin Sub (Bin Add (Bin Sub (Bin Add (Bin Add (A 0 0)%nat (A 1 1)%nat) (A 2 2)%nat)
      (m3 (A 0 1)%nat (A 1 0)%nat (p1 (A 2 2)%nat))) (m3 (A 0 0)%nat (A 1 1)%nat (p1 (A 2 2)%nat))) (m3 (A 0 2)%nat (A 2 0)%nat (p1 (A 1 1)%nat)))
      (m3 (A 1 2)%nat (A 2 1)%nat (p1 (A 0 0)%nat))) (m2 (A 0 0)%nat (A 2 2)%nat)) (m2 (A 1 1)%nat (A 2 2)%nat)) (m3 (A 0 1)%nat (A 1 2)%nat (A 2 0)%nat)) (m3 (A 0 2)%nat (A 1 0)%nat (A 2 1)%nat).
(** the inverse by cofactors, tensor.hpp:1592-1627; the overload for duals is shown to give the same numbers below *)
Definition cof2 (A : emat) (i j : nat) : expr := match i, j with O, O => A 1 1 | O, _ => Un Neg (A 0 1) | _, O => Un Neg (A 1 0) | _, _ => A 0 0 end%nat.
Definition cof3 (A : emat) (i j : nat) : expr :=
  let d := fun a b c e => Bin Sub (Bin Mul a b) (Bin Mul c e) in
  match i, j with
  | O, O => d (A 1 1) (A 2 2) (A 1 2) (A 2 1) | O, S O => d (A 0 2) (A 2 1) (A 0 1) (A 2 2) | O, _ => d (A 0 1) (A 1 2) (A 0 2) (A 1 1)
  | S O, O => d (A 1 2) (A 2 0) (A 1 0) (A 2 2) | S O, S O => d (A 0 0) (A 2 2) (A 0 2) (A 2 0) | S O, _ => d (A 0 2) (A 1 0) (A 0 0) (A 1 2)
  | _, O => d (A 1 0) (A 2 1) (A 1 1) (A 2 0) | _, S O => d (A 0 1) (A 2 0) (A 0 0) (A 2 1) | _, _ => d (A 0 0) (A 1 1) (A 0 1) (A 1 0)
  end%nat.
Definition einv (n : nat) (A : emat) : emat := fun i j => Bin Mul (if Nat.eqb n 2 then cof2 A i j else cof3 A i j) (Bin Div (Cst 1) (edet n A)).

Section Tensors.
Variables (k : nat -> bool) (x : nat -> R).
Notation fine := (fine k x).
Lemma fine_sum n f (r : nat -> R) : (forall i, (i < n)%nat -> fine (f i) (r i)) -> fine (esum n f) (sumn n r).
Proof. induction n as [|n IH]; intros H; cbn [esum sumn]; [apply fine_cst|]. apply fine_add; auto. Qed.
Lemma mfine_mul n m p A B M N : mfine p n k x A M -> mfine n m k x B N -> mfine p m k x (emul n A B) (mmul n M N).
Proof. intros HA HB i j Hi Hj. apply fine_sum. intros l Hl. apply fine_mul; auto. Qed.
Lemma mfine_add n m A B M N : mfine n m k x A M -> mfine n m k x B N -> mfine n m k x (eadd A B) (madd M N).
Proof. intros HA HB i j Hi Hj. apply fine_add; auto. Qed.
Lemma mfine_scal n m c r A M : fine c r -> mfine n m k x A M -> mfine n m k x (escal c A) (mscal r M).
Proof. intros Hc HA i j Hi Hj. apply fine_mul; auto. Qed.
Lemma mfine_trans n m A M : mfine n m k x A M -> mfine m n k x (etrans A) (transpose M).
Proof. intros HA i j Hi Hj. now apply HA. Qed.
Lemma mfine_cst n m M : mfine n m k x (ecst M) M.
Proof. intros i j _ _. apply fine_cst. Qed.
Lemma mfine_eq n m A M M' : mfine n m k x A M -> (forall i j, (i < n)%nat -> (j < m)%nat -> M i j = M' i j) -> mfine n m k x A M'.
Proof. intros H E i j Hi Hj. rewrite <- E by assumption. auto. Qed.
Lemma fine_tr n A M : mfine n n k x A M -> fine (etr n A) (tr n M).
Proof. intros HA. apply fine_sum. auto. Qed.
Lemma mfine_dev n A M : (0 < n)%nat -> mfine n n k x A M -> mfine n n k x (edev n A) (dev n M).
Proof.
  intros Hn HA i j Hi Hj. unfold edev, dev. destruct (Nat.eqb i j); [|auto]. apply fine_sub; [auto|]. apply fine_div; [now apply fine_tr|apply fine_cst|].
  apply not_0_INR. lia.
Qed.
Lemma fine_det n A M : dim23 n -> mfine n n k x A M -> fine (edet n A) (detn n M).
Proof. intros D HA. dims D; unfold edet, detn; cbn [Nat.eqb]; unfold det2, det3; cbv zeta beta; repeat first [apply fine_sub|apply fine_add|apply fine_mul]; apply HA; lia. Qed.
Lemma fine_detApIm1 n A M : dim23 n -> mfine n n k x A M -> fine (edetApIm1 n A) (detApIm1n n M).
Proof.
  intros D HA. dims D; unfold edetApIm1, detApIm1n; cbn [Nat.eqb]; unfold detApIm1_2, detApIm1_3; cbv zeta beta;
  repeat first [apply fine_sub|apply fine_add|apply fine_mul|apply fine_cst]; apply HA; lia.
Qed.
Lemma mfine_inv n A M B : dim23 n -> mfine n n k x A M -> invn n M = Some B -> mfine n n k x (einv n A) B.
Proof.
  intros D HA E i j Hi Hj. destruct (invn_some n M B D E) as (_ & _ & N). unfold einv.
  assert (Fd := fine_div k x (Cst 1) (edet n A) 1 (detn n M) (fine_cst k x 1) (fine_det n A M D HA) N).
  dims D; unfold invn, detn in *; cbn [Nat.eqb] in *; [unfold inv2 in E|unfold inv3 in E]; destruct (Req_EM_T _ 0) as [|_] in E; try contradiction; injection E as <-.
  - destruct i as [|[|i]]; try lia; destruct j as [|[|j]]; try lia; cbn [cof2 inv2_raw mat2]; (apply fine_mul; [|exact Fd]); try apply fine_neg; apply HA; lia.
  - destruct i as [|[|[|i]]]; try lia; destruct j as [|[|[|j]]]; try lia; cbn [cof3 inv3_raw mat3]; cbv zeta beta; (apply fine_mul; [|exact Fd]);
      (apply fine_sub; apply fine_mul); apply HA; lia.
Qed.
End Tensors.

(** ** The elastic materials *)
Inductive elastic :=
| ELinear (K G : R)          (* solid_material.hpp:24-50 LinearIsotropic *)
| EStVK (K G : R)            (* 60-93 StVenantKirchhoff *)
| ENeo (K G : R)             (* 99-131 NeoHookean *)
| EParLinear (K0 G0 : R)     (* parameterized_solid_material.hpp:19-56: two parameters, the offsets of K and G *)
| EParNeo (K0 G0 : R).       (* 62-104 *)
Definition parameters (m : elastic) : nat := match m with EParLinear _ _ | EParNeo _ _ => 2%nat | _ => 0%nat end.
(** the materials of Materials.v *)
Definition stress (n : nat) (m : elastic) (dK dG : R) (H : mat) : option mat :=
  match m with
  | ELinear K G => Some (linear_isotropic n K G H) | EStVK K G => stvk n K G H | ENeo K G => neo_hookean n K G H
  | EParLinear K G => Some (param_linear n K G dK dG H) | EParNeo K G => param_neo n K G dK dG H
  end.
Definition e_small_strain (H : emat) : emat := escal (Cst 0.5) (eadd (etrans H) H).
Definition e_iso (n : nat) (lambda G : expr) (H : emat) : emat :=
  eadd (escal (Bin Mul lambda (etr n (e_small_strain H))) (ecst ident)) (escal (Bin Mul (Cst 2) G) (e_small_strain H)).
Definition e_defgrad (H : emat) : emat := eadd H (ecst ident).
Definition e_green (n : nat) (H : emat) : emat := escal (Cst 0.5) (eadd (eadd H (etrans H)) (emul n (etrans H) H)).
Definition e_stvk (n : nat) (K G : R) (H : emat) : emat := fun i j =>
  let E := e_green n H in
  let S0 := eadd (escal (Bin Mul (Cst K) (etr n E)) (ecst ident)) (escal (Bin Mul (Cst 2) (Cst G)) (edev n E)) in
  Bin Div (emul n (emul n (e_defgrad H) S0) (etrans (e_defgrad H)) i j) (edet n (e_defgrad H)).
Definition e_neo (n : nat) (lambda G : expr) (H : emat) : emat := fun i j =>
  let J1 := edetApIm1 n H in
  let B := eadd (eadd (emul n H (etrans H)) (etrans H)) H in
  Bin Div (eadd (escal (Bin Mul lambda (Un Log1p J1)) (ecst ident)) (escal G B) i j) (Bin Add J1 (Cst 1)).
Definition e_stress (n : nat) (m : elastic) (dK dG : expr) (H : emat) : emat :=
  match m with
  | ELinear K G => e_iso n (Cst (lame K G)) (Cst G) H
  | EStVK K G => e_stvk n K G H
  | ENeo K G => e_neo n (Cst (lame K G)) (Cst G) H
  | EParLinear K G => e_iso n (Bin Sub (Bin Add (Cst K) dK) (Bin Mul (Cst (2 / INR n)) (Bin Add (Cst G) dG))) (Bin Add (Cst G) dG) H
  | EParNeo K G => e_neo n (Bin Sub (Bin Add (Cst K) dK) (Bin Mul (Cst (2 / INR n)) (Bin Add (Cst G) dG))) (Bin Add (Cst G) dG) H
  end.
(** solid_mechanics.hpp:841-849 *)
Definition e_flux (n : nat) (on : bool) (s H : emat) : emat :=
  let dx := eadd (escal (Cst 0) H) (ecst ident) in
  let dx := if on then eadd dx H else dx in
  escal (edet n dx) (emul n s (etrans (einv n dx))).

Section Materials.
Variables (k : nat -> bool) (x : nat -> R) (n : nat).
Hypothesis D : dim23 n.
Notation fine := (fine k x). Notation mfine := (mfine n n k x).
Lemma small_strain_fine H M : mfine H M -> mfine (e_small_strain H) (small_strain M).
Proof. intros F. apply mfine_scal; [apply fine_cst|]. apply mfine_add; [now apply mfine_trans|exact F]. Qed.
Lemma iso_fine lambda G l g H M : fine lambda l -> fine G g -> mfine H M -> mfine (e_iso n lambda G H) (iso_stress n l g M).
Proof.
  intros Fl Fg F. assert (Fs := small_strain_fine H M F). apply mfine_add; apply mfine_scal.
  - apply fine_mul; [exact Fl|]. now apply fine_tr.
  - apply mfine_cst.
  - apply fine_mul; [apply fine_cst|exact Fg].
  - exact Fs.
Qed.
Lemma green_fine H M : mfine H M -> mfine (e_green n H) (green_strain n M).
Proof. intros F. apply mfine_scal; [apply fine_cst|]. apply mfine_add; [apply mfine_add; [exact F|now apply mfine_trans]|]. apply mfine_mul; [now apply mfine_trans|exact F]. Qed.
Lemma defgrad_fine H M : mfine H M -> mfine (e_defgrad H) (defgrad M).
Proof. intros F. apply mfine_add; [exact F|apply mfine_cst]. Qed.
Lemma positive_dim : (0 < n)%nat.
Proof. destruct D; lia. Qed.
Lemma stvk_fine K G H M s : mfine H M -> stvk n K G M = Some s -> mfine (e_stvk n K G H) s.
Proof.
  intros F E. unfold stvk, push in E. destruct (Req_EM_T (detn n (defgrad M)) 0) as [|N]; [discriminate|]. injection E as <-. intros i j Hi Hj.
  assert (Fg := green_fine H M F). assert (Ff := defgrad_fine H M F). unfold e_stvk. cbv zeta.
  eapply fine_eq; [apply fine_div; [|apply fine_det; [exact D|exact Ff]|exact N]|unfold mscal, Rdiv; apply Rmult_comm].
  refine (mfine_mul k x n n n _ _ (mmul n (defgrad M) (svk_S n K G M)) _ _ _ i j Hi Hj); [|now apply mfine_trans]. apply mfine_mul; [exact Ff|].
  apply mfine_add; apply mfine_scal.
  - apply fine_mul; [apply fine_cst|]. now apply fine_tr.
  - apply mfine_cst.
  - apply fine_mul; apply fine_cst.
  - apply mfine_dev; [apply positive_dim|exact Fg].
Qed.
Lemma neo_fine lambda G l g H M s : fine lambda l -> fine G g -> mfine H M -> neo n l g M = Some s -> mfine (e_neo n lambda G H) s.
Proof.
  intros Fl Fg F E. unfold neo in E. cbv zeta in E. destruct (log1p (detApIm1n n M)) as [y|] eqn:El; [|discriminate].
  destruct (Req_EM_T (detApIm1n n M + 1) 0) as [|N]; [discriminate|]. injection E as <-. intros i j Hi Hj. unfold e_neo. cbv zeta.
  assert (FJ := fine_detApIm1 k x n H M D F).
  eapply fine_eq; [apply fine_div; [|apply fine_add; [exact FJ|apply fine_cst]|exact N]|unfold mscal at 1, Rdiv; apply Rmult_comm].
  refine (mfine_add k x n n _ _ _ _ _ _ i j Hi Hj); apply mfine_scal.
  - apply fine_mul; [exact Fl|]. now apply (fine_log1p k x _ (detApIm1n n M)).
  - apply mfine_cst.
  - exact Fg.
  - apply mfine_add; [apply mfine_add|exact F]; [|now apply mfine_trans]. apply mfine_mul; [exact F|now apply mfine_trans].
Qed.
(** wherever a material gives a stress, its expression has that value and is differentiable *)
Lemma stress_fine m dK dG dk dg H M s : fine dK dk -> fine dG dg -> mfine H M -> stress n m dk dg M = Some s -> mfine (e_stress n m dK dG H) s.
Proof.
  intros FK FG F E.
  assert (Fl : forall K G, fine (Bin Sub (Bin Add (Cst K) dK) (Bin Mul (Cst (2 / INR n)) (Bin Add (Cst G) dG))) (K + dk - 2 / INR n * (G + dg))) by (intros; fin).
  assert (Fg : forall G, fine (Bin Add (Cst G) dG) (G + dg)) by (intros; fin).
  destruct m as [K G|K G|K G|K G|K G]; cbn [stress e_stress] in *.
  - injection E as <-. apply iso_fine; [apply fine_cst|apply fine_cst|exact F].
  - now apply stvk_fine with (M := M).
  - apply neo_fine with (l := lame K G) (g := G) (M := M); [apply fine_cst|apply fine_cst|exact F|exact E].
  - injection E as <-. apply iso_fine; auto.
  - apply neo_fine with (l := K + dk - 2 / INR n * (G + dg)) (g := G + dg) (M := M); auto.
Qed.
Lemma flux_fine on s S0 H M P : mfine s S0 -> mfine H M -> flux n on S0 M = Some P -> mfine (e_flux n on s H) P.
Proof.
  intros Fs F E. unfold flux in E. cbv zeta in E.
  set (dx := if on then madd (madd (mscal 0 M) ident) M else madd (mscal 0 M) ident) in E.
  assert (Fx : mfine (if on then eadd (eadd (escal (Cst 0) H) (ecst ident)) H else eadd (escal (Cst 0) H) (ecst ident)) dx).
  { unfold dx. destruct on; repeat first [apply mfine_add|apply mfine_scal|apply mfine_cst|apply fine_cst|exact F]. }
  destruct (invn n dx) as [B|] eqn:EB; [|discriminate]. injection E as <-. unfold e_flux. cbv zeta. apply mfine_scal; [now apply fine_det|].
  apply mfine_mul; [exact Fs|]. apply mfine_trans. now apply (mfine_inv k x n _ dx B D).
Qed.
End Materials.

(** ** The integrands *)
Inductive integrand :=
| IMaterial (on : bool) (density : R) (m : elastic)
| IBody (b : vec -> R -> vec)
| ITraction (tr : vec -> vec -> R -> vec)
| IPressure (on : bool) (p : vec -> R -> R).
(** as terms of a residual (WeakForm.v), at a point where the parameters have the values dK and dG *)
Definition term_of {St} (n : nat) (T : integrand) (dK dG : R) : solid_term St :=
  match T with IMaterial on rho m => SMaterial on rho (fun _ => stress n m dK dG) | IBody b => SBody b | ITraction tr => STraction tr | IPressure on p => SPressure on p end.
Definition columns (n : nat) (T : integrand) : nat := match T with IMaterial _ _ _ | IBody _ => n | _ => (n - 1)%nat end.
Definition params_of (T : integrand) : nat := match T with IMaterial _ _ m => parameters m | _ => 0%nat end.
(** the numbers a q-function reads: gradient of the displacement in the parent element, acceleration, values of the parameters *)
Definition solid_place (n c np : nat) : placement := fun v =>
  (if v <? n * c then (0, v / c, S (v mod c)) else if v <? n * c + n then (1, v - n * c, 0) else if v <? n * c + n + np then (2 + (v - (n * c + n)), 0, 0) else (0, 0, 0))%nat.
Definition gvar (c : nat) : emat := fun i j => Var (i * c + j).
Definition avar (n c i : nat) : expr := Var (n * c + i).
Definition pvar (n c p : nat) : expr := Var (n * c + n + p).
(** a division by zero: no number *)
Definition undefined : expr := Bin Div (Cst 1) (Cst 0).
Definition e_cross (n : nat) (A : emat) (i : nat) : expr :=
  (if Nat.eqb n 2 then match i with O => A 1 0 | _ => Un Neg (A 0 0) end
   else let d := fun a b c e => Bin Sub (Bin Mul a b) (Bin Mul c e) in
     match i with O => d (A 1 0) (A 2 1) (A 2 0) (A 1 1) | S O => d (A 2 0) (A 0 1) (A 0 0) (A 2 1) | _ => d (A 0 0) (A 1 1) (A 1 0) (A 0 1) end)%nat.
Definition solid_expr (n : nat) (T : integrand) (t : R) (X : vec) (J : mat) (i b : nat) : expr :=
  let c := columns n T in
  match T with
  | IMaterial on rho m =>
      match invn n J, invn n (transpose J) with
      | Some K, Some KT =>
          let H := emul n (gvar c) (ecst K) in
          let P := e_flux n on (e_stress n m (pvar n c 0) (pvar n c 1) H) H in
          match b with O => Bin Mul (Bin Mul (Cst rho) (avar n c i)) (Cst (detn n (transpose J))) | S j => Bin Mul (emul n P (ecst KT) i j) (Cst (detn n (transpose J))) end
      | _, _ => undefined
      end
  | IBody f =>
      match invn n (transpose J) with
      | Some KT => match b with O => Cst (- 1 * f X t i * detn n (transpose J)) | S j => Cst 0 end
      | None => undefined
      end
  | ITraction tr => let nu := crossn n J in match b with O => Cst (- 1 * tr X (fun l => nu l / vnorm n nu) t i * vnorm n nu) | S _ => Cst 0 end
  | IPressure on p =>
      let nu := crossn n J in
      let A := eadd (ecst J) (escal (Cst 0) (gvar c)) in
      let A := if on then eadd A (gvar c) else A in
      match b with O => Bin Mul (Bin Mul (Cst (p X t)) (Bin Div (e_cross n A i) (Cst (vnorm n nu)))) (Cst (vnorm n nu)) | S _ => Cst 0 end
  end.

Lemma read_gradient n c np v i j : (0 < c)%nat -> (i < n)%nat -> (j < c)%nat -> read (solid_place n c np) v (i * c + j) = v 0%nat i (S j).
Proof.
  intros Hc Hi Hj. unfold read, solid_place. assert (i * c + j < n * c)%nat by nia. destruct (Nat.ltb_spec (i * c + j) (n * c)); [|lia].
  rewrite Nat.div_add_l, Nat.div_small, Nat.add_0_r by lia. rewrite Nat.add_comm, Nat.mod_add, Nat.mod_small by lia. reflexivity.
Qed.
Lemma read_acceleration n c np v i : (i < n)%nat -> read (solid_place n c np) v (n * c + i) = v 1%nat i 0%nat.
Proof.
  intros Hi. unfold read, solid_place. destruct (Nat.ltb_spec (n * c + i) (n * c)); [lia|]. destruct (Nat.ltb_spec (n * c + i) (n * c + n)); [|lia].
  now replace (n * c + i - n * c)%nat with i by lia.
Qed.
Lemma read_parameter n c np v p : (p < np)%nat -> read (solid_place n c np) v (n * c + n + p) = v (2 + p)%nat 0%nat 0%nat.
Proof.
  intros Hp. unfold read, solid_place. destruct (Nat.ltb_spec (n * c + n + p) (n * c)); [lia|]. destruct (Nat.ltb_spec (n * c + n + p) (n * c + n)); [lia|].
  destruct (Nat.ltb_spec (n * c + n + p) (n * c + n + np)); [|lia]. now replace (n * c + n + p - (n * c + n))%nat with p by lia.
Qed.
Lemma stress_parameters n m dK dG dk dg H : parameters m = 0%nat -> stress n m dK dG H = stress n m dk dg H.
Proof. now destruct m. Qed.
Lemma mfine_gvar k n c np v : (0 < c)%nat -> mfine n c k (read (solid_place n c np) v) (gvar c) (fun i j => v 0%nat i (S j)).
Proof. intros Hc i j Hi Hj. eapply fine_eq; [apply fine_var|]. now apply read_gradient. Qed.
Lemma cross_fine k x n A M i : dim23 n -> (i < n)%nat -> mfine n (n - 1) k x A M -> fine k x (e_cross n A i) (crossn n M i).
Proof.
  intros D Hi F. dims D; unfold e_cross, crossn; cbn [Nat.eqb].
  - destruct i as [|[|i]]; try lia; [apply F; lia|apply fine_neg; apply F; lia].
  - destruct i as [|[|[|i]]]; try lia; (apply fine_sub; apply fine_mul; apply F; lia).
Qed.

(** wherever an integrand gives a number, its expression has that value and is differentiable in everything it reads *)
Theorem integrand_fine {St} k n (T : integrand) t X J (v : nat -> slots) (st : St) p out i b : dim23 n ->
  solid_point n (term_of n T (v 2%nat 0%nat 0%nat) (v 3%nat 0%nat 0%nat)) t X J (v 0%nat) (v 1%nat) st = Some p -> point_out n p = Some out ->
  (i < n)%nat -> (b <= columns n T)%nat ->
  fine k (read (solid_place n (columns n T) (params_of T)) v) (solid_expr n T t X J i b) (out i b).
Proof.
  intros D E O Hi Hb. set (x := read _ v). destruct T as [on rho m|f|tr|on p']; cbn [term_of solid_point columns params_of] in *.
  - unfold grad_phys, parent_to_physical in E. unfold solid_expr. cbn [columns]. cbv zeta. destruct (invn n J) as [K|] eqn:EK; [|discriminate]. cbn [snd fst] in E.
    set (H := mmul n (fun i j => v 0%nat i (S j)) K) in E. destruct (stress n m _ _ H) as [s|] eqn:Es; [|discriminate].
    destruct (flux n on s H) as [P|] eqn:EP; [|discriminate]. injection E as <-. cbn [point_out] in O. unfold physical_to_parent in O.
    destruct (invn n (transpose J)) as [KT|] eqn:EKT; [|discriminate]. injection O as <-. cbn [slots_of fst snd].
    assert (c0 : (0 < n)%nat) by (destruct D; lia).
    assert (FH : mfine n n k x (emul n (gvar n) (ecst K)) H) by (apply mfine_mul; [now apply mfine_gvar|apply mfine_cst]).
    assert (FP : mfine n n k x (e_flux n on (e_stress n m (pvar n n 0) (pvar n n 1) (emul n (gvar n) (ecst K))) (emul n (gvar n) (ecst K))) P).
    { apply (flux_fine k x n D on _ s _ H P); [|exact FH|exact EP].
      apply (stress_fine k x n D m _ _ (x (n * n + n + 0)%nat) (x (n * n + n + 1)%nat) _ H s); [apply fine_var|apply fine_var|exact FH|].
      rewrite <- Es. destruct (parameters m) as [|np] eqn:Ep; [now apply stress_parameters|].
      assert (np = 1%nat) by (destruct m; cbn in Ep; congruence). subst np. unfold x. now rewrite !read_parameter by lia. }
    destruct b as [|j].
    + apply fine_mul; [|apply fine_cst]. apply fine_mul; [apply fine_cst|]. eapply fine_eq; [apply fine_var|]. now apply read_acceleration.
    + apply fine_mul; [|apply fine_cst]. refine (mfine_mul k x n n n _ _ P _ FP _ i j Hi _); [apply mfine_cst|lia].
  - injection E as <-. cbn [point_out] in O. unfold physical_to_parent in O. unfold solid_expr. cbv zeta. destruct (invn n (transpose J)) as [KT|]; [|discriminate].
    injection O as <-. cbn [slots_of fst snd]. destruct b as [|j]; [apply fine_cst|]. eapply fine_eq; [apply fine_cst|].
    change (0 = mmul n (fun _ _ => 0) KT i j * detn n (transpose J)). unfold mmul. rewrite sumn_zero; [ring|]. intros l _. ring.
  - destruct (Req_EM_T (vnorm n (crossn n J)) 0) as [|N]; [discriminate|]. injection E as <-. cbn [point_out] in O. injection O as <-.
    unfold solid_expr. cbv zeta. destruct b as [|j]; apply fine_cst.
  - destruct (Req_EM_T (vnorm n (crossn n J)) 0) as [|N]; [discriminate|]. injection E as <-. cbn [point_out] in O. injection O as <-.
    unfold solid_expr. cbn [columns]. cbv zeta. destruct b as [|j]; [|apply fine_cst]. apply fine_mul; [|apply fine_cst]. apply fine_mul; [apply fine_cst|].
    apply fine_div; [|apply fine_cst|exact N]. apply cross_fine; [exact D|exact Hi|]. assert (c0 : (0 < n - 1)%nat) by (destruct D; lia).
    assert (Fg := mfine_gvar k n (n - 1) 0 v c0).
    destruct on; repeat first [apply mfine_add|apply mfine_scal|apply mfine_cst|apply fine_cst|exact Fg].
Qed.

(** ** Functionals made of these integrands *)
Definition solid_body (n : nat) (T : integrand) (t : R) (X : vec) (J : mat) (i b : nat) : expr :=
  if (Nat.ltb i n && Nat.leb b (columns n T))%bool then solid_expr n T t X J i b else Cst 0.
Section Functionals.
Context {St : Type}.
Notation gkernel := (gkernel St). Notation functional := (functional St). Notation mem := (mem St).
Definition place_of (n : nat) (terms : list integrand) (k : nat) : placement :=
  match nth_error terms k with Some T => solid_place n (columns n T) (params_of T) | None => fun _ => (0, 0, 0)%nat end.
Definition expr_of (n : nat) (terms : list integrand) (pos : nat -> nat -> nat -> nat -> vec) (jac : nat -> nat -> nat -> nat -> mat) : body_of (St := St) :=
  fun k g e q t st i b => match nth_error terms k with Some T => solid_body n T t (pos k g e q) (jac k g e q) i b | None => Cst 0 end.
(** integral k of the functional is integrand k, run on doubles for the residual and on duals for the derivatives; displacement and acceleration
    are its first two arguments, the parameters follow *)
Definition solid_traced (n : nat) (f : functional) (terms : list integrand) pos jac : Prop :=
  forall k Ig g G, nth_error (f_integrals f) k = Some Ig -> nth_error (i_geoms Ig) g = Some G ->
    exists T, nth_error terms k = Some T /\ gk_dim1 G = S (columns n T) /\ (2 + params_of T <= length (i_active Ig))%nat /\
      es_c (gk_trial G 0%nat) = n /\ es_c (gk_trial G 1%nat) = n /\ (forall s, (0 < es_c (gk_trial G s))%nat) /\
      written G (place_of n terms k) (expr_of n terms pos jac k g).
(** every integrand gives numbers: no inverse, quotient or logarithm fails *)
Definition solid_defined (n : nat) (f : functional) (t : R) (Ls : nat -> list R) (m : mem) (terms : list integrand) pos jac : Prop :=
  forall k Ig g G e q T, nth_error (f_integrals f) k = Some Ig -> nth_error (i_geoms Ig) g = Some G -> (e < length (gk_elems G))%nat -> (q < gk_nq G)%nat ->
    nth_error terms k = Some T ->
    let v := qf_inputs G g (Es_of f Ls Ig) e q in
    exists p out, solid_point n (term_of n T (v 2%nat 0%nat 0%nat) (v 3%nat 0%nat 0%nat)) t (pos k g e q) (jac k g e q) (v 0%nat) (v 1%nat) (m_q m k g e q) = Some p /\
      point_out n p = Some out.

Lemma place_ok n c np (G : gkernel) nargs : (0 < n)%nat -> (0 < c)%nat -> gk_dim1 G = S c -> (2 + np <= nargs)%nat -> es_c (gk_trial G 0%nat) = n -> es_c (gk_trial G 1%nat) = n ->
  (forall s, (0 < es_c (gk_trial G s))%nat) -> placed G nargs (solid_place n c np).
Proof.
  intros Hn Hc E Hp E0 E1 Ep v. unfold solid_place. destruct (Nat.ltb_spec v (n * c)).
  - split; [lia|]. rewrite E0, E. split; [apply Nat.div_lt_upper_bound; lia|]. assert (v mod c < c)%nat by (apply Nat.mod_upper_bound; lia). lia.
  - destruct (Nat.ltb_spec v (n * c + n)); [rewrite E1, E; lia|]. destruct (Nat.ltb_spec v (n * c + n + np)); (split; [lia|]); (split; [apply Ep|lia]).
Qed.
Lemma solid_all n f terms pos jac : dim23 n -> solid_traced n f terms pos jac -> all_written f (fun k _ => place_of n terms k) (expr_of n terms pos jac).
Proof.
  intros D H k Ig g G Hk HG. destruct (H k Ig g G Hk HG) as (T & ET & E1 & E2 & E3 & E4 & E5 & W). split; [|exact W]. unfold place_of. rewrite ET.
  apply place_ok; auto; destruct D; subst; destruct T; cbn [columns]; lia.
Qed.
Lemma solid_regular n f t Ls m terms pos jac w : dim23 n -> solid_traced n f terms pos jac -> solid_defined n f t Ls m terms pos jac ->
  regular f w (fun k _ => place_of n terms k) (expr_of n terms pos jac) t Ls m.
Proof.
  intros D H Df k Ig g G e q Hk HG He Hq i b. destruct (H k Ig g G Hk HG) as (T & ET & _). cbv zeta. unfold expr_of, place_of. rewrite ET.
  destruct (Df k Ig g G e q T Hk HG He Hq ET) as (p & out & E & O). set (v := qf_inputs G g (Es_of f Ls Ig) e q) in *. unfold solid_body.
  destruct (Nat.ltb_spec i n) as [Hi|]; [|split; [now eexists|destruct w; intros; exact Logic.I]].
  destruct (Nat.leb_spec b (columns n T)) as [Hb|]; [|split; [now eexists|destruct w; intros; exact Logic.I]]. cbn [andb].
  assert (F := fun k0 => integrand_fine k0 n T t (pos k g e q) (jac k g e q) v (m_q m k g e q) p out i b D E O Hi Hb).
  split; [exists (out i b); apply (F everything)|]. destruct w as [w|]; [intros s _; apply F|apply F].
Qed.
(** the residual consists of the terms of WeakForm.v *)
Theorem solid_values n f t Ls (m : mem) terms pos jac k Ig g G e q T p out i b : dim23 n -> solid_traced n f terms pos jac ->
  nth_error (f_integrals f) k = Some Ig -> nth_error (i_geoms Ig) g = Some G -> nth_error terms k = Some T ->
  let v := qf_inputs G g (Es_of f Ls Ig) e q in
  solid_point n (term_of n T (v 2%nat 0%nat 0%nat) (v 3%nat 0%nat 0%nat)) t (pos k g e q) (jac k g e q) (v 0%nat) (v 1%nat) (m_q m k g e q) = Some p ->
  point_out n p = Some out -> (i < n)%nat -> (b <= columns n T)%nat -> fst (gk_qf G e q t v (m_q m k g e q)) i b = out i b.
Proof.
  intros D H Hk HG ET v E O Hi Hb. destruct (H k Ig g G Hk HG) as (T' & ET' & _ & _ & _ & _ & _ & (W & _)). apply W. unfold place_of, expr_of. rewrite ET.
  unfold solid_body. destruct (Nat.ltb_spec i n); [|lia]. destruct (Nat.leb_spec b (columns n T)); [|lia]. cbn [andb].
  exact (proj1 (integrand_fine everything n T t (pos k g e q) (jac k g e q) v (m_q m k g e q) p out i b D E O Hi Hb)).
Qed.
Theorem solid_joint n f t Ls m terms pos jac : dim23 n -> solid_traced n f terms pos jac -> solid_defined n f t Ls m terms pos jac -> ad_joint f t Ls m.
Proof. intros D H Df. exact (ad_is_joint f _ _ t Ls m (solid_all n f terms pos jac D H) (solid_regular n f t Ls m terms pos jac None D H Df)). Qed.
Theorem solid_argument n f t Ls m terms pos jac w : dim23 n -> solid_traced n f terms pos jac -> solid_defined n f t Ls m terms pos jac -> ad_correct_at f w t Ls m.
Proof. intros D H Df. exact (ad_is_correct f _ _ w t Ls m (solid_all n f terms pos jac D H) (solid_regular n f t Ls m terms pos jac (Some w) D H Df)). Qed.
End Functionals.

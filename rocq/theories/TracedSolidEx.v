(** * Solids without inverted points, and a triangle whose kernels run the expressions of its integrands (C82) *)
From Coq Require Import NArith ZArith Reals List Lia Lra Bool FunctionalExtensionality.
From Coquelicot Require Import Coquelicot.
From Verif Require Import Prelude DofCodec Sums Restriction Csr Kernels FunctionalModel FunctionalGrad FunctionalTotal Assembly Tensor BoundaryElim Newton QuasiStatic QuasiBalance Dual LU MatAlg Materials ShapeAware
  WeakForm WeakFormFacts WeakFormPhysics WeakFormEx Traced TracedSolid.
Import ListNotations.
Local Open Scope R_scope.

(** the material neither divides by the deformed volume nor takes its logarithm *)
Definition small (T : elastic) : bool := match T with ELinear _ _ | EParLinear _ _ => true | _ => false end.
(** [J] maps the parent element to the reference configuration and [J + du] to the deformed one: both keep or both reverse the orientation *)
Definition upright (n : nat) (J : mat) (u : slots) : Prop := 0 < detn n J * detn n (madd J (fun i j => u i (S j))).
Definition point_upright (n : nat) (T : integrand) (J : mat) (u : slots) : Prop :=
  match T with
  | IMaterial on _ m => if (on || negb (small m))%bool then upright n J u else detn n J <> 0
  | IBody _ => detn n J <> 0
  | ITraction _ | IPressure _ _ => vnorm n (crossn n J) <> 0
  end.
Definition no_inverted_points {St} (n : nat) (f : functional St) (Ls : nat -> list R) (terms : list integrand) (jac : nat -> nat -> nat -> nat -> mat) : Prop :=
  forall k Ig g G e q T, nth_error (f_integrals f) k = Some Ig -> nth_error (i_geoms Ig) g = Some G -> (e < length (gk_elems G))%nat -> (q < gk_nq G)%nat ->
    nth_error terms k = Some T -> point_upright n T (jac k g e q) (qf_inputs G g (Es_of f Ls Ig) e q 0%nat).

Lemma upright_gradient n J u K : dim23 n -> invn n J = Some K -> upright n J u -> 0 < detn n (madd (mmul n (fun i j => u i (S j)) K) ident).
Proof.
  intros D E U. destruct (invn_some n J K D E) as (_ & KJ & NJ). unfold upright in U.
  assert (X : detn n (madd J (fun i j => u i (S j))) = detn n (madd (mmul n (fun i j => u i (S j)) K) ident) * detn n J).
  { rewrite <- detn_mul by exact D. apply detn_ext; [exact D|]. intros i j Hi Hj. unfold madd, mmul.
    rewrite (sumn_ext n (fun k => (sumn n (fun k0 => u i (S k0) * K k0 k) + ident i k) * J k j) (fun k => sumn n (fun k0 => u i (S k0) * K k0 k) * J k j + ident i k * J k j))
      by (intros; ring). rewrite sumn_plus.
    assert (A1 : sumn n (fun k => ident i k * J k j) = J i j) by exact (mmul_ident_l n J i j Hi Hj).
    assert (A2 : sumn n (fun k => sumn n (fun k0 => u i (S k0) * K k0 k) * J k j) = u i (S j)).
    { transitivity (mmul n (mmul n (fun i j => u i (S j)) K) J i j); [reflexivity|]. rewrite (mmul_assoc n _ K J i j Hi Hj).
      rewrite (mmul_proper n _ _ (fun a b _ _ => eq_refl) _ _ KJ i j Hi Hj). exact (mmul_ident_r n (fun i j => u i (S j)) i j Hi Hj). }
    rewrite A1, A2. ring. }
  rewrite X in U. set (a := detn n (madd (mmul n _ K) ident)) in *. set (d := detn n J) in *.
  assert (0 < d * d) by nra. assert (0 < a * (d * d)) by nra. nra.
Qed.
Lemma stress_defined n m dK dG H : dim23 n -> (small m = false -> 0 < detn n (madd H ident)) -> exists s, stress n m dK dG H = Some s.
Proof.
  intros D P. assert (Q : forall l g, small m = false -> exists s, neo n l g H = Some s).
  { intros l g Hs. unfold neo, log1p. cbv zeta. rewrite detApIm1n_ok by exact D. specialize (P Hs). destruct (Rlt_dec 0 (1 + (detn n (madd H ident) - 1))); [|lra].
    destruct (Req_EM_T (detn n (madd H ident) - 1 + 1) 0); [lra|]. eauto. }
  destruct m as [K G|K G|K G|K G|K G]; cbn [stress small] in *.
  - now eexists.
  - unfold stvk, push. specialize (P eq_refl). unfold defgrad. destruct (Req_EM_T (detn n (madd H ident)) 0); [lra|]. eauto.
  - now apply Q.
  - now eexists.
  - now apply Q.
Qed.
Lemma flux_defined n on s H : dim23 n -> (on = true -> 0 < detn n (madd H ident)) -> exists P, flux n on s H = Some P.
Proof.
  intros D P. unfold flux. cbv zeta.
  destruct (invn_works n (if on then madd (madd (mscal 0 H) ident) H else madd (mscal 0 H) ident) D) as (B & EB); [|rewrite EB; eauto].
  destruct on.
  - rewrite (detn_ext n _ (madd H ident) D); [specialize (P eq_refl); lra|]. intros i j _ _. unfold madd, mscal. ring.
  - rewrite (detn_ext n _ ident D); [rewrite detn_ident by exact D; lra|]. intros i j _ _. unfold madd, mscal. ring.
Qed.
(** a configuration without inverted points is one where every integrand gives numbers *)
Theorem upright_defined {St} n (f : functional St) t Ls m terms pos jac : dim23 n -> no_inverted_points n f Ls terms jac -> solid_defined n f t Ls m terms pos jac.
Proof.
  intros D H k Ig g G e q T E1 E2 He Hq ET. specialize (H k Ig g G e q T E1 E2 He Hq ET). cbv zeta. set (v := qf_inputs G g (Es_of f Ls Ig) e q) in *.
  assert (O : forall s P, detn n (jac k g e q) <> 0 -> exists out, point_out n (Volume (jac k g e q) s P) = Some out).
  { intros s P N. unfold point_out, physical_to_parent. destruct (invn_works n (transpose (jac k g e q)) D) as (B & EB); [now rewrite detn_transpose|]. rewrite EB. eauto. }
  destruct T as [on rho mt|b|tr|on p]; cbn [point_upright term_of solid_point] in *.
  - assert (N : detn n (jac k g e q) <> 0).
    { destruct (on || negb (small mt))%bool; [|exact H]. unfold upright in H. intros Z. rewrite Z in H. lra. }
    unfold grad_phys, parent_to_physical. destruct (invn_works n (jac k g e q) D N) as (K & EK). rewrite EK. cbn [fst snd].
    assert (P : (on || negb (small mt))%bool = true -> 0 < detn n (madd (mmul n (fun i j => v 0%nat i (S j)) K) ident)).
    { intros B. rewrite B in H. now apply upright_gradient with (J := jac k g e q). }
    destruct (stress_defined n mt (v 2%nat 0%nat 0%nat) (v 3%nat 0%nat 0%nat) (mmul n (fun i j => v 0%nat i (S j)) K) D) as (s & Es).
    { intros B. apply P. rewrite B. now destruct on. }
    rewrite Es. destruct (flux_defined n on s (mmul n (fun i j => v 0%nat i (S j)) K) D) as (Pf & Ef).
    { intros B. apply P. now rewrite B. }
    rewrite Ef. destruct (O (fun i => rho * v 1%nat i 0%nat) Pf N) as (out & Eo). eauto.
  - destruct (O (fun i => - 1 * b (pos k g e q) t i) (fun _ _ => 0) H) as (out & Eo). eauto.
  - destruct (Req_EM_T (vnorm n (crossn n (jac k g e q))) 0); [contradiction|]. eexists. eexists. split; reflexivity.
  - destruct (Req_EM_T (vnorm n (crossn n (jac k g e q))) 0); [contradiction|]. eexists. eexists. split; reflexivity.
Qed.

(** ** What this gives *)
Section Given.
Context {St : Type}.
Notation functional := (functional St). Notation mem := (mem St).
Theorem solid_gradient n (f : functional) terms pos jac lsize tsize w rq dx h1 h2 (m0 mend : mem) : dim23 n ->
  wf f lsize tsize -> List.Forall (FunctionalGrad.fits tsize) (h1 ++ rq :: h2) -> length dx = tsize w ->
  rq_wrt rq = Some w -> List.Forall (fun r => rq_wrt r <> Some w) h2 ->
  run f lsize (h1 ++ rq :: h2) m0 = Ok mend -> solid_traced n f terms pos jac -> no_inverted_points n f (rq_in rq) terms jac ->
  exists mbefore (res : R -> list R) (act : list R), run f lsize h1 m0 = Ok mbefore /\
    (forall eps, exists m', evaluate f (rq_t rq) None false (shiftL (rq_in rq) w dx eps) lsize mbefore = Ok (res eps, m')) /\
    action f w mend dx lsize = Ok act /\ length act = lsize /\
    forall k, (k < lsize)%nat -> is_derive (fun eps => nth k (res eps) 0) 0 (nth k act 0).
Proof.
  intros D A1 A2 A3 A4 A5 A6 W U.
  destruct (traced_gradient f _ _ lsize tsize w rq dx h1 h2 m0 mend A1 A2 A3 A4 A5 A6 (solid_all n f terms pos jac D W)) as (mb & E & X). exists mb.
  destruct (X (solid_regular n f (rq_t rq) (rq_in rq) mb terms pos jac (Some w) D W (upright_defined n f _ _ mb terms pos jac D U))) as (res & act & Y). exists res, act. split; [exact E|exact Y].
Qed.
Theorem solid_arguments n (f : functional) terms pos jac lsize tsize t (Lc : R -> nat -> list R) dL (m : mem) W : dim23 n ->
  wf f lsize tsize -> (forall eps w, length (Lc eps w) = tsize w) -> (forall w, length (dL w) = tsize w) ->
  (forall Ig w, In Ig (f_integrals f) -> In w (i_active Ig) -> (w < W)%nat) ->
  (forall w i, is_derive (fun eps => nth i (Lc eps w) 0) 0 (nth i (dL w) 0)) -> solid_traced n f terms pos jac -> no_inverted_points n f (Lc 0) terms jac ->
  exists (res : R -> list R) (act : nat -> list R),
    (forall eps, exists m', evaluate f t None false (Lc eps) lsize m = Ok (res eps, m')) /\
    (forall w, exists mw, evaluate f t (Some w) false (Lc 0) lsize m = Ok (res 0, mw) /\ action f w mw (dL w) lsize = Ok (act w)) /\
    forall k, (k < lsize)%nat -> is_derive (fun eps => nth k (res eps) 0) 0 (sumn W (fun w => nth k (act w) 0)).
Proof.
  intros D A1 A2 A3 A4 A5 Wr U. apply (traced_arguments f _ _ lsize tsize t Lc dL m W A1 A2 A3 A4 A5 (solid_all n f terms pos jac D Wr)).
  apply (solid_regular n f t (Lc 0) m terms pos jac None D Wr). now apply upright_defined.
Qed.
Theorem solid_differentiable n (f : functional) t Ls (m : mem) terms pos jac : dim23 n -> solid_traced n f terms pos jac -> no_inverted_points n f Ls terms jac -> ad_joint f t Ls m.
Proof. intros D W U. apply (solid_joint n f t Ls m terms pos jac D W). now apply upright_defined. Qed.
Theorem solid_tangent n (f : functional) terms pos jac N c tsize t others m u dx A (L : R -> list R) i : dim23 n -> ready f N c tsize ->
  fitting tsize others -> length u = N -> length dx = N -> solid_traced n f terms pos jac -> no_inverted_points n f (inputs others u) terms jac -> tangent f N c t others m u A ->
  (forall eps, force f N t others m (tab N (fun j => nth j u 0 + eps * nth j dx 0)) (L eps)) -> (i < N)%nat ->
  is_derive (fun eps : R => nth i (L eps) 0) 0 (mvec N A (entries dx) i).
Proof.
  intros D R0 A1 A2 A3 W U. apply (traced_tangent f _ _ N c tsize t others m u dx A L i R0 A1 A2 A3 (solid_all n f terms pos jac D W)).
  apply (solid_regular n f t (inputs others u) m terms pos jac (Some 0%nat) D W). now apply upright_defined.
Qed.
End Given.

(** ** A kernel which runs given expressions *)
Definition or0 (o : option R) : R := match o with Some y => y | None => 0 end.
Definition running {St} (elems : list nat) (dim1 nq : nat) (w : nat -> R) (test : elem_space) (trial : nat -> elem_space) (place : placement) (body : nat -> nat -> R -> St -> nat -> nat -> expr) : gkernel St :=
  {| gk_elems := elems; gk_dim1 := dim1; gk_nq := nq; gk_w := w; gk_test := test; gk_trial := trial;
     gk_qf := fun e q t v st => (fun i b => or0 (eval (body e q t st i b) (read place v)), st);
     gk_ad := fun s e q t v st i b j a => match deval (body e q t st i b) (promoted dim1 place v s) with Some r => get_gradient r (j * dim1 + a)%nat | None => 0 end |}.
Lemma running_written {St} elems dim1 nq w test trial place (body : nat -> nat -> R -> St -> nat -> nat -> expr) : written (running elems dim1 nq w test trial place body) place body.
Proof.
  split.
  - intros e q t v st i b y E. cbn [running gk_qf fst]. now rewrite E.
  - intros s e q t v st i b r E j a _ _. cbn [running gk_ad gk_dim1] in *. now rewrite E.
Qed.
(** the triangle of WeakFormEx.v: displacement and acceleration with two components, two parameters; Neo-Hookean, body force, traction and pressure *)
Definition tri_terms : list integrand := [IMaterial true 3 (EParNeo 2 1); IBody (fun X t i => X i + t); ITraction (fun X nu t i => nu i); IPressure true (fun X t => 5)].
Definition comps (w : nat) : nat := match w with O | S O => 2%nat | _ => 1%nat end.
Definition tri_kernel (k : nat) : gkernel unit :=
  running [0%nat] (if vol_of k then 3%nat else 2%nat) 1%nat (fun _ => if vol_of k then / 2 else 1) (if vol_of k then tri_space 2 else edge_space 2)
    (fun s => if vol_of k then tri_space (comps s) else edge_space (comps s)) (place_of 2 tri_terms k) (expr_of 2 tri_terms ex_pos ex_jac k 0%nat).
Definition tri_integral (k : nat) : integral unit :=
  {| i_type := if vol_of k then Elements else BoundaryElements; i_active := match k with O => [0; 1; 2; 3] | _ => [0; 1] end%nat; i_geoms := [tri_kernel k] |}.
Definition tri_f : functional unit :=
  {| f_test := ex_restr 2; f_trial := fun w => ex_restr (comps w); f_integrals := map tri_integral [0; 1; 2; 3]%nat |}.
Lemma tri_integrals k Ig : nth_error (f_integrals tri_f) k = Some Ig -> (k < 4)%nat /\ Ig = tri_integral k.
Proof. cbn [tri_f f_integrals]. destruct k as [|[|[|[|k]]]]; cbn; intros E; try (destruct k; discriminate); injection E as <-; (split; [lia|reflexivity]). Qed.
Lemma tri_traced : solid_traced 2 tri_f tri_terms ex_pos ex_jac.
Proof.
  intros k Ig g G E1 E2. apply tri_integrals in E1 as [Hk ->]. cbn [tri_integral i_geoms] in E2. destruct g as [|g]; [|destruct g; discriminate]. injection E2 as <-.
  assert (P : forall s, (0 < es_c (gk_trial (tri_kernel k) s))%nat) by (intros [|[|s]]; cbn; destruct (vol_of k); cbn; lia).
  assert (W : written (tri_kernel k) (place_of 2 tri_terms k) (expr_of 2 tri_terms ex_pos ex_jac k 0%nat)) by apply running_written.
  destruct k as [|[|[|[|k]]]]; [| | | |lia]; (eexists; split; [reflexivity|]); repeat split; try reflexivity; try exact P; try apply W; try (cbn; lia).
Qed.
Lemma tri_wf : wf tri_f 6 (fun w => (3 * comps w)%nat).
Proof.
  intros Ig HI. apply In_nth_error in HI as (k & E). apply tri_integrals in E as [Hk ->]. destruct (tri_plain 2 ltac:(lia)) as [P1 P2]. destruct (tri_plain 1 ltac:(lia)) as [P3 P4].
  pose proof (plain_ids_ok _ P1) as I1. pose proof (plain_ids_ok _ P2) as I2. pose proof (plain_ids_ok _ P3) as I3. pose proof (plain_ids_ok _ P4) as I4.
  cbn [r_num_nodes r_components tri_r edge_r] in I1, I2, I3, I4. split; [|split; [|split]].
  - cbn [tri_integral i_type]. destruct (vol_of k); intros r [<-|[]]; assumption.
  - cbn [tri_integral i_type]. intros w r. destruct w as [|[|w]]; destruct (vol_of k); intros [<-|[]]; assumption.
  - cbn [tri_integral i_type i_geoms]. destruct (vol_of k); reflexivity.
  - cbn [tri_integral i_active]. destruct k; repeat constructor; cbn; intuition congruence.
Qed.
(** every displacement of the three nodes which does not turn the triangle inside out *)
Lemma tri_upright x0 y0 x1 y1 x2 y2 (rest : nat -> list R) : 0 < (1 + (x1 - x0)) * (1 + (y2 - y0)) - (x2 - x0) * (y1 - y0) ->
  no_inverted_points 2%nat tri_f (fun w => match w with O => [x0; y0; x1; y1; x2; y2] | S w => rest w end) tri_terms ex_jac.
Proof.
  intros P k Ig g G e q T E1 E2 He Hq ET. apply tri_integrals in E1 as [Hk ->]. cbn [tri_integral i_geoms] in E2. destruct g as [|g]; [|destruct g; discriminate]. injection E2 as <-.
  assert (He' : (e < 1)%nat) by exact He. assert (Hq' : (q < 1)%nat) by exact Hq. assert (e = 0%nat) by lia. assert (q = 0%nat) by lia. subst e q.
  destruct k as [|[|[|[|k]]]]; [| | | |lia]; injection ET as <-; cbn [point_upright].
  - change (upright 2 ident (qf_inputs (tri_kernel 0%nat) 0%nat (Es_of tri_f (fun w => match w with O => [x0; y0; x1; y1; x2; y2] | S w => rest w end) (tri_integral 0%nat)) 0%nat 0%nat 0%nat)).
    set (u := qf_inputs _ _ _ _ _ _).
    assert (U : u 0%nat 1%nat = x1 - x0 /\ u 0%nat 2%nat = x2 - x0 /\ u 1%nat 1%nat = y1 - y0 /\ u 1%nat 2%nat = y2 - y0).
    { unfold u. repeat split; cbv -[Rplus Rmult Ropp Rminus Rinv IZR]; ring. }
    destruct U as (U1 & U2 & U3 & U4). clearbody u. unfold upright. rewrite detn_ident by (now left). unfold detn. cbn [Nat.eqb]. unfold det2, madd, ident. cbn [Nat.eqb].
    rewrite U1, U2, U3, U4. nra.
  - change (detn 2 ident <> 0). rewrite detn_ident by (now left). lra.
  - change (vnorm 2 (crossn 2 (tri_jac false)) <> 0). rewrite edge_norm. lra.
  - change (vnorm 2 (crossn 2 (tri_jac false)) <> 0). rewrite edge_norm. lra.
Qed.

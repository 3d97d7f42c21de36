(** * A triangle of linear elastic material, clamped at two corners (C92) *)
From Coq Require Import NArith ZArith Reals List Lia Lra Bool FunctionalExtensionality Permutation.
From Verif Require Import Prelude DofCodec Sums Restriction Csr Kernels FunctionalModel FunctionalGrad FunctionalTotal Assembly Dual LUDeriv Tensor MatAlg Materials MaterialFacts ShapeAware WeakForm WeakFormFacts WeakFormPhysics WeakFormWork WeakFormEx Fit Ode Energy EnergySolid EnergyRun StoredEnergy StoredEnergyUse.
From Verif Require Import BoundaryElim Newton QuasiStatic Traced TracedSolid TracedSolidEx StiffBody NewtonLinear.
Import ListNotations.
Local Open Scope R_scope.

Definition nl_terms : list integrand := [IMaterial false 3 (ELinear 2 1); IBody (fun X t i => X i + t); ITraction (fun X nu t i => nu i)].
Definition nl_kernel (k : nat) : gkernel Datatypes.unit :=
  running [0%nat] (if vol_of k then 3%nat else 2%nat) 1%nat (fun _ => if vol_of k then / 2 else 1) (if vol_of k then tri_space 2 else edge_space 2)
    (fun s => if vol_of k then tri_space (comps s) else edge_space (comps s)) (place_of 2 nl_terms k) (expr_of 2 nl_terms ex_pos ex_jac k 0%nat).
Definition nl_integral (k : nat) : integral Datatypes.unit := {| i_type := if vol_of k then Elements else BoundaryElements; i_active := [0; 1]%nat; i_geoms := [nl_kernel k] |}.
Definition nl_f : functional Datatypes.unit := {| f_test := ex_restr 2; f_trial := fun w => ex_restr (comps w); f_integrals := map nl_integral [0; 1; 2]%nat |}.
Definition nl_size (w : nat) : nat := (3 * comps w)%nat.
Definition nl_others (w : nat) : list R := match w with O => [0; 0; 0; 0; 0; 0] | _ => [0; 0; 0] end.
(** the first two corners are held *)
Definition nl_held : dofset := fun i => Nat.ltb i 4.
Lemma nl_integrals k Ig : nth_error (f_integrals nl_f) k = Some Ig -> (k < 3)%nat /\ Ig = nl_integral k.
Proof. cbn [nl_f f_integrals]. destruct k as [|[|[|k]]]; cbn; intros E; try (destruct k; discriminate); injection E as <-; (split; [lia|reflexivity]). Qed.
Lemma nl_traced : solid_traced 2 nl_f nl_terms ex_pos ex_jac.
Proof.
  intros k Ig g G E1 E2. apply nl_integrals in E1 as [Hk ->]. cbn [nl_integral i_geoms] in E2. destruct g as [|g]; [|destruct g; discriminate]. injection E2 as <-.
  assert (P : forall s, (0 < es_c (gk_trial (nl_kernel k) s))%nat) by (intros [|[|s]]; cbn; destruct (vol_of k); cbn; lia).
  assert (W : written (nl_kernel k) (place_of 2 nl_terms k) (expr_of 2 nl_terms ex_pos ex_jac k 0%nat)) by apply running_written.
  destruct k as [|[|[|k]]]; [| | |lia]; (eexists; split; [reflexivity|]); repeat split; try reflexivity; try exact P; try apply W; try (cbn; lia).
Qed.
Lemma nl_wf : wf nl_f 6 nl_size.
Proof.
  intros Ig HI. apply In_nth_error in HI as (k & E). apply nl_integrals in E as [Hk ->]. destruct (tri_plain 2 ltac:(lia)) as [P1 P2]. destruct (tri_plain 1 ltac:(lia)) as [P3 P4].
  pose proof (plain_ids_ok _ P1) as I1. pose proof (plain_ids_ok _ P2) as I2. pose proof (plain_ids_ok _ P3) as I3. pose proof (plain_ids_ok _ P4) as I4.
  cbn [r_num_nodes r_components tri_r edge_r] in I1, I2, I3, I4. split; [|split; [|split]].
  - cbn [nl_integral i_type]. destruct (vol_of k); intros r [<-|[]]; assumption.
  - cbn [nl_integral i_type]. intros w r. destruct w as [|[|w]]; destruct (vol_of k); intros [<-|[]]; assumption.
  - cbn [nl_integral i_type i_geoms]. destruct (vol_of k); reflexivity.
  - cbn [nl_integral i_active]. repeat constructor; cbn; intuition congruence.
Qed.
Lemma nl_fit : all_fit nl_f.
Proof.
  intros Ig g G r HI HG Hr. apply In_nth_error in HI as (k & E). apply nl_integrals in E as (_ & ->). cbn [nl_integral i_geoms] in HG.
  destruct g as [|g]; [|destruct g; discriminate]. injection HG as <-. cbn [nl_f f_test nl_integral i_type] in Hr.
  unfold fits. cbn [nl_kernel running gk_test gk_elems]. destruct (vol_of k); injection Hr as <-; (split; [reflexivity|]; split; [reflexivity|]); intros el [<-|[]]; cbn; lia.
Qed.
Lemma nl_spaces : two_spaces 2 nl_f.
Proof.
  split; [intros dt; split; reflexivity|]. intros Ig HI. apply In_nth_error in HI as (k & E). apply nl_integrals in E as (_ & ->). split.
  - exists []; reflexivity.
  - intros G [<-|[]]. cbn [nl_kernel running gk_test gk_trial]. destruct (vol_of k); (split; [reflexivity|split; reflexivity]).
Qed.
Lemma nl_wf_assembly : wf_assembly nl_f 0 6 6.
Proof.
  destruct (tri_plain 2 ltac:(lia)) as [P1 P2]. pose proof (plain_ids_ok _ P1) as I1. pose proof (plain_ids_ok _ P2) as I2. cbn [r_num_nodes r_components tri_r edge_r] in I1, I2.
  split; [|split; [|split; [|split]]].
  - intros [|] rt [<-|[]]; split; assumption.
  - intros [|] rt [<-|[]]; split; assumption.
  - intros [|]; reflexivity.
  - intros Ig HI. apply In_nth_error in HI as (k & E). apply nl_integrals in E as (_ & ->). cbn [nl_integral i_geoms i_type nl_f f_test]. destruct (vol_of k); reflexivity.
  - intros Ig s g G rt rr HI Hs HG Ht Hr. apply In_nth_error in HI as (k & E). apply nl_integrals in E as (_ & ->). cbn [nl_integral i_geoms] in HG.
    destruct g as [|g]; [|destruct g; discriminate]. injection HG as <-.
    assert (s = 0%nat) as -> by (cbn [nl_integral i_active] in Hs; injection Hs as <-; reflexivity).
    cbn [nl_f f_test f_trial nl_integral i_type] in Ht, Hr. unfold matches. cbn [nl_kernel running gk_test gk_trial gk_elems].
    destruct (vol_of k); injection Ht as <-; injection Hr as <-; repeat (split; [reflexivity|]); (split; [|reflexivity]); intros el [<-|[]]; cbn; lia.
Qed.
Lemma nl_ready : exists c, ready nl_f 6 c nl_size.
Proof.
  destruct (tri_plain 2 ltac:(lia)) as [P1 P2].
  destruct (table_for_mesh 6 (blocks_of nl_f 0 Elements) (map fst (lut_keys (emitted_all (blocks_of nl_f 0 Elements))))) as (c & _ & B).
  - intros te tr [E|[]]. inversion E; subst. split; [exact P1|]. split; [exact P1|]. split; reflexivity.
  - intros i Hi. destruct i as [|[|[|[|[|[|i]]]]]]; [| | | | | |lia];
    [exists 0%Z, (tri_r 2), (tri_r 2), 0%nat, 0%nat, 0%nat, 0%nat, 0%nat|exists 0%Z, (tri_r 2), (tri_r 2), 0%nat, 0%nat, 0%nat, 1%nat, 0%nat
    |exists 0%Z, (tri_r 2), (tri_r 2), 0%nat, 1%nat, 0%nat, 0%nat, 0%nat|exists 0%Z, (tri_r 2), (tri_r 2), 0%nat, 1%nat, 0%nat, 1%nat, 0%nat
    |exists 0%Z, (tri_r 2), (tri_r 2), 0%nat, 2%nat, 0%nat, 0%nat, 0%nat|exists 0%Z, (tri_r 2), (tri_r 2), 0%nat, 2%nat, 0%nat, 1%nat, 0%nat]; repeat split; cbn; auto; lia.
  - lia.
  - apply Permutation_refl.
  - exists c. split; [apply nl_wf|]. split; [reflexivity|]. split; [apply nl_wf_assembly|]. split; [|split; [exact B|split; [lia|]]].
    + intros [|] rt rr [|g] Ht Hr; try (destruct g; discriminate); injection Ht as <-; injection Hr as <-; reflexivity.
    + intros x (te & tr & e & i & j & k & l & [E|[]] & He & Hi & Hj & Hk & Hl & ->). inversion E; subst te tr. cbn in He, Hi, Hj, Hk, Hl.
      exists (tri_r 2), (tri_r 2), e, i, j, k, l. split; [left; reflexivity|]. cbn. repeat (split; [lia|]).
      assert (e = 0%nat) by lia. subst e. destruct i as [|[|i]]; [| |lia]; (destruct j as [|[|j]]; [| |lia]); reflexivity.
Qed.
Lemma nl_linear : List.Forall linear_integrand nl_terms.
Proof. repeat constructor; lra. Qed.
Lemma nl_regular : regular_elements 2 nl_f nl_terms ex_jac.
Proof.
  intros k Ig g G le q T E1 E2 Hle Hq ET. apply nl_integrals in E1 as [Hk ->]. cbn [nl_integral i_geoms] in E2. destruct g as [|g]; [|destruct g; discriminate]. injection E2 as <-.
  destruct k as [|[|[|k]]]; [| | |lia]; injection ET as <-.
  - change (0 < / 2 * detn 2 ident). rewrite detn_ident by (now left). lra.
  - change (detn 2 ident <> 0). rewrite detn_ident by (now left). lra.
  - change (vnorm 2 (crossn 2 (tri_jac false)) <> 0). rewrite edge_norm. lra.
Qed.
Lemma nl_others_fit : fitting nl_size nl_others.
Proof. intros [|[|w]]; reflexivity. Qed.
Lemma nl_still i : nth i (nl_others 0%nat) 0 = 0.
Proof. cbn [nl_others]. do 6 (destruct i as [|i]; [reflexivity|]). destruct i; reflexivity. Qed.
(** with two corners held, every displacement strains the triangle *)
Lemma nl_grad v i j : (i < 2)%nat -> (j < 2)%nat -> grad_at 2 (ex_jac 0 0 0 0) (test_field (nl_kernel 0) (tri_r 2) (tab 6 v) 0 0) i j = v (2 * S j + i)%nat - v i.
Proof.
  intros Hi Hj. assert (TF : forall i b, (i < 2)%nat -> (b < 2)%nat -> test_field (nl_kernel 0) (tri_r 2) (tab 6 v) 0 0 i (S b) = v (2 * S b + i)%nat - v i).
  { clear. intros i b Hi Hb. destruct i as [|[|i]]; [| |lia]; (destruct b as [|[|b]]; [| |lia]); cbv -[Rplus Rmult Ropp Rminus Rinv IZR]; ring. }
  destruct (invn_works 2 (ex_jac 0 0 0 0) (or_introl eq_refl)) as (K & EK); [change (detn 2 ident <> 0); rewrite detn_ident by (now left); lra|].
  destruct (invn_some 2 _ K (or_introl eq_refl) EK) as (JK & _ & _).
  assert (J0 := JK 0%nat j ltac:(lia) Hj). assert (J1 := JK 1%nat j ltac:(lia) Hj). change (ex_jac 0 0 0 0) with ident in J0, J1. unfold mmul in J0, J1. cbn [sumn] in J0, J1. unfold ident in J0, J1. cbn [Nat.eqb] in J0, J1.
  unfold grad_at. rewrite EK. cbn [sumn]. rewrite !TF by lia.
  destruct j as [|[|j]]; [| |lia]; cbn [Nat.eqb] in *.
  - assert (A : K 0%nat 0%nat = 1) by lra. assert (B : K 1%nat 0%nat = 0) by lra. rewrite A, B. ring.
  - assert (A : K 0%nat 1%nat = 0) by lra. assert (B : K 1%nat 1%nat = 1) by lra. rewrite A, B. ring.
Qed.
Lemma nl_supported : supported 2 6 nl_f (as_terms 2 nl_terms) ex_jac (fun i => negb (nl_held i)).
Proof.
  intros v SF V0. assert (SK := SF 0%nat (nl_integral 0) 0%nat (nl_kernel 0) (tri_r 2) 0%nat 0%nat false 3 _ eq_refl eq_refl eq_refl ltac:(cbn; lia) ltac:(cbn; lia) eq_refl).
  assert (Z : forall i, (i < 4)%nat -> v i = 0) by (intros i Hi; apply V0; [lia|]; unfold nl_held; now rewrite (proj2 (Nat.ltb_lt i 4) Hi)).
  assert (S1 := SK 1%nat 1%nat ltac:(lia) ltac:(lia)). assert (S2 := SK 0%nat 1%nat ltac:(lia) ltac:(lia)). rewrite !nl_grad in S1 by lia. rewrite (nl_grad v 0 1), (nl_grad v 1 0) in S2 by lia. cbn [Nat.mul Nat.add] in S1, S2.
  assert (Z0 := Z 0%nat ltac:(lia)). assert (Z1 := Z 1%nat ltac:(lia)). assert (Z2 := Z 2%nat ltac:(lia)). assert (Z3 := Z 3%nat ltac:(lia)). intros i Hi. destruct i as [|[|[|[|[|[|i]]]]]]; [apply Z; lia|apply Z; lia|apply Z; lia|apply Z; lia| | |lia]; lra.
Qed.
(** with only the first corner held it can turn *)
Definition nl_loose : dofset := fun i => Nat.ltb i 2.
Lemma nl_unsupported : ~ supported 2 6 nl_f (as_terms 2 nl_terms) ex_jac (fun i => negb (nl_loose i)).
Proof.
  intros SU. set (v := fun i : nat => match i with 3%nat => 1 | 4%nat => -1 | _ => 0 end). assert (Q : v 3%nat = 0); [|cbn in Q; lra]. apply SU; [|intros i Hi Fi|lia].
  - intros k Ig g G r le q on rho sigma E1 E2 E3 Hle Hq ET. apply nl_integrals in E1 as [Hk ->]. destruct g as [|g]; [|destruct g; discriminate]. injection E2 as <-.
    destruct k as [|[|[|k]]]; [|discriminate|discriminate|lia]. injection E3 as <-. cbn in Hle, Hq. assert (le = 0%nat) by lia. assert (q = 0%nat) by lia. subst le q.
    intros i j Hi Hj. rewrite (nl_grad v i j), (nl_grad v j i) by assumption. destruct i as [|[|i]]; [| |lia]; (destruct j as [|[|j]]; [| |lia]); cbn; lra.
  - destruct i as [|[|i]]; [reflexivity|reflexivity|discriminate].
Qed.
Theorem nl_case t : exists c A L, all_fit nl_f /\ two_spaces 2 nl_f /\ ready nl_f 6 c nl_size /\ fitting nl_size nl_others /\ (forall i, nth i (nl_others 0%nat) 0 = 0) /\ solid_traced 2 nl_f nl_terms ex_pos ex_jac /\
  List.Forall linear_integrand nl_terms /\ regular_elements 2 nl_f nl_terms ex_jac /\ force nl_f 6 t nl_others ex_mem [0; 0; 1; 1; 0; 1] L /\ tangent nl_f 6 c t nl_others ex_mem [0; 0; 1; 1; 0; 1] A /\
  supported 2 6 nl_f (as_terms 2 nl_terms) ex_jac (fun i => negb (nl_held i)).
Proof.
  destruct nl_ready as (c & Rc). destruct (tangent_exists nl_f 6 c nl_size Rc t nl_others [0; 0; 1; 1; 0; 1] ex_mem nl_others_fit eq_refl) as (A & HA).
  destruct (evaluate_quiet nl_f 6 c nl_size Rc t None nl_others [0; 0; 1; 1; 0; 1] ex_mem ex_mem nl_others_fit eq_refl (fun _ _ _ _ => eq_refl)) as (L & m' & E & _).
  exists c, A, L. split; [exact nl_fit|]. split; [exact nl_spaces|]. split; [exact Rc|]. split; [exact nl_others_fit|]. split; [exact nl_still|]. split; [exact nl_traced|]. split; [exact nl_linear|]. split; [exact nl_regular|].
  split; [now exists m'|]. split; [exact HA|exact nl_supported].
Qed.
(** the Newton solver on this triangle: the linear solver inverts the block of the free corner *)
Definition solve2 (J : mat) (r : vec) : vec := fun i =>
  match i with
  | 4%nat => (J 5%nat 5%nat * r 4%nat - J 4%nat 5%nat * r 5%nat) / (J 4%nat 4%nat * J 5%nat 5%nat - J 4%nat 5%nat * J 5%nat 4%nat)
  | 5%nat => (J 4%nat 4%nat * r 5%nat - J 5%nat 4%nat * r 4%nat) / (J 4%nat 4%nat * J 5%nat 5%nat - J 4%nat 5%nat * J 5%nat 4%nat)
  | _ => r i
  end.
Lemma solve2_works A r : (forall i j, (i < 6)%nat -> (j < 6)%nat -> A i j = A j i) -> positive_definite 6 (eliminate nl_held A) ->
  forall i, (i < 6)%nat -> mvec 6 (eliminate nl_held A) (solve2 (eliminate nl_held A) r) i = r i.
Proof.
  intros SA PD. set (a := A 4%nat 4%nat). set (b := A 4%nat 5%nat). set (e := A 5%nat 5%nat). assert (SB : A 5%nat 4%nat = b) by (apply SA; lia).
  assert (Q : forall v : vec, quadratic_form 6 (eliminate nl_held A) v = v 0%nat * v 0%nat + v 1%nat * v 1%nat + v 2%nat * v 2%nat + v 3%nat * v 3%nat + (a * v 4%nat * v 4%nat + 2 * b * v 4%nat * v 5%nat + e * v 5%nat * v 5%nat)).
  { intros v. unfold quadratic_form, mvec, eliminate, nl_held. cbn [sumn Nat.ltb Nat.leb orb Nat.eqb]. rewrite SB. fold a b e. ring. }
  assert (Pa : 0 < a). { assert (P := PD (fun i => if Nat.eqb i 4 then 1 else 0) ltac:(exists 4%nat; split; [lia|cbn; lra])). rewrite Q in P. cbn [Nat.eqb] in P. lra. }
  assert (Pd : 0 < a * e - b * b).
  { assert (P := PD (fun i => if Nat.eqb i 4 then b else if Nat.eqb i 5 then - a else 0) ltac:(exists 5%nat; split; [lia|cbn; lra])). rewrite Q in P. cbn [Nat.eqb] in P.
    apply (Rmult_lt_reg_l a); [exact Pa|]. rewrite Rmult_0_r. lra. }
  intros i Hi. destruct i as [|[|[|[|[|[|i]]]]]]; [| | | | | |lia]; unfold mvec, eliminate, nl_held, solve2; cbn [sumn Nat.ltb Nat.leb orb Nat.eqb]; rewrite ?SB; fold a b e; field; lra.
Qed.
Definition sup6 (r : vec) : R := Rabs (r 0%nat) + Rabs (r 1%nat) + Rabs (r 2%nat) + Rabs (r 3%nat) + Rabs (r 4%nat) + Rabs (r 5%nat).
Theorem nl_newton t : exists c sys F J, ready nl_f 6 c nl_size /\ of_material nl_f 6 c nl_held ex_mem t nl_others F J /\ (forall y, sys_res sys y = Some (F y)) /\
  (forall r, (forall i, (i < 6)%nat -> r i = 0) -> sys_norm sys r = Some 0) /\ (forall y i, (i < 6)%nat -> mvec 6 (J y) (sys_lin sys y (F y)) i = F y i).
Proof.
  destruct nl_ready as (c & Rc). destruct (material_exists nl_f 6 c nl_held nl_size Rc t nl_others ex_mem nl_others_fit) as (F & J & OM).
  exists c, {| sys_res := fun y => Some (F y); sys_norm := fun r => Some (sup6 r); sys_lin := fun y r => solve2 (J y) r |}, F, J.
  split; [exact Rc|]. split; [exact OM|]. split; [reflexivity|]. split.
  - intros r Z. cbn [sys_norm]. unfold sup6. rewrite !Z by lia. rewrite Rabs_R0. f_equal. ring.
  - intros y i Hi. cbn [sys_lin]. destruct (proj2 OM y) as (A & HT & ->).
    assert (HE := assembled_stiffness 2 6 nl_f nl_terms ex_pos ex_jac c nl_size nl_others ex_mem (or_introl eq_refl) nl_fit nl_spaces Rc nl_others_fit eq_refl nl_still nl_traced nl_linear nl_regular t _ A (tab_length _ _) HT).
    apply solve2_works; [| |exact Hi].
    + intros k l Hk Hl. rewrite !HE by assumption. apply (form_sym 6 _ (stiffness_symmetric 2 6 nl_f ex_mem (as_terms 2 nl_terms) ex_jac (linear_s 2 nl_terms nl_linear))).
    + apply (definite_supported 2 6 nl_f nl_terms ex_pos ex_jac c nl_size nl_others ex_mem (or_introl eq_refl) nl_fit nl_spaces Rc nl_others_fit eq_refl nl_still nl_traced nl_linear nl_regular t _ A nl_held (tab_length _ _) HT). exact nl_supported.
Qed.

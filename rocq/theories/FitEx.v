(** * Fitting on the triangle of WeakFormEx.v: non-vacuity witnesses for C64 *)
From Coq Require Import NArith ZArith Reals List Lia Lra Bool.
From Verif Require Import Prelude DofCodec Sums Restriction Kernels FunctionalModel Assembly Tensor MatAlg Materials ShapeAware WeakForm WeakFormFacts WeakFormPhysics WeakFormEx Fit.
Import ListNotations.
Local Open Scope R_scope.

(** fit the function 2 with linear elements and one quadrature point *)
Definition fit_mass : functional unit := ex_functional 1 [(true, fun t u a => out_of (Some (Volume ident (fun i => u i 0%nat) (fun _ _ => 0))))].
Definition fit_load : functional unit := ex_functional 1 [(true, fun t u a => out_of (Some (Volume ident (fun _ => 2) (fun _ _ => 0))))].
Definition fit_c : list R := [1; 2; 3].
Definition fit_jac (k g le q : nat) : mat := ident.
Definition fit_src (k g le q : nat) : vec := fun _ => 2.
Lemma fit_all : wf fit_mass 3 (fun _ => length fit_c) /\ all_fit fit_mass /\ wf fit_load 3 (fun w => length (cond_Ls w)) /\ all_fit fit_load /\ same_spaces fit_mass /\
  mass_functional 2 fit_mass 0 (fun _ => fit_c) ex_mem fit_jac /\ source_functional 2 fit_load 0 cond_Ls ex_mem fit_jac fit_src /\ skeleton fit_mass = skeleton fit_load /\
  (forall k Ig g G le q, nth_error (f_integrals fit_mass) k = Some Ig -> nth_error (i_geoms Ig) g = Some G -> (le < length (gk_elems G))%nat -> (q < gk_nq G)%nat -> 0 < gk_w G q * detn 2 (fit_jac k g le q)) /\
  exists Mc mm b mb, evaluate fit_mass 0 (Some 0%nat) false (fun _ => fit_c) 3 ex_mem = Ok (Mc, mm) /\ evaluate fit_load 0 None false cond_Ls 3 ex_mem = Ok (b, mb) /\
    forall k, (k < 3)%nat -> nth k Mc 0 = nth k b 0.
Proof.
  assert (Wm : wf fit_mass 3 (fun _ => length fit_c)) by (apply (ex_wf 1 _ (fun _ => fit_c)); [lia|reflexivity]).
  assert (Wb : wf fit_load 3 (fun w => length (cond_Ls w))) by (apply (ex_wf 1); [lia|intros [|w]; reflexivity]).
  assert (HM : mass_functional 2 fit_mass 0 (fun _ => fit_c) ex_mem fit_jac).
  { intros k Ig g G le q E1 E2 Hle Hq. destruct k as [|k]; [|destruct k; discriminate]. injection E1 as <-. destruct g as [|g]; [|destruct g; discriminate]. injection E2 as <-.
    match goal with |- exists out, point_out 2 (Volume _ ?s ?P) = _ /\ _ => destruct (volume_out s P) as (out & Eo); exists out; split; [exact Eo|]; split; [reflexivity|];
      intros i b _ _; change (out_of (Some (Volume ident s P)) i b = out i b) end. unfold out_of. now rewrite Eo. }
  assert (HB : source_functional 2 fit_load 0 cond_Ls ex_mem fit_jac fit_src).
  { intros k Ig g G le q E1 E2 Hle Hq. destruct k as [|k]; [|destruct k; discriminate]. injection E1 as <-. destruct g as [|g]; [|destruct g; discriminate]. injection E2 as <-.
    destruct (volume_out (fun _ => 2) (fun _ _ => 0)) as (out & Eo). exists out. split; [exact Eo|]. split; [reflexivity|].
    intros i b _ _. change (out_of (Some (Volume ident (fun _ => 2) (fun _ _ => 0))) i b = out i b). unfold out_of. now rewrite Eo. }
  assert (Fm : all_fit fit_mass) by apply ex_fit. assert (Fb : all_fit fit_load) by apply ex_fit. assert (SS : same_spaces fit_mass) by apply ex_same. assert (SK : skeleton fit_mass = skeleton fit_load) by reflexivity.
  split; [exact Wm|]. split; [exact Fm|]. split; [exact Wb|]. split; [exact Fb|]. split; [exact SS|]. split; [exact HM|]. split; [exact HB|]. split; [exact SK|]. split.
  - intros k Ig g G le q E1 E2 Hle Hq. destruct k as [|k]; [|destruct k; discriminate]. injection E1 as <-. destruct g as [|g]; [|destruct g; discriminate]. injection E2 as <-.
    unfold fit_jac. rewrite detn_ident by (now left). cbn. lra.
  - destruct (evaluate_spec fit_mass 0 (Some 0%nat) false (fun _ => fit_c) 3 ex_mem Wm) as (Mc & A & _). destruct (evaluate_spec fit_load 0 None false cond_Ls 3 ex_mem Wb) as (b & B & _).
    eexists Mc, _, b, _. split; [exact A|]. split; [exact B|].
    apply (fit_consistent 2 fit_mass fit_load 3 fit_c ex_mem _ ex_mem _ cond_Ls Mc b (Some 0%nat) fit_jac fit_src ltac:(now left) Wm Fm Wb Fb A B SS HM HB SK).
    intros k Ig g G r le q E1 E2 E3 Hle Hq i Hi. destruct k as [|k]; [|destruct k; discriminate]. injection E1 as <-. destruct g as [|g]; [|destruct g; discriminate]. injection E2 as <-. injection E3 as <-.
    cbn in Hle, Hq, Hi. assert (le = 0%nat) by lia. assert (q = 0%nat) by lia. assert (i = 0%nat) by lia. subst le q i.
    unfold fit_src, test_field, interpolate, elem_dofs. cbn [ex_kernel gk_test gk_elems nth es_n es_c es_B tri_space]. cbn [sumn tri_B]. vm_compute nth. lra.
Qed.

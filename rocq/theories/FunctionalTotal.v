(** * The derivative of a residual along a curve of all its arguments (C16, C74)

    What the gradients with respect to single arguments (functional.hpp:434-498) add up to. *)
From Coq Require Import NArith ZArith Reals List Lia Lra Bool FunctionalExtensionality.
From Coquelicot Require Import Coquelicot.
From Verif Require Import Prelude DofCodec Sums Restriction Kernels FunctionalModel FunctionalGrad.
Import ListNotations.
Local Open Scope R_scope.

Section Total.
Context {St : Type}.
Notation gkernel := (gkernel St). Notation integral := (integral St).
Notation functional := (functional St). Notation mem := (mem St).

(** the q-functions are differentiable in all their arguments together, with the derivatives the dual numbers give (C15) *)
Definition ad_joint (f : functional) (t : R) (Ls : nat -> list R) (m : mem) : Prop :=
  forall n Ig g G e q, nth_error (f_integrals f) n = Some Ig -> nth_error (i_geoms Ig) g = Some G ->
    (e < length (gk_elems G))%nat -> (q < gk_nq G)%nat ->
    let v := qf_inputs G g (Es_of f Ls Ig) e q in
    forall (c : R -> nat -> slots) (d : nat -> slots), (forall s j a, is_derive (fun eps => c eps s j a) 0 (d s j a)) -> c 0 = v ->
    forall i b, is_derive (fun eps => fst (gk_qf G e q t (c eps) (m_q m n g e q)) i b) 0
      (sumn (length (i_active Ig)) (fun s => chain_rule (gk_trial G s) (gk_dim1 G) (gk_ad G s e q t v (m_q m n g e q)) (d s) i b)).

(** sums over arguments pass through the assembly *)
Lemma contrib_sumn N r (E : nat -> list R) E' k : (forall idx, (idx < esize r)%nat -> nth idx E' 0 = sumn N (fun s => nth idx (E s) 0)) ->
  contrib r E' k = sumn N (fun s => contrib r (E s) k).
Proof.
  intros H. unfold contrib.
  rewrite (suml_ext (loop_ids r) _ (fun p => sumn N (fun s => if Z.eqb (snd p) (Z.of_nat k) then nth (Z.to_nat (fst p)) (E s) 0 else 0))).
  - apply suml_sumn_swap.
  - intros [e l] Hin. cbn [fst snd]. destruct (Z.eqb l (Z.of_nat k)); [|now rewrite sumn_0]. apply H. apply loop_E_range in Hin. lia.
Qed.
Lemma accumulate_sumn N (G : gkernel) r (h : nat -> nat -> local) (h' : nat -> local) idx : (idx < esize r)%nat ->
  (forall le i k, (le < length (gk_elems G))%nat -> h' le i k = sumn N (fun s => h s le i k)) ->
  nth idx (accumulate G r h') 0 = sumn N (fun s => nth idx (accumulate G r (h s)) 0).
Proof.
  intros Hi H. unfold accumulate. rewrite nth_tab by auto.
  rewrite (sumn_ext N _ (fun s => sumn (length (gk_elems G)) (fun le => if Nat.eqb (nth le (gk_elems G) 0%nat) (idx / (es_c (gk_test G) * es_n (gk_test G))) then
      h s le ((idx / es_n (gk_test G)) mod es_c (gk_test G))%nat (idx mod es_n (gk_test G))%nat else 0))) by (intros s _; rewrite nth_tab by auto; reflexivity).
  rewrite sumn_swap. apply sumn_ext. intros le Hle. destruct (Nat.eqb _ _); [now apply H|now rewrite sumn_0].
Qed.
Lemma integrate_sumn N Sp dim1 nq wt (o : nat -> nat -> slots) (o' : nat -> slots) i k :
  (forall q b, (q < nq)%nat -> o' q i b = sumn N (fun s => o s q i b)) ->
  integrate Sp dim1 nq wt o' i k = sumn N (fun s => integrate Sp dim1 nq wt (o s) i k).
Proof.
  intros H. unfold integrate. rewrite sumn_swap. apply sumn_ext. intros q Hq. rewrite sumn_scal_r. f_equal. rewrite sumn_swap.
  apply sumn_ext. intros b Hb. rewrite H by exact Hq. symmetry. apply sumn_scal_r.
Qed.
Lemma blocks_sumn N (Gs : list gkernel) : forall rs g (h : nat -> nat -> gkernel -> restriction -> list R) (h' : nat -> gkernel -> restriction -> list R) k,
  (forall g' G r, nth_error Gs g' = Some G -> contrib r (h' (g + g')%nat G r) k = sumn N (fun s => contrib r (h s (g + g')%nat G r) k)) ->
  suml (combine rs (blocks_from g Gs rs h')) (fun p => contrib (fst p) (snd p) k) =
  sumn N (fun s => suml (combine rs (blocks_from g Gs rs (h s))) (fun p => contrib (fst p) (snd p) k)).
Proof.
  induction Gs as [|G Gs IH]; intros [|r rs] g h h' k H; cbn [combine blocks_from suml]; try (now rewrite sumn_0).
  rewrite sumn_plus. f_equal.
  - specialize (H 0%nat G r eq_refl). now rewrite Nat.add_0_r in H.
  - apply IH. intros g' G' r' HG. specialize (H (S g') G' r' HG). now rewrite Nat.add_succ_comm.
Qed.

(** the inputs of the q-functions move with the vectors *)
Lemma derive_gatherF r (L : R -> list R) dL idx : (forall i, is_derive (fun eps => nth i (L eps) 0) 0 (nth i dL 0)) ->
  is_derive (fun eps => nth idx (gatherF r (L eps)) 0) 0 (nth idx (gatherF r dL) 0).
Proof.
  intros H. unfold gatherF. destruct (Nat.lt_ge_cases idx (esize r)) as [A|A].
  - rewrite nth_tab by auto. eapply is_derive_ext; [|exact (H _)]. intros eps. cbn beta. now rewrite nth_tab by auto.
  - rewrite nth_tab0 by auto. apply (is_derive_ext (fun _ => 0)); [intros eps; now rewrite nth_tab0 by auto|]. apply (is_derive_const (K:=R_AbsRing) (V:=R_NormedModule)).
Qed.
Lemma derive_blocks rs (L : R -> list R) dL g idx : (forall i, is_derive (fun eps => nth i (L eps) 0) 0 (nth i dL 0)) ->
  is_derive (fun eps => nth idx (nth g (map (fun r => gatherF r (L eps)) rs) []) 0) 0 (nth idx (nth g (map (fun r => gatherF r dL) rs) []) 0).
Proof.
  intros H. revert g. induction rs as [|r rs IH]; intros [|g]; cbn [map nth];
    try (destruct idx; apply (is_derive_const (K:=R_AbsRing) (V:=R_NormedModule))).
  - now apply derive_gatherF.
  - apply IH.
Qed.
Lemma derive_inputs f (Lc : R -> nat -> list R) dL (Ig : integral) (G : gkernel) g e q s j a :
  (forall w i, is_derive (fun eps => nth i (Lc eps w) 0) 0 (nth i (dL w) 0)) ->
  is_derive (fun eps => qf_inputs G g (Es_of f (Lc eps) Ig) e q s j a) 0 (qf_inputs G g (Es_of f dL Ig) e q s j a).
Proof.
  intros H. unfold qf_inputs, interpolate.
  apply (is_derive_sumn (es_n (gk_trial G s)) (fun k eps => elem_dofs (gk_trial G s) (nth g (nth s (Es_of f (Lc eps) Ig) []) []) (nth e (gk_elems G) 0%nat) j k * es_B (gk_trial G s) k q a)).
  intros k Hk. apply (is_derive_mulr (fun eps => elem_dofs (gk_trial G s) (nth g (nth s (Es_of f (Lc eps) Ig) []) []) (nth e (gk_elems G) 0%nat) j k)). unfold elem_dofs.
  rewrite nth_Es. destruct (nth_error (i_active Ig) s) as [w|] eqn:E.
  - eapply is_derive_ext; [|apply (derive_blocks (f_trial f w (i_type Ig)) (fun eps => Lc eps w) (dL w)); intros i; apply H].
    intros eps. cbn beta. now rewrite nth_Es, E.
  - apply (is_derive_ext (fun _ => nth ((nth e (gk_elems G) 0%nat * es_c (gk_trial G s) + j) * es_n (gk_trial G s) + k) (nth g [] []) 0)).
    + intros eps. now rewrite nth_Es, E.
    + destruct g; cbn [nth]; destruct (_ + k)%nat; apply (is_derive_const (K:=R_AbsRing) (V:=R_NormedModule)).
Qed.

Lemma index_of_nth active s w : NoDup active -> nth_error active s = Some w -> index_of active w = Some s.
Proof.
  intros ND H. destruct (index_of active w) as [s'|] eqn:E.
  - f_equal. apply (proj1 (NoDup_nth_error active) ND); [|apply index_of_spec in E; congruence]. apply index_of_spec in E. apply nth_error_Some. congruence.
  - apply index_from_none in E. exfalso. apply E. eapply nth_error_In; eauto.
Qed.

(** one integral *)
Lemma total_contrib f t (Lc : R -> nat -> list R) dL m (ms : nat -> mem) n Ig k :
  NoDup (i_active Ig) -> nth_error (f_integrals f) n = Some Ig ->
  (forall w i, is_derive (fun eps => nth i (Lc eps w) 0) 0 (nth i (dL w) 0)) ->
  ad_joint f t (Lc 0) m -> (forall w, In w (i_active Ig) -> stored_at f w t (Lc 0) m (ms w)) ->
  is_derive (fun eps => res_contrib f t (Lc eps) m n Ig k) 0
    (sumn (length (i_active Ig)) (fun s => let w := nth s (i_active Ig) 0%nat in jvp_contrib f w (ms w) (dL w) n Ig k)).
Proof.
  intros ND Hn Hd Had Hst. set (N := length (i_active Ig)).
  set (o := fun s g (G : gkernel) le q => chain_rule (gk_trial G s) (gk_dim1 G) (gk_ad G s le q t (qf_inputs G g (Es_of f (Lc 0) Ig) le q) (m_q m n g le q))
    (qf_inputs G g (Es_of f dL Ig) le q s)).
  assert (Eq : sumn N (fun s => let w := nth s (i_active Ig) 0%nat in jvp_contrib f w (ms w) (dL w) n Ig k) =
    suml (combine (f_test f (i_type Ig)) (blocks_from 0 (i_geoms Ig) (f_test f (i_type Ig)) (fun g G r =>
      accumulate G r (fun le => integrate (gk_test G) (gk_dim1 G) (gk_nq G) (gk_w G) (fun q i b => sumn N (fun s => o s g G le q i b))))))
      (fun p => contrib (fst p) (snd p) k)).
  { symmetry. refine (eq_trans (blocks_sumn N (i_geoms Ig) (f_test f (i_type Ig)) 0 (fun s g G r => accumulate G r (fun le =>
      integrate (gk_test G) (gk_dim1 G) (gk_nq G) (gk_w G) (o s g G le))) _ k _) _).
    - intros g' G r HG. apply contrib_sumn. intros idx Hidx. apply accumulate_sumn; [exact Hidx|]. intros le i kk Hle. now apply integrate_sumn.
    - apply sumn_ext. intros s Hs. cbv zeta. set (w := nth s (i_active Ig) 0%nat).
      assert (Hw : nth_error (i_active Ig) s = Some w) by (apply nth_error_nth'; exact Hs).
      assert (Iw := index_of_nth (i_active Ig) s w ND Hw). unfold jvp_contrib, jvp_blocks. rewrite Iw.
      assert (B : forall Gs rs g0, (forall g' G, nth_error Gs g' = Some G -> nth_error (i_geoms Ig) (g0 + g')%nat = Some G) ->
        suml (combine rs (blocks_from g0 Gs rs (fun g G r => accumulate G r (fun le => integrate (gk_test G) (gk_dim1 G) (gk_nq G) (gk_w G) (o s g G le))))) (fun p => contrib (fst p) (snd p) k) =
        suml (combine rs (blocks_from g0 Gs rs (fun g G r => jvp_geom G r g s (map (fun r => gatherF r (dL w)) (f_trial f w (i_type Ig))) (ms w) n))) (fun p => contrib (fst p) (snd p) k)).
      { induction Gs as [|G Gs IH]; intros [|r rs] g0 HG; cbn [combine blocks_from suml fst snd]; try reflexivity. f_equal.
        - specialize (HG 0%nat G eq_refl). rewrite Nat.add_0_r in HG. f_equal. unfold jvp_geom. unfold accumulate, tab. apply map_ext. intros idx.
          apply sumn_ext. intros le Hle. destruct (Nat.eqb _ _); [|reflexivity]. unfold jvp, integrate. apply sumn_ext. intros q Hq. f_equal.
          apply sumn_ext. intros b Hb. f_equal. unfold o.
          rewrite (Hst w (nth_error_In _ _ Hw) n Ig s g0 G le q Hn Iw HG Hle Hq). cbn [the_deriv]. unfold qf_inputs at 2. rewrite nth_Es, Hw. reflexivity.
        - apply IH. intros g' G' H'. specialize (HG (S g') G' H'). now rewrite Nat.add_succ_comm in *. }
      apply B. intros g' G H'. exact H'. }
  rewrite Eq. unfold res_contrib, res_blocks. apply is_derive_blocks. intros g' G r HG Hr. cbn [Nat.add]. apply is_derive_contrib. intros idx Hidx. unfold eval_geom.
  apply (is_derive_accumulate G r (fun eps le => integrate (gk_test G) (gk_dim1 G) (gk_nq G) (gk_w G)
      (fun q => fst (gk_qf G le q t (qf_inputs G g' (Es_of f (Lc eps) Ig) le q) (m_q m n g' le q))))); [exact Hidx|].
  intros le i kk Hle. apply is_derive_integrate. intros q b Hq.
  exact (Had n Ig g' G le q Hn HG Hle Hq (fun eps => qf_inputs G g' (Es_of f (Lc eps) Ig) le q) (qf_inputs G g' (Es_of f dL Ig) le q)
    (fun s j a => derive_inputs f Lc dL Ig G g' le q s j a Hd) eq_refl i b).
Qed.

(** over the arguments of the functional instead of those of an integral *)
Lemma sumn_list_delta (l : list nat) w c : NoDup l ->
  sumn (length l) (fun s => if Nat.eqb w (nth s l 0%nat) then c else 0) = if existsb (Nat.eqb w) l then c else 0.
Proof.
  induction l as [|x l IH]; intros ND; [reflexivity|]. inversion ND as [|? ? N1 N2]; subst. cbn [length]. rewrite sumn_S_l. cbn [nth existsb].
  rewrite (IH N2). destruct (Nat.eqb_spec w x) as [->|]; cbn [orb]; [|ring].
  destruct (existsb (Nat.eqb x) l) eqn:E; [|ring]. apply existsb_exists in E as (y & Hy & E). apply Nat.eqb_eq in E. subst y. contradiction.
Qed.
Lemma sumn_arguments W (l : list nat) (F : nat -> R) : NoDup l -> (forall w, In w l -> (w < W)%nat) -> (forall w, ~ In w l -> F w = 0) ->
  sumn (length l) (fun s => F (nth s l 0%nat)) = sumn W F.
Proof.
  intros ND HW HF.
  rewrite (sumn_ext W F (fun w => sumn (length l) (fun s => if Nat.eqb w (nth s l 0%nat) then F w else 0))).
  - rewrite sumn_swap. apply sumn_ext. intros s Hs. symmetry. apply sumn_delta. apply HW. now apply nth_In.
  - intros w _. rewrite sumn_list_delta by exact ND. destruct (existsb (Nat.eqb w) l) eqn:E; [reflexivity|]. apply HF. intros Hin.
    rewrite <- not_true_iff_false in E. apply E. apply existsb_exists. exists w. split; [exact Hin|apply Nat.eqb_refl].
Qed.
Lemma jvp_contrib_inactive f w (m : mem) dx n (Ig : integral) k : ~ In w (i_active Ig) -> jvp_contrib f w m dx n Ig k = 0.
Proof.
  intros H. unfold jvp_contrib, jvp_blocks. destruct (index_of (i_active Ig) w) as [s|] eqn:E; [|reflexivity].
  apply index_of_spec in E. exfalso. apply H. eapply nth_error_In; eauto.
Qed.

(** the residual along a curve of all its arguments: the gradients with respect to each argument add up *)
Theorem total_derivative f t (Lc : R -> nat -> list R) dL m (ms : nat -> mem) W k :
  (forall Ig, In Ig (f_integrals f) -> NoDup (i_active Ig) /\ forall w, In w (i_active Ig) -> (w < W)%nat) ->
  (forall w i, is_derive (fun eps => nth i (Lc eps w) 0) 0 (nth i (dL w) 0)) ->
  ad_joint f t (Lc 0) m -> (forall w, (w < W)%nat -> stored_at f w t (Lc 0) m (ms w)) ->
  is_derive (fun eps => res_sum f t (Lc eps) m 0 (f_integrals f) k) 0 (sumn W (fun w => jvp_sum f w (ms w) (dL w) 0 (f_integrals f) k)).
Proof.
  intros Hf Hd Had Hst.
  assert (Gen : forall ints n, (forall j Ig, nth_error ints j = Some Ig -> nth_error (f_integrals f) (n + j) = Some Ig) ->
     is_derive (fun eps => res_sum f t (Lc eps) m n ints k) 0 (sumn W (fun w => jvp_sum f w (ms w) (dL w) n ints k))).
  { induction ints as [|Ig ints IH]; intros n H; cbn [res_sum jvp_sum].
    - rewrite sumn_0. apply (is_derive_const (K:=R_AbsRing) (V:=R_NormedModule) 0 0).
    - rewrite sumn_plus. apply (is_derive_plus (K:=R_AbsRing) (V:=R_NormedModule)).
      + pose proof (H 0%nat Ig eq_refl) as Hn. rewrite Nat.add_0_r in Hn. destruct (Hf Ig (nth_error_In _ _ Hn)) as [ND HW].
        rewrite <- (sumn_arguments W (i_active Ig) (fun w => jvp_contrib f w (ms w) (dL w) n Ig k) ND HW
          (fun w Hw => jvp_contrib_inactive f w (ms w) (dL w) n Ig k Hw)).
        apply (total_contrib f t Lc dL m ms n Ig k ND Hn Hd Had). intros w Hw. apply Hst. now apply HW.
      + apply IH. intros j J HJ. specialize (H (S j) J HJ). now rewrite Nat.add_succ_comm. }
  apply Gen. intros j Ig H. exact H.
Qed.

(** arguments that stand still contribute nothing *)
Lemma jvp_sum_zero f w (m : mem) dx ints : (forall i, nth i dx 0 = 0) -> forall n k, jvp_sum f w m dx n ints k = 0.
Proof.
  intros Z. induction ints as [|Ig ints IH]; intros n k; [reflexivity|]. cbn [jvp_sum]. rewrite IH.
  assert (C : forall Gs rs g s E, (forall g' i, nth i (nth g' E []) 0 = 0) ->
    suml (combine rs (blocks_from g Gs rs (fun g G r => jvp_geom G r g s E m n))) (fun p => contrib (fst p) (snd p) k) = 0).
  { induction Gs as [|G Gs IHG]; intros [|r rs] g s E HE; cbn [combine blocks_from suml fst snd]; try reflexivity. rewrite IHG by exact HE.
    rewrite Rplus_0_r. unfold contrib. apply suml_zero. intros [e l] Hin. cbn [fst snd]. destruct (Z.eqb l (Z.of_nat k)); [|reflexivity].
    unfold jvp_geom, accumulate. apply loop_E_range in Hin. rewrite nth_tab by lia. apply sumn_zero. intros le Hle. destruct (Nat.eqb _ _); [|reflexivity].
    unfold jvp, integrate. apply sumn_zero. intros q Hq. rewrite (sumn_zero (gk_dim1 G)); [ring|]. intros b Hb.
    replace (chain_rule (gk_trial G s) (gk_dim1 G) (the_deriv (m_d m n s g le q)) (interpolate (gk_trial G s) (elem_dofs (gk_trial G s) (nth g E []) (nth le (gk_elems G) 0%nat)) q)) with
      (fun (_ _ : nat) => 0); [ring|].
    apply functional_extensionality. intros i'. apply functional_extensionality. intros b'. symmetry. unfold chain_rule. apply sumn_zero. intros j Hj. apply sumn_zero. intros a Ha.
    unfold interpolate. rewrite (sumn_zero (es_n (gk_trial G s))); [ring|]. intros kk Hkk. unfold elem_dofs. rewrite HE. ring. }
  unfold jvp_contrib, jvp_blocks. destruct (index_of (i_active Ig) w); [|cbn [suml]; ring]. rewrite C; [ring|].
  intros g'. induction (f_trial f w (i_type Ig)) as [|r rs IHr] in g' |- *; intros i; destruct g' as [|g']; cbn [map nth]; [now destruct i|now destruct i| |apply IHr].
  unfold gatherF. destruct (Nat.lt_ge_cases i (esize r)); [now rewrite nth_tab|now rewrite nth_tab0].
Qed.
End Total.

(** ** through the interface: evaluate once per argument, apply each gradient to the velocity of its argument, and add up *)
Theorem all_arguments {St} (f : functional St) lsize tsize t (Lc : R -> nat -> list R) dL (m : mem St) W :
  wf f lsize tsize -> (forall eps w, length (Lc eps w) = tsize w) -> (forall w, length (dL w) = tsize w) ->
  (forall Ig w, In Ig (f_integrals f) -> In w (i_active Ig) -> (w < W)%nat) ->
  (forall w i, is_derive (fun eps => nth i (Lc eps w) 0) 0 (nth i (dL w) 0)) -> ad_joint f t (Lc 0) m ->
  exists (res : R -> list R) (act : nat -> list R),
    (forall eps, exists m', evaluate f t None false (Lc eps) lsize m = Ok (res eps, m')) /\
    (forall w, exists mw, evaluate f t (Some w) false (Lc 0) lsize m = Ok (res 0, mw) /\ action f w mw (dL w) lsize = Ok (act w)) /\
    forall k, (k < lsize)%nat -> is_derive (fun eps => nth k (res eps) 0) 0 (sumn W (fun w => nth k (act w) 0)).
Proof.
  intros Hwf HL Hd HW HD Had.
  assert (Hfs : forall eps, wf f lsize (fun a => length (Lc eps a))).
  { intros eps Ig HI. destruct (Hwf Ig HI) as (B1 & B2 & B3 & B4). split; [exact B1|]. split; [|split; auto]. intros a r Hr. rewrite HL. now apply (B2 a). }
  set (res := fun eps => tab lsize (res_sum f t (Lc eps) m 0 (f_integrals f))).
  assert (Ev : forall eps wrt, evaluate f t wrt false (Lc eps) lsize m = Ok (res eps, mem_sum f t wrt false (Lc eps) 0 (f_integrals f) m)).
  { intros eps wrt. destruct (evaluate_spec f t wrt false (Lc eps) lsize m (Hfs eps)) as (L & B1 & B2 & B3). rewrite B1. repeat f_equal.
    apply (nth_ext _ _ 0 0); [unfold res; now rewrite tab_length|]. intros k Hk. unfold res. rewrite nth_tab by lia. apply B3. lia. }
  assert (Ac : forall w, exists A, action f w (mem_sum f t (Some w) false (Lc 0) 0 (f_integrals f) m) (dL w) lsize = Ok A /\
    forall k, (k < lsize)%nat -> nth k A 0 = jvp_sum f w (mem_sum f t (Some w) false (Lc 0) 0 (f_integrals f) m) (dL w) 0 (f_integrals f) k).
  { intros w. destruct (action_spec f w _ lsize tsize (dL w) _ _ _ Hwf (Hd w) (mem_sum_stored f w t false (Lc 0) m)) as (A & A1 & _ & A3). eauto. }
  exists res, (fun w => match action f w (mem_sum f t (Some w) false (Lc 0) 0 (f_integrals f) m) (dL w) lsize with Ok A => A | _ => [] end).
  split; [intros eps; eexists; apply Ev|]. split.
  - intros w. eexists. split; [apply Ev|]. destruct (Ac w) as (A & -> & _). reflexivity.
  - intros k Hk. apply (is_derive_ext (fun eps => res_sum f t (Lc eps) m 0 (f_integrals f) k)); [intros eps; unfold res; now rewrite nth_tab|].
    rewrite (sumn_ext W _ (fun w => jvp_sum f w (mem_sum f t (Some w) false (Lc 0) 0 (f_integrals f) m) (dL w) 0 (f_integrals f) k)).
    + apply (total_derivative f t Lc dL m (fun w => mem_sum f t (Some w) false (Lc 0) 0 (f_integrals f) m)); auto.
      * intros Ig HI. split; [apply (Hwf Ig HI)|]. intros w. now apply HW.
      * intros w _. apply mem_sum_stored.
    + intros w _. destruct (Ac w) as (A & -> & HA). now apply HA.
Qed.

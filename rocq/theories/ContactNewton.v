(** * The contact Jacobian against the contact residual (C65) *)
From Coq Require Import Reals Lra Lia List Arith Bool FunctionalExtensionality.
From Coquelicot Require Import Coquelicot.
Import ListNotations.
From Verif Require Import Sums Contact ContactEx ContactSolve FunctionalGrad ShapeTensor.
Local Open Scope R_scope.

Definition moved (u du : nat -> R) (t : R) : nat -> R := fun j => u j + t * du j.
Definition stepped (p dp : list R) (t : R) : list R := map (fun q => fst q + t * snd q) (combine p dp).
(** the gap and the block are differentiable along [du] at [u], with the derivatives Tribol reports *)
Definition smooth (n : nat) (s : surface) (u du : nat -> R) : Prop :=
  (forall k, is_derive (fun t : R => gapf s (moved u du t) k) 0 (sumn n (fun j => bm s u k j * du j))) /\
  (forall k i, is_derive (fun t : R => bm s (moved u du t) k i) 0 (sumn n (fun j => dbm s u k i j * du j))).
(** no separated dof sits exactly on the tolerance *)
Definition off_edge (it : interaction) : Prop := tied it = None -> forall k, In k (inactive it) -> nth k (gap it) 0 <> - tol.

Lemma near_lt (g : R -> R) a : continuous g 0 -> g 0 < a -> locally 0 (fun t : R => g t < a).
Proof. intros C H. apply (C (fun y => y < a)). apply (open_lt a). exact H. Qed.
Lemma near_gt (g : R -> R) a : continuous g 0 -> a < g 0 -> locally 0 (fun t : R => a < g t).
Proof. intros C H. apply (C (fun y => a < y)). apply (open_gt a). exact H. Qed.
Lemma moved_0 u du : moved u du 0 = u.
Proof. apply functional_extensionality. intros j. unfold moved. ring. Qed.

(** ** one interaction *)
Section one.
  Context (n : nat) (it : interaction) (s : surface) (u du : nat -> R) (sp sd : list R).
  Let g (t : R) := map (gapf s (moved u du t)) (seq 0 (length (pres it))).
  Let w (t : R) := stepped sp sd t.
  Hypothesis (Hs : smooth n s u du) (Hp : slice_shape it sp) (Hd : slice_shape it sd).
  Hypothesis (Hgap : gap it = g 0) (Hfix : one it (g 0) (w 0) = it) (He : off_edge it).
  Let want (k : nat) (t : R) := if lm it then nth k sp 0 + t * nth k sd 0 else penalty it * gapf s (moved u du t) k.
  Lemma g_len t : length (g t) = length (pres it).
  Proof. unfold g. now rewrite map_length, seq_length. Qed.
  Lemma g_nth t k : (k < length (pres it))%nat -> nth k (g t) 0 = gapf s (moved u du t) k.
  Proof. intros H. unfold g. rewrite (nth_indep _ 0 (gapf s (moved u du t) 0%nat)) by (rewrite map_length, seq_length; exact H). now rewrite map_nth, seq_nth. Qed.
  Lemma w_shape t : slice_shape it (w t).
  Proof. unfold slice_shape, w, stepped in *. destruct (lm it); [|now subst]. rewrite map_length, combine_length. lia. Qed.
  Lemma w_nth t k : lm it = true -> (k < length (pres it))%nat -> nth k (w t) 0 = nth k sp 0 + t * nth k sd 0.
  Proof.
    intros L H. unfold slice_shape in *. rewrite L in *. unfold w, stepped. set (f := fun q : R * R => fst q + t * snd q).
    rewrite (nth_indep _ 0 (f (0, 0))) by (rewrite map_length, combine_length; lia). rewrite (map_nth f), combine_nth by lia. reflexivity.
  Qed.
  Lemma want_nth t k : (k < length (pres it))%nat -> nth k (wanted it (g t) (w t)) 0 = want k t.
  Proof.
    intros H. unfold wanted, want. destruct (lm it) eqn:L; [apply w_nth; auto|]. set (f := fun x => penalty it * x). rewrite (nth_indep _ 0 (f 0)) by (rewrite map_length, g_len; exact H).
    rewrite (map_nth f), g_nth by exact H. reflexivity.
  Qed.
  Lemma gap_cont k : continuous (fun t : R => gapf s (moved u du t) k) 0.
  Proof. apply (ex_derive_continuous (K := R_AbsRing) (V := R_NormedModule)). eexists. apply (proj1 Hs). Qed.
  (** close to the current point the set of separated dofs does not change *)
  Lemma pres_near k : (k < length (pres it))%nat -> locally 0 (fun t : R => (if active it k then want k t else 0) = nth k (pres (one it (g t) (w t))) 0).
  Proof.
    intros Hk. unfold active. destruct (tied it) as [fx|] eqn:T.
    - apply filter_forall. intros t. unfold one, new_pressure. cbn [with_pressure pres]. assert (Ei : inactive (regap it (g t)) = inactive it) by (unfold inactive; change (tied (regap it (g t))) with (tied it); now rewrite T).
      rewrite Ei. change (lm (regap it (g t))) with (lm it). change (penalty (regap it (g t))) with (penalty it). change (gap (regap it (g t))) with (g t). fold (wanted it (g t) (w t)).
      rewrite zero_at_nth, want_nth by (exact Hk || (unfold wanted; pose proof (w_shape t) as W; unfold slice_shape in W; destruct (lm it); [congruence|rewrite map_length, g_len; exact Hk])). destruct (existsb (Nat.eqb k) (inactive it)); reflexivity.
    - rewrite in_inactive by auto. rewrite Hgap, g_nth by exact Hk. destruct (geb (nth k (pres it) 0) 0) eqn:Ep; cbn [andb].
      + destruct (geb (gapf s (moved u du 0) k) (- tol)) eqn:Eg; cbn [negb].
        * assert (Gt : - tol < gapf s (moved u du 0) k).
          { assert (Ik : In k (inactive it)) by (apply existsb_in; rewrite in_inactive by auto; rewrite Ep, Hgap, g_nth by exact Hk; exact Eg). pose proof (He T k Ik) as Ne. rewrite Hgap, g_nth in Ne by exact Hk. apply geb_true in Eg. lra. }
          generalize (near_gt _ (- tol) (gap_cont k) Gt). apply filter_imp. intros t Ht. rewrite one_nth by (auto; try apply g_len; apply w_shape). unfold pick. rewrite Ep, g_nth by exact Hk.
          assert (geb (gapf s (moved u du t) k) (- tol) = true) as -> by (apply geb_true; lra). reflexivity.
        * apply geb_false in Eg. generalize (near_lt _ (- tol) (gap_cont k) Eg). apply filter_imp. intros t Ht. rewrite one_nth by (auto; try apply g_len; apply w_shape). unfold pick. rewrite Ep, g_nth, want_nth by exact Hk.
          assert (geb (gapf s (moved u du t) k) (- tol) = false) as -> by (apply geb_false; exact Ht). reflexivity.
      + apply filter_forall. intros t. rewrite one_nth by (auto; try apply g_len; apply w_shape). unfold pick. rewrite Ep. cbn [andb negb]. symmetry. apply want_nth. exact Hk.
  Qed.
  Definition want_d (k : nat) : R := if lm it then nth k sd 0 else penalty it * sumn n (fun j => bm s u k j * du j).
  Lemma want_derive k : is_derive (want k) 0 (want_d k).
  Proof.
    unfold want, want_d. destruct (lm it).
    - auto_derive; [exact Logic.I|ring].
    - apply (is_derive_scal (fun t : R => gapf s (moved u du t) k) 0 (penalty it)). apply (proj1 Hs).
  Qed.
  Lemma pres_0 k : (k < length (pres it))%nat -> (if active it k then want k 0 else 0) = nth k (pres it) 0.
  Proof. intros Hk. rewrite <- Hfix at 2. exact (locally_singleton _ _ (pres_near k Hk)). Qed.
  Lemma force_derive i : is_derive (fun t : R => force_of (moved u du t) (one it (g t) (w t), s) i) 0
    (sumn n (fun j => stiff_of u (it, s) i j * du j) + if lm it then sumn (length (pres it)) (fun k => row u (it, s) k i * nth k sd 0) else 0).
  Proof.
    unfold force_of. cbn [fst snd].
    apply (is_derive_ext (fun t : R => sumn (length (pres it)) (fun k => bm s (moved u du t) k i * nth k (pres (one it (g t) (w t))) 0))).
    { intros t. rewrite one_length by (apply g_len || apply w_shape). reflexivity. }
    evar_last.
    - apply (is_derive_sumn (length (pres it)) (fun k t => bm s (moved u du t) k i * nth k (pres (one it (g t) (w t))) 0)
        (fun k => sumn n (fun j => dbm s u k i j * du j) * nth k (pres it) 0 + bm s u k i * if active it k then want_d k else 0)).
      intros k Hk. apply (is_derive_ext_loc (fun t : R => bm s (moved u du t) k i * (if active it k then want k t else 0))).
      { generalize (pres_near k Hk). apply filter_imp. intros t Ht. now rewrite Ht. }
      evar_last.
      + apply (is_derive_mult (fun t : R => bm s (moved u du t) k i) (fun t : R => if active it k then want k t else 0) 0 (sumn n (fun j => dbm s u k i j * du j)) (if active it k then want_d k else 0)).
        * apply (proj2 Hs).
        * destruct (active it k); [apply want_derive|apply (is_derive_const 0 0)].
        * intros a b. apply Rmult_comm.
      + unfold plus, mult; cbn. rewrite (pres_0 k Hk), moved_0. reflexivity.
    - rewrite sumn_plus. unfold stiff_of. cbn [fst snd].
      rewrite (sumn_ext n _ (fun j => sumn (length (pres it)) (fun k => dbm s u k i j * nth k (pres it) 0) * du j +
        (if lm it then 0 else penalty it * sumn (length (pres it)) (fun k => row u (it, s) k i * row u (it, s) k j)) * du j)) by (intros; ring).
      rewrite sumn_plus, Rplus_assoc. f_equal.
      + transitivity (sumn (length (pres it)) (fun k => sumn n (fun j => dbm s u k i j * nth k (pres it) 0 * du j))).
        * apply sumn_ext. intros k _. rewrite <- sumn_scal_r. apply sumn_ext. intros; ring.
        * rewrite sumn_swap. apply sumn_ext. intros j _. now rewrite <- sumn_scal_r.
      + unfold want_d. destruct (lm it).
        * rewrite (sumn_zero n) by (intros; ring). rewrite Rplus_0_l. apply sumn_ext. intros k _. unfold row. cbn [fst snd]. destruct (active it k); ring.
        * rewrite Rplus_0_r. transitivity (sumn (length (pres it)) (fun k => sumn n (fun j => penalty it * (row u (it, s) k i * row u (it, s) k j) * du j))).
          -- apply sumn_ext. intros k _. unfold row. cbn [fst snd]. destruct (active it k).
             ++ rewrite <- !sumn_scal_l. apply sumn_ext. intros; ring.
             ++ rewrite sumn_zero; [ring|intros; ring].
          -- rewrite sumn_swap. apply sumn_ext. intros j _. rewrite <- sumn_scal_l, <- sumn_scal_r. reflexivity.
  Qed.
  (** the reported gap, zeroed where separated *)
  Lemma gap_derive k : (k < length (pres it))%nat -> lm it = true ->
    is_derive (fun t : R => nth k (zero_at (inactive (one it (g t) (w t))) (g t)) 0) 0 (sumn n (fun j => row u (it, s) k j * du j)).
  Proof.
    intros Hk Hl. assert (L : locally 0 (fun t : R => (if active it k then gapf s (moved u du t) k else 0) = nth k (zero_at (inactive (one it (g t) (w t))) (g t)) 0)).
    { destruct (tied it) as [fx|] eqn:T.
      - apply filter_forall. intros t. rewrite zero_at_nth, g_nth by (rewrite ?g_len; exact Hk). unfold active, inactive. change (tied (one it (g t) (w t))) with (tied it). rewrite T. destruct (existsb (Nat.eqb k) fx); reflexivity.
      - assert (C2 : (0 <= nth k (pres it) 0 /\ - tol < gapf s (moved u du 0) k) \/ gapf s (moved u du 0) k < - tol \/ nth k (pres it) 0 < 0).
        { destruct (geb (nth k (pres it) 0) 0) eqn:Ep; [|apply geb_false in Ep; auto]. destruct (geb (gapf s (moved u du 0) k) (- tol)) eqn:Eg; [|apply geb_false in Eg; auto]. left.
          assert (Ik : In k (inactive it)) by (apply existsb_in; rewrite in_inactive by auto; rewrite Ep, Hgap, g_nth by exact Hk; exact Eg). pose proof (He T k Ik) as Ne. rewrite Hgap, g_nth in Ne by exact Hk.
          apply geb_true in Eg. apply geb_true in Ep. lra. }
        assert (A : active it k = negb (geb (nth k (pres it) 0) 0 && geb (gapf s (moved u du 0) k) (- tol))%bool) by (unfold active; rewrite in_inactive by auto; now rewrite Hgap, g_nth).
        assert (One : forall t, existsb (Nat.eqb k) (inactive (one it (g t) (w t))) = (geb (nth k (pres (one it (g t) (w t))) 0) 0 && geb (gapf s (moved u du t) k) (- tol))%bool).
        { intros t. rewrite in_inactive; [|exact T|rewrite one_length; [exact Hk|apply g_len|apply w_shape]]. change (gap (one it (g t) (w t))) with (g t). now rewrite g_nth. }
        destruct C2 as [[P G]|[G|P]].
        + assert (A' : active it k = false) by (rewrite A, (proj2 (geb_true _ _) P), (proj2 (geb_true _ _) (Rlt_le _ _ G)); reflexivity). rewrite A'. pose proof (pres_near k Hk) as N. rewrite A' in N.
          generalize (filter_and _ _ N (near_gt _ (- tol) (gap_cont k) G)). apply filter_imp. intros t [N1 N2]. rewrite zero_at_nth by (rewrite g_len; exact Hk).
          rewrite One, <- N1. rewrite (proj2 (geb_true _ _) (Rle_refl 0)), (proj2 (geb_true _ _) (Rlt_le _ _ N2)). reflexivity.
        + assert (A' : active it k = true) by (rewrite A, (proj2 (geb_false _ _) G), andb_false_r; reflexivity). rewrite A'.
          generalize (near_lt _ (- tol) (gap_cont k) G). apply filter_imp. intros t N2. rewrite zero_at_nth, One, g_nth by (rewrite ?g_len; exact Hk). rewrite (proj2 (geb_false _ _) N2), andb_false_r. reflexivity.
        + assert (A' : active it k = true) by (rewrite A, (proj2 (geb_false _ _) P); reflexivity). rewrite A'. pose proof (pres_near k Hk) as N. rewrite A' in N.
          assert (W0 : want k 0 < 0) by (pose proof (pres_0 k Hk) as P0; rewrite A' in P0; lra).
          assert (Cw : continuous (want k) 0) by (apply (ex_derive_continuous (K := R_AbsRing) (V := R_NormedModule)); eexists; apply want_derive).
          generalize (filter_and _ _ N (near_lt _ 0 Cw W0)). apply filter_imp. intros t [N1 N2]. rewrite zero_at_nth, One, g_nth by (rewrite ?g_len; exact Hk). rewrite <- N1, (proj2 (geb_false _ _) N2). reflexivity. }
    apply (is_derive_ext_loc _ _ _ _ L). unfold row. cbn [fst snd]. destruct (active it k); [apply (proj1 Hs)|]. rewrite sumn_zero by (intros; ring). apply (is_derive_const 0 0).
  Qed.
End one.

(** ** all interactions *)
Fixpoint step_slices (sp sd : list (list R)) (t : R) : list (list R) := match sp, sd with a :: sp', b :: sd' => stepped a b t :: step_slices sp' sd' t | _, _ => [] end.
Lemma stepped_app a b c d t : length a = length c -> stepped (a ++ b) (c ++ d) t = stepped a c t ++ stepped b d t.
Proof. revert c. induction a as [|x a IH]; intros [|y c] L; cbn [length] in L; try discriminate; [reflexivity|]. unfold stepped in *. cbn [app combine map]. rewrite IH by lia. reflexivity. Qed.
Lemma step_concat : forall l sp sd t, Forall2 slice_shape l sp -> Forall2 slice_shape l sd -> concat (step_slices sp sd t) = stepped (concat sp) (concat sd) t.
Proof.
  intros l sp sd t H. revert sd. induction H as [|it a l sp Ha H IH]; intros sd D; inversion D as [|? b ? sr Hb Dr]; subst; cbn [step_slices concat]; [reflexivity|]. rewrite (IH sr Dr).
  rewrite stepped_app; [reflexivity|]. unfold slice_shape in *. destruct (lm it); [congruence|now subst].
Qed.
Lemma step_shape : forall l sp sd t, Forall2 slice_shape l sp -> Forall2 slice_shape l sd -> Forall2 slice_shape l (step_slices sp sd t).
Proof.
  intros l sp sd t H. revert sd. induction H as [|it a l sp Ha H IH]; intros sd D; inversion D as [|? b ? sr Hb Dr]; subst; cbn [step_slices]; constructor; [|apply IH; assumption].
  unfold slice_shape, stepped in *. destruct (lm it); [|now subst]. rewrite map_length, combine_length. lia.
Qed.
Lemma rows_dot : forall l geo u sd i, length l = length geo -> Forall2 slice_shape l sd ->
  suml (combine (rows l geo u) (concat sd)) (fun q => fst q i * snd q) =
  suml (combine (combine l geo) sd) (fun q => if lm (fst (fst q)) then sumn (length (pres (fst (fst q)))) (fun k => row u (fst q) k i * nth k (snd q) 0) else 0).
Proof.
  intros l geo u sd i L H. revert geo L. induction H as [|it a l sd Ha H IH]; intros [|s geo] L; cbn [length] in L; try discriminate; [reflexivity|]. unfold rows in *. cbn [combine flat_map concat suml fst snd].
  rewrite <- (IH geo) by lia. unfold slice_shape in Ha. destruct (lm it) eqn:E.
  - assert (Lr : length (map (row u (it, s)) (seq 0 (length (pres it)))) = length a) by (rewrite map_length, seq_length; congruence).
    rewrite combine_app' by exact Lr. rewrite suml_app. f_equal. rewrite <- suml_seq. rewrite <- Ha. clear.
    assert (G : forall (b pre : list R), suml (combine (map (row u (it, s)) (seq (length pre) (length b))) b) (fun q => fst q i * snd q) = suml (seq (length pre) (length b)) (fun k => row u (it, s) k i * nth k (pre ++ b) 0)).
    { induction b as [|x b IH]; intros pre; [reflexivity|]. cbn [length seq map combine suml fst snd]. rewrite app_nth2, Nat.sub_diag by lia. cbn [nth]. f_equal. specialize (IH (pre ++ [x])). rewrite app_length in IH. cbn [length] in IH. rewrite Nat.add_1_r, <- app_assoc in IH. exact IH. }
    exact (G a []).
  - subst a. cbn [app]. rewrite Rplus_0_l. reflexivity.
Qed.
Lemma all_forces_derive n u du i : forall l geo sp sd, length l = length geo -> Forall2 slice_shape l sp -> Forall2 slice_shape l sd -> List.Forall (fun s => smooth n s u du) geo -> List.Forall off_edge l ->
  map gap l = gaps_at l geo u -> all l (gaps_at l geo u) (step_slices sp sd 0) = l ->
  is_derive (fun t : R => forces (all l (gaps_at l geo (moved u du t)) (step_slices sp sd t)) geo (moved u du t) i) 0
    (sumn n (fun j => suml (combine l geo) (fun p => stiff_of u p i j) * du j) +
     suml (combine (combine l geo) sd) (fun q => if lm (fst (fst q)) then sumn (length (pres (fst (fst q)))) (fun k => row u (fst q) k i * nth k (snd q) 0) else 0)).
Proof.
  intros l geo sp sd L Hp. revert geo sd L. induction Hp as [|it a l sp Ha Hp IH]; intros [|s geo] sd L Hd Hs He Hg Hf; cbn [length] in L; try discriminate; inversion Hd as [|? b ? sr Hb Hr]; subst.
  - cbn [all forces combine suml]. evar_last; [apply (is_derive_const 0 0)|]. unfold zero; cbn. rewrite sumn_zero by (intros; ring). ring.
  - cbn [gaps_at map step_slices all] in Hg, Hf. pose proof (f_equal (hd []) Hg) as Hg1. pose proof (f_equal (@tl _) Hg) as Hg2. pose proof (f_equal (hd it) Hf) as Hf1. pose proof (f_equal (@tl _) Hf) as Hf2. cbn [hd tl] in Hg1, Hg2, Hf1, Hf2. inversion Hs as [|? ? Hs1 Hs2]; subst. inversion He as [|? ? He1 He2]; subst.
    apply (is_derive_ext (fun t : R => force_of (moved u du t) (one it (map (gapf s (moved u du t)) (seq 0 (length (pres it)))) (stepped a b t), s) i +
      forces (all l (gaps_at l geo (moved u du t)) (step_slices sp sr t)) geo (moved u du t) i)); [reflexivity|].
    evar_last.
    + apply (is_derive_plus (K := R_AbsRing) (V := R_NormedModule)).
      * apply (force_derive n it s u du a b); auto; rewrite moved_0; auto.
      * apply IH; [lia|assumption|assumption|assumption|exact Hg2|exact Hf2].
    + unfold plus; cbn. cbn [combine suml fst snd].
      rewrite (sumn_ext n (fun j => (stiff_of u (it, s) i j + suml (combine l geo) (fun p => stiff_of u p i j)) * du j) (fun j => stiff_of u (it, s) i j * du j + suml (combine l geo) (fun p => stiff_of u p i j) * du j)) by (intros; ring).
      rewrite sumn_plus. ring.
Qed.
(** ** the Jacobian is the derivative of the next evaluation *)
Theorem jacobian_top n (internal : (nat -> R) -> nat -> R) (K : nat -> nat -> R) geo c u p du dp i :
  reachable c -> length (its c) = length geo -> length p = npd c -> length dp = npd c ->
  (exists c', eval_contact c (gaps_at (its c) geo u) p = Some c' /\ its c' = its c) ->
  List.Forall off_edge (its c) -> List.Forall (fun s => smooth n s u du) geo ->
  is_derive (fun t : R => internal (moved u du t) i) 0 (sumn n (fun j => K i j * du j)) ->
  exists f, is_derive f 0 (J_top n K (its c) geo u du dp i) /\
    forall t, exists c', eval_contact c (gaps_at (its c) geo (moved u du t)) (stepped p dp t) = Some c' /\ f t = internal (moved u du t) i + forces (its c') geo (moved u du t) i.
Proof.
  intros Hr L Lp Ld [c' [E I]] He Hs Hi. pose proof (gaps_fits (its c) geo u L) as F.
  destruct (eval_its c _ p Hr F Lp) as [sp [c1 [Sp [Cp [E1 [I1 [R1 N1]]]]]]]. rewrite E in E1. injection E1 as <-.
  destruct (eval_its c _ dp Hr F Ld) as [sd [c2 [Sd [Cd _]]]].
  exists (fun t => internal (moved u du t) i + forces (all (its c) (gaps_at (its c) geo (moved u du t)) (step_slices sp sd t)) geo (moved u du t) i). split.
  - unfold J_top, stiffness. evar_last.
    + apply (is_derive_plus (K := R_AbsRing) (V := R_NormedModule)); [exact Hi|]. apply (all_forces_derive n u du i (its c) geo sp sd); [exact L|exact Sp|exact Sd|exact Hs|exact He| |].
      * transitivity (map gap (its c')); [now rewrite I|]. rewrite I1. apply all_gaps; [exact F|exact Sp].
      * assert (Z : step_slices sp sd 0 = sp).
        { clear - Sp Sd. revert sd Sd. induction Sp as [|it a l sp Ha H IH]; intros sd D; inversion D as [|? b ? sr Hb Dr]; subst; cbn [step_slices]; [reflexivity|]. rewrite (IH sr Dr). f_equal.
          unfold stepped, slice_shape in *. assert (Lab : length a = length b) by (destruct (lm it); [congruence|now subst]). clear - Lab. revert b Lab. induction a as [|x a IH]; intros [|y b] L; cbn [length] in L; try discriminate; [reflexivity|]. cbn [combine map fst snd]. rewrite IH by lia. f_equal. ring. }
        rewrite Z, <- I1. exact I.
    + unfold plus; cbn. rewrite <- Cd, rows_dot by assumption.
      rewrite (sumn_ext n (fun j => (K i j + suml (combine (its c) geo) (fun p0 => stiff_of u p0 i j)) * du j) (fun j => K i j * du j + suml (combine (its c) geo) (fun p0 => stiff_of u p0 i j) * du j)) by (intros; ring).
      rewrite sumn_plus. ring.
  - intros t. pose proof (gaps_fits (its c) geo (moved u du t) L) as Ft.
    assert (Lt : length (stepped p dp t) = npd c) by (unfold stepped; rewrite map_length, combine_length; lia).
    destruct (eval_its c _ (stepped p dp t) Hr Ft Lt) as [st [ct [St [Ct [Et [It _]]]]]]. exists ct. split; [exact Et|].
    assert (st = step_slices sp sd t) by (apply (slices_unique (its c)); [exact St|apply step_shape; assumption|rewrite (step_concat (its c)) by assumption; congruence]). subst st. rewrite It. reflexivity.
Qed.
(** the pressure block: interaction number i, dof k *)
Definition no_interaction : interaction := {| lm := false; penalty := 0; tied := None; pres := []; gap := [] |}.
Definition no_surface : surface := {| gapf := fun _ _ => 0; bm := fun _ _ _ => 0; dbm := fun _ _ _ _ => 0 |}.
Lemma all_gap_derive n u du : forall l geo sp sd i k, length l = length geo -> Forall2 slice_shape l sp -> Forall2 slice_shape l sd -> List.Forall (fun s => smooth n s u du) geo -> List.Forall off_edge l ->
  map gap l = gaps_at l geo u -> all l (gaps_at l geo u) (step_slices sp sd 0) = l -> (i < length l)%nat -> lm (nth i l no_interaction) = true -> (k < length (pres (nth i l no_interaction)))%nat ->
  is_derive (fun t : R => let it' := nth i (all l (gaps_at l geo (moved u du t)) (step_slices sp sd t)) no_interaction in nth k (zero_at (inactive it') (gap it')) 0) 0
    (sumn n (fun j => row u (nth i l no_interaction, nth i geo no_surface) k j * du j)).
Proof.
  intros l geo sp sd i k L Hp. revert geo sd i L. induction Hp as [|it a l sp Ha Hp IH]; intros [|s geo] sd i L Hd Hs He Hg Hf Hi Hl Hk; cbn [length] in L, Hi; try discriminate; try lia; inversion Hd as [|? b ? sr Hb Hr]; subst.
  cbn [gaps_at map step_slices all] in Hg, Hf. pose proof (f_equal (hd []) Hg) as Hg1. pose proof (f_equal (@tl _) Hg) as Hg2. pose proof (f_equal (hd it) Hf) as Hf1. pose proof (f_equal (@tl _) Hf) as Hf2. cbn [hd tl] in Hg1, Hg2, Hf1, Hf2.
  inversion Hs as [|? ? Hs1 Hs2]; subst. inversion He as [|? ? He1 He2]; subst. destruct i as [|i].
  - cbn [nth] in Hl, Hk |- *. cbn [gaps_at step_slices all nth].
    apply (is_derive_ext (fun t : R => nth k (zero_at (inactive (one it (map (gapf s (moved u du t)) (seq 0 (length (pres it)))) (stepped a b t))) (map (gapf s (moved u du t)) (seq 0 (length (pres it))))) 0)); [reflexivity|].
    apply (gap_derive n it s u du a b); auto; rewrite moved_0; auto.
  - cbn [nth] in Hl, Hk |- *. apply (is_derive_ext (fun t : R => let it' := nth i (all l (gaps_at l geo (moved u du t)) (step_slices sp sr t)) no_interaction in nth k (zero_at (inactive it') (gap it')) 0)); [reflexivity|].
    apply IH; auto; lia.
Qed.
Lemma zero_slices : forall l sp sd, Forall2 slice_shape l sp -> Forall2 slice_shape l sd -> step_slices sp sd 0 = sp.
Proof.
  intros l sp sd Sp. revert sd. induction Sp as [|it a l sp Ha H IH]; intros sd D; inversion D as [|? b ? sr Hb Dr]; subst; cbn [step_slices]; [reflexivity|]. rewrite (IH sr Dr). f_equal.
  unfold stepped, slice_shape in *. assert (Lab : length a = length b) by (destruct (lm it); [congruence|now subst]). clear - Lab. revert b Lab. induction a as [|x a IH]; intros [|y b] L; cbn [length] in L; try discriminate; [reflexivity|]. cbn [combine map fst snd]. rewrite IH by lia. f_equal. ring.
Qed.
Theorem jacobian_bottom n geo c u p du dp i k :
  reachable c -> length (its c) = length geo -> length p = npd c -> length dp = npd c ->
  (exists c', eval_contact c (gaps_at (its c) geo u) p = Some c' /\ its c' = its c) ->
  List.Forall off_edge (its c) -> List.Forall (fun s => smooth n s u du) geo ->
  (i < length (its c))%nat -> lm (nth i (its c) no_interaction) = true -> (k < length (pres (nth i (its c) no_interaction)))%nat ->
  exists f, is_derive f 0 (sumn n (fun j => row u (nth i (its c) no_interaction, nth i geo no_surface) k j * du j)) /\
    forall t, exists c', eval_contact c (gaps_at (its c) geo (moved u du t)) (stepped p dp t) = Some c' /\
      f t = nth k (zero_at (inactive (nth i (its c') no_interaction)) (gap (nth i (its c') no_interaction))) 0.
Proof.
  intros Hr L Lp Ld [c' [E I]] He Hs Hi Hl Hk. pose proof (gaps_fits (its c) geo u L) as F.
  destruct (eval_its c _ p Hr F Lp) as [sp [c1 [Sp [Cp [E1 [I1 [R1 N1]]]]]]]. rewrite E in E1. injection E1 as <-.
  destruct (eval_its c _ dp Hr F Ld) as [sd [c2 [Sd [Cd _]]]].
  eexists. split.
  - apply (all_gap_derive n u du (its c) geo sp sd i k); [exact L|exact Sp|exact Sd|exact Hs|exact He| | |exact Hi|exact Hl|exact Hk].
    + transitivity (map gap (its c')); [now rewrite I|]. rewrite I1. apply all_gaps; [exact F|exact Sp].
    + rewrite (zero_slices (its c)) by assumption. rewrite <- I1. exact I.
  - intros t. pose proof (gaps_fits (its c) geo (moved u du t) L) as Ft.
    assert (Lt : length (stepped p dp t) = npd c) by (unfold stepped; rewrite map_length, combine_length; lia).
    destruct (eval_its c _ (stepped p dp t) Hr Ft Lt) as [st [ct [St [Ct [Et [It _]]]]]]. exists ct. split; [exact Et|].
    assert (st = step_slices sp sd t) by (apply (slices_unique (its c)); [exact St|apply step_shape; assumption|rewrite (step_concat (its c)) by assumption; congruence]). subst st. rewrite It. reflexivity.
Qed.

(** ** corrections *)
Lemma inactive_rows : forall l geo u o r j, List.Forall proper l -> length l = length geo ->
  In r (flat_map (fun p => if lm (fst p) then map (fun d => (d + snd p)%nat) (inactive (fst p)) else []) (combine l (offsets_from o l))) ->
  (o <= r)%nat /\ nth (r - o) (rows l geo u) (fun _ => 0) j = 0.
Proof.
  unfold rows. induction l as [|it l IH]; intros [|s geo] u o r j P L H; cbn [length] in L; try discriminate; [destruct H|]. inversion P as [|? ? P1 P2]; subst. cbn [offsets_from combine flat_map fst snd] in H |- *. apply in_app_or in H. destruct H as [H|H].
  - destruct (lm it) eqn:E; [|destruct H]. apply in_map_iff in H. destruct H as [d [<- Hd]]. split; [lia|]. replace (d + o - o)%nat with d by lia. pose proof (inactive_bound it P1 d Hd) as B.
    rewrite app_nth1 by (rewrite map_length, seq_length; exact B). rewrite (nth_indep _ _ (row u (it, s) 0%nat)) by (rewrite map_length, seq_length; exact B). rewrite map_nth, seq_nth by exact B.
    unfold row, active. cbn [fst]. rewrite (proj2 (existsb_in (0 + d) (inactive it))) by exact Hd. reflexivity.
  - destruct (IH geo u (o + ndof it)%nat r j P2 ltac:(lia) H) as [H1 H2]. split; [lia|]. etransitivity; [|exact H2]. clear H2. unfold ndof in *. destruct (lm it).
    + rewrite app_nth2; rewrite map_length, seq_length; [|lia]. replace (r - (o + length (pres it)))%nat with (r - o - length (pres it))%nat by lia. reflexivity.
    + cbn [app]. rewrite Nat.add_0_r. reflexivity.
Qed.
Theorem correction n ess K geo c m u du dp r g :
  reachable c -> List.Forall (fun it => lm it = true) (its c) -> List.Forall sorted_tied (its c) -> length (its c) = length geo -> identity_block c = Some m ->
  (forall i, (i < n)%nat -> ess i = true -> r i = 0) -> (forall q, In q (inactive_positions c) -> g q = 0) ->
  (forall i, (i < n)%nat -> elim_top n ess K (its c) geo u du dp i = r i) -> (forall q, (q < npd c)%nat -> elim_bottom n ess (its c) geo m u du dp q = g q) ->
  (forall i, (i < n)%nat -> ess i = true -> du i = 0) /\
  (forall q, In q (inactive_positions c) -> nth q dp 0 = 0) /\
  (forall i, (i < n)%nat -> ess i = false -> J_top n K (its c) geo u du dp i = r i) /\
  (forall q, (q < npd c)%nat -> J_bottom n (its c) geo m u du dp q = g q).
Proof.
  intros Hr A S L Em Hz Hg Ht Hb. assert (D : forall i, (i < n)%nat -> ess i = true -> du i = 0).
  { intros i Hi He. specialize (Ht i Hi). unfold elim_top in Ht. rewrite He in Ht. rewrite Ht. apply Hz; assumption. }
  assert (B : forall q, (q < npd c)%nat -> J_bottom n (its c) geo m u du dp q = g q).
  { intros q Hq. rewrite <- (Hb q Hq). unfold J_bottom, elim_bottom. f_equal. apply sumn_ext. intros j Hj. destruct (ess j) eqn:Ej; [rewrite (D j Hj Ej); ring|reflexivity]. }
  split; [exact D|]. split; [|split; [|exact B]].
  - intros q Hq. pose proof (reachable_inv c Hr) as I. destruct (positions_sorted (its c) 0 (i_proper _ I) S) as [_ Bd]. pose proof (Bd q Hq) as Hq2. cbn [Nat.add] in Hq2. rewrite <- (i_npd _ I) in Hq2.
    destruct (identity_ok c Hr A S) as [m' [Em' Hm]]. rewrite Em in Em'. injection Em' as <-. specialize (B q Hq2). rewrite (Hg q Hq) in B. unfold J_bottom in B. rewrite Hm in B by exact Hq2.
    rewrite (proj2 (existsb_in q _) Hq) in B. cbn [suml] in B. rewrite sumn_zero in B; [lra|]. intros j Hj.
    destruct (inactive_rows (its c) geo u 0 q j (i_proper _ I) L Hq) as [_ Z]. rewrite Nat.sub_0_r in Z. rewrite Z. ring.
  - intros i Hi He. rewrite <- (Ht i Hi). unfold J_top, elim_top. rewrite He. f_equal. apply sumn_ext. intros j Hj. destruct (ess j) eqn:Ej; [rewrite (D j Hj Ej); ring|reflexivity].
Qed.

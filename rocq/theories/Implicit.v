(** * Solutions which depend continuously on a parameter depend differentiably on it (for C74, C77, C78)

    Mathematics only: the equations have derivatives along curves, and their derivative by the unknowns has no kernel. *)
From Coq Require Import Reals Lra Lia Bool List ConstructiveEpsilon Cantor FunctionalExtensionality.
From Coquelicot Require Import Coquelicot.
From Verif Require Import Sums Tensor MatAlg BoundaryElim Adjoint AdjointDeriv.
Import ListNotations.
Local Open Scope R_scope.

(** ** choosing natural numbers and fractions *)
Lemma choose_nat (P : nat -> nat -> Prop) : (forall k p, {P k p} + {~ P k p}) -> (forall k, exists p, P k p) -> exists f, forall k, P k (f k).
Proof. intros D H. exists (fun k => proj1_sig (constructive_indefinite_ground_description_nat (P k) (D k) (H k))). intros k. apply proj2_sig. Qed.
Definition fraction (m : nat) : R := let '(ab, c) := of_nat m in let '(a, b) := of_nat ab in (INR a - INR b) / INR (S c).
Lemma fraction_dense x d : 0 < d -> exists m, Rabs (fraction m - x) < d.
Proof.
  intros Hd. destruct (nfloor_ex (/ d)) as [c Hc]. { apply Rlt_le, Rinv_0_lt_compat, Hd. }
  assert (HS : 0 < INR (S c)) by (apply lt_0_INR; lia). assert (Hc1 : / d < INR (S c)) by (rewrite S_INR; lra).
  assert (Hi : / INR (S c) < d). { rewrite <- (Rinv_inv d). apply Rinv_lt_contravar; [|exact Hc1]. apply Rmult_lt_0_compat; [apply Rinv_0_lt_compat, Hd|exact HS]. }
  destruct (archimed (x * INR (S c))) as [A1 A2]. set (z := up (x * INR (S c))) in *.
  exists (to_nat (to_nat (Z.to_nat z, Z.to_nat (- z)), c)). unfold fraction. rewrite !cancel_of_to. cbv zeta iota.
  replace (INR (Z.to_nat z) - INR (Z.to_nat (- z))) with (IZR z).
  2:{ rewrite !INR_IZR_INZ, <- minus_IZR. f_equal. lia. }
  replace (IZR z / INR (S c) - x) with ((IZR z - x * INR (S c)) * / INR (S c)) by (field; lra).
  rewrite Rabs_mult, (Rabs_right (/ INR (S c))) by (apply Rle_ge, Rlt_le, Rinv_0_lt_compat, HS).
  apply Rle_lt_trans with (1 * / INR (S c)); [|lra]. apply Rmult_le_compat_r; [apply Rlt_le, Rinv_0_lt_compat, HS|]. apply Rabs_le. lra.
Qed.

(** ** convergent subsequences *)
Lemma one_limit (a : nat -> R) B : (forall k, Rabs (a k) <= B) -> exists f (l : R), (forall k, (k <= f k)%nat) /\ is_lim_seq (fun k => a (f k)) l /\ Rabs l <= B.
Proof.
  intros H. destruct (ex_LimSup_seq a) as [l Hl]. 
  assert (F : exists l' : R, l = Finite l').
  { destruct l as [l| |]; [now exists l| |]; exfalso; cbn in Hl.
    - destruct (Hl B 0%nat) as (n & _ & Hn). specialize (H n). apply Rabs_le_between in H. lra.
    - destruct (Hl (- B)) as (N & HN). specialize (HN N (Nat.le_refl N)). specialize (H N). apply Rabs_le_between in H. lra. }
  destruct F as [l' ->]. cbn in Hl.
  destruct (choose_nat (fun k p => (k <= p)%nat /\ Rabs (a p - l') < / INR (S k))) as [f Hf].
  - intros k p. destruct (le_dec k p); [|right; tauto]. destruct (Rlt_dec (Rabs (a p - l')) (/ INR (S k))); [left|right]; tauto.
  - intros k. assert (He : 0 < / INR (S k)) by (apply Rinv_0_lt_compat, lt_0_INR; lia). generalize dependent (/ INR (S k)). intros e He. destruct (Hl (mkposreal e He)) as [H1 [N HN]]. cbn in H1, HN.
    destruct (H1 (Nat.max k N)) as (p & Hp & Hl1). exists p. split; [lia|]. specialize (HN p ltac:(lia)). apply Rabs_def1; lra.
  - assert (L : is_lim_seq (fun k => a (f k)) l').
    { apply is_lim_seq_spec. intros eps. cbn. destruct (nfloor_ex (/ eps)) as [N HN]. { apply Rlt_le, Rinv_0_lt_compat, cond_pos. }
      exists N. intros k Hk. destruct (Hf k) as [_ Hk2]. eapply Rlt_trans; [exact Hk2|]. rewrite <- (Rinv_inv eps).
      assert (HN1 : / eps < INR (S k)). { apply Rlt_le_trans with (INR (S N)); [rewrite S_INR; lra|]. apply le_INR. lia. }
      apply Rinv_lt_contravar; [|exact HN1]. apply Rmult_lt_0_compat; [apply Rinv_0_lt_compat, cond_pos|]. eapply Rlt_trans; [|exact HN1]. apply Rinv_0_lt_compat, cond_pos. }
    exists f, l'. split; [apply Hf|]. split; [exact L|].
    apply (is_lim_seq_le (fun k => Rabs (a (f k))) (fun _ => B) (Rabs l') B); [intros; apply H| |apply is_lim_seq_const]. now apply (is_lim_seq_abs _ (Finite l')).
Qed.
Lemma later_limit (a : nat -> R) (l : Rbar) f : (forall k, (k <= f k)%nat) -> is_lim_seq a l -> is_lim_seq (fun k => a (f k)) l.
Proof. intros H L. apply (is_lim_seq_subseq a l f); [|exact L]. intros P [N HN]. exists N. intros k Hk. apply HN. specialize (H k). lia. Qed.
Lemma all_limits n (e : nat -> vec) B : (forall k i, (i < n)%nat -> Rabs (e k i) <= B) -> exists f (d : vec), (forall k, (k <= f k)%nat) /\ forall i, (i < n)%nat -> is_lim_seq (fun k => e (f k) i) (d i).
Proof.
  induction n as [|n IH]; intros H; [exists (fun k => k), vz; split; [auto|intros; lia]|].
  destruct IH as (f & d & Hf & L); [intros; apply H; lia|].
  destruct (one_limit (fun k => e (f k) n) B) as (g & l & Hg & Ll & _); [intros; apply H; lia|].
  exists (fun k => f (g k)), (fun i => if Nat.eqb i n then l else d i). split; [intros k; specialize (Hg k); specialize (Hf (g k)); lia|].
  intros i Hi. destruct (Nat.eqb_spec i n) as [-> | N]; [exact Ll|]. apply (later_limit (fun k => e (f k) i) (d i) g Hg). apply L. lia.
Qed.

(** ** functions put together from the members of a sequence and a straight line *)
Lemma limit_eps (a : nat -> R) (l : R) : is_lim_seq a l -> forall eps, 0 < eps -> exists N, forall k, (N <= k)%nat -> Rabs (a k - l) < eps.
Proof. intros H eps He. apply is_lim_seq_spec in H. exact (H (mkposreal eps He)). Qed.
Lemma eps_limit (a : nat -> R) (l : R) : (forall eps, 0 < eps -> exists N, forall k, (N <= k)%nat -> Rabs (a k - l) < eps) -> is_lim_seq a l.
Proof. intros H. apply is_lim_seq_spec. intros [eps He]. exact (H eps He). Qed.
Lemma away (t : nat -> R) N : (forall k, t k <> 0) -> exists m, 0 < m /\ forall k, (k < N)%nat -> m <= Rabs (t k).
Proof.
  intros H. induction N as [|N (m & Hm & IH)]; [exists 1; split; [lra|intros; lia]|]. exists (Rmin m (Rabs (t N))). split.
  - apply Rmin_pos; [exact Hm|apply Rabs_pos_lt, H].
  - intros k Hk. destruct (Nat.eq_dec k N) as [-> | Ne]; [apply Rmin_r|]. eapply Rle_trans; [apply Rmin_l|apply IH; lia].
Qed.
Lemma picking (t : nat -> R) : exists pick : R -> option nat, forall s, match pick s with Some k => s = t k | None => forall k, s <> t k end.
Proof.
  exists (fun s => match LPO (fun k => s = t k) (fun k => match Req_EM_T s (t k) with left e => or_introl e | right e => or_intror e end) with inleft (exist k _) => Some k | inright _ => None end).
  intros s. destruct (LPO _ _) as [[k Hk]|H]; [exact Hk|exact H].
Qed.
Section Stitch.
Variable t : nat -> R.
Hypothesis Ht : forall k, t k <> 0.
Hypothesis Lt : is_lim_seq t 0.
Variable pick : R -> option nat.
Hypothesis Hp : forall s, match pick s with Some k => s = t k | None => forall k, s <> t k end.
Definition stitch (y0 d : R) (Y : nat -> R) (s : R) : R := match pick s with Some k => Y k | None => y0 + s * d end.
Lemma stitch_0 y0 d Y : stitch y0 d Y 0 = y0.
Proof. unfold stitch. specialize (Hp 0). destruct (pick 0) as [k|]; [symmetry in Hp; now apply Ht in Hp|ring]. Qed.
Lemma stitch_derive (y0 d : R) Y : is_lim_seq (fun k => (Y k - y0) / t k) d -> is_derive (stitch y0 d Y) 0 d.
Proof.
  intros L. apply is_derive_Reals. intros eps He. destruct (limit_eps _ _ L eps He) as [N HN]. destruct (away t N Ht) as (m & Hm & Hk).
  exists (mkposreal m Hm). intros h Hh Hs. cbn in Hs. rewrite Rplus_0_l, stitch_0. unfold stitch. specialize (Hp h). destruct (pick h) as [k|].
  - subst h. destruct (le_lt_dec N k) as [G|G]; [now apply HN|]. specialize (Hk k G). lra.
  - replace ((y0 + h * d - y0) / h - d) with 0 by (field; exact Hh). rewrite Rabs_R0. exact He.
Qed.
(** a function which vanishes at the members chosen late has no slope *)
Lemma flat (h : R -> R) c : is_derive h 0 c -> h 0 = 0 -> (exists N, forall s k, pick s = Some k -> (N <= k)%nat -> h s = 0) -> c = 0.
Proof.
  intros D H0 [N HN]. destruct (Req_dec c 0) as [E|E]; [exact E|exfalso]. apply is_derive_Reals in D.
  destruct (D (Rabs c) (Rabs_pos_lt c E)) as [dl Hd]. destruct (away t N Ht) as (m & Hm & Hk).
  destruct (limit_eps t 0 Lt (Rmin dl m)) as [K HK]; [apply Rmin_pos; [apply cond_pos|exact Hm]|]. specialize (HK K (Nat.le_refl K)). rewrite Rminus_0_r in HK.
  specialize (Hd (t K) (Ht K) (Rlt_le_trans _ _ _ HK (Rmin_l _ _))). rewrite Rplus_0_l, H0 in Hd.
  assert (Z : h (t K) = 0).
  { specialize (Hp (t K)). destruct (pick (t K)) as [j|] eqn:P; [|now specialize (Hp K)]. apply (HN _ _ P). destruct (le_lt_dec N j) as [G|G]; [exact G|].
    specialize (Hk j G). rewrite <- Hp in Hk. pose proof (Rmin_r dl m). lra. }
  rewrite Z in Hd. replace ((0 - 0) / t K - c) with (- c) in Hd by (field; apply Ht). rewrite Rabs_Ropp in Hd. lra.
Qed.
End Stitch.

(** ** either an inequality holds near zero for one of the numbers, or it fails along a sequence *)
Lemma bad_points (g : nat -> R -> R) : (exists dl, 0 < dl /\ forall k e, Rabs e < dl -> continuous (g k) e) ->
  (exists k, locally 0 (fun e => g k e <= 0)) \/ exists e : nat -> R, forall k, Rabs (e k) < / INR (S k) /\ 0 < g k (e k).
Proof.
  intros (dl & Hdl & Cg).
  pose (P := fun k m => Rabs (fraction m) < / INR (S k) /\ 0 < g k (fraction m)).
  assert (DP : forall k m, P k m \/ ~ P k m).
  { intros k m. unfold P. destruct (Rlt_dec (Rabs (fraction m)) (/ INR (S k))); [|right; tauto]. destruct (Rlt_dec 0 (g k (fraction m))); [left|right]; tauto. }
  destruct (LPO (fun k => forall m, ~ P k m)) as [[k Hk]|H].
  - intros k. destruct (LPO (P k) (DP k)) as [[m Hm]|N]; [right; intros N; exact (N m Hm)|left; exact N].
  - left. exists k. assert (Hi : 0 < / INR (S k)) by (apply Rinv_0_lt_compat, lt_0_INR; lia).
    assert (Hmin : 0 < Rmin dl (/ INR (S k))) by now apply Rmin_pos. exists (mkposreal _ Hmin). intros e He.
    assert (He' : Rabs e < Rmin dl (/ INR (S k))). { change (Rabs (e - 0) < Rmin dl (/ INR (S k))) in He. now rewrite Rminus_0_r in He. }
    apply Rnot_lt_le. intros Pos.
    assert (Cc := Cg k e (Rlt_le_trans _ _ _ He' (Rmin_l _ _))).
    destruct (Cc (fun y => 0 < y)) as [d Hd]. { exists (mkposreal _ Pos). intros y Hy. change (Rabs (y - g k e) < g k e) in Hy. apply Rabs_def2 in Hy. lra. }
    assert (Hq : 0 < Rmin d (/ INR (S k) - Rabs e)). { apply Rmin_pos; [apply cond_pos|]. pose proof (Rmin_r dl (/ INR (S k))). lra. }
    destruct (fraction_dense e _ Hq) as [m Hm]. apply (Hk m). split.
    + replace (fraction m) with (fraction m - e + e) by ring. eapply Rle_lt_trans; [apply Rabs_triang|]. pose proof (Rmin_r d (/ INR (S k) - Rabs e)). lra.
    + apply Hd. change (Rabs (fraction m - e) < d). eapply Rlt_le_trans; [exact Hm|apply Rmin_l].
  - right. assert (E : forall k, exists m, P k m).
    { intros k. destruct (LPO (P k) (DP k)) as [[m Hm]|N]; [now exists m|]. destruct (H k N). }
    destruct (choose_nat P) as [f Hf]; [|exact E|].
    + intros k m. unfold P. destruct (Rlt_dec (Rabs (fraction m)) (/ INR (S k))); [|right; tauto]. destruct (Rlt_dec 0 (g k (fraction m))); [left|right]; tauto.
    + exists (fun k => fraction (f k)). exact Hf.
Qed.

Lemma limit_sum n (a : nat -> nat -> R) (l : nat -> R) : (forall i, (i < n)%nat -> is_lim_seq (fun k => a k i) (l i)) -> is_lim_seq (fun k => sumn n (a k)) (sumn n l).
Proof.
  induction n as [|n IH]; intros H; cbn [sumn]; [apply is_lim_seq_const|].
  apply (is_lim_seq_plus' (fun k => sumn n (a k)) (fun k => a k n) (sumn n l) (l n)); [apply IH; intros; apply H; lia|apply H; lia].
Qed.
Lemma inv_limit : is_lim_seq (fun k => / INR (S k)) 0.
Proof.
  apply eps_limit. intros eps He. destruct (nfloor_ex (/ eps)) as [N HN]. { apply Rlt_le, Rinv_0_lt_compat, He. } exists N. intros k Hk.
  assert (HN1 : / eps < INR (S k)). { apply Rlt_le_trans with (INR (S N)); [rewrite S_INR; lra|]. apply le_INR. lia. }
  assert (Hi : 0 < / eps) by now apply Rinv_0_lt_compat.
  rewrite Rminus_0_r, Rabs_right by (apply Rle_ge, Rlt_le, Rinv_0_lt_compat; lra). rewrite <- (Rinv_inv eps). apply Rinv_lt_contravar; [|exact HN1]. apply Rmult_lt_0_compat; lra.
Qed.
Lemma squeeze0 (a b : nat -> R) : (forall k, Rabs (a k) <= b k) -> is_lim_seq b 0 -> is_lim_seq a 0.
Proof.
  intros H L. apply eps_limit. intros eps He. destruct (limit_eps b 0 L eps He) as [N HN]. exists N. intros k Hk. specialize (HN k Hk). specialize (H k). rewrite Rminus_0_r in *.
  apply Rabs_def2 in HN. lra.
Qed.
Lemma sum_part n (a : nat -> R) i : (forall j, 0 <= a j) -> (i < n)%nat -> a i <= sumn n a.
Proof.
  intros H. induction n as [|n IH]; intros Hi; [lia|]. cbn [sumn]. destruct (Nat.eq_dec i n) as [-> | N].
  - assert (0 <= sumn n a); [|specialize (H n); lra]. clear -H. induction n as [|n IH]; cbn [sumn]; [lra|]. specialize (H n). lra.
  - specialize (IH ltac:(lia)). specialize (H n). lra.
Qed.

(** ** the solutions of equations *)
Section Implicit.
Variable n : nat.
Variable G : vec -> R -> vec.
Variable x : R -> vec.
Variable K : mat.
Variable g b : vec.
Variable fixed : nat -> bool.
(** the equations have derivatives along every curve through the solution at zero *)
Hypothesis smooth : forall cx d e c, curve n cx d -> starts n cx (x 0) -> is_derive e 0 c -> e 0 = 0 ->
  forall i, (i < n)%nat -> fixed i = false -> is_derive (fun t => G (cx t) (e t) i) 0 (rows n n K d i + c * g i).
Hypothesis near : forall i, (i < n)%nat -> locally 0 (fun e => continuous (fun s => x s i) e).
Hypothesis solves : forall i, (i < n)%nat -> fixed i = false -> locally 0 (fun e => G (x e) e i = 0).
Hypothesis given : forall i, (i < n)%nat -> fixed i = true -> is_derive (fun s => x s i) 0 (b i).
Hypothesis kernel : forall d, (forall i, (i < n)%nat -> fixed i = true -> d i = 0) -> (forall i, (i < n)%nat -> fixed i = false -> rows n n K d i = 0) -> forall i, (i < n)%nat -> d i = 0.

Let dx (i : nat) (e : R) : R := x e i - x 0 i.

(** the limits of the changes of the solution satisfy the linear equations *)
Lemma limits_solve (e t : nat -> R) (d : vec) (c : R) : (forall k, t k <> 0) -> is_lim_seq t 0 -> is_lim_seq (fun k => e k / t k) c ->
  (forall i, (i < n)%nat -> is_lim_seq (fun k => dx i (e k) / t k) (d i)) ->
  (forall i, (i < n)%nat -> fixed i = true -> d i = c * b i) /\ (forall i, (i < n)%nat -> fixed i = false -> rows n n K d i + c * g i = 0).
Proof.
  intros Ht Lt Le Ld. destruct (picking t) as [pick Hp].
  assert (L0 : is_lim_seq e 0).
  { apply is_lim_seq_ext with (fun k => t k * (e k / t k)); [intros k; field; apply Ht|]. replace 0 with (0 * c) by ring. now apply is_lim_seq_mult'. }
  set (cx := fun s i => stitch pick (x 0 i) (d i) (fun k => x (e k) i) s). set (ce := stitch pick 0 c e).
  assert (Cx : curve n cx d) by (intros i Hi; apply (stitch_derive t Ht pick Hp), Ld, Hi).
  assert (Sx : starts n cx (x 0)) by (intros i Hi; apply (stitch_0 t Ht pick Hp)).
  assert (Ce : is_derive ce 0 c). { apply (stitch_derive t Ht pick Hp). apply is_lim_seq_ext with (fun k => e k / t k); [|exact Le]. intros k. now rewrite Rminus_0_r. }
  assert (E0 : ce 0 = 0) by apply (stitch_0 t Ht pick Hp).
  split; intros i Hi Fi.
  - assert (D : is_derive (fun s => cx s i - x (ce s) i) 0 (d i - c * b i)).
    { apply @is_derive_minus; [now apply Cx|]. apply (is_derive_comp (fun s => x s i) ce 0 (b i) c); [rewrite E0; now apply given|exact Ce]. }
    assert (Z : d i - c * b i = 0); [|lra]. apply (flat t Ht Lt pick Hp _ _ D).
    + rewrite E0. unfold cx. rewrite (stitch_0 t Ht pick Hp). ring.
    + exists 0%nat. intros s k P _. unfold cx, ce, stitch. rewrite P. ring.
  - apply (flat t Ht Lt pick Hp _ _ (smooth cx d ce c Cx Sx Ce E0 i Hi Fi)).
    + destruct (solves i Hi Fi) as [dl Hd]. replace (cx 0) with (x 0); [rewrite E0; apply Hd, ball_center|].
      apply functional_extensionality. intros j. symmetry. apply (stitch_0 t Ht pick Hp).
    + destruct (solves i Hi Fi) as [dl Hd]. destruct (limit_eps e 0 L0 dl (cond_pos dl)) as [N HN]. exists N. intros s k P Hk. unfold cx, ce, stitch. rewrite P.
      apply (Hd (e k)). exact (HN k Hk).
Qed.

Lemma all_near : exists dl, 0 < dl /\ forall i e, (i < n)%nat -> Rabs e < dl -> continuous (fun s => x s i) e.
Proof.
  clear -near. induction n as [|m IH]; [exists 1; split; [lra|intros; lia]|]. destruct IH as (d1 & P1 & H1); [intros; apply near; lia|]. destruct (near m ltac:(lia)) as [d2 H2].
  exists (Rmin d1 d2). split; [apply Rmin_pos; [exact P1|apply cond_pos]|]. intros i e Hi He. destruct (Nat.eq_dec i m) as [-> | N].
  - apply H2. change (Rabs (e - 0) < d2). rewrite Rminus_0_r. eapply Rlt_le_trans; [exact He|apply Rmin_r].
  - apply H1; [lia|]. eapply Rlt_le_trans; [exact He|apply Rmin_l].
Qed.
Lemma dx_continuous i e : continuous (fun s => x s i) e -> continuous (dx i) e.
Proof. intros H. apply (continuous_minus (fun s => x s i) (fun _ => x 0 i)); [exact H|apply continuous_const]. Qed.
Lemma dx_limit (e : nat -> R) i : (i < n)%nat -> is_lim_seq e 0 -> is_lim_seq (fun k => dx i (e k)) 0.
Proof.
  intros Hi L. destruct all_near as (dl & Hdl & C). assert (C0 := dx_continuous i 0 (C i 0 Hi ltac:(rewrite Rabs_R0; exact Hdl))).
  apply continuity_pt_filterlim in C0. replace 0 with (dx i 0) at 1 by (unfold dx; ring). exact (is_lim_seq_continuous (dx i) e 0 C0 L).
Qed.

Let size (e : R) : R := sumn n (fun i => Rabs (dx i e)).
Lemma size_part i e : (i < n)%nat -> Rabs (dx i e) <= size e.
Proof. intros Hi. apply (sum_part n (fun j => Rabs (dx j e))); [intros; apply Rabs_pos|exact Hi]. Qed.
Lemma continuous_sum m (h : nat -> R -> R) e : (forall i, (i < m)%nat -> continuous (h i) e) -> continuous (fun s => sumn m (fun i => h i s)) e.
Proof.
  induction m as [|m IH]; intros H; cbn [sumn]; [apply continuous_const|].
  apply (continuous_plus (fun s => sumn m (fun i => h i s)) (h m)); [apply IH; intros; apply H; lia|apply H; lia].
Qed.
Lemma size_continuous e : (forall i, (i < n)%nat -> continuous (fun s => x s i) e) -> continuous size e.
Proof. intros H. apply continuous_sum. intros i Hi. apply (continuous_comp (dx i) Rabs); [apply dx_continuous, H, Hi|apply continuous_Rabs]. Qed.

(** the changes are bounded by a multiple of the change of the parameter *)
Lemma lipschitz : exists C, locally 0 (fun e => size e <= C * Rabs e).
Proof.
  destruct all_near as (dl & Hdl & Cn).
  destruct (bad_points (fun k e => size e - INR (S k) * Rabs e)) as [[k Hk]|(e & He)].
  - exists dl. split; [exact Hdl|]. intros k e He. apply (continuous_minus size (fun e => INR (S k) * Rabs e)); [apply size_continuous; intros; now apply Cn|].
    apply (continuous_mult (fun _ => INR (S k)) Rabs); [apply continuous_const|apply continuous_Rabs].
  - exists (INR (S k)). revert Hk. apply filter_imp. intros e H. lra.
  - exfalso.
    assert (Hpos : forall k, 0 < INR (S k)) by (intros; apply lt_0_INR; lia).
    assert (Pos : forall k, 0 < size (e k)). { intros k. destruct (He k) as [_ H]. assert (0 <= INR (S k) * Rabs (e k)) by (apply Rmult_le_pos; [apply Rlt_le, Hpos|apply Rabs_pos]). lra. }
    assert (Le : is_lim_seq e 0). { apply (squeeze0 e (fun k => / INR (S k))); [|exact inv_limit]. intros k. apply Rlt_le, (He k). }
    destruct (all_limits n (fun k i => dx i (e k) / size (e k)) 1) as (f & d & Hf & Ld).
    { intros k i Hi. unfold Rdiv. rewrite Rabs_mult, (Rabs_right (/ size (e k))) by (apply Rle_ge, Rlt_le, Rinv_0_lt_compat, Pos).
      apply (Rmult_le_reg_r (size (e k))); [apply Pos|]. rewrite Rmult_assoc, Rinv_l, Rmult_1_r, Rmult_1_l by (specialize (Pos k); lra). now apply size_part. }
    assert (Lef : is_lim_seq (fun k => e (f k)) 0) by now apply (later_limit e 0 f).
    destruct (limits_solve (fun k => e (f k)) (fun k => size (e (f k))) d 0) as [A B].
    + intros k. specialize (Pos (f k)). lra.
    + replace 0 with (sumn n (fun _ => 0)) by (apply sumn_0; reflexivity). apply (limit_sum n (fun k i => Rabs (dx i (e (f k)))) (fun _ => 0)). intros i Hi.
      rewrite <- Rabs_R0. apply (is_lim_seq_abs _ (Finite 0)). now apply dx_limit.
    + apply (squeeze0 _ (fun k => / INR (S (f k)))); [|apply (later_limit (fun k => / INR (S k)) 0 f Hf inv_limit)]. intros k. destruct (He (f k)) as [_ H]. specialize (Pos (f k)). specialize (Hpos (f k)).
      unfold Rdiv. rewrite Rabs_mult, (Rabs_right (/ size (e (f k)))) by (apply Rle_ge, Rlt_le, Rinv_0_lt_compat, Pos).
      apply (Rmult_le_reg_r (size (e (f k)))); [exact Pos|]. rewrite Rmult_assoc, Rinv_l, Rmult_1_r by lra. apply (Rmult_le_reg_l (INR (S (f k)))); [exact Hpos|].
      rewrite <- Rmult_assoc, Rinv_r, Rmult_1_l by lra. lra.
    + exact Ld.
    + assert (Z : forall i, (i < n)%nat -> d i = 0).
      { apply kernel; intros i Hi Fi; [rewrite (A i Hi Fi); ring|]. specialize (B i Hi Fi). lra. }
      assert (L1 : is_lim_seq (fun k => sumn n (fun i => Rabs (dx i (e (f k)) / size (e (f k))))) (sumn n (fun i => Rabs (d i)))).
      { apply (limit_sum n (fun k i => Rabs (dx i (e (f k)) / size (e (f k)))) (fun i => Rabs (d i))). intros i Hi. apply (is_lim_seq_abs _ (Finite (d i))). now apply Ld. }
      assert (L2 : is_lim_seq (fun k => sumn n (fun i => Rabs (dx i (e (f k)) / size (e (f k))))) 1).
      { apply is_lim_seq_ext with (fun _ => 1); [|apply is_lim_seq_const]. intros k. specialize (Pos (f k)).
        rewrite (sumn_ext n _ (fun i => Rabs (dx i (e (f k))) * / size (e (f k)))).
        - rewrite sumn_scal_r. fold (size (e (f k))). field. lra.
        - intros i Hi. unfold Rdiv. rewrite Rabs_mult, (Rabs_right (/ size (e (f k)))) by (apply Rle_ge, Rlt_le, Rinv_0_lt_compat, Pos). reflexivity. }
      rewrite (sumn_ext n _ (fun _ => 0)) in L1 by (intros i Hi; rewrite (Z i Hi); apply Rabs_R0). rewrite sumn_0 in L1 by reflexivity.
      assert (U := is_lim_seq_unique _ _ L1). rewrite (is_lim_seq_unique _ _ L2) in U. injection U. lra.
Qed.

(** sequences of parameters which go to zero have a subsequence along which the changes are proportional to those of the parameter *)
Lemma slopes C (e : nat -> R) : (forall k, e k <> 0) -> is_lim_seq e 0 -> (forall k, size (e k) <= C * Rabs (e k)) ->
  exists f (v : vec), (forall k, (k <= f k)%nat) /\ (forall i, (i < n)%nat -> is_lim_seq (fun k => dx i (e (f k)) / e (f k)) (v i)) /\
    (forall i, (i < n)%nat -> fixed i = true -> v i = b i) /\ (forall i, (i < n)%nat -> fixed i = false -> rows n n K v i + g i = 0).
Proof.
  intros He Le Hs. destruct (all_limits n (fun k i => dx i (e k) / e k) C) as (f & v & Hf & Lv).
  { intros k i Hi. unfold Rdiv. rewrite Rabs_mult, Rabs_inv. assert (P := Rabs_pos_lt _ (He k)). apply (Rmult_le_reg_r (Rabs (e k))); [exact P|].
    rewrite Rmult_assoc, Rinv_l, Rmult_1_r by lra. eapply Rle_trans; [apply size_part, Hi|apply Hs]. }
  exists f, v. split; [exact Hf|]. split; [exact Lv|].
  destruct (limits_solve (fun k => e (f k)) (fun k => e (f k)) v 1) as [A B].
  - intros k. apply He.
  - now apply (later_limit e 0 f).
  - apply is_lim_seq_ext with (fun _ => 1); [|apply is_lim_seq_const]. intros k. field. apply He.
  - exact Lv.
  - split; intros i Hi Fi; [rewrite (A i Hi Fi); ring|]. specialize (B i Hi Fi). lra.
Qed.

Theorem implicit : exists v, curve n x v.
Proof.
  destruct lipschitz as (C & dl & HC).
  assert (HC' : forall e, Rabs e < dl -> size e <= C * Rabs e). { intros e He. apply HC. change (Rabs (e - 0) < dl). now rewrite Rminus_0_r. }
  assert (later : forall e : nat -> R, (forall k, e k <> 0) -> is_lim_seq e 0 -> exists f (v : vec), (forall k, (k <= f k)%nat) /\ (forall i, (i < n)%nat -> is_lim_seq (fun k => dx i (e (f k)) / e (f k)) (v i)) /\
    (forall i, (i < n)%nat -> fixed i = true -> v i = b i) /\ (forall i, (i < n)%nat -> fixed i = false -> rows n n K v i + g i = 0)).
  { intros e He Le. destruct (limit_eps e 0 Le dl (cond_pos dl)) as [N HN].
    destruct (slopes C (fun k => e (N + k)%nat)) as (f & v & Hf & H).
    - intros k. apply He.
    - apply (later_limit e 0 (fun k => (N + k)%nat)); [intros; lia|exact Le].
    - intros k. apply HC'. specialize (HN (N + k)%nat ltac:(lia)). now rewrite Rminus_0_r in HN.
    - exists (fun k => (N + f k)%nat), v. split; [|exact H]. intros k. specialize (Hf k). lia. }
  assert (Hinv : forall k, 0 < / INR (S k)) by (intros; apply Rinv_0_lt_compat, lt_0_INR; lia).
  destruct (later (fun k => / INR (S k))) as (f0 & v & _ & _ & V1 & V2); [intros k; specialize (Hinv k); lra|exact inv_limit|].
  exists v. intros i Hi. apply is_derive_Reals. intros eta Heta.
  destruct all_near as (dc & Hdc & Cn).
  destruct (bad_points (fun _ e => Rabs (dx i e - e * v i) - eta / 2 * Rabs e)) as [[_ [d2 Hk]]|(e & He)].
  - exists dc. split; [exact Hdc|]. intros _ e He. apply (continuous_minus (fun e => Rabs (dx i e - e * v i)) (fun e => eta / 2 * Rabs e)).
    + apply (continuous_comp (fun e => dx i e - e * v i) Rabs); [|apply continuous_Rabs]. apply (continuous_minus (dx i) (fun e => e * v i)); [apply dx_continuous, Cn; auto|].
      apply (continuous_mult (fun e => e) (fun _ => v i)); [apply continuous_id|apply continuous_const].
    + apply (continuous_mult (fun _ => eta / 2) Rabs); [apply continuous_const|apply continuous_Rabs].
  - exists d2. intros h Hh Hs. assert (B := Hk h). change (Rabs (h - 0) < d2 -> Rabs (dx i h - h * v i) - eta / 2 * Rabs h <= 0) in B. rewrite Rminus_0_r in B. specialize (B Hs).
    rewrite Rplus_0_l. fold (dx i h). replace (dx i h / h - v i) with ((dx i h - h * v i) * / h) by (field; exact Hh). rewrite Rabs_mult, Rabs_inv.
    assert (P := Rabs_pos_lt _ Hh). apply (Rmult_lt_reg_r (Rabs h)); [exact P|]. rewrite Rmult_assoc, Rinv_l, Rmult_1_r by lra.
    assert (0 < eta * Rabs h) by now apply Rmult_lt_0_compat. lra.
  - exfalso.
    assert (Ne : forall k, e k <> 0). { intros k E. destruct (He k) as [_ H]. rewrite E in H. replace (dx i 0 - 0 * v i) with 0 in H by (unfold dx; ring). rewrite Rabs_R0 in H. lra. }
    destruct (later e Ne) as (f & v' & Hf & Lv & W1 & W2). { apply (squeeze0 e (fun k => / INR (S k))); [|exact inv_limit]. intros k. apply Rlt_le, (He k). }
    assert (Z : v' i - v i = 0).
    { apply (kernel (fun j => v' j - v j)); [| |exact Hi].
      - intros j Hj Fj. rewrite (W1 j Hj Fj), (V1 j Hj Fj). ring.
      - intros j Hj Fj. specialize (W2 j Hj Fj). specialize (V2 j Hj Fj). unfold rows in *. rewrite (sumn_ext n _ (fun l => K j l * v' l + - (K j l * v l))) by (intros; ring).
        rewrite sumn_plus. rewrite (sumn_ext n (fun l => - (K j l * v l)) (fun l => -1 * (K j l * v l))) by (intros; ring). rewrite sumn_scal_l. lra. }
    destruct (limit_eps _ _ (Lv i Hi) (eta / 2)) as [N HN]; [lra|]. specialize (HN N (Nat.le_refl N)). destruct (He (f N)) as [_ H]. set (s := e (f N)) in *.
    assert (P := Rabs_pos_lt _ (Ne (f N))). fold s in P. assert (Hs0 : s <> 0) by apply Ne.
    replace (dx i s - s * v i) with ((dx i s / s - v' i) * s) in H by (replace (v' i) with (v i) by lra; field; exact Hs0).
    rewrite Rabs_mult in H. assert (0 < (Rabs (dx i s / s - v' i) - eta / 2) * Rabs s) by lra. assert (X : Rabs (dx i s / s - v' i) - eta / 2 < 0) by lra.
    assert ((Rabs (dx i s / s - v' i) - eta / 2) * Rabs s < 0 * Rabs s) by (apply Rmult_lt_compat_r; assumption). lra.
Qed.
End Implicit.

(** ** a linear solver which solves every adjoint system leaves no kernel *)
Lemma lin_kernel n bcs lin J d : lin_ok n bcs lin J -> (forall i, (i < n)%nat -> any bcs i = true -> d i = 0) -> (forall i, (i < n)%nat -> any bcs i = false -> rows n n J d i = 0) ->
  forall i, (i < n)%nat -> d i = 0.
Proof.
  intros L Z E i Hi. set (w := fun j => if Nat.eqb j i then 1 else 0).
  destruct (static_adjoint_equations n bcs lin J w L) as [Z1 A]. set (lam := static_adjoint n bcs lin J w) in *.
  assert (Pr := adjoint_pairing n (any bcs) J w lam d A Z).
  assert (R0 : vdot n lam (mvec n J d) = 0).
  { unfold vdot. apply sumn_zero. intros j Hj. destruct (any bcs j) eqn:B; [rewrite (Z1 j Hj B); ring|]. change (mvec n J d j) with (rows n n J d j). rewrite (E j Hj B). ring. }
  rewrite R0 in Pr. unfold vdot, w in Pr. rewrite (sumn_ext n _ (fun j => if Nat.eqb j i then d j else 0)) in Pr by (intros j _; destruct (Nat.eqb j i); ring). rewrite sumn_delta in Pr by exact Hi. lra.
Qed.
Lemma rows_lin n m A (c1 c2 : R) (y z : vec) i : rows n m A (fun j => c1 * y j + c2 * z j) i = c1 * rows n m A y i + c2 * rows n m A z i.
Proof. unfold rows. rewrite <- !sumn_scal_l, <- sumn_plus. apply sumn_ext. intros; ring. Qed.

(** ** equations in displacement, rate and parameter, for an unknown of which displacement and rate are affine functions *)
Theorem solution_moves n np bcs lin (F : vec -> vec -> vec -> vec) (p a c x u v : R -> vec) dp da dc (al be : R) K M P J (b : vec) :
  (forall u u' v v' p i, (forall j, (j < n)%nat -> u j = u' j) -> (forall j, (j < n)%nat -> v j = v' j) -> F u v p i = F u' v' p i) ->
  curve np p dp -> curve n a da -> curve n c dc ->
  (forall s j, (j < n)%nat -> u s j = a s j + al * x s j) -> (forall s j, (j < n)%nat -> v s j = c s j + be * x s j) ->
  jacobian3 n np F (u 0) (v 0) (p 0) K M P -> (forall i j, (i < n)%nat -> (j < n)%nat -> J i j = al * K i j + be * M i j) -> lin_ok n bcs lin J ->
  (forall i, (i < n)%nat -> locally 0 (fun e => continuous (fun s => x s i) e)) ->
  (forall i, (i < n)%nat -> any bcs i = false -> locally 0 (fun s => F (u s) (v s) (p s) i = 0)) ->
  (forall i, (i < n)%nat -> any bcs i = true -> is_derive (fun s => x s i) 0 (b i)) ->
  exists dx, curve n x dx.
Proof.
  intros Ext Cp Ca Cc Hu Hv Jac HJ L Near Eq Held.
  assert (EJ : forall d i, (i < n)%nat -> rows n n J d i = al * rows n n K d i + be * rows n n M d i).
  { intros d i Hi. unfold rows. rewrite <- !sumn_scal_l, <- sumn_plus. apply sumn_ext. intros j Hj. rewrite (HJ i j Hi Hj). ring. }
  apply (implicit n (fun y e => F (fun j => a e j + al * y j) (fun j => c e j + be * y j) (p e)) x J (fun i => rows n n K da i + rows n n M dc i + rows n np P dp i) b (any bcs)).
  - intros cx d e g Cx Sx De E0 i Hi _.
    assert (chain : forall (h : R -> R) l, is_derive h 0 l -> is_derive (fun t => h (e t)) 0 (g * l)).
    { intros h l Dh. apply (is_derive_comp h e 0 l g); [rewrite E0; exact Dh|exact De]. }
    assert (X := Jac (fun t j => a (e t) j + al * cx t j) (fun j => g * da j + al * d j) (fun t j => c (e t) j + be * cx t j) (fun j => g * dc j + be * d j) (fun t => p (e t)) (fun j => g * dp j)).
    replace (rows n n J d i + g * (rows n n K da i + rows n n M dc i + rows n np P dp i)) with
      (rows n n K (fun j => g * da j + al * d j) i + rows n n M (fun j => g * dc j + be * d j) i + rows n np P (fun j => g * dp j) i).
    + apply X; [| | | | | |exact Hi].
      * intros j Hj. apply curve_scal_plus; [apply (chain (fun s => a s j)), Ca, Hj|apply Cx, Hj].
      * intros j Hj. apply curve_scal_plus; [apply (chain (fun s => c s j)), Cc, Hj|apply Cx, Hj].
      * intros j Hj. apply (chain (fun s => p s j)), Cp, Hj.
      * intros j Hj. rewrite E0, (Hu 0 j Hj), (Sx j Hj). reflexivity.
      * intros j Hj. rewrite E0, (Hv 0 j Hj), (Sx j Hj). reflexivity.
      * intros j Hj. rewrite E0. reflexivity.
    + rewrite !rows_lin, (EJ d i Hi). replace (rows n np P (fun j => g * dp j) i) with (g * rows n np P dp i); [ring|].
      unfold rows. rewrite <- sumn_scal_l. apply sumn_ext. intros; ring.
  - exact Near.
  - intros i Hi Bi. generalize (Eq i Hi Bi). apply filter_imp. intros s Hs. rewrite <- Hs. apply Ext; intros j Hj; [now rewrite (Hu s j Hj)|now rewrite (Hv s j Hj)].
  - exact Held.
  - intros d Z E. now apply (lin_kernel n bcs lin J).
Qed.

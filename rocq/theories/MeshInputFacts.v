(** * Facts about the mesh described in an input file *)
From Coq Require Import String List ZArith Bool Permutation Lia Reals Lra.
From Verif Require Import Mesh MeshInput.
Import ListNotations.
Local Open Scope R_scope.

(** ** lists *)
Lemma flat_map_perm {A B} (f : A -> list B) l l' : Permutation l l' -> Permutation (flat_map f l) (flat_map f l').
Proof. induction 1; cbn [flat_map]; auto; [now apply Permutation_app_head|rewrite !app_assoc; apply Permutation_app_tail, Permutation_app_comm|eapply perm_trans; eauto]. Qed.
Lemma flat_map_pointwise {A B} (f g : A -> list B) l : (forall a, Permutation (f a) (g a)) -> Permutation (flat_map f l) (flat_map g l).
Proof. intros H. induction l; cbn [flat_map]; auto. apply Permutation_app; auto. Qed.
Lemma flat_map_both {A B} (f g : A -> list B) l : Permutation (flat_map (fun a => f a ++ g a) l) (flat_map f l ++ flat_map g l).
Proof.
  induction l as [|a l IH]; [constructor|]. cbn [flat_map]. rewrite <- !app_assoc. apply Permutation_app_head. eapply perm_trans; [apply Permutation_app_head, IH|].
  rewrite !app_assoc. apply Permutation_app_tail, Permutation_app_comm.
Qed.
Lemma flat_map_flat {A B C} (f : A -> list B) (g : B -> list C) l : flat_map g (flat_map f l) = flat_map (fun a => flat_map g (f a)) l.
Proof. induction l as [|a l IH]; [reflexivity|]. cbn [flat_map]. now rewrite flat_map_app, IH. Qed.
Lemma flat_map_swap {A B C} (f : A -> B -> list C) la : forall lb, Permutation (flat_map (fun a => flat_map (f a) lb) la) (flat_map (fun b => flat_map (fun a => f a b) la) lb).
Proof.
  induction la as [|a la IH]; intros lb; cbn [flat_map]; [induction lb; cbn [flat_map]; auto|].
  eapply perm_trans; [apply Permutation_app_head, IH|]. apply Permutation_sym. apply (flat_map_both (f a) (fun b => flat_map (fun a0 => f a0 b) la)).
Qed.
Lemma map_flat {A B C} (g : B -> C) (f : A -> list B) l : map g (flat_map f l) = flat_map (fun a => map g (f a)) l.
Proof. induction l as [|a l IH]; [reflexivity|]. cbn [flat_map]. now rewrite map_app, IH. Qed.
Lemma flat_map_map {A B C} (g : A -> B) (f : B -> list C) l : flat_map f (map g l) = flat_map (fun a => f (g a)) l.
Proof. induction l as [|a l IH]; [reflexivity|]. cbn [map flat_map]. now rewrite IH. Qed.

(** ** dividing a list among ranks *)
Lemma one_rank {A} (a : A) k : forall P n, (n <= k < n + P)%nat -> flat_map (fun r => if Nat.eqb k r then [a] else []) (seq n P) = [a].
Proof.
  induction P as [|P IH]; intros n H; [lia|]. cbn [seq flat_map]. destruct (Nat.eqb_spec k n) as [-> | N].
  - cbn [app]. f_equal. clear. assert (forall m, (n < m)%nat -> flat_map (fun r => if Nat.eqb n r then [a] else []) (seq m P) = []) as H.
    { induction P as [|P IH]; intros m L; [reflexivity|]. cbn [seq flat_map]. destruct (Nat.eqb_spec n m); [lia|]. apply IH. lia. }
    apply H. lia.
  - apply IH. lia.
Qed.
Lemma dealt {A} (f : A -> nat) P : (forall a, (f a < P)%nat) -> forall l, Permutation (flat_map (fun r => filter (fun a => Nat.eqb (f a) r) l) (seq 0 P)) l.
Proof.
  intros H. induction l as [|a l IH]; [induction (seq 0 P); cbn [flat_map filter]; auto|].
  eapply perm_trans; [|exact (Permutation_cons eq_refl IH)].
  change (a :: flat_map (fun r => filter (fun a0 => Nat.eqb (f a0) r) l) (seq 0 P)) with ([a] ++ flat_map (fun r => filter (fun a0 => Nat.eqb (f a0) r) l) (seq 0 P)).
  rewrite <- (one_rank a (f a) P 0) by (specialize (H a); lia).
  eapply perm_trans; [|apply (flat_map_both (fun r => if Nat.eqb (f a) r then [a] else []) (fun r => filter (fun a0 => Nat.eqb (f a0) r) l))].
  apply flat_map_pointwise. intros r. cbn [filter]. destruct (Nat.eqb (f a) r); auto.
Qed.
Lemma map_snd_combine {A} (l : list A) : forall n, map snd (combine (seq n (List.length l)) l) = l.
Proof. induction l as [|a l IH]; intros n; [reflexivity|]. cbn [List.length seq combine map snd]. now rewrite IH. Qed.
Lemma shared_all {A} (own : nat -> nat) P (l : list A) : (forall i, (own i < P)%nat) -> Permutation (flat_map (fun r => share own r l) (seq 0 P)) l.
Proof.
  intros H. unfold share. rewrite <- (map_flat snd (fun r => filter (fun ia => Nat.eqb (own (fst ia)) r) (combine (seq 0 (List.length l)) l))).
  eapply perm_trans; [apply Permutation_map, (dealt (fun ia : nat * A => own (fst ia)) P)|rewrite map_snd_combine; auto]. intros ia. apply H.
Qed.

(** ** repeated refinement *)
Lemma times_plus {A} (f : A -> A) n m a : times (n + m) f a = times m f (times n f a).
Proof. revert a. induction n as [|n IH]; intros a; [reflexivity|]. cbn [Nat.add times]. apply IH. Qed.
Lemma times_succ {A} (f : A -> A) n a : times (S n) f a = f (times n f a).
Proof. rewrite <- (Nat.add_1_r n), times_plus. reflexivity. Qed.
Lemma times_elems d n m : elems (times n (refine d) m) = times n (flat_map (refine_cell d)) (elems m) /\ bdr (times n (refine d) m) = times n (flat_map (refine_cell d)) (bdr m).
Proof. revert m. induction n as [|n IH]; intros m; [auto|]. cbn [times]. destruct (IH (refine d m)) as [-> ->]. auto. Qed.
Lemma times_perm {A} (f : A -> list A) n : forall l l', Permutation l l' -> Permutation (times n (flat_map f) l) (times n (flat_map f) l').
Proof. induction n as [|n IH]; intros l l' H; [exact H|]. cbn [times]. apply IH, flat_map_perm, H. Qed.
Lemma times_flat {A B} (f : A -> list A) n (g : B -> list A) ls : flat_map (fun b => times n (flat_map f) (g b)) ls = times n (flat_map f) (flat_map g ls).
Proof.
  revert g. induction n as [|n IH]; intros g; [reflexivity|]. cbn [times]. rewrite (IH (fun b => flat_map f (g b))). f_equal. symmetry. apply flat_map_flat.
Qed.
Lemma distributed w m s p : shares w ->
  Permutation (all_elems (refine_and_distribute w m s p)) (times (Z.to_nat s + Z.to_nat p) (flat_map (refine_cell (diagonal w))) (elems m)) /\
  Permutation (all_bdr (refine_and_distribute w m s p)) (times (Z.to_nat s + Z.to_nat p) (flat_map (refine_cell (diagonal w))) (bdr m)).
Proof.
  intros H. unfold all_elems, all_bdr, refine_and_distribute, levels. rewrite !flat_map_map.
  split.
  - rewrite (flat_map_ext _ (fun r => times (Z.to_nat p) (flat_map (refine_cell (diagonal w))) (share (owner w) r (elems (times (Z.to_nat s) (refine (diagonal w)) m))))) by (intros r; exact (proj1 (times_elems _ _ _))).
    rewrite times_flat, times_plus. apply times_perm. rewrite (proj1 (times_elems _ _ _)). now apply shared_all.
  - rewrite (flat_map_ext _ (fun r => times (Z.to_nat p) (flat_map (refine_cell (diagonal w))) (share (owner w) r (bdr (times (Z.to_nat s) (refine (diagonal w)) m))))) by (intros r; exact (proj2 (times_elems _ _ _))).
    rewrite times_flat, times_plus. apply times_perm. rewrite (proj2 (times_elems _ _ _)). now apply shared_all.
Qed.

(** ** boxes *)
Lemma product_halves (ls : list (list (R * R))) : Permutation (flat_map (fun c => product (map half c)) (product ls)) (product (map (flat_map half) ls)).
Proof.
  induction ls as [|l ls IH]; [cbn; auto|]. cbn [product map]. rewrite !flat_map_flat. apply flat_map_pointwise. intros x. rewrite flat_map_map. cbn [map product].
  eapply perm_trans; [apply (flat_map_swap (fun c y => map (cons y) (product (map half c))))|]. apply flat_map_pointwise. intros y.
  rewrite <- (map_flat (cons y) (fun c => product (map half c))). apply Permutation_map, IH.
Qed.
Lemma axis_halves n s : (0 < n)%Z -> flat_map half (axis n s) = axis (2 * n) s.
Proof.
  intros Hn. unfold axis. assert (N : IZR n <> 0) by (apply not_0_IZR; lia). replace (Z.to_nat (2 * n)) with (2 * Z.to_nat n)%nat by lia.
  generalize (Z.to_nat n). intros k. rewrite flat_map_map. rewrite mult_IZR.
  assert (forall m, flat_map (fun i => half (s * INR i / IZR n, s * INR (S i) / IZR n)) (seq m k) = map (fun i => (s * INR i / (2 * IZR n), s * INR (S i) / (2 * IZR n))) (seq (2 * m) (2 * k))) as H; [|exact (H 0%nat)].
  induction k as [|k IH]; intros m; [reflexivity|]. replace (2 * S k)%nat with (S (S (2 * k))) by lia. cbn [seq flat_map map]. rewrite IH. replace (S (S (2 * m)))%nat with (2 * S m)%nat by lia.
  unfold half. cbn [fst snd app]. replace (2 * S m)%nat with (S (S (2 * m))) by lia. rewrite !S_INR, mult_INR. change (INR 2) with 2.
  f_equal; [|f_equal]; f_equal; field; exact N.
Qed.
Lemma box_refined d n s k : List.Forall (fun a => (0 < a)%Z) n -> List.length n = List.length s -> Permutation (times k (flat_map (refine_cell d)) (cells n s)) (cells (map (doubled k) n) s).
Proof.
  revert n. induction k as [|k IH]; intros n P L.
  - cbn [times]. replace (map (doubled 0) n) with n; [apply Permutation_refl|]. clear. induction n as [|a n IH]; [reflexivity|]. cbn [map]. f_equal; [unfold doubled; cbn; lia|exact IH].
  - cbn [times]. eapply perm_trans; [apply times_perm with (l' := cells (map (Z.mul 2) n) s)|].
    + unfold cells. rewrite flat_map_map. cbn [refine_cell]. rewrite <- (map_flat Brick (fun c => product (map half c))). apply Permutation_map.
      eapply perm_trans; [apply product_halves|]. rewrite map_map. clear IH. revert s L. induction P as [|a n Ha P IH]; intros s L; [apply Permutation_refl|]. destruct s as [|b s]; [discriminate L|].
      cbn [combine map product fst snd]. rewrite axis_halves by exact Ha. apply flat_map_pointwise. intros x. apply Permutation_map. apply IH. now injection L.
    + replace (map (doubled (S k)) n) with (map (doubled k) (map (Z.mul 2) n)); [apply IH|].
      * rewrite Forall_map. eapply Forall_impl; [|exact P]. intros a Ha. cbv beta in *. lia.
      * now rewrite map_length.
      * rewrite map_map. apply map_ext. intros a. unfold doubled. rewrite Nat2Z.inj_succ, Z.pow_succ_r by lia. ring.
Qed.

(** ** numbers of elements *)
Definition of_dim (d : nat) (c : cell) : Prop := match c with Brick l => List.length l = d | Simplex v => (1 <= d <= 3)%nat /\ List.length v = S d end.
Lemma product_length {A} (ls : list (list A)) : List.length (product ls) = fold_right Nat.mul 1%nat (map (@List.length A) ls) /\ List.Forall (fun l => List.length l = List.length ls) (product ls).
Proof.
  induction ls as [|l ls [IH1 IH2]]; [split; [reflexivity|repeat constructor]|]. cbn [product map fold_right]. split.
  - rewrite <- IH1. clear. induction l as [|a l IH]; [reflexivity|]. cbn [flat_map]. rewrite app_length, map_length, IH. reflexivity.
  - apply Forall_flat_map. apply Forall_forall. intros a _. apply Forall_map. eapply Forall_impl; [|exact IH2]. cbn. intros l' ->. reflexivity.
Qed.
Lemma sub_dim d g v : (1 <= d <= 3)%nat -> List.length v = S d -> List.length (sub g v) = (2 ^ d)%nat /\ List.Forall (fun u => List.length u = S d) (sub g v).
Proof.
  intros Hd L. destruct d as [|[|[|[|d]]]]; try lia; destruct v as [|a [|b [|c [|e [|f v]]]]]; try discriminate L; cbn [sub].
  1,2: split; [reflexivity|repeat constructor].
  destruct (g [a; b; c; e]) as [|[|?]]; split; try reflexivity; repeat constructor.
Qed.
Lemma refine_dim d g c : of_dim d c -> List.length (refine_cell g c) = (2 ^ d)%nat /\ List.Forall (of_dim d) (refine_cell g c).
Proof.
  destruct c as [l|v]; cbn [of_dim refine_cell].
  - intros <-. destruct (product_length (map half l)) as [A B]. rewrite map_length. split.
    + rewrite A, map_map. cbn [half List.length]. clear. induction l as [|a l IH]; [reflexivity|]. cbn [map fold_right List.length Nat.pow]. rewrite IH. lia.
    + apply Forall_map. eapply Forall_impl; [|exact B]. cbn. intros u ->. now rewrite map_length.
  - intros [Hd L]. destruct (sub_dim d g v Hd L) as [A B]. rewrite map_length. split; [exact A|]. apply Forall_map. eapply Forall_impl; [|exact B]. cbn. auto.
Qed.
Lemma refine_count d g l : List.Forall (of_dim d) l -> List.length (flat_map (refine_cell g) l) = (List.length l * 2 ^ d)%nat /\ List.Forall (of_dim d) (flat_map (refine_cell g) l).
Proof.
  induction 1 as [|c l H _ [IH1 IH2]]; [split; [reflexivity|constructor]|]. destruct (refine_dim d g c H) as [A B]. cbn [flat_map List.length]. rewrite app_length, A, IH1. split; [lia|]. apply Forall_app; auto.
Qed.
Lemma times_count d g k : forall l, List.Forall (of_dim d) l -> List.length (times k (flat_map (refine_cell g)) l) = (List.length l * (2 ^ d) ^ k)%nat /\ List.Forall (of_dim d) (times k (flat_map (refine_cell g)) l).
Proof.
  induction k as [|k IH]; intros l H; [cbn [times Nat.pow]; split; [lia|exact H]|]. cbn [times]. destruct (refine_count d g l H) as [A B]. destruct (IH _ B) as [C D]. split; [|exact D].
  rewrite C, A. cbn [Nat.pow]. lia.
Qed.
Lemma coarse_loop_ok d g thr n : (1 <= d)%nat -> (1 <= thr)%Z -> forall fuel m, List.Forall (of_dim d) (elems m) -> (1 <= List.length (elems m))%nat -> (n < Z.of_nat (List.length (elems m)) + Z.of_nat fuel)%Z ->
  exists k, coarse_loop g (S fuel) thr n m = Some (times k (refine g) m) /\ (n <= Z.of_nat (List.length (elems (times k (refine g) m))) * thr)%Z /\
  (k = O \/ (Z.of_nat (List.length (elems (times k (refine g) m))) * thr < n * 2 ^ Z.of_nat d)%Z).
Proof.
  intros Hd Ht. assert (T : (2 <= 2 ^ Z.of_nat d)%Z) by (change 2%Z with (2 ^ 1)%Z at 1; apply Z.pow_le_mono_r; lia).
  induction fuel as [|fuel IH]; intros m F L1 L2; change (coarse_loop g (S ?f) thr n m) with (if (Z.of_nat (List.length (elems m)) * thr <? n)%Z then coarse_loop g f thr n (refine g m) else Some m); destruct (Z.ltb_spec (Z.of_nat (List.length (elems m)) * thr) n) as [E|E].
  - nia.
  - exists O. cbn [times]. repeat split; auto. 
  - destruct (refine_count d g (elems m) F) as [A B]. change (flat_map (refine_cell g) (elems m)) with (elems (refine g m)) in A, B.
    assert (A' : (Z.of_nat (List.length (elems (refine g m))) = Z.of_nat (List.length (elems m)) * 2 ^ Z.of_nat d)%Z) by (rewrite A, Nat2Z.inj_mul, Nat2Z.inj_pow; reflexivity).
    destruct (IH (refine g m) B) as (k & E1 & E2 & E3); [nia|nia|]. exists (S k). cbn [times]. split; [exact E1|]. split; [exact E2|]. right. destruct E3 as [-> | E3]; [|exact E3].
    cbn [times] in *. rewrite A'. nia.
  - exists O. cbn [times]. repeat split; auto.
Qed.

(** ** vertices *)
Definition points (c : cell) : list vec := match c with Simplex v => v | Brick _ => [] end.
Definition simplicial (c : cell) : Prop := match c with Simplex _ => True | Brick _ => False end.
Lemma sub_reach g v u p : In u (sub g v) -> In p u -> reach v p.
Proof.
  assert (M : forall a b, In a v -> In b v -> reach v (mid a b)) by (intros; apply reach_mid; now apply reach_corner).
  unfold sub. destruct v as [|a [|b [|c [|d [|e v]]]]].
  1,2,6: intros [<-|[]] H; now apply reach_corner.
  - cbn [In]. intros H K. repeat (destruct H as [<-|H]; [cbn [In] in K; repeat (destruct K as [<-|K]; [first [apply reach_corner; cbn; tauto | apply M; cbn; tauto]|]); contradiction|]). contradiction.
  - cbn [In]. intros H K. repeat (destruct H as [<-|H]; [cbn [In] in K; repeat (destruct K as [<-|K]; [first [apply reach_corner; cbn; tauto | apply M; cbn; tauto]|]); contradiction|]). contradiction.
  - destruct (g [a; b; c; d]) as [|[|?]]; cbn [In app]; intros H K; repeat (destruct H as [<-|H]; [cbn [In] in K; repeat (destruct K as [<-|K]; [first [apply reach_corner; cbn; tauto | apply M; cbn; tauto]|]); contradiction|]); contradiction.
Qed.
Lemma reach_trans v u p : (forall q, In q u -> reach v q) -> reach u p -> reach v p.
Proof. intros H. induction 1; [auto|now apply reach_mid]. Qed.
Lemma times_reach g k : forall l c p, List.Forall simplicial l -> In c (times k (flat_map (refine_cell g)) l) -> simplicial c /\ (In p (points c) -> exists c0, In c0 l /\ reach (points c0) p).
Proof.
  induction k as [|k IH]; intros l c p F H; cbn [times] in H.
  - split; [rewrite Forall_forall in F; auto|]. intros K. exists c. split; [exact H|now apply reach_corner].
  - destruct (IH (flat_map (refine_cell g) l) c p) as [A B].
    + apply Forall_flat_map. eapply Forall_impl; [|exact F]. intros [u|v] Hs; [contradiction|]. cbn [refine_cell]. apply Forall_map, Forall_forall. cbn. auto.
    + exact H.
    + split; [exact A|]. intros K. destruct (B K) as (c1 & H1 & H2). apply in_flat_map in H1 as (c0 & H0 & H1). exists c0. split; [exact H0|]. rewrite Forall_forall in F. specialize (F _ H0).
      destruct c0 as [u|v]; [contradiction|]. cbn [refine_cell] in H1. apply in_map_iff in H1 as (u & <- & Hu). cbn [points] in *. eapply reach_trans; [|exact H2]. intros q Hq. eapply sub_reach; eauto.
Qed.
Lemma q2_mid a : forall b, q2 (mid a b) <= (q2 a + q2 b) / 2.
Proof.
  induction a as [|x a IH]; intros [|y b]; cbn [mid].
  1-3: match goal with |- q2 [] <= (q2 ?u + q2 ?v) / 2 => pose proof (q2_nonneg u); pose proof (q2_nonneg v); change (q2 []) with 0; lra end.
  specialize (IH b). change ((x + y) / 2 * ((x + y) / 2) + q2 (mid a b) <= (x * x + q2 a + (y * y + q2 b)) / 2). pose proof (Rle_0_sqr (x - y)) as H. unfold Rsqr in H. lra.
Qed.
Lemma q2_n2 v : n2 v <= 1 <-> q2 v <= 1.
Proof.
  change (sqrt (q2 v) <= 1 <-> q2 v <= 1). split; intros H.
  - rewrite <- (sqrt_sqrt (q2 v)) by apply q2_nonneg. pose proof (sqrt_pos (q2 v)). nra.
  - rewrite <- sqrt_1. now apply sqrt_le_1_alt.
Qed.
Lemma reach_ball u p : (forall q, In q u -> n2 q <= 1) -> reach u p -> n2 p <= 1.
Proof. intros H. induction 1 as [v Hv|a b _ Ha _ Hb]; [auto|]. apply q2_n2. apply q2_n2 in Ha. apply q2_n2 in Hb. pose proof (q2_mid a b). lra. Qed.

(** * Dividing a mesh among processes changes no result: assembled gradients (C75) *)
From Coq Require Import NArith ZArith Reals List Lia Lra Bool Permutation.
From Verif Require Import Prelude DofCodec Sums Restriction Csr Kernels FunctionalModel FunctionalGrad FunctionalTotal Assembly WeakForm ParallelModel ParallelFacts ParallelSum.
Import ListNotations.
Local Open Scope R_scope.

Definition unit_vec (n j : nat) : list R := tab n (fun i => if Nat.eqb i j then 1 else 0).
Lemma unit_pick n j (F : nat -> R) : (j < n)%nat -> sumn n (fun i => F i * nth i (unit_vec n j) 0) = F j.
Proof.
  intros H. rewrite (sumn_ext n _ (fun i => if Nat.eqb i j then F i else 0)); [now apply sumn_delta|].
  intros i Hi. unfold unit_vec. rewrite nth_tab by auto. destruct (Nat.eqb i j); ring.
Qed.
Lemma nth_tab_eq n f g i : tab n f = tab n g -> (i < n)%nat -> f i = g i.
Proof. intros H Hi. rewrite <- (nth_tab n f i 0 Hi), <- (nth_tab n g i 0 Hi). now rewrite H. Qed.

Section Matrix.
Context {St : Type}.
Notation gkernel := (gkernel St). Notation integral := (integral St).
Notation functional := (functional St). Notation mem := (mem St). Notation rank := (rank St).
Notation positions := (nat -> nat -> list nat).

(** a process with elements, each local dof of the test space on one of them; [order] arranges the keys of its lookup table *)
Definition tabulated (k : rank) (w : nat) (order : list entry) : Prop :=
  wf_assembly (local_functional k) w (k_lsize k) (k_tsize k w) /\ same_elements (local_functional k) w /\
  (forall rt, In rt (f_test (k_all k) Elements) -> (r_num_nodes rt * r_components rt)%nat = k_lsize k) /\
  (forall l, (l < k_lsize k)%nat -> exists col, coupled (blocks_of (local_functional k) w Elements) (Z.of_nat l, col)) /\
  (0 < k_lsize k)%nat /\ (Z.of_nat (k_lsize k) <= 2 ^ 32)%Z /\
  (forall x, coupled (blocks_of (local_functional k) w BoundaryElements) x -> coupled (blocks_of (local_functional k) w Elements) x) /\
  Permutation order (map fst (lut_keys (emitted_all (blocks_of (local_functional k) w Elements)))).
Lemma combine_nth {A B} (a : list A) : forall (b : list B) x y, In (x, y) (combine a b) -> exists n, nth_error a n = Some x /\ nth_error b n = Some y.
Proof.
  induction a as [|p a IH]; intros [|q b] x y H; try contradiction. destruct H as [E|H]; [inversion E; exists 0%nat; auto|].
  destruct (IH b x y H) as (n & A1 & A2). exists (Datatypes.S n). auto.
Qed.
Lemma table_there k w order : tabulated k w order -> exists c, local_table k w order = Ok c /\ valid_csr (k_lsize k) (coupled (blocks_of (local_functional k) w Elements)) c.
Proof.
  intros ((W1 & W2 & _) & Se & Hn & Hr & H0 & _ & _ & Ho). apply table_for_mesh; auto. intros te tr Hin. apply combine_nth in Hin as (n & A1 & A2).
  split; [eapply W1, nth_error_In; eauto|]. split; [eapply W2, nth_error_In; eauto|]. split; [eapply Hn, nth_error_In; exact A1|]. eapply Se; eauto.
Qed.

Lemma rows_act w ntr (ks : list rank) : forall cs ms, length cs = length ks -> length ms = length ks ->
  (forall k c m, In (k, c, m) (combine (combine ks cs) ms) -> tabulated k w c /\ all_written (local_functional k) w m) ->
  exists Vs, par_assemble ks w cs ms = Ok Vs /\
    forall dx, length dx = ntr -> exists rs,
      mapO (fun km => action (local_functional (fst km)) w (snd km) (prolong (k_tsize (fst km) w) ntr (k_Ptrial (fst km) w) dx) (k_lsize (fst km))) (combine ks ms) = Ok rs /\
      forall i, sumn ntr (fun j => par_matrix ks Vs w i j * nth j dx 0) = back ks rs i.
Proof.
  induction ks as [|k ks IH]; intros [|o cs] [|m ms] Hc Hm H; cbn in Hc, Hm; try lia.
  - exists []. split; [reflexivity|]. intros dx _. exists []. split; [reflexivity|]. intros i. unfold back. cbn [combine suml].
    apply sumn_zero. intros j _. unfold par_matrix. cbn. ring.
  - destruct (IH cs ms) as (Vs & A & B); [lia|lia| |]. { intros k' c' m' Hin. apply H. now right. }
    destruct (H k o m (or_introl eq_refl)) as (Ht & Hw). destruct (table_there k w o Ht) as (c & C1 & W3). destruct Ht as (W1 & W2 & _ & _ & _ & W4 & W5 & _).
    destruct (assembled_true_agrees (local_functional k) w m c (k_lsize k) (k_tsize k w) ntr (k_Ptest k) (k_Ptrial k w) W1 W2 Hw W3 W4 W5) as (V & D & E).
    exists ((c, V) :: Vs). split.
    + unfold par_assemble in *. cbn [combine mapO fst snd]. rewrite C1. cbn [bindO]. rewrite D. cbn [bindO]. rewrite A. reflexivity.
    + intros dx Hdx. destruct (B dx Hdx) as (rs & B1 & B2). destruct (E dx Hdx) as (act & E1 & E2). exists (act :: rs). split.
      * cbn [combine mapO fst snd]. rewrite E1. cbn [bindO]. rewrite B1. reflexivity.
      * intros i. unfold back. cbn [combine suml fst snd]. fold (back ks rs i). rewrite <- B2, <- E2, <- sumn_plus. apply sumn_ext. intros j _.
        unfold par_matrix. cbn [combine suml fst snd]. ring.
Qed.

Variable ntest : nat.
Variable nt : nat -> nat.
Variable S : rank.

Lemma remember_len (parts : list (rank * positions)) mS ms : remember S parts mS ms -> length ms = length parts.
Proof. intros H. induction H; cbn; congruence. Qed.
Lemma parts_written parts w mS ms all : covers S all -> incl parts all -> (forall k pos, In (k, pos) all -> sound k /\ is_part ntest nt S k pos) ->
  sound S -> remember S parts mS ms -> all_written (local_functional S) w mS -> forall k m, In (k, m) (combine (map fst parts) ms) -> all_written (local_functional k) w m.
Proof.
  intros Hc Hi Ha HS Hm Hw. induction Hm as [|[k pos] mk parts ms Hk Hms IH]; intros k' m' Hin; [contradiction|].
  cbn [map combine fst] in Hin. destruct Hin as [E|Hin].
  - inversion E; subst. cbn [fst snd] in Hk. assert (In (k', pos) all) by (apply Hi; now left). destruct (Ha k' pos) as [A B]; auto.
    eapply (part_written ntest nt S HS all); eauto.
  - apply IH; auto. intros p Hp. apply Hi. now right.
Qed.

Theorem divided_matrix parts w cs cS mS ms : divides ntest nt S parts -> remember S parts mS ms -> all_written (local_functional S) w mS ->
  length cs = length parts -> (forall k c, In (k, c) (combine (map fst parts) cs) -> tabulated k w c) -> tabulated S w cS ->
  exists Vs VS, par_assemble (map fst parts) w cs ms = Ok Vs /\ par_assemble [S] w [cS] [mS] = Ok VS /\
    forall i j, (i < ntest)%nat -> (j < nt w)%nat -> par_matrix (map fst parts) Vs w i j = par_matrix [S] VS w i j.
Proof.
  intros Hd Hm Hw Hl Ht HtS. pose proof Hd as (HS & Ha & Hc).
  assert (Lm := remember_len _ _ _ Hm).
  destruct (rows_act w (nt w) (map fst parts) cs ms) as (Vs & A & B).
  { now rewrite map_length. } { now rewrite map_length. }
  { intros k c m Hin. split.
    - apply Ht. clear - Hin. revert cs ms Hin. induction (map fst parts) as [|a l IH]; intros [|b cs] [|d ms] Hin; cbn in Hin; try contradiction.
      destruct Hin as [E|Hin]; [inversion E; now left|right; eauto].
    - apply (parts_written parts w mS ms parts Hc (incl_refl _) Ha HS Hm Hw k m). clear - Hin. revert cs ms Hin. induction (map fst parts) as [|a l IH]; intros [|b cs] [|d ms] Hin; cbn in Hin; try contradiction.
      destruct Hin as [E|Hin]; [inversion E; now left|right; eauto]. }
  destruct (rows_act w (nt w) [S] [cS] [mS] eq_refl eq_refl) as (Vs' & A' & B').
  { intros k c m [E|[]]. inversion E; subst. auto. }
  exists Vs, Vs'. split; [exact A|]. split; [exact A'|]. intros i j Hi Hj.
  assert (Lu : length (unit_vec (nt w) j) = nt w) by apply tab_length.
  destruct (B _ Lu) as (rs & B1 & B2). destruct (B' _ Lu) as (rs' & B1' & B2').
  assert (Hargs : (forall k pos, In (k, pos) parts -> sound_argument k w)).
  { intros k pos Hin dt rr Hr. apply (in_map fst) in Hin. cbn in Hin. assert (X : exists c, In (k, c) (combine (map fst parts) cs)).
    { clear - Hin Hl. assert (length cs = length (map fst parts)) by (now rewrite map_length). clear Hl. revert cs H. induction (map fst parts) as [|a l IH]; intros [|b cs] H; cbn in *; try contradiction; try lia.
      destruct Hin as [->|Hin]; [eauto|]. destruct (IH Hin cs) as (c & Hc); [lia|]. eauto. }
    destruct X as (c & X). destruct (Ht k c X) as ((_ & W2 & _) & _). now apply (W2 dt rr). }
  assert (HargS : sound_argument S w). { intros dt rr Hr. destruct HtS as ((_ & W2 & _) & _). now apply (W2 dt rr). }
  destruct (divided_action ntest nt S HS parts w (unit_vec (nt w) j) mS ms Hd Hargs HargS Hm Hw) as (T & C1 & C2).
  unfold par_action in C1, C2. rewrite B1 in C1. rewrite B1' in C2. cbn [bindO] in C1, C2.
  assert (E : tab ntest (back (map fst parts) rs) = tab ntest (back [S] rs')) by congruence.
  apply (nth_tab_eq _ _ _ i) in E; [|exact Hi]. rewrite <- B2, <- B2' in E. rewrite !unit_pick in E by auto. exact E.
Qed.

(** a process without elements: entries[0] of an empty vector (dof_numbering.hpp:336) *)
Lemma empty_table k w : emitted_all (blocks_of (@local_functional St k) w Elements) = [] -> local_table k w [] = UB.
Proof. intros E. unfold local_table. rewrite E. reflexivity. Qed.

(** ** quantities of interest *)
Definition quantity (k : rank) : Prop := k_lsize k = 1%nat /\ k_Ptest k 0%nat 0%nat = 1.
Definition gradient_ready (k : rank) (w : nat) : Prop :=
  quantity k /\ wf_assembly (local_functional k) w 1 (k_tsize k w) /\ same_elements (local_functional k) w.

Lemma gradients_act w ntr (ks : list rank) : forall ms, length ms = length ks ->
  (forall k m, In (k, m) (combine ks ms) -> gradient_ready k w /\ all_written (local_functional k) w m) ->
  exists gs, mapO (fun km => assemble_qoi (local_functional (fst km)) w (snd km) (k_tsize (fst km) w)) (combine ks ms) = Ok gs /\
    forall dx, exists rs,
      mapO (fun km => action (local_functional (fst km)) w (snd km) (prolong (k_tsize (fst km) w) ntr (k_Ptrial (fst km) w) dx) (k_lsize (fst km))) (combine ks ms) = Ok rs /\
      sumn ntr (fun j => suml (combine ks gs) (fun p => sumn (k_tsize (fst p) w) (fun l => k_Ptrial (fst p) w l j * nth l (snd p) 0)) * nth j dx 0) = back ks rs 0.
Proof.
  induction ks as [|k ks IH]; intros [|m ms] Hm H; cbn in Hm; try lia.
  - exists []. split; [reflexivity|]. intros dx. exists []. split; [reflexivity|]. apply sumn_zero. intros. cbn. ring.
  - destruct (IH ms) as (gs & A & B); [lia| |]. { intros k' m' Hin. apply H. now right. }
    destruct (H k m (or_introl eq_refl)) as (((Q1 & Q2) & W1 & W2) & Hw).
    destruct (assembled_qoi_agrees (local_functional k) w m (k_tsize k w) W1 W2 Hw) as (g & D & E & F).
    exists (g :: gs). split.
    + cbn [combine mapO fst snd]. rewrite D. cbn [bindO]. rewrite A. reflexivity.
    + intros dx. destruct (B dx) as (rs & B1 & B2). destruct (F (prolong (k_tsize k w) ntr (k_Ptrial k w) dx)) as (a & F1 & F2); [apply tab_length|].
      exists ([a] :: rs). split.
      * cbn [combine mapO fst snd]. rewrite Q1, F1. cbn [bindO]. rewrite B1. reflexivity.
      * unfold back. cbn [combine suml fst snd]. fold (back ks rs 0%nat). rewrite <- B2, Q1. cbn [sumn nth]. rewrite Q2, Rplus_0_l, Rmult_1_l, <- F2.
        unfold dot. rewrite E.
        rewrite (sumn_ext (k_tsize k w) (fun i => nth i g 0 * nth i (prolong (k_tsize k w) ntr (k_Ptrial k w) dx) 0)
                   (fun i => sumn ntr (fun j => k_Ptrial k w i j * nth i g 0 * nth j dx 0))).
        2:{ intros i Hi. unfold prolong. rewrite nth_tab by auto. rewrite <- sumn_scal_l. apply sumn_ext. intros. ring. }
        rewrite sumn_swap, <- sumn_plus. apply sumn_ext. intros j _. rewrite sumn_scal_r. ring.
Qed.

Theorem divided_gradient parts w mS ms : divides 1 nt S parts -> ntest = 1%nat -> remember S parts mS ms -> all_written (local_functional S) w mS ->
  (forall k pos, In (k, pos) parts -> gradient_ready k w) -> gradient_ready S w ->
  exists g, par_gradient (map fst parts) w (nt w) ms = Ok g /\ par_gradient [S] w (nt w) [mS] = Ok g.
Proof.
  intros Hd E1 Hm Hw Ht HtS. pose proof Hd as (HS & Ha & Hc). rewrite <- E1 in Ha, Hd. assert (Lm := remember_len _ _ _ Hm).
  destruct (gradients_act w (nt w) (map fst parts) ms) as (gs & A & B).
  { now rewrite map_length. }
  { intros k m Hin. split; [|now apply (parts_written parts w mS ms parts Hc (incl_refl _) Ha HS Hm Hw k m)].
    apply in_combine_l in Hin. apply in_map_iff in Hin as ([k' pos] & E & Hin). cbn in E. subst k'. eauto. }
  destruct (gradients_act w (nt w) [S] [mS] eq_refl) as (gs' & A' & B').
  { intros k m [E|[]]. inversion E; subst. auto. }
  exists (tab (nt w) (fun j => suml (combine (map fst parts) gs) (fun p => sumn (k_tsize (fst p) w) (fun l => k_Ptrial (fst p) w l j * nth l (snd p) 0)))).
  split; [unfold par_gradient; now rewrite A|]. unfold par_gradient. rewrite A'. cbn [bindO]. f_equal. apply tab_ext. intros j Hj.
  destruct (B (unit_vec (nt w) j)) as (rs & B1 & B2). destruct (B' (unit_vec (nt w) j)) as (rs' & B1' & B2').
  assert (Hargs : (forall k pos, In (k, pos) parts -> sound_argument k w)).
  { intros k pos Hin dt rr Hr. destruct (Ht k pos Hin) as (_ & (_ & W2 & _) & _). now apply (W2 dt rr). }
  assert (HargS : sound_argument S w). { intros dt rr Hr. destruct HtS as (_ & (_ & W2 & _) & _). now apply (W2 dt rr). }
  destruct (divided_action ntest nt S HS parts w (unit_vec (nt w) j) mS ms Hd Hargs HargS Hm Hw) as (T & C1 & C2).
  unfold par_action in C1, C2. rewrite B1 in C1. rewrite B1' in C2. cbn [bindO] in C1, C2.
  assert (E : tab ntest (back (map fst parts) rs) = tab ntest (back [S] rs')) by congruence.
  apply (nth_tab_eq _ _ _ 0%nat) in E; [|lia]. rewrite <- B2, <- B2' in E.
  rewrite !(unit_pick (nt w) j (fun j0 => suml _ (fun p => sumn _ (fun l => k_Ptrial (fst p) w l j0 * nth l (snd p) 0)))) in E by auto. symmetry. exact E.
Qed.
End Matrix.

Section After.
Context {St : Type}.
Notation mem := (mem St). Notation rank := (rank St).
Notation positions := (nat -> nat -> list nat).

(** differentiating stores every derivative the action reads *)
Lemma differentiated (S : rank) t w upd ntest nt X (mS mS' : mem) T : sound S -> par_evaluate [S] t (Some w) upd ntest nt X [mS] = Ok (T, [mS']) ->
  all_written (local_functional S) w mS'.
Proof.
  intros HS E. destruct (rank_work S t (Some w) upd nt X mS HS) as (L & D & _). unfold par_evaluate in E. cbn [combine mapO fst snd] in E. rewrite D in E.
  cbn [bindO map fst snd] in E. injection E as _ Em. intros n Ig s g G e q Hn Hs HG He Hq. rewrite <- Em.
  pose proof (mem_sum_stored (local_functional S) w t upd (local_input S nt X) mS n Ig s g G e q Hn Hs HG He Hq) as D'. intros N. cbn [local_functional f_integrals] in D'. rewrite N in D'. discriminate.
Qed.
(** two divisions of one mesh *)
Theorem two_divisions ntest nt (S : rank) (parts parts' : list (rank * positions)) qs mS ms ms' : divides ntest nt S parts -> divides ntest nt S parts' ->
  remember S parts mS ms -> remember S parts' mS ms' ->
  exists Ts m m', par_history (map fst parts) ntest nt qs ms = Ok (Ts, m) /\ par_history (map fst parts') ntest nt qs ms' = Ok (Ts, m').
Proof.
  intros H H' Hm Hm'. destruct (divided_history ntest nt S (proj1 H) parts qs mS ms H Hm) as (Ts & mS1 & m & A & B & _).
  destruct (divided_history ntest nt S (proj1 H') parts' qs mS ms' H' Hm') as (Ts' & mS2 & m' & A' & B' & _).
  rewrite B in B'. injection B' as <- <-. exists Ts, m, m'. auto.
Qed.
End After.

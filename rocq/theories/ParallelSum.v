(** * Dividing a mesh among processes changes no result: sums over the processes (C75) *)
From Coq Require Import NArith ZArith Reals List Lia Lra Bool Permutation.
From Verif Require Import Prelude DofCodec Sums Restriction Csr Kernels FunctionalModel FunctionalGrad FunctionalTotal Assembly WeakForm ParallelModel ParallelFacts.
Import ListNotations.
Local Open Scope R_scope.

Lemma suml_nth (l : list nat) (F : nat -> R) : suml l F = sumn (length l) (fun i => F (nth i l 0%nat)).
Proof. induction l as [|a l IH]; [reflexivity|]. cbn [suml length]. rewrite sumn_S_l. cbn [nth]. now rewrite IH. Qed.
Lemma tab_ext n f g : (forall i, (i < n)%nat -> f i = g i) -> tab n f = tab n g.
Proof. intros H. unfold tab. apply map_ext_in. intros i Hi. apply H. apply in_seq in Hi. lia. Qed.

Section Sums.
Context {St : Type}.
Notation gkernel := (gkernel St). Notation integral := (integral St).
Notation functional := (functional St). Notation mem := (mem St). Notation rank := (rank St).
Notation positions := (nat -> nat -> list nat).
Variable ntest : nat.
Variable nt : nat -> nat.
Variable S : rank.
Hypothesis HS : sound S.

(** the term of an element of the whole *)
Definition whole_at (h : nat -> integral -> nat -> gkernel -> restriction -> nat -> R) (d g e : nat) : R :=
  match nth_error (f_integrals (k_all S)) d with None => 0 | Some Ig =>
    match nth_error (i_geoms Ig) g, nth_error (f_test (k_all S) (i_type Ig)) g with Some G, Some r => h d Ig g G r e | _, _ => 0 end end.
Definition geoms_of (d : nat) : nat := match nth_error (f_integrals (k_all S)) d with None => 0%nat | Some Ig => length (i_geoms Ig) end.
Definition at_positions (h : nat -> integral -> nat -> gkernel -> restriction -> nat -> R) (pos : positions) : R :=
  sumn (length (f_integrals (k_all S))) (fun d => sumn (geoms_of d) (fun g => suml (pos d g) (whole_at h d g))).

Lemma over_part k pos h hS : sound k -> is_part ntest nt S k pos ->
  (forall d Ig Ig' g G G' r r' le, nth_error (f_integrals (k_all k)) d = Some Ig -> nth_error (f_integrals (k_all S)) d = Some Ig' ->
     nth_error (i_geoms Ig) g = Some G -> nth_error (i_geoms Ig') g = Some G' -> (le < length (gk_elems G))%nat ->
     nth_error (f_test (k_all k) (i_type Ig)) g = Some r -> nth_error (f_test (k_all S) (i_type Ig')) g = Some r' ->
     h d Ig g G r le = hS d Ig' g G' r' (nth le (pos d g) 0%nat)) ->
  over_elements k h = at_positions hS pos.
Proof.
  intros (Wk & _) [Hl Hp] H. unfold over_elements, at_positions. rewrite Hl. apply sumn_ext. intros d Hd.
  destruct (nth_error (f_integrals (k_all S)) d) as [Ig'|] eqn:EI'; [|apply nth_error_None in EI'; lia].
  destruct (nth_error (f_integrals (k_all k)) d) as [Ig|] eqn:EI; [|apply nth_error_None in EI; lia].
  destruct (Hp d Ig Ig' EI EI') as (Et & Ea & Eg & Hg). unfold geoms_of. rewrite EI', <- Eg. apply sumn_ext. intros g Hgl.
  destruct (nth_error (i_geoms Ig) g) as [G|] eqn:EG; [|apply nth_error_None in EG; lia].
  destruct (nth_error (i_geoms Ig') g) as [G'|] eqn:EG'; [|apply nth_error_None in EG'; lia].
  destruct (Wk Ig (nth_error_In _ _ EI)) as (_ & _ & W1 & _). destruct HS as (WS & _). destruct (WS Ig' (nth_error_In _ _ EI')) as (_ & _ & W2 & _).
  destruct (nth_error (f_test (k_all k) (i_type Ig)) g) as [r|] eqn:Er; [|apply nth_error_None in Er; lia].
  destruct (nth_error (f_test (k_all S) (i_type Ig')) g) as [r'|] eqn:Er'; [|apply nth_error_None in Er'; lia].
  destruct (Hg g G G' EG EG') as (_ & Hlen & _). rewrite suml_nth, Hlen. apply sumn_ext. intros le Hle.
  unfold whole_at. rewrite EI', EG', Er'. now apply H.
Qed.
Lemma over_whole h (parts : list (rank * positions)) : covers S parts -> suml parts (fun p => at_positions h (snd p)) = over_elements S h.
Proof.
  intros C. unfold at_positions. rewrite suml_sumn_swap. unfold over_elements. apply sumn_ext. intros d Hd.
  unfold geoms_of. destruct (nth_error (f_integrals (k_all S)) d) as [Ig|] eqn:EI; [|apply nth_error_None in EI; lia].
  rewrite suml_sumn_swap. apply sumn_ext. intros g Hg.
  rewrite <- (suml_flat_map (fun p : rank * positions => snd p d g)).
  destruct (nth_error (i_geoms Ig) g) as [G|] eqn:EG; [|apply nth_error_None in EG; lia].
  rewrite (suml_perm _ _ _ (C d Ig g G EI EG)), suml_seq. destruct HS as (WS & _). destruct (WS Ig (nth_error_In _ _ EI)) as (_ & _ & W & _).
  destruct (nth_error (f_test (k_all S) (i_type Ig)) g) as [r|] eqn:Er; [|apply nth_error_None in Er; lia].
  apply sumn_ext. intros le Hle. unfold whole_at. now rewrite EI, EG, Er.
Qed.
Lemma part_range (parts : list (rank * positions)) k pos : covers S parts -> In (k, pos) parts ->
  forall d Ig g G, nth_error (f_integrals (k_all S)) d = Some Ig -> nth_error (i_geoms Ig) g = Some G -> forall e, In e (pos d g) -> (e < length (gk_elems G))%nat.
Proof.
  intros C Hin d Ig g G HI HG e He.
  assert (A : In e (flat_map (fun p => snd p d g) parts)) by (apply in_flat_map; exists (k, pos); auto).
  apply (Permutation_in _ (C d Ig g G HI HG)) in A. apply in_seq in A. lia.
Qed.

(** ** evaluation *)
Lemma back_column k L T : sumn (k_lsize k) (fun l => k_Ptest k l T * nth l L 0) = sumn (k_lsize k) (fun l => nth l L 0 * nth l (@column St k T) 0).
Proof. apply sumn_ext. intros l Hl. unfold column. rewrite nth_tab by auto. ring. Qed.
Definition work_S t X mS T := fun d => elem_work (local_functional S) t (local_input S nt X) mS (column S T) (number S d).

Lemma parts_evaluate t wrt upd X mS parts : forall ms all, covers S all -> incl parts all ->
  (forall k pos, In (k, pos) all -> sound k /\ is_part ntest nt S k pos) -> remember S parts mS ms ->
  exists rs, mapO (fun km => evaluate (local_functional (fst km)) t wrt upd (local_input (fst km) nt X) (k_lsize (fst km)) (snd km)) (combine (map fst parts) ms) = Ok rs /\
    remember S parts (mem_sum (local_functional S) t wrt upd (local_input S nt X) 0 (f_integrals (local_functional S)) mS) (map snd rs) /\
    forall T, (T < ntest)%nat -> back (map fst parts) (map fst rs) T = suml parts (fun p => at_positions (work_S t X mS T) (snd p)).
Proof.
  induction parts as [|[k pos] parts IH]; intros ms all Hc Hi Ha Hm; inversion Hm as [|x mk l ms' Hk Hms E1 E2]; subst.
  - exists []. split; [reflexivity|]. split; [constructor|]. reflexivity.
  - destruct (IH ms' all Hc) as (rs & A & B & C); auto. { intros p Hp. apply Hi. now right. }
    assert (Hin : In (k, pos) all) by (apply Hi; now left). destruct (Ha k pos Hin) as [Sk Pk]. cbn [fst snd] in Hk.
    pose proof (part_range all k pos Hc Hin) as Hr.
    destruct (rank_work k t wrt upd nt X mk Sk) as (L & D & F).
    exists ((L, mem_sum (local_functional k) t wrt upd (local_input k nt X) 0 (f_integrals (local_functional k)) mk) :: rs).
    split; [|split].
    + cbn [map combine mapO fst snd]. rewrite D. cbn [bindO]. rewrite A. reflexivity.
    + cbn [map snd]. constructor; [|exact B]. cbn [fst snd]. now apply (part_memory ntest nt S HS k pos Sk Pk Hr).
    + intros T HT. unfold back. cbn [map combine suml fst snd]. fold (back (map fst parts) (map fst rs) T). rewrite (C T HT). f_equal.
      rewrite back_column, F. apply over_part; auto. intros d Ig Ig' g G G' r r' le H1 H2 H3 H4 H5 H6 H7.
      unfold work_S. now apply (part_work ntest nt S HS k pos Sk Pk Hr).
Qed.

Theorem divided_evaluation parts t wrt upd X mS ms : divides ntest nt S parts -> remember S parts mS ms ->
  exists T mS' ms', par_evaluate (map fst parts) t wrt upd ntest nt X ms = Ok (T, ms') /\
    par_evaluate [S] t wrt upd ntest nt X [mS] = Ok (T, [mS']) /\ remember S parts mS' ms'.
Proof.
  intros (_ & Ha & Hc) Hm. destruct (parts_evaluate t wrt upd X mS parts ms parts Hc (incl_refl _) Ha Hm) as (rs & A & B & C).
  destruct (rank_work S t wrt upd nt X mS HS) as (L & D & F).
  exists (tab ntest (back (map fst parts) (map fst rs))), (mem_sum (local_functional S) t wrt upd (local_input S nt X) 0 (f_integrals (local_functional S)) mS), (map snd rs).
  split; [|split; [|exact B]].
  - unfold par_evaluate. rewrite A. reflexivity.
  - unfold par_evaluate. cbn [combine mapO fst snd]. rewrite D. cbn [bindO map fst snd]. do 2 f_equal. apply tab_ext. intros T HT.
    rewrite (C T HT), (over_whole _ _ Hc). unfold back. cbn [combine suml fst snd]. rewrite Rplus_0_r, back_column, F. reflexivity.
Qed.

Theorem divided_history parts qs : forall mS ms, divides ntest nt S parts -> remember S parts mS ms ->
  exists Ts mS' ms', par_history (map fst parts) ntest nt qs ms = Ok (Ts, ms') /\ par_history [S] ntest nt qs [mS] = Ok (Ts, [mS']) /\ remember S parts mS' ms'.
Proof.
  induction qs as [|q qs IH]; intros mS ms Hd Hm.
  - exists [], mS, ms. auto.
  - destruct (divided_evaluation parts (rq_t q) (rq_wrt q) (rq_update q) (rq_in q) mS ms Hd Hm) as (T & mS1 & ms1 & A & B & C).
    destruct (IH mS1 ms1 Hd C) as (Ts & mS2 & ms2 & D & E & F). exists (T :: Ts), mS2, ms2. cbn [par_history].
    rewrite A, B. cbn [bindO snd]. rewrite D, E. cbn [bindO fst snd]. auto.
Qed.

(** ** the action of the gradient *)
Definition tangent_S w dx mS T := fun d => elem_tangent (local_functional S) w (prolong (k_tsize S w) (nt w) (k_Ptrial S w) dx) mS (column S T) (number S d).
(** a functional's argument [w] is laid out consistently on a process *)
Definition sound_argument (k : rank) (w : nat) : Prop := forall dt rr, In rr (f_trial (k_all k) w dt) -> ids_ok rr (k_tsize k w).

Lemma filter_index {A} (p : A -> bool) (l : list A) : forall n a, nth_error (filter p l) n = Some a ->
  exists d, nth_error l d = Some a /\ length (filter p (firstn d l)) = n /\ p a = true.
Proof.
  induction l as [|x l IH]; intros n a H; [destruct n; discriminate|]. cbn [filter] in H. destruct (p x) eqn:E.
  - destruct n as [|n].
    + cbn in H. inversion H; subst. exists 0%nat. repeat split; auto.
    + cbn in H. destruct (IH n a H) as (d & A1 & B1 & C1). exists (Datatypes.S d). cbn [nth_error firstn filter]. rewrite E. cbn [length]. auto.
  - destruct (IH n a H) as (d & A1 & B1 & C1). exists (Datatypes.S d). cbn [nth_error firstn filter]. rewrite E. auto.
Qed.
Lemma part_written parts k pos w mS mk : covers S parts -> In (k, pos) parts -> sound k -> is_part ntest nt S k pos ->
  same_memory S k pos mS mk -> all_written (local_functional S) w mS -> all_written (local_functional k) w mk.
Proof.
  intros Hc Hin Sk Pk Hm Hw n Ig s g G e q HI Es HG He Hq.
  destruct (filter_index (kept k) (f_integrals (k_all k)) n Ig HI) as (d & Hd & <- & Kd).
  destruct Pk as [Hl Hp]. destruct (nth_error (f_integrals (k_all S)) d) as [Ig'|] eqn:HI'.
  2:{ apply nth_error_None in HI'. rewrite <- Hl in HI'. apply nth_error_None in HI'. congruence. }
  destruct (Hp d Ig Ig' Hd HI') as (Et & Ea & Eg & Hg).
  destruct (nth_error (i_geoms Ig') g) as [G'|] eqn:HG'.
  2:{ apply nth_error_None in HG'. rewrite <- Eg in HG'. apply nth_error_None in HG'. congruence. }
  pose proof (part_range parts k pos Hc Hin) as Hr.
  destruct (elem_there ntest nt S k pos (conj Hl Hp) Hr d Ig Ig' g G G' e Hd HI' HG HG' He) as (L1 & _ & _).
  destruct (Hg g G G' HG HG') as ((K1 & K2 & _) & _ & _).
  destruct (Hm d Ig g G e q Hd HG He Hq) as (_ & E). assert (Hs : (s < length (i_active Ig))%nat) by (apply index_of_spec in Es; apply nth_error_Some; congruence).
  specialize (E s Hs).
  assert (NS : nth_error (f_integrals (local_functional S)) (number S d) = Some Ig').
  { apply number_lookup; auto. eapply kept_elems; eauto. eapply nth_error_In; eauto. }
  rewrite Ea in Es. rewrite K2 in Hq. specialize (Hw (number S d) Ig' s g G' (nth e (pos d g) 0%nat) q NS Es HG' L1 Hq).
  fold (number k d). destruct (m_d mk (number k d) s g e q); [discriminate|]. destruct (m_d mS (number S d) s g (nth e (pos d g) 0%nat) q); [contradiction|congruence].
Qed.

Lemma parts_action w dx mS parts : forall ms all, covers S all -> incl parts all ->
  (forall k pos, In (k, pos) all -> sound k /\ is_part ntest nt S k pos) -> (forall k pos, In (k, pos) all -> sound_argument k w) ->
  remember S parts mS ms -> all_written (local_functional S) w mS ->
  exists rs, mapO (fun km => action (local_functional (fst km)) w (snd km) (prolong (k_tsize (fst km) w) (nt w) (k_Ptrial (fst km) w) dx) (k_lsize (fst km))) (combine (map fst parts) ms) = Ok rs /\
    forall T, (T < ntest)%nat -> back (map fst parts) rs T = suml parts (fun p => at_positions (tangent_S w dx mS T) (snd p)).
Proof.
  induction parts as [|[k pos] parts IH]; intros ms all Hc Hi Ha Hb Hm Hw; inversion Hm as [|x mk l ms' Hk Hms E1 E2]; subst.
  - exists []. split; [reflexivity|]. reflexivity.
  - destruct (IH ms' all Hc) as (rs & A & C); auto. { intros p Hp. apply Hi. now right. }
    assert (Hin : In (k, pos) all) by (apply Hi; now left). destruct (Ha k pos Hin) as [Sk Pk]. cbn [fst snd] in Hk.
    pose proof (part_range all k pos Hc Hin) as Hr.
    destruct (rank_tangent k w (nt w) dx mk Sk) as (L & D & F).
    { eapply part_written; eauto. } { intros dt rr. now apply (Hb k pos Hin). }
    exists (L :: rs). split.
    + cbn [map combine mapO fst snd]. rewrite D. cbn [bindO]. rewrite A. reflexivity.
    + intros T HT. unfold back. cbn [map combine suml fst snd]. fold (back (map fst parts) rs T). rewrite (C T HT). f_equal.
      rewrite back_column, F. apply over_part; auto. intros d Ig Ig' g G G' r r' le H1 H2 H3 H4 H5 H6 H7.
      unfold tangent_S. now apply (part_tangent ntest nt S HS k pos Sk Pk Hr).
Qed.
Theorem divided_action parts w dx mS ms : divides ntest nt S parts -> (forall k pos, In (k, pos) parts -> sound_argument k w) -> sound_argument S w ->
  remember S parts mS ms -> all_written (local_functional S) w mS ->
  exists T, par_action (map fst parts) w ntest (nt w) dx ms = Ok T /\ par_action [S] w ntest (nt w) dx [mS] = Ok T.
Proof.
  intros (_ & Ha & Hc) Hb HbS Hm Hw. destruct (parts_action w dx mS parts ms parts Hc (incl_refl _) Ha Hb Hm Hw) as (rs & A & C).
  destruct (rank_tangent S w (nt w) dx mS HS Hw) as (L & D & F); [intros dt rr; apply HbS|].
  exists (tab ntest (back (map fst parts) rs)). split.
  - unfold par_action. rewrite A. reflexivity.
  - unfold par_action. cbn [combine mapO fst snd]. rewrite D. cbn [bindO map fst snd]. f_equal. apply tab_ext. intros T HT.
    rewrite (C T HT). rewrite (over_whole _ _ Hc). unfold back. cbn [combine suml fst snd]. rewrite Rplus_0_r, back_column, F. reflexivity.
Qed.
End Sums.

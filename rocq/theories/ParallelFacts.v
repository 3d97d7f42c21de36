(** * Dividing a mesh among processes changes no result: proofs (C75) *)
From Coq Require Import NArith ZArith Reals List Lia Lra Bool Permutation.
From Verif Require Import Prelude DofCodec Sums Restriction Csr Kernels FunctionalModel FunctionalGrad FunctionalTotal Assembly WeakForm ParallelModel.
Import ListNotations.
Local Open Scope R_scope.

Lemma filter_number {A} (p : A -> bool) (l : list A) : forall d a, nth_error l d = Some a -> p a = true ->
  nth_error (filter p l) (length (filter p (firstn d l))) = Some a.
Proof.
  induction l as [|x l IH]; intros [|d] a H Hp; cbn in H; try discriminate.
  - inversion H; subst. cbn. now rewrite Hp.
  - cbn [firstn filter]. destruct (p x); cbn [length nth_error]; now apply IH.
Qed.
Lemma filter_sum {A} (p : A -> bool) (l : list A) : forall (F : nat -> A -> R),
  sumn (length (filter p l)) (fun n => match nth_error (filter p l) n with None => 0 | Some a => F n a end) =
  sumn (length l) (fun d => match nth_error l d with None => 0 | Some a => if p a then F (length (filter p (firstn d l))) a else 0 end).
Proof.
  induction l as [|x l IH]; intros F; [reflexivity|]. cbn [length]. rewrite (sumn_S_l (length l)). cbn [nth_error firstn filter].
  destruct (p x) eqn:E.
  - cbn [length]. rewrite sumn_S_l. cbn [nth_error filter]. rewrite (IH (fun n => F (Datatypes.S n))). reflexivity.
  - rewrite IH. cbn [filter length]. rewrite Rplus_0_l. reflexivity.
Qed.
Lemma suml_combine_map {A B C} (h : B -> C) (l : list A) : forall (m : list B) (F : A * C -> R),
  suml (combine l (map h m)) F = suml (combine l m) (fun p => F (fst p, h (snd p))).
Proof. induction l as [|a l IH]; intros [|b m] F; try reflexivity. cbn [map combine suml fst snd]. now rewrite IH. Qed.

Section Facts.
Context {St : Type}.
Notation gkernel := (gkernel St). Notation integral := (integral St).
Notation functional := (functional St). Notation mem := (mem St). Notation rank := (rank St).
Notation positions := (nat -> nat -> list nat).

(** sum over the elements of all domains the user integrates over *)
Definition over_elements (k : rank) (h : nat -> integral -> nat -> gkernel -> restriction -> nat -> R) : R :=
  sumn (length (f_integrals (k_all k))) (fun d => match nth_error (f_integrals (k_all k)) d with None => 0 | Some Ig =>
    sumn (length (i_geoms Ig)) (fun g => match nth_error (i_geoms Ig) g, nth_error (f_test (k_all k) (i_type Ig)) g with
      | Some G, Some r => sumn (length (gk_elems G)) (h d Ig g G r) | _, _ => 0 end) end).

Lemma skipped_sum (k : rank) (h : nat -> integral -> nat -> gkernel -> restriction -> nat -> R) : sound k ->
  sumn (length (f_integrals (local_functional k))) (fun n => match nth_error (f_integrals (local_functional k)) n with None => 0 | Some Ig =>
    sumn (length (i_geoms Ig)) (fun g => match nth_error (i_geoms Ig) g, nth_error (f_test (local_functional k) (i_type Ig)) g with
      | Some G, Some r => sumn (length (gk_elems G)) (h n Ig g G r) | _, _ => 0 end) end) =
  over_elements k (fun d => h (number k d)).
Proof.
  intros (_ & _ & _ & Hc). cbn [local_functional f_integrals f_test].
  rewrite (filter_sum (kept k) (f_integrals (k_all k)) (fun n Ig => sumn (length (i_geoms Ig)) (fun g => match nth_error (i_geoms Ig) g, nth_error (f_test (k_all k) (i_type Ig)) g with
      | Some G, Some r => sumn (length (gk_elems G)) (h n Ig g G r) | _, _ => 0 end))).
  unfold over_elements. apply sumn_ext. intros d _. destruct (nth_error (f_integrals (k_all k)) d) as [Ig|] eqn:E; [|reflexivity].
  destruct (kept k Ig) eqn:K; [reflexivity|]. symmetry. apply sumn_zero. intros g _.
  destruct (nth_error (i_geoms Ig) g) as [G|] eqn:EG; [|reflexivity]. destruct (nth_error (f_test (k_all k) (i_type Ig)) g); [|reflexivity].
  unfold kept in K. apply negb_false_iff, Nat.eqb_eq in K. rewrite (Hc Ig G); auto; eapply nth_error_In; eauto.
Qed.

Lemma local_in (k : rank) Ig : In Ig (f_integrals (local_functional k)) -> In Ig (f_integrals (k_all k)).
Proof. intros H. now apply filter_In in H. Qed.
Lemma local_wf (k : rank) nt X : sound k -> wf (local_functional k) (k_lsize k) (fun w => length (local_input k nt X w)).
Proof.
  intros (W & _) Ig H. apply local_in in H. destruct (W Ig H) as (A & B & C & D). split; [exact A|]. split; [|split; auto].
  intros w r Hr. unfold local_input, prolong. rewrite tab_length. now apply B.
Qed.
Lemma local_fit (k : rank) : sound k -> all_fit (local_functional k).
Proof. intros (_ & F & _) Ig g G r H HG Hr. apply local_in in H. exact (F Ig g G r H HG Hr). Qed.

(** ** work of the residual on a field, element by element *)
Definition elem_work (f : functional) t (Ls : nat -> list R) (m : mem) (v : list R) n (Ig : integral) g (G : gkernel) r le : R :=
  sumn (gk_nq G) (fun q => sumn (es_c (gk_test G)) (fun i => sumn (gk_dim1 G) (fun b =>
    qf_out f t Ls m n Ig g G le q i b * test_field G r v le q i b)) * gk_w G q).
Lemma rank_work (k : rank) t wrt upd nt X m : sound k -> exists L,
  evaluate (local_functional k) t wrt upd (local_input k nt X) (k_lsize k) m =
    Ok (L, mem_sum (local_functional k) t wrt upd (local_input k nt X) 0 (f_integrals (local_functional k)) m) /\
  forall v, sumn (k_lsize k) (fun l => nth l L 0 * nth l v 0) =
    over_elements k (fun d => elem_work (local_functional k) t (local_input k nt X) m v (number k d)).
Proof.
  intros Hs. destruct (evaluate_spec (local_functional k) t wrt upd (local_input k nt X) (k_lsize k) m (local_wf k nt X Hs)) as (L & E & _).
  exists L. split; [exact E|]. intros v. rewrite (virtual_work _ t wrt upd _ _ _ _ _ (local_wf k nt X Hs) (local_fit k Hs) E v).
  exact (skipped_sum k (fun n => elem_work (local_functional k) t (local_input k nt X) m v n) Hs).
Qed.

(** ** work of the gradient *)
Definition elem_tangent (f : functional) (w : nat) (dx : list R) (m : mem) (v : list R) n (Ig : integral) g (G : gkernel) r le : R :=
  match index_of (i_active Ig) w, nth_error (f_trial f w (i_type Ig)) g with
  | Some s, Some rr => sumn (gk_nq G) (fun q => sumn (es_c (gk_test G)) (fun i => sumn (gk_dim1 G) (fun b =>
      chain_rule (gk_trial G s) (gk_dim1 G) (the_deriv (m_d m n s g le q))
        (interpolate (gk_trial G s) (elem_dofs (gk_trial G s) (gatherF rr dx) (nth le (gk_elems G) 0%nat)) q) i b
      * test_field G r v le q i b)) * gk_w G q)
  | _, _ => 0 end.
Lemma jvp_contrib_dot f w dx m n Ig lsize v :
  (forall r, In r (f_test f (i_type Ig)) -> ids_ok r lsize) -> length (i_geoms Ig) = length (f_test f (i_type Ig)) ->
  (forall g G r, nth_error (i_geoms Ig) g = Some G -> nth_error (f_test f (i_type Ig)) g = Some r -> fits G r) ->
  (forall s g G, index_of (i_active Ig) w = Some s -> nth_error (i_geoms Ig) g = Some G -> nth_error (f_trial f w (i_type Ig)) g <> None) ->
  sumn lsize (fun k => jvp_contrib f w m dx n Ig k * nth k v 0) =
  sumn (length (i_geoms Ig)) (fun g => match nth_error (i_geoms Ig) g, nth_error (f_test f (i_type Ig)) g with
      | Some G, Some r => sumn (length (gk_elems G)) (elem_tangent f w dx m v n Ig g G r) | _, _ => 0 end).
Proof.
  intros W1 W3 Hfit Htr. unfold jvp_contrib, jvp_blocks. destruct (index_of (i_active Ig) w) as [s|] eqn:Es.
  2:{ rewrite sumn_zero by (intros; cbn; ring). symmetry. apply sumn_zero. intros g _. destruct (nth_error (i_geoms Ig) g) as [G|]; [|reflexivity].
      destruct (nth_error (f_test f (i_type Ig)) g); [|reflexivity]. apply sumn_zero. intros le _. unfold elem_tangent. now rewrite Es. }
  set (bl := blocks_from _ _ _ _).
  rewrite (sumn_ext lsize _ (fun k => suml (combine (f_test f (i_type Ig)) bl) (fun p => contrib (fst p) (snd p) k * nth k v 0))) by (intros; now rewrite suml_scal_r).
  rewrite <- suml_sumn_swap. unfold bl.
  rewrite (blocks_dot _ _ 0 _ (fun r E => sumn lsize (fun k => contrib r E k * nth k v 0))) by exact W3.
  apply sumn_ext. intros g _. cbn [Nat.add]. destruct (nth_error (i_geoms Ig) g) as [G|] eqn:EG; [|reflexivity].
  destruct (nth_error (f_test f (i_type Ig)) g) as [r|] eqn:Er; [|reflexivity].
  assert (Hr : In r (f_test f (i_type Ig))) by (now apply nth_error_In in Er).
  rewrite (contrib_dot r _ lsize (fun k => nth k v 0)) by (now apply W1). unfold jvp_geom.
  rewrite accumulate_dot by (now apply (Hfit g)). apply sumn_ext. intros le _. unfold jvp. rewrite integrate_interpolate.
  unfold elem_tangent. rewrite Es. destruct (nth_error (f_trial f w (i_type Ig)) g) as [rr|] eqn:Err; [|exfalso; eapply Htr; eauto].
  rewrite (nth_error_nth (map (fun r0 => gatherF r0 dx) (f_trial f w (i_type Ig))) g [] (x := gatherF rr dx)) by (rewrite nth_error_map, Err; reflexivity).
  reflexivity.
Qed.
Lemma jvp_sum_dot f w dx m lsize v ints : forall n,
  (forall Ig, In Ig ints -> (forall r, In r (f_test f (i_type Ig)) -> ids_ok r lsize) /\ length (i_geoms Ig) = length (f_test f (i_type Ig)) /\
    (forall g G r, nth_error (i_geoms Ig) g = Some G -> nth_error (f_test f (i_type Ig)) g = Some r -> fits G r) /\
    (forall s g G, index_of (i_active Ig) w = Some s -> nth_error (i_geoms Ig) g = Some G -> nth_error (f_trial f w (i_type Ig)) g <> None)) ->
  sumn lsize (fun k => jvp_sum f w m dx n ints k * nth k v 0) =
  sumn (length ints) (fun j => match nth_error ints j with None => 0 | Some Ig =>
    sumn (length (i_geoms Ig)) (fun g => match nth_error (i_geoms Ig) g, nth_error (f_test f (i_type Ig)) g with
      | Some G, Some r => sumn (length (gk_elems G)) (elem_tangent f w dx m v (n + j) Ig g G r) | _, _ => 0 end) end).
Proof.
  induction ints as [|Ig ints IH]; intros n H.
  - cbn [jvp_sum length sumn]. apply sumn_zero. intros. ring.
  - cbn [jvp_sum length]. rewrite sumn_S_l. cbn [nth_error]. rewrite Nat.add_0_r.
    destruct (H Ig (or_introl eq_refl)) as (A & B & C & D). rewrite <- (jvp_contrib_dot f w dx m n Ig lsize v A B C D).
    rewrite (sumn_ext (length ints) _ (fun j => match nth_error ints j with None => 0 | Some Ig =>
      sumn (length (i_geoms Ig)) (fun g => match nth_error (i_geoms Ig) g, nth_error (f_test f (i_type Ig)) g with
        | Some G, Some r => sumn (length (gk_elems G)) (elem_tangent f w dx m v (Datatypes.S n + j) Ig g G r) | _, _ => 0 end) end)) by (intros; now rewrite Nat.add_succ_comm).
    rewrite <- IH by (intros J HJ; apply H; now right). rewrite <- sumn_plus. apply sumn_ext. intros. ring.
Qed.
Lemma rank_tangent (k : rank) w ntr dx m : sound k -> all_written (local_functional k) w m ->
  (forall dt rr, In rr (f_trial (k_all k) w dt) -> ids_ok rr (k_tsize k w)) -> exists L,
  action (local_functional k) w m (prolong (k_tsize k w) ntr (k_Ptrial k w) dx) (k_lsize k) = Ok L /\
  forall v, sumn (k_lsize k) (fun l => nth l L 0 * nth l v 0) =
    over_elements k (fun d => elem_tangent (local_functional k) w (prolong (k_tsize k w) ntr (k_Ptrial k w) dx) m v (number k d)).
Proof.
  intros Hs Hw Hi. pose proof Hs as (W & F & T & _).
  destruct (action_loop_spec (local_functional k) w m (prolong (k_tsize k w) ntr (k_Ptrial k w) dx) (k_lsize k) (f_integrals (local_functional k)) 0 (repeat 0 (k_lsize k))) as (L & A & B & C).
  - intros Ig H. apply local_in in H. destruct (W Ig H) as (A & B & _). split; [exact A|]. intros r Hr. unfold prolong. rewrite tab_length. eapply Hi; eauto.
  - intros n' Ig s g G e q. apply Hw.
  - apply repeat_length.
  - exists L. split; [exact A|]. intros v.
    rewrite (sumn_ext _ _ (fun l => jvp_sum (local_functional k) w m (prolong (k_tsize k w) ntr (k_Ptrial k w) dx) 0 (f_integrals (local_functional k)) l * nth l v 0))
      by (intros l Hl; rewrite C by auto; rewrite nth_repeat; ring).
    rewrite jvp_sum_dot.
    + cbn [Nat.add]. exact (skipped_sum k (fun n => elem_tangent (local_functional k) w (prolong (k_tsize k w) ntr (k_Ptrial k w) dx) m v n) Hs).
    + intros Ig H. apply local_in in H. destruct (W Ig H) as (A1 & _ & A3 & _). split; [exact A1|]. split; [exact A3|]. split; [intros g G r; now apply F|].
      intros s g G Es EG. destruct (T Ig s w g G H (index_of_spec _ _ _ Es) EG) as (rr & Hrr & _). cbn [local_functional f_trial]. rewrite Hrr. discriminate.
Qed.

(** ** one element of a part against the same element of the whole *)
Lemma elem_dofs_entry S r L el i j : es_c S = r_components r -> es_n S = r_nodes_per_elem r -> (el < r_num_elements r)%nat -> (i < es_c S)%nat -> (j < es_n S)%nat ->
  elem_dofs S (gatherF r L) el i j = nth (Z.to_nat (L_id r el i j)) L 0.
Proof. intros Hc Hn Hel Hi Hj. unfold elem_dofs. rewrite Hc, Hn in *. now apply gatherF_entry. Qed.
Lemma id_lt r n e c j : ids_ok r n -> (e < r_num_elements r)%nat -> (c < r_components r)%nat -> (j < r_nodes_per_elem r)%nat -> (Z.to_nat (L_id r e c j) < n)%nat.
Proof. intros H He Hc Hj. pose proof (H _ _ (loop_ids_entry r e c j He Hc Hj)). lia. Qed.

Variable ntest : nat.
Variable nt : nat -> nat.
Variable S : rank.
Hypothesis HS : sound S.

Definition column (k : rank) (T : nat) : list R := tab (k_lsize k) (fun l => k_Ptest k l T).

Section OnePart.
Variable k : rank.
Variable pos : positions.
Hypothesis Hk : sound k.
Hypothesis Hp : is_part ntest nt S k pos.
Hypothesis Hpos : forall d Ig g G, nth_error (f_integrals (k_all S)) d = Some Ig -> nth_error (i_geoms Ig) g = Some G ->
  forall e, In e (pos d g) -> (e < length (gk_elems G))%nat.

Section OneElement.
Variables (d : nat) (Ig Ig' : integral) (g : nat) (G G' : gkernel) (le : nat).
Hypothesis HI : nth_error (f_integrals (k_all k)) d = Some Ig.
Hypothesis HI' : nth_error (f_integrals (k_all S)) d = Some Ig'.
Hypothesis HG : nth_error (i_geoms Ig) g = Some G.
Hypothesis HG' : nth_error (i_geoms Ig') g = Some G'.
Hypothesis Hle : (le < length (gk_elems G))%nat.
Let le' := nth le (pos d g) 0%nat.
Let el := nth le (gk_elems G) 0%nat.
Let el' := nth le' (gk_elems G') 0%nat.

Lemma elem_there : (le' < length (gk_elems G'))%nat /\ In el (gk_elems G) /\ In el' (gk_elems G').
Proof.
  assert (A : (le' < length (gk_elems G'))%nat).
  { apply (Hpos d Ig' g G' HI' HG'). apply nth_In. destruct Hp as [_ H]. destruct (H d Ig Ig' HI HI') as (_ & _ & _ & H1).
    destruct (H1 g G G' HG HG') as (_ & -> & _). exact Hle. }
  split; [exact A|]. split; apply nth_In; auto.
Qed.
Lemma part_kind : i_type Ig = i_type Ig' /\ i_active Ig = i_active Ig' /\ same_kind G G' /\ same_integrand (length (i_active Ig)) G G' le le'.
Proof.
  destruct Hp as [_ H]. destruct (H d Ig Ig' HI HI') as (A & B & _ & H1). destruct (H1 g G G' HG HG') as (C & _ & E). destruct (E le Hle) as (F & _). auto.
Qed.
Lemma part_test r r' T q i b : nth_error (f_test (k_all k) (i_type Ig)) g = Some r -> nth_error (f_test (k_all S) (i_type Ig')) g = Some r' -> (T < ntest)%nat ->
  (i < es_c (gk_test G))%nat -> test_field G r (column k T) le q i b = test_field G' r' (column S T) le' q i b.
Proof.
  intros Hr Hr' HT Hi. destruct part_kind as (Et & Ea & (K1 & K2 & K3 & K4 & K5) & _). destruct elem_there as (L1 & L2 & L3).
  destruct Hp as [_ H]. destruct (H d Ig Ig' HI HI') as (_ & _ & _ & H1). destruct (H1 g G G' HG HG') as (_ & _ & E). destruct (E le Hle) as (_ & E1 & _).
  rewrite <- Et in Hr'. specialize (E1 r r' Hr Hr').
  destruct Hk as (Wk & Fk & _). destruct HS as (WS & FS & _).
  assert (I1 := nth_error_In _ _ HI). assert (I2 := nth_error_In _ _ HI').
  destruct (Fk Ig g G r I1 HG Hr) as (A1 & A2 & A3). rewrite Et in Hr'. destruct (FS Ig' g G' r' I2 HG' Hr') as (B1 & B2 & B3).
  destruct (Wk Ig I1) as (V1 & _). destruct (WS Ig' I2) as (V1' & _). assert (J1 := nth_error_In _ _ Hr). assert (J2 := nth_error_In _ _ Hr').
  unfold test_field. rewrite <- K4. apply interpolate_ext. intros j Hj. fold el el'. rewrite <- K4 in B1, B2.
  rewrite (elem_dofs_entry (gk_test G) r), (elem_dofs_entry (gk_test G) r') by auto. unfold column.
  rewrite !nth_tab; [apply E1; auto| |].
  - rewrite B1 in Hi. rewrite B2 in Hj. apply id_lt; auto.
  - rewrite A1 in Hi. rewrite A2 in Hj. apply id_lt; auto.
Qed.
Lemma part_trial s w rr rr' x q i a : nth_error (i_active Ig) s = Some w ->
  nth_error (f_trial (k_all k) w (i_type Ig)) g = Some rr -> nth_error (f_trial (k_all S) w (i_type Ig')) g = Some rr' ->
  (i < es_c (gk_trial G s))%nat ->
  interpolate (gk_trial G s) (elem_dofs (gk_trial G s) (gatherF rr (prolong (k_tsize k w) (nt w) (k_Ptrial k w) x)) el) q i a =
  interpolate (gk_trial G' s) (elem_dofs (gk_trial G' s) (gatherF rr' (prolong (k_tsize S w) (nt w) (k_Ptrial S w) x)) el') q i a.
Proof.
  intros Hw Hr Hr' Hi. destruct part_kind as (Et & Ea & (K1 & K2 & K3 & K4 & K5) & _). destruct elem_there as (L1 & L2 & L3).
  destruct Hp as [_ H]. destruct (H d Ig Ig' HI HI') as (_ & _ & _ & H1). destruct (H1 g G G' HG HG') as (_ & _ & E). destruct (E le Hle) as (_ & _ & E1).
  rewrite <- Et in Hr'. specialize (E1 s w rr rr' Hw Hr Hr').
  destruct Hk as (Wk & _ & Tk & _). destruct HS as (WS & _ & TS & _).
  assert (I1 := nth_error_In _ _ HI). assert (I2 := nth_error_In _ _ HI').
  destruct (Tk Ig s w g G I1 Hw HG) as (r1 & R1 & A1 & A2 & A3). rewrite Hr in R1. injection R1 as <-.
  assert (Hw' := Hw). rewrite Ea in Hw'. rewrite Et in Hr'. destruct (TS Ig' s w g G' I2 Hw' HG') as (r1 & R1 & B1 & B2 & B3). rewrite Hr' in R1. injection R1 as <-.
  destruct (Wk Ig I1) as (_ & V1 & _). destruct (WS Ig' I2) as (_ & V1' & _). assert (J1 := nth_error_In _ _ Hr). assert (J2 := nth_error_In _ _ Hr').
  rewrite <- K5. apply interpolate_ext. intros j Hj. rewrite <- K5 in B1, B2.
  rewrite (elem_dofs_entry (gk_trial G s) rr), (elem_dofs_entry (gk_trial G s) rr') by auto. unfold prolong.
  rewrite !nth_tab.
  - apply sumn_ext. intros T HT. now rewrite E1.
  - rewrite B1 in Hi. rewrite B2 in Hj. apply id_lt; eauto.
  - rewrite A1 in Hi. rewrite A2 in Hj. apply id_lt; eauto.
Qed.
Lemma inputs_entry (f : functional) Ls (J : integral) (H : gkernel) h e q s w rr i b : nth_error (i_active J) s = Some w ->
  nth_error (f_trial f w (i_type J)) h = Some rr ->
  qf_inputs H h (Es_of f Ls J) e q s i b = interpolate (gk_trial H s) (elem_dofs (gk_trial H s) (gatherF rr (Ls w)) (nth e (gk_elems H) 0%nat)) q i b.
Proof.
  intros A B. unfold qf_inputs. do 2 f_equal. unfold Es_of.
  rewrite (nth_error_nth (map _ (i_active J)) s [] (x := map (fun r => gatherF r (Ls w)) (f_trial f w (i_type J)))) by (rewrite nth_error_map, A; reflexivity).
  rewrite (nth_error_nth (map _ (f_trial f w (i_type J))) h [] (x := gatherF rr (Ls w))) by (rewrite nth_error_map, B; reflexivity). reflexivity.
Qed.
Lemma part_inputs X q s i b : (s < length (i_active Ig))%nat -> (i < es_c (gk_trial G s))%nat ->
  qf_inputs G g (Es_of (local_functional k) (local_input k nt X) Ig) le q s i b =
  qf_inputs G' g (Es_of (local_functional S) (local_input S nt X) Ig') le' q s i b.
Proof.
  intros Hs Hi. destruct part_kind as (Et & Ea & _). destruct (nth_error (i_active Ig) s) as [w|] eqn:Hw; [|now apply nth_error_None in Hw; lia].
  destruct Hk as (_ & _ & Tk & _). destruct HS as (_ & _ & TS & _).
  destruct (Tk Ig s w g G (nth_error_In _ _ HI) Hw HG) as (rr & Hr & _).
  assert (Hw' := Hw). rewrite Ea in Hw'. destruct (TS Ig' s w g G' (nth_error_In _ _ HI') Hw' HG') as (rr' & Hr' & _).
  rewrite (inputs_entry _ _ _ _ _ _ _ _ w rr) by auto. rewrite (inputs_entry _ _ _ _ _ _ _ _ w rr') by auto.
  now apply part_trial.
Qed.
Lemma part_point X t q st : (q < gk_nq G)%nat ->
  let u := qf_inputs G g (Es_of (local_functional k) (local_input k nt X) Ig) le q in
  let u' := qf_inputs G' g (Es_of (local_functional S) (local_input S nt X) Ig') le' q in
  (forall i b, (i < es_c (gk_test G))%nat -> (b < gk_dim1 G)%nat -> fst (gk_qf G le q t u st) i b = fst (gk_qf G' le' q t u' st) i b) /\
  snd (gk_qf G le q t u st) = snd (gk_qf G' le' q t u' st) /\
  forall s, (s < length (i_active Ig))%nat -> same_deriv (es_c (gk_test G)) (gk_dim1 G) (es_c (gk_trial G s)) (gk_ad G s le q t u st) (gk_ad G' s le' q t u' st).
Proof. intros Hq u u'. destruct part_kind as (_ & _ & _ & H). apply H; auto. intros s i b Hs Hi. now apply part_inputs. Qed.

Variables (mk mS : mem).
Hypothesis Hm : same_memory S k pos mS mk.
Lemma part_work X t r r' T : nth_error (f_test (k_all k) (i_type Ig)) g = Some r -> nth_error (f_test (k_all S) (i_type Ig')) g = Some r' -> (T < ntest)%nat ->
  elem_work (local_functional k) t (local_input k nt X) mk (column k T) (number k d) Ig g G r le =
  elem_work (local_functional S) t (local_input S nt X) mS (column S T) (number S d) Ig' g G' r' le'.
Proof.
  intros Hr Hr' HT. destruct part_kind as (_ & _ & (K1 & K2 & K3 & K4 & K5) & _). unfold elem_work. rewrite <- K2.
  apply sumn_ext. intros q Hq. rewrite <- K3. f_equal. rewrite <- K4, <- K1. apply sumn_ext. intros i Hi. apply sumn_ext. intros b Hb.
  rewrite (part_test r r' T q i b) by auto. f_equal. unfold qf_out.
  destruct (Hm d Ig g G le q HI HG Hle Hq) as (E & _). rewrite E. fold le'. now apply part_point.
Qed.
Lemma part_tangent w dx r r' T : nth_error (f_test (k_all k) (i_type Ig)) g = Some r -> nth_error (f_test (k_all S) (i_type Ig')) g = Some r' -> (T < ntest)%nat ->
  elem_tangent (local_functional k) w (prolong (k_tsize k w) (nt w) (k_Ptrial k w) dx) mk (column k T) (number k d) Ig g G r le =
  elem_tangent (local_functional S) w (prolong (k_tsize S w) (nt w) (k_Ptrial S w) dx) mS (column S T) (number S d) Ig' g G' r' le'.
Proof.
  intros Hr Hr' HT. destruct part_kind as (Et & Ea & (K1 & K2 & K3 & K4 & K5) & _). unfold elem_tangent. rewrite <- Ea.
  destruct (index_of (i_active Ig) w) as [s|] eqn:Es; [|reflexivity]. apply index_of_spec in Es. rename Es into Hw.
  destruct Hk as (_ & _ & Tk & _). destruct HS as (_ & _ & TS & _).
  destruct (Tk Ig s w g G (nth_error_In _ _ HI) Hw HG) as (rr & Hrr & _).
  assert (Hw' := Hw). rewrite Ea in Hw'. destruct (TS Ig' s w g G' (nth_error_In _ _ HI') Hw' HG') as (rr' & Hrr' & _).
  cbn [local_functional f_trial]. rewrite Hrr, Hrr'. rewrite <- K2.
  apply sumn_ext. intros q Hq. rewrite <- K3. f_equal. rewrite <- K4, <- K1. apply sumn_ext. intros i Hi. apply sumn_ext. intros b Hb.
  rewrite (part_test r r' T q i b) by auto. f_equal. unfold chain_rule.
  assert (Hs : (s < length (i_active Ig))%nat) by (apply nth_error_Some; congruence).
  destruct (Hm d Ig g G le q HI HG Hle Hq) as (_ & E). specialize (E s Hs). fold le' in E.
  rewrite <- K5. apply sumn_ext. intros j Hj. apply sumn_ext. intros a Ha. f_equal.
  - destruct (m_d mk (number k d) s g le q), (m_d mS (number S d) s g le' q); cbn in E |- *; try contradiction; auto.
  - pose proof (part_trial s w rr rr' dx q j a Hw Hrr Hrr' Hj) as Q. rewrite <- K5 in Q. exact Q.
Qed.
End OneElement.

(** the memory after an evaluation *)
Lemma number_lookup (c : rank) d Ig : kept c Ig = true -> nth_error (f_integrals (k_all c)) d = Some Ig ->
  nth_error (f_integrals (local_functional c)) (number c d) = Some Ig.
Proof. intros H1 H2. now apply filter_number. Qed.
Lemma kept_elems (c : rank) Ig g G e : sound c -> In Ig (f_integrals (k_all c)) -> nth_error (i_geoms Ig) g = Some G -> (e < length (gk_elems G))%nat -> kept c Ig = true.
Proof.
  intros (_ & _ & _ & H) HI HG He. unfold kept. apply negb_true_iff, Nat.eqb_neq. intros E. rewrite (H Ig G) in He; auto; [cbn in He; lia|eapply nth_error_In; eauto].
Qed.
Lemma part_memory X t wrt upd mk mS : same_memory S k pos mS mk ->
  same_memory S k pos (mem_sum (local_functional S) t wrt upd (local_input S nt X) 0 (f_integrals (local_functional S)) mS)
                      (mem_sum (local_functional k) t wrt upd (local_input k nt X) 0 (f_integrals (local_functional k)) mk).
Proof.
  intros Hm d Ig g G le q HI HG Hle Hq. destruct (Hm d Ig g G le q HI HG Hle Hq) as (E1 & E2).
  assert (HI'' : exists Ig', nth_error (f_integrals (k_all S)) d = Some Ig').
  { destruct (nth_error (f_integrals (k_all S)) d) as [J|] eqn:E; [eauto|]. apply nth_error_None in E. destruct Hp as [A _]. rewrite <- A in E.
    apply nth_error_None in E. congruence. }
  destruct HI'' as (Ig' & HI').
  assert (HG'' : exists G', nth_error (i_geoms Ig') g = Some G').
  { destruct (nth_error (i_geoms Ig') g) as [J|] eqn:E; [eauto|]. apply nth_error_None in E. destruct Hp as [_ A]. destruct (A d Ig Ig' HI HI') as (_ & _ & B & _).
    rewrite <- B in E. apply nth_error_None in E. congruence. }
  destruct HG'' as (G' & HG').
  destruct (elem_there d Ig Ig' g G G' le HI HI' HG HG' Hle) as (L1 & L2 & L3). set (le' := nth le (pos d g) 0%nat) in *.
  destruct (part_kind d Ig Ig' g G G' le HI HI' HG HG' Hle) as (Et & Ea & (K1 & K2 & K3 & K4 & K5) & _).
  pose proof (part_point d Ig Ig' g G G' le HI HI' HG HG' Hle X t q (m_q mk (number k d) g le q) Hq) as PP. cbn zeta in PP. destruct PP as (_ & P2 & P3). fold le' in P2, P3.
  assert (Nk : nth_error (f_integrals (local_functional k)) (number k d) = Some Ig) by (apply number_lookup; auto; eapply kept_elems; eauto; eapply nth_error_In; eauto).
  assert (NS : nth_error (f_integrals (local_functional S)) (number S d) = Some Ig') by (apply number_lookup; auto; eapply kept_elems; eauto; eapply nth_error_In; eauto).
  assert (B1 : Nat.ltb le (length (gk_elems G)) = true) by (now apply Nat.ltb_lt). assert (B2 : Nat.ltb q (gk_nq G) = true) by (now apply Nat.ltb_lt).
  assert (B3 : Nat.ltb le' (length (gk_elems G')) = true) by (now apply Nat.ltb_lt). assert (B4 : Nat.ltb q (gk_nq G') = true) by (rewrite <- K2; now apply Nat.ltb_lt).
  split.
  - rewrite !mem_sum_q. change (Nat.ltb (number k d) 0) with false. change (Nat.ltb (number S d) 0) with false. cbv iota. rewrite !Nat.sub_0_r, Nk, NS, HG, HG', B1, B2, B3, B4, !andb_true_r. destruct upd; [|exact E1].
    rewrite <- E1. exact P2.
  - intros s Hs. rewrite !mem_sum_d. change (Nat.ltb (number k d) 0) with false. change (Nat.ltb (number S d) 0) with false. cbv iota. rewrite !Nat.sub_0_r, Nk, NS. destruct wrt as [w|]; [|now apply E2]. rewrite <- Ea.
    destruct (index_of (i_active Ig) w) as [s'|]; [|now apply E2]. rewrite HG, HG', B1, B2, B3, B4, !andb_true_r. destruct (Nat.eqb s s'); [|now apply E2].
    cbn [same_stored]. rewrite <- E1. now apply P3.
Qed.
End OnePart.
End Facts.

(** * Assembling the gradient into a sparse matrix
    Models Functional::Gradient::assemble (functional.hpp:569-667) and its quantity-of-interest version
    (functional_qoi.inl:422-475), with ElementRestriction::GetElementVDofs (element_restriction.cpp:434-441)
    and Integral::ComputeElementGradients (integral.hpp:113-123). *)
From Coq Require Import NArith ZArith Reals List Lia Lra Bool.
From Verif Require Import Prelude DofCodec Sums Restriction Csr Kernels FunctionalModel.
Import ListNotations.
Local Open Scope R_scope.

(** element matrix dK(e, J + j*ndof_trial, i*ndof_test + k): trial component j, trial node J, test i, k *)
Notation ematrix := (nat -> nat -> nat -> nat -> nat -> R).

Definition v_sign (r : restriction) (i c j : nat) : R :=
  IZR (dof_sign (get_vdof (r_ordering r) (N.of_nat (r_num_nodes r)) (N.of_nat (r_components r)) (dof_at r i j) (N.of_nat c))).

(** one geometry: the additions made by functional.hpp:620-645, in order: (row, column, value).
    The vdof arrays are indexed c*nodes_per_elem + j; the loops over that index are written as two loops. *)
Definition block_items (rt rr : restriction) (K : ematrix) : list (Z * Z * R) :=
  flat_map (fun e => flat_map (fun l => flat_map (fun J => flat_map (fun c => map (fun k =>
     (L_id rt e c k, L_id rr e l J, v_sign rt e c k * v_sign rr e l J * K e l J c k))
     (seq 0 (r_nodes_per_elem rt))) (seq 0 (r_components rt)))
     (seq 0 (r_nodes_per_elem rr))) (seq 0 (r_components rr))) (seq 0 (r_num_elements rt)).

(** values[lookup_tables(row, col)] += value *)
Fixpoint add_items (c : csr) (items : list (Z * Z * R)) (values : list R) : outcome (list R) :=
  match items with
  | [] => Ok values
  | (row, col, v) :: t =>
      bindO (lookup c row col) (fun p => bindO (vec_get values p) (fun x => bindO (vec_set values p (x + v)) (add_items c t)))
  end.
(** gradient_L_[col] += value (functional_qoi.inl:460-464) *)
Fixpoint add_vector (items : list (Z * Z * R)) (g : list R) : outcome (list R) :=
  match items with
  | [] => Ok g
  | (_, col, v) :: t => bindO (vec_get g col) (fun x => bindO (vec_set g col (x + v)) (add_vector t))
  end.

(** mfem::SparseMatrix::Mult *)
Definition spmv_row (c : csr) (values : list R) (x : list R) (r : nat) : R :=
  let lo := nth r (row_ptr c) 0%Z in let hi := nth (S r) (row_ptr c) 0%Z in
  sumn (Z.to_nat (hi - lo)) (fun i => nth (Z.to_nat lo + i) values 0 * nth (Z.to_nat (nth (Z.to_nat lo + i) (col_ind c) (-1)%Z)) x 0).

Section Assembly.
Context {St : Type}.
Notation gkernel := (gkernel St). Notation integral := (integral St).
Notation functional := (functional St). Notation mem := (mem St).

Definition is_type (dt : dtype) (Ig : integral) : bool :=
  match dt, i_type Ig with Elements, Elements | BoundaryElements, BoundaryElements => true | _, _ => false end.

(** the contribution of integral number n to the element matrices of geometry g *)
Definition K_integral (w : nat) (m : mem) (n : nat) (Ig : integral) (g : nat) : ematrix :=
  fun e l J c k =>
  match index_of (i_active Ig) w, nth_error (i_geoms Ig) g with
  | Some s, Some G => sumn (length (gk_elems G)) (fun le => if Nat.eqb (nth le (gk_elems G) 0%nat) e then
       elem_grad (gk_test G) (gk_trial G s) (gk_dim1 G) (gk_nq G) (gk_w G) (fun q => the_deriv (m_d m n s g le q)) l J c k else 0)
  | _, _ => 0
  end.
(** K_elem is zeroed when first used and accumulates all integrals of its type (functional.hpp:587-605) *)
Fixpoint K_sum (w : nat) (m : mem) (dt : dtype) (n : nat) (ints : list integral) (g : nat) : ematrix :=
  fun e l J c k =>
  match ints with
  | [] => 0
  | Ig :: rest => (if is_type dt Ig then K_integral w m n Ig g e l J c k else 0) + K_sum w m dt (S n) rest g e l J c k
  end.
Definition type_items (f : functional) (w : nat) (m : mem) (dt : dtype) : list (Z * Z * R) :=
  if existsb (is_type dt) (f_integrals f) then
    flat_map (fun g => match nth_error (f_test f dt) g, nth_error (f_trial f w dt) g with
      | Some rt, Some rr => block_items rt rr (K_sum w m dt 0 (f_integrals f) g)
      | _, _ => [] end) (seq 0 (length (f_test f dt)))
  else [].
Definition all_items f w m := type_items f w m Elements ++ type_items f w m BoundaryElements.

Fixpoint derivs_written (w : nat) (m : mem) (n : nat) (ints : list integral) : bool :=
  match ints with
  | [] => true
  | Ig :: rest => (match index_of (i_active Ig) w with
      | Some s => forallb (fun g => match nth_error (i_geoms Ig) g with Some G => written m n s g G | None => true end) (seq 0 (length (i_geoms Ig)))
      | None => true end && derivs_written w m (S n) rest)%bool
  end.
Definition assemble (f : functional) (w : nat) (m : mem) (c : csr) : outcome (list R) :=
  if derivs_written w m 0 (f_integrals f) then add_items c (all_items f w m) (repeat 0 (Z.to_nat (nnz c))) else UB.
Definition assemble_qoi (f : functional) (w : nat) (m : mem) (tsize : nat) : outcome (list R) :=
  if derivs_written w m 0 (f_integrals f) then add_vector (all_items f w m) (repeat 0 tsize) else UB.

(** ** The sparse matrix stores the sum of the additions *)
Lemma row_disjoint lsize P c r r' k : valid_csr lsize P c -> (r < lsize)%nat -> (r' < lsize)%nat ->
  (nth r (row_ptr c) 0 <= k < nth (S r) (row_ptr c) 0)%Z -> (nth r' (row_ptr c) 0 <= k < nth (S r') (row_ptr c) 0)%Z -> r = r'.
Proof.
  intros (_ & _ & _ & _ & Hm & _) Hr Hr' H H'.
  assert (Mono : forall a b, (a <= b)%nat -> (b <= lsize)%nat -> (nth a (row_ptr c) 0 <= nth b (row_ptr c) 0)%Z).
  { intros a b Hab. induction Hab as [|b Hab IH]; intros Hb; [lia|]. specialize (Hm b ltac:(lia)). specialize (IH ltac:(lia)). lia. }
  destruct (Nat.lt_trichotomy r r') as [A|[A|A]]; auto; exfalso.
  - specialize (Mono (S r) r' ltac:(lia) ltac:(lia)). lia.
  - specialize (Mono (S r') r ltac:(lia) ltac:(lia)). lia.
Qed.
Lemma row_bounds lsize P c r : valid_csr lsize P c -> (r < lsize)%nat ->
  (0 <= nth r (row_ptr c) 0 /\ nth r (row_ptr c) 0 <= nth (S r) (row_ptr c) 0 <= nnz c)%Z.
Proof.
  intros (Hl & _ & H0 & Hn & Hm & _) Hr.
  assert (Mono : forall a b, (a <= b)%nat -> (b <= lsize)%nat -> (nth a (row_ptr c) 0 <= nth b (row_ptr c) 0)%Z).
  { intros a b Hab. induction Hab as [|b Hab IH]; intros Hb; [lia|]. specialize (Hm b ltac:(lia)). specialize (IH ltac:(lia)). lia. }
  rewrite (nth_indep _ (-1)%Z 0%Z) in H0 by lia. rewrite (nth_indep _ (-1)%Z 0%Z) in Hn by lia.
  pose proof (Mono 0%nat r ltac:(lia) ltac:(lia)). pose proof (Mono r (S r) ltac:(lia) ltac:(lia)).
  pose proof (Mono (S r) lsize ltac:(lia) ltac:(lia)). lia.
Qed.

Lemma sumn_upd_range lo len (V : list R) p a g : (p < length V)%nat ->
  sumn len (fun i => nth (lo + i) (upd V p (nth p V 0 + a)) 0 * g (lo + i)%nat) =
  sumn len (fun i => nth (lo + i) V 0 * g (lo + i)%nat) + (if (Nat.leb lo p && Nat.ltb p (lo + len))%bool then a * g p else 0).
Proof.
  intros Hp.
  rewrite (sumn_ext len _ (fun i => nth (lo + i) V 0 * g (lo + i)%nat + (if Nat.eqb i (p - lo) then (if Nat.leb lo p then a * g p else 0) else 0))).
  - rewrite sumn_plus. f_equal. destruct (Nat.leb_spec lo p) as [A|A]; cbn [andb].
    + destruct (Nat.ltb_spec p (lo + len)) as [B|B].
      * apply (sumn_delta len (p - lo) (fun _ => a * g p)). lia.
      * apply (sumn_delta_out len (p - lo) (fun _ => a * g p)). lia.
    + apply sumn_zero. intros i _. destruct (Nat.eqb i (p - lo)); reflexivity.
  - intros i _. rewrite nth_upd by auto. destruct (Nat.eqb_spec (lo + i) p) as [E|E].
    + subst p. replace (Nat.eqb i (lo + i - lo)) with true by (symmetry; apply Nat.eqb_eq; lia).
      replace (Nat.leb lo (lo + i)) with true by (symmetry; apply Nat.leb_le; lia). ring.
    + destruct (Nat.eqb_spec i (p - lo)); [|ring]. destruct (Nat.leb_spec lo p); [lia|ring].
Qed.

Definition good_item (lsize : nat) (P : Z * Z -> Prop) (it : Z * Z * R) : Prop :=
  (0 <= fst (fst it) < Z.of_nat lsize)%Z /\ (0 <= snd (fst it) < 2 ^ 32)%Z /\ P (fst it).

Lemma add_items_spec lsize P c items : valid_csr lsize P c -> (Z.of_nat lsize <= 2 ^ 32)%Z ->
  (forall it, In it items -> good_item lsize P it) -> forall V, length V = Z.to_nat (nnz c) ->
  exists V', add_items c items V = Ok V' /\ length V' = length V /\
    forall x r, (r < lsize)%nat -> spmv_row c V' x r = spmv_row c V x r +
      suml items (fun it => if Z.eqb (fst (fst it)) (Z.of_nat r) then snd it * nth (Z.to_nat (snd (fst it))) x 0 else 0).
Proof.
  intros Hv Hls. induction items as [|[[row col] v] items IH]; intros Hg V HV.
  - exists V. split; [reflexivity|]. split; auto. intros. cbn. ring.
  - destruct (Hg (row, col, v)) as (G1 & G2 & G3); [now left|]. cbn [fst snd] in *.
    pose proof Hv as (_ & Hc & _ & _ & _ & _ & Hst & Hlk).
    set (r0 := Z.to_nat row). assert (Er : row = Z.of_nat r0) by (unfold r0; lia). assert (Hr0 : (r0 < lsize)%nat) by lia.
    rewrite Er in G3.
    destruct (proj1 (Hst r0 col Hr0) G3) as (p & Hp & Ecol).
    destruct (Hlk r0 col Hr0 G2 Hls) as [Hl1 _].
    assert (El : lookup c row col = Ok p) by (rewrite Er; apply Hl1; auto).
    pose proof (row_bounds lsize P c r0 Hv Hr0) as Hb.
    cbn [add_items]. rewrite El. cbn [bindO]. rewrite (vec_get_ok V p 0) by lia. cbn [bindO].
    rewrite vec_set_ok by lia. cbn [bindO].
    destruct (IH ltac:(intros; apply Hg; now right) (upd V (Z.to_nat p) (nth (Z.to_nat p) V 0 + v))) as (V' & A & B & C).
    { now rewrite upd_length. }
    exists V'. split; [exact A|]. split; [now rewrite B, upd_length|].
    intros x r Hr. rewrite C by auto. cbn [suml fst snd]. rewrite <- Rplus_assoc. f_equal.
    unfold spmv_row. rewrite (sumn_upd_range (Z.to_nat (nth r (row_ptr c) 0%Z)) _ V (Z.to_nat p) v
       (fun i => nth (Z.to_nat (nth i (col_ind c) (-1)%Z)) x 0)) by lia.
    f_equal. rewrite Ecol. pose proof (row_bounds lsize P c r Hv Hr) as Hb'.
    destruct (Z.eqb_spec row (Z.of_nat r)) as [E|E].
    + assert (r0 = r) by lia. subst r.
      replace (Nat.leb _ _) with true by (symmetry; apply Nat.leb_le; lia).
      replace (Nat.ltb _ _) with true by (symmetry; apply Nat.ltb_lt; lia). reflexivity.
    + destruct (Nat.leb_spec (Z.to_nat (nth r (row_ptr c) 0%Z)) (Z.to_nat p)) as [A1|A1]; [|reflexivity]. cbn [andb].
      destruct (Nat.ltb_spec (Z.to_nat p) (Z.to_nat (nth r (row_ptr c) 0%Z) + Z.to_nat (nth (S r) (row_ptr c) 0%Z - nth r (row_ptr c) 0%Z))) as [A2|A2]; [|reflexivity].
      exfalso. apply E. rewrite Er. f_equal. eapply (row_disjoint lsize P c r0 r p); eauto. lia.
Qed.
Lemma spmv_zero c n x r : spmv_row c (repeat 0 n) x r = 0.
Proof. unfold spmv_row. apply sumn_zero. intros i _. rewrite nth_repeat. ring. Qed.

(** ** The additions add up to the action of the gradient *)
Definition matches (rt rr : restriction) (G : gkernel) (s : nat) : Prop :=
  es_c (gk_test G) = r_components rt /\ es_n (gk_test G) = r_nodes_per_elem rt /\
  es_c (gk_trial G s) = r_components rr /\ es_n (gk_trial G s) = r_nodes_per_elem rr /\
  (forall el, In el (gk_elems G) -> (el < r_num_elements rt)%nat) /\ r_num_elements rt = r_num_elements rr.
Definition wf_assembly (f : functional) (w lsize tsize : nat) : Prop :=
  (forall dt rt, In rt (f_test f dt) -> plain rt /\ ids_ok rt lsize) /\
  (forall dt rr, In rr (f_trial f w dt) -> plain rr /\ ids_ok rr tsize) /\
  (forall dt, length (f_trial f w dt) = length (f_test f dt)) /\
  (forall Ig, In Ig (f_integrals f) -> length (i_geoms Ig) = length (f_test f (i_type Ig))) /\
  (forall Ig s g G rt rr, In Ig (f_integrals f) -> index_of (i_active Ig) w = Some s -> nth_error (i_geoms Ig) g = Some G ->
     nth_error (f_test f (i_type Ig)) g = Some rt -> nth_error (f_trial f w (i_type Ig)) g = Some rr -> matches rt rr G s).

Lemma plain_sign r i c j : plain r -> (i < r_num_elements r)%nat -> (c < r_components r)%nat -> (j < r_nodes_per_elem r)%nat -> v_sign r i c j = 1.
Proof.
  intros Hp Hi Hc Hj. destruct (plain_L_id r i c j Hp Hi Hc Hj) as (n & Hn & E & _).
  unfold v_sign, get_vdof. rewrite E. destruct Hp as [_ Hs].
  assert (B : (N.of_nat n < lim60)%N) by (change lim60 with 1152921504606846976%N; nia).
  destruct (plain_round_trip (N.of_nat n) B) as (A1 & A2 & A3). rewrite A2. cbn [Z.eqb Pos.eqb]. rewrite A1, A3.
  destruct (r_ordering r).
  - destruct (plain_round_trip (N.of_nat c * N.of_nat (r_num_nodes r) + N.of_nat n)) as (_ & S1 & _);
      [change lim60 with 1152921504606846976%N; nia|]. rewrite S1. reflexivity.
  - destruct (plain_round_trip (N.of_nat n * N.of_nat (r_components r) + N.of_nat c)) as (_ & S1 & _);
      [change lim60 with 1152921504606846976%N; nia|]. rewrite S1. reflexivity.
Qed.

Definition item_sum (rt rr : restriction) (K : ematrix) (r : nat) (x : list R) : R :=
  sumn (r_num_elements rt) (fun e => sumn (r_components rt) (fun c => sumn (r_nodes_per_elem rt) (fun k =>
    if Z.eqb (L_id rt e c k) (Z.of_nat r) then
      sumn (r_components rr) (fun l => sumn (r_nodes_per_elem rr) (fun J => K e l J c k * nth (Z.to_nat (L_id rr e l J)) x 0))
    else 0))).

Lemma item_sum_plus rt rr K K' r x : item_sum rt rr (fun e l J c k => K e l J c k + K' e l J c k) r x = item_sum rt rr K r x + item_sum rt rr K' r x.
Proof.
  unfold item_sum. rewrite <- sumn_plus. apply sumn_ext. intros e _. rewrite <- sumn_plus. apply sumn_ext. intros c _.
  rewrite <- sumn_plus. apply sumn_ext. intros k _. destruct (Z.eqb _ _); [|ring].
  rewrite <- sumn_plus. apply sumn_ext. intros l _. rewrite <- sumn_plus. apply sumn_ext. intros J _. ring.
Qed.
Lemma item_sum_zero rt rr K r x : (forall e l J c k, K e l J c k = 0) -> item_sum rt rr K r x = 0.
Proof.
  intros H. unfold item_sum. apply sumn_zero. intros e _. apply sumn_zero. intros c _. apply sumn_zero. intros k _.
  destruct (Z.eqb _ _); [|reflexivity]. apply sumn_zero. intros l _. apply sumn_zero. intros J _. rewrite H. ring.
Qed.

Lemma sumn_if (b : bool) n f : (if b then sumn n f else 0) = sumn n (fun i => if b then f i else 0).
Proof. destruct b; [reflexivity|]. symmetry. now apply sumn_zero. Qed.

Definition weigh (r : nat) (x : list R) (it : Z * Z * R) : R :=
  if Z.eqb (fst (fst it)) (Z.of_nat r) then snd it * nth (Z.to_nat (snd (fst it))) x 0 else 0.
Lemma block_items_sum rt rr K r x : plain rt -> plain rr -> r_num_elements rt = r_num_elements rr ->
  suml (block_items rt rr K) (weigh r x) = item_sum rt rr K r x.
Proof.
  intros Hpt Hpr Hne. unfold block_items, item_sum. rewrite suml_flat_map, suml_seq. apply sumn_ext. intros e He.
  transitivity (sumn (r_components rr) (fun l => sumn (r_nodes_per_elem rr) (fun J => sumn (r_components rt) (fun c => sumn (r_nodes_per_elem rt) (fun k =>
    if Z.eqb (L_id rt e c k) (Z.of_nat r) then K e l J c k * nth (Z.to_nat (L_id rr e l J)) x 0 else 0))))).
  - rewrite suml_flat_map, suml_seq. apply sumn_ext. intros l Hl. rewrite suml_flat_map, suml_seq. apply sumn_ext. intros J HJ.
    rewrite suml_flat_map, suml_seq. apply sumn_ext. intros c Hc. rewrite suml_map, suml_seq. apply sumn_ext. intros k Hk.
    unfold weigh. cbn [fst snd]. rewrite !plain_sign by (auto; lia). destruct (Z.eqb _ _); [ring|reflexivity].
  - rewrite (sumn_ext _ _ (fun l => sumn (r_components rt) (fun c => sumn (r_nodes_per_elem rr) (fun J => sumn (r_nodes_per_elem rt) (fun k =>
      if Z.eqb (L_id rt e c k) (Z.of_nat r) then K e l J c k * nth (Z.to_nat (L_id rr e l J)) x 0 else 0))))) by (intros; apply sumn_swap).
    rewrite sumn_swap. apply sumn_ext. intros c _.
    rewrite (sumn_ext _ _ (fun l => sumn (r_nodes_per_elem rt) (fun k => sumn (r_nodes_per_elem rr) (fun J =>
      if Z.eqb (L_id rt e c k) (Z.of_nat r) then K e l J c k * nth (Z.to_nat (L_id rr e l J)) x 0 else 0)))) by (intros; apply sumn_swap).
    rewrite sumn_swap. apply sumn_ext. intros k _. rewrite sumn_if. apply sumn_ext. intros l _. now rewrite sumn_if.
Qed.

(** positions in an E-vector *)
Lemma loop_ids_entry r e c k : (e < r_num_elements r)%nat -> (c < r_components r)%nat -> (k < r_nodes_per_elem r)%nat ->
  In (E_id r e c k, L_id r e c k) (loop_ids r).
Proof.
  intros. unfold loop_ids. apply in_flat_map. exists e. split; [apply in_seq; lia|].
  apply in_flat_map. exists c. split; [apply in_seq; lia|]. apply in_map_iff. exists k. split; [reflexivity|apply in_seq; lia].
Qed.
Lemma E_index_lt r e c k : (e < r_num_elements r)%nat -> (c < r_components r)%nat -> (k < r_nodes_per_elem r)%nat ->
  ((e * r_components r + c) * r_nodes_per_elem r + k < esize r)%nat.
Proof.
  intros He Hc Hk. unfold esize. assert (A : (e * r_components r + c + 1 <= r_num_elements r * r_components r)%nat) by nia.
  apply (Nat.mul_le_mono_r _ _ (r_nodes_per_elem r)) in A. nia.
Qed.
Lemma gatherF_entry r L e c k : (e < r_num_elements r)%nat -> (c < r_components r)%nat -> (k < r_nodes_per_elem r)%nat ->
  nth ((e * r_components r + c) * r_nodes_per_elem r + k) (gatherF r L) 0 = nth (Z.to_nat (L_id r e c k)) L 0.
Proof.
  intros He Hc Hk. unfold gatherF. pose proof (E_index_lt r e c k He Hc Hk) as Hlt. rewrite nth_tab by exact Hlt. do 2 f_equal.
  destruct (In_nth _ _ (0,0)%Z (loop_ids_entry r e c k He Hc Hk)) as (j & Hj & Ej). rewrite loop_ids_length in Hj.
  pose proof (loop_ids_nth r j Hj) as F. rewrite Ej in F. cbn [fst] in F. unfold E_id in F.
  replace ((e * r_components r + c) * r_nodes_per_elem r + k)%nat with j by lia. now rewrite Ej.
Qed.
Lemma decode (C N e c k : nat) : (c < C)%nat -> (k < N)%nat ->
  (((e * C + c) * N + k) / (C * N) = e /\ (((e * C + c) * N + k) / N) mod C = c /\ ((e * C + c) * N + k) mod N = k)%nat.
Proof.
  intros Hc Hk. assert (D : (((e * C + c) * N + k) / N = e * C + c)%nat).
  { symmetry. apply (Nat.div_unique _ N (e * C + c) k); [auto|lia]. }
  split; [|split].
  - symmetry. apply (Nat.div_unique _ (C * N) e (c * N + k)); nia.
  - rewrite D. symmetry. apply (Nat.mod_unique (e * C + c) C e c); [auto|lia].
  - symmetry. apply (Nat.mod_unique _ N (e * C + c) k); [auto|lia].
Qed.

Lemma contrib_item_sum rt rr (G : gkernel) g s n (Ig : integral) w m dx r Es :
  matches rt rr G s -> index_of (i_active Ig) w = Some s -> nth_error (i_geoms Ig) g = Some G -> nth g Es [] = gatherF rr dx ->
  contrib rt (jvp_geom G rt g s Es m n) r = item_sum rt rr (K_integral w m n Ig g) r dx.
Proof.
  intros (M1 & M2 & M3 & M4 & M5 & M6) Hs HG HE. unfold contrib, item_sum, loop_ids.
  rewrite suml_flat_map, suml_seq. apply sumn_ext. intros e He. rewrite suml_flat_map, suml_seq. apply sumn_ext. intros c Hc.
  rewrite suml_map, suml_seq. apply sumn_ext. intros k Hk. cbn [fst snd]. destruct (Z.eqb _ _); [|reflexivity].
  unfold E_id. rewrite Nat2Z.id. unfold jvp_geom, accumulate. rewrite nth_tab by (now apply E_index_lt).
  rewrite M1, M2. destruct (decode (r_components rt) (r_nodes_per_elem rt) e c k Hc Hk) as (-> & -> & ->).
  unfold K_integral. rewrite Hs, HG.
  transitivity (sumn (length (gk_elems G)) (fun le => sumn (r_components rr) (fun l => sumn (r_nodes_per_elem rr) (fun J =>
    (if Nat.eqb (nth le (gk_elems G) 0%nat) e then elem_grad (gk_test G) (gk_trial G s) (gk_dim1 G) (gk_nq G) (gk_w G)
        (fun q => the_deriv (m_d m n s g le q)) l J c k else 0) * nth (Z.to_nat (L_id rr e l J)) dx 0)))).
  - apply sumn_ext. intros le Hle. destruct (Nat.eqb_spec (nth le (gk_elems G) 0%nat) e) as [E|E].
    + rewrite jvp_elem_grad, M3, M4. apply sumn_ext. intros l Hl. apply sumn_ext. intros J HJ. f_equal.
      unfold elem_dofs. rewrite HE, E, M3, M4. apply gatherF_entry; auto. lia.
    + symmetry. apply sumn_zero. intros l _. apply sumn_zero. intros J _. ring.
  - rewrite sumn_swap. apply sumn_ext. intros l _. rewrite sumn_swap. apply sumn_ext. intros J _. now rewrite <- sumn_scal_r.
Qed.

(** sums over geometries *)
Lemma blocks_sum (Gs : list gkernel) : forall rs g0 (h : nat -> gkernel -> restriction -> list R) k, length Gs = length rs ->
  suml (combine rs (blocks_from g0 Gs rs h)) (fun p => contrib (fst p) (snd p) k) =
  sumn (length rs) (fun g => match nth_error Gs g, nth_error rs g with Some G, Some r => contrib r (h (g0 + g)%nat G r) k | _, _ => 0 end).
Proof.
  induction Gs as [|G Gs IH]; intros [|r rs] g0 h k H; cbn [length] in *; try lia; [reflexivity|].
  cbn [combine blocks_from suml fst snd]. rewrite sumn_S_l. cbn [nth_error]. rewrite Nat.add_0_r. f_equal.
  rewrite IH by lia. apply sumn_ext. intros g _. now rewrite Nat.add_succ_comm.
Qed.

Definition geom_sum (f : functional) (w : nat) (m : mem) (dt : dtype) (n : nat) (Ig : integral) (r : nat) (x : list R) : R :=
  sumn (length (f_test f dt)) (fun g => match nth_error (f_test f dt) g, nth_error (f_trial f w dt) g with
      | Some rt, Some rr => item_sum rt rr (K_integral w m n Ig g) r x | _, _ => 0 end).
Fixpoint typed_sum (f : functional) w m dt n (ints : list integral) r x : R :=
  match ints with [] => 0 | Ig :: rest => (if is_type dt Ig then geom_sum f w m dt n Ig r x else 0) + typed_sum f w m dt (S n) rest r x end.

Lemma typed_sum_K f w m dt ints : forall n r x,
  sumn (length (f_test f dt)) (fun g => match nth_error (f_test f dt) g, nth_error (f_trial f w dt) g with
      | Some rt, Some rr => item_sum rt rr (K_sum w m dt n ints g) r x | _, _ => 0 end) = typed_sum f w m dt n ints r x.
Proof.
  induction ints as [|Ig ints IH]; intros n r x.
  - cbn [typed_sum]. apply sumn_zero. intros g _. destruct (nth_error (f_test f dt) g); [|reflexivity].
    destruct (nth_error (f_trial f w dt) g); [|reflexivity]. apply item_sum_zero. reflexivity.
  - cbn [typed_sum]. rewrite <- IH. unfold geom_sum. rewrite sumn_if, <- sumn_plus. apply sumn_ext. intros g _.
    destruct (nth_error (f_test f dt) g) as [rt|]; [|destruct (is_type dt Ig); ring].
    destruct (nth_error (f_trial f w dt) g) as [rr|]; [|destruct (is_type dt Ig); ring].
    cbn [K_sum]. rewrite (item_sum_plus rt rr (fun e l J c k => if is_type dt Ig then K_integral w m n Ig g e l J c k else 0)).
    f_equal. destruct (is_type dt Ig); [reflexivity|]. now apply item_sum_zero.
Qed.
Lemma typed_sum_none f w m dt ints : existsb (is_type dt) ints = false -> forall n r x, typed_sum f w m dt n ints r x = 0.
Proof.
  induction ints as [|Ig ints IH]; intros H n r x; [reflexivity|]. cbn [existsb] in H. apply orb_false_iff in H as [H1 H2].
  cbn [typed_sum]. rewrite H1, IH by auto. ring.
Qed.
Lemma suml_nil {A} (F : A -> R) : suml [] F = 0. Proof. reflexivity. Qed.

Lemma type_items_sum f w m dt lsize tsize r x : wf_assembly f w lsize tsize ->
  (forall rt rr g, nth_error (f_test f dt) g = Some rt -> nth_error (f_trial f w dt) g = Some rr -> r_num_elements rt = r_num_elements rr) ->
  suml (type_items f w m dt) (weigh r x) = typed_sum f w m dt 0 (f_integrals f) r x.
Proof.
  intros (W1 & W2 & W3 & W4 & W5) Hne. unfold type_items. destruct (existsb _ _) eqn:E; [|now rewrite typed_sum_none].
  rewrite suml_flat_map, suml_seq, <- typed_sum_K. apply sumn_ext. intros g Hg.
  destruct (nth_error (f_test f dt) g) as [rt|] eqn:Et; [|reflexivity].
  destruct (nth_error (f_trial f w dt) g) as [rr|] eqn:Er; [|reflexivity].
  apply block_items_sum; [eapply W1, nth_error_In; eauto|eapply W2, nth_error_In; eauto|eauto].
Qed.

Lemma jvp_contrib_geom_sum f w m dx lsize tsize n Ig r : wf_assembly f w lsize tsize -> In Ig (f_integrals f) ->
  jvp_contrib f w m dx n Ig r = geom_sum f w m (i_type Ig) n Ig r dx.
Proof.
  intros (W1 & W2 & W3 & W4 & W5) HI. unfold jvp_contrib, jvp_blocks, geom_sum.
  destruct (index_of (i_active Ig) w) as [s|] eqn:Es.
  - rewrite blocks_sum by auto. apply sumn_ext. intros g Hg.
    destruct (nth_error (f_test f (i_type Ig)) g) as [rt|] eqn:Et; [|now apply nth_error_None in Et; lia].
    destruct (nth_error (i_geoms Ig) g) as [G|] eqn:EG; [|apply nth_error_None in EG; rewrite W4 in EG by auto; lia].
    destruct (nth_error (f_trial f w (i_type Ig)) g) as [rr|] eqn:Er; [|apply nth_error_None in Er; rewrite W3 in Er by auto; lia].
    cbn [Nat.add]. apply contrib_item_sum; auto.
    + now apply (W5 Ig s g).
    + apply nth_error_nth. rewrite nth_error_map, Er. reflexivity.
  - cbn [suml]. symmetry. apply sumn_zero. intros g _.
    destruct (nth_error (f_test f (i_type Ig)) g); [|reflexivity]. destruct (nth_error (f_trial f w (i_type Ig)) g); [|reflexivity].
    apply item_sum_zero. intros. unfold K_integral. now rewrite Es.
Qed.
Lemma jvp_sum_typed f w m dx lsize tsize r : wf_assembly f w lsize tsize -> forall ints n, (forall Ig, In Ig ints -> In Ig (f_integrals f)) ->
  jvp_sum f w m dx n ints r = typed_sum f w m Elements n ints r dx + typed_sum f w m BoundaryElements n ints r dx.
Proof.
  intros W. induction ints as [|Ig ints IH]; intros n H; [cbn; ring|]. cbn [jvp_sum typed_sum].
  rewrite (jvp_contrib_geom_sum f w m dx lsize tsize) by (auto; apply H; now left).
  rewrite IH by (intros; apply H; now right). unfold is_type. destruct (i_type Ig); ring.
Qed.

Definition same_elements (f : functional) (w : nat) : Prop :=
  forall dt rt rr g, nth_error (f_test f dt) g = Some rt -> nth_error (f_trial f w dt) g = Some rr -> r_num_elements rt = r_num_elements rr.
Lemma all_items_sum f w m lsize tsize r x : wf_assembly f w lsize tsize -> same_elements f w ->
  suml (all_items f w m) (weigh r x) = jvp_sum f w m x 0 (f_integrals f) r.
Proof.
  intros W S. unfold all_items. rewrite suml_app, !(type_items_sum f w m _ lsize tsize) by eauto.
  symmetry. now apply (jvp_sum_typed f w m x lsize tsize).
Qed.

Lemma derivs_written_ok w (m : mem) ints : forall n,
  (forall n' Ig s g G e q, nth_error ints n' = Some Ig -> index_of (i_active Ig) w = Some s ->
    nth_error (i_geoms Ig) g = Some G -> (e < length (gk_elems G))%nat -> (q < gk_nq G)%nat -> m_d m (n + n') s g e q <> None) ->
  derivs_written w m n ints = true.
Proof.
  induction ints as [|Ig ints IH]; intros n H; [reflexivity|]. cbn [derivs_written]. apply andb_true_iff. split.
  - destruct (index_of (i_active Ig) w) as [s|] eqn:Es; [|reflexivity]. apply forallb_forall. intros g _.
    destruct (nth_error (i_geoms Ig) g) as [G|] eqn:EG; [|reflexivity]. unfold written.
    apply forallb_forall. intros e He. apply forallb_forall. intros q Hq. apply in_seq in He, Hq.
    specialize (H 0%nat Ig s g G e q eq_refl Es EG ltac:(lia) ltac:(lia)). rewrite Nat.add_0_r in H.
    destruct (m_d m n s g e q); congruence.
  - apply IH. intros n' J s g G e q H1. specialize (H (S n') J s g G e q H1). now rewrite Nat.add_succ_comm.
Qed.

(** every pair added to is coupled by an element of the domain *)
Lemma block_items_in rt rr K it : In it (block_items rt rr K) -> exists e l J c k,
  (e < r_num_elements rt)%nat /\ (l < r_components rr)%nat /\ (J < r_nodes_per_elem rr)%nat /\ (c < r_components rt)%nat /\ (k < r_nodes_per_elem rt)%nat /\
  fst it = (L_id rt e c k, L_id rr e l J).
Proof.
  unfold block_items. intros H. apply in_flat_map in H as (e & He & H). apply in_flat_map in H as (l & Hl & H).
  apply in_flat_map in H as (J & HJ & H). apply in_flat_map in H as (c & Hc & H). apply in_map_iff in H as (k & E & Hk).
  apply in_seq in He, Hl, HJ, Hc, Hk. exists e, l, J, c, k. subst it. cbn [fst]. repeat split; lia.
Qed.
Definition blocks_of (f : functional) (w : nat) (dt : dtype) : list (restriction * restriction) := combine (f_test f dt) (f_trial f w dt).
Lemma nth_error_combine {A B} (a : list A) (b : list B) g x y : nth_error a g = Some x -> nth_error b g = Some y -> In (x, y) (combine a b).
Proof.
  revert b g. induction a as [|a0 a IH]; intros b g; [destruct g; discriminate|]. destruct b as [|b0 b]; [intros _ H; destruct g; discriminate|].
  destruct g; cbn; [intros H1 H2; inversion H1; inversion H2; now left|]. intros H1 H2. right. eapply IH; eauto.
Qed.
Lemma plain_id_range r n e c j : plain r -> ids_ok r n -> (e < r_num_elements r)%nat -> (c < r_components r)%nat -> (j < r_nodes_per_elem r)%nat ->
  (0 <= L_id r e c j < Z.of_nat n)%Z /\ (L_id r e c j < 2 ^ 31)%Z.
Proof.
  intros Hp Hok He Hc Hj. split; [eapply Hok, loop_ids_entry; eauto|].
  destruct (plain_L_id r e c j Hp He Hc Hj) as (k & Hk & _ & ->). destruct Hp as [_ Hs]. destruct (r_ordering r); nia.
Qed.
Lemma type_items_good f w m dt lsize tsize it : wf_assembly f w lsize tsize -> same_elements f w -> In it (type_items f w m dt) ->
  good_item lsize (coupled (blocks_of f w dt)) it.
Proof.
  intros (W1 & W2 & _) S H. unfold type_items in H. destruct (existsb _ _); [|contradiction].
  apply in_flat_map in H as (g & _ & H). destruct (nth_error (f_test f dt) g) as [rt|] eqn:Et; [|contradiction].
  destruct (nth_error (f_trial f w dt) g) as [rr|] eqn:Er; [|contradiction].
  apply block_items_in in H as (e & l & J & c & k & H1 & H2 & H3 & H4 & H5 & E).
  destruct (W1 dt rt) as [P1 O1]; [eapply nth_error_In; eauto|]. destruct (W2 dt rr) as [P2 O2]; [eapply nth_error_In; eauto|].
  pose proof (S dt rt rr g Et Er) as Hne.
  destruct (plain_id_range rt lsize e c k P1 O1) as [A1 A2]; auto. destruct (plain_id_range rr tsize e l J P2 O2) as [B1 B2]; auto; [lia|].
  unfold good_item. rewrite E. cbn [fst snd]. split; [lia|]. split; [lia|].
  unfold coupled. exists rt, rr, e, k, J, c, l. repeat split; auto; try lia. eapply nth_error_combine; eauto.
Qed.

Lemma action_written f w (m : mem) dx lsize tsize : wf_assembly f w lsize tsize -> all_written f w m -> length dx = tsize ->
  exists act, action f w m dx lsize = Ok act /\ length act = lsize /\
    forall r, (r < lsize)%nat -> nth r act 0 = jvp_sum f w m dx 0 (f_integrals f) r.
Proof.
  intros (W1 & W2 & W3 & W4 & W5) Hw Hl.
  destruct (action_loop_spec f w m dx lsize (f_integrals f) 0 (repeat 0 lsize)) as (A & B & C & D).
  - intros Ig HI. split; intros r Hr; [eapply W1; eauto|]. rewrite Hl. eapply W2; eauto.
  - intros n' Ig s g G e q. apply Hw.
  - apply repeat_length.
  - exists A. split; [exact B|]. split; [exact C|]. intros k Hk. rewrite D by auto. rewrite nth_repeat. ring.
Qed.

Lemma assembled_agrees f w (m : mem) c lsize tsize : wf_assembly f w lsize tsize -> same_elements f w -> all_written f w m ->
  valid_csr lsize (coupled (blocks_of f w Elements)) c -> (Z.of_nat lsize <= 2 ^ 32)%Z ->
  (forall x, coupled (blocks_of f w BoundaryElements) x -> coupled (blocks_of f w Elements) x) ->
  exists V, assemble f w m c = Ok V /\
    forall dx, length dx = tsize -> exists act, action f w m dx lsize = Ok act /\ length act = lsize /\
      forall r, (r < lsize)%nat -> spmv_row c V dx r = nth r act 0.
Proof.
  intros W S Hw Hv Hls Hb.
  assert (Hg : forall it, In it (all_items f w m) -> good_item lsize (coupled (blocks_of f w Elements)) it).
  { intros it H. apply in_app_or in H as [H|H].
    - eapply type_items_good; eauto.
    - destruct (type_items_good f w m BoundaryElements lsize tsize it W S H) as (A & B & C). split; auto. }
  destruct (add_items_spec lsize _ c (all_items f w m) Hv Hls Hg (repeat 0 (Z.to_nat (nnz c))) (repeat_length _ _)) as (V & A & B & C).
  exists V. split.
  - unfold assemble. rewrite derivs_written_ok; [exact A|]. intros n' Ig s g G e q. apply Hw.
  - intros dx Hdx. destruct (action_written f w m dx lsize tsize W Hw Hdx) as (act & D1 & D2 & D3).
    exists act. split; [exact D1|]. split; [exact D2|]. intros r Hr. rewrite C, spmv_zero, D3 by auto. rewrite Rplus_0_l.
    apply (all_items_sum f w m lsize tsize r dx W S).
Qed.

(** ** Quantities of interest *)
Lemma add_vector_spec items x : forall g, length x = length g ->
  (forall it, In it items -> (0 <= snd (fst it) < Z.of_nat (length g))%Z) ->
  exists g', add_vector items g = Ok g' /\ length g' = length g /\
    dot g' x = dot g x + suml items (fun it => snd it * nth (Z.to_nat (snd (fst it))) x 0).
Proof.
  induction items as [|[[row col] v] items IH]; intros g Hx H.
  - exists g. split; [reflexivity|]. split; auto. cbn. ring.
  - pose proof (H (row, col, v) (or_introl eq_refl)) as Hc. cbn [fst snd] in Hc. cbn [add_vector].
    rewrite (vec_get_ok g col 0) by lia. cbn [bindO]. rewrite vec_set_ok by lia. cbn [bindO].
    destruct (IH (upd g (Z.to_nat col) (nth (Z.to_nat col) g 0 + v))) as (g' & A & B & C).
    + now rewrite upd_length.
    + intros it Hit. rewrite upd_length. apply H. now right.
    + rewrite upd_length in B. exists g'. split; [exact A|]. split; auto. rewrite C. cbn [suml fst snd].
      unfold dot. rewrite upd_length.
      rewrite (sumn_ext (length g) _ (fun i => nth i g 0 * nth i x 0 + (if Nat.eqb i (Z.to_nat col) then v * nth i x 0 else 0))).
      * rewrite sumn_plus. rewrite (sumn_delta (length g) (Z.to_nat col) (fun i => v * nth i x 0)) by lia. ring.
      * intros i Hi. rewrite nth_upd by lia. destruct (Nat.eqb_spec i (Z.to_nat col)) as [->|]; ring.
Qed.
Lemma assembled_qoi_agrees f w (m : mem) tsize : wf_assembly f w 1 tsize -> same_elements f w -> all_written f w m ->
  exists g, assemble_qoi f w m tsize = Ok g /\ length g = tsize /\
    forall dx, length dx = tsize -> exists a, action f w m dx 1 = Ok [a] /\ dot g dx = a.
Proof.
  intros W S Hw. pose proof W as (W1 & W2 & _).
  assert (Hg : forall it, In it (all_items f w m) -> (fst (fst it) = 0)%Z /\ (0 <= snd (fst it) < Z.of_nat tsize)%Z).
  { intros it H. assert (Hdt : exists dt, In it (type_items f w m dt)) by (apply in_app_or in H as [H|H]; eauto).
    clear H. destruct Hdt as [dt H]. pose proof (type_items_good f w m dt 1 tsize it W S H) as (A & _).
    split; [lia|]. unfold type_items in H. destruct (existsb _ _); [|contradiction].
    apply in_flat_map in H as (g & _ & H). destruct (nth_error (f_test f dt) g) as [rt|] eqn:Et; [|contradiction].
    destruct (nth_error (f_trial f w dt) g) as [rr|] eqn:Er; [|contradiction].
    apply block_items_in in H as (e & l & J & c & k & H1 & H2 & H3 & H4 & H5 & E). rewrite E. cbn [snd].
    destruct (W2 dt rr) as [P2 O2]; [eapply nth_error_In; eauto|]. pose proof (S dt rt rr g Et Er) as Hne.
    apply (plain_id_range rr tsize e l J P2 O2); auto. lia. }
  destruct (add_vector_spec (all_items f w m) (repeat 0 tsize) (repeat 0 tsize) eq_refl) as (g & A & B & _).
  { intros it H. rewrite repeat_length. now apply Hg. }
  rewrite repeat_length in B. exists g. split; [|split; auto].
  { unfold assemble_qoi. rewrite derivs_written_ok; [exact A|]. intros n' Ig s gg G e q. apply Hw. }
  intros dx Hdx. destruct (action_written f w m dx 1 tsize W Hw Hdx) as (act & D1 & D2 & D3).
  destruct act as [|a [|b act]]; [discriminate| |discriminate]. exists a. split; [exact D1|].
  destruct (add_vector_spec (all_items f w m) dx (repeat 0 tsize)) as (g' & A' & _ & C').
  { now rewrite repeat_length. } { intros it H. rewrite repeat_length. now apply Hg. }
  rewrite A in A'. inversion A'; subst g'. rewrite C'.
  assert (Z0 : dot (repeat 0 tsize) dx = 0). { unfold dot. apply sumn_zero. intros i _. rewrite nth_repeat. ring. }
  rewrite Z0, Rplus_0_l. specialize (D3 0%nat ltac:(lia)). cbn [nth] in D3. rewrite D3, <- (all_items_sum f w m 1 tsize 0 dx W S).
  apply suml_ext. intros it H. unfold weigh. destruct (Hg it H) as [E _]. rewrite E. reflexivity.
Qed.

(** ** True dofs: RAP(R, A, P) (functional.hpp:649-662) against P_test^T action P_trial (406-432) *)
Definition csr_entry (c : csr) (V : list R) (r j : nat) : R :=
  let lo := nth r (row_ptr c) 0%Z in let hi := nth (S r) (row_ptr c) 0%Z in
  sumn (Z.to_nat (hi - lo)) (fun i => if Nat.eqb j (Z.to_nat (nth (Z.to_nat lo + i) (col_ind c) (-1)%Z)) then nth (Z.to_nat lo + i) V 0 else 0).
Lemma spmv_entries c V x r tsize : length x = tsize -> spmv_row c V x r = sumn tsize (fun j => csr_entry c V r j * nth j x 0).
Proof.
  intros Hx. unfold spmv_row, csr_entry.
  rewrite (sumn_ext tsize _ (fun j => sumn (Z.to_nat (nth (S r) (row_ptr c) 0%Z - nth r (row_ptr c) 0%Z)) (fun i =>
     if Nat.eqb j (Z.to_nat (nth (Z.to_nat (nth r (row_ptr c) 0%Z) + i) (col_ind c) (-1)%Z)) then nth (Z.to_nat (nth r (row_ptr c) 0%Z) + i) V 0 * nth j x 0 else 0))).
  - rewrite sumn_swap. apply sumn_ext. intros i _. set (k := Z.to_nat (nth _ (col_ind c) _)).
    destruct (Nat.lt_ge_cases k tsize) as [H|H].
    + rewrite (sumn_delta tsize k (fun j => nth _ V 0 * nth j x 0)) by auto. reflexivity.
    + rewrite (sumn_delta_out tsize k (fun j => nth _ V 0 * nth j x 0)) by auto. rewrite (nth_overflow x) by lia. ring.
  - intros j _. rewrite <- sumn_scal_r. apply sumn_ext. intros i _. destruct (Nat.eqb _ _); ring.
Qed.
Definition RAP (lsize tsize : nat) (Rm : nat -> nat -> R) (A : nat -> nat -> R) (P : nat -> nat -> R) (i j : nat) : R :=
  sumn lsize (fun r => sumn tsize (fun c => Rm r i * A r c * P c j)).
Definition prolong (tsize ntrue : nat) (P : nat -> nat -> R) (x : list R) : list R :=
  tab tsize (fun c => sumn ntrue (fun j => P c j * nth j x 0)).
Lemma assembled_true_agrees f w (m : mem) c lsize tsize ntrue Rm P : wf_assembly f w lsize tsize -> same_elements f w -> all_written f w m ->
  valid_csr lsize (coupled (blocks_of f w Elements)) c -> (Z.of_nat lsize <= 2 ^ 32)%Z ->
  (forall x, coupled (blocks_of f w BoundaryElements) x -> coupled (blocks_of f w Elements) x) ->
  exists V, assemble f w m c = Ok V /\
    forall dx, length dx = ntrue -> exists act, action f w m (prolong tsize ntrue P dx) lsize = Ok act /\
      forall i, sumn ntrue (fun j => RAP lsize tsize Rm (csr_entry c V) P i j * nth j dx 0) = sumn lsize (fun r => Rm r i * nth r act 0).
Proof.
  intros W S Hw Hv Hls Hb. destruct (assembled_agrees f w m c lsize tsize W S Hw Hv Hls Hb) as (V & A & B).
  exists V. split; [exact A|]. intros dx Hdx. destruct (B (prolong tsize ntrue P dx)) as (act & C & D & F); [apply tab_length|].
  exists act. split; [exact C|]. intros i. unfold RAP.
  rewrite (sumn_ext ntrue _ (fun j => sumn lsize (fun r => sumn tsize (fun cc => Rm r i * csr_entry c V r cc * P cc j) * nth j dx 0)))
    by (intros; now rewrite <- sumn_scal_r).
  rewrite sumn_swap. apply sumn_ext. intros r Hr. rewrite <- F by auto. rewrite (spmv_entries c V _ r tsize) by apply tab_length.
  rewrite <- sumn_scal_l.
  rewrite (sumn_ext ntrue _ (fun j => sumn tsize (fun cc => Rm r i * csr_entry c V r cc * P cc j * nth j dx 0))) by (intros; now rewrite <- sumn_scal_r).
  rewrite sumn_swap. apply sumn_ext. intros cc Hcc. unfold prolong. rewrite nth_tab by auto.
  rewrite <- !sumn_scal_l. apply sumn_ext. intros j _. ring.
Qed.
End Assembly.

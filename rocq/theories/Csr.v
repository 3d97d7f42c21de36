(** * Sparsity lookup table for gradient assembly
    Models GradientAssemblyLookupTables (dof_numbering.hpp:253-380).  Row and column numbers are
    uint32_t values, modelled as [Z]. *)
From Coq Require Import NArith ZArith List Lia Bool Permutation Sorted RelationClasses.
From Verif Require Import Prelude DofCodec Restriction.
Import ListNotations.
Local Open Scope Z_scope.

(** struct Entry: row, column (hpp:255-257) *)
Notation entry := (Z * Z)%type.

(** Entry::operator< (hpp:260-263) and operator== (hpp:266) *)
Definition entry_lt (a b : entry) : bool := (fst a <? fst b) || ((fst a =? fst b) && (snd a <? snd b)).
Definition entry_eqb (a b : entry) : bool := (fst a =? fst b) && (snd a =? snd b).

(** conversion to uint32_t (hpp:311, 313, 358) *)
Definition u32 (z : Z) : Z := z mod (2 ^ 32).

(** The keys emitted by one pair of restrictions, in loop order (hpp:302-319).  [L_id] is the vdof index
    cast to int; casting to uint32_t directly gives the same value as [u32] of it. *)
Definition emitted (test trial : restriction) : list entry :=
  flat_map (fun e =>
    flat_map (fun i => flat_map (fun j => flat_map (fun k => map (fun l =>
      (u32 (L_id test e k i), u32 (L_id trial e l j)))
      (seq 0 (r_components trial))) (seq 0 (r_components test)))
      (seq 0 (r_nodes_per_elem trial))) (seq 0 (r_nodes_per_elem test)))
    (seq 0 (r_num_elements trial)).
(** over all geometries (hpp:296-320); the two maps are keyed by the same geometries *)
Definition emitted_all (blocks : list (restriction * restriction)) : list entry :=
  flat_map (fun p => emitted (fst p) (snd p)) blocks.

(** std::unordered_map<Entry, uint32_t>: an association list.  [m[k] = v] (hpp:314, 339). *)
Definition lut := list (entry * Z).
Fixpoint lut_set (m : lut) (k : entry) (v : Z) : lut :=
  match m with
  | [] => [(k, v)]
  | (k', v') :: t => if entry_eqb k k' then (k, v) :: t else (k', v') :: lut_set t k v
  end.
(** nz_LUT.at (hpp:358) throws when the key is absent. *)
Fixpoint lut_at (m : lut) (k : entry) : outcome Z :=
  match m with
  | [] => Refused
  | (k', v') :: t => if entry_eqb k k' then Ok v' else lut_at t k
  end.
Definition lut_keys (keys : list entry) : lut := fold_left (fun m k => lut_set m k 0) keys [].

(** std::sort (hpp:329), as insertion sort. *)
Fixpoint insert_entry (x : entry) (l : list entry) : list entry :=
  match l with [] => [x] | y :: t => if entry_lt x y then x :: y :: t else y :: insert_entry x t end.
Definition sort_entries (l : list entry) : list entry := fold_right insert_entry [] l.

(** inner loop (hpp:343-345): row_ptr[j+1] = i for j = from, from+1, ..., to-1 *)
Fixpoint fill_rows (n : nat) (j i : Z) (row_ptr : list Z) : outcome (list Z) :=
  match n with
  | O => Ok row_ptr
  | S n' => bindO (vec_set row_ptr (j + 1) i) (fill_rows n' (j + 1) i)
  end.
(** main loop (hpp:338-346) *)
Fixpoint fill (prev : entry) (rest : list entry) (i : Z) (m : lut) (cols rows : list Z) : outcome (lut * list Z * list Z) :=
  match rest with
  | [] => Ok (m, cols, rows)
  | x :: t =>
      bindO (vec_set cols i (snd x)) (fun cols' =>
      bindO (fill_rows (Z.to_nat (fst x - fst prev)) (fst prev) i rows) (fun rows' =>
      fill x t (i + 1) (lut_set m x i) cols' rows'))
  end.

Record csr := { nnz : Z; row_ptr : list Z; col_ind : list Z; nz_LUT : lut }.

(** [order] stands for the unspecified iteration order of the hash map (hpp:322-327): it may be any
    arrangement of the keys.  With no entries, entries[0] and col_ind[0] are out of range (hpp:336). *)
Definition init_table (lsize : nat) (m : lut) (order : list entry) : outcome csr :=
  let entries := sort_entries order in
  let n := Z.of_nat (length entries) in
  let rows0 := repeat 0 (S lsize) in
  let cols0 := repeat 0 (length entries) in
  match entries with
  | [] => UB
  | e0 :: rest =>
      bindO (vec_set cols0 0 (snd e0)) (fun cols1 =>
      bindO (fill e0 rest 1 m cols1 rows0) (fun r =>
        let '(m', cols, rows) := r in
        bindO (vec_set rows (Z.of_nat lsize) n) (fun rows' =>
        Ok {| nnz := n; row_ptr := rows'; col_ind := cols; nz_LUT := m' |})))
  end.
Definition lookup (c : csr) (i j : Z) : outcome Z := lut_at (nz_LUT c) (u32 i, u32 j).

(** ** Specification *)
(** A valid compressed-row pattern for [lsize] rows holding exactly the pairs in [S]. *)
Definition valid_csr (lsize : nat) (S : entry -> Prop) (c : csr) : Prop :=
  length (row_ptr c) = Datatypes.S lsize /\
  Z.of_nat (length (col_ind c)) = nnz c /\
  nth 0 (row_ptr c) (-1) = 0 /\ nth lsize (row_ptr c) (-1) = nnz c /\
  (forall r, (r < lsize)%nat -> nth r (row_ptr c) 0 <= nth (Datatypes.S r) (row_ptr c) 0) /\
  (* columns of one row strictly increase *)
  (forall r k, (r < lsize)%nat -> nth r (row_ptr c) 0 <= k -> k + 1 < nth (Datatypes.S r) (row_ptr c) 0 ->
     nth (Z.to_nat k) (col_ind c) (-1) < nth (Z.to_nat (k + 1)) (col_ind c) (-1)) /\
  (* the stored pairs are those of S *)
  (forall r col, (r < lsize)%nat ->
     (S (Z.of_nat r, col) <-> exists k, nth r (row_ptr c) 0 <= k < nth (Datatypes.S r) (row_ptr c) 0 /\
                                        nth (Z.to_nat k) (col_ind c) (-1) = col)) /\
  (* and the table maps each pair to its position, other pairs to an error *)
  (forall r col, (r < lsize)%nat -> 0 <= col < 2 ^ 32 -> Z.of_nat lsize <= 2 ^ 32 ->
     (forall k, lookup c (Z.of_nat r) col = Ok k <->
        S (Z.of_nat r, col) /\ nth r (row_ptr c) 0 <= k < nth (Datatypes.S r) (row_ptr c) 0 /\
        nth (Z.to_nat k) (col_ind c) (-1) = col) /\
     (~ S (Z.of_nat r, col) -> lookup c (Z.of_nat r) col = Refused)).

(** ** Ordering lemmas *)
Definition elt (a b : entry) : Prop := fst a < fst b \/ (fst a = fst b /\ snd a < snd b).
Lemma entry_lt_iff a b : entry_lt a b = true <-> elt a b.
Proof. unfold entry_lt, elt. rewrite orb_true_iff, andb_true_iff, Z.ltb_lt, Z.eqb_eq, Z.ltb_lt. tauto. Qed.
Lemma entry_eqb_iff a b : entry_eqb a b = true <-> a = b.
Proof.
  unfold entry_eqb. rewrite andb_true_iff, !Z.eqb_eq. destruct a, b; simpl. split; [intros [-> ->]; auto|].
  intros H; inversion H; auto.
Qed.
Lemma entry_eqb_spec a b : reflect (a = b) (entry_eqb a b).
Proof. apply iff_reflect. symmetry. apply entry_eqb_iff. Qed.
Lemma elt_trans a b c : elt a b -> elt b c -> elt a c.
Proof. unfold elt. lia. Qed.
Lemma elt_irrefl a : ~ elt a a.
Proof. unfold elt. lia. Qed.
Lemma elt_total a b : a <> b -> ~ elt a b -> elt b a.
Proof. destruct a, b; unfold elt; simpl. intros H. assert (z <> z1 \/ z0 <> z2) by (destruct (Z.eq_dec z z1), (Z.eq_dec z0 z2); subst; auto). lia. Qed.

Lemma insert_in x l y : In y (insert_entry x l) <-> y = x \/ In y l.
Proof.
  induction l as [|a l IH]; simpl; [intuition congruence|]. destruct (entry_lt x a); simpl; [intuition congruence|].
  rewrite IH. intuition.
Qed.
Lemma insert_length x l : length (insert_entry x l) = S (length l).
Proof. induction l as [|a l IH]; simpl; [reflexivity|]. destruct (entry_lt x a); simpl; congruence. Qed.
Lemma insert_sorted x l : StronglySorted elt l -> ~ In x l -> StronglySorted elt (insert_entry x l).
Proof.
  induction l as [|a l IH]; intros Hs Hx; simpl; [repeat constructor|].
  inversion Hs as [|? ? Hs' Ha]; subst. simpl in Hx. destruct (entry_lt x a) eqn:E.
  - apply entry_lt_iff in E. constructor; [constructor; auto|]. constructor; auto.
    eapply Forall_impl; [|exact Ha]. intros y Hy. eapply elt_trans; eauto.
  - assert (Hax : elt a x). { apply elt_total; [intuition congruence|]. rewrite <- entry_lt_iff, E. discriminate. }
    constructor; [apply IH; auto|]. apply Forall_forall. intros y Hy. apply insert_in in Hy as [->|Hy]; auto.
    rewrite Forall_forall in Ha. auto.
Qed.
Lemma sort_in l y : In y (sort_entries l) <-> In y l.
Proof. induction l as [|a l IH]; simpl; [tauto|]. rewrite insert_in, IH. intuition. Qed.
Lemma sort_length l : length (sort_entries l) = length l.
Proof. induction l as [|a l IH]; simpl; auto. now rewrite insert_length, IH. Qed.
Lemma sort_sorted l : NoDup l -> StronglySorted elt (sort_entries l).
Proof.
  induction 1 as [|a l Ha Hn IH]; simpl; [constructor|]. apply insert_sorted; auto. now rewrite sort_in.
Qed.

(** ** Map lemmas *)
Lemma lut_at_set m k v k' : lut_at (lut_set m k v) k' = if entry_eqb k' k then Ok v else lut_at m k'.
Proof.
  induction m as [|[a b] m IH]; simpl; [reflexivity|].
  destruct (entry_eqb_spec k a) as [->|N]; simpl.
  - destruct (entry_eqb_spec k' a); auto.
  - destruct (entry_eqb_spec k' a) as [->|]; [destruct (entry_eqb_spec a k); congruence|apply IH].
Qed.
Lemma lut_set_keys m k v k' : In k' (map fst (lut_set m k v)) <-> k' = k \/ In k' (map fst m).
Proof.
  induction m as [|[a b] m IH]; simpl; [intuition congruence|]. destruct (entry_eqb_spec k a) as [->|]; simpl; [intuition congruence|].
  rewrite IH. intuition.
Qed.
Lemma lut_set_nodup m k v : NoDup (map fst m) -> NoDup (map fst (lut_set m k v)).
Proof.
  induction m as [|[a b] m IH]; simpl; intros H; [constructor; auto; constructor|].
  inversion H; subst. destruct (entry_eqb_spec k a) as [->|]; simpl; constructor; auto.
  rewrite lut_set_keys. intuition congruence.
Qed.
Lemma lut_keys_spec keys :
  NoDup (map fst (lut_keys keys)) /\ (forall k, In k (map fst (lut_keys keys)) <-> In k keys) /\
  (forall k, lut_at (lut_keys keys) k = if existsb (entry_eqb k) keys then Ok 0 else Refused).
Proof.
  unfold lut_keys.
  assert (G : forall keys m (K : list entry), NoDup (map fst m) -> (forall k, In k (map fst m) <-> In k K) ->
     (forall k, lut_at m k = if existsb (entry_eqb k) K then Ok 0 else Refused) ->
     let m' := fold_left (fun m k => lut_set m k 0) keys m in
     NoDup (map fst m') /\ (forall k, In k (map fst m') <-> In k (K ++ keys)) /\
     (forall k, lut_at m' k = if existsb (entry_eqb k) (K ++ keys) then Ok 0 else Refused)).
  { clear. induction keys as [|a keys IH]; intros m K H1 H2 H3; simpl.
    - rewrite app_nil_r. auto.
    - specialize (IH (lut_set m a 0) (K ++ [a]) (lut_set_nodup _ _ _ H1)). simpl in IH.
      rewrite <- app_assoc in IH. apply IH.
      + intros k. rewrite lut_set_keys, H2, in_app_iff. simpl. intuition.
      + intros k. rewrite lut_at_set, H3, existsb_app. simpl. rewrite orb_false_r.
        destruct (entry_eqb k a), (existsb (entry_eqb k) K); reflexivity. }
  apply (G keys [] []); simpl; auto; [constructor|tauto].
Qed.

(** ** The main loop *)
(** number of entries in rows before r *)
Definition below (r : Z) (l : list entry) : Z := Z.of_nat (length (filter (fun e => fst e <? r) l)).

Lemma fill_rows_spec n : forall j i rows, 0 <= j -> j + Z.of_nat n < Z.of_nat (length rows) ->
  exists rows', fill_rows n j i rows = Ok rows' /\ length rows' = length rows /\
    forall r d, nth r rows' d = if ((j <? Z.of_nat r) && (Z.of_nat r <=? j + Z.of_nat n))%bool then i else nth r rows d.
Proof.
  induction n as [|n IH]; intros j i rows Hj Hn; cbn [fill_rows].
  - exists rows. repeat split; auto. intros r d.
    destruct (Z.ltb_spec j (Z.of_nat r)), (Z.leb_spec (Z.of_nat r) (j + Z.of_nat 0)); simpl; auto; lia.
  - rewrite vec_set_ok by lia. cbn [bindO].
    destruct (IH (j + 1) i (upd rows (Z.to_nat (j + 1)) i)) as (rows' & A & B & C); [lia|rewrite upd_length; lia|].
    exists rows'. split; auto. rewrite upd_length in B. split; auto. intros r d. rewrite C, nth_upd by lia.
    destruct (Z.ltb_spec (j + 1) (Z.of_nat r)), (Z.leb_spec (Z.of_nat r) (j + 1 + Z.of_nat n)),
      (Z.ltb_spec j (Z.of_nat r)), (Z.leb_spec (Z.of_nat r) (j + Z.of_nat (S n))), (Nat.eqb_spec r (Z.to_nat (j + 1)));
      simpl; auto; lia.
Qed.

Lemma below_app r a b : below r (a ++ b) = below r a + below r b.
Proof. unfold below. rewrite filter_app, app_length. apply Nat2Z.inj_add. Qed.
Lemma below_nonneg r a : 0 <= below r a.
Proof. unfold below. lia. Qed.
Lemma below_all r l : Forall (fun e => fst e < r) l -> below r l = Z.of_nat (length l).
Proof.
  unfold below. induction 1 as [|a l Ha _ IH]; [reflexivity|]. simpl. destruct (Z.ltb_spec (fst a) r); [|lia]. simpl. lia.
Qed.
Lemma below_none r l : Forall (fun e => r <= fst e) l -> below r l = 0.
Proof.
  unfold below. induction 1 as [|a l Ha _ IH]; [reflexivity|]. simpl. destruct (Z.ltb_spec (fst a) r); [lia|]. simpl. lia.
Qed.
Lemma below_mono r s l : r <= s -> below r l <= below s l.
Proof.
  intros H. unfold below. induction l as [|a l IH]; [simpl; lia|]. simpl.
  destruct (Z.ltb_spec (fst a) r), (Z.ltb_spec (fst a) s); simpl; lia.
Qed.

Lemma sorted_app_split (a b : list entry) : StronglySorted elt (a ++ b) -> forall x y, In x a -> In y b -> elt x y.
Proof.
  induction a as [|h a IH]; simpl; intros H x y [].
  - subst. intros Hy. inversion H as [|? ? _ F]; subst. rewrite Forall_forall in F. apply F. apply in_or_app; auto.
  - inversion H; subst. intros Hy. apply IH; auto.
Qed.

Lemma fill_spec rest : forall done prev m cols rows lsize,
  let all := done ++ prev :: rest in
  StronglySorted elt all ->
  Forall (fun e => 0 <= fst e < Z.of_nat lsize) all ->
  length cols = length all -> length rows = S lsize ->
  (forall k, (k <= length done)%nat -> nth k cols (-1) = snd (nth k all (0, 0))) ->
  (forall r, Z.of_nat r <= fst prev -> nth r rows 0 = below (Z.of_nat r) all) ->
  (forall r, fst prev < Z.of_nat r -> nth r rows 0 = 0) ->
  exists m' cols' rows', fill prev rest (Z.of_nat (S (length done))) m cols rows = Ok (m', cols', rows') /\
    length cols' = length all /\ length rows' = S lsize /\
    (forall k, (k < length all)%nat -> nth k cols' (-1) = snd (nth k all (0, 0))) /\
    (forall r, Z.of_nat r <= fst (last (prev :: rest) (0, 0)) -> nth r rows' 0 = below (Z.of_nat r) all) /\
    (forall r, fst (last (prev :: rest) (0, 0)) < Z.of_nat r -> nth r rows' 0 = 0) /\
    (forall x, ~ In x rest -> lut_at m' x = lut_at m x) /\
    (forall k, (length done < k < length all)%nat -> lut_at m' (nth k all (0, 0)) = Ok (Z.of_nat k)).
Proof.
  induction rest as [|x t IH]; intros done prev m cols rows lsize all Hs Hr Hc Hrow Hcols Hle Hgt.
  - exists m, cols, rows. cbn [fill]. assert (length all = S (length done)) by (unfold all; rewrite app_length; simpl; lia).
    repeat split; auto; try (intros; lia). intros k Hk. apply Hcols. lia.
  - assert (Hlen : length all = (length done + S (S (length t)))%nat) by (unfold all; rewrite app_length; reflexivity).
    assert (Hpx : elt prev x).
    { unfold all in Hs. change (prev :: x :: t) with ([prev] ++ x :: t) in Hs. rewrite app_assoc in Hs.
      apply (sorted_app_split _ _ Hs); [apply in_or_app; right; now left|now left]. }
    assert (Hx : 0 <= fst x < Z.of_nat lsize /\ 0 <= fst prev < Z.of_nat lsize).
    { rewrite Forall_forall in Hr. split; apply Hr; unfold all; apply in_or_app; right; simpl; auto. }
    cbn [fill]. rewrite vec_set_ok by (rewrite Hc, Hlen; lia). cbn [bindO].
    destruct (fill_rows_spec (Z.to_nat (fst x - fst prev)) (fst prev) (Z.of_nat (S (length done))) rows) as (rows1 & A & B & C);
      [lia|rewrite Hrow; unfold elt in Hpx; lia|].
    rewrite A. cbn [bindO].
    assert (Hall : all = (done ++ [prev]) ++ x :: t) by (unfold all; rewrite <- app_assoc; reflexivity).
    destruct (IH (done ++ [prev]) x (lut_set m x (Z.of_nat (S (length done)))) (upd cols (Z.to_nat (Z.of_nat (S (length done)))) (snd x)) rows1 lsize)
      as (m' & cols' & rows' & E0 & E1 & E2 & E3 & E4 & E5 & E6 & E7); rewrite <- ?Hall; auto.
    + rewrite upd_length. auto.
    + lia.
    + intros k Hk. rewrite app_length in Hk. simpl in Hk. rewrite nth_upd by lia.
      destruct (Nat.eqb_spec k (Z.to_nat (Z.of_nat (S (length done))))) as [->|N].
      * rewrite Nat2Z.id, Hall, app_nth2 by (rewrite app_length; simpl; lia).
        rewrite app_length. cbn [length]. replace (S (length done) - (length done + 1))%nat with 0%nat by lia. reflexivity.
      * apply Hcols. lia.
    + intros r Hrr. rewrite C.
      destruct (Z.ltb_spec (fst prev) (Z.of_nat r)), (Z.leb_spec (Z.of_nat r) (fst prev + Z.of_nat (Z.to_nat (fst x - fst prev)))); simpl.
      * rewrite Hall, below_app, below_all, below_none.
        -- rewrite app_length. simpl. lia.
        -- apply Forall_forall. intros y Hy.
           assert (y = x \/ elt x y).
           { destruct Hy as [->|Hy]; auto. right. rewrite Hall in Hs. change (x :: t) with ([x] ++ t) in Hs. rewrite app_assoc in Hs.
             apply (sorted_app_split _ _ Hs); auto. apply in_or_app; right; now left. }
           unfold elt in *. destruct H1 as [->|]; lia.
        -- apply Forall_forall. intros y Hy. apply in_app_or in Hy as [Hy|[<-|[]]]; [|lia].
           assert (elt y prev). { unfold all in Hs. apply (sorted_app_split _ _ Hs); auto. now left. }
           unfold elt in *. lia.
      * unfold elt in Hpx. lia.
      * apply Hle. lia.
      * apply Hle. lia.
    + intros r Hrr. rewrite C.
      destruct (Z.ltb_spec (fst prev) (Z.of_nat r)), (Z.leb_spec (Z.of_nat r) (fst prev + Z.of_nat (Z.to_nat (fst x - fst prev)))); simpl;
        try (apply Hgt); unfold elt in Hpx; lia.
    + exists m', cols', rows'. rewrite <- Hall in E1, E3, E4, E7. rewrite app_length in E0. cbn [length] in E0.
      replace (Z.of_nat (S (length done)) + 1) with (Z.of_nat (S (length done + 1))) by lia.
      split; [exact E0|]. split; auto. split; auto. split; auto.
      change (last (prev :: x :: t) (0, 0)) with (last (x :: t) (0, 0)).
      split; auto. split; auto. split.
      * intros y Hy. simpl in Hy. rewrite E6 by tauto. rewrite lut_at_set.
        destruct (entry_eqb_spec y x); [exfalso; apply Hy; left; congruence|reflexivity].
      * intros k Hk. destruct (Nat.eq_dec k (S (length done))) as [->|N].
        -- rewrite Hall, app_nth2 by (rewrite app_length; simpl; lia). rewrite app_length. cbn [length].
           replace (S (length done) - (length done + 1))%nat with 0%nat by lia. cbn [nth]. rewrite E6, lut_at_set.
           ++ destruct (entry_eqb_spec x x); congruence.
           ++ intros Hin. rewrite Hall in Hs. change (x :: t) with ([x] ++ t) in Hs. rewrite app_assoc in Hs.
              assert (elt x x). { apply (sorted_app_split _ _ Hs); auto. apply in_or_app; right; now left. }
              apply (elt_irrefl x); auto.
        -- apply E7. rewrite app_length. simpl. lia.
Qed.

Lemma last_in (l : list entry) d : l <> [] -> In (last l d) l.
Proof. intros H. rewrite (app_removelast_last d H) at 2. apply in_or_app. right. now left. Qed.
Lemma last_greatest l d : StronglySorted elt l -> forall x, In x l -> fst x <= fst (last l d).
Proof.
  intros Hs x Hx. assert (H : l <> []) by (intros ->; contradiction).
  rewrite (app_removelast_last d H) in Hs, Hx. apply in_app_or in Hx as [Hx|[->|[]]]; [|lia].
  assert (elt x (last l d)) by (apply (sorted_app_split _ _ Hs); auto; now left). unfold elt in *. lia.
Qed.

Lemma below_pos l : StronglySorted elt l -> forall r k, (k < length l)%nat ->
  (Z.of_nat k < below r l <-> fst (nth k l (0, 0)) < r).
Proof.
  induction l as [|a l IH]; intros Hs r k Hk; [simpl in Hk; lia|].
  inversion Hs as [|? ? Hs' Ha]; subst. unfold below. cbn [filter].
  destruct (Z.ltb_spec (fst a) r) as [L|L].
  - destruct k as [|k]; [simpl; lia|]. simpl in Hk. specialize (IH Hs' r k ltac:(lia)). unfold below in IH. cbn [nth length]. lia.
  - fold (below r l). rewrite (below_none r l).
    + split; [lia|]. intros H. exfalso.
      assert (fst a <= fst (nth k (a :: l) (0, 0))); [|lia].
      destruct k as [|k]; [simpl; lia|]. simpl in Hk. cbn [nth]. rewrite Forall_forall in Ha.
      assert (elt a (nth k l (0, 0))) by (apply Ha, nth_In; lia). unfold elt in *. lia.
    + eapply Forall_impl; [|exact Ha]. unfold elt. intros y Hy. simpl. lia.
Qed.
Lemma below_le_length r l : below r l <= Z.of_nat (length l).
Proof. unfold below. induction l as [|a l IH]; [simpl; lia|]. simpl. destruct (fst a <? r); simpl; lia. Qed.

Lemma sorted_nth l : StronglySorted elt l -> forall i j, (i < j)%nat -> (j < length l)%nat -> elt (nth i l (0,0)) (nth j l (0,0)).
Proof.
  induction l as [|a l IH]; intros Hs i j Hij Hj; [simpl in Hj; lia|]. inversion Hs as [|? ? Hs' Ha]; subst.
  destruct j as [|j]; [lia|]. simpl in Hj. destruct i as [|i].
  - cbn [nth]. rewrite Forall_forall in Ha. apply Ha, nth_In. lia.
  - cbn [nth]. apply IH; auto; lia.
Qed.

(** The table: what init computes. *)
Lemma init_table_spec lsize keys order : keys <> [] ->
  Permutation order (map fst (lut_keys keys)) ->
  (forall e, In e keys -> 0 <= fst e < Z.of_nat lsize) ->
  exists c, let all := sort_entries order in
    init_table lsize (lut_keys keys) order = Ok c /\
    StronglySorted elt all /\ (forall e, In e all <-> In e keys) /\
    nnz c = Z.of_nat (length all) /\ length (col_ind c) = length all /\ length (row_ptr c) = S lsize /\
    (forall k, (k < length all)%nat -> nth k (col_ind c) (-1) = snd (nth k all (0, 0))) /\
    (forall r, Z.of_nat r <= fst (last all (0, 0)) -> nth r (row_ptr c) 0 = below (Z.of_nat r) all) /\
    (forall r, fst (last all (0, 0)) < Z.of_nat r -> (r < lsize)%nat -> nth r (row_ptr c) 0 = 0) /\
    nth lsize (row_ptr c) 0 = nnz c /\
    (forall k, (k < length all)%nat -> lut_at (nz_LUT c) (nth k all (0, 0)) = Ok (Z.of_nat k)) /\
    (forall e, ~ In e keys -> lut_at (nz_LUT c) e = Refused).
Proof.
  intros Hne Hp Hr. destruct (lut_keys_spec keys) as (Hn & Hin & Hat).
  assert (HnO : NoDup order) by (eapply Permutation_NoDup; [symmetry; exact Hp|exact Hn]).
  assert (HinO : forall e, In e (sort_entries order) <-> In e keys).
  { intros e. rewrite sort_in, <- Hin. split; apply Permutation_in; auto. now symmetry. }
  pose proof (sort_sorted order HnO) as Hs.
  unfold init_table. destruct (sort_entries order) as [|e0 rest] eqn:Es.
  { exfalso. destruct keys as [|k keys]; [congruence|]. apply (HinO k). now left. }
  assert (Hrall : Forall (fun e => 0 <= fst e < Z.of_nat lsize) (e0 :: rest)).
  { apply Forall_forall. intros e He. apply Hr, HinO, He. }
  rewrite vec_set_ok by (rewrite repeat_length; simpl; lia). cbn [bindO].
  destruct (fill_spec rest [] e0 (lut_keys keys) (upd (repeat 0 (length (e0 :: rest))) (Z.to_nat 0) (snd e0)) (repeat 0 (S lsize)) lsize)
    as (m' & cols' & rows' & E0 & E1 & E2 & E3 & E4 & E5 & E6 & E7); auto.
  - rewrite upd_length, repeat_length. reflexivity.
  - apply repeat_length.
  - intros k Hk. simpl in Hk. assert (k = 0%nat) by lia. subst. reflexivity.
  - intros r Hle. simpl app in *. rewrite (below_none (Z.of_nat r)).
    + clear. generalize (S lsize). induction r as [|r IH]; intros [|n]; simpl; auto.
    + apply Forall_forall. intros y [<-|Hy]; [lia|]. inversion Hs as [|? ? _ Ha]; subst. rewrite Forall_forall in Ha.
      specialize (Ha y Hy). unfold elt in Ha. lia.
  - intros r _. clear. generalize (S lsize). induction r as [|r IH]; intros [|n]; simpl; auto.
  - change (Z.of_nat (S (length (@nil entry)))) with 1 in E0. rewrite E0. cbn [bindO].
    rewrite vec_set_ok by lia. cbn [bindO]. eexists. split; [reflexivity|]. cbn [nnz row_ptr col_ind nz_LUT].
    split; [exact Hs|]. split; [exact HinO|]. split; [reflexivity|]. split; [exact E1|].
    split; [rewrite upd_length; exact E2|]. split; [exact E3|].
    assert (Hl : fst (last (e0 :: rest) (0, 0)) < Z.of_nat lsize).
    { rewrite Forall_forall in Hrall. apply Hrall, last_in. discriminate. }
    split.
    { intros r Hrr. rewrite nth_upd by lia. destruct (Nat.eqb_spec r (Z.to_nat (Z.of_nat lsize))); [lia|]. apply E4, Hrr. }
    split.
    { intros r Hrr Hlt. rewrite nth_upd by lia. destruct (Nat.eqb_spec r (Z.to_nat (Z.of_nat lsize))); [lia|]. apply E5, Hrr. }
    split.
    { rewrite nth_upd by lia. now rewrite Nat2Z.id, Nat.eqb_refl. }
    split.
    + intros k Hk. destruct k as [|k]; [|apply E7; simpl in *; lia].
      cbn [nth]. rewrite E6.
      * rewrite Hat. replace (existsb (entry_eqb e0) keys) with true; [reflexivity|]. symmetry. apply existsb_exists.
        exists e0. split; [apply HinO; now left|]. now apply entry_eqb_iff.
      * intros H. inversion Hs as [|? ? _ Ha]; subst. rewrite Forall_forall in Ha. apply (elt_irrefl e0), Ha, H.
    + intros e He. rewrite E6 by (intros H; apply He, HinO; now right). rewrite Hat.
      destruct (existsb (entry_eqb e) keys) eqn:X; auto. apply existsb_exists in X as (y & Hy & Y).
      apply entry_eqb_iff in Y. subst y. contradiction.
Qed.

Lemma u32_small z : 0 <= z < 2 ^ 32 -> u32 z = z.
Proof. intros H. unfold u32. apply Z.mod_small, H. Qed.

(** When the last row holds an entry, the table is a valid pattern for exactly the emitted pairs,
    whatever order the hash map iterates in. *)
Lemma init_table_valid lsize keys order : 
  Permutation order (map fst (lut_keys keys)) ->
  (forall e, In e keys -> 0 <= fst e < Z.of_nat lsize) ->
  (exists col, In (Z.of_nat lsize - 1, col) keys) ->
  exists c, init_table lsize (lut_keys keys) order = Ok c /\ valid_csr lsize (fun e => In e keys) c.
Proof.
  intros Hp Hr [c0 Hlast].
  assert (Hne : keys <> []) by (intros ->; contradiction).
  destruct (init_table_spec lsize keys order Hne Hp Hr) as (c & H). cbv zeta in H.
  set (all := sort_entries order) in *.
  destruct H as (E0 & Hs & Hin & E1 & E2 & E3 & E4 & E5 & _ & E6 & E7 & E8).
  exists c. split; auto.
  assert (Hlen : Z.of_nat lsize - 1 <= fst (last all (0,0))) by (apply (last_greatest all (0,0) Hs (Z.of_nat lsize - 1, c0)), Hin, Hlast).
  assert (Hpos : 0 < Z.of_nat lsize) by (specialize (Hr _ Hlast); simpl in Hr; lia).
  assert (HR : forall r, (r <= lsize)%nat -> nth r (row_ptr c) 0 = below (Z.of_nat r) all).
  { intros r Hrr. destruct (Nat.eq_dec r lsize) as [->|]; [|apply E5; lia].
    rewrite E6, E1, below_all; auto. apply Forall_forall. intros e He. apply Hr, Hin, He. }
  assert (HK : forall r k, (r < lsize)%nat -> below (Z.of_nat r) all <= k < below (Z.of_nat (S r)) all ->
     0 <= k /\ (Z.to_nat k < length all)%nat /\ fst (nth (Z.to_nat k) all (0,0)) = Z.of_nat r).
  { intros r k Hrr Hk. pose proof (below_nonneg (Z.of_nat r) all). pose proof (below_le_length (Z.of_nat (S r)) all).
    assert (L : (Z.to_nat k < length all)%nat) by lia. split; [lia|]. split; auto.
    pose proof (below_pos all Hs (Z.of_nat r) (Z.to_nat k) L). pose proof (below_pos all Hs (Z.of_nat (S r)) (Z.to_nat k) L).
    rewrite Z2Nat.id in * by lia. lia. }
  assert (HK2 : forall r k, (k < length all)%nat -> fst (nth k all (0,0)) = Z.of_nat r ->
     below (Z.of_nat r) all <= Z.of_nat k < below (Z.of_nat (S r)) all).
  { intros r k L E. pose proof (below_pos all Hs (Z.of_nat r) k L). pose proof (below_pos all Hs (Z.of_nat (S r)) k L). lia. }
  unfold valid_csr. repeat match goal with |- _ /\ _ => split end.
  - exact E3.
  - congruence.
  - rewrite (nth_indep _ (-1) 0) by lia. rewrite (HR 0%nat) by lia. apply below_none.
    apply Forall_forall. intros e He. apply Hin, Hr in He. lia.
  - rewrite (nth_indep _ (-1) 0) by lia. exact E6.
  - intros r Hrr. rewrite !HR by lia. apply below_mono. lia.
  - intros r k Hrr H1 H2. rewrite HR in H1, H2 by lia.
    destruct (HK r k Hrr) as (A & B & C); [lia|]. destruct (HK r (k + 1) Hrr) as (A' & B' & C'); [lia|].
    rewrite !E4 by auto.
    pose proof (sorted_nth all Hs (Z.to_nat k) (Z.to_nat (k + 1)) ltac:(lia) B') as X. unfold elt in X. lia.
  - intros r col Hrr. rewrite !HR by lia. rewrite <- Hin. split.
    + intros Hi. apply (In_nth _ _ (0,0)) in Hi as (k & Hk & Ek). exists (Z.of_nat k).
      rewrite Nat2Z.id, E4, Ek by auto. split; auto. apply HK2; auto. now rewrite Ek.
    + intros (k & Hk & Ec). destruct (HK r k Hrr Hk) as (A & B & C). rewrite E4 in Ec by auto.
      rewrite <- Ec, <- C, <- surjective_pairing. now apply nth_In.
  - intros r col Hrr Hcol Hl. unfold lookup. rewrite !u32_small by lia. rewrite !HR by lia. split.
    + intros k. split.
      * intros Hk. destruct (in_dec (fun a b => Bool.reflect_dec _ _ (entry_eqb_spec a b)) (Z.of_nat r, col) keys) as [Hi|Hi]; [|rewrite E8 in Hk by auto; discriminate].
        split; auto. apply Hin, (In_nth _ _ (0,0)) in Hi as (n & Hn & En). rewrite <- En, E7 in Hk by auto. inversion Hk; subst k.
        rewrite Nat2Z.id, E4, En by auto. split; auto. apply HK2; auto. now rewrite En.
      * intros (Hi & Hk & Ec). destruct (HK r k Hrr Hk) as (A & B & C). rewrite E4 in Ec by auto.
        rewrite <- Ec, <- C, <- surjective_pairing, E7 by auto. f_equal. lia.
    + intros Hi. apply E8, Hi.
Qed.

(** A row without entries at the end of the matrix is left with offset 0. *)
Lemma init_table_trailing_row : exists lsize keys c,
  (forall e, In e keys -> 0 <= fst e < Z.of_nat lsize) /\
  init_table lsize (lut_keys keys) (map fst (lut_keys keys)) = Ok c /\
  row_ptr c = [0; 1; 0; 0; 2] /\ ~ valid_csr lsize (fun e => In e keys) c.
Proof.
  exists 4%nat, [(0, 0); (1, 1)]. eexists. split; [|split; [reflexivity|split; [reflexivity|]]].
  - intros e [<-|[<-|[]]]; simpl; lia.
  - intros (_ & _ & _ & _ & H & _). specialize (H 1%nat ltac:(lia)). vm_compute in H. apply H. reflexivity.
Qed.

(** A process that owns no element: entries[0] does not exist. *)
Lemma init_table_no_entries lsize : init_table lsize (lut_keys []) (map fst (lut_keys [])) = UB.
Proof. reflexivity. Qed.

(** Which pairs are emitted: those coupled by an element. *)
Lemma emitted_in test trial x : In x (emitted test trial) <->
  exists e i j k l, (e < r_num_elements trial)%nat /\ (i < r_nodes_per_elem test)%nat /\ (j < r_nodes_per_elem trial)%nat /\
    (k < r_components test)%nat /\ (l < r_components trial)%nat /\ x = (u32 (L_id test e k i), u32 (L_id trial e l j)).
Proof.
  unfold emitted. split.
  - intros H. apply in_flat_map in H as (e & He & H). apply in_flat_map in H as (i & Hi & H).
    apply in_flat_map in H as (j & Hj & H). apply in_flat_map in H as (k & Hk & H). apply in_map_iff in H as (l & <- & Hl).
    apply in_seq in He, Hi, Hj, Hk, Hl. exists e, i, j, k, l. repeat split; lia.
  - intros (e & i & j & k & l & He & Hi & Hj & Hk & Hl & ->).
    apply in_flat_map. exists e. split; [apply in_seq; lia|]. apply in_flat_map. exists i. split; [apply in_seq; lia|].
    apply in_flat_map. exists j. split; [apply in_seq; lia|]. apply in_flat_map. exists k. split; [apply in_seq; lia|].
    apply in_map_iff. exists l. split; auto. apply in_seq; lia.
Qed.

(** For plain tables in which every test dof belongs to some element, the whole construction is right. *)
Definition coupled (blocks : list (restriction * restriction)) (x : entry) : Prop :=
  exists test trial e i j k l, In (test, trial) blocks /\
    (e < r_num_elements trial)%nat /\ (i < r_nodes_per_elem test)%nat /\ (j < r_nodes_per_elem trial)%nat /\
    (k < r_components test)%nat /\ (l < r_components trial)%nat /\ x = (L_id test e k i, L_id trial e l j).

Lemma table_for_mesh lsize blocks order :
  (forall test trial, In (test, trial) blocks -> plain test /\ plain trial /\
      (r_num_nodes test * r_components test = lsize)%nat /\ r_num_elements test = r_num_elements trial) ->
  (forall r, (r < lsize)%nat -> exists col, coupled blocks (Z.of_nat r, col)) -> (0 < lsize)%nat ->
  Permutation order (map fst (lut_keys (emitted_all blocks))) ->
  exists c, init_table lsize (lut_keys (emitted_all blocks)) order = Ok c /\ valid_csr lsize (coupled blocks) c.
Proof.
  intros Hb Hrow Hpos Hp.
  assert (HE : forall x, In x (emitted_all blocks) <-> coupled blocks x).
  { intros x. unfold emitted_all. rewrite in_flat_map. unfold coupled. split.
    - intros ([te tr] & Hin & H). apply emitted_in in H as (e & i & j & k & l & He & Hi & Hj & Hk & Hl & ->). cbn [fst snd] in *.
      exists te, tr, e, i, j, k, l. do 6 (split; [assumption|]).
      destruct (Hb te tr Hin) as (P1 & P2 & Hls & Hne).
      destruct (plain_L_id te e k i P1) as (n1 & N1 & _ & F1); [lia..|].
      destruct (plain_L_id tr e l j P2) as (n2 & N2 & _ & F2); [lia..|].
      destruct P1 as [_ S1], P2 as [_ S2].
      rewrite !u32_small; [reflexivity| |]; [rewrite F2; destruct (r_ordering tr)|rewrite F1; destruct (r_ordering te)]; nia.
    - intros (te & tr & e & i & j & k & l & Hin & He & Hi & Hj & Hk & Hl & ->).
      exists (te, tr). split; auto. apply emitted_in. exists e, i, j, k, l. cbn [fst snd]. do 5 (split; [assumption|]).
      destruct (Hb te tr Hin) as (P1 & P2 & Hls & Hne).
      destruct (plain_L_id te e k i P1) as (n1 & N1 & _ & F1); [lia..|].
      destruct (plain_L_id tr e l j P2) as (n2 & N2 & _ & F2); [lia..|].
      destruct P1 as [_ S1], P2 as [_ S2].
      rewrite !u32_small; [reflexivity| |]; [rewrite F2; destruct (r_ordering tr)|rewrite F1; destruct (r_ordering te)]; nia. }
  destruct (init_table_valid lsize (emitted_all blocks) order Hp) as (c & A & B).
  - intros x Hx. apply HE in Hx as (te & tr & e & i & j & k & l & Hin & He & Hi & Hj & Hk & Hl & ->).
    destruct (Hb te tr Hin) as (P1 & _ & Hls & Hne).
    destruct (plain_L_id te e k i P1) as (n1 & N1 & _ & F1); [lia..|]. cbn [fst]. rewrite F1. destruct (r_ordering te); nia.
  - destruct (Hrow (lsize - 1)%nat ltac:(lia)) as (col & Hc). exists col. apply HE.
    replace (Z.of_nat lsize - 1) with (Z.of_nat (lsize - 1)) by lia. exact Hc.
  - exists c. split; auto. unfold valid_csr in *.
    destruct B as (B1 & B2 & B3 & B4 & B5 & B6 & B7 & B8).
    repeat (split; [assumption|]). split.
    + intros r col Hr. rewrite <- HE. apply B7, Hr.
    + intros r col Hr Hc Hl. destruct (B8 r col Hr Hc Hl) as [X Y]. split.
      * intros k. rewrite X. now rewrite HE.
      * intros Hn. apply Y. now rewrite HE.
Qed.

(** Example mesh *)
Lemma two_segments_coupled : forall r, (r < 6)%nat -> exists col, coupled [(two_segments byNODES, two_segments byNODES)] (Z.of_nat r, col).
Proof.
  intros r Hr.
  assert (C : exists e k i, (e < 2)%nat /\ (k < 2)%nat /\ (i < 2)%nat /\ Z.of_nat r = L_id (two_segments byNODES) e k i).
  { do 6 (destruct r as [|r]; [first [exists 0%nat, 0%nat, 0%nat; repeat split; (lia || reflexivity)
      |exists 0%nat, 0%nat, 1%nat; repeat split; (lia || reflexivity)|exists 1%nat, 0%nat, 1%nat; repeat split; (lia || reflexivity)
      |exists 0%nat, 1%nat, 0%nat; repeat split; (lia || reflexivity)|exists 0%nat, 1%nat, 1%nat; repeat split; (lia || reflexivity)
      |exists 1%nat, 1%nat, 1%nat; repeat split; (lia || reflexivity)]|]). lia. }
  destruct C as (e & k & i & He & Hk & Hi & ->). eexists. unfold coupled.
  exists (two_segments byNODES), (two_segments byNODES), e, i, 0%nat, k, 0%nat. split; [now left|].
  do 5 (split; [cbn; lia|]). reflexivity.
Qed.

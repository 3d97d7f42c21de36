(** * Contact data (C31, C49): every state reachable by adding interactions, updating gaps, merging and splitting, in any order *)
From Coq Require Import Reals List Arith Bool.
Import ListNotations.
From Verif Require Import Contact ContactEx.
Local Open Scope R_scope.

(** merged vectors: the concatenation over the multiplier interactions, in the order added, nothing left unwritten *)
Theorem C31_merge : forall c, reachable c ->
  merged_pressures c = Some (map Some (flat_map pres (filter lm (its c)))) /\
  merged_gaps false c = Some (map Some (flat_map gap (filter lm (its c)))) /\
  merged_gaps true c = Some (map Some (flat_map (fun it => zero_at (inactive it) (gap it)) (filter lm (its c)))) /\
  npd c = length (flat_map pres (filter lm (its c))) /\ have_lm c = existsb lm (its c).
Proof. exact merge_facts. Qed.
Print Assumptions C31_merge.
Example C31_merge_nonvacuous : reachable two /\ flat_map pres (filter lm (its two)) = [-1; -1; 2; -3; 0].
Proof. split; [exact two_reachable|reflexivity]. Qed.

(** splitting any vector of the merged size: consecutive slices, one per multiplier interaction, exhausting the vector *)
Theorem C31_split : forall c v, reachable c -> length v = npd c -> exists slices c',
  Forall2 (fun it s => if lm it then length s = length (pres it) else s = []) (its c) slices /\ concat slices = v /\
  set_pressures c v = Some c' /\
  its c' = map (fun p => let it := fst p in
                 {| lm := lm it; penalty := penalty it; tied := tied it; gap := gap it;
                    pres := zero_at (inactive it) (if lm it then snd p else map (fun g => penalty it * g) (gap it)) |}) (combine (its c) slices).
Proof. exact split_facts. Qed.
Print Assumptions C31_split.

(** splitting what was merged gives back the pressures with the inactive entries zeroed *)
Theorem C31_roundtrip : forall c, reachable c -> exists c', set_pressures c (flat_map pres (filter lm (its c))) = Some c' /\
  flat_map pres (filter lm (its c')) = flat_map (fun it => zero_at (inactive it) (pres it)) (filter lm (its c)).
Proof. exact roundtrip. Qed.
Print Assumptions C31_roundtrip.
(** what zeroing means, entry by entry *)
Theorem C31_zeroing : forall idx v k, (k < length v)%nat -> nth k (zero_at idx v) 0 = if existsb (Nat.eqb k) idx then 0 else nth k v 0.
Proof. exact zero_at_nth. Qed.
Print Assumptions C31_zeroing.

(** offsets over the ranks: prefix sums of the local sizes, in both layouts *)
Theorem C31_rank_offsets : forall sizes rank, (rank < length sizes)%nat ->
  global_offsets sizes rank true = [sum_sizes (firstn rank sizes); (sum_sizes (firstn rank sizes) + nth rank sizes 0)%nat; sum_sizes sizes] /\
  forall i, (i <= length sizes)%nat -> nth i (global_offsets sizes rank false) 0%nat = sum_sizes (firstn i sizes).
Proof. exact global_offsets_ok. Qed.
Print Assumptions C31_rank_offsets.
Example C31_rank_offsets_ex : global_offsets [3; 0; 4]%nat 2 true = [3; 7; 7]%nat /\ global_offsets [3; 0; 4]%nat 2 false = [0; 3; 3; 7]%nat.
Proof. split; reflexivity. Qed.

(** active-set rule of a frictionless interaction *)
Theorem C31_inactive : forall it d, tied it = None ->
  (In d (inactive it) <-> (d < length (pres it))%nat /\ 0 <= nth d (pres it) 0 /\ - / 10 ^ 14 <= nth d (gap it) 0).
Proof. exact inactive_spec. Qed.
Print Assumptions C31_inactive.
Example C31_inactive_ex : inactive mult2 = [0%nat].
Proof. exact mult2_inactive. Qed.

(** the identity block added to the Jacobian, when every interaction uses multipliers: row i holds a one in column i exactly
    when merged dof i is inactive, and nothing otherwise. The full statement (any mix of enforcements) is refuted below *)
Theorem C31_identity_block_partial : forall c, reachable c -> Forall (fun it => lm it = true) (its c) -> Forall sorted_tied (its c) ->
  exists m, identity_block c = Some m /\ forall i, (i < npd c)%nat -> m i = if existsb (Nat.eqb i) (inactive_positions c) then [i] else [].
Proof. exact identity_ok. Qed.
Print Assumptions C31_identity_block_partial.
Example C31_identity_block_nonvacuous : reachable two /\ Forall (fun it => lm it = true) (its two) /\ Forall sorted_tied (its two).
Proof. split; [exact two_reachable|]. split; repeat constructor; discriminate. Qed.

(** a penalty interaction's inactive dofs land on active multipliers *)
Theorem C31_identity_block_refuted : exists c m i, reachable c /\ (i < npd c)%nat /\ identity_block c = Some m /\ m i = [i] /\ ~ In i (inactive_positions c).
Proof. exact identity_refuted. Qed.
Print Assumptions C31_identity_block_refuted.

(** penalty interactions added after the offsets were computed are read past the end of the offsets *)
Theorem C31_stale_offsets_refuted : exists c, reachable c /\ have_lm c = true /\ identity_block c = None.
Proof. exact stale_refuted. Qed.
Print Assumptions C31_stale_offsets_refuted.

(** tied interactions, when all pressure elements lie on surface 2: the fixed dofs are those of no element.  Missing: elements elsewhere, see below *)
Theorem C31_tied_fixed_partial : forall ndofs max_attr surf2 elems, (forall x, In x surf2 -> (1 <= x <= max_attr)%nat) -> (forall e, In e elems -> In (fst e) surf2) ->
  exists l, tied_list ndofs max_attr surf2 elems = Some l /\ NoDup l /\ forall d, In d l <-> (d < ndofs)%nat /\ forall e, In e elems -> ~ In d (snd e).
Proof. exact tied_list_ok. Qed.
Print Assumptions C31_tied_fixed_partial.
Example C31_tied_fixed_case : tied_list 4 2 [2]%nat [(2, [1; 2])]%nat = Some [0; 3]%nat.
Proof. reflexivity. Qed.
(** tied interactions: any element off surface 2 makes the constructor branch on an uninitialised marker *)
Theorem C31_tied_markers_refuted : exists ndofs max_attr surf2 elems, (forall x, In x surf2 -> (1 <= x <= max_attr)%nat) /\
  (forall e, In e elems -> (1 <= fst e <= max_attr)%nat /\ forall d, In d (snd e) -> (d < ndofs)%nat) /\ tied_list ndofs max_attr surf2 elems = None.
Proof. exact tied_refuted. Qed.
Print Assumptions C31_tied_markers_refuted.
Theorem C31_tied_always_undefined : forall ndofs max_attr surf2 elems a d, (forall x, In x surf2 -> (1 <= x)%nat) -> (1 <= a)%nat -> In (a, d) elems -> ~ In a surf2 ->
  tied_list ndofs max_attr surf2 elems = None.
Proof. exact tied_undefined. Qed.
Print Assumptions C31_tied_always_undefined.

(** ** C49: the residual is not a function of its arguments *)
Theorem C49_history_refuted : exists c gs1 gs2 v c1, reachable c /\ fits (its c) gs1 /\ fits (its c) gs2 /\ length v = npd c /\ eval_contact c gs1 v = Some c1 /\
  option_map (fun x => map pres (its x)) (eval_contact c1 gs2 v) <> option_map (fun x => map pres (its x)) (eval_contact c gs2 v).
Proof. exact history_refuted. Qed.
Print Assumptions C49_history_refuted.
Theorem C49_tension_refuted : exists c gs1 gs2 v c1 c2 it x,
  reachable c /\ eval_contact c gs1 v = Some c1 /\ eval_contact c1 gs2 v = Some c2 /\ In it (its c2) /\ lm it = false /\ In x (pres it) /\ 0 < x.
Proof. exact tension_refuted. Qed.
Print Assumptions C49_tension_refuted.
(** but repeating an evaluation settles after the second one, and from then on no penalty pressure is tensile *)
Theorem C49_settles_partial : forall c gs v, reachable c -> fits (its c) gs -> length v = npd c ->
  exists c1 c2 c3, eval_contact c gs v = Some c1 /\ eval_contact c1 gs v = Some c2 /\ eval_contact c2 gs v = Some c3 /\ its c3 = its c2.
Proof. exact eval_settles. Qed.
Print Assumptions C49_settles_partial.
Theorem C49_no_tension_partial : forall c gs v, reachable c -> fits (its c) gs -> length v = npd c ->
  Forall (fun it => lm it = false -> tied it = None /\ 0 <= penalty it) (its c) ->
  exists c1 c2, eval_contact c gs v = Some c1 /\ eval_contact c1 gs v = Some c2 /\ Forall (fun it => lm it = false -> Forall (fun x => x <= 0) (pres it)) (its c2).
Proof. exact eval_no_tension. Qed.
Print Assumptions C49_no_tension_partial.
Example C49_nonvacuous : reachable mixed /\ fits (its mixed) [[1; -1]; [-1; 2]] /\ length [-3; -4] = npd mixed.
Proof. split; [exact mixed_reachable|]. split; [repeat constructor|reflexivity]. Qed.

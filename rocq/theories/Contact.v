(** * Contact pressures, gaps and the active set (C31, C49): physics/contact/contact_data.cpp, contact_interaction.cpp *)
From Coq Require Import Reals Lra Lia List Arith Bool.
Import ListNotations.
Local Open Scope R_scope.

(** contact_config.hpp:28-62 and contact_interaction.hpp: pressures and gaps live in Tribol, one entry per true dof;
    [tied] is the fixed list of a TiedNormal interaction, None for Frictionless *)
Record interaction := { lm : bool; penalty : R; tied : option (list nat); pres : list R; gap : list R }.
Definition tol : R := / 10 ^ 14.
Definition geb (a b : R) : bool := if Rle_dec b a then true else false.
(** contact_interaction.cpp:115-132 inactiveDofs *)
Definition inactive (it : interaction) : list nat :=
  match tied it with
  | Some l => l
  | None => filter (fun d => geb (nth d (pres it) 0) 0 && geb (nth d (gap it) 0) (- tol)) (seq 0 (length (pres it)))
  end.
(** contact_interaction.cpp:98-103 numPressureDofs *)
Definition ndof (it : interaction) : nat := if lm it then length (pres it) else 0%nat.
(** contact_data.hpp: the members that matter; [gsize] is the last global offset on one rank *)
Record contact := { its : list interaction; have_lm : bool; npd : nat; fresh : bool; offs : list nat; gsize : nat }.
Definition empty_contact : contact := {| its := []; have_lm := false; npd := 0; fresh := false; offs := []; gsize := 0 |}.
(** contact_data.cpp:33-42 addContactInteraction *)
Definition add_interaction (c : contact) (it : interaction) : contact :=
  if lm it then {| its := its c ++ [it]; have_lm := true; npd := npd c + ndof it; fresh := false; offs := offs c; gsize := gsize c |}
  else {| its := its c ++ [it]; have_lm := have_lm c; npd := npd c; fresh := fresh c; offs := offs c; gsize := gsize c |}.
(** contact_data.cpp:304-340 updateDofOffsets, one rank *)
Fixpoint offsets_from (o : nat) (l : list interaction) : list nat := match l with [] => [o] | it :: r => o :: offsets_from (o + ndof it) r end.
Definition refresh (c : contact) : contact :=
  if fresh c then c
  else {| its := its c; have_lm := have_lm c; npd := npd c; fresh := true; offs := offsets_from 0 (its c); gsize := npd c |}.
(** a view of merged storage set from a vector: the sizes must agree (mfem::Vector::Set); entries not yet written are None *)
Definition set_view (v : list (option R)) (off len : nat) (l : list R) : option (list (option R)) :=
  if (Nat.eqb len (length l) && Nat.leb (off + len) (length v))%bool then Some (firstn off v ++ map Some l ++ skipn (off + len) v) else None.
Fixpoint merge_loop (f : interaction -> list R) (offs : list nat) (i : nat) (l : list interaction) (v : list (option R)) : option (list (option R)) :=
  match l with
  | [] => Some v
  | it :: r =>
    if lm it then
      match nth_error offs i, nth_error offs (i + 1) with
      | Some a, Some b => match set_view v a (b - a) (f it) with Some v' => merge_loop f offs (S i) r v' | None => None end
      | _, _ => None
      end
    else merge_loop f offs (S i) r v
  end.
Definition zero_at (idx : list nat) (v : list R) : list R := map (fun k => if existsb (Nat.eqb k) idx then 0 else nth k v 0) (seq 0 (length v)).
(** contact_data.cpp:67-82 mergedPressures, 84-104 mergedGaps *)
Definition merged (f : interaction -> list R) (c : contact) : option (list (option R)) :=
  let c := refresh c in merge_loop f (offs c) 0 (its c) (repeat None (gsize c)).
Definition merged_pressures := merged pres.
Definition merged_gaps (zero_inactive : bool) := merged (fun it => if zero_inactive then zero_at (inactive it) (gap it) else gap it).
(** contact_data.cpp:275-296 setPressures; None: a view outside the merged vector or of the wrong size *)
Definition with_pressure (it : interaction) (p : list R) : interaction := {| lm := lm it; penalty := penalty it; tied := tied it; pres := p; gap := gap it |}.
Definition new_pressure (it : interaction) (slice : list R) : list R :=
  zero_at (inactive it) (if lm it then slice else map (fun g => penalty it * g) (gap it)).
Fixpoint set_loop (offs : list nat) (i : nat) (l : list interaction) (v : list R) : option (list interaction) :=
  match l with
  | [] => Some []
  | it :: r =>
    let slice := if lm it then
        match nth_error offs i, nth_error offs (i + 1) with
        | Some a, Some b => if (Nat.eqb (b - a) (length (pres it)) && Nat.leb b (length v))%bool then Some (firstn (b - a) (skipn a v)) else None
        | _, _ => None
        end
      else Some [] in
    match slice with
    | Some s => match set_loop offs (S i) r v with Some r' => Some (with_pressure it (new_pressure it s) :: r') | None => None end
    | None => None
    end
  end.
Definition set_pressures (c : contact) (v : list R) : option contact :=
  let c := refresh c in
  match set_loop (offs c) 0 (its c) v with
  | Some l => Some {| its := l; have_lm := have_lm c; npd := npd c; fresh := fresh c; offs := offs c; gsize := gsize c |}
  | None => None
  end.
(** Tribol update: new gaps of the same sizes (contact_data.cpp:44-56) *)
Fixpoint put_gaps (l : list interaction) (g : list (list R)) : list interaction :=
  match l, g with
  | it :: r, x :: g' => {| lm := lm it; penalty := penalty it; tied := tied it; pres := pres it; gap := x |} :: put_gaps r g'
  | l, _ => l
  end.
Definition update_gaps (c : contact) (g : list (list R)) : contact :=
  {| its := put_gaps (its c) g; have_lm := have_lm c; npd := npd c; fresh := fresh c; offs := offs c; gsize := gsize c |}.

(** ** reachable states *)
Definition proper (it : interaction) : Prop := length (gap it) = length (pres it) /\ (forall l, tied it = Some l -> forall d, In d l -> (d < length (pres it))%nat).
Inductive reachable : contact -> Prop :=
| r_empty : reachable empty_contact
| r_add c it : reachable c -> proper it -> reachable (add_interaction c it)
| r_merge c : reachable c -> reachable (refresh c)
| r_set c v c' : reachable c -> set_pressures c v = Some c' -> reachable c'
| r_gaps c g : reachable c -> Forall2 (fun it x => length x = length (pres it)) (its c) g -> reachable (update_gaps c g).

(** ** specification *)
Definition multiplier (l : list interaction) : list interaction := filter lm l.
Definition total_dofs (l : list interaction) : nat := fold_right (fun it n => (ndof it + n)%nat) 0%nat l.

(** ** facts *)
Lemma total_app a b : total_dofs (a ++ b) = (total_dofs a + total_dofs b)%nat.
Proof. induction a as [|it a IH]; [reflexivity|]. cbn [app total_dofs fold_right]. fold (total_dofs (a ++ b)). fold (total_dofs a). rewrite IH. lia. Qed.
Lemma offsets_nth : forall l o i, (i <= length l)%nat -> nth_error (offsets_from o l) i = Some (o + total_dofs (firstn i l))%nat.
Proof.
  induction l as [|it l IH]; intros o i Hi; cbn [length] in Hi.
  - assert (i = 0%nat) by lia. subst i. cbn. f_equal. lia.
  - destruct i as [|i]; cbn [offsets_from nth_error firstn total_dofs fold_right]; [f_equal; lia|]. rewrite IH by lia. f_equal. fold (total_dofs (firstn i l)). lia.
Qed.
Lemma offsets_length : forall l o, length (offsets_from o l) = S (length l).
Proof. induction l as [|it l IH]; intros o; [reflexivity|]. cbn [offsets_from length]. now rewrite IH. Qed.
Lemma nolm_total l : Forall (fun it => lm it = false) l -> total_dofs l = 0%nat.
Proof. induction 1 as [|it l H _ IH]; [reflexivity|]. cbn [total_dofs fold_right]. fold (total_dofs l). unfold ndof. rewrite H, IH. reflexivity. Qed.
Record inv (c : contact) : Prop := {
  i_proper : Forall proper (its c);
  i_npd : npd c = total_dofs (its c);
  i_have : have_lm c = existsb lm (its c);
  i_fresh : fresh c = true -> gsize c = npd c /\ exists k, (k <= length (its c))%nat /\ offs c = offsets_from 0 (firstn k (its c)) /\ Forall (fun it => lm it = false) (skipn k (its c))
}.
Definition same_shape (a b : interaction) : Prop := lm a = lm b /\ length (pres a) = length (pres b).
Lemma same_total a b : Forall2 same_shape a b -> total_dofs a = total_dofs b.
Proof. induction 1 as [|x y a b [H1 H2] _ IH]; [reflexivity|]. cbn [total_dofs fold_right]. fold (total_dofs a). fold (total_dofs b). unfold ndof. rewrite H1, H2, IH. reflexivity. Qed.
Lemma same_offsets a b : Forall2 same_shape a b -> forall o, offsets_from o a = offsets_from o b.
Proof. induction 1 as [|x y a b [H1 H2] _ IH]; intros o; [reflexivity|]. cbn [offsets_from]. rewrite IH. unfold ndof. rewrite H1, H2. reflexivity. Qed.
Lemma Forall2_firstn {A B} (P : A -> B -> Prop) a b : Forall2 P a b -> forall k, Forall2 P (firstn k a) (firstn k b).
Proof. induction 1; intros [|k]; cbn [firstn]; constructor; auto. Qed.
Lemma Forall2_skipn {A B} (P : A -> B -> Prop) a b : Forall2 P a b -> forall k, Forall2 P (skipn k a) (skipn k b).
Proof. induction 1; intros [|k]; cbn [skipn]; auto. Qed.
Lemma Forall2_len {A B} (P : A -> B -> Prop) a b : Forall2 P a b -> length a = length b.
Proof. induction 1; cbn [length]; auto. Qed.
Lemma inv_reshape c l : inv c -> Forall2 same_shape (its c) l -> Forall proper l ->
  inv {| its := l; have_lm := have_lm c; npd := npd c; fresh := fresh c; offs := offs c; gsize := gsize c |}.
Proof.
  intros [P N H F] S PL. constructor; cbn [its npd have_lm fresh offs gsize].
  - exact PL.
  - rewrite N. apply same_total. exact S.
  - rewrite H. clear - S. induction S as [|x y a b [E _] _ IH]; [reflexivity|]. cbn [existsb]. now rewrite E, IH.
  - intros E. destruct (F E) as [G [k [K1 [K2 K3]]]]. split; [exact G|]. exists k. split; [rewrite <- (Forall2_len _ _ _ S); exact K1|]. split.
    + rewrite K2. apply same_offsets. apply Forall2_firstn. exact S.
    + pose proof (Forall2_skipn _ _ _ S k) as S'. clear - K3 S'. induction S' as [|x y a b [E _] _ IH]; [constructor|]. inversion K3; subst. constructor; [congruence|auto].
Qed.
Lemma zero_at_length idx v : length (zero_at idx v) = length v.
Proof. unfold zero_at. now rewrite map_length, seq_length. Qed.
Lemma zero_at_nth idx v k : (k < length v)%nat -> nth k (zero_at idx v) 0 = if existsb (Nat.eqb k) idx then 0 else nth k v 0.
Proof.
  intros H. unfold zero_at. set (f := fun k => if existsb (Nat.eqb k) idx then 0 else nth k v 0). rewrite (nth_indep _ 0 (f 0%nat)) by (rewrite map_length, seq_length; exact H).
  rewrite map_nth, seq_nth by exact H. reflexivity.
Qed.
Lemma existsb_in k l : existsb (Nat.eqb k) l = true <-> In k l.
Proof. rewrite existsb_exists. split; [intros [x [H E]]; apply Nat.eqb_eq in E; now subst|]. intros H. exists k. split; [exact H|apply Nat.eqb_refl]. Qed.
Lemma inv_refresh c : inv c -> inv (refresh c) /\ fresh (refresh c) = true /\ its (refresh c) = its c.
Proof.
  intros I. unfold refresh. destruct (fresh c) eqn:E; [auto|]. split; [|auto]. destruct I as [P N H F]. constructor; cbn [its npd have_lm fresh offs gsize]; auto.
  intros _. split; [reflexivity|]. exists (length (its c)). split; [lia|]. rewrite firstn_all, skipn_all. auto.
Qed.
Lemma set_loop_shape offs : forall l i v l', Forall proper l -> set_loop offs i l v = Some l' -> Forall2 same_shape l l' /\ Forall proper l'.
Proof.
  induction l as [|it l IH]; intros i v l' HP H; cbn [set_loop] in H; [injection H as <-; auto|]. inversion HP as [|? ? [G T] HPl]; subst.
  match type of H with context [match ?s with Some _ => _ | None => None end] => destruct s as [sl|] eqn:E end; [|discriminate].
  destruct (set_loop offs (S i) l v) as [r|] eqn:Er; [|discriminate]. injection H as <-. destruct (IH _ _ _ HPl Er) as [A B].
  assert (L : length (new_pressure it sl) = length (pres it)).
  { unfold new_pressure. rewrite zero_at_length. destruct (lm it); [|now rewrite map_length].
    destruct (nth_error offs i) as [a|]; [|discriminate]. destruct (nth_error offs (i + 1)) as [b|]; [|discriminate].
    destruct (Nat.eqb_spec (b - a) (length (pres it))) as [E1|]; [|discriminate]. destruct (Nat.leb_spec b (length v)); [|discriminate].
    cbn [andb] in E. injection E as <-. rewrite firstn_length, skipn_length. lia. }
  split; constructor; auto; split; cbn [with_pressure lm pres gap tied]; auto; try congruence.
  intros l0 E0 d Hd. rewrite L. exact (T l0 E0 d Hd).
Qed.
Lemma reachable_inv c : reachable c -> inv c.
Proof.
  induction 1 as [|c it R IH Hp|c R IH|c v c' R IH E|c g R IH HG].
  - constructor; cbn; auto. discriminate.
  - destruct IH as [P N H F]. unfold add_interaction. destruct (lm it) eqn:E; constructor; cbn [its npd have_lm fresh offs gsize].
    + apply Forall_app. split; [exact P|constructor; auto].
    + rewrite total_app, N. cbn [total_dofs fold_right]. lia.
    + rewrite existsb_app. cbn [existsb]. rewrite E. cbn. now rewrite orb_true_r.
    + discriminate.
    + apply Forall_app. split; [exact P|constructor; auto].
    + rewrite total_app, N. cbn [total_dofs fold_right]. unfold ndof. rewrite E. lia.
    + rewrite existsb_app. cbn [existsb]. rewrite E. cbn. now rewrite orb_false_r.
    + intros Fr. destruct (F Fr) as [G [k [K1 [K2 K3]]]]. split; [exact G|]. exists k. rewrite app_length. cbn [length]. split; [lia|].
      rewrite firstn_app, skipn_app. replace (k - length (its c))%nat with 0%nat by lia. cbn [firstn skipn]. rewrite app_nil_r. split; [exact K2|]. apply Forall_app. auto.
  - apply inv_refresh. exact IH.
  - unfold set_pressures in E. destruct (inv_refresh c IH) as [I' [F' I2]]. destruct (set_loop (offs (refresh c)) 0 (its (refresh c)) v) as [l|] eqn:El; [|discriminate]. injection E as <-.
    destruct (set_loop_shape _ _ _ _ _ (i_proper _ I') El) as [A B]. apply inv_reshape; assumption.
  - assert (A : Forall2 same_shape (its c) (put_gaps (its c) g) /\ Forall proper (put_gaps (its c) g)).
    { destruct IH as [P _ _ _]. clear R. revert P. induction HG as [|it x l g' H _ IHf]; intros P; cbn [put_gaps]; [auto|]. inversion P as [|? ? [G T] P']; subst. destruct (IHf P') as [A B].
      split; constructor; auto; split; cbn [lm pres gap tied]; auto. }
    apply inv_reshape; tauto.
Qed.

(** ** merging *)
Lemma offs_at c i : inv c -> fresh c = true -> (i < length (its c))%nat -> lm (nth i (its c) {| lm := false; penalty := 0; tied := None; pres := []; gap := [] |}) = true ->
  nth_error (offs c) i = Some (total_dofs (firstn i (its c))) /\ nth_error (offs c) (i + 1) = Some (total_dofs (firstn (i + 1) (its c))).
Proof.
  intros [P N H F] Fr Hi Hl. destruct (F Fr) as [_ [k [K1 [K2 K3]]]]. assert (i < k)%nat.
  { destruct (Nat.lt_ge_cases i k) as [|Hk]; [assumption|exfalso]. rewrite Forall_forall in K3.
    assert (In (nth i (its c) {| lm := false; penalty := 0; tied := None; pres := []; gap := [] |}) (skipn k (its c))).
    { rewrite <- (firstn_skipn k (its c)) at 1. rewrite app_nth2 by (rewrite firstn_length; lia). apply nth_In. rewrite firstn_length, skipn_length. lia. }
    rewrite (K3 _ H0) in Hl. discriminate. }
  rewrite K2. rewrite !offsets_nth by (rewrite firstn_length; lia). rewrite !firstn_firstn. rewrite !Nat.min_l by lia. auto.
Qed.
Definition flatten (f : interaction -> list R) (l : list interaction) : list R := flat_map f (multiplier l).
Lemma firstn_S_nth {A} (d : A) : forall l i, (i < length l)%nat -> firstn (i + 1) l = firstn i l ++ [nth i l d].
Proof. induction l as [|a l IH]; intros i H; cbn [length] in H; [lia|]. destruct i as [|i]; [reflexivity|]. cbn [firstn Nat.add nth app]. f_equal. apply IH. lia. Qed.
Lemma flatten_length f l : (forall it, In it l -> length (f it) = length (pres it)) -> length (flatten f l) = total_dofs l.
Proof.
  induction l as [|it l IH]; intros H; [reflexivity|]. unfold flatten, multiplier in *. cbn [filter total_dofs fold_right]. fold (total_dofs l). unfold ndof at 1.
  destruct (lm it); cbn [flat_map]; [rewrite app_length, (H it (or_introl eq_refl))|]; rewrite IH; auto; intros; apply H; now right.
Qed.
Lemma merge_loop_ok f c : inv c -> fresh c = true -> (forall it, In it (its c) -> length (f it) = length (pres it)) ->
  forall l pre v, its c = pre ++ l -> v = map Some (flatten f pre) ++ repeat None (total_dofs l) -> merge_loop f (offs c) (length pre) l v = Some (map Some (flatten f (its c))).
Proof.
  intros I Fr Hf. induction l as [|it l IH]; intros pre v E Ev; cbn [merge_loop].
  - rewrite E, app_nil_r. subst v. cbn [total_dofs fold_right repeat]. now rewrite app_nil_r.
  - set (d0 := {| lm := false; penalty := 0; tied := None; pres := []; gap := [] |}).
    assert (E2 : its c = (pre ++ [it]) ++ l) by (rewrite <- app_assoc; exact E).
    destruct (lm it) eqn:El.
    + assert (Hn : nth (length pre) (its c) d0 = it) by (rewrite E, app_nth2, Nat.sub_diag; [reflexivity|lia]).
      assert (Hlt : (length pre < length (its c))%nat) by (rewrite E, app_length; cbn [length]; lia).
      destruct (offs_at c (length pre) I Fr Hlt) as [-> ->]; [fold d0; now rewrite Hn|].
      rewrite (firstn_S_nth d0) by exact Hlt. rewrite Hn. rewrite E at 1 2 3. rewrite !firstn_app, !firstn_all, !Nat.sub_diag. cbn [firstn]. rewrite !app_nil_r.
      rewrite total_app. replace (total_dofs [it]) with (length (pres it)) by (cbn; unfold ndof; rewrite El; lia).
      replace (total_dofs pre + length (pres it) - total_dofs pre)%nat with (length (pres it)) by lia.
      assert (Li : length (f it) = length (pres it)) by (apply Hf; rewrite E; apply in_or_app; right; now left).
      assert (Lp : length (flatten f pre) = total_dofs pre) by (apply flatten_length; intros x Hx; apply Hf; rewrite E; apply in_or_app; now left).
      assert (Lt : total_dofs (it :: l) = (length (pres it) + total_dofs l)%nat) by (cbn [total_dofs fold_right]; unfold ndof at 1; rewrite El; reflexivity).
      rewrite Lt in Ev. unfold set_view. rewrite Li, Nat.eqb_refl. subst v. rewrite app_length, map_length, repeat_length, Lp.
      rewrite (proj2 (Nat.leb_le _ _)) by lia. cbn [andb].
      replace (S (length pre)) with (length (pre ++ [it])) by (rewrite app_length; cbn; lia). apply IH; [exact E2|].
      rewrite firstn_app, skipn_app, !map_length, Lp, Nat.sub_diag. cbn [firstn]. rewrite app_nil_r, (firstn_all2 (map Some (flatten f pre))) by (rewrite map_length; lia).
      rewrite (skipn_all2 (map Some (flatten f pre))) by (rewrite map_length; lia). cbn [app].
      replace (total_dofs pre + length (pres it) - total_dofs pre)%nat with (length (pres it)) by lia. rewrite repeat_app. rewrite skipn_app, repeat_length, Nat.sub_diag.
      rewrite (skipn_all2 (repeat None (length (pres it)))) by (rewrite repeat_length; lia). cbn [skipn app].
      unfold flatten, multiplier. rewrite filter_app, flat_map_app. cbn [filter]. rewrite El. cbn [flat_map]. rewrite app_nil_r, map_app, app_assoc. reflexivity.
    + replace (S (length pre)) with (length (pre ++ [it])) by (rewrite app_length; cbn; lia). apply IH; [exact E2|].
      subst v. cbn [total_dofs fold_right]. fold (total_dofs l). unfold ndof at 1. rewrite El. cbn [Nat.add]. unfold flatten, multiplier. rewrite filter_app. cbn [filter]. rewrite El, app_nil_r. reflexivity.
Qed.
Lemma merged_ok f c : reachable c -> (forall it, In it (its c) -> length (f it) = length (pres it)) -> merged f c = Some (map Some (flatten f (its c))).
Proof.
  intros R Hf. destruct (inv_refresh c (reachable_inv c R)) as [I [Fr E]]. unfold merged. rewrite <- E in Hf |- *.
  apply (merge_loop_ok f (refresh c) I Fr Hf (its (refresh c)) []); [reflexivity|]. destruct (i_fresh _ I Fr) as [-> _]. rewrite (i_npd _ I). reflexivity.
Qed.
Lemma proper_gap c it : reachable c -> In it (its c) -> length (gap it) = length (pres it).
Proof. intros R H. pose proof (i_proper _ (reachable_inv c R)) as P. rewrite Forall_forall in P. apply (P it H). Qed.
Lemma merge_facts c : reachable c ->
  merged_pressures c = Some (map Some (flat_map pres (multiplier (its c)))) /\
  merged_gaps false c = Some (map Some (flat_map gap (multiplier (its c)))) /\
  merged_gaps true c = Some (map Some (flat_map (fun it => zero_at (inactive it) (gap it)) (multiplier (its c)))) /\
  npd c = length (flat_map pres (multiplier (its c))) /\ have_lm c = existsb lm (its c).
Proof.
  intros R. split; [apply merged_ok; auto|]. split; [apply merged_ok; [exact R|]; intros; now apply (proper_gap c)|].
  split; [apply (merged_ok (fun it => zero_at (inactive it) (gap it))); [exact R|]; intros; rewrite zero_at_length; now apply (proper_gap c)|].
  split; [|apply (i_have _ (reachable_inv c R))]. rewrite (i_npd _ (reachable_inv c R)). symmetry. apply (flatten_length pres). auto.
Qed.

(** ** splitting *)
Lemma skipn_skipn {A} : forall b a (l : list A), skipn a (skipn b l) = skipn (a + b) l.
Proof. induction b as [|b IH]; intros a l; [now rewrite Nat.add_0_r|]. rewrite Nat.add_succ_r. destruct l as [|x l]; [now rewrite !skipn_nil|]. cbn [skipn]. apply IH. Qed.
Lemma set_loop_ok c v : inv c -> fresh c = true -> length v = npd c ->
  forall l pre, its c = pre ++ l -> exists slices, Forall2 (fun it s => if lm it then length s = length (pres it) else s = []) l slices /\
    concat slices = skipn (total_dofs pre) v /\ set_loop (offs c) (length pre) l v = Some (map (fun p => with_pressure (fst p) (new_pressure (fst p) (snd p))) (combine l slices)).
Proof.
  intros I Fr Lv. set (d0 := {| lm := false; penalty := 0; tied := None; pres := []; gap := [] |}). rewrite (i_npd _ I) in Lv.
  induction l as [|it l IH]; intros pre E.
  - exists []. split; [constructor|]. split; [|reflexivity]. rewrite app_nil_r in E. rewrite skipn_all2 by (rewrite Lv, E; lia). reflexivity.
  - assert (E2 : its c = (pre ++ [it]) ++ l) by (rewrite <- app_assoc; exact E). destruct (IH _ E2) as [sl [S1 [S2 S3]]].
    rewrite app_length in S3. cbn [length] in S3. rewrite Nat.add_1_r in S3. cbn [set_loop]. rewrite S3. destruct (lm it) eqn:El.
    + assert (Hn : nth (length pre) (its c) d0 = it) by (rewrite E, app_nth2, Nat.sub_diag; [reflexivity|lia]).
      assert (Hlt : (length pre < length (its c))%nat) by (rewrite E, app_length; cbn [length]; lia).
      destruct (offs_at c (length pre) I Fr Hlt) as [-> ->]; [fold d0; now rewrite Hn|].
      rewrite (firstn_S_nth d0) by exact Hlt. rewrite Hn. rewrite E. rewrite !firstn_app, !firstn_all, !Nat.sub_diag. cbn [firstn]. rewrite !app_nil_r.
      rewrite total_app in S2 |- *. replace (total_dofs [it]) with (length (pres it)) in * by (cbn; unfold ndof; rewrite El; lia).
      replace (total_dofs pre + length (pres it) - total_dofs pre)%nat with (length (pres it)) by lia. rewrite Nat.eqb_refl.
      assert (Bd : (total_dofs pre + length (pres it) <= length v)%nat).
      { rewrite Lv, E2, total_app, total_app. replace (total_dofs [it]) with (length (pres it)) by (cbn; unfold ndof; rewrite El; lia). lia. }
      rewrite (proj2 (Nat.leb_le _ _)) by exact Bd. cbn [andb]. exists (firstn (length (pres it)) (skipn (total_dofs pre) v) :: sl). split; [|split].
      * constructor; [rewrite El, firstn_length, skipn_length; lia|exact S1].
      * cbn [concat]. rewrite S2. rewrite <- (firstn_skipn (length (pres it)) (skipn (total_dofs pre) v)) at 2. f_equal. rewrite skipn_skipn. f_equal. lia.
      * reflexivity.
    + exists ([] :: sl). split; [constructor; [now rewrite El|exact S1]|]. split; [|reflexivity]. cbn [concat app]. rewrite S2, total_app. cbn [total_dofs fold_right]. unfold ndof. rewrite El. do 2 f_equal. lia.
Qed.
Lemma split_facts c v : reachable c -> length v = npd c -> exists slices c',
  Forall2 (fun it s => if lm it then length s = length (pres it) else s = []) (its c) slices /\ concat slices = v /\
  set_pressures c v = Some c' /\ its c' = map (fun p => with_pressure (fst p) (new_pressure (fst p) (snd p))) (combine (its c) slices).
Proof.
  intros R Lv. destruct (inv_refresh c (reachable_inv c R)) as [I [Fr E]]. assert (Lv' : length v = npd (refresh c)) by (rewrite (i_npd _ I), E, <- (i_npd _ (reachable_inv c R)); exact Lv).
  destruct (set_loop_ok (refresh c) v I Fr Lv' (its (refresh c)) [] eq_refl) as [sl [S1 [S2 S3]]]. unfold set_pressures. cbn [length] in S3. rewrite S3. rewrite E in *.
  exists sl. eexists. split; [exact S1|]. split; [exact S2|]. split; [reflexivity|]. reflexivity.
Qed.
Lemma slices_unique (l : list interaction) : forall s1 s2 : list (list R), Forall2 (fun it s => if lm it then length s = length (pres it) else s = []) l s1 ->
  Forall2 (fun it s => if lm it then length s = length (pres it) else s = []) l s2 -> concat s1 = concat s2 -> s1 = s2.
Proof.
  induction l as [|it l IH]; intros s1 s2 H1 H2 E; inversion H1; subst; inversion H2; subst; [reflexivity|]. cbn [concat] in E.
  assert (L : length y = length y0) by (destruct (lm it); congruence). assert (A : y = y0 /\ concat l' = concat l'0).
  { split; [apply (f_equal (firstn (length y))) in E; rewrite !firstn_app, L, Nat.sub_diag, <- L, firstn_all, L, firstn_all in E; cbn [firstn] in E; now rewrite !app_nil_r in E|].
    apply (f_equal (skipn (length y))) in E. rewrite !skipn_app, L, Nat.sub_diag, <- L, skipn_all, L, skipn_all in E. exact E. }
  destruct A as [-> A]. f_equal. now apply IH.
Qed.
(** what a frictionless or tied interaction keeps when its own pressures are written back *)
Lemma roundtrip c : reachable c -> exists c', set_pressures c (flat_map pres (multiplier (its c))) = Some c' /\
  flat_map pres (multiplier (its c')) = flat_map (fun it => zero_at (inactive it) (pres it)) (multiplier (its c)).
Proof.
  intros R. destruct (split_facts c (flat_map pres (multiplier (its c))) R) as [sl [c' [S1 [S2 [S3 S4]]]]].
  { symmetry. apply (merge_facts c R). }
  exists c'. split; [exact S3|]. rewrite S4.
  assert (U : sl = map (fun it => if lm it then pres it else []) (its c)).
  { apply (slices_unique (its c)); [exact S1| |].
    - clear. induction (its c) as [|it l IH]; cbn [map]; constructor; auto. destruct (lm it); reflexivity.
    - rewrite S2. clear. unfold multiplier. induction (its c) as [|it l IH]; [reflexivity|]. cbn [filter map concat]. destruct (lm it); cbn [flat_map app]; now rewrite IH. }
  subst sl. clear. unfold multiplier. induction (its c) as [|it l IH]; [reflexivity|]. cbn [map combine fst snd filter]. cbn [with_pressure lm]. destruct (lm it) eqn:E; cbn [flat_map]; [|exact IH].
  rewrite IH. f_equal. cbn [pres]. unfold new_pressure. now rewrite E.
Qed.

(** ** the active set *)
Lemma geb_true a b : geb a b = true <-> b <= a.
Proof. unfold geb. destruct (Rle_dec b a); split; intros; auto; try discriminate; contradiction. Qed.
Lemma inactive_spec it d : tied it = None -> (In d (inactive it) <-> (d < length (pres it))%nat /\ 0 <= nth d (pres it) 0 /\ - tol <= nth d (gap it) 0).
Proof.
  intros T. unfold inactive. rewrite T. rewrite filter_In, in_seq, andb_true_iff, !geb_true. split; intros H; repeat split; try tauto; try lia; destruct H as [H [H1 H2]]; auto; lia.
Qed.
Lemma NoDup_inactive it : tied it = None -> NoDup (inactive it).
Proof. intros T. unfold inactive. rewrite T. apply NoDup_filter, seq_NoDup. Qed.

(** ** the inactive identity block: contact_data.cpp:183-220 *)
Fixpoint gather_inactive (offs : list nat) (i : nat) (l : list interaction) : option (list nat) :=
  match l with
  | [] => Some []
  | it :: r => match nth_error offs i, gather_inactive offs (S i) r with
               | Some o, Some t => Some (map (fun d => (d + o)%nat) (inactive it) ++ t)
               | _, _ => None
               end
  end.
(** the loop over rows: one running counter *)
Fixpoint row_loop (n i ct : nat) (tdofs : list nat) : list nat :=
  match n with
  | O => []
  | S n' => let ct' := match nth_error tdofs ct with Some d => if Nat.eqb d i then S ct else ct | None => ct end in ct' :: row_loop n' (S i) ct' tdofs
  end.
(** columns stored in row i of the matrix *)
Definition row_columns (rows : list nat) (tdofs : list nat) (i : nat) : list nat :=
  let a := nth i (0%nat :: rows) 0%nat in let b := nth (S i) (0%nat :: rows) 0%nat in firstn (b - a) (skipn a tdofs).
Definition identity_block (c : contact) : option (nat -> list nat) :=
  let c := refresh c in
  match gather_inactive (offs c) 0 (its c) with
  | Some t => Some (row_columns (row_loop (npd c) 0 0 t) t)
  | None => None
  end.
(** merged positions of the inactive multipliers *)
Definition inactive_positions (c : contact) : list nat :=
  flat_map (fun p => if lm (fst p) then map (fun d => (d + snd p)%nat) (inactive (fst p)) else []) (combine (its c) (offsets_from 0 (its c))).
Inductive sorted_from : nat -> list nat -> Prop :=
| sf_nil a : sorted_from a []
| sf_cons a x l : (a <= x)%nat -> sorted_from (S x) l -> sorted_from a (x :: l).
Lemma sorted_weaken a b l : (b <= a)%nat -> sorted_from a l -> sorted_from b l.
Proof. intros H S. inversion S; subst; constructor; auto. lia. Qed.
Lemma sorted_seq_filter P : forall n a, sorted_from a (filter P (seq a n)).
Proof.
  induction n as [|n IH]; intros a; [constructor|]. cbn [seq filter]. destruct (P a); [constructor; [lia|apply IH]|]. apply (sorted_weaken (S a)); [lia|apply IH].
Qed.
Lemma sorted_in a l : sorted_from a l -> forall x, In x l -> (a <= x)%nat.
Proof. induction 1 as [|a x l H S IH]; intros y Hy; [destruct Hy|]. destruct Hy as [<-|Hy]; [exact H|]. specialize (IH y Hy). lia. Qed.
Lemma sorted_shift o l : forall a, sorted_from a l -> sorted_from (a + o) (map (fun d => (d + o)%nat) l).
Proof. intros a S. induction S as [|a x l H S IH]; cbn [map]; constructor; [lia|exact IH]. Qed.
Lemma sorted_app l1 l2 : forall a b, sorted_from a l1 -> (forall x, In x l1 -> (x < b)%nat) -> (a <= b)%nat -> sorted_from b l2 -> sorted_from a (l1 ++ l2).
Proof.
  intros a b S. revert b. induction S as [|a x l H S IH]; intros b Hb Hab S2; cbn [app]; [apply (sorted_weaken b); assumption|].
  constructor; [exact H|]. apply (IH b); [intros; apply Hb; now right| |exact S2]. specialize (Hb x (or_introl eq_refl)). lia.
Qed.
(** row i holds column i exactly when i is listed *)
Lemma row_loop_spec t : forall n i ct, sorted_from i (skipn ct t) -> (ct <= length t)%nat ->
  forall k, (k < n)%nat -> let rows := ct :: row_loop n i ct t in
  firstn (nth (S k) rows 0 - nth k rows 0)%nat (skipn (nth k rows 0%nat) t) = if existsb (Nat.eqb (i + k)) (skipn ct t) then [(i + k)%nat] else [].
Proof.
  induction n as [|n IH]; intros i ct S L k Hk; [lia|]. cbv zeta. cbn [row_loop].
  set (ct' := match nth_error t ct with Some d => if Nat.eqb d i then Datatypes.S ct else ct | None => ct end).
  assert (C : (skipn ct t = [] /\ ct' = ct) \/ (exists x r, skipn ct t = x :: r /\ ((x = i /\ ct' = Datatypes.S ct) \/ (i < x /\ ct' = ct)%nat) /\ skipn (Datatypes.S ct) t = r)).
  { destruct (skipn ct t) as [|x r] eqn:E.
    - left. split; [reflexivity|]. assert (length t <= ct)%nat by (apply (f_equal (@length nat)) in E; rewrite skipn_length in E; cbn in E; lia). unfold ct'. now rewrite (proj2 (nth_error_None t ct)).
    - right. exists x, r. assert (En : nth_error t ct = Some x).
      { rewrite <- (firstn_skipn ct t), E. rewrite nth_error_app2 by (rewrite firstn_length; lia). rewrite firstn_length, Nat.min_l by lia. now rewrite Nat.sub_diag. }
      split; [reflexivity|]. inversion S; subst. split.
      + unfold ct'. rewrite En. destruct (Nat.eqb_spec x i); [left; auto|right; lia].
      + replace (Datatypes.S ct) with (1 + ct)%nat by lia. rewrite <- skipn_skipn, E. reflexivity. }
  destruct k as [|k].
  - cbn [nth]. rewrite Nat.add_0_r. destruct C as [[E ->]|[x [r [E [[[-> ->]|[Hx ->]] Er]]]]].
    + rewrite E, Nat.sub_diag. reflexivity.
    + rewrite E. replace (Datatypes.S ct - ct)%nat with 1%nat by lia. cbn [firstn existsb]. rewrite Nat.eqb_refl. reflexivity.
    + rewrite Nat.sub_diag. cbn [firstn]. rewrite E in S |- *. assert (H2 : sorted_from (Datatypes.S x) r) by (inversion S; assumption). destruct (existsb (Nat.eqb i) (x :: r)) eqn:Ex; [|reflexivity].
      apply existsb_in in Ex. destruct Ex as [->|Ex]; [lia|]. pose proof (sorted_in _ _ H2 _ Ex). lia.
  - cbn [nth]. assert (S' : sorted_from (Datatypes.S i) (skipn ct' t)).
    { destruct C as [[E ->]|[x [r [E [[[-> ->]|[Hx ->]] Er]]]]].
      - rewrite E. constructor.
      - rewrite Er. rewrite E in S. inversion S; subst. assumption.
      - rewrite E in S |- *. inversion S; subst. constructor; [lia|assumption]. }
    assert (L' : (ct' <= length t)%nat).
    { destruct C as [[E ->]|[x [r [E [[[-> ->]|[Hx ->]] Er]]]]]; auto. apply (f_equal (@length nat)) in E. rewrite skipn_length in E. cbn in E. lia. }
    pose proof (IH (Datatypes.S i) ct' S' L' k ltac:(lia)) as H. cbv zeta in H. etransitivity; [exact H|]. replace (Datatypes.S i + k)%nat with (i + Datatypes.S k)%nat by lia.
    destruct C as [[E ->]|[x [r [E [[[-> ->]|[Hx ->]] Er]]]]]; [reflexivity| |reflexivity]. rewrite Er, E. cbn [existsb]. rewrite (proj2 (Nat.eqb_neq (i + Datatypes.S k) i)) by lia. reflexivity.
Qed.
Lemma inactive_bound it : proper it -> forall d, In d (inactive it) -> (d < length (pres it))%nat.
Proof. intros [_ T] d Hd. destruct (tied it) as [l|] eqn:E; [|apply (inactive_spec it d E); exact Hd]. unfold inactive in Hd. rewrite E in Hd. exact (T l eq_refl d Hd). Qed.
Definition sorted_tied (it : interaction) : Prop := forall l, tied it = Some l -> sorted_from 0 l.
Lemma gather_lm c : inv c -> fresh c = true -> Forall (fun it => lm it = true) (its c) -> gather_inactive (offs c) 0 (its c) = Some (inactive_positions c).
Proof.
  intros I Fr A. unfold inactive_positions.
  assert (G : forall l pre, its c = pre ++ l -> Forall (fun it => lm it = true) l ->
    gather_inactive (offs c) (length pre) l = Some (flat_map (fun p => if lm (fst p) then map (fun d => (d + snd p)%nat) (inactive (fst p)) else []) (combine l (offsets_from (total_dofs pre) l)))).
  { set (d0 := {| lm := false; penalty := 0; tied := None; pres := []; gap := [] |}).
    induction l as [|it l IH]; intros pre E AL; [reflexivity|]. inversion AL as [|? ? Hl AL']; subst.
    assert (Hn : nth (length pre) (its c) d0 = it) by (rewrite E, app_nth2, Nat.sub_diag; [reflexivity|lia]).
    assert (Hlt : (length pre < length (its c))%nat) by (rewrite E, app_length; cbn [length]; lia).
    cbn [gather_inactive offsets_from combine flat_map fst snd]. destruct (offs_at c (length pre) I Fr Hlt) as [-> _]; [fold d0; now rewrite Hn|].
    assert (E2 : its c = (pre ++ [it]) ++ l) by (rewrite <- app_assoc; exact E). specialize (IH _ E2 AL'). rewrite app_length in IH. cbn [length] in IH. rewrite Nat.add_1_r in IH. rewrite IH.
    rewrite E, firstn_app, firstn_all, Nat.sub_diag. cbn [firstn]. rewrite app_nil_r, Hl. rewrite total_app. cbn [total_dofs fold_right]. rewrite Nat.add_0_r. reflexivity. }
  exact (G (its c) [] eq_refl A).
Qed.
Lemma positions_sorted : forall l o, Forall proper l -> Forall sorted_tied l ->
  let t := flat_map (fun p => if lm (fst p) then map (fun d => (d + snd p)%nat) (inactive (fst p)) else []) (combine l (offsets_from o l)) in sorted_from o t /\ forall x, In x t -> (x < o + total_dofs l)%nat.
Proof.
  induction l as [|it l IH]; intros o P S; cbv zeta; [cbn; split; [constructor|intros x []]|]. inversion P as [|? ? Pi Pl]; subst. inversion S as [|? ? Si Sl]; subst.
  cbn [offsets_from combine flat_map fst snd total_dofs fold_right]. fold (total_dofs l). destruct (IH (o + ndof it)%nat Pl Sl) as [A B].
  assert (H : forall x, In x (if lm it then map (fun d => (d + o)%nat) (inactive it) else []) -> (x < o + ndof it)%nat).
  { unfold ndof. destruct (lm it); [|intros x []]. intros x Hx. apply in_map_iff in Hx. destruct Hx as [d [<- Hd]]. pose proof (inactive_bound it Pi d Hd). lia. }
  split.
  - apply (sorted_app _ _ o (o + ndof it)); [|exact H|lia|exact A]. destruct (lm it); [|constructor]. apply (sorted_shift o (inactive it) 0).
    destruct (tied it) as [tl|] eqn:E; [unfold inactive; rewrite E; exact (Si tl E)|]. unfold inactive. rewrite E. apply sorted_seq_filter.
  - intros x Hx. apply in_app_or in Hx. destruct Hx as [Hx|Hx]; [apply H in Hx; lia|apply B in Hx; lia].
Qed.
Lemma identity_ok c : reachable c -> Forall (fun it => lm it = true) (its c) -> Forall sorted_tied (its c) -> exists m, identity_block c = Some m /\
  forall i, (i < npd c)%nat -> m i = if existsb (Nat.eqb i) (inactive_positions c) then [i] else [].
Proof.
  intros R A S. destruct (inv_refresh c (reachable_inv c R)) as [I [Fr E]]. unfold identity_block. rewrite gather_lm by (rewrite ?E; assumption).
  assert (Ep : inactive_positions (refresh c) = inactive_positions c) by (unfold inactive_positions; now rewrite E). rewrite Ep. eexists. split; [reflexivity|]. intros i Hi.
  destruct (positions_sorted (its c) 0) as [So _]; [rewrite <- E; apply (i_proper _ I)|exact S|].
  assert (N : npd (refresh c) = npd c) by (rewrite (i_npd _ I), E; symmetry; apply (i_npd _ (reachable_inv c R))). rewrite N.
  exact (row_loop_spec (inactive_positions c) (npd c) 0 0 So ltac:(lia) i Hi).
Qed.

(** ** offsets over the ranks: contact_data.cpp:318-338 *)
(** the array on one rank after the Allreduce: entry r+1 is the size of rank r *)
Fixpoint prefix_from (a : nat) (l : list nat) : list nat := match l with [] => [] | x :: r => (a + x)%nat :: prefix_from (a + x) r end.
Definition global_offsets (sizes : list nat) (rank : nat) (assumed_partition : bool) : list nat :=
  let g := 0%nat :: prefix_from 0 sizes in
  if assumed_partition then [nth rank g 0%nat; nth (rank + 1) g 0%nat; nth (length sizes) g 0%nat] else g.
Definition sum_sizes (l : list nat) : nat := fold_right Nat.add 0%nat l.
Lemma prefix_nth : forall l a i, (i < length l)%nat -> nth i (prefix_from a l) 0%nat = (a + sum_sizes (firstn (S i) l))%nat.
Proof.
  induction l as [|x l IH]; intros a i H; cbn [length] in H; [lia|]. destruct i as [|i]; [cbn; lia|]. cbn [prefix_from nth]. rewrite IH by lia.
  change (firstn (S (S i)) (x :: l)) with (x :: firstn (S i) l). cbn [sum_sizes fold_right]. fold (sum_sizes (firstn (S i) l)). lia.
Qed.
Lemma global_nth l i : (i <= length l)%nat -> nth i (0%nat :: prefix_from 0 l) 0%nat = sum_sizes (firstn i l).
Proof. intros H. destruct i as [|i]; [reflexivity|]. cbn [nth]. rewrite prefix_nth by lia. reflexivity. Qed.
Lemma global_offsets_ok sizes rank : (rank < length sizes)%nat ->
  global_offsets sizes rank true = [sum_sizes (firstn rank sizes); (sum_sizes (firstn rank sizes) + nth rank sizes 0)%nat; sum_sizes sizes] /\
  forall i, (i <= length sizes)%nat -> nth i (global_offsets sizes rank false) 0%nat = sum_sizes (firstn i sizes).
Proof.
  intros H. split; [|intros i Hi; apply global_nth; exact Hi]. unfold global_offsets. rewrite !global_nth by lia. rewrite firstn_all. do 2 f_equal.
  rewrite (firstn_S_nth 0%nat) by exact H. clear H. induction (firstn rank sizes) as [|x l IH]; cbn [app sum_sizes fold_right]; [lia|]. fold (sum_sizes l). fold (sum_sizes (l ++ [nth rank sizes 0%nat])). lia.
Qed.

(** ** the fixed list of a tied interaction: contact_interaction.cpp:20-29, 43-64 *)
(** mfem::Array(n) leaves its entries indeterminate: None. Reading one, or writing outside, is undefined: result None *)
Definition set_nth {A} (i : nat) (x : A) (l : list A) : option (list A) := if Nat.ltb i (length l) then Some (firstn i l ++ x :: skipn (S i) l) else None.
Fixpoint mark_attrs (attrs : list nat) (m : list (option bool)) : option (list (option bool)) :=
  match attrs with [] => Some m | a :: r => match set_nth (a - 1) (Some true) m with Some m' => mark_attrs r m' | None => None end end.
(** an element of the pressure mesh: attribute and (already decoded) dofs *)
Fixpoint mark_elements (m : list (option bool)) (elems : list (nat * list nat)) (marked : list nat) : option (list nat) :=
  match elems with
  | [] => Some marked
  | (a, dofs) :: r => match nth_error m (a - 1) with Some (Some b) => mark_elements m r (if b then marked ++ dofs else marked) | _ => None end
  end.
Definition tied_list (ndofs max_attr : nat) (surf2 : list nat) (elems : list (nat * list nat)) : option (list nat) :=
  match mark_attrs surf2 (repeat None max_attr) with
  | Some m => match mark_elements m elems [] with Some marked => Some (filter (fun d => negb (existsb (Nat.eqb d) marked)) (seq 0 ndofs)) | None => None end
  | None => None
  end.
Lemma set_nth_other {A} i (x : A) l l' j : set_nth i x l = Some l' -> j <> i -> nth_error l' j = nth_error l j.
Proof.
  unfold set_nth. destruct (Nat.ltb_spec i (length l)) as [H|]; [|discriminate]. intros E N. injection E as <-. destruct (Nat.lt_ge_cases j i) as [Hj|Hj].
  - rewrite nth_error_app1 by (rewrite firstn_length; lia). rewrite <- (firstn_skipn i l) at 2. rewrite nth_error_app1 by (rewrite firstn_length; lia). reflexivity.
  - rewrite nth_error_app2 by (rewrite firstn_length; lia). rewrite firstn_length, Nat.min_l by lia. rewrite <- (firstn_skipn (S i) l) at 2. rewrite nth_error_app2 by (rewrite firstn_length; lia).
    rewrite firstn_length, Nat.min_l by lia. replace (j - i)%nat with (S (j - S i)) by lia. reflexivity.
Qed.
Lemma mark_attrs_other : forall attrs m m' j, mark_attrs attrs m = Some m' -> (forall a, In a attrs -> (a - 1)%nat <> j) -> nth_error m' j = nth_error m j.
Proof.
  induction attrs as [|a r IH]; intros m m' j E H; cbn [mark_attrs] in E; [congruence|]. destruct (set_nth (a - 1) (Some true) m) as [m1|] eqn:E1; [|discriminate].
  rewrite (IH _ _ _ E) by (intros; apply H; now right). apply (set_nth_other _ _ _ _ _ E1). intros ->. apply (H a); [now left|reflexivity].
Qed.
Lemma mark_elements_undef m a : (forall b, nth_error m (a - 1) <> Some (Some b)) -> forall elems marked, (exists d, In (a, d) elems) -> mark_elements m elems marked = None.
Proof.
  intros H. induction elems as [|[a' d'] r IH]; intros marked [d Hd]; [destruct Hd|]. cbn [mark_elements]. destruct Hd as [E|Hd].
  - injection E as -> ->. destruct (nth_error m (a - 1)) as [[b|]|] eqn:E; auto. exfalso. exact (H b eq_refl).
  - destruct (nth_error m (a' - 1)) as [[b|]|]; auto. apply IH. now exists d.
Qed.
(** with attributes from 1, any element off surface 2 makes the constructor read an indeterminate marker *)
Lemma tied_undefined ndofs max_attr surf2 elems a d : (forall x, In x surf2 -> (1 <= x)%nat) -> (1 <= a)%nat -> In (a, d) elems -> ~ In a surf2 -> tied_list ndofs max_attr surf2 elems = None.
Proof.
  intros H1 Ha Hd Hn. unfold tied_list. destruct (mark_attrs surf2 (repeat None max_attr)) as [m|] eqn:E; [|reflexivity].
  rewrite (mark_elements_undef m a); [reflexivity| |now exists d]. intros b Hb. rewrite (mark_attrs_other _ _ _ (a - 1) E) in Hb.
  - apply nth_error_In in Hb. apply repeat_spec in Hb. discriminate.
  - intros x Hx Ex. apply Hn. specialize (H1 x Hx). replace a with x by lia. exact Hx.
Qed.

(** ** one evaluation of the contact residual: contact_data.cpp:229-254 *)
(** Tribol's gaps are taken to be a function of the displacement alone, so both updates give the same gaps [gs].
    The result carries the pressures that the forces are computed from. *)
Definition eval_contact (c : contact) (gs : list (list R)) (v : list R) : option contact :=
  match set_pressures (update_gaps c gs) v with Some c' => Some (update_gaps c' gs) | None => None end.
Definition fits (l : list interaction) (gs : list (list R)) : Prop := Forall2 (fun it x => length x = length (pres it)) l gs.
Definition regap (it : interaction) (g : list R) : interaction := {| lm := lm it; penalty := penalty it; tied := tied it; pres := pres it; gap := g |}.
Definition one (it : interaction) (g s : list R) : interaction := with_pressure (regap it g) (new_pressure (regap it g) s).
Fixpoint all (l : list interaction) (gs sl : list (list R)) : list interaction :=
  match l, gs, sl with it :: r, g :: gr, s :: sr => one it g s :: all r gr sr | _, _, _ => [] end.
Definition slice_shape (it : interaction) (s : list R) : Prop := if lm it then length s = length (pres it) else s = [].
Lemma one_length it g s : length g = length (pres it) -> slice_shape it s -> length (pres (one it g s)) = length (pres it).
Proof. intros Hg Hs. unfold one, new_pressure, slice_shape in *. cbn [with_pressure pres regap lm gap]. rewrite zero_at_length. destruct (lm it); [exact Hs|now rewrite map_length]. Qed.
Lemma put_shape : forall l gs sl, fits l gs -> Forall2 slice_shape l sl -> fits (all l gs sl) gs /\ Forall2 slice_shape (all l gs sl) sl /\ Forall2 same_shape l (all l gs sl).
Proof.
  intros l gs sl F. revert sl. induction F as [|it g l gs H F IH]; intros sl S; inversion S as [|? s ? sr Hs Sr]; subst; cbn [all]; [repeat split; constructor|].
  destruct (IH sr Sr) as [A [B C]]. pose proof (one_length it g s H Hs) as L.
  split; [constructor; [congruence|exact A]|]. split; [constructor; [|exact B]|constructor; [|exact C]].
  - unfold slice_shape in *. change (lm (one it g s)) with (lm it). destruct (lm it); congruence.
  - split; [reflexivity|]. symmetry. exact L.
Qed.
Lemma put_idem : forall l gs sl, fits l gs -> Forall2 slice_shape l sl -> put_gaps (all l gs sl) gs = all l gs sl.
Proof. intros l gs sl F. revert sl. induction F as [|it g l gs H F IH]; intros sl S; inversion S as [|? s ? sr Hs Sr]; subst; cbn [all put_gaps]; [reflexivity|]. now rewrite (IH sr Sr). Qed.
Lemma eval_its c gs v : reachable c -> fits (its c) gs -> length v = npd c ->
  exists sl c', Forall2 slice_shape (its c) sl /\ concat sl = v /\ eval_contact c gs v = Some c' /\ its c' = all (its c) gs sl /\ reachable c' /\ npd c' = npd c.
Proof.
  intros R F L. pose proof (r_gaps c gs R F) as R1. destruct (split_facts (update_gaps c gs) v R1 L) as [sl [c' [S1 [S2 [S3 S4]]]]].
  assert (Sh : Forall2 slice_shape (its c) sl).
  { cbn [update_gaps its] in S1. clear - S1 F. revert sl S1. induction F as [|it g l gs H F IH]; intros sl S1; cbn [put_gaps] in S1; inversion S1; subst; constructor; auto. }
  assert (E : its c' = all (its c) gs sl).
  { rewrite S4. cbn [update_gaps its]. clear - Sh F. revert sl Sh. induction F as [|it g l gs H F IH]; intros sl Sh; inversion Sh as [|? s ? sr Hs Sr]; subst; cbn [put_gaps combine map all fst snd]; [reflexivity|]. f_equal. apply IH. exact Sr. }
  destruct (put_shape _ _ _ F Sh) as [A [B C]].
  exists sl, (update_gaps c' gs). split; [exact Sh|]. split; [exact S2|]. unfold eval_contact. rewrite S3. split; [reflexivity|].
  assert (R2 : reachable (update_gaps c' gs)) by (apply r_gaps; [exact (r_set _ _ _ R1 S3)|rewrite E; exact A]).
  split; [cbn [update_gaps its]; rewrite E; apply put_idem; assumption|]. split; [exact R2|].
  rewrite (i_npd _ (reachable_inv _ R2)), (i_npd _ (reachable_inv _ R)). cbn [update_gaps its]. rewrite E, put_idem by assumption. symmetry. apply same_total. exact C.
Qed.
(** one dof: pressure used, gap, requested pressure *)
Definition pick (old g want : R) : R := if (geb old 0 && geb g (- tol))%bool then 0 else want.
Lemma pick_third old g want : pick (pick (pick old g want) g want) g want = pick (pick old g want) g want.
Proof.
  unfold pick. destruct (geb g (- tol)); rewrite ?andb_false_r; [|reflexivity]. rewrite !andb_true_r.
  assert (Z : geb 0 0 = true) by (apply geb_true; lra). destruct (geb old 0); [rewrite !Z; reflexivity|]. destruct (geb want 0) eqn:W; rewrite ?Z, ?W; reflexivity.
Qed.
Definition wanted (it : interaction) (g s : list R) : list R := if lm it then s else map (fun x => penalty it * x) g.
Lemma one_nth it g s k : tied it = None -> length g = length (pres it) -> slice_shape it s -> (k < length (pres it))%nat ->
  nth k (pres (one it g s)) 0 = pick (nth k (pres it) 0) (nth k g 0) (nth k (wanted it g s) 0).
Proof.
  intros T Hg Hs Hk. unfold one, new_pressure, slice_shape, wanted in *. cbn [with_pressure pres regap lm gap penalty].
  set (w := if lm it then s else map (fun x => penalty it * x) g).
  assert (Lw : length w = length (pres it)) by (unfold w; destruct (lm it); [exact Hs|now rewrite map_length]).
  rewrite zero_at_nth by lia. unfold pick. destruct (existsb (Nat.eqb k) (inactive (regap it g))) eqn:E.
  - apply existsb_in, (inactive_spec (regap it g) k T) in E. cbn [regap pres gap] in E. destruct E as [_ [E1 E2]]. rewrite (proj2 (geb_true _ _) E1), (proj2 (geb_true _ _) E2). reflexivity.
  - destruct (geb (nth k (pres it) 0) 0) eqn:E1; cbn [andb]; [|reflexivity]. destruct (geb (nth k g 0) (- tol)) eqn:E2; [|reflexivity]. exfalso.
    assert (In k (inactive (regap it g))) by (apply (inactive_spec (regap it g) k T); cbn [regap pres gap]; split; [exact Hk|split; now apply geb_true]). apply existsb_in in H. congruence.
Qed.
Lemma nth_eq (a b : list R) : length a = length b -> (forall k, (k < length a)%nat -> nth k a 0 = nth k b 0) -> a = b.
Proof. intros L H. apply (nth_ext a b 0 0 L H). Qed.
Lemma one_third it g s : length g = length (pres it) -> slice_shape it s -> one (one (one it g s) g s) g s = one (one it g s) g s.
Proof.
  intros Hg Hs. pose proof (one_length it g s Hg Hs) as L1.
  assert (Hg1 : length g = length (pres (one it g s))) by congruence.
  assert (Hs1 : slice_shape (one it g s) s) by (unfold slice_shape in *; change (lm (one it g s)) with (lm it); destruct (lm it); congruence).
  pose proof (one_length _ g s Hg1 Hs1) as L2.
  assert (Hg2 : length g = length (pres (one (one it g s) g s))) by congruence.
  assert (Hs2 : slice_shape (one (one it g s) g s) s) by (unfold slice_shape in *; change (lm (one (one it g s) g s)) with (lm it); destruct (lm it); congruence).
  destruct (tied it) as [t|] eqn:T.
  - unfold one, new_pressure, inactive. cbn [with_pressure regap tied lm gap penalty pres]. rewrite T. reflexivity.
  - set (i2 := one (one it g s) g s) in *. set (i3 := one i2 g s).
    assert (P : pres i3 = pres i2).
    { apply nth_eq; [exact (one_length i2 g s Hg2 Hs2)|]. intros k Hk. unfold i3 in Hk |- *. rewrite (one_length i2 g s Hg2 Hs2) in Hk. rewrite one_nth by (try exact T; auto).
      assert (Hk1 : (k < length (pres it))%nat) by lia. unfold i2. rewrite (one_nth (one it g s)) by (try exact T; auto; lia). rewrite (one_nth it) by (auto; lia). apply pick_third. }
    unfold i3 in P |- *. unfold one at 1. unfold one in P at 1. cbn [with_pressure pres] in P. rewrite P. reflexivity.
Qed.
Lemma all_third : forall l gs sl, fits l gs -> Forall2 slice_shape l sl -> all (all (all l gs sl) gs sl) gs sl = all (all l gs sl) gs sl.
Proof.
  intros l gs sl F. revert sl. induction F as [|it g l gs H F IH]; intros sl S; inversion S as [|? s ? sr Hs Sr]; subst; cbn [all]; [reflexivity|]. rewrite (IH sr Sr), one_third by assumption. reflexivity.
Qed.
Lemma eval_settles c gs v : reachable c -> fits (its c) gs -> length v = npd c ->
  exists c1 c2 c3, eval_contact c gs v = Some c1 /\ eval_contact c1 gs v = Some c2 /\ eval_contact c2 gs v = Some c3 /\ its c3 = its c2.
Proof.
  intros R F L. destruct (eval_its c gs v R F L) as [sl [c1 [S [Cv [E1 [I1 [R1 N1]]]]]]]. destruct (put_shape _ _ _ F S) as [F1 [S1 _]]. rewrite <- I1 in F1, S1.
  destruct (eval_its c1 gs v R1 F1 ltac:(congruence)) as [sl2 [c2 [S2 [Cv2 [E2 [I2 [R2 N2]]]]]]]. assert (sl2 = sl) by (apply (slices_unique (its c1)); [exact S2|exact S1|congruence]). subst sl2.
  destruct (put_shape _ _ _ F1 S2) as [F2 [S3 _]]. rewrite <- I2 in F2, S3.
  destruct (eval_its c2 gs v R2 F2 ltac:(congruence)) as [sl3 [c3 [S4 [Cv3 [E3 [I3 [R3 N3]]]]]]]. assert (sl3 = sl) by (apply (slices_unique (its c2)); [exact S4|exact S3|congruence]). subst sl3.
  exists c1, c2, c3. split; [exact E1|]. split; [exact E2|]. split; [exact E3|]. rewrite I3, I2, I1. apply all_third; assumption.
Qed.
(** a fixed point is a function of the arguments: no dof is in tension when penalty enforced, closed dofs carry the request *)
Lemma pick_closed old g want : g < - tol -> pick old g want = want.
Proof. intros H. unfold pick, geb. destruct (Rle_dec (- tol) g); [lra|]. now rewrite andb_false_r. Qed.
Lemma pick_second_nonpos old g k : 0 <= k -> 0 < tol -> pick (pick old g (k * g)) g (k * g) <= 0.
Proof.
  intros Hk Ht. destruct (Rlt_le_dec g (- tol)) as [H|H]; [rewrite pick_closed by exact H; nra|]. unfold pick, geb. destruct (Rle_dec (- tol) g); [|contradiction]. rewrite !andb_true_r.
  destruct (Rle_dec 0 old); [destruct (Rle_dec 0 0); lra|]. destruct (Rle_dec 0 (k * g)); lra.
Qed.
Lemma tol_pos : 0 < tol.
Proof. unfold tol. apply Rinv_0_lt_compat, pow_lt. lra. Qed.
Lemma nonpos_second it g s : lm it = false -> tied it = None -> 0 <= penalty it -> length g = length (pres it) -> s = [] -> Forall (fun x => x <= 0) (pres (one (one it g s) g s)).
Proof.
  intros Hl T Hp Hg ->. assert (Hs : slice_shape it []) by (unfold slice_shape; now rewrite Hl). pose proof (one_length it g [] Hg Hs) as L1.
  assert (Hs1 : slice_shape (one it g []) []) by (unfold slice_shape; change (lm (one it g [])) with (lm it); now rewrite Hl).
  apply Forall_forall. intros x Hx. destruct (In_nth _ _ 0 Hx) as [k [Hk <-]]. rewrite one_length in Hk by (auto; congruence).
  rewrite (one_nth (one it g [])) by (auto; congruence). rewrite (one_nth it) by (auto; congruence).
  unfold wanted. change (lm (one it g [])) with (lm it). change (penalty (one it g [])) with (penalty it). rewrite Hl. rewrite L1 in Hk. set (f := fun y => penalty it * y).
  rewrite (nth_indep (map f g) 0 (f 0)) by (rewrite map_length; lia). rewrite (map_nth f). unfold f. apply pick_second_nonpos; [exact Hp|exact tol_pos].
Qed.
Lemma settled_no_tension : forall l gs sl, fits l gs -> Forall2 slice_shape l sl -> Forall (fun it => lm it = false -> tied it = None /\ 0 <= penalty it) l ->
  Forall (fun it => lm it = false -> Forall (fun x => x <= 0) (pres it)) (all (all l gs sl) gs sl).
Proof.
  intros l gs sl F. revert sl. induction F as [|it g l gs H F IH]; intros sl S A; inversion S as [|? s ? sr Hs Sr]; subst; cbn [all]; [constructor|]. inversion A as [|? ? A1 A2]; subst.
  constructor; [|apply IH; assumption]. intros Hl. change (lm it = false) in Hl. destruct (A1 Hl). apply nonpos_second; auto. unfold slice_shape in Hs. rewrite Hl in Hs. exact Hs.
Qed.
Lemma eval_no_tension c gs v : reachable c -> fits (its c) gs -> length v = npd c -> Forall (fun it => lm it = false -> tied it = None /\ 0 <= penalty it) (its c) ->
  exists c1 c2, eval_contact c gs v = Some c1 /\ eval_contact c1 gs v = Some c2 /\ Forall (fun it => lm it = false -> Forall (fun x => x <= 0) (pres it)) (its c2).
Proof.
  intros R F L A. destruct (eval_its c gs v R F L) as [sl [c1 [S [Cv [E1 [I1 [R1 N1]]]]]]]. destruct (put_shape _ _ _ F S) as [F1 [S1 _]]. rewrite <- I1 in F1, S1.
  destruct (eval_its c1 gs v R1 F1 ltac:(congruence)) as [sl2 [c2 [S2 [Cv2 [E2 [I2 [R2 N2]]]]]]]. assert (sl2 = sl) by (apply (slices_unique (its c1)); [exact S2|exact S1|congruence]). subst sl2.
  exists c1, c2. split; [exact E1|]. split; [exact E2|]. rewrite I2, I1. apply settled_no_tension; assumption.
Qed.
(** when every element is on surface 2 the list is the dofs of no element *)
Lemma set_nth_same {A} i (x : A) l l' : set_nth i x l = Some l' -> nth_error l' i = Some x.
Proof. unfold set_nth. destruct (Nat.ltb_spec i (length l)) as [H|]; [|discriminate]. intros E. injection E as <-. rewrite nth_error_app2 by (rewrite firstn_length; lia). rewrite firstn_length, Nat.min_l, Nat.sub_diag by lia. reflexivity. Qed.
Lemma mark_attrs_keeps : forall attrs m m' j, mark_attrs attrs m = Some m' -> nth_error m j = Some (Some true) -> nth_error m' j = Some (Some true).
Proof.
  induction attrs as [|a r IH]; intros m m' j E H; cbn [mark_attrs] in E; [congruence|]. destruct (set_nth (a - 1) (Some true) m) as [m1|] eqn:E1; [|discriminate]. apply (IH _ _ _ E).
  destruct (Nat.eq_dec j (a - 1)) as [->|N]; [exact (set_nth_same _ _ _ _ E1)|]. rewrite (set_nth_other _ _ _ _ _ E1 N). exact H.
Qed.
Lemma mark_attrs_sets : forall attrs m m' a, mark_attrs attrs m = Some m' -> In a attrs -> nth_error m' (a - 1) = Some (Some true).
Proof.
  induction attrs as [|b r IH]; intros m m' a E H; [destruct H|]. cbn [mark_attrs] in E. destruct (set_nth (b - 1) (Some true) m) as [m1|] eqn:E1; [|discriminate]. destruct H as [->|H]; [|exact (IH _ _ _ E H)].
  exact (mark_attrs_keeps _ _ _ _ E (set_nth_same _ _ _ _ E1)).
Qed.
Lemma mark_attrs_defined : forall attrs m, (forall a, In a attrs -> (1 <= a <= length m)%nat) -> exists m', mark_attrs attrs m = Some m'.
Proof.
  induction attrs as [|a r IH]; intros m H; cbn [mark_attrs]; [now exists m|]. unfold set_nth. pose proof (H a (or_introl eq_refl)) as Ha. destruct (Nat.ltb_spec (a - 1) (length m)) as [L|]; [|lia].
  apply IH. intros b Hb. rewrite app_length. cbn [length]. rewrite firstn_length, skipn_length. pose proof (H b (or_intror Hb)). lia.
Qed.
Lemma mark_elements_all m : forall elems marked, (forall e, In e elems -> nth_error m (fst e - 1) = Some (Some true)) -> mark_elements m elems marked = Some (marked ++ concat (map snd elems)).
Proof.
  induction elems as [|[a d] r IH]; intros marked H; cbn [mark_elements map concat]; [now rewrite app_nil_r|]. pose proof (H (a, d) (or_introl eq_refl)) as E. cbn [fst] in E. rewrite E. rewrite IH by (intros e He; apply H; now right). cbn [snd]. now rewrite <- app_assoc.
Qed.
Lemma tied_list_ok ndofs max_attr surf2 elems : (forall x, In x surf2 -> (1 <= x <= max_attr)%nat) -> (forall e, In e elems -> In (fst e) surf2) ->
  exists l, tied_list ndofs max_attr surf2 elems = Some l /\ NoDup l /\ forall d, In d l <-> (d < ndofs)%nat /\ forall e, In e elems -> ~ In d (snd e).
Proof.
  intros H1 H2. unfold tied_list. destruct (mark_attrs_defined surf2 (repeat None max_attr)) as [m E]; [intros a Ha; rewrite repeat_length; apply H1, Ha|]. rewrite E.
  rewrite mark_elements_all by (intros e He; exact (mark_attrs_sets _ _ _ _ E (H2 e He))). eexists. split; [reflexivity|]. split; [apply NoDup_filter, seq_NoDup|]. intros d. cbn [app]. rewrite filter_In, in_seq.
  assert (Q : existsb (Nat.eqb d) (concat (map snd elems)) = true <-> exists e, In e elems /\ In d (snd e)).
  { rewrite existsb_exists. split.
    - intros [y [Hy E1]]. apply Nat.eqb_eq in E1. subst y. apply in_concat in Hy. destruct Hy as [s [Hs Hd]]. apply in_map_iff in Hs. destruct Hs as [e [<- He]]. now exists e.
    - intros [e [He Hd]]. exists d. split; [|apply Nat.eqb_refl]. apply in_concat. exists (snd e). split; [now apply in_map|exact Hd]. }
  split.
  - intros [A B]. split; [lia|]. intros e He Hd. apply negb_true_iff in B. assert (C : existsb (Nat.eqb d) (concat (map snd elems)) = true) by (apply Q; now exists e). congruence.
  - intros [A B]. split; [lia|]. apply negb_true_iff. destruct (existsb _ _) eqn:C; [|reflexivity]. destruct (proj1 Q eq_refl) as [e [He Hd]]. destruct (B e He Hd).
Qed.

(** * Finite element vectors: copies, moves and reductions (C37, C50): physics/state/finite_element_vector.*, finite_element_state.hpp, finite_element_dual.hpp *)
From Coq Require Import String List Bool Arith ZArith Reals Lia Lra.
Import ListNotations.
From Verif Require Import StateMgr.
Local Open Scope R_scope.

(** what sameFiniteElementSpace compares (finite_element_vector.cpp:19-26), plus the number of true dofs *)
Record space := { on_mesh : nat; coll_name : string; vdim : nat; ordering : nat; tsize : nat }.
Definition same_space (a b : space) : bool := (Nat.eqb (on_mesh a) (on_mesh b) && String.eqb (coll_name a) (coll_name b) && Nat.eqb (vdim a) (vdim b) && Nat.eqb (ordering a) (ordering b))%bool.
(** an object: the space it owns (None once moved from; the number is the space's address), its name, its data (None once stolen),
    and for duals the address of the space its linear form refers to *)
Record fev := { owned : option (nat * space); name : string; data : option (list R); form : option nat }.
(** constructor from a space: a new space object at address [a], zero data (finite_element_vector.cpp:28-47) *)
Definition construct (a : nat) (s : space) (n : string) : fev := {| owned := Some (a, s); name := n; data := Some (repeat 0 (tsize s)); form := None |}.
(** mfem HypreParVector assignment: values copied *)
Definition set_data (x : fev) (v : list R) : fev := {| owned := owned x; name := name x; data := Some v; form := form x |}.
(** finite_element_vector.hpp:87-90 copy constructor, new space at address [a] *)
Definition vec_copy (a : nat) (r : fev) : outcome fev :=
  match owned r, data r with Some (_, s), Some v => Done (set_data (construct a s (name r)) v) | _, _ => Undef end.
(** finite_element_vector.cpp:49-58 move constructor: result and what is left of the source *)
Definition vec_move (r : fev) : outcome (fev * fev) :=
  match data r with
  | Some v => Done ({| owned := owned r; name := name r; data := Some v; form := None |}, {| owned := None; name := ""; data := None; form := form r |})
  | None => Undef
  end.
(** finite_element_vector.cpp:76-87 copy assignment *)
Definition vec_assign (l r : fev) : outcome fev :=
  match owned l, owned r, data l, data r with
  | Some (_, sl), Some (_, sr), Some vl, Some vr => if negb (same_space sl sr) then Refused else if negb (Nat.eqb (length vl) (length vr)) then Refused else Done (set_data l vr)
  | _, _, _, _ => Undef
  end.
(** finite_element_vector.cpp:89-100 move assignment *)
Definition vec_move_assign (l r : fev) : outcome (fev * fev) :=
  match data r with
  | Some v => Done ({| owned := owned r; name := name r; data := Some v; form := form l |}, {| owned := None; name := name r; data := None; form := form r |})
  | None => Undef
  end.
(** finite_element_vector.cpp:70-74 assignment from a plain vector: mfem::Vector assignment, which resizes *)
Definition vec_from_vector (l : fev) (v : list R) : fev := set_data l v.
(** finite_element_vector.cpp:60-68 assignment from a hypre vector *)
Definition vec_from_hypre (l : fev) (v : list R) : outcome fev := match data l with Some vl => if negb (Nat.eqb (length vl) (length v)) then Refused else Done (set_data l v) | None => Undef end.

(** FiniteElementState, finite_element_state.hpp:59-90 *)
Definition state_copy := vec_copy.
Definition state_move := vec_move.
Definition state_assign := vec_assign.
(** the moved argument is an lvalue, so this is the copy assignment *)
Definition state_move_assign (l r : fev) : outcome (fev * fev) := match vec_assign l r with Done x => Done (x, r) | Refused => Refused | Undef => Undef end.

(** FiniteElementDual, finite_element_dual.hpp:39-83 *)
Definition with_form (x : fev) (f : option nat) : fev := {| owned := owned x; name := name x; data := data x; form := f |}.
(** finite_element_dual.hpp:122-130 linearForm: made on the object's own space if absent; filling it reads that space in either case *)
Definition linear_form (x : fev) : outcome fev := match owned x, form x with Some _, Some _ => Done x | Some (a, _), None => Done (with_form x (Some a)) | None, _ => Undef end.
Definition after_form (r : fev) (x : fev) : outcome fev := match form r with Some _ => linear_form x | None => Done x end.
Definition bind {A B} (x : outcome A) (f : A -> outcome B) : outcome B := match x with Done a => f a | Refused => Refused | Undef => Undef end.
Definition dual_copy (a : nat) (r : fev) : outcome fev := bind (vec_copy a r) (after_form r).
(** again an lvalue: the base is copied, only the form is moved *)
Definition dual_move (a : nat) (r : fev) : outcome (fev * fev) := bind (vec_copy a r) (fun x => Done (with_form x (form r), with_form r None)).
Definition dual_assign (l r : fev) : outcome fev := bind (vec_assign l r) (after_form r).
Definition dual_move_assign (l r : fev) : outcome (fev * fev) := Done (with_form l (form r), with_form r None).

(** std::swap *)
Definition swap_state (x y : fev) : outcome (fev * fev) :=
  bind (state_move x) (fun p => bind (state_move_assign (snd p) y) (fun q => bind (state_move_assign (snd q) (fst p)) (fun z => Done (fst q, fst z)))).
Definition swap_dual (a : nat) (x y : fev) : outcome (fev * fev) :=
  bind (dual_move a x) (fun p => bind (dual_move_assign (snd p) y) (fun q => bind (dual_move_assign (snd q) (fst p)) (fun z => Done (fst q, fst z)))).

(** ** specification: an intact object, and what a destination should carry *)
Definition intact (x : fev) : Prop := exists a s v, owned x = Some (a, s) /\ data x = Some v /\ length v = tsize s.
Definition carries (dst src : fev) : Prop := name dst = name src /\ data dst = data src /\ option_map snd (owned dst) = option_map snd (owned src).
Lemma same_space_eq a b : same_space a b = true <-> on_mesh a = on_mesh b /\ coll_name a = coll_name b /\ vdim a = vdim b /\ ordering a = ordering b.
Proof. unfold same_space. rewrite !andb_true_iff, !Nat.eqb_eq, String.eqb_eq. tauto. Qed.
Lemma state_construct_ok a r : intact r -> (exists x, state_copy a r = Done x /\ carries x r /\ intact x) /\ (exists x left, state_move r = Done (x, left) /\ carries x r /\ intact x).
Proof.
  intros [b [s [v [E1 [E2 E3]]]]]. split.
  - unfold state_copy, vec_copy. rewrite E1, E2. eexists. split; [reflexivity|]. split; [unfold carries; cbn; rewrite E1, E2; auto|]. exists a, s, v. cbn. auto.
  - unfold state_move, vec_move. rewrite E2. eexists. eexists. split; [reflexivity|]. split; [unfold carries; cbn; rewrite E2; auto|]. exists b, s, v. cbn. rewrite E1. auto.
Qed.
Lemma dual_construct_ok a r : intact r -> (exists x, dual_copy a r = Done x /\ carries x r /\ intact x /\ (form x = None \/ form x = Some a)) /\ (exists x left, dual_move a r = Done (x, left) /\ carries x r /\ intact x).
Proof.
  intros [b [s [v [E1 [E2 E3]]]]]. unfold dual_copy, dual_move, vec_copy. rewrite E1, E2. cbn [bind]. split.
  - unfold after_form. destruct (form r).
    + eexists. split; [reflexivity|]. split; [unfold carries; cbn; rewrite E1, E2; auto|]. split; [exists a, s, v; cbn; auto|now right].
    + eexists. split; [reflexivity|]. split; [unfold carries; cbn; rewrite E1, E2; auto|]. split; [exists a, s, v; cbn; auto|now left].
  - eexists. eexists. split; [reflexivity|]. split; [unfold carries; cbn; rewrite E1, E2; auto|]. exists a, s, v. cbn. auto.
Qed.
(** assignment between intact objects of one space: values, not names *)
Lemma assign_ok l r : intact l -> intact r -> forall sl sr, option_map snd (owned l) = Some sl -> option_map snd (owned r) = Some sr ->
  (same_space sl sr = true -> tsize sl = tsize sr -> exists x, vec_assign l r = Done x /\ data x = data r /\ owned x = owned l /\ name x = name l /\ form x = form l) /\ (same_space sl sr = false -> vec_assign l r = Refused).
Proof.
  intros [a [s [v [E1 [E2 E3]]]]] [b [s' [w [F1 [F2 F3]]]]] sl sr El Er. rewrite E1 in El. rewrite F1 in Er. cbn in El, Er. injection El as <-. injection Er as <-. unfold vec_assign. rewrite E1, E2, F1, F2. split.
  - intros -> Hs. cbn [negb]. rewrite E3, F3, Hs, Nat.eqb_refl. cbn [negb]. eexists. split; [reflexivity|]. cbn. auto.
  - intros ->. reflexivity.
Qed.
Lemma state_assign_ok l r : intact l -> intact r -> option_map snd (owned l) = option_map snd (owned r) ->
  (exists x, state_assign l r = Done x /\ data x = data r /\ option_map snd (owned x) = option_map snd (owned r)) /\
  (exists x, state_move_assign l r = Done (x, r) /\ data x = data r /\ option_map snd (owned x) = option_map snd (owned r)) /\
  (exists x, dual_assign l r = Done x /\ data x = data r /\ option_map snd (owned x) = option_map snd (owned r)).
Proof.
  intros Hl Hr E. destruct Hl as [a [s [v [E1 [E2 E3]]]]]. pose proof Hr as Hr0. destruct Hr as [b [s' [w [F1 [F2 F3]]]]].
  assert (s = s') by (rewrite E1, F1 in E; cbn in E; congruence). subst s'.
  destruct (assign_ok l r (ex_intro _ a (ex_intro _ s (ex_intro _ v (conj E1 (conj E2 E3))))) Hr0 s s) as [A _]; [now rewrite E1|now rewrite F1|].
  destruct A as [x [Ex [Dx [Ox [Nx Fx]]]]]; [apply same_space_eq; auto|reflexivity|]. unfold state_assign, state_move_assign, dual_assign. rewrite Ex. cbn [bind].
  split; [exists x; rewrite Ox, Dx; auto|]. split; [exists x; rewrite Ox, Dx; auto|]. unfold after_form, linear_form. destruct (form r).
  - rewrite Ox, E1. destruct (form x); [exists x; rewrite Ox, Dx, E1, F1; auto|]. eexists. split; [reflexivity|]. cbn. rewrite Ox, Dx, F1, E1. auto.
  - exists x. rewrite Ox, Dx. auto.
Qed.
Lemma vec_move_assign_ok l r : intact r -> exists x left, vec_move_assign l r = Done (x, left) /\ carries x r /\ intact x.
Proof. intros [b [s [v [E1 [E2 E3]]]]]. unfold vec_move_assign. rewrite E2. eexists. eexists. split; [reflexivity|]. split; [unfold carries; cbn; auto|]. exists b, s, v. cbn. auto. Qed.

(** ** what fails *)
Definition sp1 : space := {| on_mesh := 0; coll_name := "H1_2D_P1"; vdim := 1; ordering := 1; tsize := 2 |}.
Definition ex (a : nat) (n : string) (v : list R) (f : option nat) : fev := {| owned := Some (a, sp1); name := n; data := Some v; form := f |}.
Lemma ex_intact a n x y f : intact (ex a n [x; y] f).
Proof. exists a, sp1, [x; y]. repeat split. Qed.
Lemma name_kept : exists l r x, intact l /\ intact r /\ option_map snd (owned l) = option_map snd (owned r) /\ state_assign l r = Done x /\ name x <> name r.
Proof. exists (ex 1 "a" [0; 0] None), (ex 2 "b" [1; 2] None). eexists. split; [apply ex_intact|]. split; [apply ex_intact|]. split; [reflexivity|]. split; [reflexivity|discriminate]. Qed.
Lemma dual_move_assign_lost : exists l r x left, intact l /\ intact r /\ option_map snd (owned l) = option_map snd (owned r) /\ dual_move_assign l r = Done (x, left) /\ data x <> data r.
Proof. exists (ex 1 "a" [0; 0] None), (ex 2 "b" [1; 2] None). eexists. eexists. split; [apply ex_intact|]. split; [apply ex_intact|]. split; [reflexivity|]. split; [reflexivity|]. cbn. intros E. injection E as E. lra. Qed.
(** a dual moved by construction keeps a form on the source's space, not its own *)
Lemma dual_form_foreign : exists a r x left, intact r /\ dual_move a r = Done (x, left) /\ exists f, form x = Some f /\ option_map fst (owned x) <> Some f /\ option_map fst (owned r) = Some f.
Proof. exists 5%nat, (ex 2 "b" [1; 2] (Some 2%nat)). eexists. eexists. split; [apply ex_intact|]. split; [reflexivity|]. exists 2%nat. cbn. repeat split; congruence. Qed.
Lemma swap_state_undef : forall x y, intact x -> intact y -> swap_state x y = Undef.
Proof. intros x y [a [s [v [E1 [E2 E3]]]]] _. unfold swap_state, state_move, vec_move. rewrite E2. reflexivity. Qed.
Lemma swap_dual_nothing : forall a x y, intact x -> intact y -> exists x' y', swap_dual a x y = Done (x', y') /\ data x' = data x /\ data y' = data y.
Proof. intros a x y [b [s [v [E1 [E2 E3]]]]] _. unfold swap_dual, dual_move, vec_copy. rewrite E1, E2. cbn. eexists. eexists. split; [reflexivity|]. cbn. auto. Qed.
Lemma vector_size : exists l v, intact l /\ ~ intact (vec_from_vector l v).
Proof.
  exists (ex 1 "a" [0; 0] None), [1; 2; 3]. split; [apply ex_intact|]. intros [a [s [v [E1 [E2 E3]]]]]. cbn in E1, E2. injection E1 as <- <-. injection E2 as <-. cbn in E3. discriminate.
Qed.
Lemma moved_from_undef l r : owned l = None -> state_assign l r = Undef.
Proof. intros E. unfold state_assign, vec_assign. rewrite E. reflexivity. Qed.

(** ** reductions over the ranks: finite_element_vector.cpp:108-150 *)
Definition rsum (l : list R) : R := fold_right Rplus 0 l.
(** one MPI_Allreduce: combine the local results *)
Definition avg (ranks : list (list R)) : R := rsum (map rsum ranks) / INR (fold_right Nat.add 0%nat (map (@length R) ranks)).
(** mfem::Vector::Max on an empty vector is minus infinity: None *)
Definition omax (a b : option R) : option R := match a, b with Some x, Some y => Some (Rmax x y) | None, y => y | x, None => x end.
Definition omin (a b : option R) : option R := match a, b with Some x, Some y => Some (Rmin x y) | None, y => y | x, None => x end.
Definition local_max (l : list R) : option R := fold_right (fun x m => omax (Some x) m) None l.
Definition local_min (l : list R) : option R := fold_right (fun x m => omin (Some x) m) None l.
Definition gmax (ranks : list (list R)) : option R := fold_right omax None (map local_max ranks).
Definition gmin (ranks : list (list R)) : option R := fold_right omin None (map local_min ranks).
Fixpoint dotp (a b : list R) : R := match a, b with x :: a', y :: b' => x * y + dotp a' b' | _, _ => 0 end.
Definition inner (r1 r2 : list (list R)) : R := rsum (map (fun p => dotp (fst p) (snd p)) (combine r1 r2)).
Lemma rsum_app a b : rsum (a ++ b) = rsum a + rsum b.
Proof. induction a as [|x a IH]; [change (rsum b = 0 + rsum b); ring|]. change (x + rsum (a ++ b) = x + rsum a + rsum b). rewrite IH. ring. Qed.
Lemma rsum_concat r : rsum (map rsum r) = rsum (concat r).
Proof. induction r as [|l r IH]; [reflexivity|]. cbn [map concat]. rewrite rsum_app, <- IH. reflexivity. Qed.
Lemma length_concat r : fold_right Nat.add 0%nat (map (@length R) r) = length (concat r).
Proof. induction r as [|l r IH]; [reflexivity|]. cbn [map concat fold_right]. rewrite app_length, IH. reflexivity. Qed.
Lemma omax_assoc a b c : omax (omax a b) c = omax a (omax b c).
Proof. destruct a, b, c; cbn; try reflexivity. f_equal. unfold Rmax. repeat destruct Rle_dec; lra. Qed.
Lemma omin_assoc a b c : omin (omin a b) c = omin a (omin b c).
Proof. destruct a, b, c; cbn; try reflexivity. f_equal. unfold Rmin. repeat destruct Rle_dec; lra. Qed.
Lemma local_max_app a b : local_max (a ++ b) = omax (local_max a) (local_max b).
Proof. induction a as [|x a IH]; [reflexivity|]. cbn [app local_max fold_right]. fold (local_max (a ++ b)). fold (local_max a). rewrite IH. symmetry. apply omax_assoc. Qed.
Lemma local_min_app a b : local_min (a ++ b) = omin (local_min a) (local_min b).
Proof. induction a as [|x a IH]; [reflexivity|]. cbn [app local_min fold_right]. fold (local_min (a ++ b)). fold (local_min a). rewrite IH. symmetry. apply omin_assoc. Qed.
Lemma gmax_concat r : gmax r = local_max (concat r).
Proof. induction r as [|l r IH]; [reflexivity|]. cbn [concat]. rewrite local_max_app, <- IH. reflexivity. Qed.
Lemma gmin_concat r : gmin r = local_min (concat r).
Proof. induction r as [|l r IH]; [reflexivity|]. cbn [concat]. rewrite local_min_app, <- IH. reflexivity. Qed.
Lemma local_max_some y l : local_max (y :: l) <> None.
Proof. change (omax (Some y) (local_max l) <> None). destruct (local_max l); discriminate. Qed.
Lemma local_max_spec l m : local_max l = Some m <-> In m l /\ forall x, In x l -> x <= m.
Proof.
  revert m. induction l as [|x l IH]; intros m; [cbn; split; [discriminate|tauto]|]. cbn [local_max fold_right]. fold (local_max l). destruct (local_max l) as [k|] eqn:E; cbn [omax].
  - destruct (proj1 (IH k) eq_refl) as [K1 K2]. split.
    + intros H. injection H as <-. split; [unfold Rmax; destruct Rle_dec; [now right|now left]|]. intros y [<-|Hy]; [apply Rmax_l|]. apply Rle_trans with k; [auto|apply Rmax_r].
    + intros [[<-|H] B]; f_equal.
      * apply Rmax_left. apply B. now right.
      * rewrite Rmax_right; [|apply Rle_trans with m; [apply B; now left|]; apply K2; exact H]. apply Rle_antisym; [apply B; now right|apply K2; exact H].
  - destruct l as [|y l]; [|destruct (local_max_some y l E)]. split.
    + intros H. injection H as <-. split; [now left|]. intros y [<-|[]]. lra.
    + intros [[<-|[]] _]. reflexivity.
Qed.
Lemma local_min_some y l : local_min (y :: l) <> None.
Proof. change (omin (Some y) (local_min l) <> None). destruct (local_min l); discriminate. Qed.
Lemma local_min_spec l m : local_min l = Some m <-> In m l /\ forall x, In x l -> m <= x.
Proof.
  revert m. induction l as [|x l IH]; intros m; [cbn; split; [discriminate|tauto]|]. cbn [local_min fold_right]. fold (local_min l). destruct (local_min l) as [k|] eqn:E; cbn [omin].
  - destruct (proj1 (IH k) eq_refl) as [K1 K2]. split.
    + intros H. injection H as <-. split; [unfold Rmin; destruct Rle_dec; [now left|now right]|]. intros y [<-|Hy]; [apply Rmin_l|]. apply Rle_trans with k; [apply Rmin_r|auto].
    + intros [[<-|H] B]; f_equal.
      * apply Rmin_left. apply B. now right.
      * rewrite Rmin_right; [|apply Rle_trans with m; [apply K2; exact H|apply B; now left]]. apply Rle_antisym; [apply K2; exact H|apply B; now right].
  - destruct l as [|y l]; [|destruct (local_min_some y l E)]. split.
    + intros H. injection H as <-. split; [now left|]. intros y [<-|[]]. lra.
    + intros [[<-|[]] _]. reflexivity.
Qed.
Lemma dotp_app : forall a b c d, length a = length b -> dotp (a ++ c) (b ++ d) = dotp a b + dotp c d.
Proof. induction a as [|x a IH]; intros [|y b] c d H; cbn [length] in H; try lia; cbn [app dotp]; [ring|]. rewrite IH by lia. ring. Qed.
Lemma inner_concat r1 : forall r2, Forall2 (fun a b : list R => length a = length b) r1 r2 -> inner r1 r2 = dotp (concat r1) (concat r2).
Proof. intros r2 H. induction H as [|a b r1 r2 E H IH]; [reflexivity|]. cbn [concat]. rewrite dotp_app by exact E. rewrite <- IH. reflexivity. Qed.
Lemma avg_concat r : avg r = fold_right Rplus 0 (concat r) / INR (length (concat r)).
Proof. unfold avg. rewrite rsum_concat, length_concat. reflexivity. Qed.
Lemma gmax_spec r m : gmax r = Some m <-> In m (concat r) /\ forall x, In x (concat r) -> x <= m.
Proof. rewrite gmax_concat. apply local_max_spec. Qed.
Lemma gmin_spec r m : gmin r = Some m <-> In m (concat r) /\ forall x, In x (concat r) -> m <= x.
Proof. rewrite gmin_concat. apply local_min_spec. Qed.

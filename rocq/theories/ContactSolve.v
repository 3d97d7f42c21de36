(** * Quasi-static solves with contact (C65): physics/solid_mechanics_contact.hpp, physics/contact/contact_data.cpp *)
From Coq Require Import Reals Lra Lia List Arith Bool.
Import ListNotations.
From Verif Require Import Sums Contact.
Local Open Scope R_scope.

(** what Tribol computes for one interaction at a displacement: the gap of each pressure dof, its (1,0) block [bm] (row: pressure dof,
    column: displacement dof) and the derivatives [dbm] of that block; forces are the transposed block times the pressures and the
    (0,0) block is the derivative of the forces at fixed pressures. Tribol itself is outside /repo *)
Record surface := { gapf : (nat -> R) -> nat -> R; bm : (nat -> R) -> nat -> nat -> R; dbm : (nat -> R) -> nat -> nat -> nat -> R }.
Fixpoint gaps_at (l : list interaction) (geo : list surface) (u : nat -> R) : list (list R) :=
  match l, geo with it :: r, s :: g => map (gapf s u) (seq 0 (length (pres it))) :: gaps_at r g u | _, _ => [] end.
(** contact_data.cpp:58-65 forces *)
Definition force_of (u : nat -> R) (p : interaction * surface) (j : nat) : R := sumn (length (pres (fst p))) (fun k => bm (snd p) u k j * nth k (pres (fst p)) 0).
Definition forces (l : list interaction) (geo : list surface) (u : nat -> R) (j : nat) : R := suml (combine l geo) (fun p => force_of u p j).

(** solid_mechanics_contact.hpp:110-123 residual_fn: [internal t u] is the residual of the solid at time t; [ess] the essential dofs.
    The result: the state of the contact data after the evaluation, the displacement block and the pressure block *)
Definition residual (internal : R -> (nat -> R) -> nat -> R) (ess : nat -> bool) (geo : list surface) (t : R) (c : contact) (u : nat -> R) (p : list R)
    : option (contact * (nat -> R) * list (option R)) :=
  match eval_contact c (gaps_at (its c) geo u) p with
  | Some c' => match merged_gaps true c' with
      | Some g => Some (c', (fun j => if ess j then 0 else internal t u j + forces (its c') geo u j), g)
      | None => None end
  | None => None
  end.

(** ** the Jacobian: contact_data.cpp:106-256 mergedJacobian and jacobianFunction, at the state left by the last evaluation *)
Definition active (it : interaction) (k : nat) : bool := negb (existsb (Nat.eqb k) (inactive it)).
(** EliminateRows(inactiveDofs) *)
Definition row (u : nat -> R) (p : interaction * surface) (k j : nat) : R := if active (fst p) k then bm (snd p) u k j else 0.
(** one interaction's part of the (0,0) block: Tribol's own block and, with penalty enforcement, penalty * B^T B *)
Definition stiff_of (u : nat -> R) (p : interaction * surface) (i j : nat) : R :=
  sumn (length (pres (fst p))) (fun k => dbm (snd p) u k i j * nth k (pres (fst p)) 0) +
  (if lm (fst p) then 0 else penalty (fst p) * sumn (length (pres (fst p))) (fun k => row u p k i * row u p k j)).
Definition stiffness (K : nat -> nat -> R) (l : list interaction) (geo : list surface) (u : nat -> R) (i j : nat) : R :=
  K i j + suml (combine l geo) (fun p => stiff_of u p i j).
(** the (1,0) block: the rows of the multiplier interactions, stacked (penalty interactions pass a null block) *)
Definition rows (l : list interaction) (geo : list surface) (u : nat -> R) : list (nat -> R) :=
  flat_map (fun p => if lm (fst p) then map (row u p) (seq 0 (length (pres (fst p)))) else []) (combine l geo).
(** the block operator applied to a correction; [m] the columns of the identity block, row by row *)
Definition J_top (n : nat) (K : nat -> nat -> R) (l : list interaction) (geo : list surface) (u : nat -> R) (du : nat -> R) (dp : list R) (i : nat) : R :=
  sumn n (fun j => stiffness K l geo u i j * du j) + suml (combine (rows l geo u) dp) (fun q => fst q i * snd q).
Definition J_bottom (n : nat) (l : list interaction) (geo : list surface) (m : nat -> list nat) (u : nat -> R) (du : nat -> R) (dp : list R) (r : nat) : R :=
  sumn n (fun j => nth r (rows l geo u) (fun _ => 0) j * du j) + suml (m r) (fun q => nth q dp 0).
(** solid_mechanics_contact.hpp:153-162: rows and columns of the essential dofs leave the (0,0) block with a one on the diagonal,
    the (1,0) block loses its columns and the (0,1) block its rows *)
Definition elim_top (n : nat) (ess : nat -> bool) (K : nat -> nat -> R) (l : list interaction) (geo : list surface) (u du : nat -> R) (dp : list R) (i : nat) : R :=
  if ess i then du i
  else sumn n (fun j => if ess j then 0 else stiffness K l geo u i j * du j) + suml (combine (rows l geo u) dp) (fun q => fst q i * snd q).
Definition elim_bottom (n : nat) (ess : nat -> bool) (l : list interaction) (geo : list surface) (m : nat -> list nat) (u du : nat -> R) (dp : list R) (r : nat) : R :=
  sumn n (fun j => if ess j then 0 else nth r (rows l geo u) (fun _ => 0) j * du j) + suml (m r) (fun q => nth q dp 0).

(** ** one step: solid_mechanics_contact.hpp:216-254 quasiStaticSolve *)
(** [ode] is ode_time_point_, initialised with the time (base_physics.cpp:64-75) *)
Record sim := { time : R; ode : R; disp : nat -> R; con : contact }.
(** the nonlinear solver stopped at (u, p): the last evaluation, made from some earlier state, left [c1] and a zero residual *)
Definition converged (internal : R -> (nat -> R) -> nat -> R) (ess : nat -> bool) (geo : list surface) (n : nat) (t : R) (c0 : contact) (u : nat -> R) (p : list R) (c1 : contact) : Prop :=
  exists r g, residual internal ess geo t c0 u p = Some (c1, r, g) /\ (forall j, (j < n)%nat -> r j = 0) /\ g = repeat (Some 0) (npd c1).
(** with multipliers; any reachable state of the contact data may precede the last evaluation *)
Definition step_multipliers internal ess geo n (s : sim) (dt : R) (s' : sim) : Prop :=
  exists c0 c1 c2 p, reachable c0 /\ length (its c0) = length geo /\ length p = npd c0 /\
    converged internal ess geo n (time s + dt) c0 (disp s') p c1 /\ set_pressures c1 p = Some c2 /\
    s' = {| time := time s + dt; ode := time s + dt; disp := disp s'; con := update_gaps c2 (gaps_at (its c2) geo (disp s')) |}.
(** without: the solid's own quasiStaticSolve (solid_mechanics.hpp:1620-1630), which does not move [ode], then update *)
Definition step_penalty internal ess geo n (s : sim) (dt : R) (s' : sim) : Prop :=
  exists c0 c1, reachable c0 /\ length (its c0) = length geo /\ npd c0 = 0%nat /\
    converged internal ess geo n (ode s) c0 (disp s') [] c1 /\
    s' = {| time := time s + dt; ode := ode s; disp := disp s'; con := update_gaps c1 (gaps_at (its c1) geo (disp s')) |}.

(** ** facts about one dof *)
Lemma gaps_fits : forall l geo u, length l = length geo -> fits l (gaps_at l geo u).
Proof. induction l as [|it l IH]; intros [|s geo] u H; cbn [gaps_at length] in *; try discriminate; constructor; [now rewrite map_length, seq_length|apply IH; lia]. Qed.
Lemma gaps_same : forall l l' geo u, Forall2 same_shape l l' -> gaps_at l' geo u = gaps_at l geo u.
Proof. intros l l' geo u H. revert geo. induction H as [|a b l l' [_ H] _ IH]; intros [|s geo]; cbn [gaps_at]; try reflexivity. now rewrite H, IH. Qed.
Lemma put_same : forall l gs, map gap l = gs -> put_gaps l gs = l.
Proof. induction l as [|it l IH]; intros gs <-; cbn [map put_gaps]; [reflexivity|]. rewrite IH by reflexivity. destruct it; reflexivity. Qed.
Lemma all_gaps : forall l gs sl, fits l gs -> Forall2 slice_shape l sl -> map gap (all l gs sl) = gs.
Proof. intros l gs sl F. revert sl. induction F as [|it g l gs H F IH]; intros sl S; inversion S as [|? s ? sr Hs Sr]; subst; cbn [all map]; [reflexivity|]. now rewrite (IH sr Sr). Qed.
Lemma geb_false a b : geb a b = false <-> a < b.
Proof. unfold geb. destruct (Rle_dec b a); split; intros; try lra; discriminate. Qed.
Lemma in_inactive it k : tied it = None -> (k < length (pres it))%nat -> existsb (Nat.eqb k) (inactive it) = (geb (nth k (pres it) 0) 0 && geb (nth k (gap it) 0) (- tol))%bool.
Proof.
  intros T Hk. apply eq_true_iff_eq. rewrite existsb_in, (inactive_spec it k T), andb_true_iff, !geb_true. unfold tol. tauto.
Qed.

(** ** contact conditions after a step *)
(** one frictionless dof: previous pressure, gap, requested pressure, the pressure the forces used and the pressure stored at the end *)
Lemma dof_conditions old g want : let p1 := pick old g want in (geb p1 0 && geb g (- tol) = true)%bool \/ g = 0 -> let p2 := pick p1 g want in - tol <= g /\ p2 <= 0 /\ p2 * g = 0.
Proof.
  intros p1 H p2. pose proof tol_pos as Tp. destruct H as [H|H].
  - apply andb_true_iff in H. destruct H as [H1 H2]. unfold p2, pick. rewrite H1, H2. apply geb_true in H2. cbn. lra.
  - subst g. assert (G : geb 0 (- tol) = true) by (apply geb_true; lra). unfold p2, pick. rewrite G, andb_true_r. split; [lra|]. destruct (geb p1 0) eqn:E; [lra|].
    apply geb_false in E. unfold p1, pick in E. rewrite G, andb_true_r in E. destruct (geb old 0); lra.
Qed.
Definition conditions (it : interaction) : Prop := lm it = true ->
  match tied it with
  | None => forall k, (k < length (pres it))%nat -> - tol <= nth k (gap it) 0 /\ nth k (pres it) 0 <= 0 /\ nth k (pres it) 0 * nth k (gap it) 0 = 0
  | Some fixed => forall k, (k < length (pres it))%nat -> if existsb (Nat.eqb k) fixed then nth k (pres it) 0 = 0 else nth k (gap it) 0 = 0
  end.
Lemma one_conditions it g s : length g = length (pres it) -> slice_shape it s ->
  (lm it = true -> Forall (fun x => x = 0) (zero_at (inactive (one it g s)) g)) -> conditions (one (one it g s) g s).
Proof.
  intros Hg Hs Z Hl. change (lm it = true) in Hl. specialize (Z Hl). pose proof (one_length it g s Hg Hs) as L1.
  assert (Hg1 : length g = length (pres (one it g s))) by congruence.
  assert (Hs1 : slice_shape (one it g s) s) by (unfold slice_shape in *; change (lm (one it g s)) with (lm it); destruct (lm it); congruence).
  pose proof (one_length _ g s Hg1 Hs1) as L2. rewrite Forall_forall in Z.
  assert (Zk : forall k, (k < length g)%nat -> if existsb (Nat.eqb k) (inactive (one it g s)) then True else nth k g 0 = 0).
  { intros k Hk. pose proof (zero_at_nth (inactive (one it g s)) g k Hk) as E. destruct (existsb (Nat.eqb k) (inactive (one it g s))); [exact Logic.I|]. rewrite <- E. apply Z, nth_In. now rewrite zero_at_length. }
  change (tied (one (one it g s) g s)) with (tied it). change (gap (one (one it g s) g s)) with g. destruct (tied it) as [fx|] eqn:T; intros k Hk; rewrite L2, L1 in Hk; specialize (Zk k ltac:(lia)).
  - assert (Ei : inactive (one it g s) = fx) by (unfold inactive; change (tied (one it g s)) with (tied it); now rewrite T). rewrite Ei in Zk. destruct (existsb (Nat.eqb k) fx) eqn:Ef; [|exact Zk].
    unfold one at 1, new_pressure. cbn [with_pressure pres]. assert (Er : inactive (regap (one it g s) g) = fx) by (unfold inactive; change (tied (regap (one it g s) g)) with (tied it); now rewrite T).
    rewrite Er. rewrite zero_at_nth, Ef; [reflexivity|]. change (lm (regap (one it g s) g)) with (lm it). rewrite Hl. unfold slice_shape in Hs. rewrite Hl in Hs. lia.
  - rewrite (one_nth (one it g s)) by (auto; lia). change (wanted (one it g s) g s) with (wanted it g s). rewrite (one_nth it) by auto. apply dof_conditions.
    rewrite in_inactive in Zk by (auto; lia). rewrite one_nth in Zk by auto. change (gap (one it g s)) with g in Zk.
    destruct (geb (pick (nth k (pres it) 0) (nth k g 0) (nth k (wanted it g s) 0)) 0 && geb (nth k g 0) (- tol))%bool; [left; reflexivity|right; exact Zk].
Qed.
Lemma all_conditions : forall l gs sl, fits l gs -> Forall2 slice_shape l sl ->
  Forall (fun x => x = 0) (flat_map (fun it => zero_at (inactive it) (gap it)) (filter lm (all l gs sl))) -> Forall conditions (all (all l gs sl) gs sl).
Proof.
  intros l gs sl F. revert sl. induction F as [|it g l gs H F IH]; intros sl S Z; inversion S as [|? s ? sr Hs Sr]; subst; cbn [all]; [constructor|]. cbn [all filter] in Z.
  constructor.
  - apply one_conditions; auto. intros Hl. change (lm (one it g s)) with (lm it) in Z. rewrite Hl in Z. cbn [flat_map] in Z. apply Forall_app in Z. exact (proj1 Z).
  - apply IH; [exact Sr|]. change (lm (one it g s)) with (lm it) in Z. destruct (lm it); [cbn [flat_map] in Z; apply Forall_app in Z; exact (proj2 Z)|exact Z].
Qed.
Lemma set_its c gs v : reachable c -> fits (its c) gs -> length v = npd c -> map gap (its c) = gs ->
  exists sl c', Forall2 slice_shape (its c) sl /\ concat sl = v /\ set_pressures c v = Some c' /\ its c' = all (its c) gs sl.
Proof.
  intros Hr F L G. destruct (split_facts c v Hr L) as [sl [c' [S1 [S2 [S3 S4]]]]].
  exists sl, c'. split; [exact S1|]. split; [exact S2|]. split; [exact S3|]. rewrite S4. clear - S1 F G. revert gs F G. induction S1 as [|it s l sl H S IH]; intros gs F G; cbn [map] in G; subst gs; cbn [combine map all]; [reflexivity|].
  inversion F; subst. f_equal. apply IH; auto.
Qed.
Theorem step_conditions internal ess geo n s dt s' : step_multipliers internal ess geo n s dt s' ->
  time s' = time s + dt /\ Forall conditions (its (con s')) /\ Forall2 (fun it g => gap it = g) (its (con s')) (gaps_at (its (con s')) geo (disp s')).
Proof.
  intros (c0 & c1 & c2 & p & Hr & Lg & Lp & (r & g & E & Z & Eg) & Es & E'). unfold residual in E. set (gs := gaps_at (its c0) geo (disp s')) in *.
  pose proof (gaps_fits (its c0) geo (disp s') Lg) as F. fold gs in F.
  destruct (eval_its c0 gs p Hr F Lp) as [sl [c1' [S [Cv [E1 [I1 [R1 N1]]]]]]]. rewrite E1 in E.
  destruct (merge_facts c1' R1) as [_ [_ [M [Hn _]]]]. rewrite M in E. injection E as -> _ E. rewrite <- E in Eg. clear E.
  destruct (put_shape _ _ _ F S) as [F1 [S1 C]].
  assert (Zs : Forall (fun x => x = 0) (flat_map (fun it => zero_at (inactive it) (gap it)) (filter lm (its c1)))).
  { apply Forall_forall. intros x Hx. assert (In (Some x) (map Some (flat_map (fun it => zero_at (inactive it) (gap it)) (filter lm (its c1))))) by (now apply in_map). unfold multiplier in Eg. rewrite Eg in H. apply repeat_spec in H. now injection H. }
  assert (G1 : map gap (its c1) = gs) by (rewrite I1; apply all_gaps; assumption).
  assert (F1' : fits (its c1) gs) by (rewrite I1; exact F1).
  destruct (set_its c1 gs p R1 F1' ltac:(congruence) G1) as [sl2 [c2' [S2 [Cv2 [Es2 I2]]]]]. rewrite Es in Es2. injection Es2 as <-.
  assert (sl2 = sl) by (apply (slices_unique (its c1)); [exact S2|rewrite I1; exact S1|congruence]). subst sl2.
  destruct (put_shape _ _ _ F1' S2) as [F2 [S3 C2]]. rewrite <- I2 in F2, S3, C2.
  assert (G2 : map gap (its c2) = gs) by (rewrite I2; apply all_gaps; assumption).
  assert (Gg : gaps_at (its c2) geo (disp s') = gs).
  { rewrite (gaps_same (its c1) (its c2)) by exact C2. rewrite (gaps_same (its c0) (its c1)) by (rewrite I1; exact C). reflexivity. }
  rewrite E'. cbn [time con disp]. split; [reflexivity|]. cbn [update_gaps its]. rewrite Gg, (put_same _ _ G2), Gg. split.
  - rewrite I2, I1. apply all_conditions; [assumption|assumption|]. rewrite <- I1. exact Zs.
  - rewrite <- G2. clear. induction (its c2); constructor; auto.
Qed.

(** ** balance after a step, when the converged evaluation pulled nowhere *)
Definition no_pull (it : interaction) : Prop := lm it = true -> Forall (fun x => x <= 0) (pres it).
Lemma one_again it g s : length g = length (pres it) -> slice_shape it s -> lm it = true -> Forall (fun x => x <= 0) (pres (one it g s)) -> pres (one (one it g s) g s) = pres (one it g s).
Proof.
  intros Hg Hs Hl N. pose proof (one_length it g s Hg Hs) as L1.
  assert (Hg1 : length g = length (pres (one it g s))) by congruence.
  assert (Hs1 : slice_shape (one it g s) s) by (unfold slice_shape in *; change (lm (one it g s)) with (lm it); destruct (lm it); congruence).
  destruct (tied it) as [t|] eqn:T; [unfold one, new_pressure, inactive; cbn [with_pressure regap tied lm gap penalty pres]; rewrite T; reflexivity|].
  apply nth_eq; [exact (one_length _ g s Hg1 Hs1)|]. intros k Hk. rewrite (one_length _ g s Hg1 Hs1), L1 in Hk. rewrite (one_nth (one it g s)) by (auto; lia).
  change (wanted (one it g s) g s) with (wanted it g s). assert (Np : nth k (pres (one it g s)) 0 <= 0) by (rewrite Forall_forall in N; apply N, nth_In; lia).
  rewrite one_nth in Np |- * by auto. set (w := nth k (wanted it g s) 0) in *. set (o := nth k (pres it) 0) in *. set (y := nth k g 0) in *. unfold pick in *.
  destruct (geb y (- tol)); rewrite ?andb_true_r, ?andb_false_r in *; [|reflexivity]. destruct (geb o 0) eqn:Eo; rewrite ?andb_true_r in *.
  - assert (geb 0 0 = true) as -> by (apply geb_true; lra). reflexivity.
  - destruct (geb w 0) eqn:Ew; [apply geb_true in Ew; lra|reflexivity].
Qed.
Lemma all_again : forall l gs sl, fits l gs -> Forall2 slice_shape l sl -> Forall (fun it => lm it = true) l -> Forall no_pull (all l gs sl) -> map pres (all (all l gs sl) gs sl) = map pres (all l gs sl).
Proof.
  intros l gs sl F. revert sl. induction F as [|it g l gs H F IH]; intros sl S A N; inversion S as [|? s ? sr Hs Sr]; subst; cbn [all map]; [reflexivity|]. cbn [all] in N.
  inversion A as [|? ? A1 A2]; subst. inversion N as [|? ? N1 N2]; subst. rewrite (IH sr Sr A2 N2), one_again by auto. reflexivity.
Qed.
Lemma forces_pres : forall l l' geo u j, map pres l = map pres l' -> forces l geo u j = forces l' geo u j.
Proof.
  unfold forces. induction l as [|a l IH]; intros [|b l'] geo u j H; cbn [map] in H; try discriminate; [reflexivity|]. destruct geo as [|s geo]; [reflexivity|]. injection H as H1 H2. cbn [combine suml]. rewrite (IH l' geo u j H2).
  unfold force_of. cbn [fst snd]. now rewrite H1.
Qed.
(** [pulls] is what the converged evaluation used *)
Definition step_from internal ess geo n (s : sim) (dt : R) (c1 : contact) (s' : sim) : Prop :=
  exists c0 c2 p, reachable c0 /\ length (its c0) = length geo /\ length p = npd c0 /\
    converged internal ess geo n (time s + dt) c0 (disp s') p c1 /\ set_pressures c1 p = Some c2 /\
    s' = {| time := time s + dt; ode := time s + dt; disp := disp s'; con := update_gaps c2 (gaps_at (its c2) geo (disp s')) |}.
Lemma step_split internal ess geo n s dt s' : step_multipliers internal ess geo n s dt s' <-> exists c1, step_from internal ess geo n s dt c1 s'.
Proof. split; [intros (c0 & c1 & c2 & p & H); exists c1, c0, c2, p; exact H|intros (c1 & c0 & c2 & p & H); exists c0, c1, c2, p; exact H]. Qed.
Theorem step_balance internal ess geo n s dt c1 s' : step_from internal ess geo n s dt c1 s' -> Forall (fun it => lm it = true) (its c1) -> Forall no_pull (its c1) ->
  forall j, (j < n)%nat -> ess j = false -> internal (time s') (disp s') j + forces (its (con s')) geo (disp s') j = 0.
Proof.
  intros (c0 & c2 & p & Hr & Lg & Lp & (r & g & E & Z & Eg) & Es & E') A N j Hj He. unfold residual in E. set (gs := gaps_at (its c0) geo (disp s')) in *.
  pose proof (gaps_fits (its c0) geo (disp s') Lg) as F. fold gs in F.
  destruct (eval_its c0 gs p Hr F Lp) as [sl [c1' [S [Cv [E1 [I1 [R1 N1]]]]]]]. rewrite E1 in E.
  destruct (merge_facts c1' R1) as [_ [_ [M [Hn _]]]]. rewrite M in E. injection E as -> Er E. specialize (Z j Hj). rewrite <- Er, He in Z.
  destruct (put_shape _ _ _ F S) as [F1 [S1 C]].
  assert (G1 : map gap (its c1) = gs) by (rewrite I1; apply all_gaps; assumption).
  assert (F1' : fits (its c1) gs) by (rewrite I1; exact F1).
  destruct (set_its c1 gs p R1 F1' ltac:(congruence) G1) as [sl2 [c2' [S2 [Cv2 [Es2 I2]]]]]. rewrite Es in Es2. injection Es2 as <-.
  assert (sl2 = sl) by (apply (slices_unique (its c1)); [exact S2|rewrite I1; exact S1|congruence]). subst sl2.
  destruct (put_shape _ _ _ F1' S2) as [F2 [S3 C2]]. rewrite <- I2 in F2, S3, C2.
  assert (G2 : map gap (its c2) = gs) by (rewrite I2; apply all_gaps; assumption).
  assert (Gg : gaps_at (its c2) geo (disp s') = gs).
  { rewrite (gaps_same (its c1) (its c2)) by exact C2. rewrite (gaps_same (its c0) (its c1)) by (rewrite I1; exact C). reflexivity. }
  assert (A0 : Forall (fun it => lm it = true) (its c0)).
  { rewrite I1 in A. clear - A C. induction C as [|a b l l' [H _] _ IH]; [constructor|]. inversion A; subst. constructor; [congruence|auto]. }
  assert (P : map pres (its c2) = map pres (its c1)).
  { rewrite I2, I1. apply all_again; auto. rewrite <- I1. exact N. }
  rewrite E'. cbn [time con disp update_gaps its]. rewrite Gg, (put_same _ _ G2). rewrite (forces_pres _ _ geo (disp s') j P). exact Z.
Qed.

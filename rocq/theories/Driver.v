(** * The driver's time loop (/repo/src/drivers/serac.cpp)

    Simplifications: [double] is [R]; what a physics step computes is an arbitrary function of the
    bookkeeping state and the step ([solve]); the state file of a cycle is the whole bookkeeping state. *)
From Coq Require Import String List ZArith Reals Lra Lia Bool.
From Verif Require Import Prelude Ledger.
Import ListNotations.
Open Scope R_scope.

(** ** The steps the loop takes *)

(** drivers/serac.cpp:391-420, the times only: one pass per unit of fuel, [None] when the fuel runs out.
    The list holds dt_real of each pass. *)
Fixpoint drive (fuel : nat) (t_final dt t : R) : option (list R) :=
  match fuel with
  | O => None
  | S k =>
      let dt_real := Rmin dt (t_final - t) in
      let t' := t + dt_real in
      if Rle_dec (t_final - / 10 ^ 8 * dt) t' then Some [dt_real]
      else option_map (cons dt_real) (drive k t_final dt t')
  end.

(** ** The loop around a physics module *)
Section Loop.
Variable V : Type.
Local Notation fields := (string -> V).

(** drivers/serac.cpp:391-420: each pass advances the module (line 407), saves its state under the module's own
    time and cycle (line 410, base_physics.cpp:181-214) and appends the driver's t to the summary (line 413).
    [files] is indexed by cycle; the result is (summary times, files, final module state). *)
Fixpoint main_loop (fuel : nat) (cfg : config) (solve : ledger V -> R -> fields) (t_final dt t : R) (s : ledger V)
  (files : Z -> option (ledger V)) : option (list R * (Z -> option (ledger V)) * ledger V) :=
  match fuel with
  | O => None
  | S k =>
      let dt_real := Rmin dt (t_final - t) in
      let t' := t + dt_real in
      let s' := advance V cfg dt_real (solve s dt_real) s in
      let files' := fun c => if (c =? l_cycle V s')%Z then Some s' else files c in
      if Rle_dec (t_final - / 10 ^ 8 * dt) t' then Some ([t'], files', s')
      else match main_loop k cfg solve t_final dt t' s' files' with
           | Some (ts, f, z) => Some (t' :: ts, f, z)
           | None => None
           end
  end.

(** Driver times are the running sums of the steps. *)
Fixpoint times (t : R) (steps : list R) : list R :=
  match steps with [] => [] | h :: r => (t + h) :: times (t + h) r end.

Lemma times_nth steps : forall t k, (k < length steps)%nat ->
  nth_error (times t steps) k = Some (t + Rsum (firstn (S k) steps)).
Proof.
  induction steps as [|h r IH]; intros t k Hk; cbn [length] in Hk; [lia|].
  destruct k as [|k]; cbn [times nth_error].
  - cbn. f_equal. unfold Rsum; simpl. lra.
  - rewrite IH by lia. f_equal. cbn [firstn]. unfold Rsum. cbn [fold_right]. lra.
Qed.

Lemma main_loop_times cfg solve t_final dt : forall fuel t s files,
  match main_loop fuel cfg solve t_final dt t s files, drive fuel t_final dt t with
  | Some (ts, _, _), Some steps => ts = times t steps
  | None, None => True
  | _, _ => False
  end.
Proof.
  induction fuel as [|k IH]; intros t s files; [exact Logic.I|]. cbn [main_loop drive].
  destruct (Rle_dec _ _); [reflexivity|].
  match goal with |- context [main_loop k cfg solve t_final dt ?t' ?s' ?f'] => specialize (IH t' s' f');
    destruct (main_loop k cfg solve t_final dt t' s' f') as [[[ts f] z]|]; destruct (drive k t_final dt t') as [l|] end;
  cbn [option_map]; try contradiction; auto. cbn [times]. now rewrite IH.
Qed.

(** Bookkeeping state after the first [k] steps, independently of the loop. *)
Fixpoint after (cfg : config) (solve : ledger V -> R -> fields) (s : ledger V) (steps : list R) : ledger V :=
  match steps with [] => s | h :: r => after cfg solve (advance V cfg h (solve s h) s) r end.

Lemma after_cycle cfg solve steps : forall s, l_cycle V (after cfg solve s steps) = (l_cycle V s + Z.of_nat (length steps))%Z.
Proof.
  induction steps as [|h r IH]; intros s; [simpl; lia|]. cbn [after length]. rewrite IH.
  unfold advance at 1; cbn [l_cycle]. lia.
Qed.

Lemma after_time cfg solve steps : (forall t dt, stage_time cfg t dt = t + dt) ->
  forall s, l_time V (after cfg solve s steps) = l_time V s + Rsum steps.
Proof.
  intros Hst. induction steps as [|h r IH]; intros s; [unfold Rsum; simpl; lra|].
  cbn [after]. rewrite IH. unfold advance at 1; cbn [l_time]. rewrite Hst. unfold Rsum. cbn [fold_right]. lra.
Qed.

Lemma main_loop_files cfg solve t_final dt : forall fuel t s files ts f z steps,
  main_loop fuel cfg solve t_final dt t s files = Some (ts, f, z) -> drive fuel t_final dt t = Some steps ->
  z = after cfg solve s steps /\
  (forall k, (1 <= k <= length steps)%nat -> f (l_cycle V s + Z.of_nat k)%Z = Some (after cfg solve s (firstn k steps))) /\
  (forall c, (c <= l_cycle V s \/ l_cycle V s + Z.of_nat (length steps) < c)%Z -> f c = files c).
Proof.
  induction fuel as [|n IH]; intros t s files ts f z steps E D; [discriminate|].
  cbn [main_loop drive] in E, D. set (h := Rmin dt (t_final - t)) in *.
  set (s' := advance V cfg h (solve s h) s) in *.
  assert (Hc : l_cycle V s' = (l_cycle V s + 1)%Z) by reflexivity.
  destruct (Rle_dec _ _) as [Hle|Hgt].
  - injection E as <- <- <-. injection D as <-. split; [reflexivity|]. split.
    + intros k Hk. cbn [length] in Hk. assert (k = 1%nat) by lia. subst k. cbv beta. try rewrite Hc.
      replace (l_cycle V s + Z.of_nat 1)%Z with (l_cycle V s + 1)%Z by lia. rewrite Z.eqb_refl. reflexivity.
    + intros c Hcc. cbn [length] in Hcc. cbv beta. try rewrite Hc. destruct (Z.eqb_spec c (l_cycle V s + 1)); [lia|reflexivity].
  - match type of E with context [main_loop n cfg solve t_final dt ?t' ?s2 ?f2] =>
      destruct (main_loop n cfg solve t_final dt t' s2 f2) as [[[ts1 f1] z1]|] eqn:E1 end; [|discriminate].
    injection E as <- <- <-.
    destruct (drive n t_final dt (t + h)) as [st|] eqn:D1; [|discriminate]. injection D as <-.
    destruct (IH _ _ _ _ _ _ _ E1 D1) as (A & B & C). split; [exact A|]. split.
    + intros k Hk. destruct k as [|k]; [lia|]. cbn [length] in Hk. cbn [firstn after]. fold s'.
      destruct k as [|k].
      * rewrite C by lia. cbv beta. try rewrite Hc.
        replace (l_cycle V s + Z.of_nat 1)%Z with (l_cycle V s + 1)%Z by lia. now rewrite Z.eqb_refl.
      * rewrite <- B by lia. f_equal. lia.
    + intros c Hcc. cbn [length] in Hcc. rewrite C by lia. cbv beta. try rewrite Hc.
      destruct (Z.eqb_spec c (l_cycle V s + 1)); [lia|reflexivity].
Qed.

End Loop.

(** ** Facts about the steps *)
Lemma small_pos : 0 < / 10 ^ 8 < 1.
Proof. split; [apply Rinv_0_lt_compat; lra|]. rewrite <- Rinv_1. apply Rinv_lt_contravar; lra. Qed.

Lemma Rsum_nonneg l : (forall h, In h l -> 0 <= h) -> 0 <= Rsum l.
Proof.
  induction l as [|a l IH]; intros H; [unfold Rsum; simpl; lra|]. unfold Rsum in *; cbn [fold_right].
  assert (0 <= a) by (apply H; now left). assert (0 <= fold_right Rplus 0 l) by (apply IH; intros; apply H; now right). lra.
Qed.

(** One pass from a time before the end. *)
Lemma drive_step k tf dt t : 0 < dt -> t < tf ->
  (tf - t <= dt /\ drive (S k) tf dt t = Some [tf - t]) \/
  (dt < tf - t /\ tf - / 10 ^ 8 * dt <= t + dt /\ drive (S k) tf dt t = Some [dt]) \/
  (dt < tf - t /\ t + dt < tf - / 10 ^ 8 * dt /\ drive (S k) tf dt t = option_map (cons dt) (drive k tf dt (t + dt))).
Proof.
  intros Hdt Ht. cbn [drive]. pose proof small_pos as [P _].
  destruct (Rle_lt_dec (tf - t) dt) as [H|H].
  - left. split; [exact H|]. rewrite Rmin_right by lra. destruct (Rle_dec _ _) as [_|N]; [reflexivity|].
    exfalso; apply N. assert (0 < / 10 ^ 8 * dt) by now apply Rmult_lt_0_compat. lra.
  - right. rewrite Rmin_left by lra. destruct (Rle_dec _ _) as [L|N].
    + left. auto.
    + right. repeat split; auto. lra.
Qed.

Lemma drive_more : forall k tf dt t l, drive k tf dt t = Some l -> forall k', (k <= k')%nat -> drive k' tf dt t = Some l.
Proof.
  induction k as [|k IH]; intros tf dt t l E k' Hk; [discriminate|].
  destruct k' as [|k']; [lia|]. cbn [drive] in *. destruct (Rle_dec _ _); [exact E|].
  destruct (drive k tf dt _) as [l'|] eqn:E'; [|discriminate].
  rewrite (IH _ _ _ _ E' k') by lia. exact E.
Qed.

(** Enough passes. *)
Lemma drive_total tf dt : 0 < dt -> forall n t, t < tf -> tf - t <= INR n * dt -> exists l, drive n tf dt t = Some l.
Proof.
  intros Hdt. induction n as [|n IH]; intros t Ht Hn.
  - simpl in Hn. lra.
  - destruct (drive_step n tf dt t Hdt Ht) as [(_ & E)|[(_ & _ & E)|(H1 & H2 & E)]]; rewrite E; eauto.
    rewrite S_INR in Hn. destruct (IH (t + dt)) as [l El]; [lra|lra|]. rewrite El. simpl. eauto.
Qed.

Lemma drive_terminates tf dt t : 0 < dt -> t < tf -> exists n l, drive n tf dt t = Some l.
Proof.
  intros Hdt Ht. exists (Z.to_nat (up ((tf - t) / dt))).
  apply drive_total; auto.
  assert (0 < (tf - t) / dt) by (apply Rdiv_lt_0_compat; lra).
  destruct (archimed ((tf - t) / dt)) as [A _].
  assert (0 < up ((tf - t) / dt))%Z by (apply lt_IZR; simpl; lra).
  rewrite INR_IZR_INZ, Z2Nat.id by lia.
  replace (tf - t) with ((tf - t) / dt * dt) at 1 by (field; lra). apply Rmult_le_compat_r; lra.
Qed.

(** The shape of every run: full steps, then a positive last one of at most dt; the end is t_final, or all steps are
    full and the end misses t_final by at most 1e-8 dt. *)
Lemma drive_shape tf dt : 0 < dt -> forall n t l, t < tf -> drive n tf dt t = Some l ->
  exists m last, l = repeat dt m ++ [last] /\ 0 < last <= dt /\
    ((t + Rsum l = tf) \/ (last = dt /\ tf - / 10 ^ 8 * dt <= t + Rsum l < tf)).
Proof.
  intros Hdt. induction n as [|n IH]; intros t l Ht E; [discriminate|].
  destruct (drive_step n tf dt t Hdt Ht) as [(H & E')|[(H & H2 & E')|(H & H2 & E')]]; rewrite E' in E.
  - injection E as <-. exists 0%nat, (tf - t). split; [reflexivity|]. split; [lra|]. left. unfold Rsum; simpl; lra.
  - injection E as <-. exists 0%nat, dt. split; [reflexivity|]. split; [lra|]. right. unfold Rsum; simpl; lra.
  - destruct (drive n tf dt (t + dt)) as [l'|] eqn:El; [|discriminate]. injection E as <-.
    destruct small_pos. assert (Hs : 0 < / 10 ^ 8 * dt) by (now apply Rmult_lt_0_compat). assert (H3 : t + dt < tf) by lra.
    destruct (IH _ _ H3 El) as (m & last & -> & Hl & Hend). exists (S m), last.
    split; [reflexivity|]. split; [exact Hl|]. unfold Rsum in *. cbn [fold_right].
    destruct Hend as [e|[e1 e2]]; [left; lra|right; lra].
Qed.

Lemma Rsum_firstn_le l : (forall h, In h l -> 0 <= h) -> forall k, Rsum (firstn k l) <= Rsum l.
Proof.
  induction l as [|a l IH]; intros H k.
  - rewrite firstn_nil. lra.
  - assert (Ha : 0 <= a) by (apply H; now left).
    assert (Hl : forall h, In h l -> 0 <= h) by (intros; apply H; now right).
    destruct k as [|k].
    + change (firstn 0 (a :: l)) with (@nil R). unfold Rsum at 1; cbn [fold_right].
      pose proof (Rsum_nonneg (a :: l) H). lra.
    + cbn [firstn]. specialize (IH Hl k). unfold Rsum in *; cbn [fold_right]. lra.
Qed.

(** Every time visited is at most t_final, and times increase strictly. *)
Lemma drive_times tf dt t n l : 0 < dt -> t < tf -> drive n tf dt t = Some l ->
  (forall h, In h l -> 0 < h <= dt) /\ forall k, t + Rsum (firstn k l) <= tf.
Proof.
  intros Hdt Ht E. destruct (drive_shape tf dt Hdt n t l Ht E) as (m & last & El & Hl & Hend).
  assert (A : forall h, In h l -> 0 < h <= dt).
  { intros h Hh. rewrite El in Hh. apply in_app_or in Hh as [Hh|[<-|[]]]; [|exact Hl].
    apply repeat_spec in Hh. lra. }
  split; [exact A|]. intros k.
  assert (Rsum (firstn k l) <= Rsum l) by (apply Rsum_firstn_le; intros; apply Rlt_le, A; assumption).
  destruct Hend as [e|[_ e]]; lra.
Qed.

Lemma Rsum_repeat dt m : Rsum (repeat dt m) = INR m * dt.
Proof.
  induction m as [|m IH]; [unfold Rsum; simpl; lra|]. rewrite S_INR. unfold Rsum in *. cbn [repeat fold_right]. lra.
Qed.

Lemma Rsum_app l l' : Rsum (l ++ l') = Rsum l + Rsum l'.
Proof. induction l as [|a l IH]; unfold Rsum in *; cbn [app fold_right]; lra. Qed.

(** How many steps. *)
Lemma drive_count tf dt t n l : 0 < dt -> t < tf -> drive n tf dt t = Some l ->
  (INR (length l) - 1) * dt < tf - t <= INR (length l) * dt + / 10 ^ 8 * dt.
Proof.
  intros Hdt Ht E. destruct (drive_shape tf dt Hdt n t l Ht E) as (m & last & El & Hl & Hend).
  destruct small_pos. assert (Hs : 0 < / 10 ^ 8 * dt) by (now apply Rmult_lt_0_compat).
  subst l. rewrite Rsum_app, Rsum_repeat in Hend. rewrite app_length, repeat_length, plus_INR. cbn [length INR].
  unfold Rsum in Hend; cbn [fold_right] in Hend. destruct Hend as [e|[e1 e2]]; lra.
Qed.

(** Restarting from any cycle before the last repeats exactly the remaining steps. *)
Lemma drive_restart tf dt : 0 < dt -> forall n t l k, t < tf -> drive n tf dt t = Some l -> (k < length l)%nat ->
  drive n tf dt (t + Rsum (firstn k l)) = Some (skipn k l).
Proof.
  intros Hdt. induction n as [|n IH]; intros t l k Ht E Hk; [discriminate|].
  destruct k as [|k].
  - cbn [firstn skipn]. unfold Rsum; cbn [fold_right]. rewrite Rplus_0_r. exact E.
  - destruct (drive_step n tf dt t Hdt Ht) as [(H & E')|[(H & H2 & E')|(H & H2 & E')]]; rewrite E' in E.
    + injection E as <-. cbn [length] in Hk. lia.
    + injection E as <-. cbn [length] in Hk. lia.
    + destruct (drive n tf dt (t + dt)) as [l'|] eqn:El; [|discriminate]. injection E as <-.
      cbn [length] in Hk. cbn [firstn skipn].
      assert (t + dt < tf).
      { destruct small_pos. assert (0 < / 10 ^ 8 * dt) by now apply Rmult_lt_0_compat. lra. }
      specialize (IH (t + dt) l' k H0 El ltac:(lia)).
      replace (t + Rsum (dt :: firstn k l')) with (t + dt + Rsum (firstn k l')) by (unfold Rsum; cbn [fold_right]; lra).
      apply (drive_more n); [exact IH|lia].
Qed.

(** The whole program: the physics module's own clock, cycles and state files agree with the driver. *)
Lemma driver_run V cfg (solve : ledger V -> R -> string -> V) tf dt c t f files :
  good_config cfg -> 0 < dt -> t < tf ->
  exists n steps ts disk z, drive n tf dt t = Some steps /\
    main_loop V n cfg solve tf dt t (reset V cfg c t f) files = Some (ts, disk, z) /\
    length ts = length steps /\ l_cycle V z = (c + Z.of_nat (length steps))%Z /\
    (forall k, (1 <= k <= length steps)%nat ->
      nth_error ts (k - 1) = Some (t + Rsum (firstn k steps)) /\
      exists s, disk (c + Z.of_nat k)%Z = Some s /\ l_time V s = t + Rsum (firstn k steps) /\ l_cycle V s = (c + Z.of_nat k)%Z) /\
    (forall c', (c' <= c)%Z -> disk c' = files c').
Proof.
  intros [_ Hst] Hdt Ht. destruct (drive_terminates tf dt t Hdt Ht) as (n & steps & D).
  pose proof (main_loop_times V cfg solve tf dt n t (reset V cfg c t f) files) as T.
  destruct (main_loop V n cfg solve tf dt t (reset V cfg c t f) files) as [[[ts disk] z]|] eqn:E; rewrite D in T; [|contradiction].
  destruct (main_loop_files V cfg solve tf dt n _ _ _ _ _ _ _ E D) as (A & B & C).
  exists n, steps, ts, disk, z. split; [exact D|]. split; [exact E|].
  assert (L : length ts = length steps).
  { rewrite T. clear. revert t. induction steps as [|h r IH]; intros t; cbn [times length]; [reflexivity|]. now rewrite IH. }
  split; [exact L|]. split; [rewrite A, after_cycle; reflexivity|]. split.
  - intros k Hk. split.
    + rewrite T, times_nth by lia. now replace (S (k - 1)) with k by lia.
    + exists (after V cfg solve (reset V cfg c t f) (firstn k steps)). split; [apply B; lia|].
      split; [now rewrite after_time|]. rewrite after_cycle. cbn [l_cycle reset]. rewrite firstn_length_le by lia. reflexivity.
  - intros c' Hc'. apply C. left. exact Hc'.
Qed.

(** ** What the input does not rule out *)
Lemma drive_never tf dt : dt <= 0 -> forall n t, t < tf -> drive n tf dt t = None.
Proof.
  intros Hdt. pose proof small_pos as [P _]. induction n as [|n IH]; intros t Ht; [reflexivity|]. cbn [drive].
  rewrite Rmin_left by lra. destruct (Rle_dec _ _) as [L|N].
  - exfalso. assert (/ 10 ^ 8 * dt <= 0) by (rewrite <- (Rmult_0_r (/ 10 ^ 8)); apply Rmult_le_compat_l; lra). lra.
  - rewrite IH by lra. reflexivity.
Qed.

Lemma drive_past tf dt t n : 0 < dt -> tf <= t -> drive (S n) tf dt t = Some [tf - t].
Proof.
  intros Hdt Ht. cbn [drive]. pose proof small_pos as [P _]. rewrite Rmin_right by lra.
  destruct (Rle_dec _ _) as [_|N]; [reflexivity|]. exfalso; apply N.
  assert (0 < / 10 ^ 8 * dt) by now apply Rmult_lt_0_compat. lra.
Qed.

(** ** Which module is created *)
Inductive module_kind := Thermal | Solid | ThermoSolid.

(** The blocks of the input file: the order given in each block that is present (for thermal_solid: solid order,
    thermal order). *)
Record blocks := { b_solid : option Z; b_heat : option Z; b_thermosolid : option (Z * Z) }.

(** getOrder (drivers/serac.cpp:209-236). *)
Definition get_order (b : blocks) : outcome Z :=
  let check o := if (o <? 1)%Z || (3 <? o)%Z then Refused else Ok o in
  match b_thermosolid b, b_solid b, b_heat b with
  | Some (o, o'), _, _ => if (o =? o')%Z then check o else Refused
  | None, Some o, Some o' => if (o =? o')%Z then check o else Refused
  | None, Some o, None => check o
  | None, None, Some o => check o
  | None, None, None => Refused
  end.

(** createPhysics (drivers/serac.cpp:89-198): a null pointer when no branch matches. *)
Definition create (dim order : Z) (b : blocks) : outcome (option (module_kind * Z * Z)) :=
  let pick k := if ((order =? 1) || (order =? 2) || (order =? 3))%Z then
                  if ((dim =? 2) || (dim =? 3))%Z then Some (k, order, dim) else None else None in
  match b_thermosolid b, b_solid b, b_heat b with
  | Some _, _, _ => Ok (pick ThermoSolid)
  | None, Some _, Some _ => Ok (pick ThermoSolid)
  | None, Some _, None => Ok (pick Solid)
  | None, None, Some _ => Ok (pick Thermal)
  | None, None, None => Refused
  end.

(** drivers/serac.cpp:377-387: dimension check, order, creation, then use of the pointer (line 387). *)
Definition setup (dim : Z) (b : blocks) : outcome (module_kind * Z * Z) :=
  if ((dim <? 2) || (3 <? dim))%Z then Refused else
  bindO (get_order b) (fun order => bindO (create dim order b) (fun p => match p with Some m => Ok m | None => UB end)).

(** What the input asks for: the orders of all blocks that matter, and the module. *)
Definition wanted (b : blocks) : option (module_kind * list Z) :=
  match b_thermosolid b, b_solid b, b_heat b with
  | Some (o, o'), _, _ => Some (ThermoSolid, [o; o'])
  | None, Some o, Some o' => Some (ThermoSolid, [o; o'])
  | None, Some o, None => Some (Solid, [o])
  | None, None, Some o => Some (Thermal, [o])
  | None, None, None => None
  end.

Lemma setup_spec dim b k o d :
  setup dim b = Ok (k, o, d) <->
  d = dim /\ (2 <= dim <= 3)%Z /\ (1 <= o <= 3)%Z /\ exists os, wanted b = Some (k, os) /\ forall x, In x os -> x = o.
Proof.
  unfold setup, get_order, create, wanted. destruct b as [bs bh bt]; cbn [b_solid b_heat b_thermosolid].
  destruct (Z.ltb_spec dim 2), (Z.ltb_spec 3 dim); cbn [orb]; try lia.
  1-2: split; [discriminate|lia].
  assert (Hd : ((dim =? 2) || (dim =? 3))%Z = true).
  { destruct (Z.eqb_spec dim 2), (Z.eqb_spec dim 3); cbn; auto; lia. }
  rewrite Hd.
  assert (Ho : forall n, (1 <= n <= 3)%Z -> ((n =? 1) || (n =? 2) || (n =? 3))%Z = true).
  { intros n Hn. destruct (Z.eqb_spec n 1), (Z.eqb_spec n 2), (Z.eqb_spec n 3); cbn; auto; lia. }
  destruct bt as [[p q]|].
  - destruct (Z.eqb_spec p q) as [->|N].
    + destruct (Z.ltb_spec q 1), (Z.ltb_spec 3 q); cbn [orb bindO]; try lia.
      1-2: split; [discriminate|]; intros (_ & _ & B & os & E & A); injection E as <- <-; specialize (A q (or_introl eq_refl)); lia.
      rewrite Ho by lia. cbn [bindO]. split.
      * intros E. injection E as <- <- <-. repeat split; try lia. exists [q; q]. split; [reflexivity|].
        intros x [<-|[<-|[]]]; reflexivity.
      * intros (-> & _ & B & os & E & A). injection E as <- <-. now rewrite <- (A q (or_introl eq_refl)).
    + cbn [bindO]. split; [discriminate|]. intros (_ & _ & B & os & E & A). injection E as <- <-.
      exfalso; apply N. rewrite (A p (or_introl eq_refl)), (A q (or_intror (or_introl eq_refl))). reflexivity.
  - destruct bs as [p|], bh as [q|].
    + destruct (Z.eqb_spec p q) as [->|N].
      * destruct (Z.ltb_spec q 1), (Z.ltb_spec 3 q); cbn [orb bindO]; try lia.
        1-2: split; [discriminate|]; intros (_ & _ & B & os & E & A); injection E as <- <-; specialize (A q (or_introl eq_refl)); lia.
        rewrite Ho by lia. cbn [bindO]. split.
        -- intros E. injection E as <- <- <-. repeat split; try lia. exists [q; q]. split; [reflexivity|].
           intros x [<-|[<-|[]]]; reflexivity.
        -- intros (-> & _ & B & os & E & A). injection E as <- <-. now rewrite <- (A q (or_introl eq_refl)).
      * cbn [bindO]. split; [discriminate|]. intros (_ & _ & B & os & E & A). injection E as <- <-.
        exfalso; apply N. rewrite (A p (or_introl eq_refl)), (A q (or_intror (or_introl eq_refl))). reflexivity.
    + destruct (Z.ltb_spec p 1), (Z.ltb_spec 3 p); cbn [orb bindO]; try lia.
      1-2: split; [discriminate|]; intros (_ & _ & B & os & E & A); injection E as <- <-; specialize (A p (or_introl eq_refl)); lia.
      rewrite Ho by lia. cbn [bindO]. split.
      * intros E. injection E as <- <- <-. repeat split; try lia. exists [p]. split; [reflexivity|]. intros x [<-|[]]; reflexivity.
      * intros (-> & _ & B & os & E & A). injection E as <- <-. now rewrite <- (A p (or_introl eq_refl)).
    + destruct (Z.ltb_spec q 1), (Z.ltb_spec 3 q); cbn [orb bindO]; try lia.
      1-2: split; [discriminate|]; intros (_ & _ & B & os & E & A); injection E as <- <-; specialize (A q (or_introl eq_refl)); lia.
      rewrite Ho by lia. cbn [bindO]. split.
      * intros E. injection E as <- <- <-. repeat split; try lia. exists [q]. split; [reflexivity|]. intros x [<-|[]]; reflexivity.
      * intros (-> & _ & B & os & E & A). injection E as <- <-. now rewrite <- (A q (or_introl eq_refl)).
    + cbn [bindO]. split; [discriminate|]. intros (_ & _ & _ & os & E & _). discriminate.
Qed.

Lemma setup_no_ub dim b : setup dim b <> UB.
Proof.
  unfold setup, get_order, create. destruct b as [bs bh bt]; cbn [b_solid b_heat b_thermosolid].
  destruct (Z.ltb_spec dim 2), (Z.ltb_spec 3 dim); cbn [orb]; try discriminate.
  assert (Hd : ((dim =? 2) || (dim =? 3))%Z = true).
  { destruct (Z.eqb_spec dim 2), (Z.eqb_spec dim 3); cbn; auto; lia. }
  rewrite Hd.
  assert (Ho : forall n, (1 <= n <= 3)%Z -> ((n =? 1) || (n =? 2) || (n =? 3))%Z = true).
  { intros n Hn. destruct (Z.eqb_spec n 1), (Z.eqb_spec n 2), (Z.eqb_spec n 3); cbn; auto; lia. }
  destruct bt as [[p q]|]; [|destruct bs as [p|], bh as [q|]];
  try (destruct (Z.eqb_spec p q) as [->|N]; [|discriminate]);
  try (destruct (Z.ltb_spec p 1), (Z.ltb_spec 3 p); cbn [orb bindO]; try discriminate; rewrite Ho by lia; discriminate);
  try (destruct (Z.ltb_spec q 1), (Z.ltb_spec 3 q); cbn [orb bindO]; try discriminate; rewrite Ho by lia; discriminate).
  discriminate.
Qed.

Lemma three_steps : drive 3 1 (2 / 5) 0 = Some [2 / 5; 2 / 5; 1 / 5].
Proof.
  pose proof small_pos as [P _].
  assert (Q : / 10 ^ 8 < 1 / 10) by (unfold Rdiv; rewrite Rmult_1_l; apply Rinv_lt_contravar; lra).
  destruct (drive_step 2 1 (2 / 5) 0 ltac:(lra) ltac:(lra)) as [[? _]|[(_ & ? & _)|(_ & _ & ->)]]; [lra|lra|].
  destruct (drive_step 1 1 (2 / 5) (0 + 2 / 5) ltac:(lra) ltac:(lra)) as [[? _]|[(_ & ? & _)|(_ & _ & ->)]]; [lra|lra|].
  destruct (drive_step 0 1 (2 / 5) (0 + 2 / 5 + 2 / 5) ltac:(lra) ltac:(lra)) as [[_ ->]|[(? & _)|(? & _)]]; [|lra|lra].
  cbn [option_map]. do 4 f_equal. lra.
Qed.

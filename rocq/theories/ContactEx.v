(** * Contact: concrete interactions used as witnesses (C31, C49) *)
From Coq Require Import Reals Lra Lia List Arith Bool.
Import ListNotations.
From Verif Require Import Contact.
Local Open Scope R_scope.

Lemma tol_small : tol < 1.
Proof. unfold tol. rewrite <- Rinv_1. apply Rinv_lt_contravar; [rewrite Rmult_1_l; apply pow_lt; lra|]. apply Rlt_pow_R1; [lra|lia]. Qed.
Ltac decide_one := match goal with |- context [Rle_dec ?a ?b] => destruct (Rle_dec a b); try (exfalso; pose proof tol_pos; pose proof tol_small; lra) end.
Definition pen : interaction := {| lm := false; penalty := 1000; tied := None; pres := [0; 0]; gap := [1; 1] |}.
Definition mult : interaction := {| lm := true; penalty := 0; tied := None; pres := [-1; -1]; gap := [0; 0] |}.
Definition mult2 : interaction := {| lm := true; penalty := 0; tied := None; pres := [2; -3; 0]; gap := [1; 1; -1] |}.
Lemma pen_proper : proper pen. Proof. split; [reflexivity|discriminate]. Qed.
Lemma mult_proper : proper mult. Proof. split; [reflexivity|discriminate]. Qed.
Lemma mult2_proper : proper mult2. Proof. split; [reflexivity|discriminate]. Qed.
Definition mixed : contact := add_interaction (add_interaction empty_contact pen) mult.
Lemma mixed_reachable : reachable mixed.
Proof. apply r_add; [apply r_add; [constructor|exact pen_proper]|exact mult_proper]. Qed.
Lemma pen_inactive : inactive pen = [0; 1]%nat.
Proof. unfold inactive, pen, geb. cbn. repeat decide_one. reflexivity. Qed.
Lemma mult_inactive : inactive mult = [].
Proof. unfold inactive, mult, geb. cbn. repeat decide_one; reflexivity. Qed.
Lemma mult2_inactive : inactive mult2 = [0%nat].
Proof. unfold inactive, mult2, geb. cbn. repeat decide_one; reflexivity. Qed.
Lemma mixed_positions : inactive_positions mixed = [].
Proof. unfold inactive_positions. cbn [its mixed add_interaction pen mult lm empty_contact app]. cbn [offsets_from combine flat_map fst snd]. change (lm pen) with false. cbn iota. fold mult. change (lm mult) with true. cbn iota. rewrite mult_inactive. reflexivity. Qed.
Lemma mixed_identity : exists m, identity_block mixed = Some m /\ m 0%nat = [0%nat] /\ m 1%nat = [1%nat].
Proof.
  unfold identity_block. change (refresh mixed) with {| its := [pen; mult]; have_lm := true; npd := 2; fresh := true; offs := [0; 0; 2]%nat; gsize := 2 |}.
  cbn [offs its npd gather_inactive nth_error]. rewrite pen_inactive, mult_inactive. eexists. split; [reflexivity|]. split; reflexivity.
Qed.
Definition late : contact := add_interaction (add_interaction (refresh (add_interaction empty_contact mult)) pen) pen.
Lemma late_reachable : reachable late.
Proof. apply r_add; [apply r_add; [apply r_merge, r_add; [constructor|exact mult_proper]|exact pen_proper]|exact pen_proper]. Qed.
Lemma late_identity : identity_block late = None.
Proof. unfold identity_block. change (refresh late) with {| its := [mult; pen; pen]; have_lm := true; npd := 2; fresh := true; offs := [0; 2]%nat; gsize := 2 |}. reflexivity. Qed.
Definition single : contact := add_interaction empty_contact {| lm := false; penalty := 1000; tied := None; pres := [0]; gap := [0] |}.
Lemma single_reachable : reachable single.
Proof. apply r_add; [constructor|]. split; [reflexivity|discriminate]. Qed.
Ltac run := unfold eval_contact, set_pressures, single; cbn; unfold new_pressure, zero_at, inactive, geb; cbn; repeat (decide_one; cbn); try reflexivity.
Lemma direct : option_map (fun c => map pres (its c)) (eval_contact single [[1]] []) = Some [[0]].
Proof. run. Qed.
Lemma via_closed : exists c1, eval_contact single [[-1]] [] = Some c1 /\ option_map (fun c => map pres (its c)) (eval_contact c1 [[1]] []) = Some [[1000]].
Proof.
  eexists. split; [run|]. run. do 3 f_equal. lra.
Qed.

(** ** closing lemmas for the property file *)
Definition two : contact := add_interaction (add_interaction empty_contact mult) mult2.
Lemma two_reachable : reachable two.
Proof. apply r_add; [apply r_add; [constructor|exact mult_proper]|exact mult2_proper]. Qed.
Lemma identity_refuted : exists c m i, reachable c /\ (i < npd c)%nat /\ identity_block c = Some m /\ m i = [i] /\ ~ In i (inactive_positions c).
Proof.
  destruct mixed_identity as [m [E [M _]]]. exists mixed, m, 0%nat. split; [exact mixed_reachable|]. split; [cbn; lia|]. split; [exact E|]. split; [exact M|]. rewrite mixed_positions. intros [].
Qed.
Lemma stale_refuted : exists c, reachable c /\ have_lm c = true /\ identity_block c = None.
Proof. exists late. split; [exact late_reachable|]. split; [reflexivity|exact late_identity]. Qed.
Lemma tied_refuted : exists ndofs max_attr surf2 elems, (forall x, In x surf2 -> (1 <= x <= max_attr)%nat) /\ (forall e, In e elems -> (1 <= fst e <= max_attr)%nat /\ forall d, In d (snd e) -> (d < ndofs)%nat) /\
  tied_list ndofs max_attr surf2 elems = None.
Proof.
  exists 4%nat, 2%nat, [2%nat], [(1%nat, [0; 1]%nat); (2%nat, [2; 3]%nat)]. split; [|split; [|reflexivity]].
  - intros x [<-|[]]. lia.
  - intros e [<-|[<-|[]]]; cbn [fst snd]; (split; [lia|]); intros d Hd; cbn in Hd; lia.
Qed.
Lemma history_refuted : exists c gs1 gs2 v c1, reachable c /\ fits (its c) gs1 /\ fits (its c) gs2 /\ length v = npd c /\ eval_contact c gs1 v = Some c1 /\
  option_map (fun x => map pres (its x)) (eval_contact c1 gs2 v) <> option_map (fun x => map pres (its x)) (eval_contact c gs2 v).
Proof.
  destruct via_closed as [c1 [E1 E2]]. exists single, [[-1]], [[1]], [], c1. split; [exact single_reachable|]. split; [repeat constructor|]. split; [repeat constructor|]. split; [reflexivity|]. split; [exact E1|].
  rewrite E2, direct. intros H. injection H as H. lra.
Qed.
Lemma tension_refuted : exists c gs1 gs2 v c1 c2 it x, reachable c /\ eval_contact c gs1 v = Some c1 /\ eval_contact c1 gs2 v = Some c2 /\ In it (its c2) /\ lm it = false /\ In x (pres it) /\ 0 < x.
Proof.
  destruct via_closed as [c1 [E1 E2]]. destruct (eval_contact c1 [[1]] []) as [c2|] eqn:Ec; [|discriminate]. cbn [option_map] in E2. injection E2 as E2.
  assert (L : map lm (its c2) = [false]).
  { assert (G : forall c gs v c', reachable c -> fits (its c) gs -> length v = npd c -> eval_contact c gs v = Some c' -> map lm (its c') = map lm (its c)).
    { intros c gs v c' Hr F Lv E. destruct (eval_its c gs v Hr F Lv) as [sl [c'' [S [_ [E' [I _]]]]]]. rewrite E in E'. injection E' as <-. rewrite I.
      destruct (put_shape _ _ _ F S) as [_ [_ C]]. clear - C. induction C as [|a b x y [H _] _ IH]; [reflexivity|]. cbn [map]. now rewrite H, IH. }
    destruct (eval_its single [[-1]] [] single_reachable) as [sl [c1' [S [_ [E' [I [Hr N]]]]]]]; [repeat constructor|reflexivity|]. rewrite E1 in E'. injection E' as <-.
    rewrite (G c1 [[1]] [] c2 Hr); [|assert (P : fits (its c1) [[-1]]) by (rewrite I; refine (proj1 (put_shape _ _ _ _ S)); repeat constructor); inversion P as [|? ? ? ? P1 P2]; inversion P2; constructor; [exact P1|constructor]|rewrite N; reflexivity|exact Ec].
    rewrite (G single [[-1]] [] c1 single_reachable); [reflexivity|repeat constructor|reflexivity|exact E1]. }
  destruct (its c2) as [|it [|]] eqn:Ei; try discriminate. cbn [map] in E2, L. injection E2 as E2. injection L as L.
  exists single, [[-1]], [[1]], [], c1, c2, it, 1000. split; [exact single_reachable|]. split; [exact E1|]. split; [exact Ec|]. rewrite Ei. split; [now left|]. split; [exact L|]. rewrite E2. split; [now left|lra].
Qed.

(** * Buffers the physics modules create: when they fit, and what happens when they do not *)
From Coq Require Import NArith ZArith Reals List Lia Lra Bool Arith.
From Verif Require Import Prelude DofCodec Sums Restriction Kernels FunctionalModel FunctionalGrad FunctionalEx ShapeElem QBuffer.
Import ListNotations.
Local Open Scope R_scope.

(** ** Numbers of points *)
Lemma triangle_step Q : num_points TRIANGLE (S Q) = (num_points TRIANGLE Q + S Q)%nat.
Proof.
  unfold num_points. replace (S Q * (S Q + 1))%nat with (Q * (Q + 1) + S Q * 2)%nat by ring. rewrite Nat.div_add by lia. reflexivity.
Qed.
Lemma triangle_twice Q : (2 * num_points TRIANGLE Q = Q * (Q + 1))%nat.
Proof. induction Q as [|Q IH]; [reflexivity|]. rewrite triangle_step. replace (S Q * (S Q + 1))%nat with (Q * (Q + 1) + 2 * S Q)%nat by ring. lia. Qed.
Lemma tetrahedron_step Q : num_points TETRAHEDRON (S Q) = (num_points TETRAHEDRON Q + num_points TRIANGLE (S Q))%nat.
Proof.
  unfold num_points at 1 2. assert (H := triangle_twice (S Q)).
  replace (S Q * (S Q + 1) * (S Q + 2))%nat with (Q * (Q + 1) * (Q + 2) + 3 * (S Q * (S Q + 1)))%nat by ring. rewrite <- H.
  replace (3 * (2 * num_points TRIANGLE (S Q)))%nat with (num_points TRIANGLE (S Q) * 6)%nat by ring. rewrite Nat.div_add by lia. reflexivity.
Qed.
Lemma points_step g Q : (num_points g Q < num_points g (S Q))%nat.
Proof.
  destruct g; [cbn; lia|rewrite triangle_step; lia|unfold num_points; nia| |unfold num_points; nia].
  rewrite tetrahedron_step. assert (H := triangle_step Q). lia.
Qed.
Lemma points_mono g Q Q' : (Q < Q')%nat -> (num_points g Q < num_points g Q')%nat.
Proof. induction 1 as [|Q' H IH]; [apply points_step|]. pose proof (points_step g Q'). lia. Qed.
Lemma points_le g Q Q' : (Q <= Q')%nat -> (num_points g Q <= num_points g Q')%nat.
Proof. intros H. destruct (Nat.eq_dec Q Q') as [->|]; [lia|]. assert (A := points_mono g Q Q' ltac:(lia)). lia. Qed.

Section Module.
Context {St : Type}.
(** the geometry at each position of a block vector, and how many elements of each geometry the mesh has
    (geometry_counts, geometry.hpp:70-77) *)
Variables (shapes : nat -> shape) (count : shape -> nat).

(** createQuadratureDataBuffer of a module of order [order] (solid_mechanics.hpp:420-424) *)
Definition module_cols (order : nat) : nat -> nat -> nat := fun _ g => num_points (shapes g) (buffer_Q order).
Definition module_buffers (order : nat) (initial : St) : buffers (St := St) :=
  fun _ g => new_array (count (shapes g)) (num_points (shapes g) (buffer_Q order)) initial.
(** the kernels use the rule of the functional's Q on domains of the mesh *)
Definition on_mesh (orders : list nat) (f : functional St) : Prop :=
  forall n Ig g G, nth_error (f_integrals f) n = Some Ig -> nth_error (i_geoms Ig) g = Some G ->
    gk_nq G = num_points (shapes g) (functional_Q orders) /\ (length (gk_elems G) <= count (shapes g))%nat.

Lemma fold_max_le orders p : (forall o, In o orders -> (o <= p)%nat) -> (fold_right Nat.max 0 orders <= p)%nat.
Proof. induction orders as [|o l IH]; intros H; cbn; [lia|]. assert (A := H o (or_introl eq_refl)). assert (B := IH (fun x Hx => H x (or_intror Hx))). lia. Qed.
Lemma fold_max_in orders o : In o orders -> (o <= fold_right Nat.max 0 orders)%nat.
Proof. induction orders as [|a l IH]; intros H; cbn; [destruct H|]. destruct H as [->|H]; [lia|]. specialize (IH H). lia. Qed.

Lemma module_roomy order orders (f : functional St) given initial : on_mesh orders f -> (forall o, In o orders -> (o <= order)%nat) ->
  roomy f given (module_cols order) (module_buffers order initial).
Proof.
  intros Hf Ho n Ig g G Hn HG. destruct (Hf n Ig g G Hn HG) as [A B]. unfold module_cols, module_buffers, new_array. split.
  - rewrite A. apply points_le. unfold functional_Q, buffer_Q. apply le_n_S. now apply fold_max_le.
  - rewrite repeat_length. apply Nat.mul_le_mono_r. exact B.
Qed.

(** ** Running past the end *)
Lemma apply_points_length {A} (qf : nat -> nat -> St -> A * St) update cols : forall ps data outs data',
  apply_points qf update cols ps data = Ok (outs, data') -> length data' = length data.
Proof.
  induction ps as [|[e i] ps IH]; intros data outs data' H; cbn [apply_points] in H; [now inversion H|].
  destruct (nth_error data (e * cols + i)) as [st|] eqn:E; [|discriminate].
  assert (Hlen : (e * cols + i < length data)%nat) by (apply nth_error_Some; congruence).
  destruct (apply_points qf update cols ps _) as [[o d]| |] eqn:E1; cbn [bindO] in H; try discriminate. inversion H; subst.
  apply IH in E1. destruct update; cbn [snd]; [now rewrite E1, put_length|exact E1].
Qed.
Lemma apply_points_past {A} (qf : nat -> nat -> St -> A * St) update cols e i : forall ps data,
  In (e, i) ps -> (length data <= e * cols + i)%nat -> apply_points qf update cols ps data = UB.
Proof.
  induction ps as [|[e' i'] ps IH]; intros data Hin Hlen; [destruct Hin|]. cbn [apply_points].
  destruct (nth_error data (e' * cols + i')) as [st|] eqn:E; [|reflexivity].
  assert (H : (e' * cols + i' < length data)%nat) by (apply nth_error_Some; congruence).
  destruct Hin as [Heq|Hin]; [inversion Heq; subst; lia|].
  rewrite IH; [reflexivity|exact Hin|]. destruct update; [now rewrite put_length|exact Hlen].
Qed.
Lemma apply_points_not_refused {A} (qf : nat -> nat -> St -> A * St) update cols : forall ps data, apply_points qf update cols ps data <> Refused.
Proof.
  induction ps as [|[e i] ps IH]; intros data; cbn [apply_points]; [discriminate|]. destruct (nth_error data _) as [st|]; [|discriminate]. cbn zeta.
  match goal with |- bindO ?x _ <> _ => destruct x eqn:E; cbn [bindO]; try discriminate end. now apply IH in E.
Qed.

Lemma kernels_shape t Es update b cols : forall Gs rs g (B : buffers (St := St)),
  kernels_on t Es update b cols g Gs rs B = UB \/
  exists Ls B', kernels_on t Es update b cols g Gs rs B = Ok (Ls, B') /\ (forall b' g', length (B' b' g') = length (B b' g')) /\
    forall r E, In (r, E) (combine rs Ls) -> In r rs /\ length E = esize r.
Proof.
  assert (Hnil : forall (rs : list restriction) (B : buffers (St := St)), exists Ls B', Ok (@nil (list R), B) = Ok (Ls, B') /\
    (forall b' g', length (B' b' g') = length (B b' g')) /\ forall r E, In (r, E) (combine rs Ls) -> In r rs /\ length E = esize r).
  { intros rs B. exists [], B. split; [reflexivity|]. split; [reflexivity|]. intros r E H. destruct rs; destruct H. }
  induction Gs as [|G Gs IH]; intros [|r rs] g B; cbn [kernels_on]; try (right; apply Hnil).
  unfold kernel_on. destruct (apply_points _ _ _ _ _) as [[outs d]| |] eqn:E; cbn [bindO fst snd].
  - destruct (IH rs (S g) (store_at B b g d)) as [->|(Ls & B' & -> & F2 & F3)]; [now left|]. right. cbn [bindO fst snd].
    eexists _, B'. split; [reflexivity|]. split.
    + intros b' g'. rewrite F2. unfold store_at. destruct (Nat.eqb_spec b' b) as [->|]; [|reflexivity]. destruct (Nat.eqb_spec g' g) as [->|]; [|reflexivity].
      cbn [andb]. now apply apply_points_length in E.
    + intros r' E' [H|H]; [inversion H; subst; split; [now left|apply tab_length]|]. apply F3 in H as [H1 H2]. split; [now right|exact H2].
  - now apply apply_points_not_refused in E.
  - now left.
Qed.
Lemma kernels_past t Es update b cols j G e i : forall Gs rs g (B : buffers (St := St)), length Gs = length rs ->
  nth_error Gs j = Some G -> (e < length (gk_elems G))%nat -> (i < gk_nq G)%nat ->
  (length (B b (g + j)%nat) <= e * cols b (g + j)%nat + i)%nat -> kernels_on t Es update b cols g Gs rs B = UB.
Proof.
  revert j. intros j Gs. revert j. induction Gs as [|G0 Gs IH]; intros j [|r rs] g B Hlen Hj He Hi Hpast; try discriminate; [destruct j; discriminate|].
  cbn [kernels_on]. unfold kernel_on. destruct j as [|j].
  - cbn in Hj. inversion Hj; subst G0. rewrite Nat.add_0_r in Hpast.
    erewrite apply_points_past; [reflexivity|apply points_in; split; [exact He|exact Hi]|exact Hpast].
  - destruct (apply_points _ _ _ _ _) as [[outs d]| |] eqn:E; cbn [bindO fst snd]; [|now apply apply_points_not_refused in E|reflexivity].
    rewrite (IH j rs (S g)); [reflexivity|now injection Hlen|exact Hj|exact He|exact Hi|].
    unfold store_at. rewrite (proj2 (Nat.eqb_neq (S g + j) g)) by lia. rewrite andb_false_r. now rewrite Nat.add_succ_comm.
Qed.
Lemma evaluate_past (f : functional St) given cols t update Ls lsize Ig g G e i : forall ints k n L B,
  (forall J, In J ints -> wf_integral f lsize (fun w => length (Ls w)) J) -> length L = lsize ->
  nth_error ints k = Some Ig -> nth_error (i_geoms Ig) g = Some G -> (e < length (gk_elems G))%nat -> (i < gk_nq G)%nat ->
  (length (B (given (n + k)%nat) g) <= e * cols (given (n + k)%nat) g + i)%nat ->
  evaluate_buffers f given cols t update Ls n ints L B = UB.
Proof.
  induction ints as [|J ints IH]; intros k n L B Hwf HL Hk HG He Hi Hpast; [destruct k; discriminate|].
  destruct (Hwf J (or_introl eq_refl)) as (W1 & W2 & W3 & W4). cbn [evaluate_buffers].
  rewrite (mapO_total _ (fun s => map (fun r => gatherF r (Ls s)) (f_trial f s (i_type J)))) by (intros s Hs; apply gather_blocks_total; intros r Hr; apply (W2 s r Hr)).
  cbn [bindO]. destruct k as [|k].
  - cbn in Hk. inversion Hk; subst J. rewrite Nat.add_0_r in Hpast.
    rewrite (kernels_past t _ update (given n) cols g G e i (i_geoms Ig) (f_test f (i_type Ig)) 0 B W3 HG He Hi Hpast). reflexivity.
  - match goal with |- bindO ?x _ = _ => destruct (kernels_shape t (map (fun s => map (fun r => gatherF r (Ls s)) (f_trial f s (i_type J))) (i_active J)) update (given n) cols (i_geoms J) (f_test f (i_type J)) 0 B) as [->|(Bs & B' & -> & F2 & F3)] end; [reflexivity|].
    cbn [bindO fst snd]. rewrite scatter_blocks_total by (intros r E H; apply F3 in H as [H1 H2]; split; [rewrite HL; now apply W1|exact H2]).
    cbn [bindO]. apply (IH k (S n)); auto.
    + intros J' HJ'. apply Hwf. now right.
    + now rewrite scatter_blocksF_length.
    + rewrite F2. rewrite Nat.add_succ_comm. exact Hpast.
Qed.

(** a module which was given a parameter field of higher order than its own, and a material with state on the whole mesh *)
Lemma module_overrun order orders (f : functional St) given initial lsize tsize rq n Ig g G o : wf f lsize tsize -> fits tsize rq -> on_mesh orders f ->
  In o orders -> (order < o)%nat -> nth_error (f_integrals f) n = Some Ig -> nth_error (i_geoms Ig) g = Some G ->
  length (gk_elems G) = count (shapes g) -> (0 < count (shapes g))%nat ->
  perform_buffers f given (module_cols order) lsize rq (module_buffers order initial) = UB.
Proof.
  intros Hwf Hfit Hon Ho Hlt Hn HG Hall Hpos. destruct (Hon n Ig g G Hn HG) as [Hq _].
  assert (Hmore : (num_points (shapes g) (buffer_Q order) < gk_nq G)%nat).
  { rewrite Hq. apply points_mono. unfold functional_Q, buffer_Q. apply le_n_S. assert (A := fold_max_in orders o Ho). lia. }
  apply (evaluate_past f given (module_cols order) (rq_t rq) (rq_update rq) (rq_in rq) lsize Ig g G (count (shapes g) - 1)
           (num_points (shapes g) (buffer_Q order)) (f_integrals f) n 0); auto.
  - exact (wf_fits f lsize tsize rq Hwf Hfit).
  - apply repeat_length.
  - lia.
  - unfold module_buffers, module_cols, new_array. rewrite repeat_length. nia.
Qed.
End Module.

(** ** Examples: a material which counts its updates *)
Definition counting (elems : list nat) (nq : nat) : gkernel nat :=
  {| gk_elems := elems; gk_dim1 := 2; gk_nq := nq; gk_w := fun _ => 1; gk_test := seg_space; gk_trial := fun _ => seg_space;
     gk_qf := fun e q t v st => (fun _ _ => 0, S st);
     gk_ad := fun s e q t v st => fun _ _ _ _ => 0 |}.
Definition counters (Gs : list (gkernel nat)) : functional nat :=
  {| f_test := fun dt => match dt with Elements => [seg1] | BoundaryElements => [] end;
     f_trial := fun _ dt => match dt with Elements => [seg1] | BoundaryElements => [] end;
     f_integrals := map (fun G => {| i_type := Elements; i_active := [0%nat]; i_geoms := [G] |}) Gs |}.
Definition count_once : request := {| rq_t := 0; rq_wrt := None; rq_update := true; rq_in := fun _ => [0; 0; 0] |}.

Lemma counters_wf Gs : wf (counters Gs) 3 (fun _ => 3%nat).
Proof.
  intros Ig HI. cbn [f_integrals counters] in HI. apply in_map_iff in HI as (G & <- & _). split; [|split; [|split]].
  - intros r [<-|[]]. apply seg1_ids.
  - intros w r [<-|[]]. apply seg1_ids.
  - reflexivity.
  - repeat constructor. intros [].
Qed.
Lemma count_fits : fits (fun _ => 3%nat) count_once.
Proof. intros w. reflexivity. Qed.

Definition counter (G : gkernel nat) : integral nat := {| i_type := Elements; i_active := [0%nat]; i_geoms := [G] |}.
Lemma evaluate_counter Gs given cols n G rest L B outs d : length L = 3%nat ->
  apply_points (fun e q st => gk_qf G e q 0 (qf_inputs G 0 (Es_of (counters Gs) (fun _ => [0; 0; 0]) (counter G)) e q) st)
    true (cols (given n) 0%nat) (points_of (length (gk_elems G)) (gk_nq G)) (B (given n) 0%nat) = Ok (outs, d) ->
  exists L', length L' = 3%nat /\
    evaluate_buffers (counters Gs) given cols 0 true (fun _ => [0; 0; 0]) n (counter G :: rest) L B =
    evaluate_buffers (counters Gs) given cols 0 true (fun _ => [0; 0; 0]) (S n) rest L' (store_at B (given n) 0 d).
Proof.
  intros HL H. cbn [evaluate_buffers i_active i_type i_geoms counter].
  rewrite (mapO_total _ (fun s => map (fun r => gatherF r [0; 0; 0]) (f_trial (counters Gs) s Elements))).
  2:{ intros s Hs. apply gather_blocks_total. intros r [<-|[]]. apply seg1_ids. }
  cbn [bindO]. cbn [f_test counters]. cbn [kernels_on]. unfold kernel_on. unfold Es_of in H. cbn [i_active i_type counter] in H. rewrite H. cbn [bindO fst snd combine].
  rewrite scatter_blocks_total; [cbn [bindO]; eexists; split; [|reflexivity]; now rewrite scatter_blocksF_length|].
  intros r E [Hr|[]]. inversion Hr; subst. split; [rewrite HL; apply seg1_ids|apply tab_length].
Qed.
Lemma perform_one G given cols B outs d :
  apply_points (fun e q st => gk_qf G e q 0 (qf_inputs G 0 (Es_of (counters [G]) (fun _ => [0; 0; 0]) (counter G)) e q) st)
    true (cols (given 0%nat) 0%nat) (points_of (length (gk_elems G)) (gk_nq G)) (B (given 0%nat) 0%nat) = Ok (outs, d) ->
  exists L, perform_buffers (counters [G]) given cols 3 count_once B = Ok (L, store_at B (given 0%nat) 0 d).
Proof.
  intros H. destruct (evaluate_counter [G] given cols 0 G [] (repeat 0 3) B outs d eq_refl H) as (L & _ & E). exists L. exact E.
Qed.

(** two materials on the two elements of a mesh, given the same buffer *)
Lemma shared_buffer : exists (f : functional nat) (B B' : buffers (St := nat)) L,
  wf f 3 (fun _ => 3%nat) /\ fits (fun _ => 3%nat) count_once /\
  on_mesh (fun _ => TRIANGLE) (fun _ => 2%nat) [1%nat] f /\
  (exists G0 G1, f_integrals f = [{| i_type := Elements; i_active := [0%nat]; i_geoms := [G0] |}; {| i_type := Elements; i_active := [0%nat]; i_geoms := [G1] |}] /\
     gk_elems G0 = [0%nat] /\ gk_elems G1 = [1%nat]) /\
  B = module_buffers (fun _ => TRIANGLE) (fun _ => 2%nat) 1 0%nat /\
  roomy f (fun _ => 0%nat) (module_cols (fun _ => TRIANGLE) 1) B /\
  perform_buffers f (fun _ => 0%nat) (module_cols (fun _ => TRIANGLE) 1) 3 count_once B = Ok (L, B') /\
  nth_error (B 0%nat 0%nat) 0 = Some 0%nat /\ nth_error (B' 0%nat 0%nat) 0 = Some 2%nat.
Proof.
  set (f := counters [counting [0%nat] 3; counting [1%nat] 3]).
  assert (Hon : on_mesh (fun _ => TRIANGLE) (fun _ => 2%nat) [1%nat] f).
  { intros [|[|n]] Ig g G Hn HG; cbn in Hn; try (destruct n; discriminate); inversion Hn; subst Ig; (destruct g as [|g]; [|destruct g; discriminate]); inversion HG; subst G; (split; [reflexivity|cbn; lia]). }
  set (B := module_buffers (fun _ => TRIANGLE) (fun _ => 2%nat) 1 0%nat). set (cols := module_cols (fun _ => TRIANGLE) 1).
  destruct (evaluate_counter [counting [0%nat] 3; counting [1%nat] 3] (fun _ => 0%nat) cols 0 (counting [0%nat] 3) [counter (counting [1%nat] 3)] (repeat 0 3) B
              (repeat (fun _ _ => 0) 3) [1; 1; 1; 0; 0; 0]%nat eq_refl eq_refl) as (L1 & HL1 & E1).
  destruct (evaluate_counter [counting [0%nat] 3; counting [1%nat] 3] (fun _ => 0%nat) cols 1 (counting [1%nat] 3) [] L1 (store_at B 0 0 [1; 1; 1; 0; 0; 0]%nat)
              (repeat (fun _ _ => 0) 3) [2; 2; 2; 0; 0; 0]%nat HL1 eq_refl) as (L2 & HL2 & E2).
  exists f, B. eexists _, L2.
  split; [apply counters_wf|]. split; [apply count_fits|]. split; [exact Hon|].
  split; [eexists _, _; split; [reflexivity|split; reflexivity]|]. split; [reflexivity|].
  split; [apply (module_roomy _ _ 1 [1%nat]); [exact Hon|intros o [<-|[]]; lia]|].
  split; [exact (eq_trans E1 E2)|]. split; reflexivity.
Qed.

(** a module of order 1 with a parameter of order 2, a material on two of three triangles *)
Lemma rows_overlap : exists (f : functional nat) (B B' : buffers (St := nat)) L,
  wf f 3 (fun _ => 3%nat) /\ fits (fun _ => 3%nat) count_once /\ own f (fun n => n) /\
  on_mesh (fun _ => TRIANGLE) (fun _ => 3%nat) [1%nat; 2%nat] f /\
  (exists G, f_integrals f = [{| i_type := Elements; i_active := [0%nat]; i_geoms := [G] |}] /\ gk_elems G = [0%nat; 1%nat] /\ gk_nq G = 6%nat /\
     forall e q t v st, snd (gk_qf G e q t v st) = S st) /\
  B = module_buffers (fun _ => TRIANGLE) (fun _ => 3%nat) 1 0%nat /\
  perform_buffers f (fun n => n) (module_cols (fun _ => TRIANGLE) 1) 3 count_once B = Ok (L, B') /\
  nth_error (B 0%nat 0%nat) (0 * module_cols (fun _ => TRIANGLE) 1 0 0 + 3) = Some 0%nat /\
  nth_error (B' 0%nat 0%nat) (0 * module_cols (fun _ => TRIANGLE) 1 0 0 + 3) = Some 2%nat.
Proof.
  set (f := counters [counting [0%nat; 1%nat] 6]).
  destruct (perform_one (counting [0%nat; 1%nat] 6) (fun n => n) (module_cols (fun _ => TRIANGLE) 1) (module_buffers (fun _ => TRIANGLE) (fun _ => 3%nat) 1 0%nat)
              (repeat (fun _ _ => 0) 12) [1; 1; 1; 2; 2; 2; 1; 1; 1]%nat) as [L HL]; [reflexivity|].
  exists f, (module_buffers (fun _ => TRIANGLE) (fun _ => 3%nat) 1 0%nat). eexists _, L.
  split; [apply counters_wf|]. split; [apply count_fits|]. split; [intros [|n] [|n'] H H'; cbn in H, H'; intros; lia|].
  split; [intros [|n] Ig g G Hn HG; [|destruct n; discriminate]; inversion Hn; subst Ig; (destruct g as [|g]; [|destruct g; discriminate]); inversion HG; subst G; (split; [reflexivity|cbn; lia])|].
  split; [eexists; split; [reflexivity|split; [reflexivity|split; reflexivity]]|]. split; [reflexivity|].
  split; [exact HL|]. split; reflexivity.
Qed.

Lemma separate_case : own (counters [counting [0%nat] 3; counting [1%nat] 3]) (fun n => n) /\
  roomy (counters [counting [0%nat] 3; counting [1%nat] 3]) (fun n => n) (module_cols (fun _ => TRIANGLE) 1) (module_buffers (fun _ => TRIANGLE) (fun _ => 2%nat) 1 0%nat) /\
  holds (counters [counting [0%nat] 3; counting [1%nat] 3]) (fun n => n) (module_cols (fun _ => TRIANGLE) 1) (module_buffers (fun _ => TRIANGLE) (fun _ => 2%nat) 1 0%nat) (fresh 0%nat).
Proof.
  split; [intros n n' _ _ H; exact H|]. split.
  - apply (module_roomy _ _ 1 [1%nat]); [|intros o [<-|[]]; lia].
    intros [|[|n]] Ig g G Hn HG; cbn in Hn; try (destruct n; discriminate); inversion Hn; subst Ig; (destruct g as [|g]; [|destruct g; discriminate]); inversion HG; subst G; (split; [reflexivity|cbn; lia]).
  - intros [|[|n]] Ig g G e q Hn HG He Hq; cbn in Hn; try (destruct n; discriminate); inversion Hn; subst Ig; (destruct g as [|g]; [|destruct g; discriminate]); inversion HG; subst G;
      cbn in He, Hq; (replace e with 0%nat by lia); (destruct q as [|[|[|q]]]; [reflexivity|reflexivity|reflexivity|lia]).
Qed.

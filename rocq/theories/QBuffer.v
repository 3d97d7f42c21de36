(** * Buffers of material states at quadrature points
    Models QuadratureData (quadrature_data.hpp:112-147), StateManager::newQuadratureDataBuffer
    (state_manager.hpp:108-131) and the accesses of the domain kernels (domain_integral_kernels.hpp:127-150, 198).
    FunctionalModel.v keeps the states of each integral apart, by element and point; here a buffer is the
    flat row-major array it is in the code, and integrals hold pointers to buffers. *)
From Coq Require Import Reals List Lia Bool Arith.
From Verif Require Import Prelude Sums Restriction Kernels FunctionalModel FunctionalGrad ShapeElem.
Import ListNotations.
Local Open Scope R_scope.

(** num_quadrature_points (geometry.hpp:25-43) *)
Definition num_points (g : shape) (Q : nat) : nat :=
  match g with
  | SEGMENT => Q
  | TRIANGLE => (Q * (Q + 1)) / 2
  | SQUARE => Q * Q
  | TETRAHEDRON => (Q * (Q + 1) * (Q + 2)) / 6
  | CUBE => Q * Q * Q
  end%nat.

(** Functional::Q (functional.hpp:193): one more than the greatest order among test and trial spaces *)
Definition functional_Q (orders : list nat) : nat := S (fold_right Nat.max 0%nat orders).
(** the Q of newQuadratureDataBuffer (state_manager.hpp:114), which knows the module's own order only *)
Definition buffer_Q (order : nat) : nat := S order.

Definition put {A} (k : nat) (a : A) (l : list A) : list A := firstn k l ++ a :: skipn (S k) l.

Section Buffers.
Context {St : Type}.

(** the array of one geometry: QuadratureData's constructor fills elements x points entries (hpp:129-140) *)
Definition new_array (elements points : nat) (initial : St) : list St := repeat initial (elements * points).

(** batch_apply_qf over the elements of a domain: &qf_state(e, 0) is the address of row e, and point i of the
    functional's own rule is read and written at that address plus i (hpp:143-147, 198) *)
Fixpoint apply_points {A} (qf : nat -> nat -> St -> A * St) (update : bool) (cols : nat) (ps : list (nat * nat))
                      (data : list St) : outcome (list A * list St) :=
  match ps with
  | [] => Ok ([], data)
  | (e, i) :: rest =>
      match nth_error data (e * cols + i) with
      | None => UB
      | Some st =>
          let r := qf e i st in
          bindO (apply_points qf update cols rest (if update then put (e * cols + i) (snd r) data else data))
                (fun p => Ok (fst r :: fst p, snd p))
      end
  end.
(** for each element, for each point of it (hpp:176, 133) *)
Definition points_of (elements points : nat) : list (nat * nat) := list_prod (seq 0 elements) (seq 0 points).

Definition buffers := nat -> nat -> list St.     (* by buffer and geometry *)

(** evaluation_kernel of one geometry (hpp:158-220) *)
Definition kernel_on (t : R) (G : gkernel St) (rtest : restriction) (g : nat) (Es : list (list (list R))) (update : bool)
                     (cols : nat) (data : list St) : outcome (list R * list St) :=
  bindO (apply_points (fun e q st => gk_qf G e q t (qf_inputs G g Es e q) st) update cols
           (points_of (length (gk_elems G)) (gk_nq G)) data) (fun p =>
  Ok (accumulate G rtest (fun le => integrate (gk_test G) (gk_dim1 G) (gk_nq G) (gk_w G)
        (fun q => nth (le * gk_nq G + q) (fst p) (fun _ _ => 0))), snd p)).

Definition store_at (B : buffers) (b g : nat) (data : list St) : buffers :=
  fun b' g' => if (Nat.eqb b' b && Nat.eqb g' g)%bool then data else B b' g'.

(** Integral::Mult (integral.hpp:65-80): every geometry's kernel *)
Fixpoint kernels_on (t : R) (Es : list (list (list R))) (update : bool) (b : nat) (cols : nat -> nat -> nat)
                    (g : nat) (Gs : list (gkernel St)) (rs : list restriction) (B : buffers) : outcome (list (list R) * buffers) :=
  match Gs, rs with
  | G :: Gs', r :: rs' =>
      bindO (kernel_on t G r g Es update (cols b g) (B b g)) (fun p =>
      bindO (kernels_on t Es update b cols (S g) Gs' rs' (store_at B b g (snd p))) (fun q =>
      Ok (fst p :: fst q, snd q)))
  | _, _ => Ok ([], B)
  end.

(** Functional::operator() (functional.hpp:462-476) when integral number n was given buffer [given n] *)
Fixpoint evaluate_buffers (f : functional St) (given : nat -> nat) (cols : nat -> nat -> nat) (t : R) (update : bool)
                          (Ls : nat -> list R) (n : nat) (ints : list (integral St)) (L : list R) (B : buffers)
                          : outcome (list R * buffers) :=
  match ints with
  | [] => Ok (L, B)
  | Ig :: rest =>
      bindO (mapO (fun s => gather_blocks (f_trial f s (i_type Ig)) (Ls s)) (i_active Ig)) (fun Es =>
      bindO (kernels_on t Es update (given n) cols 0 (i_geoms Ig) (f_test f (i_type Ig)) B) (fun p =>
      bindO (scatter_blocks (combine (f_test f (i_type Ig)) (fst p)) L) (fun L' =>
      evaluate_buffers f given cols t update Ls (S n) rest L' (snd p))))
  end.
Definition perform_buffers f given cols lsize (rq : request) B :=
  evaluate_buffers f given cols (rq_t rq) (rq_update rq) (rq_in rq) 0 (f_integrals f) (repeat 0 lsize) B.
Fixpoint run_buffers f given cols lsize (h : list request) B : outcome buffers :=
  match h with [] => Ok B | rq :: t => bindO (perform_buffers f given cols lsize rq B) (fun p => run_buffers f given cols lsize t (snd p)) end.

(** ** What a buffer says about the points of an integral *)
(** every row is long enough for the points of the functional's rule, and there is a row for every element *)
Definition roomy (f : functional St) (given : nat -> nat) (cols : nat -> nat -> nat) (B : buffers) : Prop :=
  forall n Ig g G, nth_error (f_integrals f) n = Some Ig -> nth_error (i_geoms Ig) g = Some G ->
    (gk_nq G <= cols (given n) g)%nat /\ (length (gk_elems G) * cols (given n) g <= length (B (given n) g))%nat.
(** no two integrals were given the same buffer *)
Definition own (f : functional St) (given : nat -> nat) : Prop :=
  forall n n', (n < length (f_integrals f))%nat -> (n' < length (f_integrals f))%nat -> given n = given n' -> n = n'.
(** the buffers hold the states [m] of all points *)
Definition holds (f : functional St) (given : nat -> nat) (cols : nat -> nat -> nat) (B : buffers) (m : mem St) : Prop :=
  forall n Ig g G e q, nth_error (f_integrals f) n = Some Ig -> nth_error (i_geoms Ig) g = Some G ->
    (e < length (gk_elems G))%nat -> (q < gk_nq G)%nat ->
    nth_error (B (given n) g) (e * cols (given n) g + q) = Some (m_q m n g e q).

(** ** Facts about the loop over points *)
Lemma put_length {A} k (a : A) l : (k < length l)%nat -> length (put k a l) = length l.
Proof. intros H. unfold put. rewrite app_length. cbn [length]. rewrite firstn_length, skipn_length. lia. Qed.
Lemma put_same {A} k (a : A) l : (k < length l)%nat -> nth_error (put k a l) k = Some a.
Proof.
  intros H. unfold put. rewrite nth_error_app2 by (rewrite firstn_length; lia). rewrite firstn_length, Nat.min_l by lia.
  now rewrite Nat.sub_diag.
Qed.
Lemma put_other {A} k (a : A) l j : (k < length l)%nat -> j <> k -> nth_error (put k a l) j = nth_error l j.
Proof.
  intros H Hj. unfold put. destruct (Nat.lt_ge_cases j k) as [C|C].
  - rewrite nth_error_app1 by (rewrite firstn_length; lia). revert l j C H Hj.
    induction k as [|k IH]; intros l j C H Hj; [lia|]. destruct l as [|b l]; [cbn in H; lia|]. destruct j as [|j]; [reflexivity|].
    cbn [firstn nth_error]. apply IH; cbn in H; lia.
  - rewrite nth_error_app2 by (rewrite firstn_length; lia). rewrite firstn_length, Nat.min_l by lia.
    destruct (j - k)%nat as [|d] eqn:Ed; [lia|]. cbn [nth_error].
    replace j with (S k + d)%nat by lia. clear. revert l. induction (S k) as [|c IH]; intros l; [reflexivity|].
    destruct l as [|b l]; [cbn; now destruct d|]. cbn [skipn Nat.add nth_error]. apply IH.
Qed.

Lemma apply_points_ok {A} (qf : nat -> nat -> St -> A * St) update cols (look : nat -> nat -> St) : forall ps data,
  NoDup (map (fun p => (fst p * cols + snd p)%nat) ps) ->
  (forall e i, In (e, i) ps -> nth_error data (e * cols + i) = Some (look e i)) ->
  exists data', apply_points qf update cols ps data = Ok (map (fun p => fst (qf (fst p) (snd p) (look (fst p) (snd p)))) ps, data') /\
    length data' = length data /\
    (forall e i, In (e, i) ps -> nth_error data' (e * cols + i) = Some (if update then snd (qf e i (look e i)) else look e i)) /\
    (forall k, ~ In k (map (fun p => (fst p * cols + snd p)%nat) ps) -> nth_error data' k = nth_error data k).
Proof.
  induction ps as [|[e i] ps IH]; intros data Hnd Hlook.
  - exists data. repeat split; auto. intros e i [].
  - cbn [map fst snd] in Hnd. apply NoDup_cons_iff in Hnd as [Hni Hnd].
    assert (H0 := Hlook e i (or_introl eq_refl)). cbn [apply_points]. rewrite H0.
    assert (Hlen : (e * cols + i < length data)%nat) by (apply nth_error_Some; congruence).
    set (d1 := if update then put (e * cols + i) (snd (qf e i (look e i))) data else data).
    assert (Hother : forall k, k <> (e * cols + i)%nat -> nth_error d1 k = nth_error data k).
    { intros k Hk. unfold d1. destruct update; [now apply put_other|reflexivity]. }
    assert (Hl1 : length d1 = length data) by (unfold d1; destruct update; [now apply put_length|reflexivity]).
    destruct (IH d1) as (d' & E1 & E2 & E3 & E4); [exact Hnd| |].
    { intros e' i' Hin. rewrite Hother; [apply Hlook; now right|]. intros Heq. apply Hni.
      apply in_map_iff. exists (e', i'). split; [exact Heq|exact Hin]. }
    exists d'. cbn zeta. rewrite E1. cbn [bindO fst snd map]. split; [reflexivity|]. split; [congruence|]. split.
    + intros e' i' [Heq|Hin]; [|now apply E3]. inversion Heq; subst e' i'. rewrite E4 by exact Hni. unfold d1.
      destruct update; [now apply put_same|exact H0].
    + intros k Hk. cbn [map fst snd] in Hk. rewrite E4 by (intros C; apply Hk; now right). apply Hother.
      intros C. apply Hk. now left.
Qed.

Lemma points_in ne nq e i : In (e, i) (points_of ne nq) <-> (e < ne)%nat /\ (i < nq)%nat.
Proof. unfold points_of. rewrite in_prod_iff, !in_seq. lia. Qed.
Lemma slot_inj cols e i e' i' : (i < cols)%nat -> (i' < cols)%nat -> (e * cols + i = e' * cols + i')%nat -> e = e' /\ i = i'.
Proof.
  intros Hi Hi' H. assert (e = e').
  { apply (f_equal (fun x => (x / cols)%nat)) in H. rewrite !Nat.div_add_l, !Nat.div_small in H by lia. lia. }
  subst. split; lia.
Qed.
Lemma points_nodup_gen cols nq es : NoDup es -> (nq <= cols)%nat ->
  NoDup (map (fun p => (fst p * cols + snd p)%nat) (list_prod es (seq 0 nq))).
Proof.
  intros Hes Hc. induction es as [|e es IH]; [constructor|]. apply NoDup_cons_iff in Hes as [Hn Hes].
  cbn [list_prod]. rewrite map_app, map_map. cbn [fst snd].
  assert (Hrow : NoDup (map (fun x => (e * cols + x)%nat) (seq 0 nq))).
  { apply FinFun.Injective_map_NoDup; [intros a b; lia|apply seq_NoDup]. }
  revert Hrow. generalize (IH Hes). intros Hrest Hrow.
  assert (Hdis : forall k, In k (map (fun x => (e * cols + x)%nat) (seq 0 nq)) ->
     ~ In k (map (fun p => (fst p * cols + snd p)%nat) (list_prod es (seq 0 nq)))).
  { intros k Hk Hk'. apply in_map_iff in Hk as (x & <- & Hx). apply in_map_iff in Hk' as ([e' x'] & Heq & Hin).
    apply in_prod_iff in Hin as [He' Hx']. apply in_seq in Hx, Hx'. cbn [fst snd] in Heq.
    apply slot_inj in Heq as [-> _]; [contradiction|lia|lia]. }
  revert Hdis Hrow. generalize (map (fun x => (e * cols + x)%nat) (seq 0 nq)) as row. clear IH.
  induction row as [|k row IHr]; intros Hdis Hrow; [exact Hrest|]. apply NoDup_cons_iff in Hrow as [Hk Hrow].
  cbn [app]. constructor.
  - rewrite in_app_iff. intros [C|C]; [contradiction|]. apply (Hdis k); [now left|exact C].
  - apply IHr; [|exact Hrow]. intros k' Hk'. apply Hdis. now right.
Qed.
Lemma points_nodup cols ne nq : (nq <= cols)%nat -> NoDup (map (fun p => (fst p * cols + snd p)%nat) (points_of ne nq)).
Proof. intros H. apply points_nodup_gen; [apply seq_NoDup|exact H]. Qed.
Lemma nth_points {A} (h : nat * nat -> A) d nq : forall es e q,
  (e < length es)%nat -> (q < nq)%nat -> nth (e * nq + q) (map h (list_prod es (seq 0 nq))) d = h (nth e es 0%nat, q).
Proof.
  induction es as [|x es IH]; intros e q He Hq; [cbn in He; lia|]. cbn [list_prod]. rewrite map_app, map_map.
  destruct e as [|e].
  - rewrite app_nth1 by (rewrite map_length, seq_length; lia). cbn [Nat.mul Nat.add nth].
    rewrite (nth_indep _ d (h (x, 0%nat))) by (rewrite map_length, seq_length; lia).
    rewrite (map_nth (fun y => h (x, y))), seq_nth by lia. reflexivity.
  - rewrite app_nth2 by (rewrite map_length, seq_length; nia). rewrite map_length, seq_length.
    replace (S e * nq + q - nq)%nat with (e * nq + q)%nat by nia. cbn [nth]. apply IH; [cbn in He; lia|exact Hq].
Qed.
Lemma nth_points_of {A} (h : nat * nat -> A) d ne nq e q : (e < ne)%nat -> (q < nq)%nat ->
  nth (e * nq + q) (map h (points_of ne nq)) d = h (e, q).
Proof. intros He Hq. unfold points_of. rewrite nth_points by (rewrite ?seq_length; auto). now rewrite seq_nth. Qed.

Lemma accumulate_ext (G : gkernel St) rtest r r' :
  (forall le i k, (le < length (gk_elems G))%nat -> r le i k = r' le i k) -> accumulate G rtest r = accumulate G rtest r'.
Proof.
  intros H. unfold accumulate, tab. apply map_ext. intros idx. apply sumn_ext. intros le Hle.
  destruct (Nat.eqb _ _); [now apply H|reflexivity].
Qed.

(** ** Separate, roomy buffers behave as separate states *)
Section Kernel.
Variables (t : R) (G : gkernel St) (g : nat) (Es : list (list (list R))) (update : bool) (cols : nat) (look : nat -> nat -> St).
Lemma kernel_ok rtest data : (gk_nq G <= cols)%nat ->
  (forall e q, (e < length (gk_elems G))%nat -> (q < gk_nq G)%nat -> nth_error data (e * cols + q) = Some (look e q)) ->
  exists data', kernel_on t G rtest g Es update cols data = Ok (eval_geom t G rtest g Es look, data') /\
    length data' = length data /\
    (forall e q, (e < length (gk_elems G))%nat -> (q < gk_nq G)%nat ->
       nth_error data' (e * cols + q) = Some (if update then snd (gk_qf G e q t (qf_inputs G g Es e q) (look e q)) else look e q)).
Proof.
  intros Hc Hlook.
  destruct (apply_points_ok (fun e q st => gk_qf G e q t (qf_inputs G g Es e q) st) update cols look
              (points_of (length (gk_elems G)) (gk_nq G)) data) as (d' & E1 & E2 & E3 & _).
  - now apply points_nodup.
  - intros e i Hin. apply points_in in Hin as [He Hi]. now apply Hlook.
  - exists d'. unfold kernel_on. rewrite E1. cbn [bindO fst snd]. split; [|split; [exact E2|]].
    + f_equal. f_equal. unfold eval_geom. apply accumulate_ext. intros le i k Hle. apply integrate_ext. intros q b Hq Hb.
      rewrite nth_points_of by auto. reflexivity.
    + intros e q He Hq. apply E3. apply points_in. auto.
Qed.
End Kernel.

Lemma kernels_ok t Es (update : bool) b cols (look : nat -> nat -> nat -> St) : forall Gs rs g B, length Gs = length rs ->
  (forall j G, nth_error Gs j = Some G -> (gk_nq G <= cols b (g + j)%nat)%nat /\
     (forall e q, (e < length (gk_elems G))%nat -> (q < gk_nq G)%nat ->
        nth_error (B b (g + j)%nat) (e * cols b (g + j)%nat + q) = Some (look (g + j)%nat e q))) ->
  exists B', kernels_on t Es update b cols g Gs rs B = Ok (blocks_from g Gs rs (fun g G r => eval_geom t G r g Es (look g)), B') /\
    (forall b' g', length (B' b' g') = length (B b' g')) /\
    (forall b' g', b' <> b \/ (g' < g)%nat -> B' b' g' = B b' g') /\
    (forall j G e q, nth_error Gs j = Some G -> (e < length (gk_elems G))%nat -> (q < gk_nq G)%nat ->
       nth_error (B' b (g + j)%nat) (e * cols b (g + j)%nat + q) =
         Some (if update then snd (gk_qf G e q t (qf_inputs G (g + j)%nat Es e q) (look (g + j)%nat e q)) else look (g + j)%nat e q)).
Proof.
  induction Gs as [|G Gs IH]; intros [|r rs] g B Hlen Hlook; try discriminate.
  - exists B. repeat split; auto. intros j G e q Hj. destruct j; discriminate.
  - destruct (Hlook 0%nat G eq_refl) as [Hc H0]. rewrite Nat.add_0_r in Hc, H0.
    destruct (kernel_ok t G g Es update (cols b g) (look g) r (B b g) Hc H0) as (d & E1 & E2 & E3).
    destruct (IH rs (S g) (store_at B b g d)) as (B' & F1 & F2 & F3 & F4).
    + now injection Hlen.
    + intros j G' Hj. destruct (Hlook (S j) G' Hj) as [A1 A2]. rewrite <- Nat.add_succ_comm in A1, A2. split; [exact A1|].
      intros e q He Hq. unfold store_at. rewrite (proj2 (Nat.eqb_neq (S g + j) g)) by lia. rewrite andb_false_r. now apply A2.
    + exists B'. cbn [kernels_on]. rewrite E1. cbn [bindO fst snd]. rewrite F1. cbn [bindO fst snd blocks_from].
      split; [reflexivity|]. split; [|split].
      * intros b' g'. rewrite F2. unfold store_at. destruct (Nat.eqb_spec b' b) as [->|]; [|reflexivity].
        destruct (Nat.eqb_spec g' g) as [->|]; [exact E2|reflexivity].
      * intros b' g' H. rewrite F3 by (destruct H; [now left|right; lia]). unfold store_at.
        destruct (Nat.eqb_spec b' b) as [->|]; [|reflexivity]. rewrite (proj2 (Nat.eqb_neq g' g)) by (destruct H; [congruence|lia]). reflexivity.
      * intros [|j] G' e q Hj He Hq.
        -- cbn in Hj. inversion Hj; subst G'. rewrite Nat.add_0_r. rewrite F3 by (right; lia). unfold store_at. rewrite !Nat.eqb_refl.
           cbn [andb]. now apply E3.
        -- rewrite <- Nat.add_succ_comm. now apply F4.
Qed.

Lemma holds_step (f : functional St) given cols t wrt (update : bool) n Ig Es (B B' : buffers) (m : mem St) : own f given ->
  nth_error (f_integrals f) n = Some Ig -> holds f given cols B m ->
  (forall b' g', b' <> given n -> B' b' g' = B b' g') ->
  (forall g G e q, nth_error (i_geoms Ig) g = Some G -> (e < length (gk_elems G))%nat -> (q < gk_nq G)%nat ->
     nth_error (B' (given n) g) (e * cols (given n) g + q) =
       Some (if update then snd (gk_qf G e q t (qf_inputs G g Es e q) (m_q m n g e q)) else m_q m n g e q)) ->
  holds f given cols B' (mem_after t wrt update n Ig Es m).
Proof.
  intros Hown Hn Hh Hoth Hin n' Ig' g G e q Hn' HG He Hq. destruct (Nat.eq_dec n' n) as [->|N].
  - rewrite Hn in Hn'. inversion Hn'; subst Ig'. rewrite (Hin g G e q HG He Hq). f_equal.
    cbn [m_q mem_after]. rewrite Nat.eqb_refl, andb_true_r. unfold in_range. rewrite HG.
    rewrite (proj2 (Nat.ltb_lt _ _) He), (proj2 (Nat.ltb_lt _ _) Hq), andb_true_r. now destruct update.
  - destruct (mem_after_other t wrt update n Ig Es m n' N) as [-> _]. rewrite Hoth; [now apply (Hh n' Ig' g G)|].
    intros C. apply N. apply Hown; [| |exact C]; apply nth_error_Some; congruence.
Qed.

Lemma evaluate_buffers_ok (f : functional St) given cols t wrt (update : bool) Ls : own f given -> forall rest pre L B m L' m',
  f_integrals f = pre ++ rest ->
  (forall Ig, In Ig rest -> length (i_geoms Ig) = length (f_test f (i_type Ig))) ->
  roomy f given cols B -> holds f given cols B m ->
  eval_loop f t wrt update Ls (length pre) rest L m = Ok (L', m') ->
  exists B', evaluate_buffers f given cols t update Ls (length pre) rest L B = Ok (L', B') /\
    (forall b g, length (B' b g) = length (B b g)) /\ holds f given cols B' m'.
Proof.
  intros Hown. induction rest as [|Ig rest IH]; intros pre L B m L' m' Hf Hgs Hr Hh Hrun.
  - cbn in Hrun. inversion Hrun; subst. exists B. repeat split; auto.
  - assert (Hn : nth_error (f_integrals f) (length pre) = Some Ig) by (rewrite Hf, nth_error_app2, Nat.sub_diag by lia; reflexivity).
    cbn [eval_loop] in Hrun. cbn [evaluate_buffers].
    destruct (mapO _ (i_active Ig)) as [Es| |]; cbn [bindO] in Hrun |- *; try discriminate.
    destruct (kernels_ok t Es update (given (length pre)) cols (m_q m (length pre)) (i_geoms Ig) (f_test f (i_type Ig)) 0 B) as (B1 & E1 & E2 & E3 & E4).
    + apply Hgs. now left.
    + intros j G Hj. split; [apply (Hr _ Ig _ G Hn Hj)|]. intros e q He Hq. now apply (Hh _ Ig _ G).
    + rewrite E1. cbn [bindO fst snd]. destruct (scatter_blocks _ L) as [L1| |]; cbn [bindO] in Hrun |- *; try discriminate.
      assert (Hpre : length (pre ++ [Ig]) = S (length pre)) by (rewrite app_length; cbn; lia).
      destruct (IH (pre ++ [Ig]) L1 B1 (mem_after t wrt update (length pre) Ig Es m) L' m') as (B2 & F1 & F2 & F3).
      * rewrite <- app_assoc. exact Hf.
      * intros J HJ. apply Hgs. now right.
      * intros n' Ig' g G Hn' HG. rewrite E2. now apply (Hr n' Ig' g G).
      * apply (holds_step f given cols t wrt update (length pre) Ig Es B B1 m Hown Hn Hh).
        -- intros b' g' Hb. apply E3. now left.
        -- intros g G e q HG He Hq. now apply (E4 g G e q).
      * rewrite Hpre. exact Hrun.
      * exists B2. rewrite Hpre in F1. split; [exact F1|]. split; [intros b g; now rewrite F2, E2|exact F3].
Qed.

Lemma perform_buffers_ok (f : functional St) given cols lsize tsize rq B m L m' : wf f lsize tsize -> own f given ->
  roomy f given cols B -> holds f given cols B m -> perform f lsize rq m = Ok (L, m') ->
  exists B', perform_buffers f given cols lsize rq B = Ok (L, B') /\ (forall b g, length (B' b g) = length (B b g)) /\ holds f given cols B' m'.
Proof.
  intros Hwf Hown Hr Hh Hrun. apply (evaluate_buffers_ok f given cols (rq_t rq) (rq_wrt rq) (rq_update rq) (rq_in rq) Hown (f_integrals f) [] _ B m L m'); auto.
  intros Ig HI. now destruct (Hwf Ig HI) as (_ & _ & A & _).
Qed.
Lemma run_buffers_ok (f : functional St) given cols lsize tsize : wf f lsize tsize -> own f given -> forall h B m m',
  roomy f given cols B -> holds f given cols B m -> run f lsize h m = Ok m' ->
  exists B', run_buffers f given cols lsize h B = Ok B' /\ roomy f given cols B' /\ holds f given cols B' m'.
Proof.
  intros Hwf Hown. induction h as [|rq h IH]; intros B m m' Hr Hh Hrun.
  - cbn in Hrun. inversion Hrun; subst. exists B. auto.
  - cbn [run] in Hrun. cbn [run_buffers]. destruct (perform f lsize rq m) as [[L m1]| |] eqn:E; cbn [bindO snd] in Hrun; try discriminate.
    destruct (perform_buffers_ok f given cols lsize tsize rq B m L m1 Hwf Hown Hr Hh E) as (B1 & E1 & E2 & E3).
    rewrite E1. cbn [bindO snd]. apply (IH B1 m1 m'); auto. intros n Ig g G Hn HG. rewrite E2. now apply (Hr n Ig g G).
Qed.

(** every point keeps its own state *)
(** [d] is T{}, which QuadratureData's constructor requires (hpp:127) *)
Lemma own_update (d : St) (f : functional St) given cols lsize tsize rq B : wf f lsize tsize -> fits tsize rq -> own f given -> roomy f given cols B ->
  exists L B', perform_buffers f given cols lsize rq B = Ok (L, B') /\
   (forall b g, length (B' b g) = length (B b g)) /\
   forall n Ig g G e q, nth_error (f_integrals f) n = Some Ig -> nth_error (i_geoms Ig) g = Some G ->
    (e < length (gk_elems G))%nat -> (q < gk_nq G)%nat ->
    exists st, nth_error (B (given n) g) (e * cols (given n) g + q) = Some st /\
      nth_error (B' (given n) g) (e * cols (given n) g + q) =
        Some (if rq_update rq then snd (gk_qf G e q (rq_t rq) (qf_inputs G g (Es_of f (rq_in rq) Ig) e q) st) else st).
Proof.
  intros Hwf Hfit Hown Hr.
  assert (Hslot : forall n Ig g G e q, nth_error (f_integrals f) n = Some Ig -> nth_error (i_geoms Ig) g = Some G ->
    (e < length (gk_elems G))%nat -> (q < gk_nq G)%nat -> (e * cols (given n) g + q < length (B (given n) g))%nat).
  { intros n Ig g G e q Hn HG He Hq. destruct (Hr n Ig g G Hn HG) as [A1 A2]. nia. }
  set (m := {| m_q := fun n g e q => nth (e * cols (given n) g + q) (B (given n) g) d; m_d := fun _ _ _ _ _ => None |} : mem St).
  assert (Hh : holds f given cols B m).
  { intros n Ig g G e q Hn HG He Hq. apply nth_error_nth'. now apply (Hslot n Ig g G). }
  destruct (evaluate_spec f (rq_t rq) (rq_wrt rq) (rq_update rq) (rq_in rq) lsize m (wf_fits f lsize tsize rq Hwf Hfit)) as (L & E & _).
  destruct (perform_buffers_ok f given cols lsize tsize rq B m L _ Hwf Hown Hr Hh E) as (B' & E1 & E2 & E3).
  exists L, B'. split; [exact E1|]. split; [exact E2|]. intros n Ig g G e q Hn HG He Hq.
  exists (m_q m n g e q). split; [now apply (Hh n Ig g G)|]. rewrite (E3 n Ig g G e q Hn HG He Hq). f_equal.
  rewrite mem_sum_q. change (Nat.ltb n 0) with false; cbv iota. rewrite Nat.sub_0_r, Hn, HG.
  rewrite (proj2 (Nat.ltb_lt _ _) He), (proj2 (Nat.ltb_lt _ _) Hq), !andb_true_r. reflexivity.
Qed.
End Buffers.

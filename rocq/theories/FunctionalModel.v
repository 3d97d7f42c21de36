(** * serac::Functional: evaluation, stored derivatives, action of the gradient
    Models functional.hpp:406-498 and integral.hpp:65-103, on local (L) vectors; the parallel
    prolongation is added in the last section.  Geometries are positions in lists; a geometry
    without elements in a domain has an empty element list (integral.hpp:191, 280). *)
From Coq Require Import NArith ZArith Reals List Lia Lra Bool.
From Coquelicot Require Import Coquelicot.
From Verif Require Import Prelude DofCodec Sums Restriction Kernels.
Import ListNotations.
Local Open Scope R_scope.

Inductive dtype := Elements | BoundaryElements.   (* Domain::Type, domain.hpp *)

(** The kernels an Integral holds for one geometry (integral.hpp:184-222, 275-311).
    [gk_qf e q t inputs st] is the user's q-function at quadrature point q of the e-th element of the
    domain, composed with the fixed maps parent_to_physical and physical_to_parent (or the surface scale
    factor); it returns its output and the new material state.  [gk_ad s e q t inputs st] is the derivative
    array which the same call on dual numbers returns, with respect to the s-th argument. *)
Record gkernel (St : Type) := {
  gk_elems : list nat;
  gk_dim1 : nat;
  gk_nq : nat;
  gk_w : nat -> R;
  gk_test : elem_space;
  gk_trial : nat -> elem_space;
  gk_qf : nat -> nat -> R -> (nat -> slots) -> St -> slots * St;
  gk_ad : nat -> nat -> nat -> R -> (nat -> slots) -> St -> deriv;
}.
Arguments gk_elems {St}. Arguments gk_dim1 {St}. Arguments gk_nq {St}. Arguments gk_w {St}.
Arguments gk_test {St}. Arguments gk_trial {St}. Arguments gk_qf {St}. Arguments gk_ad {St}.

Record integral (St : Type) := { i_type : dtype; i_active : list nat; i_geoms : list (gkernel St) }.
Arguments i_type {St}. Arguments i_active {St}. Arguments i_geoms {St}.

Record functional (St : Type) := {
  f_test : dtype -> list restriction;             (* G_test_[type].restrictions *)
  f_trial : nat -> dtype -> list restriction;     (* G_trial_[type][i].restrictions *)
  f_integrals : list (integral St);
}.
Arguments f_test {St}. Arguments f_trial {St}. Arguments f_integrals {St}.

(** Mutable memory: quadrature state and the stored q-function derivatives, by integral number, (argument,)
    geometry, element and quadrature point.  [None]: allocated, never written (integral.hpp:212, 301). *)
Record mem (St : Type) := {
  m_q : nat -> nat -> nat -> nat -> St;
  m_d : nat -> nat -> nat -> nat -> nat -> option deriv;
}.
Arguments m_q {St}. Arguments m_d {St}.

(** functional_to_integral_index_ (integral.hpp:45-47): a later duplicate overwrites an earlier one *)
Fixpoint index_from (n : nat) (active : list nat) (w : nat) : option nat :=
  match active with
  | [] => None
  | a :: t => match index_from (S n) t w with Some k => Some k | None => if Nat.eqb a w then Some n else None end
  end.
Definition index_of := index_from 0.

Definition tab (n : nat) (f : nat -> R) : list R := map f (seq 0 n).

Section Model.
Context {St : Type}.
Notation gkernel := (gkernel St). Notation integral := (integral St).
Notation functional := (functional St). Notation mem := (mem St).

(** u[elements[e]] seen as tensor<double, c, ndof> (domain_integral_kernels.hpp:171-183) *)
Definition elem_dofs (S : elem_space) (E : list R) (el : nat) : local :=
  fun i k => nth ((el * es_c S + i) * es_n S + k) E 0.

(** inputs of the q-function: one per active argument; [Es] holds, per active argument, the block vector *)
Definition qf_inputs (G : gkernel) (g : nat) (Es : list (list (list R))) (le q : nat) : nat -> slots :=
  fun s => interpolate (gk_trial G s) (elem_dofs (gk_trial G s) (nth g (nth s Es []) []) (nth le (gk_elems G) 0%nat)) q.

(** r[elements[e]] accumulated over the elements of the domain (hpp:216, boundary 203) *)
Definition accumulate (G : gkernel) (rtest : restriction) (r : nat -> local) : list R :=
  let c := es_c (gk_test G) in let n := es_n (gk_test G) in
  tab (esize rtest) (fun idx => sumn (length (gk_elems G)) (fun le =>
    if Nat.eqb (nth le (gk_elems G) 0%nat) (idx / (c * n)) then r le ((idx / n) mod c)%nat (idx mod n)%nat else 0)).

Definition eval_geom (t : R) (G : gkernel) (rtest : restriction) (g : nat) (Es : list (list (list R)))
                     (q_st : nat -> nat -> St) : list R :=
  accumulate G rtest (fun le => integrate (gk_test G) (gk_dim1 G) (gk_nq G) (gk_w G)
    (fun q => fst (gk_qf G le q t (qf_inputs G g Es le q) (q_st le q)))).

(** block vector: one entry per geometry *)
Fixpoint blocks_from {A} (g : nat) (Gs : list gkernel) (rs : list restriction) (h : nat -> gkernel -> restriction -> A) : list A :=
  match Gs, rs with
  | G :: Gs', r :: rs' => h g G r :: blocks_from (S g) Gs' rs' h
  | _, _ => []
  end.

(** state and derivatives written during an evaluation (hpp:143-147, 209-213) *)
Definition in_range (Ig : integral) (g e q : nat) : bool :=
  match nth_error (i_geoms Ig) g with
  | Some G => (Nat.ltb e (length (gk_elems G)) && Nat.ltb q (gk_nq G))%bool
  | None => false
  end.
Definition mem_after (t : R) (wrt : option nat) (update : bool) (n : nat) (Ig : integral) (Es : list (list (list R))) (m : mem) : mem :=
  {| m_q := fun n' g e q =>
       if (update && Nat.eqb n' n && in_range Ig g e q)%bool then
         match nth_error (i_geoms Ig) g with
         | Some G => snd (gk_qf G e q t (qf_inputs G g Es e q) (m_q m n' g e q))
         | None => m_q m n' g e q end
       else m_q m n' g e q;
     m_d := fun n' s g e q =>
       match wrt with
       | Some w => match index_of (i_active Ig) w with
                   | Some s' => if (Nat.eqb n' n && Nat.eqb s s' && in_range Ig g e q)%bool then
                        match nth_error (i_geoms Ig) g with
                        | Some G => Some (gk_ad G s e q t (qf_inputs G g Es e q) (m_q m n' g e q))
                        | None => m_d m n' s g e q end
                      else m_d m n' s g e q
                   | None => m_d m n' s g e q end
       | None => m_d m n' s g e q
       end |}.

Fixpoint mapO {A B} (f : A -> outcome B) (l : list A) : outcome (list B) :=
  match l with [] => Ok [] | a :: t => bindO (f a) (fun b => bindO (mapO f t) (fun bs => Ok (b :: bs))) end.

(** The loop of Functional::operator() (functional.hpp:462-476) *)
Fixpoint eval_loop (f : functional) (t : R) (wrt : option nat) (update : bool) (Ls : nat -> list R)
                   (n : nat) (ints : list integral) (L : list R) (m : mem) : outcome (list R * mem) :=
  match ints with
  | [] => Ok (L, m)
  | Ig :: rest =>
      bindO (mapO (fun s => gather_blocks (f_trial f s (i_type Ig)) (Ls s)) (i_active Ig)) (fun Es =>
      bindO (scatter_blocks (combine (f_test f (i_type Ig))
               (blocks_from 0 (i_geoms Ig) (f_test f (i_type Ig)) (fun g G r => eval_geom t G r g Es (m_q m n g)))) L) (fun L' =>
      eval_loop f t wrt update Ls (S n) rest L' (mem_after t wrt update n Ig Es m)))
  end.
Definition evaluate f t wrt update Ls (lsize : nat) m : outcome (list R * mem) :=
  eval_loop f t wrt update Ls 0 (f_integrals f) (repeat 0 lsize) m.

(** Integral::GradientMult (integral.hpp:93-103); reading a derivative never written is undefined *)
Definition written (m : mem) (n s g : nat) (G : gkernel) : bool :=
  forallb (fun e => forallb (fun q => match m_d m n s g e q with Some _ => true | None => false end) (seq 0 (gk_nq G)))
          (seq 0 (length (gk_elems G))).
Definition the_deriv (o : option deriv) : deriv := match o with Some D => D | None => fun _ _ _ _ => 0 end.
Definition jvp_geom (G : gkernel) (rtest : restriction) (g s : nat) (E : list (list R)) (m : mem) (n : nat) : list R :=
  accumulate G rtest (fun le => jvp (gk_test G) (gk_trial G s) (gk_dim1 G) (gk_nq G) (gk_w G)
     (fun q => the_deriv (m_d m n s g le q)) (elem_dofs (gk_trial G s) (nth g E []) (nth le (gk_elems G) 0%nat))).
Definition gradient_mult (f : functional) (n : nat) (Ig : integral) (w : nat) (E : list (list R)) (m : mem) : outcome (list (list R)) :=
  let rs := f_test f (i_type Ig) in
  match index_of (i_active Ig) w with
  | None => Ok (map (fun r => repeat 0 (esize r)) rs)
  | Some s =>
      if forallb (fun b => b) (blocks_from 0 (i_geoms Ig) rs (fun g G r => written m n s g G))
      then Ok (blocks_from 0 (i_geoms Ig) rs (fun g G r => jvp_geom G r g s E m n))
      else UB
  end.

(** ActionOfGradient (functional.hpp:406-432) *)
Fixpoint action_loop (f : functional) (w : nat) (m : mem) (dx : list R) (n : nat) (ints : list integral) (L : list R) : outcome (list R) :=
  match ints with
  | [] => Ok L
  | Ig :: rest =>
      bindO (gather_blocks (f_trial f w (i_type Ig)) dx) (fun E =>
      bindO (gradient_mult f n Ig w E m) (fun out =>
      bindO (scatter_blocks (combine (f_test f (i_type Ig)) out) L) (action_loop f w m dx (S n) rest)))
  end.
Definition action f w m dx lsize := action_loop f w m dx 0 (f_integrals f) (repeat 0 lsize).

(** ** Total forms of gather and scatter *)
Definition gatherF (r : restriction) (L : list R) : list R :=
  tab (esize r) (fun idx => nth (Z.to_nat (snd (nth idx (loop_ids r) (0, 0)%Z))) L 0).
Definition scatterF (r : restriction) (E L : list R) : list R :=
  tab (length L) (fun k => nth k L 0 + suml (loop_ids r) (fun p => if Z.eqb (snd p) (Z.of_nat k) then nth (Z.to_nat (fst p)) E 0 else 0)).

Lemma tab_length n f : length (tab n f) = n.
Proof. unfold tab. now rewrite map_length, seq_length. Qed.
Lemma nth_tab n f k d : (k < n)%nat -> nth k (tab n f) d = f k.
Proof.
  intros H. unfold tab. rewrite (nth_indep _ d (f 0%nat)) by (now rewrite map_length, seq_length).
  rewrite map_nth, seq_nth by auto. reflexivity.
Qed.
Lemma nth_tab0 n f k : (n <= k)%nat -> nth k (tab n f) 0 = 0.
Proof. intros H. apply nth_overflow. now rewrite tab_length. Qed.

Lemma loop_ids_length r : length (loop_ids r) = esize r.
Proof. rewrite <- (map_length fst), loop_E_ids, map_length, seq_length. reflexivity. Qed.
Lemma loop_ids_nth r idx : (idx < esize r)%nat -> fst (nth idx (loop_ids r) (0,0)%Z) = Z.of_nat idx.
Proof.
  intros H. change (fst (nth idx (loop_ids r) (0,0)%Z)) with (fst (nth idx (loop_ids r) (0,0)%Z)).
  rewrite <- (map_nth fst), loop_E_ids. cbn [fst]. change 0%Z with (Z.of_nat 0). rewrite map_nth, seq_nth by auto. reflexivity.
Qed.

Lemma gather_total r L : ids_ok r (length L) -> gather r L (repeat 0 (esize r)) = Ok (gatherF r L).
Proof.
  intros Hok. destruct (gather_loop_spec (loop_ids r) L (repeat 0 (esize r)) (loop_E_nodup r)) as (G & A & B & C & _).
  { intros e l H. rewrite repeat_length. split; [eapply loop_E_range; eauto|eapply Hok; eauto]. }
  unfold gather. rewrite A. f_equal. rewrite repeat_length in B.
  apply (nth_ext _ _ 0 0); [unfold gatherF; rewrite tab_length; auto|].
  intros idx Hidx. unfold gatherF. rewrite nth_tab by lia.
  assert (Hin : In (nth idx (loop_ids r) (0,0)%Z) (loop_ids r)) by (apply nth_In; rewrite loop_ids_length; lia).
  pose proof (loop_ids_nth r idx ltac:(lia)) as Hf.
  destruct (nth idx (loop_ids r) (0, 0)%Z) as [e l] eqn:E. cbn [fst snd] in *. subst e.
  specialize (C _ _ Hin). rewrite Nat2Z.id in C. exact C.
Qed.
Lemma scatter_total r E L : ids_ok r (length L) -> length E = esize r -> scatter r E L = Ok (scatterF r E L).
Proof.
  intros Hok HE. destruct (scatter_entry r E L Hok HE) as (L' & A & B & C). rewrite A. f_equal.
  apply (nth_ext _ _ 0 0); [unfold scatterF; rewrite tab_length; auto|].
  intros k Hk. unfold scatterF. rewrite nth_tab by lia. apply C. lia.
Qed.
Lemma scatterF_length r E L : length (scatterF r E L) = length L.
Proof. apply tab_length. Qed.

Fixpoint scatter_blocksF (bs : list (restriction * list R)) (L : list R) : list R :=
  match bs with [] => L | (r, E) :: t => scatter_blocksF t (scatterF r E L) end.
Lemma scatter_blocks_total bs : forall L, (forall r E, In (r, E) bs -> ids_ok r (length L) /\ length E = esize r) ->
  scatter_blocks bs L = Ok (scatter_blocksF bs L).
Proof.
  induction bs as [|[r E] bs IH]; intros L H; [reflexivity|]. cbn [scatter_blocks scatter_blocksF].
  destruct (H r E) as [A B]; [now left|]. rewrite scatter_total by auto. cbn [bindO]. apply IH.
  intros r' E' H'. rewrite scatterF_length. apply H. now right.
Qed.
Lemma scatter_blocksF_length bs : forall L, length (scatter_blocksF bs L) = length L.
Proof. induction bs as [|[r E] bs IH]; intros L; [reflexivity|]. cbn. now rewrite IH, scatterF_length. Qed.
(** what one scatter adds at position k *)
Definition contrib (r : restriction) (E : list R) (k : nat) : R :=
  suml (loop_ids r) (fun p => if Z.eqb (snd p) (Z.of_nat k) then nth (Z.to_nat (fst p)) E 0 else 0).
Lemma scatter_blocksF_entry bs : forall L k, (k < length L)%nat ->
  nth k (scatter_blocksF bs L) 0 = nth k L 0 + suml bs (fun p => contrib (fst p) (snd p) k).
Proof.
  induction bs as [|[r E] bs IH]; intros L k Hk; [cbn; ring|]. cbn [scatter_blocksF suml fst snd].
  rewrite IH by (now rewrite scatterF_length). unfold scatterF. rewrite nth_tab by auto. unfold contrib. ring.
Qed.
Lemma gather_blocks_total rs L : (forall r, In r rs -> ids_ok r (length L)) -> gather_blocks rs L = Ok (map (fun r => gatherF r L) rs).
Proof.
  induction rs as [|r rs IH]; intros H; [reflexivity|]. cbn [gather_blocks map].
  rewrite gather_total by (apply H; now left). cbn [bindO]. rewrite IH by (intros; apply H; now right). reflexivity.
Qed.
Lemma mapO_total {A B} (f : A -> outcome B) (h : A -> B) l : (forall a, In a l -> f a = Ok (h a)) -> mapO f l = Ok (map h l).
Proof.
  induction l as [|a l IH]; intros H; [reflexivity|]. cbn [mapO map]. rewrite H by (now left). cbn [bindO].
  rewrite IH by (intros; apply H; now right). reflexivity.
Qed.

(** ** Well-formed functionals *)
Definition wf_integral (f : functional) (lsize : nat) (tsize : nat -> nat) (Ig : integral) : Prop :=
  (forall r, In r (f_test f (i_type Ig)) -> ids_ok r lsize) /\
  (forall w r, In r (f_trial f w (i_type Ig)) -> ids_ok r (tsize w)) /\
  length (i_geoms Ig) = length (f_test f (i_type Ig)) /\
  NoDup (i_active Ig).
Definition wf (f : functional) (lsize : nat) (tsize : nat -> nat) : Prop :=
  forall Ig, In Ig (f_integrals f) -> wf_integral f lsize tsize Ig.

Lemma blocks_from_length {A} Gs : forall rs g (h : nat -> gkernel -> restriction -> A), length Gs = length rs ->
  length (blocks_from g Gs rs h) = length rs.
Proof. induction Gs as [|G Gs IH]; intros [|r rs] g h H; cbn in *; try lia. rewrite IH; lia. Qed.
Lemma combine_blocks_in Gs : forall rs g (h : nat -> gkernel -> restriction -> list R) r E,
  In (r, E) (combine rs (blocks_from g Gs rs h)) -> In r rs /\ exists g' G, E = h g' G r.
Proof.
  induction Gs as [|G Gs IH]; intros [|r0 rs] g h r E H; cbn in H; try contradiction.
  destruct H as [H|H].
  - inversion H; subst. split; [now left|]. now exists g, G.
  - apply IH in H as [A B]. split; [now right|auto].
Qed.

Definition Es_of (f : functional) (Ls : nat -> list R) (Ig : integral) : list (list (list R)) :=
  map (fun s => map (fun r => gatherF r (Ls s)) (f_trial f s (i_type Ig))) (i_active Ig).
Definition res_blocks f t Ls m n Ig :=
  combine (f_test f (i_type Ig)) (blocks_from 0 (i_geoms Ig) (f_test f (i_type Ig)) (fun g G r => eval_geom t G r g (Es_of f Ls Ig) (m_q m n g))).
(** the residual contribution of integral number n at dof k *)
Definition res_contrib f t Ls m n Ig k : R := suml (res_blocks f t Ls m n Ig) (fun p => contrib (fst p) (snd p) k).
Fixpoint res_sum f t Ls (m : mem) n ints k : R :=
  match ints with [] => 0 | Ig :: rest => res_contrib f t Ls m n Ig k + res_sum f t Ls m (S n) rest k end.
Fixpoint mem_sum f t wrt update Ls n ints (m : mem) : mem :=
  match ints with [] => m | Ig :: rest => mem_sum f t wrt update Ls (S n) rest (mem_after t wrt update n Ig (Es_of f Ls Ig) m) end.

Lemma mem_after_other t wrt u n Ig Es m n' : n' <> n ->
  m_q (mem_after t wrt u n Ig Es m) n' = m_q m n' /\ m_d (mem_after t wrt u n Ig Es m) n' = m_d m n'.
Proof.
  intros H. cbn. apply Nat.eqb_neq in H. rewrite H. rewrite andb_false_r. cbn. split; [reflexivity|].
  destruct wrt as [w|]; [|reflexivity]. destruct (index_of (i_active Ig) w); reflexivity.
Qed.
Lemma res_sum_mem f t Ls ints : forall m m' n k, (forall n', (n <= n')%nat -> m_q m n' = m_q m' n') ->
  res_sum f t Ls m n ints k = res_sum f t Ls m' n ints k.
Proof.
  induction ints as [|Ig ints IH]; intros m m' n k H; [reflexivity|]. cbn [res_sum]. f_equal.
  - unfold res_contrib, res_blocks. rewrite (H n) by lia. reflexivity.
  - apply IH. intros n' H'. apply H. lia.
Qed.

Lemma eval_loop_spec f t wrt update Ls lsize ints : forall n L m,
  (forall Ig, In Ig ints -> wf_integral f lsize (fun w => length (Ls w)) Ig) -> length L = lsize ->
  exists L', eval_loop f t wrt update Ls n ints L m = Ok (L', mem_sum f t wrt update Ls n ints m) /\
    length L' = lsize /\ forall k, (k < lsize)%nat -> nth k L' 0 = nth k L 0 + res_sum f t Ls m n ints k.
Proof.
  induction ints as [|Ig ints IH]; intros n L m Hwf HL.
  - exists L. split; [reflexivity|]. split; auto. intros. cbn. ring.
  - destruct (Hwf Ig) as (W1 & W2 & W3 & W4); [now left|]. cbn [eval_loop].
    rewrite (mapO_total _ (fun s => map (fun r => gatherF r (Ls s)) (f_trial f s (i_type Ig)))).
    2:{ intros s Hs. apply gather_blocks_total. intros r Hr. apply (W2 s r Hr). }
    cbn [bindO]. fold (Es_of f Ls Ig). fold (res_blocks f t Ls m n Ig).
    rewrite scatter_blocks_total.
    2:{ intros r E H. apply combine_blocks_in in H as (A & g' & G & ->). split; [rewrite HL; auto|]. apply tab_length. }
    cbn [bindO].
    destruct (IH (S n) (scatter_blocksF (res_blocks f t Ls m n Ig) L) (mem_after t wrt update n Ig (Es_of f Ls Ig) m)) as (L' & A & B & C).
    { intros J HJ. apply Hwf. now right. } { rewrite scatter_blocksF_length; auto. }
    exists L'. split; [exact A|]. split; auto. intros k Hk. rewrite C by auto.
    rewrite scatter_blocksF_entry by lia. cbn [res_sum]. fold (res_contrib f t Ls m n Ig k).
    rewrite (res_sum_mem f t Ls ints (mem_after t wrt update n Ig (Es_of f Ls Ig) m) m).
    + ring.
    + intros n' Hn'. apply mem_after_other. lia.
Qed.
Lemma evaluate_spec f t wrt update Ls lsize m : wf f lsize (fun w => length (Ls w)) ->
  exists L', evaluate f t wrt update Ls lsize m = Ok (L', mem_sum f t wrt update Ls 0 (f_integrals f) m) /\
    length L' = lsize /\ forall k, (k < lsize)%nat -> nth k L' 0 = res_sum f t Ls m 0 (f_integrals f) k.
Proof.
  intros H. unfold evaluate. destruct (eval_loop_spec f t wrt update Ls lsize (f_integrals f) 0 (repeat 0 lsize) m H) as (L' & A & B & C);
    [apply repeat_length|].
  exists L'. split; auto. split; auto. intros k Hk. rewrite C by auto. rewrite nth_repeat. ring.
Qed.

(** ** Quadrature state (C17) *)
Lemma mem_sum_q f t wrt update Ls ints : forall n0 m n g e q,
  m_q (mem_sum f t wrt update Ls n0 ints m) n g e q =
  match (if Nat.ltb n n0 then None else nth_error ints (n - n0)) with
  | Some Ig => match nth_error (i_geoms Ig) g with
              | Some G => if (update && Nat.ltb e (length (gk_elems G)) && Nat.ltb q (gk_nq G))%bool
                          then snd (gk_qf G e q t (qf_inputs G g (Es_of f Ls Ig) e q) (m_q m n g e q)) else m_q m n g e q
              | None => m_q m n g e q end
  | None => m_q m n g e q
  end.
Proof.
  induction ints as [|Ig ints IH]; intros n0 m n g e q.
  - cbn [mem_sum]. destruct (Nat.ltb n n0); [reflexivity|]. destruct (n - n0)%nat; reflexivity.
  - cbn [mem_sum]. rewrite IH. destruct (Nat.ltb_spec n n0) as [A|A].
    + replace (Nat.ltb n (S n0)) with true by (symmetry; apply Nat.ltb_lt; lia).
      destruct (mem_after_other t wrt update n0 Ig (Es_of f Ls Ig) m n) as [-> _]; [lia|reflexivity].
    + destruct (Nat.eq_dec n n0) as [->|N].
      * replace (Nat.ltb n0 (S n0)) with true by (symmetry; apply Nat.ltb_lt; lia). rewrite Nat.sub_diag. cbn [nth_error].
        cbn. rewrite Nat.eqb_refl, andb_true_r. unfold in_range.
        destruct (nth_error (i_geoms Ig) g) as [G|]; [|rewrite andb_false_r; reflexivity]. rewrite andb_assoc. reflexivity.
      * replace (Nat.ltb n (S n0)) with false by (symmetry; apply Nat.ltb_ge; lia).
        replace (n - n0)%nat with (S (n - S n0)) by lia. cbn [nth_error].
        destruct (mem_after_other t wrt update n0 Ig (Es_of f Ls Ig) m n) as [-> _]; [lia|reflexivity].
Qed.
Lemma mem_sum_d f t wrt update Ls ints : forall n0 m n s g e q,
  m_d (mem_sum f t wrt update Ls n0 ints m) n s g e q =
  match (if Nat.ltb n n0 then None else nth_error ints (n - n0)), wrt with
  | Some Ig, Some w =>
      match index_of (i_active Ig) w, nth_error (i_geoms Ig) g with
      | Some s', Some G => if (Nat.eqb s s' && (Nat.ltb e (length (gk_elems G)) && Nat.ltb q (gk_nq G)))%bool
             then Some (gk_ad G s e q t (qf_inputs G g (Es_of f Ls Ig) e q) (m_q m n g e q)) else m_d m n s g e q
      | _, _ => m_d m n s g e q end
  | _, _ => m_d m n s g e q
  end.
Proof.
  induction ints as [|Ig ints IH]; intros n0 m n s g e q.
  - cbn [mem_sum]. destruct (Nat.ltb n n0); [reflexivity|]. destruct (n - n0)%nat; reflexivity.
  - cbn [mem_sum]. rewrite IH. destruct (Nat.ltb_spec n n0) as [A|A].
    + replace (Nat.ltb n (S n0)) with true by (symmetry; apply Nat.ltb_lt; lia).
      destruct (mem_after_other t wrt update n0 Ig (Es_of f Ls Ig) m n) as [_ ->]; [lia|reflexivity].
    + destruct (Nat.eq_dec n n0) as [->|N].
      * replace (Nat.ltb n0 (S n0)) with true by (symmetry; apply Nat.ltb_lt; lia). rewrite Nat.sub_diag. cbn [nth_error].
        cbn. destruct wrt as [w|]; [|reflexivity]. destruct (index_of (i_active Ig) w) as [s'|]; [|reflexivity].
        rewrite Nat.eqb_refl. cbn [andb]. unfold in_range.
        destruct (nth_error (i_geoms Ig) g) as [G|]; [reflexivity|]. rewrite andb_false_r. reflexivity.
      * replace (Nat.ltb n (S n0)) with false by (symmetry; apply Nat.ltb_ge; lia).
        replace (n - n0)%nat with (S (n - S n0)) by lia. cbn [nth_error].
        destruct (mem_after_other t wrt update n0 Ig (Es_of f Ls Ig) m n) as [-> ->]; [lia|reflexivity].
Qed.

(** ** Gradient action *)
Definition jvp_blocks (f : functional) (w : nat) (m : mem) (dx : list R) n (Ig : integral) : list (restriction * list R) :=
  match index_of (i_active Ig) w with
  | None => []
  | Some s => combine (f_test f (i_type Ig)) (blocks_from 0 (i_geoms Ig) (f_test f (i_type Ig))
        (fun g G r => jvp_geom G r g s (map (fun r => gatherF r dx) (f_trial f w (i_type Ig))) m n))
  end.
Definition jvp_contrib f w m dx n Ig k : R := suml (jvp_blocks f w m dx n Ig) (fun p => contrib (fst p) (snd p) k).
Fixpoint jvp_sum f w (m : mem) dx n ints k : R :=
  match ints with [] => 0 | Ig :: rest => jvp_contrib f w m dx n Ig k + jvp_sum f w m dx (S n) rest k end.
(** all derivatives an action with respect to argument w reads have been stored *)
Definition all_written (f : functional) (w : nat) (m : mem) : Prop :=
  forall n Ig s g G e q, nth_error (f_integrals f) n = Some Ig -> index_of (i_active Ig) w = Some s ->
    nth_error (i_geoms Ig) g = Some G -> (e < length (gk_elems G))%nat -> (q < gk_nq G)%nat ->
    m_d m n s g e q <> None.

Lemma contrib_zero r k : contrib r (repeat 0 (esize r)) k = 0.
Proof. unfold contrib. apply suml_zero. intros p _. rewrite nth_repeat. destruct (Z.eqb _ _); reflexivity. Qed.
Lemma contrib_zeros rs k : suml (combine rs (map (fun r => repeat 0 (esize r)) rs)) (fun p => contrib (fst p) (snd p) k) = 0.
Proof. induction rs as [|r rs IH]; cbn; [reflexivity|]. rewrite IH, contrib_zero. ring. Qed.
Lemma combine_zeros_in rs r E : In (r, E) (combine rs (map (fun r => repeat 0 (esize r)) rs)) -> In r rs /\ length E = esize r.
Proof.
  induction rs as [|a rs IH]; cbn; [tauto|]. intros [H|H].
  - inversion H; subst. split; auto. apply repeat_length.
  - apply IH in H as [A B]. auto.
Qed.
Lemma forallb_blocks Gs : forall rs g (h : nat -> gkernel -> restriction -> bool),
  (forall g' G r, nth_error Gs g' = Some G -> h (g + g')%nat G r = true) -> forallb (fun b => b) (blocks_from g Gs rs h) = true.
Proof.
  induction Gs as [|G Gs IH]; intros [|r rs] g h H; cbn; auto.
  rewrite IH. - specialize (H 0%nat G r eq_refl). rewrite Nat.add_0_r in H. now rewrite H.
  - intros g' G' r' E. specialize (H (S g') G' r' E). now rewrite Nat.add_succ_comm.
Qed.

Lemma action_loop_spec f w m dx lsize ints : forall n L,
  (forall Ig, In Ig ints -> 
     ((forall r, In r (f_test f (i_type Ig)) -> ids_ok r lsize) /\ (forall r, In r (f_trial f w (i_type Ig)) -> ids_ok r (length dx)))) ->
  (forall n' Ig s g G e q, nth_error ints n' = Some Ig -> index_of (i_active Ig) w = Some s ->
    nth_error (i_geoms Ig) g = Some G -> (e < length (gk_elems G))%nat -> (q < gk_nq G)%nat -> m_d m (n + n') s g e q <> None) ->
  length L = lsize ->
  exists L', action_loop f w m dx n ints L = Ok L' /\ length L' = lsize /\
    forall k, (k < lsize)%nat -> nth k L' 0 = nth k L 0 + jvp_sum f w m dx n ints k.
Proof.
  induction ints as [|Ig ints IH]; intros n L Hwf Hd HL.
  - exists L. repeat split; auto. intros. cbn. ring.
  - assert (W : (forall r, In r (f_test f (i_type Ig)) -> ids_ok r lsize) /\ (forall r, In r (f_trial f w (i_type Ig)) -> ids_ok r (length dx))).
    { apply Hwf. now left. }
    destruct W as [W1 W2]. cbn [action_loop]. rewrite gather_blocks_total by auto. cbn [bindO].
    unfold gradient_mult.
    assert (HdS : forall n' J s g G e q, nth_error ints n' = Some J -> index_of (i_active J) w = Some s ->
       nth_error (i_geoms J) g = Some G -> (e < length (gk_elems G))%nat -> (q < gk_nq G)%nat -> m_d m (S n + n') s g e q <> None).
    { intros n' J s g G e q H1. specialize (Hd (S n') J s g G e q H1). now rewrite Nat.add_succ_comm. }
    assert (HIH := fun L0 HL0 => IH (S n) L0 (fun J HJ => Hwf J (or_intror HJ)) HdS HL0).
    destruct (index_of (i_active Ig) w) as [s|] eqn:Es.
    + rewrite forallb_blocks.
      2:{ intros g' G r HG. unfold written. apply forallb_forall. intros e He. apply forallb_forall. intros q Hq.
          apply in_seq in He, Hq. specialize (Hd 0%nat Ig s g' G e q eq_refl Es HG ltac:(lia) ltac:(lia)).
          rewrite Nat.add_0_r in Hd. cbn [Nat.add]. destruct (m_d m n s g' e q); congruence. }
      cbn [bindO]. rewrite scatter_blocks_total.
      2:{ intros r E H. apply combine_blocks_in in H as (A & g' & G & ->). split; [rewrite HL; auto|]. apply tab_length. }
      cbn [bindO].
      match goal with |- context [action_loop f w m dx (S n) ints (scatter_blocksF ?B L)] =>
        destruct (HIH (scatter_blocksF B L)) as (L' & A & B' & C); [rewrite scatter_blocksF_length; exact HL|] end.
      exists L'. split; [exact A|]. split; auto. intros k Hk. rewrite C by auto. rewrite scatter_blocksF_entry by lia.
      cbn [jvp_sum]. unfold jvp_contrib, jvp_blocks. rewrite Es. ring.
    + cbn [bindO]. rewrite scatter_blocks_total.
      2:{ intros r E H. apply combine_zeros_in in H as (A & B). split; [rewrite HL; auto|auto]. }
      cbn [bindO].
      match goal with |- context [action_loop f w m dx (S n) ints (scatter_blocksF ?B L)] =>
        destruct (HIH (scatter_blocksF B L)) as (L' & A & B' & C); [rewrite scatter_blocksF_length; exact HL|] end.
      exists L'. split; [exact A|]. split; auto. intros k Hk. rewrite C by auto. rewrite scatter_blocksF_entry by lia.
      rewrite contrib_zeros. cbn [jvp_sum]. unfold jvp_contrib, jvp_blocks. rewrite Es. cbn [suml]. ring.
Qed.
End Model.

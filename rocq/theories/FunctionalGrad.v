(** * The stored gradient is the derivative of the residual; quadrature state histories
    Proofs about FunctionalModel.v (functional.hpp:406-512, integral.hpp:65-103). *)
From Coq Require Import NArith ZArith Reals List Lia Lra Bool FunctionalExtensionality.
From Coquelicot Require Import Coquelicot.
From Verif Require Import Prelude DofCodec Sums Restriction Kernels FunctionalModel.
Import ListNotations.
Local Open Scope R_scope.

(** ** Derivatives of finite sums *)
Lemma is_derive_sumn n (f : nat -> R -> R) (d : nat -> R) x :
  (forall i, (i < n)%nat -> is_derive (f i) x (d i)) -> is_derive (fun y => sumn n (fun i => f i y)) x (sumn n d).
Proof.
  induction n as [|n IH]; intros H; cbn [sumn].
  - apply (is_derive_const (K:=R_AbsRing) (V:=R_NormedModule) 0 x).
  - apply (is_derive_plus (K:=R_AbsRing) (V:=R_NormedModule) (fun y => sumn n (fun i => f i y)) (f n)); [apply IH; intros; apply H; lia|apply H; lia].
Qed.
Lemma is_derive_suml {A} (l : list A) (f : A -> R -> R) (d : A -> R) x :
  (forall a, In a l -> is_derive (f a) x (d a)) -> is_derive (fun y => suml l (fun a => f a y)) x (suml l d).
Proof.
  induction l as [|a l IH]; intros H; cbn [suml].
  - apply (is_derive_const (K:=R_AbsRing) (V:=R_NormedModule) 0 x).
  - apply (is_derive_plus (K:=R_AbsRing) (V:=R_NormedModule) (f a) (fun y => suml l (fun a => f a y))); [apply H; now left|apply IH; intros; apply H; now right].
Qed.
Lemma is_derive_mulr (f : R -> R) x l c : is_derive f x l -> is_derive (fun y => f y * c) x (l * c).
Proof.
  intros H. apply (is_derive_ext (fun y => scal c (f y))).
  - intros y. unfold scal; cbn; unfold mult; cbn. ring.
  - replace (l * c) with (scal c l) by (unfold scal; cbn; unfold mult; cbn; ring). now apply (is_derive_scal f x c l).
Qed.

(** ** Perturbed inputs *)
Definition shiftL (Ls : nat -> list R) (w : nat) (dx : list R) (eps : R) : nat -> list R :=
  fun s => if Nat.eqb s w then tab (length (Ls w)) (fun i => nth i (Ls w) 0 + eps * nth i dx 0) else Ls s.
Definition shift_slots (v : nat -> slots) (s : nat) (d : slots) (eps : R) : nat -> slots :=
  fun s' j a => if Nat.eqb s' s then v s' j a + eps * d j a else v s' j a.

Lemma shiftL_length Ls w dx eps s : length (shiftL Ls w dx eps s) = length (Ls s).
Proof. unfold shiftL. destruct (Nat.eqb_spec s w) as [->|]; [apply tab_length|reflexivity]. Qed.

Lemma ltb_0 n : Nat.ltb n 0 = false.
Proof. reflexivity. Qed.

Section Grad.
Context {St : Type}.
Notation gkernel := (gkernel St). Notation integral := (integral St).
Notation functional := (functional St). Notation mem := (mem St).

Lemma gatherF_shift r Ls w dx eps idx : length dx = length (Ls w) ->
  nth idx (gatherF r (shiftL Ls w dx eps w)) 0 = nth idx (gatherF r (Ls w)) 0 + eps * nth idx (gatherF r dx) 0.
Proof.
  intros Hl. unfold gatherF. destruct (Nat.lt_ge_cases idx (esize r)) as [H|H].
  - rewrite !nth_tab by auto. unfold shiftL. rewrite Nat.eqb_refl.
    set (k := Z.to_nat _). destruct (Nat.lt_ge_cases k (length (Ls w))) as [A|A].
    + rewrite nth_tab by auto. reflexivity.
    + rewrite nth_tab0 by auto. rewrite !nth_overflow by lia. ring.
  - rewrite !nth_tab0 by auto. ring.
Qed.
Lemma blocks_shift rs Ls w dx eps g idx : length dx = length (Ls w) ->
  nth idx (nth g (map (fun r => gatherF r (shiftL Ls w dx eps w)) rs) []) 0 =
  nth idx (nth g (map (fun r => gatherF r (Ls w)) rs) []) 0 + eps * nth idx (nth g (map (fun r => gatherF r dx) rs) []) 0.
Proof.
  intros Hl. revert g. induction rs as [|r rs IH]; intros [|g]; cbn [map nth]; try (destruct idx; cbn; ring).
  - now apply gatherF_shift.
  - apply IH.
Qed.

Lemma index_from_spec active w : forall n s, index_from n active w = Some s -> exists k, s = (n + k)%nat /\ nth_error active k = Some w.
Proof.
  induction active as [|a t IH]; intros n s H; cbn in H; [discriminate|].
  destruct (index_from (S n) t w) as [k|] eqn:E.
  - inversion H; subst. destruct (IH _ _ E) as (k' & -> & B). exists (S k'). split; [lia|exact B].
  - destruct (Nat.eqb_spec a w) as [->|]; [|discriminate]. inversion H; subst. exists 0%nat. split; [lia|reflexivity].
Qed.
Lemma index_from_none active w : forall n, index_from n active w = None -> ~ In w active.
Proof.
  induction active as [|a t IH]; intros n H; cbn in H; [auto|].
  destruct (index_from (S n) t w) as [k|] eqn:E; [discriminate|]. destruct (Nat.eqb_spec a w); [discriminate|].
  intros [B|B]; [contradiction|]. now apply (IH _ E).
Qed.
Lemma index_of_spec active w s : index_of active w = Some s -> nth_error active s = Some w.
Proof. intros H. apply index_from_spec in H as (k & -> & B). exact B. Qed.

Lemma nth_Es (f : functional) Ls Ig s : nth s (Es_of f Ls Ig) [] =
  match nth_error (i_active Ig) s with Some a => map (fun r => gatherF r (Ls a)) (f_trial f a (i_type Ig)) | None => [] end.
Proof.
  unfold Es_of. destruct (nth_error (i_active Ig) s) as [a|] eqn:E.
  - apply nth_error_nth. rewrite nth_error_map, E. reflexivity.
  - apply nth_overflow. rewrite map_length. now apply nth_error_None.
Qed.

(** the q-function's inputs move along a straight line *)
Definition dir (f : functional) (w : nat) (dx : list R) (Ig : integral) (G : gkernel) (g s e q : nat) : slots :=
  interpolate (gk_trial G s) (elem_dofs (gk_trial G s) (nth g (map (fun r => gatherF r dx) (f_trial f w (i_type Ig))) [])
     (nth e (gk_elems G) 0%nat)) q.
Lemma qf_inputs_shift f Ls w dx eps (Ig : integral) G g e q s :
  length dx = length (Ls w) -> NoDup (i_active Ig) -> index_of (i_active Ig) w = Some s ->
  qf_inputs G g (Es_of f (shiftL Ls w dx eps) Ig) e q = shift_slots (qf_inputs G g (Es_of f Ls Ig) e q) s (dir f w dx Ig G g s e q) eps.
Proof.
  intros Hl ND Hs. apply index_of_spec in Hs.
  apply functional_extensionality. intros s'. apply functional_extensionality. intros j. apply functional_extensionality. intros a.
  unfold qf_inputs, shift_slots, dir. rewrite !nth_Es. destruct (Nat.eqb_spec s' s) as [->|N].
  - rewrite Hs. rewrite <- interpolate_lin. apply interpolate_ext. intros k _. unfold elem_dofs. now apply blocks_shift.
  - apply interpolate_ext. intros k _. unfold elem_dofs. destruct (nth_error (i_active Ig) s') as [b|] eqn:E; [|reflexivity].
    assert (b <> w).
    { intros ->. apply N. apply (proj1 (NoDup_nth_error (i_active Ig)) ND); [|congruence].
      apply nth_error_Some. congruence. }
    unfold shiftL. apply Nat.eqb_neq in H. now rewrite H.
Qed.
Lemma Es_shift_none f Ls w dx eps (Ig : integral) : index_of (i_active Ig) w = None -> Es_of f (shiftL Ls w dx eps) Ig = Es_of f Ls Ig.
Proof.
  intros H. apply index_from_none in H. unfold Es_of. apply map_ext_in. intros a Ha. unfold shiftL.
  destruct (Nat.eqb_spec a w) as [->|]; [contradiction|reflexivity].
Qed.

(** ** What automatic differentiation is relied on for (see Dual.v) *)
Definition ad_correct_at (f : functional) (w : nat) (t : R) (Ls : nat -> list R) (m : mem) : Prop :=
  forall n Ig s g G e q, nth_error (f_integrals f) n = Some Ig -> index_of (i_active Ig) w = Some s ->
    nth_error (i_geoms Ig) g = Some G -> (e < length (gk_elems G))%nat -> (q < gk_nq G)%nat ->
    let v := qf_inputs G g (Es_of f Ls Ig) e q in
    forall (d : slots) i b, is_derive (fun eps => fst (gk_qf G e q t (shift_slots v s d eps) (m_q m n g e q)) i b) 0
      (chain_rule (gk_trial G s) (gk_dim1 G) (gk_ad G s e q t v (m_q m n g e q)) d i b).

(** the stored derivatives of argument w are those of the point (t, Ls, state m) *)
Definition stored_at (f : functional) (w : nat) (t : R) (Ls : nat -> list R) (m m2 : mem) : Prop :=
  forall n Ig s g G e q, nth_error (f_integrals f) n = Some Ig -> index_of (i_active Ig) w = Some s ->
    nth_error (i_geoms Ig) g = Some G -> (e < length (gk_elems G))%nat -> (q < gk_nq G)%nat ->
    m_d m2 n s g e q = Some (gk_ad G s e q t (qf_inputs G g (Es_of f Ls Ig) e q) (m_q m n g e q)).

Lemma is_derive_blocks (Gs : list gkernel) : forall rs g (h : R -> nat -> gkernel -> restriction -> list R) (h' : nat -> gkernel -> restriction -> list R) k x,
  (forall g' G r, nth_error Gs g' = Some G -> In r rs -> is_derive (fun eps => contrib r (h eps (g + g')%nat G r) k) x (contrib r (h' (g + g')%nat G r) k)) ->
  is_derive (fun eps => suml (combine rs (blocks_from g Gs rs (h eps))) (fun p => contrib (fst p) (snd p) k)) x
            (suml (combine rs (blocks_from g Gs rs h')) (fun p => contrib (fst p) (snd p) k)).
Proof.
  induction Gs as [|G Gs IH]; intros [|r rs] g h h' k x H; cbn [combine blocks_from suml];
    try apply (is_derive_const (K:=R_AbsRing) (V:=R_NormedModule) 0 x).
  cbn [fst snd].
  apply (is_derive_plus (K:=R_AbsRing) (V:=R_NormedModule)).
  - specialize (H 0%nat G r eq_refl (or_introl eq_refl)). now rewrite Nat.add_0_r in H.
  - apply (IH rs (S g) h h'). intros g' G' r' HG Hr. specialize (H (S g') G' r' HG (or_intror Hr)).
    now rewrite Nat.add_succ_comm.
Qed.

Lemma is_derive_contrib r (E : R -> list R) E' k x :
  (forall idx, (idx < esize r)%nat -> is_derive (fun eps => nth idx (E eps) 0) x (nth idx E' 0)) ->
  is_derive (fun eps => contrib r (E eps) k) x (contrib r E' k).
Proof.
  intros H. unfold contrib. apply (is_derive_suml (loop_ids r) (fun p eps => if Z.eqb (snd p) (Z.of_nat k) then nth (Z.to_nat (fst p)) (E eps) 0 else 0)).
  intros [e l] Hin. cbn [fst snd]. destruct (Z.eqb l (Z.of_nat k)).
  - apply H. apply loop_E_range in Hin. lia.
  - apply (is_derive_const (K:=R_AbsRing) (V:=R_NormedModule) 0 x).
Qed.

Lemma is_derive_accumulate (G : gkernel) r (h : R -> nat -> local) (h' : nat -> local) idx x : (idx < esize r)%nat ->
  (forall le i k, (le < length (gk_elems G))%nat -> is_derive (fun eps => h eps le i k) x (h' le i k)) ->
  is_derive (fun eps => nth idx (accumulate G r (h eps)) 0) x (nth idx (accumulate G r h') 0).
Proof.
  intros Hidx H. unfold accumulate. rewrite nth_tab by auto.
  apply (is_derive_ext (fun eps => sumn (length (gk_elems G)) (fun le =>
    if Nat.eqb (nth le (gk_elems G) 0%nat) (idx / (es_c (gk_test G) * es_n (gk_test G))) then
      h eps le ((idx / es_n (gk_test G)) mod es_c (gk_test G))%nat (idx mod es_n (gk_test G))%nat else 0))).
  { intros eps. rewrite nth_tab by auto. reflexivity. }
  apply (is_derive_sumn _ (fun le eps => if Nat.eqb (nth le (gk_elems G) 0%nat) (idx / (es_c (gk_test G) * es_n (gk_test G))) then
      h eps le ((idx / es_n (gk_test G)) mod es_c (gk_test G))%nat (idx mod es_n (gk_test G))%nat else 0)).
  intros le Hle. destruct (Nat.eqb _ _); [now apply H|apply (is_derive_const (K:=R_AbsRing) (V:=R_NormedModule) 0 x)].
Qed.
Lemma is_derive_integrate Sp dim1 nq wt (o : R -> nat -> slots) (o' : nat -> slots) i k x :
  (forall q b, (q < nq)%nat -> is_derive (fun eps => o eps q i b) x (o' q i b)) ->
  is_derive (fun eps => integrate Sp dim1 nq wt (o eps) i k) x (integrate Sp dim1 nq wt o' i k).
Proof.
  intros H. unfold integrate.
  apply (is_derive_sumn nq (fun q eps => sumn dim1 (fun b => o eps q i b * es_B Sp k q b) * wt q)). intros q Hq.
  apply (is_derive_mulr (fun eps => sumn dim1 (fun b => o eps q i b * es_B Sp k q b))).
  apply (is_derive_sumn dim1 (fun b eps => o eps q i b * es_B Sp k q b)). intros b Hb.
  apply (is_derive_mulr (fun eps => o eps q i b)). now apply H.
Qed.

Lemma is_derive_res_contrib f w t Ls dx (m m2 : mem) lsize n Ig k :
  wf_integral f lsize (fun a => length (Ls a)) Ig -> length dx = length (Ls w) ->
  nth_error (f_integrals f) n = Some Ig -> ad_correct_at f w t Ls m -> stored_at f w t Ls m m2 ->
  is_derive (fun eps => res_contrib f t (shiftL Ls w dx eps) m n Ig k) 0 (jvp_contrib f w m2 dx n Ig k).
Proof.
  intros (W1 & W2 & W3 & W4) Hl Hn Had Hst. unfold res_contrib, jvp_contrib, res_blocks, jvp_blocks.
  destruct (index_of (i_active Ig) w) as [s|] eqn:Es.
  - apply is_derive_blocks. intros g' G r HG Hr. cbn [Nat.add]. apply is_derive_contrib. intros idx Hidx.
    unfold eval_geom, jvp_geom.
    apply (is_derive_accumulate G r (fun eps le => integrate (gk_test G) (gk_dim1 G) (gk_nq G) (gk_w G)
      (fun q => fst (gk_qf G le q t (qf_inputs G g' (Es_of f (shiftL Ls w dx eps) Ig) le q) (m_q m n g' le q))))); [auto|].
    intros le i kk Hle. unfold jvp.
    apply is_derive_integrate. intros q b Hq.
    rewrite (Hst n Ig s g' G le q Hn Es HG Hle Hq). cbn [the_deriv].
    specialize (Had n Ig s g' G le q Hn Es HG Hle Hq (dir f w dx Ig G g' s le q) i b). cbn zeta in Had.
    eapply is_derive_ext; [|exact Had]. intros eps. cbn beta. rewrite (qf_inputs_shift f Ls w dx eps Ig G g' le q s) by auto. reflexivity.
  - cbn [suml]. apply (is_derive_ext (fun _ => res_contrib f t Ls m n Ig k)).
    + intros eps. unfold res_contrib, res_blocks. now rewrite Es_shift_none.
    + apply (is_derive_const (K:=R_AbsRing) (V:=R_NormedModule)).
Qed.

Lemma nth_error_skipn {A} (l : list A) n k : nth_error (skipn n l) k = nth_error l (n + k).
Proof. revert l. induction n as [|n IH]; intros l; [reflexivity|]. destruct l; cbn; [now destruct k|apply IH]. Qed.

Lemma is_derive_res_sum f w t Ls dx (m m2 : mem) lsize k :
  wf f lsize (fun a => length (Ls a)) -> length dx = length (Ls w) ->
  ad_correct_at f w t Ls m -> stored_at f w t Ls m m2 ->
  is_derive (fun eps => res_sum f t (shiftL Ls w dx eps) m 0 (f_integrals f) k) 0 (jvp_sum f w m2 dx 0 (f_integrals f) k).
Proof.
  intros Hwf Hl Had Hst.
  assert (Gen : forall ints n, (forall j Ig, nth_error ints j = Some Ig -> nth_error (f_integrals f) (n + j) = Some Ig) ->
     is_derive (fun eps => res_sum f t (shiftL Ls w dx eps) m n ints k) 0 (jvp_sum f w m2 dx n ints k)).
  { induction ints as [|Ig ints IH]; intros n H; cbn [res_sum jvp_sum].
    - apply (is_derive_const (K:=R_AbsRing) (V:=R_NormedModule) 0 0).
    - apply (is_derive_plus (K:=R_AbsRing) (V:=R_NormedModule)).
      + pose proof (H 0%nat Ig eq_refl) as Hn. rewrite Nat.add_0_r in Hn.
        apply (is_derive_res_contrib f w t Ls dx m m2 lsize); auto. apply Hwf. eapply nth_error_In; eauto.
      + apply IH. intros j J HJ. specialize (H (S j) J HJ). now rewrite Nat.add_succ_comm. }
  apply Gen. intros j Ig H. exact H.
Qed.

(** ** Histories *)
(** One evaluation request: time, argument to differentiate (or none), the updateQdata flag in force, inputs. *)
Record request := { rq_t : R; rq_wrt : option nat; rq_update : bool; rq_in : nat -> list R }.
Definition perform (f : functional) (lsize : nat) (rq : request) (m : mem) : outcome (list R * mem) :=
  evaluate f (rq_t rq) (rq_wrt rq) (rq_update rq) (rq_in rq) lsize m.
Fixpoint run (f : functional) (lsize : nat) (h : list request) (m : mem) : outcome mem :=
  match h with [] => Ok m | rq :: t => bindO (perform f lsize rq m) (fun p => run f lsize t (snd p)) end.

Definition fits (tsize : nat -> nat) (rq : request) : Prop := forall w, length (rq_in rq w) = tsize w.
Lemma wf_fits (f : functional) lsize tsize rq : wf f lsize tsize -> fits tsize rq -> wf f lsize (fun w => length (rq_in rq w)).
Proof.
  intros H Hf Ig HI. destruct (H Ig HI) as (A & B & C & D). split; [exact A|]. split; [|split; auto].
  intros w r Hr. rewrite Hf. now apply (B w).
Qed.
Lemma perform_mem (f : functional) lsize tsize rq m : wf f lsize tsize -> fits tsize rq ->
  exists L, perform f lsize rq m = Ok (L, mem_sum f (rq_t rq) (rq_wrt rq) (rq_update rq) (rq_in rq) 0 (f_integrals f) m) /\ length L = lsize /\
    forall k, (k < lsize)%nat -> nth k L 0 = res_sum f (rq_t rq) (rq_in rq) m 0 (f_integrals f) k.
Proof. intros H Hf. apply evaluate_spec. eapply wf_fits; eauto. Qed.

Lemma mem_sum_stored (f : functional) w t update Ls (m : mem) : stored_at f w t Ls m (mem_sum f t (Some w) update Ls 0 (f_integrals f) m).
Proof.
  intros n Ig s g G e q Hn Hs HG He Hq. rewrite mem_sum_d. rewrite ltb_0, Nat.sub_0_r, Hn, Hs, HG.
  rewrite Nat.eqb_refl. apply Nat.ltb_lt in He, Hq. now rewrite He, Hq.
Qed.
Lemma index_of_inj active w w' s : index_of active w = Some s -> index_of active w' = Some s -> w = w'.
Proof. intros A B. apply index_of_spec in A, B. congruence. Qed.
Lemma mem_sum_keeps (f : functional) w t wrt update Ls m0 t0 Ls0 (m : mem) : wrt <> Some w -> stored_at f w t0 Ls0 m0 m ->
  stored_at f w t0 Ls0 m0 (mem_sum f t wrt update Ls 0 (f_integrals f) m).
Proof.
  intros Hw H n Ig s g G e q Hn Hs HG He Hq. rewrite mem_sum_d. rewrite ltb_0, Nat.sub_0_r, Hn.
  destruct wrt as [w'|]; [|now apply (H n Ig s g G e q)].
  destruct (index_of (i_active Ig) w') as [s'|] eqn:E; [|now apply (H n Ig s g G e q)]. rewrite HG.
  destruct (Nat.eqb_spec s s') as [->|]; [|now apply (H n Ig s g G e q)].
  exfalso. apply Hw. f_equal. eapply index_of_inj; eauto.
Qed.

Lemma run_app (f : functional) lsize h1 h2 m : run f lsize (h1 ++ h2) m = bindO (run f lsize h1 m) (fun m1 => run f lsize h2 m1).
Proof.
  revert m. induction h1 as [|rq h1 IH]; intros m; [reflexivity|]. cbn [app run].
  destruct (perform f lsize rq m) as [[L m']| |]; cbn [bindO snd]; auto.
Qed.
Lemma run_ok (f : functional) lsize tsize h : forall m, wf f lsize tsize -> List.Forall (fits tsize) h -> exists m', run f lsize h m = Ok m'.
Proof.
  induction h as [|rq h IH]; intros m Hwf Hf; [now exists m|]. inversion Hf; subst.
  destruct (perform_mem f lsize tsize rq m Hwf H1) as (L & A & _). cbn [run]. rewrite A. cbn [bindO snd]. now apply IH.
Qed.
Lemma run_keeps (f : functional) lsize tsize w t0 Ls0 m0 h : forall m m', wf f lsize tsize -> List.Forall (fits tsize) h ->
  List.Forall (fun rq => rq_wrt rq <> Some w) h -> stored_at f w t0 Ls0 m0 m -> run f lsize h m = Ok m' -> stored_at f w t0 Ls0 m0 m'.
Proof.
  induction h as [|rq h IH]; intros m m' Hwf Hf Hw Hst Hr; cbn [run] in Hr; [now inversion Hr; subst|].
  inversion Hf; subst. inversion Hw; subst.
  destruct (perform_mem f lsize tsize rq m Hwf H1) as (L & A & _). rewrite A in Hr. cbn [bindO snd] in Hr.
  refine (IH _ m' Hwf _ _ _ Hr); [assumption|assumption|now apply mem_sum_keeps].
Qed.

Lemma action_spec (f : functional) w (m : mem) lsize tsize dx t Ls m0 : wf f lsize tsize -> length dx = tsize w -> stored_at f w t Ls m0 m ->
  exists A, action f w m dx lsize = Ok A /\ length A = lsize /\ forall k, (k < lsize)%nat -> nth k A 0 = jvp_sum f w m dx 0 (f_integrals f) k.
Proof.
  intros Hwf Hl Hst. destruct (action_loop_spec f w m dx lsize (f_integrals f) 0 (repeat 0 lsize)) as (A & B & C & D).
  - intros Ig HI. destruct (Hwf Ig HI) as (W1 & W2 & _). split; auto. rewrite Hl. intros r Hr. now apply (W2 w).
  - intros n' Ig s g G e q H1 H2 H3 H4 H5. cbn [Nat.add]. rewrite (Hst n' Ig s g G e q) by auto. discriminate.
  - apply repeat_length.
  - exists A. split; [exact B|]. split; [exact C|]. intros k Hk. rewrite D by auto. rewrite nth_repeat. ring.
Qed.

(** The main statement: see P_Functional.v *)
Lemma gradient_after_history (f : functional) lsize tsize w rq dx h1 h2 m0 mend :
  wf f lsize tsize -> List.Forall (fits tsize) (h1 ++ rq :: h2) -> length dx = tsize w ->
  rq_wrt rq = Some w -> List.Forall (fun r => rq_wrt r <> Some w) h2 ->
  run f lsize (h1 ++ rq :: h2) m0 = Ok mend ->
  exists mbefore, run f lsize h1 m0 = Ok mbefore /\
  (ad_correct_at f w (rq_t rq) (rq_in rq) mbefore ->
   exists (res : R -> list R) (act : list R),
    (forall eps, exists m', evaluate f (rq_t rq) None false (shiftL (rq_in rq) w dx eps) lsize mbefore = Ok (res eps, m')) /\
    action f w mend dx lsize = Ok act /\ length act = lsize /\
    forall k, (k < lsize)%nat -> is_derive (fun eps => nth k (res eps) 0) 0 (nth k act 0)).
Proof.
  intros Hwf Hf Hl Hrq Hh2 Hrun. rewrite run_app in Hrun. apply Forall_app in Hf as [Hf1 Hf2]. inversion Hf2 as [|? ? Hfr Hf2']; subst.
  destruct (run_ok f lsize tsize h1 m0 Hwf Hf1) as [mb Hmb]. exists mb. split; [exact Hmb|]. intros Had.
  rewrite Hmb in Hrun. cbn [bindO run] in Hrun.
  destruct (perform_mem f lsize tsize rq mb Hwf Hfr) as (L & A & _). rewrite A in Hrun. cbn [bindO snd] in Hrun.
  assert (Hst : stored_at f w (rq_t rq) (rq_in rq) mb mend).
  { eapply (run_keeps f lsize tsize); [exact Hwf|exact Hf2'|exact Hh2| |exact Hrun]. rewrite Hrq. apply mem_sum_stored. }
  destruct (action_spec f w mend lsize tsize dx _ _ _ Hwf Hl Hst) as (act & A1 & A2 & A3).
  exists (fun eps => tab lsize (res_sum f (rq_t rq) (shiftL (rq_in rq) w dx eps) mb 0 (f_integrals f))), act.
  assert (Hfs : forall eps, wf f lsize (fun a => length (shiftL (rq_in rq) w dx eps a))).
  { intros eps Ig HI. destruct (Hwf Ig HI) as (B1 & B2 & B3 & B4). split; [exact B1|]. split; [|split; auto]. intros a r Hr. rewrite shiftL_length, Hfr. now apply (B2 a). }
  split; [|split; [exact A1|split; [exact A2|]]].
  - intros eps. destruct (evaluate_spec f (rq_t rq) None false (shiftL (rq_in rq) w dx eps) lsize mb (Hfs eps)) as (L' & B1 & B2 & B3).
    eexists. rewrite B1. repeat f_equal. apply (nth_ext _ _ 0 0); [now rewrite tab_length|].
    intros k Hk. rewrite nth_tab by lia. apply B3. lia.
  - intros k Hk. rewrite A3 by auto.
    apply (is_derive_ext (fun eps => res_sum f (rq_t rq) (shiftL (rq_in rq) w dx eps) mb 0 (f_integrals f) k)).
    { intros eps. now rewrite nth_tab. }
    apply (is_derive_res_sum f w (rq_t rq) (rq_in rq) dx mb mend lsize); auto.
    + eapply wf_fits; eauto.
    + now rewrite Hfr.
Qed.

(** the returned value does not depend on whether (or with respect to what) derivatives are requested *)
Lemma value_indep_of_wrt (f : functional) lsize t wrt wrt' u u' Ls m L L' m1 m2 : wf f lsize (fun w => length (Ls w)) ->
  evaluate f t wrt u Ls lsize m = Ok (L, m1) -> evaluate f t wrt' u' Ls lsize m = Ok (L', m2) -> L = L'.
Proof.
  intros Hwf A B. destruct (evaluate_spec f t wrt u Ls lsize m Hwf) as (L1 & C1 & C2 & C3).
  destruct (evaluate_spec f t wrt' u' Ls lsize m Hwf) as (L2 & D1 & D2 & D3).
  rewrite A in C1. rewrite B in D1. inversion C1; inversion D1; subst L1 L2.
  apply (nth_ext _ _ 0 0); [congruence|]. intros k Hk. rewrite C3, D3 by lia. reflexivity.
Qed.

(** ** Quadrature state *)
Lemma run_no_update (f : functional) lsize tsize h : forall m m', wf f lsize tsize -> List.Forall (fits tsize) h ->
  List.Forall (fun rq => rq_update rq = false) h -> run f lsize h m = Ok m' -> forall n g e q, m_q m' n g e q = m_q m n g e q.
Proof.
  induction h as [|rq h IH]; intros m m' Hwf Hf Hu Hr n g e q; cbn [run] in Hr; [now inversion Hr; subst|].
  inversion Hf as [|? ? F1 F2]; subst. inversion Hu as [|? ? U1 U2]; subst.
  destruct (perform_mem f lsize tsize rq m Hwf F1) as (L & A & _). rewrite A in Hr. cbn [bindO snd] in Hr.
  rewrite (IH _ _ Hwf F2 U2 Hr). rewrite mem_sum_q. rewrite U1. cbn [andb].
  destruct (if Nat.ltb n 0 then None else nth_error (f_integrals f) (n - 0)) as [Ig|]; [|reflexivity].
  destruct (nth_error (i_geoms Ig) g); reflexivity.
Qed.
(** trial evaluations between two evaluations of the same request do not change its value *)
Lemma repeatable (f : functional) lsize tsize h rq m m' L L' m1 m2 : wf f lsize tsize -> List.Forall (fits tsize) h -> fits tsize rq ->
  List.Forall (fun r => rq_update r = false) h ->
  run f lsize h m = Ok m' -> perform f lsize rq m = Ok (L, m1) -> perform f lsize rq m' = Ok (L', m2) -> L' = L.
Proof.
  intros Hwf Hf Hr Hu H1 H2 H3.
  destruct (perform_mem f lsize tsize rq m Hwf Hr) as (L1 & C1 & C2 & C3).
  destruct (perform_mem f lsize tsize rq m' Hwf Hr) as (L2 & D1 & D2 & D3).
  rewrite H2 in C1. rewrite H3 in D1. inversion C1; inversion D1; subst L1 L2.
  apply (nth_ext _ _ 0 0); [congruence|]. intros k Hk. rewrite C3, D3 by lia.
  apply res_sum_mem. intros n _.
  apply functional_extensionality. intros g. apply functional_extensionality. intros e. apply functional_extensionality. intros q.
  now apply (run_no_update f lsize tsize h).
Qed.
Lemma updated_state (f : functional) lsize tsize rq m L m' n Ig g G e q : wf f lsize tsize -> fits tsize rq -> rq_update rq = true ->
  perform f lsize rq m = Ok (L, m') ->
  nth_error (f_integrals f) n = Some Ig -> nth_error (i_geoms Ig) g = Some G ->
  (e < length (gk_elems G))%nat -> (q < gk_nq G)%nat ->
  m_q m' n g e q = snd (gk_qf G e q (rq_t rq) (qf_inputs G g (Es_of f (rq_in rq) Ig) e q) (m_q m n g e q)).
Proof.
  intros Hwf Hr Hu H Hn HG He Hq. destruct (perform_mem f lsize tsize rq m Hwf Hr) as (L1 & C1 & _).
  rewrite H in C1. inversion C1; subst. rewrite mem_sum_q. rewrite ltb_0, Nat.sub_0_r, Hn, HG, Hu.
  apply Nat.ltb_lt in He, Hq. now rewrite He, Hq.
Qed.
Lemma untouched_state (f : functional) lsize tsize rq m L m' n g e q : wf f lsize tsize -> fits tsize rq ->
  perform f lsize rq m = Ok (L, m') ->
  (forall Ig G, nth_error (f_integrals f) n = Some Ig -> nth_error (i_geoms Ig) g = Some G ->
     (length (gk_elems G) <= e)%nat \/ (gk_nq G <= q)%nat) ->
  m_q m' n g e q = m_q m n g e q.
Proof.
  intros Hwf Hr H Hout. destruct (perform_mem f lsize tsize rq m Hwf Hr) as (L1 & C1 & _).
  rewrite H in C1. inversion C1; subst. rewrite mem_sum_q. rewrite ltb_0, Nat.sub_0_r.
  destruct (nth_error (f_integrals f) n) as [Ig|] eqn:En; [|reflexivity].
  destruct (nth_error (i_geoms Ig) g) as [G|] eqn:Eg; [|reflexivity].
  destruct (Hout Ig G eq_refl Eg) as [B|B]; apply Nat.ltb_ge in B; rewrite B, ?andb_false_r; reflexivity.
Qed.
End Grad.

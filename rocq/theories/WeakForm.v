(** * The residual of a functional as a weak form
    What Functional::operator() (functional.hpp:450-498) adds up at the degrees of freedom, tested with an
    arbitrary nodal field; the integrands which SolidMechanics (solid_mechanics.hpp:808-1103) and HeatTransfer
    (heat_transfer.hpp:379-553) hand to it, and the totals of their residuals.  Real arithmetic. *)
From Coq Require Import NArith ZArith Reals List Lia Lra Bool.
From Verif Require Import Prelude DofCodec Sums Restriction Kernels FunctionalModel Assembly Tensor MatAlg Materials ShapeAware.
Import ListNotations.
Local Open Scope R_scope.

(** ** the integrands, at one quadrature point *)
(** what an integrand returns: for a domain integral a source and a flux, for a boundary integral a load *)
Inductive point :=
| Volume (J : mat) (source : vec) (flux : mat)
| Surface (area : R) (load : vec).
Definition slots_of (p : (nat -> R) * (nat -> nat -> R)) : slots := fun i b => match b with O => fst p i | S j => snd p i j end.
(** pulled back to the parent element: finite_element.hpp:291-322 (H1) for a domain integral; the multiplication by
    the surface measure for a boundary integral (boundary_integral_kernels.hpp:105-121, 171) *)
Definition point_out (n : nat) (p : point) : option slots :=
  match p with
  | Volume J s P => match physical_to_parent n H1 J (s, P) with Some v => Some (slots_of v) | None => None end
  | Surface a l => Some (fun i b => match b with O => l i * a | S _ => 0 end)
  end.

(** cross of a 2-by-1 or 3-by-2 matrix of tangents (tensor.hpp, "cross"), and its norm *)
Definition crossn (n : nat) (D : mat) : vec := fun i =>
  if Nat.eqb n 2 then match i with O => D 1%nat 0%nat | S O => - D 0%nat 0%nat | _ => 0 end
  else match i with
       | O => D 1%nat 0%nat * D 2%nat 1%nat - D 2%nat 0%nat * D 1%nat 1%nat
       | S O => D 2%nat 0%nat * D 0%nat 1%nat - D 0%nat 0%nat * D 2%nat 1%nat
       | S (S O) => D 0%nat 0%nat * D 1%nat 1%nat - D 1%nat 0%nat * D 0%nat 1%nat
       | _ => 0 end.
Definition vnorm (n : nat) (v : vec) : R := sqrt (sumn n (fun i => v i * v i)).

(** physical gradient of an H1 field whose parent gradient is in slots 1.. (finite_element.hpp:250-260) *)
Definition grad_phys (n : nat) (J : mat) (u : slots) : option mat :=
  match parent_to_physical n H1 J (fun i => u i 0%nat, fun i j => u i (S j)) with Some v => Some (snd v) | None => None end.

(** the terms of a solid's residual.  [sigma] gives the stress from the displacement gradient and the state;
    parameters are fixed inside the functions. *)
Inductive solid_term (St : Type) :=
| SMaterial (on : bool) (density : R) (sigma : St -> mat -> option mat)      (* solid_mechanics.hpp:808-853, 880-897 *)
| SBody (b : vec -> R -> vec)                                             (* 955-1002 *)
| STraction (tr : vec -> vec -> R -> vec)                                 (* 1024-1043 *)
| SPressure (on : bool) (p : vec -> R -> R).                              (* 1069-1103 *)
Arguments SMaterial {St}. Arguments SBody {St}. Arguments STraction {St}. Arguments SPressure {St}.
(** X, J: position and its parent gradient (n columns in the domain, n-1 on the boundary); u, a: displacement and
    acceleration with their parent derivatives.  [None]: a division by zero in an inverse or in the material. *)
Definition solid_point {St} (n : nat) (T : solid_term St) (t : R) (X : vec) (J : mat) (u a : slots) (st : St) : option point :=
  match T with
  | SMaterial on rho sigma =>
      match grad_phys n J u with None => None | Some H =>
      match sigma st H with None => None | Some s =>
      match flux n on s H with None => None | Some P => Some (Volume J (fun i => rho * a i 0%nat) P) end end end
  | SBody b => Some (Volume J (fun i => - 1 * b X t i) (fun _ _ => 0))
  | STraction tr => let nu := crossn n J in if Req_EM_T (vnorm n nu) 0 then None
      else Some (Surface (vnorm n nu) (fun i => - 1 * tr X (fun k => nu k / vnorm n nu) t i))
  | SPressure on p => let nu := crossn n J in if Req_EM_T (vnorm n nu) 0 then None
      else let D := madd J (mscal 0 (fun i j => u i (S j))) in
           let D := if on then madd D (fun i j => u i (S j)) else D in
           Some (Surface (vnorm n nu) (fun i => p X t * (crossn n D i / vnorm n nu)))
  end.

(** the terms of a heat residual: one component *)
Inductive heat_term :=
| HMaterial (m : vec -> R -> vec -> R * vec)                              (* heat_transfer.hpp:379-406 *)
| HSource (s : vec -> R -> R -> vec -> R)                                  (* 488-506 *)
| HFlux (q : vec -> vec -> R -> R -> R).                                  (* 538-553 *)
Definition heat_point (n : nat) (T : heat_term) (t : R) (X : vec) (J : mat) (u ut : slots) : option point :=
  match T with
  | HMaterial m => match grad_phys n J u with None => None | Some H =>
      let r := m X (u 0%nat 0%nat) (H 0%nat) in Some (Volume J (fun _ => fst r * ut 0%nat 0%nat) (fun _ j => - 1 * snd r j)) end
  | HSource s => match grad_phys n J u with None => None | Some H =>
      Some (Volume J (fun _ => - 1 * s X t (u 0%nat 0%nat) (H 0%nat)) (fun _ _ => 0)) end
  | HFlux q => let nu := crossn n J in if Req_EM_T (vnorm n nu) 0 then None
      else Some (Surface (vnorm n nu) (fun _ => q X (fun k => nu k / vnorm n nu) t (u 0%nat 0%nat)))
  end.

(** ** specification *)
(** number of the degree of freedom of component [c] of node [a] *)
Definition dof_number (o : ordering) (nn nc a c : nat) : nat := match o with byNODES => c * nn + a | byVDIM => a * nc + c end.
(** sum over the nodes of one component of a vector *)
Definition total (o : ordering) (nn nc : nat) (L : list R) (c : nat) : R := sumn nn (fun a => nth (dof_number o nn nc a c) L 0).
(** the vector with value [h a c] at component [c] of node [a] *)
Definition nodal (o : ordering) (nn nc : nat) (h : nat -> nat -> R) : list R :=
  tab (nn * nc) (fun l => match o with byNODES => h (l mod nn) (l / nn) | byVDIM => h (l / nc) (l mod nc) end)%nat.
(** number of the node which is the j-th of an element *)
Definition node_of (r : restriction) (el j : nat) : nat := N.to_nat (dof_index (dof_at r el j)).

Section WeakForm.
Context {St : Type}.
Notation gkernel := (gkernel St). Notation integral := (integral St).
Notation functional := (functional St). Notation mem := (mem St).

Definition fits (G : gkernel) (r : restriction) : Prop :=
  es_c (gk_test G) = r_components r /\ es_n (gk_test G) = r_nodes_per_elem r /\
  (forall el, In el (gk_elems G) -> (el < r_num_elements r)%nat).
Definition all_fit (f : functional) : Prop := forall Ig g G r, In Ig (f_integrals f) ->
  nth_error (i_geoms Ig) g = Some G -> nth_error (f_test f (i_type Ig)) g = Some r -> fits G r.
(** sum over all quadrature points of all integrals, with the quadrature weights *)
Definition over_points (f : functional) (h : nat -> integral -> nat -> gkernel -> restriction -> nat -> nat -> R) : R :=
  sumn (length (f_integrals f)) (fun n => match nth_error (f_integrals f) n with None => 0 | Some Ig =>
    sumn (length (i_geoms Ig)) (fun g => match nth_error (i_geoms Ig) g, nth_error (f_test f (i_type Ig)) g with
      | Some G, Some r => sumn (length (gk_elems G)) (fun le => sumn (gk_nq G) (fun q => h n Ig g G r le q * gk_w G q))
      | _, _ => 0 end) end).
(** what the q-function of integral n returns at a point *)
Definition qf_out (f : functional) (t : R) (Ls : nat -> list R) (m : mem) n (Ig : integral) g (G : gkernel) le q : slots :=
  fst (gk_qf G le q t (qf_inputs G g (Es_of f Ls Ig) le q) (m_q m n g le q)).
(** a vector interpolated by the test space at a point *)
Definition test_field (G : gkernel) (r : restriction) (v : list R) (le q : nat) : slots :=
  interpolate (gk_test G) (elem_dofs (gk_test G) (gatherF r v) (nth le (gk_elems G) 0%nat)) q.

Lemma contrib_dot r E lsize (v : nat -> R) : ids_ok r lsize -> 
  sumn lsize (fun k => contrib r E k * v k) = suml (loop_ids r) (fun p => nth (Z.to_nat (fst p)) E 0 * v (Z.to_nat (snd p))).
Proof.
  intros H. unfold contrib.
  rewrite (sumn_ext _ _ (fun k => suml (loop_ids r) (fun p => if Z.eqb (snd p) (Z.of_nat k) then nth (Z.to_nat (fst p)) E 0 * v k else 0))).
  - rewrite <- suml_sumn_swap. apply suml_ext. intros [e l] Hin. cbn [fst snd]. specialize (H e l Hin).
    rewrite (sumn_ext _ _ (fun k => if Nat.eqb k (Z.to_nat l) then nth (Z.to_nat e) E 0 * v k else 0)).
    + rewrite (sumn_delta lsize (Z.to_nat l) (fun k => nth (Z.to_nat e) E 0 * v k)) by lia. reflexivity.
    + intros k _. destruct (Z.eqb_spec l (Z.of_nat k)), (Nat.eqb_spec k (Z.to_nat l)); try reflexivity; lia.
  - intros k _. rewrite <- suml_scal_r. apply suml_ext. intros p _. destruct (Z.eqb _ _); ring.
Qed.
Lemma loop_sum r (F : Z * Z -> R) : suml (loop_ids r) F =
  sumn (r_num_elements r) (fun e => sumn (r_components r) (fun c => sumn (r_nodes_per_elem r) (fun k => F (E_id r e c k, L_id r e c k)))).
Proof.
  unfold loop_ids. rewrite suml_flat_map, suml_seq. apply sumn_ext. intros e _. rewrite suml_flat_map, suml_seq. apply sumn_ext. intros c _.
  now rewrite suml_map, suml_seq.
Qed.

Lemma accumulate_dot (G : gkernel) r (R0 : nat -> local) (v : list R) : fits G r ->
  suml (loop_ids r) (fun p => nth (Z.to_nat (fst p)) (accumulate G r R0) 0 * nth (Z.to_nat (snd p)) v 0) =
  sumn (length (gk_elems G)) (fun le => sumn (es_c (gk_test G)) (fun i => sumn (es_n (gk_test G)) (fun k =>
    R0 le i k * elem_dofs (gk_test G) (gatherF r v) (nth le (gk_elems G) 0%nat) i k))).
Proof.
  intros (F1 & F2 & F3). rewrite loop_sum.
  transitivity (sumn (r_num_elements r) (fun e => sumn (length (gk_elems G)) (fun le => if Nat.eqb e (nth le (gk_elems G) 0%nat) then
     sumn (r_components r) (fun c => sumn (r_nodes_per_elem r) (fun k => R0 le c k * nth (Z.to_nat (L_id r e c k)) v 0)) else 0))).
  - apply sumn_ext. intros e He.
    transitivity (sumn (r_components r) (fun c => sumn (r_nodes_per_elem r) (fun k => sumn (length (gk_elems G)) (fun le =>
       (if Nat.eqb (nth le (gk_elems G) 0%nat) e then R0 le c k else 0) * nth (Z.to_nat (L_id r e c k)) v 0)))).
    + apply sumn_ext. intros c Hc. apply sumn_ext. intros k Hk. cbn [fst snd]. unfold E_id. rewrite Nat2Z.id. unfold accumulate.
      rewrite nth_tab by (now apply E_index_lt). rewrite F1, F2. destruct (decode (r_components r) (r_nodes_per_elem r) e c k Hc Hk) as (-> & -> & ->).
      now rewrite <- sumn_scal_r.
    + rewrite (sumn_ext _ _ (fun c => sumn (length (gk_elems G)) (fun le => sumn (r_nodes_per_elem r) (fun k =>
         (if Nat.eqb (nth le (gk_elems G) 0%nat) e then R0 le c k else 0) * nth (Z.to_nat (L_id r e c k)) v 0)))) by (intros; apply sumn_swap).
      rewrite sumn_swap. apply sumn_ext. intros le _. rewrite (Nat.eqb_sym e). destruct (Nat.eqb _ _).
      * reflexivity.
      * apply sumn_zero. intros c _. apply sumn_zero. intros k _. ring.
  - rewrite sumn_swap. apply sumn_ext. intros le Hle. assert (Hin : In (nth le (gk_elems G) 0%nat) (gk_elems G)) by (now apply nth_In).
    pose proof (F3 _ Hin) as Hlt.
    rewrite (sumn_delta (r_num_elements r) (nth le (gk_elems G) 0%nat) (fun e => sumn (r_components r) (fun c => sumn (r_nodes_per_elem r) (fun k => R0 le c k * nth (Z.to_nat (L_id r e c k)) v 0)))) by exact Hlt.
    rewrite F1, F2. apply sumn_ext. intros c Hc. apply sumn_ext. intros k Hk. f_equal. unfold elem_dofs. rewrite F1, F2. now rewrite gatherF_entry.
Qed.

(** integrate is the transpose of interpolate *)
Lemma integrate_interpolate S dim1 nq w (out : nat -> slots) (X : local) :
  sumn (es_c S) (fun i => sumn (es_n S) (fun k => integrate S dim1 nq w out i k * X i k)) =
  sumn nq (fun q => sumn (es_c S) (fun i => sumn dim1 (fun b => out q i b * interpolate S X q i b)) * w q).
Proof.
  unfold integrate, interpolate.
  transitivity (sumn (es_c S) (fun i => sumn nq (fun q => sumn dim1 (fun b => out q i b * sumn (es_n S) (fun k => X i k * es_B S k q b)) * w q))).
  - apply sumn_ext. intros i _.
    transitivity (sumn (es_n S) (fun k => sumn nq (fun q => sumn dim1 (fun b => out q i b * es_B S k q b) * w q * X i k))).
    + apply sumn_ext. intros k _. now rewrite <- sumn_scal_r.
    + rewrite sumn_swap. apply sumn_ext. intros q _.
      transitivity (sumn (es_n S) (fun k => sumn dim1 (fun b => out q i b * (X i k * es_B S k q b))) * w q).
      * rewrite <- sumn_scal_r. apply sumn_ext. intros k _.
        rewrite (sumn_ext dim1 (fun b => out q i b * (X i k * es_B S k q b)) (fun b => out q i b * es_B S k q b * X i k)) by (intros; ring).
        rewrite sumn_scal_r. ring.
      * f_equal. rewrite sumn_swap. apply sumn_ext. intros b _. now rewrite sumn_scal_l.
  - rewrite sumn_swap. apply sumn_ext. intros q _. now rewrite sumn_scal_r.
Qed.

Lemma blocks_dot (Gs : list gkernel) : forall rs g0 (h : nat -> gkernel -> restriction -> list R) (F : restriction -> list R -> R), length Gs = length rs ->
  suml (combine rs (blocks_from g0 Gs rs h)) (fun p => F (fst p) (snd p)) =
  sumn (length Gs) (fun g => match nth_error Gs g, nth_error rs g with Some G, Some r => F r (h (g0 + g)%nat G r) | _, _ => 0 end).
Proof.
  induction Gs as [|G Gs IH]; intros [|r rs] g0 h F H; cbn [length] in *; try lia; [reflexivity|].
  cbn [combine blocks_from suml fst snd]. rewrite sumn_S_l. cbn [nth_error]. rewrite Nat.add_0_r. f_equal.
  rewrite IH by lia. apply sumn_ext. intros g _. now rewrite Nat.add_succ_comm.
Qed.

Lemma res_contrib_dot f t Ls m n Ig lsize ts v : wf_integral f lsize ts Ig ->
  (forall g G r, nth_error (i_geoms Ig) g = Some G -> nth_error (f_test f (i_type Ig)) g = Some r -> fits G r) ->
  sumn lsize (fun k => res_contrib f t Ls m n Ig k * nth k v 0) =
  sumn (length (i_geoms Ig)) (fun g => match nth_error (i_geoms Ig) g, nth_error (f_test f (i_type Ig)) g with
      | Some G, Some r => sumn (length (gk_elems G)) (fun le => sumn (gk_nq G) (fun q =>
          sumn (es_c (gk_test G)) (fun i => sumn (gk_dim1 G) (fun b => qf_out f t Ls m n Ig g G le q i b * test_field G r v le q i b)) * gk_w G q))
      | _, _ => 0 end).
Proof.
  intros (W1 & _ & W3 & _) Hfit. unfold res_contrib, res_blocks.
  rewrite (sumn_ext lsize _ (fun k => suml (combine (f_test f (i_type Ig)) (blocks_from 0 (i_geoms Ig) (f_test f (i_type Ig)) (fun g G r => eval_geom t G r g (Es_of f Ls Ig) (m_q m n g))))
      (fun p => contrib (fst p) (snd p) k * nth k v 0))) by (intros; now rewrite suml_scal_r).
  rewrite <- suml_sumn_swap.
  rewrite (blocks_dot _ _ 0 _ (fun r E => sumn lsize (fun k => contrib r E k * nth k v 0))) by exact W3.
  apply sumn_ext. intros g _. cbn [Nat.add]. destruct (nth_error (i_geoms Ig) g) as [G|] eqn:EG; [|reflexivity].
  destruct (nth_error (f_test f (i_type Ig)) g) as [r|] eqn:Er; [|reflexivity].
  assert (Hr : In r (f_test f (i_type Ig))) by (now apply nth_error_In in Er).
  rewrite (contrib_dot r _ lsize (fun k => nth k v 0)) by (now apply W1). unfold eval_geom.
  rewrite accumulate_dot by (now apply (Hfit g)). apply sumn_ext. intros le _. rewrite integrate_interpolate. reflexivity.
Qed.

Lemma nth_error_sum {A} (l : list A) (h : nat -> A -> R) : forall n0,
  sumn (length l) (fun n => match nth_error l n with None => 0 | Some a => h (n0 + n)%nat a end) =
  (fix go n l := match l with [] => 0 | a :: l => h n a + go (S n) l end) n0 l.
Proof.
  induction l as [|a l IH]; intros n0; [reflexivity|]. cbn [length]. rewrite sumn_S_l. cbn [nth_error]. rewrite Nat.add_0_r. f_equal.
  rewrite <- IH. apply sumn_ext. intros n _. rewrite Nat.add_succ_comm. reflexivity.
Qed.

(** principle of virtual work *)
Theorem virtual_work f t wrt upd Ls lsize m L' m' : wf f lsize (fun w => length (Ls w)) -> all_fit f ->
  evaluate f t wrt upd Ls lsize m = Ok (L', m') -> forall v,
  sumn lsize (fun k => nth k L' 0 * nth k v 0) =
  over_points f (fun n Ig g G r le q => sumn (es_c (gk_test G)) (fun i => sumn (gk_dim1 G) (fun b => qf_out f t Ls m n Ig g G le q i b * test_field G r v le q i b))).
Proof.
  intros Hwf Hfit He v. destruct (evaluate_spec f t wrt upd Ls lsize m Hwf) as (L & E1 & _ & E3). rewrite E1 in He. injection He as <- _.
  rewrite (sumn_ext lsize _ (fun k => res_sum f t Ls m 0 (f_integrals f) k * nth k v 0)) by (intros k Hk; now rewrite E3).
  unfold over_points.
  pose (h := fun n (Ig : integral) => sumn (length (i_geoms Ig)) (fun g => match nth_error (i_geoms Ig) g, nth_error (f_test f (i_type Ig)) g with
      | Some G, Some r => sumn (length (gk_elems G)) (fun le => sumn (gk_nq G) (fun q =>
          sumn (es_c (gk_test G)) (fun i => sumn (gk_dim1 G) (fun b => qf_out f t Ls m n Ig g G le q i b * test_field G r v le q i b)) * gk_w G q))
      | _, _ => 0 end)).
  transitivity (sumn (length (f_integrals f)) (fun n => match nth_error (f_integrals f) n with None => 0 | Some Ig => h (0 + n)%nat Ig end)); [|reflexivity].
  rewrite (nth_error_sum (f_integrals f) h 0).
  assert (Hall : forall Ig, In Ig (f_integrals f) -> wf_integral f lsize (fun w => length (Ls w)) Ig /\
     (forall g G r, nth_error (i_geoms Ig) g = Some G -> nth_error (f_test f (i_type Ig)) g = Some r -> fits G r)).
  { intros Ig HI. split; [now apply Hwf|]. intros g G r. now apply Hfit. }
  clear E1 E3 Hwf Hfit. revert Hall. generalize (f_integrals f). generalize 0%nat. intros n ints. revert n.
  induction ints as [|Ig ints IH]; intros n Hall.
  - cbn [res_sum]. apply sumn_zero. intros. ring.
  - cbn [res_sum]. rewrite <- IH by (intros J HJ; apply Hall; now right).
    assert (Hh : sumn lsize (fun k => res_contrib f t Ls m n Ig k * nth k v 0) = h n Ig)
      by (apply (res_contrib_dot f t Ls m n Ig lsize (fun w => length (Ls w)) v); apply Hall; now left).
    rewrite <- Hh, <- sumn_plus. apply sumn_ext. intros. ring.
Qed.
End WeakForm.

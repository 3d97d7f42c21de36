(** * Concrete functionals: non-vacuity witnesses and counterexamples for C14, C16, C17 *)
From Coq Require Import NArith ZArith Reals List Lia Lra Bool Permutation.
From Coquelicot Require Import Coquelicot.
From Verif Require Import Prelude DofCodec Sums Restriction Csr Kernels FunctionalModel FunctionalGrad Assembly.
Import ListNotations.
Local Open Scope R_scope.

(** Two linear segments on three nodes, one quadrature point each; source u^2, flux du; the material state
    of a point accumulates u. *)
Definition seg1 : restriction :=
  {| r_ordering := byNODES; r_components := 1; r_num_nodes := 3; r_nodes_per_elem := 2;
     r_dofs := [[mk_dof 0 0 0; mk_dof 1 0 0]; [mk_dof 1 0 0; mk_dof 2 0 0]]%N |}.
Definition seg_space : elem_space :=
  {| es_c := 1; es_n := 2; es_B := fun k q a => match a with O => / 2 | _ => if Nat.eqb k 0 then -1 else 1 end |}.
Definition seg_kernel : gkernel R :=
  {| gk_elems := [0%nat; 1%nat]; gk_dim1 := 2; gk_nq := 1; gk_w := fun _ => 1; gk_test := seg_space; gk_trial := fun _ => seg_space;
     gk_qf := fun e q t v st => (fun i b => match b with O => v O O O * v O O O | S O => v O O 1%nat | _ => 0 end, st + v O O O);
     gk_ad := fun s e q t v st => fun i b j a => match b, a with O, O => 2 * v O O O | S O, S O => 1 | _, _ => 0 end |}.
Definition seg_functional : functional R :=
  {| f_test := fun dt => match dt with Elements => [seg1] | BoundaryElements => [] end;
     f_trial := fun _ dt => match dt with Elements => [seg1] | BoundaryElements => [] end;
     f_integrals := [{| i_type := Elements; i_active := [0%nat]; i_geoms := [seg_kernel] |}] |}.
Definition fresh {St} (st : St) : mem St := {| m_q := fun _ _ _ _ => st; m_d := fun _ _ _ _ _ => None |}.

Lemma seg1_plain : plain seg1.
Proof.
  split; [|reflexivity]. intros row [<-|[<-|[]]]; (split; [reflexivity|]); intros d [<-|[<-|[]]];
  [exists 0%nat|exists 1%nat|exists 1%nat|exists 2%nat]; (split; [cbn; lia|reflexivity]).
Qed.
Lemma seg1_ids : ids_ok seg1 3.
Proof. apply (plain_ids_ok seg1 seg1_plain). Qed.
Lemma seg_wf : wf seg_functional 3 (fun _ => 3%nat).
Proof.
  intros Ig [<-|[]]. split; [|split; [|split]].
  - intros r [<-|[]]. apply seg1_ids.
  - intros w r [<-|[]]. apply seg1_ids.
  - reflexivity.
  - repeat constructor. intros [].
Qed.
Lemma seg_ad_correct t Ls m : ad_correct_at seg_functional 0 t Ls m.
Proof.
  intros n Ig s g G e q Hn Hs HG He Hq v d i b. destruct n as [|n]; [|destruct n; discriminate]. inversion Hn; subst Ig.
  cbn in Hs. inversion Hs; subst s. destruct g as [|g]; [|destruct g; discriminate]. inversion HG; subst G. clearbody v.
  cbn [gk_qf seg_kernel fst]. unfold chain_rule, shift_slots. cbn [Nat.eqb gk_trial gk_dim1 gk_ad seg_kernel es_c seg_space sumn].
  destruct b as [|[|b]]; cbn match; auto_derive; auto; ring.
Qed.
Lemma seg_wf_assembly : wf_assembly seg_functional 0 3 3.
Proof.
  split; [|split; [|split; [|split]]].
  - intros [|] r H; cbn in H; [|contradiction]. destruct H as [<-|[]]. split; [apply seg1_plain|apply seg1_ids].
  - intros [|] r H; cbn in H; [|contradiction]. destruct H as [<-|[]]. split; [apply seg1_plain|apply seg1_ids].
  - intros [|]; reflexivity.
  - intros Ig [<-|[]]. reflexivity.
  - intros Ig s g G rt rr [<-|[]] Hs HG Ht Hr. cbn in Hs. inversion Hs; subst s. destruct g as [|g]; [|destruct g; discriminate].
    inversion HG; inversion Ht; inversion Hr; subst. repeat split. intros el [<-|[<-|[]]]; cbn; lia.
Qed.
Lemma seg_same : same_elements seg_functional 0.
Proof.
  intros [|] rt rr [|g] H1 H2; cbn in H1, H2; try discriminate; try (destruct g; discriminate).
  inversion H1; inversion H2; subst. reflexivity.
Qed.
Lemma seg_coupled r : (r < 3)%nat -> exists col, coupled (blocks_of seg_functional 0 Elements) (Z.of_nat r, col).
Proof.
  intros H. unfold coupled, blocks_of.
  destruct r as [|[|[|r]]]; [| | |lia].
  - exists 0%Z, seg1, seg1, 0%nat, 0%nat, 0%nat, 0%nat, 0%nat. repeat split; cbn; auto; lia.
  - exists 1%Z, seg1, seg1, 0%nat, 1%nat, 1%nat, 0%nat, 0%nat. repeat split; cbn; auto; lia.
  - exists 2%Z, seg1, seg1, 1%nat, 1%nat, 1%nat, 0%nat, 0%nat. repeat split; cbn; auto; lia.
Qed.

(** A single one-node element with one quadrature point of weight 1; the integrand is u^2. *)
Definition pt : restriction :=
  {| r_ordering := byNODES; r_components := 1; r_num_nodes := 1; r_nodes_per_elem := 1; r_dofs := [[mk_dof 0 0 0]]%N |}.
Definition pt_space : elem_space := {| es_c := 1; es_n := 1; es_B := fun _ _ _ => 1 |}.
Definition pt_kernel : gkernel unit :=
  {| gk_elems := [0%nat]; gk_dim1 := 1; gk_nq := 1; gk_w := fun _ => 1; gk_test := pt_space; gk_trial := fun _ => pt_space;
     gk_qf := fun e q t v st => (fun _ _ => v O O O * v O O O, st);
     gk_ad := fun s e q t v st => fun _ _ _ _ => 2 * v O O O |}.
(** the same integrand written with DependsOn<0, 0>: first argument times second argument *)
Definition pt2_kernel : gkernel unit :=
  {| gk_elems := [0%nat]; gk_dim1 := 1; gk_nq := 1; gk_w := fun _ => 1; gk_test := pt_space; gk_trial := fun _ => pt_space;
     gk_qf := fun e q t v st => (fun _ _ => v O O O * v 1%nat O O, st);
     gk_ad := fun s e q t v st => fun _ _ _ _ => match s with O => v 1%nat O O | _ => v O O O end |}.
Definition pt_functional (active : list nat) (G : gkernel unit) : functional unit :=
  {| f_test := fun dt => match dt with Elements => [pt] | BoundaryElements => [] end;
     f_trial := fun _ dt => match dt with Elements => [pt] | BoundaryElements => [] end;
     f_integrals := [{| i_type := Elements; i_active := active; i_geoms := [G] |}] |}.

Lemma pt_ids : loop_ids pt = [(0, 0)%Z]. Proof. reflexivity. Qed.
Lemma pt_ok : ids_ok pt 1.
Proof. intros e l H. rewrite pt_ids in H. destruct H as [E|[]]. inversion E; subst. lia. Qed.

Definition at_u (u : R) (wrt : option nat) : request := {| rq_t := 0; rq_wrt := wrt; rq_update := false; rq_in := fun _ => [u] |}.


Lemma pt_wf active G : NoDup active -> wf (pt_functional active G) 1 (fun _ => 1%nat).
Proof.
  intros ND Ig [<-|[]].
  pose proof pt_ok.
  split; [|split; [|split]]; auto; intros; cbn in *; destruct H0 as [<-|[]]; auto.
Qed.
Lemma one_elt (L : list R) a : length L = 1%nat -> nth 0 L 0 = a -> L = [a].
Proof. destruct L as [|x [|y L]]; cbn; intros H E; try discriminate. now subst. Qed.

Definition f_sq := pt_functional [0%nat] pt_kernel.
Definition f_sq2 := pt_functional [0%nat; 0%nat] pt2_kernel.

Lemma sq_value u wrt m : exists m', perform f_sq 1 (at_u u wrt) m = Ok ([u * u], m') /\
  m' = mem_sum f_sq 0 wrt false (fun _ => [u]) 0 (f_integrals f_sq) m.
Proof.
  destruct (perform_mem f_sq 1 (fun _ => 1%nat) (at_u u wrt) m) as (L & A & B & C).
  - apply pt_wf. repeat constructor. intros [].
  - intros w. reflexivity.
  - eexists. split; [|reflexivity]. rewrite A. repeat f_equal. apply one_elt; auto. rewrite C by lia.
    cbv -[Rplus Rmult Ropp Rminus Rinv IZR]. ring.
Qed.
Lemma sq_action u dx m : action f_sq 0 (mem_sum f_sq 0 (Some 0%nat) false (fun _ => [u]) 0 (f_integrals f_sq) m) [dx] 1 = Ok [2 * u * dx].
Proof.
  destruct (action_spec f_sq 0 (mem_sum f_sq 0 (Some 0%nat) false (fun _ => [u]) 0 (f_integrals f_sq) m) 1 (fun _ => 1%nat) [dx] 0 (fun _ => [u]) m) as (A & B & C & D).
  - apply pt_wf. repeat constructor. intros [].
  - reflexivity.
  - apply mem_sum_stored.
  - rewrite B. f_equal. apply one_elt; auto. rewrite D by lia. cbv -[Rplus Rmult Ropp Rminus Rinv IZR]. ring.
Qed.

(** A gradient object refers to the functional that made it: evaluating again with respect to the same
    argument changes what the first gradient does. *)
Lemma gradient_aliases : exists (f : functional unit) m0 m1 m2 rq1 rq2 dx a1 a2,
  wf f 1 (fun _ => 1%nat) /\ rq_wrt rq1 = Some 0%nat /\ rq_wrt rq2 = Some 0%nat /\
  run f 1 [rq1] m0 = Ok m1 /\ run f 1 [rq1; rq2] m0 = Ok m2 /\
  action f 0 m1 dx 1 = Ok a1 /\ action f 0 m2 dx 1 = Ok a2 /\ a1 <> a2.
Proof.
  destruct (sq_value 1 (Some 0%nat) (fresh tt)) as (m1 & A1 & B1).
  destruct (sq_value 3 (Some 0%nat) m1) as (m2 & A2 & B2).
  exists f_sq, (fresh tt), m1, m2, (at_u 1 (Some 0%nat)), (at_u 3 (Some 0%nat)), [1], [2 * 1 * 1], [2 * 3 * 1].
  split; [apply pt_wf; repeat constructor; intros []|]. split; [reflexivity|]. split; [reflexivity|].
  split; [cbn [run]; rewrite A1; reflexivity|]. split; [cbn [run]; rewrite A1; cbn [bindO snd]; rewrite A2; reflexivity|].
  split; [subst m1; apply sq_action|]. split; [subst m2; apply sq_action|]. intros H. inversion H. lra.
Qed.

(** DependsOn<0, 0>: the residual is u*u, but its gradient at u applied to dx is u*dx. *)
Lemma sq2_value u wrt m : exists m', evaluate f_sq2 0 wrt false (fun _ => [u]) 1 m = Ok ([u * u], m') /\
  (wrt = Some 0%nat -> forall dx, action f_sq2 0 m' [dx] 1 = Ok [u * dx]).
Proof.
  eexists. split.
  - unfold evaluate. cbn [eval_loop f_sq2 pt_functional f_integrals i_active i_type mapO f_trial].
    rewrite (gather_blocks_total [pt]). 2:{ intros r [<-|[]]. apply pt_ok. }
    cbn [bindO]. rewrite scatter_blocks_total.
    2:{ intros r E H. apply combine_blocks_in in H as ([<-|[]] & g' & G & ->). split; [apply pt_ok|apply tab_length]. }
    cbn [bindO]. f_equal. apply f_equal2; [|reflexivity]. apply one_elt; [apply scatter_blocksF_length|].
    cbv -[Rplus Rmult Ropp Rminus Rinv IZR]. ring.
  - intros -> dx. unfold action. cbn [action_loop f_sq2 pt_functional f_integrals i_type f_trial].
    rewrite (gather_blocks_total [pt]). 2:{ intros r [<-|[]]. apply pt_ok. }
    cbn [bindO]. unfold gradient_mult. cbn [i_active index_of index_from Nat.eqb].
    match goal with |- context [forallb ?p ?l] => change (forallb p l) with true end. cbv iota. cbn [bindO].
    rewrite scatter_blocks_total.
    2:{ intros r E H. apply combine_blocks_in in H as ([<-|[]] & g' & G & ->). split; [apply pt_ok|apply tab_length]. }
    cbn [bindO]. f_equal. apply one_elt; [apply scatter_blocksF_length|].
    cbv -[Rplus Rmult Ropp Rminus Rinv IZR]. ring.
Qed.
Lemma repeated_argument_wrong : exists (u dx : R) m1 act,
  evaluate f_sq2 0 (Some 0%nat) false (fun _ => [u]) 1 (fresh tt) = Ok ([u * u], m1) /\
  action f_sq2 0 m1 [dx] 1 = Ok [act] /\
  (forall v, exists m', evaluate f_sq2 0 None false (fun _ => [v]) 1 (fresh tt) = Ok ([v * v], m')) /\
  ~ is_derive (fun eps => (u + eps * dx) * (u + eps * dx)) 0 act.
Proof.
  destruct (sq2_value 1 (Some 0%nat) (fresh tt)) as (m1 & A & B).
  exists 1, 1, m1, (1 * 1). split; [exact A|]. split; [now apply B|]. split.
  - intros v. destruct (sq2_value v None (fresh tt)) as (m' & C & _). now exists m'.
  - intros H. assert (H2 : is_derive (fun eps => (1 + eps * 1) * (1 + eps * 1)) 0 2) by (auto_derive; auto; ring).
    apply is_derive_unique in H. apply is_derive_unique in H2. rewrite H in H2. lra.
Qed.

(** ** Quantities of interest: operator() returns a reference to output_T_[0] (functional_qoi.inl:365), and applying
    the gradient writes the same member (functional_qoi.inl:306-308). *)
Definition qoi_evaluate (f : functional unit) (rq : request) (m : mem unit) : outcome (R * mem unit) :=
  bindO (perform f 1 rq m) (fun p => match fst p with [v] => Ok (v, snd p) | _ => UB end).
(** output_T_[0] after applying the gradient *)
Definition qoi_apply (f : functional unit) (w : nat) (m : mem unit) (dx : list R) : outcome R :=
  bindO (action f w m dx 1) (fun a => match a with [v] => Ok v | _ => UB end).
Lemma qoi_value_overwritten : exists (f : functional unit) m0 m1 rq v out,
  rq_wrt rq = Some 0%nat /\ qoi_evaluate f rq m0 = Ok (v, m1) /\ qoi_apply f 0 m1 [1] = Ok out /\ out <> v.
Proof.
  destruct (sq_value 1 (Some 0%nat) (fresh tt)) as (m1 & A1 & B1).
  exists f_sq, (fresh tt), m1, (at_u 1 (Some 0%nat)), (1 * 1), (2 * 1 * 1).
  split; [reflexivity|]. split; [unfold qoi_evaluate; rewrite A1; reflexivity|].
  split; [unfold qoi_apply; subst m1; rewrite sq_action; reflexivity|]. lra.
Qed.

(** ** End to end: the table built from the mesh, then the matrix *)
Lemma assembled_with_table {St} (f : functional St) w (m : mem St) lsize tsize order :
  wf_assembly f w lsize tsize -> same_elements f w -> all_written f w m ->
  (forall rt, In rt (f_test f Elements) -> (r_num_nodes rt * r_components rt)%nat = lsize) ->
  (forall r, (r < lsize)%nat -> exists col, coupled (blocks_of f w Elements) (Z.of_nat r, col)) -> (0 < lsize)%nat ->
  (Z.of_nat lsize <= 2 ^ 32)%Z ->
  (forall x, coupled (blocks_of f w BoundaryElements) x -> coupled (blocks_of f w Elements) x) ->
  Permutation order (map fst (lut_keys (emitted_all (blocks_of f w Elements)))) ->
  exists c V, init_table lsize (lut_keys (emitted_all (blocks_of f w Elements))) order = Ok c /\ assemble f w m c = Ok V /\
    forall dx, length dx = tsize -> exists act, action f w m dx lsize = Ok act /\ length act = lsize /\
      forall r, (r < lsize)%nat -> spmv_row c V dx r = nth r act 0.
Proof.
  intros W S Hw Hls Hrow Hpos H32 Hb Hp.
  destruct (table_for_mesh lsize (blocks_of f w Elements) order) as (c & A & B); auto.
  - intros te tr Hin. pose proof W as (W1 & W2 & W3 & _). unfold blocks_of in Hin.
    destruct (In_nth_error _ _ Hin) as [g Hg].
    assert (Hte : nth_error (f_test f Elements) g = Some te /\ nth_error (f_trial f w Elements) g = Some tr).
    { clear -Hg. revert g Hg. generalize (f_test f Elements) as a. generalize (f_trial f w Elements) as b.
      intros b a. revert b. induction a as [|a0 a IH]; intros b g Hg; [destruct g; discriminate|].
      destruct b as [|b0 b]; [destruct g; discriminate|]. destruct g; cbn in *; [inversion Hg; auto|]. now apply IH. }
    destruct Hte as [E1 E2].
    split; [eapply W1, nth_error_In; eauto|]. split; [eapply W2, nth_error_In; eauto|].
    split; [apply Hls; eapply nth_error_In; eauto|]. eapply S; eauto.
  - destruct (assembled_agrees f w m c lsize tsize W S Hw B H32 Hb) as (V & C & D). exists c, V. auto.
Qed.
Lemma seg_assembly_example : forall u, length u = 3%nat -> exists m c V,
  run seg_functional 3 [{| rq_t := 0; rq_wrt := Some 0%nat; rq_update := false; rq_in := fun _ => u |}] (fresh 0) = Ok m /\
  init_table 3 (lut_keys (emitted_all (blocks_of seg_functional 0 Elements))) (map fst (lut_keys (emitted_all (blocks_of seg_functional 0 Elements)))) = Ok c /\
  assemble seg_functional 0 m c = Ok V.
Proof.
  intros u Hu.
  set (rq := {| rq_t := 0; rq_wrt := Some 0%nat; rq_update := false; rq_in := fun _ => u |}).
  assert (Hf : fits (fun _ => 3%nat) rq) by (intros w; exact Hu).
  destruct (perform_mem seg_functional 3 (fun _ => 3%nat) rq (fresh 0) seg_wf Hf) as (L & A & _).
  set (m := mem_sum seg_functional (rq_t rq) (rq_wrt rq) (rq_update rq) (rq_in rq) 0 (f_integrals seg_functional) (fresh 0)) in *.
  assert (Hw : all_written seg_functional 0 m).
  { intros n Ig s g G e q H1 H2 H3 H4 H5. pose proof (mem_sum_stored seg_functional 0 0 false (fun _ => u) (fresh 0) n Ig s g G e q H1 H2 H3 H4 H5) as X.
    unfold m. cbn [rq_t rq_wrt rq_update rq_in rq]. rewrite X. discriminate. }
  destruct (assembled_with_table seg_functional 0 m 3 3 (map fst (lut_keys (emitted_all (blocks_of seg_functional 0 Elements))))
    seg_wf_assembly seg_same Hw) as (c & V & B & C & _); try lia.
  - intros rt [<-|[]]. reflexivity.
  - apply seg_coupled.
  - intros x (te & tr & e & i & j & k & l & [] & _).
  - apply Permutation_refl.
  - exists m, c, V. split; [|auto]. cbn [run]. fold rq. rewrite A. reflexivity.
Qed.

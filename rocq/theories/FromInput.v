(** * Physics modules created from input files

    The constructors HeatTransfer(input_options, ...) (/repo/src/serac/physics/heat_transfer.hpp:227-271) and
    SolidMechanics(input_options, ...) (/repo/src/serac/physics/solid_mechanics.hpp:280-359) and the parts of
    heat_transfer_input.cpp and solid_mechanics_input.cpp they read.

    Simplifications: a coefficient is represented by whether it is vector valued and by its values [b_value : dof -> V];
    parsing of coefficients and materials is in Inputs.v. *)
From Coq Require Import String List ZArith Bool Permutation Sorted RelationClasses Lia Reals.
From Coq.Structures Require Import OrdersEx.
From Verif Require Import Prelude Ledger Timestep BCManager.
Import ListNotations.

(** std::string::find(sub) != npos *)
Definition has (sub s : string) : bool := match index 0 sub s with Some _ => true | None => false end.

(** ** Boundary conditions *)
Section BoundaryConditions.
Variable V : Type.

(** One entry of boundary_conds (input.hpp:160-180, heat_transfer_input.hpp:72). *)
Record entry := { b_name : string; b_attrs : list Z; b_vector : bool; b_component : option nat; b_value : nat -> V }.

(** std::map sorted by key (heat_transfer.hpp:251-253). *)
Fixpoint place (e : entry) (l : list entry) : list entry :=
  match l with
  | [] => [e]
  | x :: r => match String_as_OT.compare (b_name e) (b_name x) with Gt => x :: place e r | _ => e :: l end
  end.
Definition by_name (l : list entry) : list entry := fold_right place [] l.

(** heat_transfer.hpp:254-269: constructScalar refuses a vector coefficient; the component is dereferenced unchecked. *)
Definition heat_condition (e : entry) : outcome (list (request * entry)) :=
  if has "temperature" (b_name e) then
    if b_vector e then Refused
    else match b_component e with Some c => Ok [(ByAttrs (b_attrs e) (Some c), e)] | None => UB end
  else if has "flux" (b_name e) then Refused else Ok [].

(** solid_mechanics.hpp:330-358 *)
Definition solid_condition (e : entry) : outcome (list (request * entry)) :=
  if has "displacement" (b_name e) then
    if b_vector e then Ok [(ByAttrs (b_attrs e) None, e)]
    else match b_component e with Some c => Ok [(ByAttrs (b_attrs e) (Some c), e)] | None => Refused end
  else if has "traction" (b_name e) then Refused
  else if has "traction_ref" (b_name e) then Refused
  else if has "pressure" (b_name e) then Refused
  else if has "pressure_ref" (b_name e) then Refused
  else Ok [].

Fixpoint conditions (f : entry -> outcome (list (request * entry))) (l : list entry) : outcome (list (request * entry)) :=
  match l with
  | [] => Ok []
  | e :: r => bindO (f e) (fun a => bindO (conditions f r) (fun b => Ok (a ++ b)))
  end.

(** The dictionary is an unordered_map: [l] lists its entries in iteration order. *)
Definition heat_bcs (l : list entry) := conditions heat_condition (by_name l).
Definition solid_bcs (l : list entry) := conditions solid_condition l.

(** The dofs fixed and the values prescribed by the resulting manager. *)
Definition fixed (dofs_on : Z -> option nat -> list nat) (rs : list (request * entry)) : list nat :=
  fst (all_dofs (brun dofs_on (map BAdd (map fst rs)) m_init)).

(** Where each condition ends up: the values its dofs get, in the order of addition. *)
Definition prescribed (dofs_on : Z -> option nat -> list nat) (rs : list (request * entry)) (default : nat -> V) : nat -> V :=
  set_all 0 (m_bcs (brun dofs_on (map BAdd (map fst rs)) m_init))
    (fun k d => match nth_error (map snd rs) k with Some e => b_value e d | None => default d end) default.

(** *** Sorting *)
Definition lt_name (a b : entry) : Prop := String_as_OT.lt (b_name a) (b_name b).

Lemma place_perm e l : Permutation (e :: l) (place e l).
Proof.
  induction l as [|x r IH]; cbn [place]; [apply Permutation_refl|].
  destruct (String_as_OT.compare _ _); try apply Permutation_refl.
  eapply perm_trans; [apply perm_swap|]. now apply perm_skip.
Qed.
Lemma by_name_perm l : Permutation l (by_name l).
Proof.
  induction l as [|e l IH]; cbn [by_name fold_right]; [apply perm_nil|].
  eapply perm_trans; [apply perm_skip, IH|]. apply place_perm.
Qed.

Lemma place_sorted e l : StronglySorted lt_name l -> ~ In (b_name e) (map b_name l) -> StronglySorted lt_name (place e l).
Proof.
  induction l as [|x r IH]; intros S N; cbn [place]; [repeat constructor|].
  apply StronglySorted_inv in S as [S F]. cbn [map In] in N.
  destruct (String_as_OT.compare_spec (b_name e) (b_name x)) as [E|L|G].
  - exfalso. apply N. left. symmetry; exact E.
  - constructor; [now constructor|]. constructor; [exact L|]. rewrite Forall_forall in *. intros z Hz.
    unfold lt_name in *. eapply (@StrictOrder_Transitive _ _ String_as_OT.lt_strorder); [exact L|]. now apply F.
  - constructor; [apply IH; tauto|]. rewrite Forall_forall in *. intros z Hz.
    apply (Permutation_in _ (Permutation_sym (place_perm e r))) in Hz as [<-|Hz]; [exact G|now apply F].
Qed.
Lemma by_name_sorted l : NoDup (map b_name l) -> StronglySorted lt_name (by_name l).
Proof.
  induction l as [|e l IH]; intros N; cbn [by_name fold_right]; [constructor|].
  cbn [map] in N. apply NoDup_cons_iff in N as [N1 N2]. apply place_sorted; [now apply IH|].
  intros H. apply N1. eapply Permutation_in; [|exact H]. apply Permutation_map, Permutation_sym, by_name_perm.
Qed.

Lemma sorted_unique : forall l l', StronglySorted lt_name l -> StronglySorted lt_name l' -> Permutation l l' -> l = l'.
Proof.
  induction l as [|x r IH]; intros l' S S' P.
  - apply Permutation_nil in P. now subst.
  - destruct l' as [|y r']; [apply Permutation_sym, Permutation_nil in P; discriminate|].
    apply StronglySorted_inv in S as [S F]. apply StronglySorted_inv in S' as [S' F'].
    rewrite Forall_forall in F, F'.
    assert (x = y) as <-.
    { assert (A : In x (y :: r')) by (eapply Permutation_in; [exact P|now left]).
      assert (B : In y (x :: r)) by (eapply Permutation_in; [apply Permutation_sym, P|now left]).
      destruct A as [A|A]; [now symmetry|]. destruct B as [B|B]; [exact B|].
      exfalso. apply F' in A. apply F in B. unfold lt_name in *.
      eapply (@StrictOrder_Irreflexive _ _ String_as_OT.lt_strorder).
      eapply (@StrictOrder_Transitive _ _ String_as_OT.lt_strorder); eassumption. }
    f_equal. apply IH; auto. now apply Permutation_cons_inv in P.
Qed.

(** The result of the thermal constructor does not depend on the iteration order of the dictionary. *)
Lemma heat_order l l' : NoDup (map b_name l) -> Permutation l l' -> heat_bcs l = heat_bcs l'.
Proof.
  intros N P. unfold heat_bcs. f_equal. apply sorted_unique.
  - now apply by_name_sorted.
  - apply by_name_sorted. eapply Permutation_NoDup; [apply Permutation_map, P|exact N].
  - eapply perm_trans; [apply Permutation_sym, by_name_perm|]. eapply perm_trans; [exact P|]. apply by_name_perm.
Qed.

(** *** Every entry that names the field is applied, nothing else *)
Lemma conditions_in f l rs : conditions f l = Ok rs -> forall r e, In (r, e) rs <-> exists e', In e' l /\ exists a, f e' = Ok a /\ In (r, e) a.
Proof.
  revert rs. induction l as [|x l IH]; intros rs E r e; cbn [conditions] in E.
  - injection E as <-. split; [intros []|intros (e' & [] & _)].
  - destruct (f x) as [a| |] eqn:Ea; cbn [bindO] in E; try discriminate.
    destruct (conditions f l) as [b| |] eqn:Eb; cbn [bindO] in E; try discriminate.
    injection E as <-. rewrite in_app_iff, (IH b eq_refl). split.
    + intros [H|(e' & H & H')]; [exists x; split; [now left|]; eauto|exists e'; split; [now right|exact H']].
    + intros (e' & [<-|H] & H'); [left; destruct H' as (a' & Ea' & I'); congruence|right; eauto].
Qed.

Lemma conditions_ok f l rs : conditions f l = Ok rs -> forall e, In e l -> exists a, f e = Ok a.
Proof.
  revert rs. induction l as [|x l IH]; intros rs E e H; [contradiction|]. cbn [conditions] in E.
  destruct (f x) as [a| |] eqn:Ea; cbn [bindO] in E; try discriminate.
  destruct (conditions f l) as [b| |] eqn:Eb; cbn [bindO] in E; try discriminate.
  destruct H as [<-|H]; eauto.
Qed.

Lemma heat_applied l rs : heat_bcs l = Ok rs -> forall r e, In (r, e) rs <->
  In e l /\ has "temperature" (b_name e) = true /\ b_vector e = false /\ exists c, b_component e = Some c /\ r = ByAttrs (b_attrs e) (Some c).
Proof.
  intros E r e. rewrite (conditions_in _ _ _ E). split.
  - intros (e' & H & a & Ea & Ia). unfold heat_condition in Ea.
    destruct (has "temperature" (b_name e')) eqn:T; [|destruct (has "flux" (b_name e')); [discriminate|]; injection Ea as <-; contradiction].
    destruct (b_vector e') eqn:W; [discriminate|]. destruct (b_component e') as [c|] eqn:C; [|discriminate].
    injection Ea as <-. destruct Ia as [Ia|[]]. injection Ia as <- <-.
    split; [eapply Permutation_in; [apply Permutation_sym, by_name_perm|exact H]|]. eauto 6.
  - intros (H & T & W & c & C & ->). exists e. split; [eapply Permutation_in; [apply by_name_perm|exact H]|].
    eexists. unfold heat_condition. rewrite T, W, C. split; [reflexivity|now left].
Qed.

Lemma solid_applied l rs : solid_bcs l = Ok rs -> forall r e, In (r, e) rs <->
  In e l /\ has "displacement" (b_name e) = true /\
  (b_vector e = true /\ r = ByAttrs (b_attrs e) None \/ b_vector e = false /\ exists c, b_component e = Some c /\ r = ByAttrs (b_attrs e) (Some c)).
Proof.
  intros E r e. rewrite (conditions_in _ _ _ E). split.
  - intros (e' & H & a & Ea & Ia). unfold solid_condition in Ea.
    destruct (has "displacement" (b_name e')) eqn:T.
    + destruct (b_vector e') eqn:W.
      * injection Ea as <-. destruct Ia as [Ia|[]]. injection Ia as <- <-. rewrite W. auto.
      * destruct (b_component e') as [c|] eqn:C; [|discriminate].
        injection Ea as <-. destruct Ia as [Ia|[]]. injection Ia as <- <-. rewrite W, C. eauto 8.
    + repeat (match type of Ea with (if ?b then _ else _) = _ => destruct b; [discriminate|] end). injection Ea as <-. contradiction.
  - intros (H & T & D). exists e. split; [exact H|]. unfold solid_condition. rewrite T.
    destruct D as [(-> & ->)|(-> & c & -> & ->)]; eexists; (split; [reflexivity|now left]).
Qed.

Lemma conditions_accepts f l : (forall e, In e l -> exists a, f e = Ok a) -> exists rs, conditions f l = Ok rs.
Proof.
  induction l as [|x l IH]; intros H; cbn [conditions]; [eauto|].
  destruct (H x (or_introl eq_refl)) as (a & ->). destruct IH as (b & ->); [intros e He; apply H; now right|].
  cbn [bindO]. eauto.
Qed.

(** When no attribute is named twice the dofs fixed do not depend on the order. *)
Lemma requests_map rs : requests (map BAdd rs) = rs.
Proof. induction rs as [|r rs IH]; cbn [map requests]; [reflexivity|now rewrite IH]. Qed.

Lemma solid_conditions_perm l l' rs : Permutation l l' -> solid_bcs l = Ok rs -> exists rs', solid_bcs l' = Ok rs' /\ Permutation rs rs'.
Proof.
  unfold solid_bcs. intros P. revert rs. induction P as [|x l l' P IH|x y l|l l1 l2 P1 IH1 P2 IH2]; intros rs E.
  - exists rs. split; [exact E|apply Permutation_refl].
  - cbn [conditions] in *. destruct (solid_condition x) as [a| |]; cbn [bindO] in *; try discriminate.
    destruct (conditions solid_condition l) as [b| |] eqn:Eb; cbn [bindO] in E; try discriminate.
    injection E as <-. destruct (IH b eq_refl) as (b' & -> & Q). cbn [bindO]. eexists. split; [reflexivity|].
    now apply Permutation_app_head.
  - cbn [conditions] in *. destruct (solid_condition x) as [a| |], (solid_condition y) as [a'| |]; cbn [bindO] in *; try discriminate.
    destruct (conditions solid_condition l) as [b| |]; cbn [bindO] in *; try discriminate.
    injection E as <-. eexists. split; [reflexivity|]. rewrite !app_assoc. apply Permutation_app_tail, Permutation_app_comm.
  - destruct (IH1 rs E) as (r1 & E1 & Q1). destruct (IH2 r1 E1) as (r2 & E2 & Q2). exists r2. split; [exact E2|].
    eapply perm_trans; eassumption.
Qed.

Lemma flat_map_perm {A B} (f : A -> list B) l l' : Permutation l l' -> Permutation (flat_map f l) (flat_map f l').
Proof.
  induction 1; cbn [flat_map]; auto.
  - now apply Permutation_app_head.
  - rewrite !app_assoc. apply Permutation_app_tail, Permutation_app_comm.
  - eapply perm_trans; eassumption.
Qed.

Lemma solid_order dofs_on l l' rs : Permutation l l' -> solid_bcs l = Ok rs -> NoDup (flat_map attrs_of (map fst rs)) ->
  exists rs', solid_bcs l' = Ok rs' /\ forall d, In d (fixed dofs_on rs) <-> In d (fixed dofs_on rs').
Proof.
  intros P E N. destruct (solid_conditions_perm l l' rs P E) as (rs' & E' & Q). exists rs'. split; [exact E'|].
  intros d. unfold fixed. rewrite !nothing_dropped; rewrite ?requests_map.
  - split; intros (r & H & W); exists r; (split; [|exact W]); (eapply Permutation_in; [|exact H]); apply Permutation_map; [exact Q|now apply Permutation_sym].
  - eapply Permutation_NoDup; [apply flat_map_perm, Permutation_map, Q|exact N].
  - exact N.
Qed.

(** *** The value a temperature dof gets: of the entries that name its attribute the first by name decides *)
Fixpoint grants (dofs_on : Z -> option nat -> list nat) (seen : list Z) (rs : list request) : list (list nat) :=
  match rs with
  | [] => []
  | ByAttrs attrs c :: t => flat_map (fun a => dofs_on a c) (filter (fun a => negb (existsb (Z.eqb a) seen)) attrs) :: grants dofs_on (seen ++ attrs) t
  | ByDofs ds :: t => ds :: grants dofs_on seen t
  end.
Lemma brun_grants dofs_on rs : forall m, m_bcs (brun dofs_on (map BAdd rs) m) = m_bcs m ++ grants dofs_on (m_attrs m) rs.
Proof.
  induction rs as [|[attrs c|ds] rs IH]; intros m; cbn [map brun grants]; [now rewrite app_nil_r| |];
    rewrite IH; cbn [add m_bcs m_attrs]; now rewrite <- app_assoc.
Qed.
Lemma grants_app dofs_on p : forall seen q, grants dofs_on seen (p ++ q) = grants dofs_on seen p ++ grants dofs_on (seen ++ flat_map attrs_of p) q.
Proof.
  induction p as [|[attrs c|ds] p IH]; intros seen q; cbn [app grants flat_map attrs_of].
  - now rewrite app_nil_r.
  - rewrite IH. now rewrite <- app_assoc.
  - now rewrite IH.
Qed.
Lemma grants_length dofs_on p : forall seen, length (grants dofs_on seen p) = length p.
Proof. induction p as [|[attrs c|ds] p IH]; intros seen; cbn [grants length]; auto. Qed.
Lemma seen_in a l : existsb (Z.eqb a) l = true <-> In a l.
Proof. rewrite existsb_exists. split; [intros (x & H & E); apply Z.eqb_eq in E; now subst|intros H; exists a; split; [exact H|apply Z.eqb_refl]]. Qed.
Lemma grants_seen dofs_on q : forall seen a c d, (forall r, In r q -> exists at' c', r = ByAttrs at' c') -> In a seen -> In d (dofs_on a c) ->
  (forall a a' c c' d, In d (dofs_on a c) -> In d (dofs_on a' c') -> a = a') -> forall ds, In ds (grants dofs_on seen q) -> ~ In d ds.
Proof.
  induction q as [|[attrs c'|x] q IH]; intros seen a c d A H D J ds Hd; cbn [grants] in Hd; [contradiction| |].
  - destruct Hd as [<-|Hd].
    + rewrite in_flat_map. intros (a' & F & D'). apply filter_In in F as [_ F]. assert (a = a') as <- by (eapply J; eassumption).
      rewrite (proj2 (seen_in a seen) H) in F. discriminate.
    + eapply (IH (seen ++ attrs) a c d); eauto; [intros r Hr; apply A; now right|]. apply in_app_iff; now left.
  - destruct (A (ByDofs x) (or_introl eq_refl)) as (? & ? & ?). discriminate.
Qed.

Lemma heat_entries : forall l rs, conditions heat_condition l = Ok rs -> map snd rs = filter (fun e => has "temperature" (b_name e)) l.
Proof.
  induction l as [|x l IH]; intros rs E; cbn [conditions] in E; [injection E as <-; reflexivity|].
  destruct (heat_condition x) as [a| |] eqn:Ea; cbn [bindO] in E; try discriminate.
  destruct (conditions heat_condition l) as [b| |] eqn:Eb; cbn [bindO] in E; try discriminate. injection E as <-.
  rewrite map_app, (IH b eq_refl). cbn [filter]. unfold heat_condition in Ea.
  destruct (has "temperature" (b_name x)); [|destruct (has "flux" (b_name x)); [discriminate|]; injection Ea as <-; reflexivity].
  destruct (b_vector x); [discriminate|]. destruct (b_component x); [|discriminate]. injection Ea as <-. reflexivity.
Qed.
Lemma filter_sorted (p : entry -> bool) l : StronglySorted lt_name l -> StronglySorted lt_name (filter p l).
Proof.
  induction l as [|x l IH]; intros S; cbn [filter]; [constructor|]. apply StronglySorted_inv in S as [S F].
  destruct (p x); [|auto]. constructor; [auto|]. rewrite Forall_forall in *. intros z Hz. apply filter_In in Hz as [Hz _]. auto.
Qed.
Lemma sorted_before pre e post : StronglySorted lt_name (pre ++ e :: post) -> forall x, In x pre -> lt_name x e.
Proof.
  induction pre as [|y pre IH]; intros S x Hx; [contradiction|]. cbn [app] in S. apply StronglySorted_inv in S as [S F].
  destruct Hx as [<-|Hx]; [|auto]. rewrite Forall_forall in F. apply F, in_elt.
Qed.

Lemma heat_value dofs_on l rs default : NoDup (map b_name l) -> heat_bcs l = Ok rs ->
  (forall a a' c c' d, In d (dofs_on a c) -> In d (dofs_on a' c') -> a = a') ->
  forall e a c d, In e l -> has "temperature" (b_name e) = true -> b_component e = Some c -> In a (b_attrs e) -> In d (dofs_on a (Some c)) ->
  (forall e', In e' l -> has "temperature" (b_name e') = true -> In a (b_attrs e') -> e' = e \/ String_as_OT.lt (b_name e) (b_name e')) ->
  prescribed dofs_on rs default d = b_value e d.
Proof.
  intros N E J e a c d He T C A D First.
  pose proof (heat_applied l rs E) as App.
  assert (W : b_vector e = false).
  { destruct (b_vector e) eqn:W; [|reflexivity]. exfalso. unfold heat_bcs in E.
    destruct (conditions_ok _ _ _ E e) as (x & Hx); [eapply Permutation_in; [apply by_name_perm|exact He]|].
    unfold heat_condition in Hx. rewrite T, W in Hx. discriminate. }
  assert (In (ByAttrs (b_attrs e) (Some c), e) rs) as Hr by (apply App; eauto 8).
  apply in_split in Hr as (pre & post & Ers).
  assert (Sorted : StronglySorted lt_name (map snd rs)).
  { rewrite (heat_entries _ _ E). apply filter_sorted. now apply by_name_sorted. }
  assert (Pre : ~ In a (flat_map attrs_of (map fst pre))).
  { rewrite in_flat_map. intros (r & Hr & Ha). apply in_map_iff in Hr as ([r' e'] & <- & Hr). cbn [fst] in Ha.
    assert (I' : In (r', e') rs) by (rewrite Ers; apply in_app_iff; now left).
    apply App in I' as (L' & T' & _ & c' & _ & ->). cbn [attrs_of] in Ha.
    rewrite Ers, map_app in Sorted. cbn [map snd] in Sorted.
    pose proof (sorted_before _ _ _ Sorted e' (in_map snd _ _ Hr)) as Lt. unfold lt_name in Lt.
    destruct (First e' L' T' Ha) as [->|Lt'].
    - eapply (@StrictOrder_Irreflexive _ _ String_as_OT.lt_strorder); exact Lt.
    - eapply (@StrictOrder_Irreflexive _ _ String_as_OT.lt_strorder).
      eapply (@StrictOrder_Transitive _ _ String_as_OT.lt_strorder); eassumption. }
  unfold prescribed. rewrite brun_grants. cbn [m_init m_bcs m_attrs app]. rewrite Ers, map_app. cbn [map fst].
  rewrite grants_app. cbn [app grants].
  erewrite (set_all_last _ _ 0 _ d (grants dofs_on [] (map fst pre))); [|reflexivity| |].
  - rewrite grants_length, map_length. cbn [plus]. rewrite map_app. cbn [map snd].
    rewrite nth_error_app2 by (rewrite map_length; lia). now rewrite map_length, Nat.sub_diag.
  - apply in_flat_map. exists a. split; [|exact D]. apply filter_In. split; [exact A|].
    destruct (existsb (Z.eqb a) (flat_map attrs_of (map fst pre))) eqn:X; [|reflexivity].
    apply seen_in in X. contradiction.
  - apply (grants_seen dofs_on (map fst post) _ a (Some c) d); [|apply in_app_iff; now right|exact D|exact J].
    intros r Hr. apply in_map_iff in Hr as ([r' e'] & <- & Hr).
    assert (I' : In (r', e') rs) by (rewrite Ers; apply in_app_iff; right; now right).
    apply App in I' as (_ & _ & _ & c' & _ & ->). cbn [fst]. eauto.
Qed.

(** Which inputs are accepted. *)
Lemma heat_accepts l : (exists rs, heat_bcs l = Ok rs) <->
  forall e, In e l -> if has "temperature" (b_name e) then b_vector e = false /\ b_component e <> None else has "flux" (b_name e) = false.
Proof.
  assert (P : forall e, (exists a, heat_condition e = Ok a) <->
    if has "temperature" (b_name e) then b_vector e = false /\ b_component e <> None else has "flux" (b_name e) = false).
  { intros e. unfold heat_condition. destruct (has "temperature" (b_name e)).
    - destruct (b_vector e); [split; [intros (? & ?); discriminate|intros []; discriminate]|].
      destruct (b_component e); split; intros H; eauto; try (destruct H; (discriminate || tauto)). now split.
    - destruct (has "flux" (b_name e)); split; intros H; eauto; try discriminate. destruct H; discriminate. }
  split.
  - intros (rs & E) e He. apply P. eapply conditions_ok; [exact E|]. eapply Permutation_in; [apply by_name_perm|exact He].
  - intros H. apply conditions_accepts. intros e He. apply P, H. eapply Permutation_in; [apply Permutation_sym, by_name_perm|exact He].
Qed.
Lemma solid_accepts l : (exists rs, solid_bcs l = Ok rs) <->
  forall e, In e l -> if has "displacement" (b_name e) then b_vector e = true \/ b_component e <> None
    else has "traction" (b_name e) = false /\ has "pressure" (b_name e) = false /\ has "traction_ref" (b_name e) = false /\ has "pressure_ref" (b_name e) = false.
Proof.
  assert (P : forall e, (exists a, solid_condition e = Ok a) <->
    if has "displacement" (b_name e) then b_vector e = true \/ b_component e <> None
    else has "traction" (b_name e) = false /\ has "pressure" (b_name e) = false /\ has "traction_ref" (b_name e) = false /\ has "pressure_ref" (b_name e) = false).
  { intros e. unfold solid_condition. destruct (has "displacement" (b_name e)).
    - destruct (b_vector e); [split; eauto|]. destruct (b_component e); split; intros H; eauto.
      + right; discriminate.
      + destruct H; discriminate.
      + destruct H as [H|H]; [discriminate|tauto].
    - destruct (has "traction" (b_name e)), (has "traction_ref" (b_name e)), (has "pressure" (b_name e)), (has "pressure_ref" (b_name e));
        split; intros H; auto; try (destruct H as (? & H); discriminate H); try (destruct H as (? & ? & ? & ?); discriminate); eauto. }
  split.
  - intros (rs & E) e He. apply P. eapply conditions_ok; eassumption.
  - intros H. apply conditions_accepts. intros e He. now apply P, H.
Qed.
Lemma solid_no_ub l : solid_bcs l <> UB.
Proof.
  unfold solid_bcs. induction l as [|e l IH]; cbn [conditions]; [discriminate|].
  unfold solid_condition at 1. repeat (match goal with |- context [if ?b then _ else _] => destruct b end; try discriminate);
    try (destruct (b_component e); try discriminate); cbn [bindO]; destruct (conditions solid_condition l); cbn [bindO]; (discriminate || tauto).
Qed.

End BoundaryConditions.
Arguments b_name {V}. Arguments b_attrs {V}. Arguments b_vector {V}. Arguments b_component {V}. Arguments b_value {V}.

(** The same dictionary, two iteration orders, different prescribed values. *)
Definition left_a : entry R := {| b_name := "displacement_a"; b_attrs := [1%Z]; b_vector := true; b_component := None; b_value := fun _ => 0%R |}.
Definition left_b : entry R := {| b_name := "displacement_b"; b_attrs := [1%Z]; b_vector := true; b_component := None; b_value := fun _ => 1%R |}.
Lemma solid_order_matters : exists ra rb, solid_bcs R [left_a; left_b] = Ok ra /\ solid_bcs R [left_b; left_a] = Ok rb /\
  prescribed R (fun _ _ => [0%nat]) ra (fun _ => 9%R) 0%nat = 0%R /\ prescribed R (fun _ _ => [0%nat]) rb (fun _ => 9%R) 0%nat = 1%R.
Proof. eexists. eexists. repeat split; reflexivity. Qed.

Definition no_component : entry R := {| b_name := "temperature"; b_attrs := [1%Z]; b_vector := false; b_component := None; b_value := fun _ => 0%R |}.
Lemma heat_component_missing : heat_bcs R [no_component] = UB.
Proof. reflexivity. Qed.

Definition hot : entry R := {| b_name := "temperature_2"; b_attrs := [1%Z; 2%Z]; b_vector := false; b_component := Some 0%nat; b_value := fun _ => 1%R |}.
Definition cold : entry R := {| b_name := "temperature_1"; b_attrs := [2%Z]; b_vector := false; b_component := Some 0%nat; b_value := fun _ => 0%R |}.
Lemma heat_example : exists rs, heat_bcs R [hot; cold] = Ok rs /\ map snd rs = [cold; hot] /\
  fixed R (fun a _ => [Z.to_nat a]) rs = [1%nat; 2%nat] /\ prescribed R (fun a _ => [Z.to_nat a]) rs (fun _ => 9%R) 2%nat = 0%R /\
  prescribed R (fun a _ => [Z.to_nat a]) rs (fun _ => 9%R) 1%nat = 1%R.
Proof. eexists. repeat split; reflexivity. Qed.

(** ** Materials *)
Inductive thermal_material := Isotropic (kappa : R) | Anisotropic (dim : nat) (K : nat -> nat -> R).
(** heat_transfer.hpp:232-238: no else branch. *)
Definition heat_materials (dim : nat) (l : list thermal_material) : list thermal_material :=
  flat_map (fun m => match m with Isotropic _ => [m] | Anisotropic d _ => if Nat.eqb d dim then [m] else [] end) l.
Definition fits (dim : nat) (m : thermal_material) : Prop := match m with Isotropic _ => True | Anisotropic d _ => d = dim end.

Lemma heat_materials_all dim l : (forall m, In m l -> fits dim m) -> heat_materials dim l = l.
Proof.
  induction l as [|m l IH]; intros H; [reflexivity|]. cbn [heat_materials flat_map].
  change (flat_map _ l) with (heat_materials dim l). rewrite IH by (intros; apply H; now right).
  specialize (H m (or_introl eq_refl)). destruct m as [k|d K]; [reflexivity|]. cbn in H. subst. now rewrite Nat.eqb_refl.
Qed.
Lemma heat_material_dropped d dim K : d <> dim -> heat_materials dim [Anisotropic d K] = [].
Proof. intros H. cbn. destruct (Nat.eqb_spec d dim); [contradiction|reflexivity]. Qed.

Inductive hardening := LinearH | PowerLawH | VoceH.
Inductive solid_material := NeoHookeanM | LinearIsotropicM | J2M (h : hardening).
(** solid_mechanics.hpp:286-318 *)
Fixpoint solid_materials (dim : nat) (l : list solid_material) : outcome (list solid_material) :=
  match l with
  | [] => Ok []
  | J2M h :: r => if Nat.eqb dim 3 then bindO (solid_materials dim r) (fun x => Ok (J2M h :: x)) else Refused
  | m :: r => bindO (solid_materials dim r) (fun x => Ok (m :: x))
  end.
Lemma solid_materials_spec dim l r : solid_materials dim l = Ok r <-> r = l /\ (dim = 3%nat \/ forall h, ~ In (J2M h) l).
Proof.
  revert r. induction l as [|m l IH]; intros r; cbn [solid_materials].
  - split; [intros E; injection E as <-; auto|]. now intros [-> _].
  - assert (A : forall x, solid_materials dim l = Ok x -> x = l) by (intros x; rewrite IH; tauto).
    destruct m as [| |h].
    1,2: split; [intros E; destruct (solid_materials dim l) as [x| |] eqn:Ex; try discriminate; cbn in E; injection E as <-;
            destruct (proj1 (IH x) eq_refl) as [-> D]; split; [reflexivity|]; destruct D as [D|D]; auto; right; intros h [H|H]; [discriminate|now apply (D h)]
          |intros [-> D]; rewrite (proj2 (IH l)); [reflexivity|]; split; [reflexivity|]; destruct D as [D|D]; auto; right; intros h H; apply (D h); now right].
    destruct (Nat.eqb_spec dim 3) as [->|N].
    + split; [intros E; destruct (solid_materials 3 l) as [x| |] eqn:Ex; try discriminate; cbn in E; injection E as <-;
        rewrite (A x eq_refl); auto|].
      intros [-> _]. rewrite (proj2 (IH l)); [reflexivity|auto].
    + split; [discriminate|]. intros [_ [D|D]]; [contradiction|]. exfalso. apply (D h). now left.
Qed.

(** ** Initial conditions: the field is projected after the constructor has already stored checkpoint 0
    (heat_transfer.hpp:240-243 after :221; solid_mechanics.hpp:320-328 after :267). *)
Definition initial_from_input {V} (cfg : config) (cycle : Z) (time : R) (zero : V) (n : string) (v : V) : ledger V :=
  let s := reset V cfg cycle time (fun _ => zero) in
  {| l_time := l_time V s; l_max_time := l_max_time V s; l_min_time := l_min_time V s;
     l_cycle := l_cycle V s; l_max_cycle := l_max_cycle V s; l_min_cycle := l_min_cycle V s;
     l_steps := l_steps V s; l_end_step := l_end_step V s; l_fields := set_field V (l_fields V s) n v; l_ckpt := l_ckpt V s |}.

Lemma initial_checkpoint {V} cfg t (zero : V) n v : NoDup (names cfg) -> In n (names cfg) ->
  l_fields V (initial_from_input cfg 0 t zero n v) n = v /\ load_state V (initial_from_input cfg 0 t zero n v) n 0 = Ok zero.
Proof.
  intros N H. split.
  - cbn. unfold set_field. now rewrite String.eqb_refl.
  - unfold load_state. cbn [initial_from_input l_ckpt reset]. rewrite (ckpt_push_all_in V) by assumption. reflexivity.
Qed.
Lemma initial_by_set_state {V} cfg t (zero : V) n v : NoDup (names cfg) -> In n (names cfg) -> In n (settable cfg) ->
  exists s, set_state V cfg n v (reset V cfg 0 t (fun _ => zero)) = Ok s /\ l_fields V s n = v /\ load_state V s n 0 = Ok v.
Proof.
  intros N H S. unfold set_state. assert (X : existsb (String.eqb n) (settable cfg) = true).
  { apply existsb_exists. exists n. split; [exact S|apply String.eqb_refl]. }
  rewrite X. cbn [reset l_ckpt l_cycle]. rewrite (ckpt_push_all_in V) by assumption. cbn. eexists. split; [reflexivity|].
  cbn. unfold set_field, load_state. cbn. now rewrite String.eqb_refl.
Qed.

(** ** Time integration options (heat_transfer_input.cpp:55-77, solid_mechanics_input.cpp:53-75, FirstOrderODE and
    SecondOrderODE SetTimestepper, odes.cpp:22-63, 261-300) *)
Inductive method := MQuasiStatic | MBackwardEuler | MForwardEuler | MAverageAcceleration | MNewmark.
Record dynamics := { d_timestepper : string; d_enforcement : string }.
Definition lookup {A} (table : list (string * A)) (n : string) : outcome A :=
  match find (fun p => String.eqb (fst p) n) table with Some p => Ok (snd p) | None => Refused end.
Definition heat_methods := [("AverageAcceleration", MAverageAcceleration); ("BackwardEuler", MBackwardEuler); ("ForwardEuler", MForwardEuler)]%string.
Definition solid_methods := [("AverageAcceleration", MAverageAcceleration); ("NewmarkBeta", MNewmark); ("BackwardEuler", MBackwardEuler)]%string.
Definition first_order (m : method) : bool := match m with MBackwardEuler | MForwardEuler => true | _ => false end.
Definition second_order (m : method) : bool := match m with MBackwardEuler | MAverageAcceleration | MNewmark => true | _ => false end.
Definition integrator_of (table : list (string * method)) (ode : method -> bool) (d : option dynamics) : outcome method :=
  match d with
  | None => Ok MQuasiStatic
  | Some d => bindO (lookup table (d_timestepper d)) (fun m => bindO (lookup [("RateControl", tt)]%string (d_enforcement d)) (fun _ =>
              if ode m then Ok m else Refused))
  end.

Lemma heat_integrator d m : integrator_of heat_methods first_order d = Ok m <->
  (d = None /\ m = MQuasiStatic) \/ exists n, d = Some {| d_timestepper := n; d_enforcement := "RateControl" |} /\
    (n = "BackwardEuler"%string /\ m = MBackwardEuler \/ n = "ForwardEuler"%string /\ m = MForwardEuler).
Proof.
  destruct d as [[n e]|]; cbn [integrator_of d_timestepper d_enforcement].
  - unfold lookup, heat_methods; cbn [find fst snd]. split.
    + intros H. right. exists n.
      destruct (String.eqb_spec "AverageAcceleration" n); [cbn [bindO snd first_order] in H; destruct (String.eqb "RateControl" e); discriminate|].
      destruct (String.eqb_spec "BackwardEuler" n) as [<-|]; [|destruct (String.eqb_spec "ForwardEuler" n) as [<-|]; [|discriminate]];
      cbn [bindO] in H; destruct (String.eqb_spec "RateControl" e) as [<-|]; try discriminate; cbn [bindO snd first_order second_order] in H; injection H as <-; auto.
    + intros [[H _]|(n' & H & D)]; [discriminate|]. injection H as <- ->. destruct D as [[-> ->]|[-> ->]]; reflexivity.
  - split; [intros H; injection H as <-; auto|]. intros [[_ ->]|(n' & H & _)]; [reflexivity|discriminate].
Qed.
Lemma solid_integrator d m : integrator_of solid_methods second_order d = Ok m <->
  (d = None /\ m = MQuasiStatic) \/ exists n, d = Some {| d_timestepper := n; d_enforcement := "RateControl" |} /\
    (n = "AverageAcceleration"%string /\ m = MAverageAcceleration \/ n = "NewmarkBeta"%string /\ m = MNewmark \/ n = "BackwardEuler"%string /\ m = MBackwardEuler).
Proof.
  destruct d as [[n e]|]; cbn [integrator_of d_timestepper d_enforcement].
  - unfold lookup, solid_methods; cbn [find fst snd]. split.
    + intros H. right. exists n.
      destruct (String.eqb_spec "AverageAcceleration" n) as [<-|];
      [|destruct (String.eqb_spec "NewmarkBeta" n) as [<-|]; [|destruct (String.eqb_spec "BackwardEuler" n) as [<-|]; [|discriminate]]];
      cbn [bindO] in H; destruct (String.eqb_spec "RateControl" e) as [<-|]; try discriminate; cbn [bindO snd first_order second_order] in H; injection H as <-; auto 6.
    + intros [[H _]|(n' & H & D)]; [discriminate|]. injection H as <- ->. destruct D as [[-> ->]|[[-> ->]|[-> ->]]]; reflexivity.
  - split; [intros H; injection H as <-; auto|]. intros [[_ ->]|(n' & H & _)]; [reflexivity|discriminate].
Qed.

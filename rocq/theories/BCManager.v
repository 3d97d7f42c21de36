(** * The boundary condition manager
    Models /repo/src/serac/physics/boundary_conditions/boundary_condition_manager.{hpp,cpp} and
    BoundaryCondition::setDofs (boundary_condition.cpp:80-113).
    Simplification: which true dofs lie on an attribute (for one component or all) is a table
    [dofs_on : Z -> option nat -> list nat] supplied by MFEM's GetEssentialTrueDofs. *)
From Coq Require Import List ZArith Lia Bool Arith Permutation Sorted Reals.
From Verif Require Import Prelude.
Import ListNotations.

Section BC.
Variable dofs_on : Z -> option nat -> list nat.

Inductive request :=
| ByAttrs (attrs : list Z) (component : option nat)
| ByDofs (dofs : list nat).

(** mfem::Array<int>::Sort and Unique *)
Fixpoint insert (x : nat) (l : list nat) : list nat :=
  match l with
  | [] => [x]
  | y :: r => if x <=? y then x :: l else y :: insert x r
  end.
Definition sort (l : list nat) : list nat := fold_right insert [] l.
Fixpoint unique (l : list nat) : list nat :=
  match l with
  | [] => []
  | x :: r => match r with
              | [] => [x]
              | y :: _ => if x =? y then unique r else x :: unique r
              end
  end.

Record manager := {
  m_bcs : list (list nat);        (* ess_bdr_: true dof list of each condition *)
  m_attrs : list Z;               (* attrs_in_use_ *)
  m_all : list nat;               (* all_true_dofs_ (mutable cache) *)
  m_valid : bool;                 (* all_dofs_valid_ *)
}.

Definition m_init : manager := {| m_bcs := []; m_attrs := []; m_all := []; m_valid := false |}.

(** addEssential (boundary_condition_manager.cpp:16-39): attributes already in use are removed
    from the request (with a warning), whatever the component. *)
Definition add (r : request) (m : manager) : manager :=
  match r with
  | ByAttrs attrs comp =>
    let filtered := filter (fun a => negb (existsb (Z.eqb a) (m_attrs m))) attrs in
    {| m_bcs := m_bcs m ++ [flat_map (fun a => dofs_on a comp) filtered];
       m_attrs := m_attrs m ++ attrs; m_all := m_all m; m_valid := false |}
  | ByDofs ds =>
    {| m_bcs := m_bcs m ++ [ds]; m_attrs := m_attrs m; m_all := m_all m; m_valid := false |}
  end.

(** allEssentialTrueDofs / updateAllDofs (boundary_condition_manager.hpp:64-70, .cpp:41-54) *)
Definition all_dofs (m : manager) : list nat * manager :=
  if m_valid m then (m_all m, m)
  else let l := unique (sort (concat (m_bcs m))) in
       (l, {| m_bcs := m_bcs m; m_attrs := m_attrs m; m_all := l; m_valid := true |}).

Inductive bop := BAdd (r : request) | BQuery.

Fixpoint brun (ops : list bop) (m : manager) : manager :=
  match ops with
  | [] => m
  | BAdd r :: t => brun t (add r m)
  | BQuery :: t => brun t (snd (all_dofs m))
  end.

Fixpoint requests (ops : list bop) : list request :=
  match ops with [] => [] | BAdd r :: t => r :: requests t | BQuery :: t => requests t end.

(** Specification.  [wanted r d]: request r asks for dof d. *)
Definition wanted (r : request) (d : nat) : Prop :=
  match r with
  | ByAttrs attrs comp => exists a, In a attrs /\ In d (dofs_on a comp)
  | ByDofs ds => In d ds
  end.
Definition attrs_of (r : request) : list Z := match r with ByAttrs a _ => a | ByDofs _ => [] end.
(** [granted rs d]: d belongs to a request, through an attribute that no earlier request mentions. *)
Definition granted (rs : list request) (d : nat) : Prop :=
  exists pre r post, rs = pre ++ r :: post /\
    match r with
    | ByAttrs attrs comp => exists a, In a attrs /\ In d (dofs_on a comp) /\ ~ In a (flat_map attrs_of pre)
    | ByDofs ds => In d ds
    end.

Lemma insert_In x l d : In d (insert x l) <-> d = x \/ In d l.
Proof.
  induction l as [|y r IH]; simpl; [intuition|].
  destruct (x <=? y); simpl; [intuition|]. rewrite IH. intuition.
Qed.
Lemma sort_In l d : In d (sort l) <-> In d l.
Proof. induction l as [|x l IH]; simpl; [tauto|]. rewrite insert_In, IH. intuition. Qed.
Lemma insert_sorted x l : StronglySorted le l -> StronglySorted le (insert x l).
Proof.
  induction l as [|y r IH]; simpl; intros H; [repeat constructor|].
  destruct (Nat.leb_spec x y).
  - constructor; auto. apply StronglySorted_inv in H as [Hs Hf]. constructor; auto.
    rewrite Forall_forall in *. intros z Hz. specialize (Hf z Hz). lia.
  - apply StronglySorted_inv in H as [Hs Hf]. constructor; auto. rewrite Forall_forall in *. intros z Hz.
    apply insert_In in Hz as [->|Hz]; auto. lia.
Qed.
Lemma sort_sorted l : StronglySorted le (sort l).
Proof. induction l; simpl; [constructor|now apply insert_sorted]. Qed.

Lemma unique_In l d : In d (unique l) <-> In d l.
Proof.
  induction l as [|x r IH]; [simpl; tauto|]. destruct r as [|y r]; [simpl; tauto|].
  cbn [unique]. destruct (Nat.eqb_spec x y) as [->|].
  - rewrite IH. simpl. intuition.
  - change (In d (x :: unique (y :: r)) <-> In d (x :: y :: r)). simpl In at 1. rewrite IH. simpl. intuition.
Qed.
Lemma unique_sorted l : StronglySorted le l -> StronglySorted lt (unique l).
Proof.
  induction l as [|x r IH]; intros H; [constructor|]. destruct r as [|y r]; [repeat constructor|].
  apply StronglySorted_inv in H as [Hs Hf]. cbn [unique]. destruct (Nat.eqb_spec x y); [auto|].
  constructor; [apply IH; auto|]. apply Forall_forall. intros z Hz.
  apply (proj1 (unique_In (y :: r) z)) in Hz. rewrite Forall_forall in Hf.
  assert (x <= y) by (apply Hf; now left). destruct Hz as [<-|Hz]; [lia|].
  apply StronglySorted_inv in Hs as [_ Hs]. rewrite Forall_forall in Hs. specialize (Hs z Hz). lia.
Qed.

(** Manager invariant. *)
Definition minv (rs : list request) (m : manager) : Prop :=
  (forall a, In a (m_attrs m) <-> In a (flat_map attrs_of rs)) /\
  (forall d, In d (concat (m_bcs m)) <-> granted rs d) /\
  (m_valid m = true -> m_all m = unique (sort (concat (m_bcs m)))).

Lemma granted_snoc rs r d :
  granted (rs ++ [r]) d <-> granted rs d \/
    match r with
    | ByAttrs attrs comp => exists a, In a attrs /\ In d (dofs_on a comp) /\ ~ In a (flat_map attrs_of rs)
    | ByDofs ds => In d ds
    end.
Proof.
  unfold granted. split.
  - intros (pre & r' & post & E & H). destruct post as [|p post] using rev_ind.
    + apply app_inj_tail in E as [-> ->]. now right.
    + left. clear IHpost. rewrite app_comm_cons, app_assoc in E. apply app_inj_tail in E as [-> ->].
      exists pre, r', post. auto.
  - intros [(pre & r' & post & -> & H)|H].
    + exists pre, r', (post ++ [r]). split; auto. now rewrite <- app_assoc.
    + exists rs, r, []. auto.
Qed.

Lemma flat_map_filter_In (A : Type) (f : Z -> bool) (g : Z -> list A) l d :
  In d (flat_map g (filter f l)) <-> exists a, In a l /\ f a = true /\ In d (g a).
Proof.
  rewrite in_flat_map. split; intros (a & H).
  - destruct H as [H1 H2]. apply filter_In in H1. exists a. tauto.
  - exists a. rewrite filter_In. tauto.
Qed.

Lemma existsb_eqb_Z a l : existsb (Z.eqb a) l = true <-> In a l.
Proof.
  rewrite existsb_exists. split.
  - intros (x & H & E). apply Z.eqb_eq in E. now subst.
  - intros H. exists a. split; auto. apply Z.eqb_refl.
Qed.

Lemma minv_add rs m r : minv rs m -> minv (rs ++ [r]) (add r m).
Proof.
  intros (H1 & H2 & H3). unfold minv, add. destruct r as [attrs comp|ds]; simpl; split; [|split| |split]; try discriminate.
  - intros a. rewrite flat_map_app, !in_app_iff, H1. simpl. rewrite app_nil_r. tauto.
  - intros d. rewrite concat_app, in_app_iff, H2, granted_snoc. simpl. rewrite app_nil_r, flat_map_filter_In.
    split; (intros [H|H]; [now left|right]).
    + destruct H as (a & Ha & Hf & Hd). exists a. repeat split; auto.
      apply negb_true_iff in Hf. intros Hin. apply H1 in Hin. apply existsb_eqb_Z in Hin. congruence.
    + destruct H as (a & Ha & Hd & Hn). exists a. repeat split; auto.
      apply negb_true_iff. destruct (existsb (Z.eqb a) (m_attrs m)) eqn:E; auto.
      apply existsb_eqb_Z in E. apply H1 in E. contradiction.
  - intros a. rewrite flat_map_app, in_app_iff, H1. simpl. tauto.
  - intros d. rewrite concat_app, in_app_iff, H2, granted_snoc. simpl. rewrite app_nil_r. tauto.
Qed.

Lemma minv_query rs m : minv rs m -> minv rs (snd (all_dofs m)).
Proof.
  intros (H1 & H2 & H3). unfold all_dofs. destruct (m_valid m) eqn:E; unfold minv; simpl; auto.
Qed.

Lemma minv_run ops : forall rs m, minv rs m -> minv (rs ++ requests ops) (brun ops m).
Proof.
  induction ops as [|[r|] ops IH]; intros rs m H; simpl.
  - now rewrite app_nil_r.
  - specialize (IH (rs ++ [r]) (add r m) (minv_add rs m r H)). now rewrite <- app_assoc in IH.
  - apply IH. now apply minv_query.
Qed.

Lemma all_dofs_spec ops :
  let l := fst (all_dofs (brun ops m_init)) in
  StronglySorted lt l /\ forall d, In d l <-> granted (requests ops) d.
Proof.
  assert (H : minv ([] ++ requests ops) (brun ops m_init)).
  { apply minv_run. unfold minv, m_init; simpl. split; [tauto|split; [|discriminate]].
    intros d. split; [easy|]. intros (pre & r & post & E & _). destruct pre; discriminate. }
  destruct H as (H1 & H2 & H3). simpl app in *. cbv zeta.
  assert (E : fst (all_dofs (brun ops m_init)) = unique (sort (concat (m_bcs (brun ops m_init))))).
  { unfold all_dofs. destruct (m_valid _) eqn:E; simpl; auto. }
  rewrite E. split.
  - apply unique_sorted, sort_sorted.
  - intros d. rewrite unique_In, sort_In. apply H2.
Qed.

(** When no attribute is requested twice, everything that is asked for is granted. *)
Lemma granted_wanted rs d :
  NoDup (flat_map attrs_of rs) -> (granted rs d <-> exists r, In r rs /\ wanted r d).
Proof.
  intros Hnd. split.
  - intros (pre & r & post & -> & H). exists r. split; [apply in_elt|].
    destruct r; simpl; auto. destruct H as (a & H1 & H2 & _). eauto.
  - intros (r & Hin & Hw). apply in_split in Hin as (pre & post & ->).
    exists pre, r, post. split; auto. destruct r as [attrs comp|ds]; simpl in *; auto.
    destruct Hw as (a & Ha & Hd). exists a. repeat split; auto. intros Hp.
    rewrite flat_map_app in Hnd. simpl in Hnd.
    apply in_split in Hp as (l1 & l2 & E). rewrite E in Hnd.
    rewrite <- app_assoc in Hnd. simpl in Hnd. apply NoDup_remove_2 in Hnd.
    apply Hnd. rewrite !in_app_iff. tauto.
Qed.

(** setDofs over all conditions in order (boundary_condition.cpp:110-112, called in loops such as
    heat_transfer.hpp:340-342): each condition overwrites the entries of its dofs.  [value k d] is what
    condition k prescribes at dof d. *)
Definition set_dofs {V} (dofs : list nat) (value : nat -> V) (x : nat -> V) : nat -> V :=
  fold_left (fun y d => fun j => if j =? d then value d else y j) dofs x.

Fixpoint set_all {V} (k : nat) (bcs : list (list nat)) (value : nat -> nat -> V) (x : nat -> V) : nat -> V :=
  match bcs with
  | [] => x
  | ds :: r => set_all (S k) r value (set_dofs ds (value k) x)
  end.

Lemma set_dofs_in {V} ds (value : nat -> V) : forall x j, In j ds -> set_dofs ds value x j = value j.
Proof.
  unfold set_dofs. induction ds as [|d ds IH] using rev_ind; intros x j H; [easy|].
  rewrite fold_left_app. simpl. destruct (Nat.eqb_spec j d) as [->|]; auto.
  apply IH. apply in_app_iff in H as [H|[H|[]]]; auto. congruence.
Qed.
Lemma set_dofs_out {V} ds (value : nat -> V) : forall x j, ~ In j ds -> set_dofs ds value x j = x j.
Proof.
  unfold set_dofs. induction ds as [|d ds IH] using rev_ind; intros x j H; auto.
  rewrite fold_left_app. simpl. rewrite in_app_iff in H. simpl in H.
  destruct (Nat.eqb_spec j d) as [->|]; [tauto|]. apply IH. tauto.
Qed.

(** The last condition that contains a dof decides its value. *)
Lemma set_all_last {V} bcs (value : nat -> nat -> V) : forall k x j pre ds post,
  bcs = pre ++ ds :: post -> In j ds -> (forall l, In l post -> ~ In j l) ->
  set_all k bcs value x j = value (k + length pre) j.
Proof.
  induction bcs as [|b bcs IH]; intros k x j pre ds post E Hin Hpost.
  - destruct pre; discriminate.
  - destruct pre as [|p pre]; inversion E; subst; simpl.
    + rewrite Nat.add_0_r. clear E.
      assert (G : forall post k' y, (forall l, In l post -> ~ In j l) -> set_all k' post value y j = y j).
      { clear. induction post as [|l post IH]; intros k' y H; simpl; auto.
        rewrite IH by (intros; apply H; now right). apply set_dofs_out. apply H. now left. }
      rewrite G by auto. now apply set_dofs_in.
    + rewrite (IH (S k) _ j pre ds post eq_refl Hin Hpost). f_equal. lia.
Qed.
Lemma set_all_none {V} bcs (value : nat -> nat -> V) : forall k x j,
  (forall l, In l bcs -> ~ In j l) -> set_all k bcs value x j = x j.
Proof.
  induction bcs as [|l bcs IH]; intros k y j H; simpl; auto.
  rewrite IH by (intros; apply H; now right). apply set_dofs_out. apply H. now left.
Qed.

(** calculateConstrainedDofs (solid_mechanics.hpp:1641-1690): all local nodes whose node is owned and
    whose position satisfies the predicate contribute the true dofs of the selected component(s).
    [tdof i c]: GetLocalTDofNumber(Ordering::Map(ndofs, vdim, i, c)), negative when not owned. *)
Definition constrained_dofs (num_nodes dim : nat) (tdof : nat -> nat -> Z) (pred : nat -> bool)
    (component : option nat) : list Z :=
  flat_map (fun i =>
    if (0 <=? tdof i 0%nat)%Z then
      if pred i then
        map (tdof i) (filter (fun c => match component with Some k => c =? k | None => true end) (seq 0 dim))
      else []
    else []) (seq 0 num_nodes).

Lemma constrained_dofs_spec nn dim tdof pred comp z :
  In z (constrained_dofs nn dim tdof pred comp) <->
  exists i c, i < nn /\ c < dim /\ (0 <= tdof i 0%nat)%Z /\ pred i = true /\
    (comp = None \/ comp = Some c) /\ z = tdof i c.
Proof.
  unfold constrained_dofs. rewrite in_flat_map. split.
  - intros (i & Hi & H). apply in_seq in Hi.
    destruct (Z.leb_spec 0 (tdof i 0%nat)); [|easy]. destruct (pred i) eqn:Ep; [|easy].
    apply in_map_iff in H as (c & <- & Hc). apply filter_In in Hc as [Hc Hk]. apply in_seq in Hc.
    exists i, c. repeat split; auto; try lia. destruct comp as [k|]; auto. right.
    apply Nat.eqb_eq in Hk. now subst.
  - intros (i & c & H1 & H2 & H3 & H4 & H5 & ->). exists i. split; [apply in_seq; lia|].
    destruct (Z.leb_spec 0 (tdof i 0%nat)); [|lia]. rewrite H4. apply in_map. apply filter_In.
    split; [apply in_seq; lia|]. destruct comp as [k|]; auto.
    destruct H5 as [H5|H5]; [discriminate|]. inversion H5. apply Nat.eqb_refl.
Qed.

End BC.

Lemma nothing_dropped (dofs_on : Z -> option nat -> list nat) (ops : list bop) :
  NoDup (flat_map attrs_of (requests ops)) ->
  forall d, In d (fst (all_dofs (brun dofs_on ops m_init))) <->
    exists r, In r (requests ops) /\ wanted dofs_on r d.
Proof.
  intros H d. destruct (all_dofs_spec dofs_on ops) as [_ ->]. now apply granted_wanted.
Qed.

Definition two_component_table (a : Z) (c : option nat) : list nat :=
  match c with
  | Some 0 => if (a =? 1)%Z then [0;2] else [4]
  | Some _ => if (a =? 1)%Z then [1;3] else [5]
  | None => if (a =? 1)%Z then [0;1;2;3] else [4;5]
  end.

Lemma second_component_dropped :
  exists (dofs_on : Z -> option nat -> list nat) (ops : list bop) (r : request) (d : nat),
    In (BAdd r) ops /\ wanted dofs_on r d /\ ~ In d (fst (all_dofs (brun dofs_on ops m_init))).
Proof.
  exists two_component_table, [BAdd (ByAttrs [1%Z] (Some 0)); BAdd (ByAttrs [1%Z] (Some 1))],
    (ByAttrs [1%Z] (Some 1)), 3.
  split; [simpl; auto|]. split.
  - exists 1%Z. simpl. auto.
  - simpl. intuition discriminate.
Qed.

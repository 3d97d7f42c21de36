(** * Element restriction: gather and scatter-add
    Models element_restriction.cpp:443-536.  Vectors are lists; an index outside a vector is
    undefined behaviour. *)
From Coq Require Import NArith ZArith Reals List Lia Lra Bool.
From Verif Require Import Prelude DofCodec Sums.
Import ListNotations.
Local Open Scope R_scope.

(** struct ElementRestriction (element_restriction.hpp:146-202); dof_info is stored row by row. *)
Record restriction := {
  r_ordering : ordering;
  r_components : nat;
  r_num_nodes : nat;
  r_nodes_per_elem : nat;
  r_dofs : list (list N);          (* one row per element, each of length nodes_per_elem *)
}.
Definition r_num_elements (r : restriction) : nat := length (r_dofs r).
Definition esize (r : restriction) : nat := (r_num_elements r * r_nodes_per_elem r * r_components r)%nat.

Definition dof_at (r : restriction) (i j : nat) : N := nth j (nth i (r_dofs r) []) 0%N.

(** The three nested loops of Gather and ScatterAdd (cpp:445-449, 458-462): pairs (E_id, L_id),
    both cast to int. *)
Definition L_id (r : restriction) (i c j : nat) : Z :=
  to_int (dof_index (get_vdof (r_ordering r) (N.of_nat (r_num_nodes r)) (N.of_nat (r_components r)) (dof_at r i j) (N.of_nat c))).
Definition E_id (r : restriction) (i c j : nat) : Z :=
  Z.of_nat ((i * r_components r + c) * r_nodes_per_elem r + j).
Definition loop_ids (r : restriction) : list (Z * Z) :=
  flat_map (fun i => flat_map (fun c => map (fun j => (E_id r i c j, L_id r i c j))
    (seq 0 (r_nodes_per_elem r))) (seq 0 (r_components r))) (seq 0 (r_num_elements r)).

(** Gather (cpp:443-454) *)
Fixpoint gather_loop (ids : list (Z * Z)) (L E : list R) : outcome (list R) :=
  match ids with
  | [] => Ok E
  | (e, l) :: t => bindO (vec_get L l) (fun v => bindO (vec_set E e v) (gather_loop t L))
  end.
Definition gather (r : restriction) (L E : list R) : outcome (list R) := gather_loop (loop_ids r) L E.

(** ScatterAdd (cpp:456-467) *)
Fixpoint scatter_loop (ids : list (Z * Z)) (E L : list R) : outcome (list R) :=
  match ids with
  | [] => Ok L
  | (e, l) :: t => bindO (vec_get E e) (fun v => bindO (vec_get L l) (fun w =>
                     bindO (vec_set L l (w + v)) (scatter_loop t E)))
  end.
Definition scatter (r : restriction) (E L : list R) : outcome (list R) := scatter_loop (loop_ids r) E L.

(** Specification side. *)
Definition dot (a b : list R) : R := sumn (length a) (fun i => nth i a 0 * nth i b 0).
Definition ids_ok (r : restriction) (lsize : nat) : Prop :=
  forall e l, In (e, l) (loop_ids r) -> (0 <= l < Z.of_nat lsize)%Z.

Lemma vec_get_ok {A} (l : list A) k d : (0 <= k < Z.of_nat (length l))%Z -> vec_get l k = Ok (nth (Z.to_nat k) l d).
Proof.
  intros H. unfold vec_get. destruct (Z.ltb_spec k 0); [lia|].
  rewrite (nth_error_nth' l d) by lia. reflexivity.
Qed.
Lemma vec_set_ok {A} (l : list A) k (a : A) : (0 <= k < Z.of_nat (length l))%Z -> vec_set l k a = Ok (upd l (Z.to_nat k) a).
Proof.
  intros H. unfold vec_set. destruct (Z.ltb_spec k 0); [lia|]. destruct (Z.leb_spec (Z.of_nat (length l)) k); [lia|]. reflexivity.
Qed.
Lemma nth_upd {A} (l : list A) k j (a d : A) : (k < length l)%nat -> nth j (upd l k a) d = if Nat.eqb j k then a else nth j l d.
Proof.
  revert k j. induction l as [|h t IH]; intros [|k] [|j] H; simpl in *; try lia; auto. apply IH. lia.
Qed.

(** The E ids are visited in order 0, 1, 2, ... *)
Lemma map_seq_shift {A} (f : nat -> A) s n : map f (seq s n) = map (fun i => f (s + i)%nat) (seq 0 n).
Proof.
  revert s f. induction n as [|n IH]; intros s f; [reflexivity|]. simpl. rewrite Nat.add_0_r. f_equal.
  rewrite (IH (S s) f), (IH 1%nat (fun i => f (s + i)%nat)). apply map_ext. intros. f_equal. lia.
Qed.
Lemma flat_map_blocks (m n : nat) (s : nat) :
  flat_map (fun i => map (fun j => ((s + i) * m + j)%nat) (seq 0 m)) (seq 0 n) = seq (s * m) (n * m).
Proof.
  revert s. induction n as [|n IH]; intros s; [reflexivity|].
  cbn [seq flat_map]. rewrite Nat.add_0_r. rewrite flat_map_concat_map, (map_seq_shift _ 1), <- flat_map_concat_map.
  replace (map (fun j => (s * m + j)%nat) (seq 0 m)) with (seq (s * m) m).
  2:{ rewrite <- (map_id (seq (s * m) m)). apply (map_seq_shift (fun x => x)). }
  rewrite (flat_map_ext _ (fun i => map (fun j => ((S s + i) * m + j)%nat) (seq 0 m))).
  2:{ intros a. apply map_ext. intros b. replace (s + (1 + a))%nat with (S s + a)%nat by lia. reflexivity. }
  rewrite IH. change (S n * m)%nat with (m + n * m)%nat. rewrite seq_app. f_equal. f_equal. lia.
Qed.

Lemma loop_E_ids r : map fst (loop_ids r) = map Z.of_nat (seq 0 (esize r)).
Proof.
  unfold loop_ids, esize. rewrite flat_map_concat_map, concat_map, map_map, <- flat_map_concat_map.
  rewrite (flat_map_ext _ (fun i => map Z.of_nat (seq (i * (r_components r * r_nodes_per_elem r)) (r_components r * r_nodes_per_elem r)))).
  2:{ intros i. rewrite flat_map_concat_map, concat_map, map_map, <- flat_map_concat_map.
      rewrite (flat_map_ext _ (fun c => map Z.of_nat (map (fun j => ((i * r_components r + c) * r_nodes_per_elem r + j)%nat) (seq 0 (r_nodes_per_elem r))))).
      2:{ intros c. rewrite !map_map. apply map_ext. reflexivity. }
      rewrite <- (map_map (fun c => (map (fun j => ((i * r_components r + c) * r_nodes_per_elem r + j)%nat) (seq 0 (r_nodes_per_elem r)))) (map Z.of_nat)) || idtac.
      rewrite flat_map_concat_map, <- map_map, <- concat_map, <- flat_map_concat_map. f_equal.
      rewrite flat_map_blocks. f_equal. lia. }
  rewrite flat_map_concat_map, <- map_map, <- concat_map, <- flat_map_concat_map. f_equal.
  set (m := (r_components r * r_nodes_per_elem r)%nat).
  rewrite (flat_map_ext _ (fun i => map (fun j => ((0 + i) * m + j)%nat) (seq 0 m))).
  2:{ intros i. rewrite <- (map_id (seq (i * m) m)). apply (map_seq_shift (fun x => x)). }
  rewrite flat_map_blocks. f_equal. unfold m. lia.
Qed.

Lemma gather_loop_spec ids : forall L E,
  NoDup (map fst ids) ->
  (forall e l, In (e, l) ids -> (0 <= e < Z.of_nat (length E))%Z /\ (0 <= l < Z.of_nat (length L))%Z) ->
  exists G, gather_loop ids L E = Ok G /\ length G = length E /\
    (forall e l, In (e, l) ids -> nth (Z.to_nat e) G 0 = nth (Z.to_nat l) L 0) /\
    (forall k, ~ In (Z.of_nat k) (map fst ids) -> nth k G 0 = nth k E 0).
Proof.
  induction ids as [|[e l] ids IH]; intros L E Hn Hr; cbn [gather_loop].
  - exists E. repeat split; auto. intros ? ? [].
  - destruct (Hr e l) as [He Hl]; [now left|]. rewrite (vec_get_ok L l 0) by auto. cbn [bindO].
    rewrite vec_set_ok by auto. cbn [bindO]. inversion Hn as [|? ? Hx Hy]; subst.
    destruct (IH L (upd E (Z.to_nat e) (nth (Z.to_nat l) L 0))) as (G & E1 & E2 & E3 & E4); auto.
    { intros e' l' H. rewrite upd_length. apply Hr. now right. }
    exists G. rewrite upd_length in E2. repeat split; auto.
    + intros e' l' [H|H]; [|auto]. inversion H; subst e' l'. rewrite (E4 (Z.to_nat e)).
      * rewrite nth_upd by lia. now rewrite Nat.eqb_refl.
      * rewrite Z2Nat.id by lia. exact Hx.
    + intros k Hk. simpl in Hk. rewrite E4 by tauto. rewrite nth_upd by lia.
      destruct (Nat.eqb_spec k (Z.to_nat e)); auto. exfalso. apply Hk. left. lia.
Qed.

Lemma sumn_upd n l k v f : (k < length l)%nat -> (k < n)%nat ->
  sumn n (fun i => nth i (upd l k v) 0 * f i) = sumn n (fun i => nth i l 0 * f i) + (v - nth k l 0) * f k.
Proof.
  intros Hl Hn.
  rewrite (sumn_ext n _ (fun i => nth i l 0 * f i + (if Nat.eqb i k then (v - nth k l 0) * f k else 0))).
  - rewrite sumn_plus, (sumn_delta n k (fun _ => (v - nth k l 0) * f k)) by auto. reflexivity.
  - intros i Hi. rewrite nth_upd by auto. destruct (Nat.eqb_spec i k) as [->|]; ring.
Qed.

Lemma scatter_loop_spec ids : forall E L,
  (forall e l, In (e, l) ids -> (0 <= e < Z.of_nat (length E))%Z /\ (0 <= l < Z.of_nat (length L))%Z) ->
  exists L', scatter_loop ids E L = Ok L' /\ length L' = length L /\
    (forall f : nat -> R, sumn (length L) (fun i => nth i L' 0 * f i) =
       sumn (length L) (fun i => nth i L 0 * f i) + suml ids (fun p => nth (Z.to_nat (fst p)) E 0 * f (Z.to_nat (snd p)))).
Proof.
  induction ids as [|[e l] ids IH]; intros E L Hr; cbn [scatter_loop].
  - exists L. repeat split; auto. intros f. simpl. ring.
  - destruct (Hr e l) as [He Hl]; [now left|].
    rewrite (vec_get_ok E e 0), (vec_get_ok L l 0) by auto. cbn [bindO]. rewrite vec_set_ok by auto. cbn [bindO].
    set (L1 := upd L (Z.to_nat l) (nth (Z.to_nat l) L 0 + nth (Z.to_nat e) E 0)).
    assert (HL1 : length L1 = length L) by apply upd_length.
    destruct (IH E L1) as (L' & E1 & E2 & E3).
    { intros e' l' H. rewrite HL1. apply Hr. now right. }
    exists L'. rewrite HL1 in *. repeat split; auto. intros f. rewrite E3. unfold L1.
    rewrite sumn_upd by lia. cbn [suml fst snd]. ring.
Qed.

Lemma loop_E_range r e l : In (e, l) (loop_ids r) -> (0 <= e < Z.of_nat (esize r))%Z.
Proof.
  intros H. apply (in_map fst) in H. rewrite loop_E_ids in H. simpl in H.
  apply in_map_iff in H as (k & <- & Hk). apply in_seq in Hk. lia.
Qed.
Lemma loop_E_nodup r : NoDup (map fst (loop_ids r)).
Proof. rewrite loop_E_ids. apply FinFun.Injective_map_NoDup; [intros a b; lia|apply seq_NoDup]. Qed.

(** Gather succeeds, and each entry of the result is the entry of L named by the dof table. *)
Lemma gather_spec r L E : ids_ok r (length L) -> length E = esize r ->
  exists G, gather r L E = Ok G /\ length G = esize r /\
    forall i c j, (i < r_num_elements r)%nat -> (c < r_components r)%nat -> (j < r_nodes_per_elem r)%nat ->
      nth (Z.to_nat (E_id r i c j)) G 0 = nth (Z.to_nat (L_id r i c j)) L 0.
Proof.
  intros Hok HE. destruct (gather_loop_spec (loop_ids r) L E (loop_E_nodup r)) as (G & A & B & C & _).
  - intros e l H. split; [rewrite HE; eapply loop_E_range; eauto|]. eapply Hok; eauto.
  - exists G. split; auto. split; [congruence|]. intros i c j Hi Hc Hj. apply C.
    unfold loop_ids. apply in_flat_map. exists i. split; [apply in_seq; lia|].
    apply in_flat_map. exists c. split; [apply in_seq; lia|]. apply in_map_iff. exists j. split; auto. apply in_seq; lia.
Qed.

Lemma dot_loop r L E G : length E = esize r -> gather r L (repeat 0 (esize r)) = Ok G -> ids_ok r (length L) ->
  dot E G = suml (loop_ids r) (fun p => nth (Z.to_nat (fst p)) E 0 * nth (Z.to_nat (snd p)) L 0).
Proof.
  intros HE HG Hok.
  destruct (gather_loop_spec (loop_ids r) L (repeat 0 (esize r)) (loop_E_nodup r)) as (G' & A & B & C & _).
  { intros e l H. rewrite repeat_length. split; [eapply loop_E_range; eauto|eapply Hok; eauto]. }
  unfold gather in HG. rewrite A in HG. inversion HG; subst G'. clear HG.
  unfold dot. rewrite HE, <- suml_seq.
  rewrite (suml_ext (loop_ids r) _ (fun p => nth (Z.to_nat (fst p)) E 0 * nth (Z.to_nat (fst p)) G 0)).
  2:{ intros [e l] H. simpl. now rewrite (C e l H). }
  rewrite <- (suml_map fst (loop_ids r) (fun e => nth (Z.to_nat e) E 0 * nth (Z.to_nat e) G 0)).
  rewrite loop_E_ids, suml_map. apply suml_ext. intros a _. now rewrite Nat2Z.id.
Qed.

(** Scatter-add accumulates the transpose of gather. *)
Lemma gather_scatter_adjoint r u L E :
  length u = length L -> ids_ok r (length L) -> length E = esize r ->
  exists G L', gather r u (repeat 0 (esize r)) = Ok G /\ scatter r E L = Ok L' /\
    length G = esize r /\ length L' = length L /\
    dot L' u = dot L u + dot E G.
Proof.
  intros Hu Hok HE.
  destruct (gather_spec r u (repeat 0 (esize r))) as (G & A & B & _); [now rewrite Hu|apply repeat_length|].
  destruct (scatter_loop_spec (loop_ids r) E L) as (L' & C & D & F).
  { intros e l H. split; [rewrite HE; eapply loop_E_range; eauto|eapply Hok; eauto]. }
  exists G, L'. repeat split; auto.
  rewrite (dot_loop r u E G HE A) by (now rewrite Hu).
  unfold dot. rewrite D. apply F.
Qed.

(** The entry k of the output has gained exactly the element contributions whose dof is k. *)
Lemma scatter_entry r E L : ids_ok r (length L) -> length E = esize r ->
  exists L', scatter r E L = Ok L' /\ length L' = length L /\
    forall k, (k < length L)%nat ->
      nth k L' 0 = nth k L 0 + suml (loop_ids r) (fun p => if Z.eqb (snd p) (Z.of_nat k) then nth (Z.to_nat (fst p)) E 0 else 0).
Proof.
  intros Hok HE. destruct (scatter_loop_spec (loop_ids r) E L) as (L' & C & D & F).
  { intros e l H. split; [rewrite HE; eapply loop_E_range; eauto|eapply Hok; eauto]. }
  exists L'. split; auto. split; auto. intros k Hk.
  specialize (F (fun i => if Nat.eqb i k then 1 else 0)).
  assert (X : forall M, sumn (length L) (fun i => nth i M 0 * (if Nat.eqb i k then 1 else 0)) = nth k M 0).
  { intros M. rewrite (sumn_ext _ _ (fun i => if Nat.eqb i k then nth i M 0 else 0)).
    - now rewrite sumn_delta.
    - intros i _. destruct (Nat.eqb i k); ring. }
  rewrite !X in F. rewrite F. f_equal. apply suml_ext. intros [e l] H. cbn [fst snd].
  assert (0 <= l < Z.of_nat (length L))%Z by (eapply Hok; eauto).
  destruct (Z.eqb_spec l (Z.of_nat k)) as [El|El], (Nat.eqb_spec (Z.to_nat l) k) as [Ek|Ek]; try ring; lia.
Qed.

(** When the stored dofs are node numbers below num_nodes and the L-vector has
    num_nodes*components entries (< 2^31), every id is in range and equals the expected one. *)
Definition plain (r : restriction) : Prop :=
  (forall row, In row (r_dofs r) -> length row = r_nodes_per_elem r /\
     forall d, In d row -> exists n, (n < r_num_nodes r)%nat /\ d = mk_dof (N.of_nat n) 0 0) /\
  (Z.of_nat (r_num_nodes r * r_components r) < 2147483648)%Z.

Lemma to_int_small x : (x < 2147483648)%N -> to_int x = Z.of_N x.
Proof.
  intros H. unfold to_int. change (N.shiftl 1 32) with 4294967296%N. change (N.shiftl 1 31) with 2147483648%N.
  rewrite N.mod_small by lia. destruct (Z.ltb_spec (Z.of_N x) (Z.of_N 2147483648)); lia.
Qed.

Lemma plain_L_id r i c j : plain r -> (i < r_num_elements r)%nat -> (c < r_components r)%nat -> (j < r_nodes_per_elem r)%nat ->
  exists n, (n < r_num_nodes r)%nat /\ dof_at r i j = mk_dof (N.of_nat n) 0 0 /\
    L_id r i c j = Z.of_nat (match r_ordering r with byNODES => c * r_num_nodes r + n | byVDIM => n * r_components r + c end).
Proof.
  intros [Hp Hs] Hi Hc Hj. unfold r_num_elements in Hi.
  destruct (Hp (nth i (r_dofs r) [])) as [Hlen Hd]; [now apply nth_In|].
  destruct (Hd (nth j (nth i (r_dofs r) []) 0%N)) as (n & Hn & E); [apply nth_In; lia|].
  exists n. split; auto. split; [exact E|].
  unfold L_id, dof_at. rewrite E.
  assert (B : (N.of_nat (r_num_nodes r) * N.of_nat (r_components r) <= lim60)%N).
  { change lim60 with 1152921504606846976%N. lia. }
  pose proof (vdof_number_eq (r_ordering r) (N.of_nat (r_num_nodes r)) (N.of_nat (r_components r)) (N.of_nat n) (N.of_nat c)
                ltac:(lia) ltac:(lia) B) as V. unfold vdof_number in V. rewrite V. clear V.
  destruct (r_ordering r); rewrite to_int_small; try nia.
Qed.

Lemma plain_ids_ok r : plain r -> ids_ok r (r_num_nodes r * r_components r).
Proof.
  intros Hp e l H. unfold loop_ids in H. apply in_flat_map in H as (i & Hi & H).
  apply in_flat_map in H as (c & Hc & H). apply in_map_iff in H as (j & E & Hj).
  apply in_seq in Hi, Hc, Hj. inversion E; subst.
  destruct (plain_L_id r i c j Hp) as (n & Hn & _ & ->); [lia|lia|lia|]. destruct (r_ordering r); nia.
Qed.

(** A reversed H(curl) dof makes Gather read outside the vector. *)
Definition hcurl_restriction : restriction :=
  {| r_ordering := byVDIM; r_components := 1; r_num_nodes := 3; r_nodes_per_elem := 3;
     r_dofs := [[mk_dof (of_int 0) 1 0; mk_dof (of_int (-1 - 1)) 1 0; mk_dof (of_int 2) 1 0]%N] |}.
Lemma hcurl_gather_ub : exists L E, length L = 3%nat /\ length E = esize hcurl_restriction /\ gather hcurl_restriction L E = UB.
Proof. exists [1;2;3], [0;0;0]. repeat split. Qed.

(** ** Several geometries *)
(** bOffsets (cpp:507-522): one entry per geometry number 0..NUM_GEOMETRIES-1; absent geometries have
    size 0. *)
Fixpoint offsets_from (start : Z) (sizes : list Z) : list Z :=
  match sizes with [] => [start] | s :: t => start :: offsets_from (start + s) t end.
Definition bOffsets (blocks : list (option restriction)) : list Z :=
  offsets_from 0 (map (fun b => match b with Some r => Z.of_nat (esize r) | None => 0%Z end) blocks).

Definition Zsum (l : list Z) : Z := fold_right Z.add 0%Z l.
Lemma offsets_from_spec sizes : forall start k, (k <= length sizes)%nat ->
  nth_error (offsets_from start sizes) k = Some (start + Zsum (firstn k sizes))%Z.
Proof.
  induction sizes as [|s t IH]; intros start k Hk.
  - simpl in Hk. assert (k = 0%nat) by lia. subst. simpl. f_equal. lia.
  - destruct k as [|k]; [simpl; f_equal; lia|]. simpl in Hk. cbn [offsets_from nth_error firstn].
    rewrite IH by lia. f_equal. cbn [Zsum fold_right]. unfold Zsum. lia.
Qed.

Lemma firstn_succ_sum sizes : forall k s, nth_error sizes k = Some s -> Zsum (firstn (S k) sizes) = (Zsum (firstn k sizes) + s)%Z.
Proof.
  induction sizes as [|a t IH]; intros [|k] s H; cbn [nth_error] in H; try discriminate.
  - inversion H. cbn. lia.
  - specialize (IH k s H). cbn [firstn Zsum fold_right] in *. unfold Zsum in *. lia.
Qed.

Lemma bOffsets_spec blocks : nth_error (bOffsets blocks) 0 = Some 0%Z /\ length (bOffsets blocks) = S (length blocks) /\
  forall k b, nth_error blocks k = Some b ->
  exists start stop, nth_error (bOffsets blocks) k = Some start /\ nth_error (bOffsets blocks) (S k) = Some stop /\
    (stop - start = match b with Some r => Z.of_nat (esize r) | None => 0 end)%Z.
Proof.
  unfold bOffsets. set (sizes := map _ blocks).
  assert (HL : length sizes = length blocks) by apply map_length.
  split; [rewrite offsets_from_spec by lia; reflexivity|]. split.
  - rewrite <- HL. generalize 0%Z. induction sizes as [|s t IH] in |- *; intros z; [reflexivity|]. cbn. f_equal. apply IH.
  - intros k b Hb. assert (k < length blocks)%nat by (apply nth_error_Some; congruence).
    rewrite !offsets_from_spec by lia. do 2 eexists. split; [reflexivity|]. split; [reflexivity|].
    rewrite (firstn_succ_sum sizes k (match b with Some r => Z.of_nat (esize r) | None => 0%Z end)).
    + lia.
    + unfold sizes. rewrite nth_error_map, Hb. reflexivity.
Qed.

(** Block gather / scatter (cpp:524-536): each geometry works on its own block. *)
Fixpoint scatter_blocks (bs : list (restriction * list R)) (L : list R) : outcome (list R) :=
  match bs with [] => Ok L | (r, E) :: t => bindO (scatter r E L) (scatter_blocks t) end.
Fixpoint gather_blocks (bs : list restriction) (L : list R) : outcome (list (list R)) :=
  match bs with
  | [] => Ok []
  | r :: t => bindO (gather r L (repeat 0 (esize r))) (fun G => bindO (gather_blocks t L) (fun Gs => Ok (G :: Gs)))
  end.
Fixpoint dots (Es Gs : list (list R)) : R :=
  match Es, Gs with E :: Es', G :: Gs' => dot E G + dots Es' Gs' | _, _ => 0 end.

Lemma block_adjoint (bs : list (restriction * list R)) u : forall L,
  length u = length L ->
  (forall r E, In (r, E) bs -> ids_ok r (length L) /\ length E = esize r) ->
  exists Gs L', gather_blocks (map fst bs) u = Ok Gs /\ scatter_blocks bs L = Ok L' /\ length L' = length L /\
    map (@length R) Gs = map esize (map fst bs) /\
    dot L' u = dot L u + dots (map snd bs) Gs.
Proof.
  induction bs as [|[r E] bs IH]; intros L Hu Hb.
  - exists [], L. simpl. repeat split; auto. ring.
  - destruct (Hb r E) as [H1 H2]; [now left|].
    destruct (gather_scatter_adjoint r u L E Hu H1 H2) as (G & L1 & A & B & C & D & F).
    destruct (IH L1) as (Gs & L' & A' & B' & C' & D' & F').
    + congruence.
    + intros r' E' H. rewrite D. apply Hb. now right.
    + exists (G :: Gs), L'. cbn [map fst snd gather_blocks scatter_blocks].
      rewrite A, B. cbn [bindO]. rewrite A', B'. cbn [bindO].
      split; [reflexivity|]. split; [reflexivity|]. split; [congruence|]. split; [cbn; congruence|].
      cbn [dots]. rewrite F', F. ring.
Qed.

(** BlockElementRestriction::ESize (cpp:503): size of the first geometry only. *)
Definition block_esize (blocks : list (option restriction)) : nat :=
  match flat_map (fun b => match b with Some r => [r] | None => [] end) blocks with r :: _ => esize r | [] => 0 end.

Lemma block_esize_wrong : exists blocks, (length (bOffsets blocks) = 3)%nat /\
  nth_error (bOffsets blocks) 2 <> Some (Z.of_nat (block_esize blocks)).
Proof.
  set (r := fun n => {| r_ordering := byNODES; r_components := 1; r_num_nodes := 5; r_nodes_per_elem := n;
                        r_dofs := [map (fun i => mk_dof (N.of_nat i) 0 0) (seq 0 n)] |}).
  exists [Some (r 3%nat); Some (r 4%nat)]. split; [reflexivity|]. vm_compute. discriminate.
Qed.

(** Example: two segments sharing a node, two components. *)
Definition two_segments (o : ordering) : restriction :=
  {| r_ordering := o; r_components := 2; r_num_nodes := 3; r_nodes_per_elem := 2;
     r_dofs := [[mk_dof 0 0 0; mk_dof 1 0 0]; [mk_dof 1 0 0; mk_dof 2 0 0]]%N |}.
Lemma two_segments_plain o : plain (two_segments o).
Proof.
  split; [|reflexivity]. intros row [<-|[<-|[]]]; (split; [reflexivity|]); intros d [<-|[<-|[]]];
  [exists 0%nat|exists 1%nat|exists 1%nat|exists 2%nat]; (split; [simpl; lia|reflexivity]).
Qed.

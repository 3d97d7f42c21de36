(** * Lexicographic node numbers, face node lists and face permutations
    Models element_restriction.cpp:67-214.  C++ [int] is [Z] without overflow; [/] is truncating
    division ([Z.quot]). *)
From Coq Require Import ZArith List Lia Bool.
From Verif Require Import Prelude.
Import ListNotations.
Local Open Scope Z_scope.

(** element_restriction.cpp:85, 138 *)
Definition tri_id (p x y : Z) : Z := x + Z.quot ((3 + 2 * p - y) * y) 2.
(** element_restriction.cpp:148-150 *)
Definition tet_id (p x y z : Z) : Z :=
  x + Z.quot (z * (11 + p * (12 + 3 * p) - 6 * y + z * (z - 6 - 3 * p)) - 3 * y * (y - 2 * p - 3)) 6.
(** element_restriction.cpp:108, 152 *)
Definition quad_id (p x y : Z) : Z := (p + 1) * y + x.
(** element_restriction.cpp:154 *)
Definition hex_id (p x y z : Z) : Z := (p + 1) * ((p + 1) * z + y) + x.

Arguments tri_id : simpl never.
Arguments tet_id : simpl never.
Arguments quad_id : simpl never.
Arguments hex_id : simpl never.

(** Sizes as allocated at element_restriction.cpp:84, 107, 180, 199. *)
Definition tri_size (p : Z) : Z := Z.quot ((p + 1) * (p + 2)) 2.
Definition quad_size (p : Z) : Z := (p + 1) * (p + 1).
Definition tet_size (p : Z) : Z := Z.quot ((p + 1) * (p + 2) * (p + 3)) 6.
Definition hex_size (p : Z) : Z := (p + 1) * (p + 1) * (p + 1).

(** ** Specification: lattice points of the reference elements *)
Definition in_tri (p x y : Z) : Prop := 0 <= x /\ 0 <= y /\ x + y <= p.
Definition in_quad (p x y : Z) : Prop := 0 <= x <= p /\ 0 <= y <= p.
Definition in_tet (p x y z : Z) : Prop := 0 <= x /\ 0 <= y /\ 0 <= z /\ x + y + z <= p.
Definition in_hex (p x y z : Z) : Prop := 0 <= x <= p /\ 0 <= y <= p /\ 0 <= z <= p.

(** ** Triangle *)
(** number of points in rows below y *)
Lemma rows_even p y : exists r, (3 + 2 * p - y) * y = 2 * r.
Proof.
  destruct (Z.Even_or_Odd y) as [[k ->]|[k ->]].
  - exists ((3 + 2 * p - 2 * k) * k). ring.
  - exists ((1 + p - k) * (2 * k + 1)). ring.
Qed.
Definition rows (p y : Z) : Z := Z.quot ((3 + 2 * p - y) * y) 2.
Lemma rows_double p y : 2 * rows p y = (3 + 2 * p - y) * y.
Proof.
  unfold rows. destruct (rows_even p y) as [r ->]. rewrite (Z.mul_comm 2 r), Z.quot_mul; lia.
Qed.
Lemma rows_succ p y : rows p (y + 1) = rows p y + (p + 1 - y).
Proof. pose proof (rows_double p y). pose proof (rows_double p (y + 1)). nia. Qed.
Lemma rows_0 p : rows p 0 = 0. Proof. pose proof (rows_double p 0). lia. Qed.
Lemma rows_mono p y y' : 0 <= y -> y <= y' -> y' <= p + 1 -> rows p y + (y' - y) * (p + 2 - y') <= rows p y'.
Proof.
  intros. pose proof (rows_double p y). pose proof (rows_double p y').
  assert (0 <= (y' - y) * (y' - y - 1)) by (destruct (Z.eq_dec y y') as [->|]; [lia|apply Z.mul_nonneg_nonneg; lia]). nia.
Qed.
Lemma tri_size_rows p : tri_size p = rows p (p + 1).
Proof.
  unfold tri_size, rows. f_equal. ring.
Qed.

Lemma tri_lex p x y x' y' : in_tri p x y -> in_tri p x' y' ->
  (tri_id p x y < tri_id p x' y' <-> y < y' \/ (y = y' /\ x < x')).
Proof.
  unfold in_tri, tri_id. fold (rows p y) (rows p y'). intros H H'.
  destruct (Z.lt_trichotomy y y') as [L|[E|L]].
  - pose proof (rows_mono p (y + 1) y' ltac:(lia) ltac:(lia) ltac:(lia)). rewrite rows_succ in H0.
    split; [tauto|]. intros _. nia.
  - subst. lia.
  - pose proof (rows_mono p (y' + 1) y ltac:(lia) ltac:(lia) ltac:(lia)). rewrite rows_succ in H0.
    split; [|lia]. intros. nia.
Qed.

Lemma tri_range p x y : in_tri p x y -> 0 <= tri_id p x y < tri_size p.
Proof.
  unfold in_tri, tri_id. rewrite tri_size_rows. fold (rows p y). intros H.
  pose proof (rows_mono p 0 y ltac:(lia) ltac:(lia) ltac:(lia)). rewrite rows_0 in H0.
  pose proof (rows_mono p (y + 1) (p + 1) ltac:(lia) ltac:(lia) ltac:(lia)). rewrite rows_succ in H1. nia.
Qed.

Lemma tri_onto p k : 0 <= p -> 0 <= k < tri_size p -> exists x y, in_tri p x y /\ tri_id p x y = k.
Proof.
  intros Hp. rewrite tri_size_rows.
  assert (G : forall n : nat, Z.of_nat n <= p + 1 -> 0 <= k < rows p (Z.of_nat n) ->
     exists x y, in_tri p x y /\ tri_id p x y = k).
  { induction n as [|n IH]; intros Hn Hk.
    - change (Z.of_nat 0) with 0 in Hk. rewrite rows_0 in Hk. lia.
    - rewrite Nat2Z.inj_succ in *. unfold Z.succ in *. rewrite rows_succ in Hk.
      destruct (Z.lt_ge_cases k (rows p (Z.of_nat n))) as [L|L]; [apply IH; lia|].
      exists (k - rows p (Z.of_nat n)), (Z.of_nat n). unfold in_tri, tri_id. fold (rows p (Z.of_nat n)). lia. }
  intros Hk. apply (G (Z.to_nat (p + 1))); rewrite Z2Nat.id by lia; auto; lia.
Qed.

(** ** Tetrahedron *)
(** number of points in layers below z *)
Fixpoint layers (p : Z) (z : nat) : Z :=
  match z with O => 0 | S n => layers p n + tri_size (p - Z.of_nat n) end.

Lemma tri_size_double p : 2 * tri_size p = (p + 1) * (p + 2).
Proof. rewrite tri_size_rows, rows_double. ring. Qed.

Lemma layers_six p n : 6 * layers p n =
  let z := Z.of_nat n in z * (11 + p * (12 + 3 * p) + z * (z - 6 - 3 * p)).
Proof.
  induction n as [|n IH]; [reflexivity|]. cbn [layers].
  rewrite Z.mul_add_distr_l, IH. cbv zeta. pose proof (tri_size_double (p - Z.of_nat n)) as D.
  replace (6 * tri_size (p - Z.of_nat n)) with (3 * (2 * tri_size (p - Z.of_nat n))) by ring. rewrite D.
  rewrite Nat2Z.inj_succ. unfold Z.succ. ring.
Qed.

Lemma tet_id_split p x y z : 0 <= z -> tet_id p x y z = layers p (Z.to_nat z) + tri_id (p - z) x y.
Proof.
  intros Hz. unfold tet_id, tri_id. fold (rows (p - z) y).
  pose proof (layers_six p (Z.to_nat z)) as L. cbv zeta in L. rewrite Z2Nat.id in L by lia.
  pose proof (rows_double (p - z) y) as R.
  replace (z * (11 + p * (12 + 3 * p) - 6 * y + z * (z - 6 - 3 * p)) - 3 * y * (y - 2 * p - 3))
    with ((layers p (Z.to_nat z) + rows (p - z) y) * 6).
  2:{ replace ((layers p (Z.to_nat z) + rows (p - z) y) * 6)
        with (6 * layers p (Z.to_nat z) + 3 * (2 * rows (p - z) y)) by ring. rewrite L, R. ring. }
  rewrite Z.quot_mul by lia. ring.
Qed.

Lemma tri_size_pos p : 0 <= p -> 0 < tri_size p.
Proof. intros. pose proof (tri_size_double p). nia. Qed.

Lemma layers_le p n m : (n <= m)%nat -> Z.of_nat m <= p + 1 -> layers p n <= layers p m.
Proof.
  intros H. induction H as [|m H IH]; intros Hm; [lia|]. cbn [layers].
  pose proof (tri_size_pos (p - Z.of_nat m) ltac:(lia)). specialize (IH ltac:(lia)). lia.
Qed.

Lemma layers_total p : 0 <= p -> layers p (Z.to_nat (p + 1)) = tet_size p.
Proof.
  intros Hp. unfold tet_size. pose proof (layers_six p (Z.to_nat (p + 1))) as L. cbv zeta in L.
  rewrite Z2Nat.id in L by lia.
  replace ((p + 1) * (p + 2) * (p + 3)) with (layers p (Z.to_nat (p + 1)) * 6).
  - symmetry. apply Z.quot_mul. lia.
  - rewrite Z.mul_comm, L. ring.
Qed.

Lemma tet_layer_bounds p x y z : in_tet p x y z ->
  layers p (Z.to_nat z) <= tet_id p x y z < layers p (Z.to_nat (z + 1)).
Proof.
  unfold in_tet. intros H. rewrite tet_id_split by lia.
  pose proof (tri_range (p - z) x y ltac:(unfold in_tri; lia)) as T.
  replace (Z.to_nat (z + 1)) with (S (Z.to_nat z)) by lia. cbn [layers]. rewrite Z2Nat.id by lia. lia.
Qed.

Lemma tet_lex p x y z x' y' z' : in_tet p x y z -> in_tet p x' y' z' ->
  (tet_id p x y z < tet_id p x' y' z' <-> z < z' \/ (z = z' /\ (y < y' \/ (y = y' /\ x < x')))).
Proof.
  intros H H'. pose proof (tet_layer_bounds _ _ _ _ H) as B. pose proof (tet_layer_bounds _ _ _ _ H') as B'.
  unfold in_tet in *. destruct (Z.lt_trichotomy z z') as [L|[E|L]].
  - pose proof (layers_le p (Z.to_nat (z + 1)) (Z.to_nat z') ltac:(lia) ltac:(lia)). lia.
  - subst z'. rewrite !tet_id_split by lia.
    pose proof (tri_lex (p - z) x y x' y' ltac:(unfold in_tri; lia) ltac:(unfold in_tri; lia)). lia.
  - pose proof (layers_le p (Z.to_nat (z' + 1)) (Z.to_nat z) ltac:(lia) ltac:(lia)). lia.
Qed.

Lemma tet_range p x y z : in_tet p x y z -> 0 <= tet_id p x y z < tet_size p.
Proof.
  intros H. pose proof (tet_layer_bounds _ _ _ _ H) as B. unfold in_tet in H.
  pose proof (layers_le p 0 (Z.to_nat z) ltac:(lia) ltac:(lia)) as L. cbn [layers] in L.
  pose proof (layers_le p (Z.to_nat (z + 1)) (Z.to_nat (p + 1)) ltac:(lia) ltac:(lia)) as M.
  rewrite layers_total in M by lia. lia.
Qed.

Lemma tet_onto p k : 0 <= p -> 0 <= k < tet_size p -> exists x y z, in_tet p x y z /\ tet_id p x y z = k.
Proof.
  intros Hp. rewrite <- layers_total by lia.
  assert (G : forall n : nat, Z.of_nat n <= p + 1 -> 0 <= k < layers p n ->
     exists x y z, in_tet p x y z /\ tet_id p x y z = k).
  { induction n as [|n IH]; intros Hn Hk; cbn [layers] in Hk; [lia|].
    destruct (Z.lt_ge_cases k (layers p n)) as [L|L]; [apply IH; lia|].
    destruct (tri_onto (p - Z.of_nat n) (k - layers p n)) as (x & y & H & E); [lia|lia|].
    exists x, y, (Z.of_nat n). unfold in_tri in H. split; [unfold in_tet; lia|].
    rewrite tet_id_split, Nat2Z.id by lia. lia. }
  intros Hk. apply (G (Z.to_nat (p + 1))); auto; lia.
Qed.

(** ** Square and cube *)
Lemma quad_lex p x y x' y' : in_quad p x y -> in_quad p x' y' ->
  (quad_id p x y < quad_id p x' y' <-> y < y' \/ (y = y' /\ x < x')).
Proof. unfold in_quad, quad_id. intros. split; intros; [|destruct H1]; nia. Qed.
Lemma quad_range p x y : in_quad p x y -> 0 <= quad_id p x y < quad_size p.
Proof. unfold in_quad, quad_id, quad_size. nia. Qed.
Lemma quad_onto p k : 0 <= p -> 0 <= k < quad_size p -> exists x y, in_quad p x y /\ quad_id p x y = k.
Proof.
  unfold quad_size. intros Hp Hk. exists (k mod (p + 1)), (k / (p + 1)).
  pose proof (Z.mod_pos_bound k (p + 1) ltac:(lia)). pose proof (Z.div_mod k (p + 1) ltac:(lia)).
  unfold in_quad, quad_id. nia.
Qed.
Lemma hex_lex p x y z x' y' z' : in_hex p x y z -> in_hex p x' y' z' ->
  (hex_id p x y z < hex_id p x' y' z' <-> z < z' \/ (z = z' /\ (y < y' \/ (y = y' /\ x < x')))).
Proof.
  intros H H'. change (hex_id p x y z) with (quad_id p x (quad_id p y z)).
  change (hex_id p x' y' z') with (quad_id p x' (quad_id p y' z')).
  unfold in_hex in *.
  pose proof (quad_lex p y z y' z' ltac:(unfold in_quad; lia) ltac:(unfold in_quad; lia)) as Q.
  pose proof (quad_lex p y' z' y z ltac:(unfold in_quad; lia) ltac:(unfold in_quad; lia)) as Q'.
  unfold quad_id at 1 3. set (a := quad_id p y z) in *. set (b := quad_id p y' z') in *.
  assert (R : (p + 1) * a + x < (p + 1) * b + x' <-> a < b \/ (a = b /\ x < x')) by (split; intros; [|destruct H0]; nia).
  rewrite R. lia.
Qed.
Lemma hex_range p x y z : in_hex p x y z -> 0 <= hex_id p x y z < hex_size p.
Proof.
  unfold in_hex, hex_size, hex_id. intros H.
  pose proof (quad_range p y z ltac:(unfold in_quad; lia)) as Q. unfold quad_id, quad_size in Q. nia.
Qed.
Lemma hex_onto p k : 0 <= p -> 0 <= k < hex_size p -> exists x y z, in_hex p x y z /\ hex_id p x y z = k.
Proof.
  unfold hex_size. intros Hp Hk.
  pose proof (Z.mod_pos_bound k (p + 1) ltac:(lia)). pose proof (Z.div_mod k (p + 1) ltac:(lia)).
  destruct (quad_onto p (k / (p + 1)) Hp) as (y & z & Hq & E).
  { unfold quad_size. split; [apply Z.div_pos; lia|]. apply Z.div_lt_upper_bound; lia. }
  exists (k mod (p + 1)), y, z. unfold in_hex, in_quad, hex_id, quad_id in *. rewrite Z.add_comm in E. nia.
Qed.

(** From strict lexicographic order: injectivity. *)
Lemma tri_inj p x y x' y' : in_tri p x y -> in_tri p x' y' -> tri_id p x y = tri_id p x' y' -> x = x' /\ y = y'.
Proof. intros H H' E. pose proof (tri_lex _ _ _ _ _ H H'). pose proof (tri_lex _ _ _ _ _ H' H). lia. Qed.
Lemma quad_inj p x y x' y' : in_quad p x y -> in_quad p x' y' -> quad_id p x y = quad_id p x' y' -> x = x' /\ y = y'.
Proof. intros H H' E. pose proof (quad_lex _ _ _ _ _ H H'). pose proof (quad_lex _ _ _ _ _ H' H). lia. Qed.
Lemma tet_inj p x y z x' y' z' : in_tet p x y z -> in_tet p x' y' z' -> tet_id p x y z = tet_id p x' y' z' -> x = x' /\ y = y' /\ z = z'.
Proof. intros H H' E. pose proof (tet_lex _ _ _ _ _ _ _ H H'). pose proof (tet_lex _ _ _ _ _ _ _ H' H). lia. Qed.
Lemma hex_inj p x y z x' y' z' : in_hex p x y z -> in_hex p x' y' z' -> hex_id p x y z = hex_id p x' y' z' -> x = x' /\ y = y' /\ z = z'.
Proof. intros H H' E. pose proof (hex_lex _ _ _ _ _ _ _ H H'). pose proof (hex_lex _ _ _ _ _ _ _ H' H). lia. Qed.

(** ** Tables filled by loops of writes *)

(** An Array2D row filled by assignments [out(pos) = val]; out of range is undefined behaviour. *)
Fixpoint writes (l : list (Z * Z)) (a : list Z) : outcome (list Z) :=
  match l with
  | [] => Ok a
  | (k, v) :: r => bindO (vec_set a k v) (writes r)
  end.

Definition zseq (n : Z) : list Z := map Z.of_nat (seq 0 (Z.to_nat n)).   (* 0, ..., n-1 *)
(** loops [for j <= p, for i <= p - j] and [for j <= p, for i <= p] *)
Definition tri_points (p : Z) : list (Z * Z) :=
  flat_map (fun j => map (fun i => (i, j)) (zseq (p - j + 1))) (zseq (p + 1)).
Definition quad_points (p : Z) : list (Z * Z) :=
  flat_map (fun j => map (fun i => (i, j)) (zseq (p + 1))) (zseq (p + 1)).

Lemma zseq_In n k : In k (zseq n) <-> 0 <= k < n.
Proof.
  unfold zseq. rewrite in_map_iff. split.
  - intros (m & <- & H). apply in_seq in H. lia.
  - intros H. exists (Z.to_nat k). split; [lia|]. apply in_seq. lia.
Qed.
Lemma tri_points_In p i j : In (i, j) (tri_points p) <-> in_tri p i j.
Proof.
  unfold tri_points, in_tri. rewrite in_flat_map. split.
  - intros (y & Hy & H). apply in_map_iff in H as (x & E & Hx). inversion E; subst.
    apply zseq_In in Hy, Hx. lia.
  - intros H. exists j. split; [apply zseq_In; lia|]. apply in_map_iff. exists i. split; auto. apply zseq_In. lia.
Qed.
Lemma quad_points_In p i j : In (i, j) (quad_points p) <-> in_quad p i j.
Proof.
  unfold quad_points, in_quad. rewrite in_flat_map. split.
  - intros (y & Hy & H). apply in_map_iff in H as (x & E & Hx). inversion E; subst.
    apply zseq_In in Hy, Hx. lia.
  - intros H. exists j. split; [apply zseq_In; lia|]. apply in_map_iff. exists i. split; auto. apply zseq_In. lia.
Qed.

(** row number o of face_permutations(TRIANGLE, p): where node (i,j) is written (cpp:86-96) *)
Definition tri_sigma (p : Z) (o : nat) (i j : Z) : Z * Z :=
  match o with
  | 0%nat => (i, j)
  | 1%nat => (p - i - j, j)
  | 2%nat => (j, p - i - j)
  | 3%nat => (i, p - i - j)
  | 4%nat => (p - i - j, i)
  | _ => (j, i)
  end.
Definition quad_sigma (p : Z) (o : nat) (i j : Z) : Z * Z :=
  match o with
  | 0%nat => (i, j)
  | 1%nat => (j, i)
  | 2%nat => (p - j, i)
  | 3%nat => (p - i, j)
  | 4%nat => (p - i, p - j)
  | 5%nat => (p - j, p - i)
  | 6%nat => (j, p - i)
  | _ => (i, p - j)
  end.
(** face_permutations rows (cpp:69-123) *)
Definition tri_perm_row (p : Z) (o : nat) : outcome (list Z) :=
  writes (map (fun '(i, j) => let '(a, b) := tri_sigma p o i j in (tri_id p a b, tri_id p i j)) (tri_points p))
         (repeat 0 (Z.to_nat (tri_size p))).
Definition quad_perm_row (p : Z) (o : nat) : outcome (list Z) :=
  writes (map (fun '(i, j) => let '(a, b) := quad_sigma p o i j in (quad_id p a b, quad_id p i j)) (quad_points p))
         (repeat 0 (Z.to_nat (quad_size p))).
Definition seg_perm_row (p : Z) (o : nat) : outcome (list Z) :=
  writes (map (fun i => (i, match o with 0%nat => i | _ => p - i end)) (zseq (p + 1))) (repeat 0 (Z.to_nat (p + 1))).

(** geom_local_face_dofs rows (cpp:158-211) *)
Definition tri_side_row (p : Z) (s : nat) : outcome (list Z) :=
  writes (map (fun k => (k, match s with 0%nat => tri_id p k 0 | 1%nat => tri_id p (p - k) k | _ => tri_id p 0 (p - k) end))
              (zseq (p + 1))) (repeat 0 (Z.to_nat (p + 1))).
Definition quad_side_row (p : Z) (s : nat) : outcome (list Z) :=
  writes (map (fun k => (k, match s with
     | 0%nat => quad_id p k 0 | 1%nat => quad_id p p k | 2%nat => quad_id p (p - k) p | _ => quad_id p 0 (p - k) end))
              (zseq (p + 1))) (repeat 0 (Z.to_nat (p + 1))).
Definition tet_face_point (p : Z) (s : nat) (j k : Z) : Z * Z * Z :=
  match s with
  | 0%nat => (p - j - k, j, k) | 1%nat => (0, k, j) | 2%nat => (j, 0, k) | _ => (k, j, 0)
  end.
Definition hex_face_point (p : Z) (s : nat) (j k : Z) : Z * Z * Z :=
  match s with
  | 0%nat => (j, p - k, 0) | 1%nat => (j, 0, k) | 2%nat => (p, j, k)
  | 3%nat => (p - j, p, k) | 4%nat => (0, p - j, k) | _ => (j, k, p)
  end.
Definition id3 (f : Z -> Z -> Z -> Z) (q : Z * Z * Z) : Z := let '(x, y, z) := q in f x y z.
Definition tet_face_row (p : Z) (s : nat) : outcome (list Z) :=
  writes (map (fun '(j, k) => (tri_id p j k, id3 (tet_id p) (tet_face_point p s j k))) (tri_points p))
         (repeat 0 (Z.to_nat (tri_size p))).
Definition hex_face_row (p : Z) (s : nat) : outcome (list Z) :=
  writes (map (fun '(j, k) => (quad_id p j k, id3 (hex_id p) (hex_face_point p s j k))) (quad_points p))
         (repeat 0 (Z.to_nat (quad_size p))).

(** If every write is in range, the result has each written value at its position provided the
    written value is a function of the position. *)
Lemma writes_spec l : forall a,
  (forall k v, In (k, v) l -> 0 <= k < Z.of_nat (length a)) ->
  (forall k v v', In (k, v) l -> In (k, v') l -> v = v') ->
  exists b, writes l a = Ok b /\ length b = length a /\
    (forall k v, In (k, v) l -> nth_error b (Z.to_nat k) = Some v) /\
    (forall n, (forall k v, In (k, v) l -> Z.to_nat k <> n) -> nth_error b n = nth_error a n).
Proof.
  induction l as [|[k v] l IH]; intros a Hr Hf; cbn [writes].
  - exists a. repeat split; auto. intros ? ? [].
  - assert (Hk : 0 <= k < Z.of_nat (length a)) by (apply (Hr k v); now left).
    unfold vec_set. destruct (Z.ltb_spec k 0); [lia|]. destruct (Z.leb_spec (Z.of_nat (length a)) k); [lia|].
    cbn [orb bindO]. destruct (IH (upd a (Z.to_nat k) v)) as (b & E & L & W & N).
    + intros k' v' H1. rewrite upd_length. apply (Hr k' v'). now right.
    + intros k' v1 v2 H1 H2. apply (Hf k'); now right.
    + exists b. split; auto. rewrite upd_length in L. split; auto. split.
      * intros k' v' [H1|H1]; [|auto]. inversion H1; subst k' v'; clear H1.
        destruct (in_dec Z.eq_dec k (map fst l)) as [Hin|Hin].
        -- apply in_map_iff in Hin as ([k2 v2] & E2 & Hin). simpl in E2. subst k2.
           rewrite (W k v2 Hin). f_equal. symmetry. apply (Hf k); [now left|now right].
        -- rewrite (N (Z.to_nat k)).
           ++ apply nth_error_upd_eq. lia.
           ++ intros k2 v2 H2 E2. apply Hin. apply in_map_iff. exists (k2, v2). split; auto. simpl.
              assert (0 <= k2 < Z.of_nat (length a)) by (apply (Hr k2 v2); now right). lia.
      * intros n Hn. rewrite N.
        -- apply nth_error_upd_neq. intros E2. apply (Hn k v); [now left|now symmetry].
        -- intros k' v' H1. apply (Hn k' v'). now right.
Qed.

(** Statement of what a row is: [f] the value at the point, indexed by [idx] over points [P]. *)
Definition row_is (r : outcome (list Z)) (size : Z) (P : Z -> Z -> Prop) (idx f : Z -> Z -> Z) : Prop :=
  exists b, r = Ok b /\ Z.of_nat (length b) = size /\
    forall i j, P i j -> nth_error b (Z.to_nat (idx i j)) = Some (f i j).

Lemma row_is_intro pts P idx f size :
  (forall i j, In (i, j) pts <-> P i j) ->
  0 <= size ->
  (forall i j, P i j -> 0 <= idx i j < size) ->
  (forall i j i' j', P i j -> P i' j' -> idx i j = idx i' j' -> i = i' /\ j = j') ->
  row_is (writes (map (fun '(i, j) => (idx i j, f i j)) pts) (repeat 0 (Z.to_nat size))) size P idx f.
Proof.
  intros HP Hs Hr Hi.
  destruct (writes_spec (map (fun '(i, j) => (idx i j, f i j)) pts) (repeat 0 (Z.to_nat size))) as (b & E & L & W & _).
  - intros k v H. apply in_map_iff in H as ([i j] & Eq & Hin). inversion Eq; subst.
    rewrite repeat_length, Z2Nat.id by lia. apply Hr, HP, Hin.
  - intros k v v' H H'. apply in_map_iff in H as ([i j] & Eq & Hin). apply in_map_iff in H' as ([i' j'] & Eq' & Hin').
    inversion Eq; inversion Eq'; subst. apply HP in Hin, Hin'.
    destruct (Hi i' j' i j Hin' Hin) as [-> ->]; congruence.
  - exists b. split; auto. rewrite L, repeat_length. split; [lia|].
    intros i j Hij. apply W. apply in_map_iff. exists (i, j). split; auto. now apply HP.
Qed.

Lemma tri_sigma_in p o i j : in_tri p i j -> let '(a, b) := tri_sigma p o i j in in_tri p a b.
Proof. unfold in_tri. intros. do 6 (destruct o as [|o]; [simpl; lia|]). simpl. lia. Qed.
Lemma quad_sigma_in p o i j : in_quad p i j -> let '(a, b) := quad_sigma p o i j in in_quad p a b.
Proof. unfold in_quad. intros. do 8 (destruct o as [|o]; [simpl; lia|]). simpl. lia. Qed.
Lemma tri_sigma_inj p o i j i' j' : tri_sigma p o i j = tri_sigma p o i' j' -> i = i' /\ j = j'.
Proof. do 6 (destruct o as [|o]; [simpl; intros H; inversion H; lia|]). simpl. intros H; inversion H; lia. Qed.
Lemma quad_sigma_inj p o i j i' j' : quad_sigma p o i j = quad_sigma p o i' j' -> i = i' /\ j = j'.
Proof. do 8 (destruct o as [|o]; [simpl; intros H; inversion H; lia|]). simpl. intros H; inversion H; lia. Qed.

Lemma tri_perm_row_spec p o : 0 <= p ->
  row_is (tri_perm_row p o) (tri_size p) (in_tri p)
    (fun i j => let '(a, b) := tri_sigma p o i j in tri_id p a b) (tri_id p).
Proof.
  intros Hp. unfold tri_perm_row.
  replace (map (fun '(i, j) => let '(a, b) := tri_sigma p o i j in (tri_id p a b, tri_id p i j)) (tri_points p))
    with (map (fun '(i, j) => ((let '(a, b) := tri_sigma p o i j in tri_id p a b), tri_id p i j)) (tri_points p)).
  2:{ apply map_ext. intros [i j]. destruct (tri_sigma p o i j). reflexivity. }
  apply row_is_intro with (idx := fun i j => let '(a, b) := tri_sigma p o i j in tri_id p a b).
  - apply tri_points_In.
  - pose proof (tri_size_pos p Hp). lia.
  - intros i j H. pose proof (tri_sigma_in p o i j H). destruct (tri_sigma p o i j). now apply tri_range.
  - intros i j i' j' H H' E. pose proof (tri_sigma_in p o i j H) as A. pose proof (tri_sigma_in p o i' j' H') as B.
    apply (tri_sigma_inj p o). destruct (tri_sigma p o i j) as [a b], (tri_sigma p o i' j') as [a' b'].
    destruct (tri_inj p a b a' b' A B E). now subst.
Qed.

Lemma quad_perm_row_spec p o : 0 <= p ->
  row_is (quad_perm_row p o) (quad_size p) (in_quad p)
    (fun i j => let '(a, b) := quad_sigma p o i j in quad_id p a b) (quad_id p).
Proof.
  intros Hp. unfold quad_perm_row.
  replace (map (fun '(i, j) => let '(a, b) := quad_sigma p o i j in (quad_id p a b, quad_id p i j)) (quad_points p))
    with (map (fun '(i, j) => ((let '(a, b) := quad_sigma p o i j in quad_id p a b), quad_id p i j)) (quad_points p)).
  2:{ apply map_ext. intros [i j]. destruct (quad_sigma p o i j). reflexivity. }
  apply row_is_intro with (idx := fun i j => let '(a, b) := quad_sigma p o i j in quad_id p a b).
  - apply quad_points_In.
  - unfold quad_size. nia.
  - intros i j H. pose proof (quad_sigma_in p o i j H). destruct (quad_sigma p o i j). now apply quad_range.
  - intros i j i' j' H H' E. pose proof (quad_sigma_in p o i j H) as A. pose proof (quad_sigma_in p o i' j' H') as B.
    apply (quad_sigma_inj p o). destruct (quad_sigma p o i j) as [a b], (quad_sigma p o i' j') as [a' b'].
    destruct (quad_inj p a b a' b' A B E). now subst.
Qed.

(** Geometry of a permutation: the written position is the affine image of (i,j) that sends the
    corners to the corners named by MFEM's orientation table (cpp:79-83, 101-106). *)
Definition tri_corner (k : nat) : Z * Z := match k with 0%nat => (0,0) | 1%nat => (1,0) | _ => (0,1) end.
Definition tri_orient (o : nat) : nat * nat * nat :=
  match o with 0%nat => (0,1,2) | 1%nat => (1,0,2) | 2%nat => (2,0,1) | 3%nat => (2,1,0) | 4%nat => (1,2,0) | _ => (0,2,1) end%nat.
Definition tri_affine (p : Z) (o : nat) (i j : Z) : Z * Z :=
  let '(f0, f1, f2) := tri_orient o in
  let '(x0, y0) := tri_corner f0 in let '(x1, y1) := tri_corner f1 in let '(x2, y2) := tri_corner f2 in
  (p * x0 + (x1 - x0) * i + (x2 - x0) * j, p * y0 + (y1 - y0) * i + (y2 - y0) * j).
Definition quad_corner (k : nat) : Z * Z := match k with 0%nat => (0,0) | 1%nat => (1,0) | 2%nat => (1,1) | _ => (0,1) end.
Definition quad_orient (o : nat) : nat * nat * nat :=   (* corners 0, 1 and 3 of the rotated face *)
  match o with
  | 0%nat => (0,1,3) | 1%nat => (0,3,1) | 2%nat => (1,2,0) | 3%nat => (1,0,2)
  | 4%nat => (2,3,1) | 5%nat => (2,1,3) | 6%nat => (3,0,2) | _ => (3,2,0) end%nat.
Definition quad_affine (p : Z) (o : nat) (i j : Z) : Z * Z :=
  let '(f0, f1, f3) := quad_orient o in
  let '(x0, y0) := quad_corner f0 in let '(x1, y1) := quad_corner f1 in let '(x3, y3) := quad_corner f3 in
  (p * x0 + (x1 - x0) * i + (x3 - x0) * j, p * y0 + (y1 - y0) * i + (y3 - y0) * j).
Lemma tri_sigma_affine p o i j : tri_sigma p o i j = tri_affine p o i j.
Proof. do 5 (destruct o as [|o]; [unfold tri_sigma, tri_affine; cbn [tri_orient tri_corner]; f_equal; ring|]). unfold tri_sigma, tri_affine; cbn [tri_orient tri_corner]; f_equal; ring. Qed.
Lemma quad_sigma_affine p o i j : quad_sigma p o i j = quad_affine p o i j.
Proof. do 7 (destruct o as [|o]; [unfold quad_sigma, quad_affine; cbn [quad_orient quad_corner]; f_equal; ring|]). unfold quad_sigma, quad_affine; cbn [quad_orient quad_corner]; f_equal; ring. Qed.

(** ** Face node lists *)
(** Specification: when a lattice point lies on side/face number s. *)
Definition on_tri_side (p : Z) (s : nat) (x y : Z) : Prop :=
  match s with 0%nat => y = 0 | 1%nat => x + y = p | _ => x = 0 end.
Definition on_quad_side (p : Z) (s : nat) (x y : Z) : Prop :=
  match s with 0%nat => y = 0 | 1%nat => x = p | 2%nat => y = p | _ => x = 0 end.
Definition on_tet_face (p : Z) (s : nat) (x y z : Z) : Prop :=
  match s with 0%nat => x + y + z = p | 1%nat => x = 0 | 2%nat => y = 0 | _ => z = 0 end.
Definition on_hex_face (p : Z) (s : nat) (x y z : Z) : Prop :=
  match s with
  | 0%nat => z = 0 | 1%nat => y = 0 | 2%nat => x = p | 3%nat => y = p | 4%nat => x = 0 | _ => z = p
  end.

Definition row_lists (r : outcome (list Z)) (S : Z -> Prop) : Prop :=
  exists b, r = Ok b /\ NoDup b /\ forall k, In k b <-> S k.

Lemma row_lists_intro (P : Z -> Z -> Prop) (idx f : Z -> Z -> Z) size (S : Z -> Prop) r :
  row_is r size P idx f ->
  (forall n, 0 <= n < size -> exists i j, P i j /\ idx i j = n) ->
  (forall i j i' j', P i j -> P i' j' -> f i j = f i' j' -> i = i' /\ j = j') ->
  (forall i j, P i j -> 0 <= idx i j) ->
  (forall k, S k <-> exists i j, P i j /\ f i j = k) ->
  row_lists r S.
Proof.
  intros (b & E & L & W) Hon Hinj Hpos HS. exists b. split; auto.
  assert (G : forall n k, nth_error b n = Some k -> exists i j, P i j /\ idx i j = Z.of_nat n /\ f i j = k).
  { intros n k H. assert (n < length b)%nat by (apply nth_error_Some; congruence).
    destruct (Hon (Z.of_nat n)) as (i & j & HP & Hn); [lia|]. exists i, j. repeat split; auto.
    specialize (W i j HP). rewrite Hn, Nat2Z.id in W. congruence. }
  split.
  - apply NoDup_nth_error. intros n m Hn Hm. destruct (nth_error b n) as [k|] eqn:En.
    2:{ apply nth_error_None in En. lia. }
    destruct (G n k En) as (i & j & P1 & I1 & F1). symmetry in Hm.
    destruct (G m k Hm) as (i' & j' & P2 & I2 & F2).
    destruct (Hinj i j i' j' P1 P2 ltac:(congruence)) as [-> ->]. lia.
  - intros k. rewrite HS. split.
    + intros H. apply In_nth_error in H as [n Hn]. destruct (G n k Hn) as (i & j & A & _ & B). eauto.
    + intros (i & j & HP & <-). eapply nth_error_In. apply W. exact HP.
Qed.

Lemma row1_is p (f : Z -> Z) : 0 <= p ->
  row_is (writes (map (fun k => (k, f k)) (zseq (p + 1))) (repeat 0 (Z.to_nat (p + 1)))) (p + 1)
    (fun i j => 0 <= i <= p /\ j = 0) (fun i _ => i) (fun i _ => f i).
Proof.
  intros Hp.
  replace (map (fun k => (k, f k)) (zseq (p + 1))) with
    (map (fun '(i, j) => ((fun i (_ : Z) => i) i j, (fun i (_ : Z) => f i) i j)) (map (fun k => (k, 0)) (zseq (p + 1)))).
  2:{ rewrite map_map. apply map_ext. reflexivity. }
  apply row_is_intro.
  - intros i j. rewrite in_map_iff. split.
    + intros (k & E & H). inversion E; subst. apply zseq_In in H. lia.
    + intros [H ->]. exists i. split; auto. apply zseq_In. lia.
  - lia.
  - lia.
  - lia.
Qed.

Lemma row1_lists p f (S : Z -> Prop) : 0 <= p ->
  (forall i j, 0 <= i <= p -> 0 <= j <= p -> f i = f j -> i = j) ->
  (forall k, S k <-> exists i, 0 <= i <= p /\ f i = k) ->
  row_lists (writes (map (fun k => (k, f k)) (zseq (p + 1))) (repeat 0 (Z.to_nat (p + 1)))) S.
Proof.
  intros Hp Hi HS. apply (row_lists_intro _ _ _ _ S _ (row1_is p f Hp)).
  - intros n Hn. exists n, 0. lia.
  - intros i j i' j' [A ->] [B ->] E. split; auto.
  - lia.
  - intros k. rewrite HS. split.
    + intros (i & H & E). exists i, 0. auto.
    + intros (i & j & [H _] & E). exists i. auto.
Qed.

Lemma seg_perm_row_spec p o : 0 <= p -> row_lists (seg_perm_row p o) (fun k => 0 <= k <= p).
Proof.
  intros Hp. unfold seg_perm_row. apply row1_lists with (f := fun i => match o with 0%nat => i | _ => p - i end); auto.
  - intros i j _ _. destruct o; lia.
  - intros k. split.
    + intros H. exists (match o with 0%nat => k | _ => p - k end). destruct o; lia.
    + intros (i & H & <-). destruct o; lia.
Qed.

Lemma tri_side_row_spec p s : 0 <= p ->
  row_lists (tri_side_row p s) (fun k => exists x y, in_tri p x y /\ on_tri_side p s x y /\ k = tri_id p x y).
Proof.
  intros Hp. unfold tri_side_row.
  apply row1_lists with (f := fun k => match s with 0%nat => tri_id p k 0 | 1%nat => tri_id p (p - k) k | _ => tri_id p 0 (p - k) end); auto.
  - intros i j Hi Hj E. destruct s as [|[|s]]; apply tri_inj in E; unfold in_tri; lia.
  - intros k. split.
    + intros (x & y & H & Hs & ->). unfold in_tri in H.
      destruct s as [|[|s]]; simpl in Hs; subst; [exists x|exists y|exists (p - y)]; (split; [lia|]); f_equal; lia.
    + intros (i & H & <-). destruct s as [|[|s]]; simpl; eexists; eexists; (split; [|split; [|reflexivity]]); unfold in_tri; lia.
Qed.

Lemma quad_side_row_spec p s : 0 <= p ->
  row_lists (quad_side_row p s) (fun k => exists x y, in_quad p x y /\ on_quad_side p s x y /\ k = quad_id p x y).
Proof.
  intros Hp. unfold quad_side_row.
  apply row1_lists with (f := fun k => match s with
     | 0%nat => quad_id p k 0 | 1%nat => quad_id p p k | 2%nat => quad_id p (p - k) p | _ => quad_id p 0 (p - k) end); auto.
  - intros i j Hi Hj E. destruct s as [|[|[|s]]]; apply quad_inj in E; unfold in_quad; lia.
  - intros k. split.
    + intros (x & y & H & Hs & ->). unfold in_quad in H.
      destruct s as [|[|[|s]]]; simpl in Hs; subst; [exists x|exists y|exists (p - x)|exists (p - y)]; (split; [lia|]); f_equal; lia.
    + intros (i & H & <-). destruct s as [|[|[|s]]]; simpl; eexists; eexists; (split; [|split; [|reflexivity]]); unfold in_quad; lia.
Qed.

Lemma tet_face_row_spec p s : 0 <= p ->
  row_lists (tet_face_row p s) (fun k => exists x y z, in_tet p x y z /\ on_tet_face p s x y z /\ k = tet_id p x y z).
Proof.
  intros Hp. unfold tet_face_row.
  apply row_lists_intro with (P := in_tri p) (idx := tri_id p) (f := fun j k => id3 (tet_id p) (tet_face_point p s j k)) (size := tri_size p).
  - apply row_is_intro with (idx := tri_id p) (f := fun j k => id3 (tet_id p) (tet_face_point p s j k)).
    + apply tri_points_In.
    + pose proof (tri_size_pos p Hp). lia.
    + intros. now apply tri_range.
    + intros. eapply tri_inj; eauto.
  - intros. now apply tri_onto.
  - intros i j i' j' H H' E. unfold in_tri in *.
    destruct s as [|[|[|s]]]; simpl in E; apply tet_inj in E; unfold in_tet; lia.
  - intros. now apply tri_range.
  - intros k. split.
    + intros (x & y & z & H & Hs & ->). unfold in_tet in H. unfold in_tri.
      destruct s as [|[|[|s]]]; simpl in Hs; subst; simpl;
        [exists y, z|exists z, y|exists x, z|exists y, x]; (split; [lia|]); f_equal; lia.
    + intros (i & j & H & <-). unfold in_tri in H.
      destruct s as [|[|[|s]]]; simpl; do 3 eexists; (split; [|split; [|reflexivity]]); unfold in_tet; lia.
Qed.

Lemma hex_face_row_spec p s : 0 <= p ->
  row_lists (hex_face_row p s) (fun k => exists x y z, in_hex p x y z /\ on_hex_face p s x y z /\ k = hex_id p x y z).
Proof.
  intros Hp. unfold hex_face_row.
  apply row_lists_intro with (P := in_quad p) (idx := quad_id p) (f := fun j k => id3 (hex_id p) (hex_face_point p s j k)) (size := quad_size p).
  - apply row_is_intro with (idx := quad_id p) (f := fun j k => id3 (hex_id p) (hex_face_point p s j k)).
    + apply quad_points_In.
    + unfold quad_size. nia.
    + intros. now apply quad_range.
    + intros. eapply quad_inj; eauto.
  - intros. now apply quad_onto.
  - intros i j i' j' H H' E. unfold in_quad in *.
    destruct s as [|[|[|[|[|s]]]]]; simpl in E; apply hex_inj in E; unfold in_hex; lia.
  - intros. now apply quad_range.
  - intros k. split.
    + intros (x & y & z & H & Hs & ->). unfold in_hex in H. unfold in_quad.
      destruct s as [|[|[|[|[|s]]]]]; simpl in Hs; subst; simpl;
        [exists x, (p - y)|exists x, z|exists y, z|exists (p - x), z|exists (p - y), z|exists x, y]; (split; [lia|]); f_equal; lia.
    + intros (i & j & H & <-). unfold in_quad in H.
      destruct s as [|[|[|[|[|s]]]]]; simpl; do 3 eexists; (split; [|split; [|reflexivity]]); unfold in_hex; lia.
Qed.

(** Each face permutation is a permutation of 0..n-1. *)
Lemma tri_sigma_onto p o a b : in_tri p a b -> exists i j, in_tri p i j /\ tri_sigma p o i j = (a, b).
Proof.
  unfold in_tri. intros H. destruct o as [|[|[|[|[|o]]]]]; simpl;
  [exists a, b|exists (p - a - b), b|exists (p - a - b), a|exists a, (p - a - b)|exists b, (p - a - b)|exists b, a]; (split; [lia|f_equal; lia]).
Qed.
Lemma quad_sigma_onto p o a b : in_quad p a b -> exists i j, in_quad p i j /\ quad_sigma p o i j = (a, b).
Proof.
  unfold in_quad. intros H. destruct o as [|[|[|[|[|[|[|o]]]]]]]; simpl;
  [exists a, b|exists b, a|exists b, (p - a)|exists (p - a), b|exists (p - a), (p - b)|exists (p - b), (p - a)|exists (p - b), a|exists a, (p - b)];
  (split; [lia|f_equal; lia]).
Qed.

Lemma tri_perm_is_perm p o : 0 <= p -> row_lists (tri_perm_row p o) (fun k => 0 <= k < tri_size p).
Proof.
  intros Hp. apply (row_lists_intro _ _ _ _ _ _ (tri_perm_row_spec p o Hp)).
  - intros n Hn. destruct (tri_onto p n Hp Hn) as (a & b & H & E).
    destruct (tri_sigma_onto p o a b H) as (i & j & Hij & S). exists i, j. rewrite S. auto.
  - intros. eapply tri_inj; eauto.
  - intros i j H. pose proof (tri_sigma_in p o i j H). destruct (tri_sigma p o i j). now apply tri_range.
  - intros k. split.
    + intros. now apply tri_onto.
    + intros (i & j & H & <-). now apply tri_range.
Qed.
Lemma quad_perm_is_perm p o : 0 <= p -> row_lists (quad_perm_row p o) (fun k => 0 <= k < quad_size p).
Proof.
  intros Hp. apply (row_lists_intro _ _ _ _ _ _ (quad_perm_row_spec p o Hp)).
  - intros n Hn. destruct (quad_onto p n Hp Hn) as (a & b & H & E).
    destruct (quad_sigma_onto p o a b H) as (i & j & Hij & S). exists i, j. rewrite S. auto.
  - intros. eapply quad_inj; eauto.
  - intros i j H. pose proof (quad_sigma_in p o i j H). destruct (quad_sigma p o i j). now apply quad_range.
  - intros k. split.
    + intros. now apply quad_onto.
    + intros (i & j & H & <-). now apply quad_range.
Qed.

(** Corner placement: reading the permuted row at the position of a rotated corner gives that corner. *)
Lemma tri_perm_geometry p o : 0 <= p ->
  exists b, tri_perm_row p o = Ok b /\
  forall i j, in_tri p i j ->
    let '(a, c) := tri_affine p o i j in nth_error b (Z.to_nat (tri_id p a c)) = Some (tri_id p i j).
Proof.
  intros Hp. destruct (tri_perm_row_spec p o Hp) as (b & E & _ & W). exists b. split; auto.
  intros i j H. specialize (W i j H). cbv beta in W. rewrite tri_sigma_affine in W.
  destruct (tri_affine p o i j). exact W.
Qed.
Lemma quad_perm_geometry p o : 0 <= p ->
  exists b, quad_perm_row p o = Ok b /\
  forall i j, in_quad p i j ->
    let '(a, c) := quad_affine p o i j in nth_error b (Z.to_nat (quad_id p a c)) = Some (quad_id p i j).
Proof.
  intros Hp. destruct (quad_perm_row_spec p o Hp) as (b & E & _ & W). exists b. split; auto.
  intros i j H. specialize (W i j H). cbv beta in W. rewrite quad_sigma_affine in W.
  destruct (quad_affine p o i j). exact W.
Qed.

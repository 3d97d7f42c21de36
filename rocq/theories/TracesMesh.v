(** * Traces of fields on the faces of a mesh (C83) *)
From Coq Require Import ZArith Reals Lra Lia List Bool Arith.
From Coquelicot Require Import Coquelicot.
From Verif Require Import Prelude Sums Quadrature LexIds ShapeDefs ShapeFacts ShapeGrad ShapeTensor Traces TracesTurn.
Import ListNotations.
Local Open Scope R_scope.

(** ** one side *)
Lemma turn_all s fg p o xi : root5 s -> (p <= 3)%nat -> (o < orientations fg)%nat -> length xi = face_dim fg -> reads s fg p (face_point fg o xi) (perm_row fg p (Z.of_nat o)) fg xi.
Proof.
  intros Hs Hp Ho Hx. destruct fg; cbn [orientations] in Ho; try lia; destruct xi as [|x [|y [|z xi]]]; try discriminate Hx.
  - apply turn_seg; auto.
  - apply turn_tri; auto.
  - apply turn_sq; auto.
Qed.
Lemma side_all s g p i xi : root5 s -> is_element g -> (p <= 3)%nat -> (i < sides g)%nat -> length xi = face_dim (face_of g) -> reads s (face_of g) p xi (local_row g p i) g (side_point g i xi).
Proof.
  intros Hs Hg Hp Hi Hx. destruct g; cbn [sides] in Hi; try contradiction; destruct xi as [|x [|y [|z xi]]]; try discriminate Hx.
  - apply side_tri; auto.
  - apply side_sq; auto.
  - apply side_tet; auto.
  - apply side_cube; auto.
Qed.
Lemma mapO_ok {A B} (f : A -> outcome B) (h : A -> B) l : (forall a, In a l -> f a = Ok (h a)) -> mapO f l = Ok (map h l).
Proof. induction l as [|a l IH]; intros H; [reflexivity|]. cbn [mapO map]. rewrite (H a) by (left; reflexivity). cbn [bindO]. rewrite IH by (intros; apply H; right; auto). reflexivity. Qed.
Lemma vec_get_ok (l : list Z) k : (0 <= k < Z.of_nat (length l))%Z -> vec_get l k = Ok (nth (Z.to_nat k) l 0%Z).
Proof.
  intros H. unfold vec_get. destruct (Z.ltb_spec k 0); [lia|]. rewrite (nth_error_nth' l 0%Z) by lia. reflexivity.
Qed.
Lemma map_zseq_nth {B} (v : Z -> B) (l : list Z) n : length l = n -> map (fun k => v (nth (Z.to_nat k) l 0%Z)) (zseq (Z.of_nat n)) = map v l.
Proof.
  intros <-. unfold zseq. rewrite Nat2Z.id, map_map. 
  rewrite (map_ext _ (fun k => v (nth k l 0%Z))) by (intros; now rewrite Nat2Z.id).
  rewrite <- (map_map (fun k => nth k l 0%Z) v). f_equal. induction l as [|a l IH]; [reflexivity|]. cbn [length seq map nth]. f_equal. rewrite <- seq_shift, map_map. exact IH.
Qed.

(** [r] holds, for face coordinates in orientation [o], the values on side [i] of an element with dofs [D] *)
Definition traces (s : R) (g : geom) (p i o : nat) (D r : list Z) : Prop :=
  forall (u : Z -> R) xi, length xi = face_dim (face_of g) ->
  exists x, field_at s (face_of g) p (map u r) (face_point (face_of g) o xi) = Some x /\ field_at s g p (map u D) (side_point g i xi) = Some x.

Lemma face_row_traces s g p i o D : root5 s -> is_element g -> (p <= 3)%nat -> (i < sides g)%nat -> (o < orientations (face_of g))%nat -> length D = ndof g p ->
  exists r, face_row g (face_of g) p i (Z.of_nat o) D = Ok r /\ length r = ndof (face_of g) p /\ traces s g p i o D r.
Proof.
  intros Hs Hg Hp Hi Ho HD.
  destruct (side_all s g p i (repeat 0 (face_dim (face_of g))) Hs Hg Hp Hi (repeat_length _ _)) as (loc & El & Il & Ll & _).
  destruct (turn_all s (face_of g) p o (repeat 0 (face_dim (face_of g))) Hs Hp Ho (repeat_length _ _)) as (perm & Ep & Ip & Lp & _).
  set (h := fun k => nth (Z.to_nat (nth (Z.to_nat k) loc 0%Z)) D 0%Z).
  unfold inside in Il, Ip. rewrite Forall_forall in Il, Ip.
  exists (map h perm). split; [|split; [now rewrite map_length|]].
  - unfold face_row. rewrite El, Ep. cbn [bindO]. apply mapO_ok. intros k Hk. specialize (Ip k Hk). cbn beta in Ip.
    rewrite vec_get_ok by (rewrite Ll; exact Ip). cbn [bindO]. apply vec_get_ok. rewrite HD. apply (Il (nth (Z.to_nat k) loc 0%Z)). apply nth_In. rewrite Ll. lia.
  - intros u xi Hx. destruct (side_all s g p i xi Hs Hg Hp Hi Hx) as (loc' & El' & _ & _ & T). rewrite El in El'. injection El' as <-.
    destruct (turn_all s (face_of g) p o xi Hs Hp Ho Hx) as (perm' & Ep' & _ & _ & T'). rewrite Ep in Ep'. injection Ep' as <-.
    destruct (T (fun k => u (nth (Z.to_nat k) D 0%Z))) as (a & A1 & A2). destruct (T' (fun k => u (h k))) as (b & B1 & B2).
    exists b. unfold field_at. split.
    + rewrite map_map. exact B1.
    + rewrite map_zseq_nth in A2 by exact HD. rewrite A2. rewrite <- A1, <- B2. f_equal. symmetry. unfold h. exact (map_zseq_nth (fun j => u (nth (Z.to_nat j) D 0%Z)) loc _ Ll).
Qed.
(** every point of the face is met, once *)
Lemma face_point_onto fg o eta : (o < orientations fg)%nat -> length eta = face_dim fg -> exists xi, length xi = face_dim fg /\ face_point fg o xi = eta.
Proof.
  intros Ho He. destruct fg; cbn [orientations] in Ho; try lia; destruct eta as [|x [|y [|z eta]]]; try discriminate He.
  - destruct (seg_points x) as [P0 _]. destruct (seg_points (1 - x)) as [_ P1]. assert (o = 0 \/ o = 1)%nat as [-> | ->] by lia.
    + exists [x]; auto.
    + exists [1 - x]; split; auto. rewrite P1. f_equal; ring.
  - assert (o = 0 \/ o = 1 \/ o = 2 \/ o = 3 \/ o = 4 \/ o = 5)%nat as [-> | [-> | [-> | [-> | [-> | ->]]]]] by lia;
      [exists [x; y]|exists [1 - x - y; y]|exists [1 - x - y; x]|exists [x; 1 - x - y]|exists [y; 1 - x - y]|exists [y; x]]; (split; [reflexivity|]);
      [rewrite (proj1 (proj1 (tri_face_points _ _)))|rewrite (proj1 (proj2 (proj1 (tri_face_points _ _))))|rewrite (proj2 (proj2 (proj1 (tri_face_points _ _))))
      |rewrite (proj1 (proj2 (tri_face_points _ _)))|rewrite (proj1 (proj2 (proj2 (tri_face_points _ _))))|rewrite (proj2 (proj2 (proj2 (tri_face_points _ _))))];
      repeat (apply (f_equal2 (@cons R)); [ring|]); reflexivity.
  - assert (o = 0 \/ o = 1 \/ o = 2 \/ o = 3 \/ o = 4 \/ o = 5 \/ o = 6 \/ o = 7)%nat as [-> | [-> | [-> | [-> | [-> | [-> | [-> | ->]]]]]]] by lia;
      [exists [x; y]|exists [y; x]|exists [y; 1 - x]|exists [1 - x; y]|exists [1 - x; 1 - y]|exists [1 - y; 1 - x]|exists [1 - y; x]|exists [x; 1 - y]]; (split; [reflexivity|]); point.
Qed.

(** ** the same place in space *)
(** corners of an element or a face in the order of its first-order shape functions *)
Definition lexical (g : geom) : list nat := match g with Seg => [0; 1] | Tri => [0; 1; 2] | Sq => [0; 1; 3; 2] | Tet => [0; 1; 2; 3] | Cube => [0; 1; 3; 2; 4; 5; 7; 6] end%nat.
(** where a point of the reference element lies, for coordinates [X] of the vertices; [V] are the vertices of the element in mfem's order *)
Definition place (s : R) (g : geom) (X : Z -> R) (V : list Z) (pt : list R) : option R := field_at s g 1 (map X (pick V 0%Z (lexical g))) pt.
(** mfem's orientation: the corners of side [i] of the element are those of the face, in the order the table says *)
Definition winding (g : geom) (i o : nat) (V F : list Z) : Prop := pick V 0%Z (side_corners g i) = pick F 0%Z (orient (face_of g) o).

Ltac lexrow := vm_compute; reflexivity.
Lemma winding_row g i o V F : is_element g -> (i < sides g)%nat -> (o < orientations (face_of g))%nat -> length V = length (corners g) -> length F = length (corners (face_of g)) ->
  winding g i o V F -> face_row g (face_of g) 1 i (Z.of_nat o) (pick V 0%Z (lexical g)) = Ok (pick F 0%Z (lexical (face_of g))).
Proof.
  intros Hg Hi Ho LV LF W. unfold winding in W. destruct g; try contradiction; cbn [corners face_of length sides orientations] in *.
  - destruct V as [|v0 [|v1 [|v2 [|v3 V]]]]; try discriminate LV. destruct F as [|f0 [|f1 [|f2 F]]]; try discriminate LF.
    destruct i as [|[|[|i]]]; [| | |lia]; (destruct o as [|[|o]]; [| |lia]); cbv [pick map nth side_corners orient] in W; injection W as; subst; lexrow.
  - destruct V as [|v0 [|v1 [|v2 [|v3 [|v4 V]]]]]; try discriminate LV. destruct F as [|f0 [|f1 [|f2 F]]]; try discriminate LF.
    destruct i as [|[|[|[|i]]]]; [| | | |lia]; (destruct o as [|[|o]]; [| |lia]); cbv [pick map nth side_corners orient] in W; injection W as; subst; lexrow.
  - destruct V as [|v0 [|v1 [|v2 [|v3 [|v4 V]]]]]; try discriminate LV. destruct F as [|f0 [|f1 [|f2 [|f3 F]]]]; try discriminate LF.
    destruct i as [|[|[|[|i]]]]; [| | | |lia]; (destruct o as [|[|[|[|[|[|o]]]]]]; [| | | | | |lia]); cbv [pick map nth side_corners orient] in W; injection W as; subst; lexrow.
  - destruct V as [|v0 [|v1 [|v2 [|v3 [|v4 [|v5 [|v6 [|v7 [|v8 V]]]]]]]]]; try discriminate LV. destruct F as [|f0 [|f1 [|f2 [|f3 [|f4 F]]]]]; try discriminate LF.
    destruct i as [|[|[|[|[|[|i]]]]]]; [| | | | | |lia]; (destruct o as [|[|[|[|[|[|[|[|o]]]]]]]]; [| | | | | | | |lia]); cbv [pick map nth side_corners orient] in W; injection W as; subst; lexrow.
Qed.
Lemma same_place s g i o V F : root5 s -> is_element g -> (i < sides g)%nat -> (o < orientations (face_of g))%nat -> length V = length (corners g) -> length F = length (corners (face_of g)) ->
  winding g i o V F -> forall X xi, length xi = face_dim (face_of g) ->
  exists x, place s (face_of g) X F (face_point (face_of g) o xi) = Some x /\ place s g X V (side_point g i xi) = Some x.
Proof.
  intros Hs Hg Hi Ho LV LF W X xi Hx. assert (L : length (pick V 0%Z (lexical g)) = ndof g 1) by (unfold pick; rewrite map_length; destruct g; reflexivity).
  destruct (face_row_traces s g 1 i o _ Hs Hg ltac:(lia) Hi Ho L) as (r & E & _ & T). rewrite winding_row with (F := F) in E by auto. injection E as <-.
  exact (T X xi Hx).
Qed.

(** ** two elements with one face: continuous fields *)
Lemma continuous s g1 g2 p i1 i2 o1 o2 D1 D2 : root5 s -> is_element g1 -> is_element g2 -> face_of g1 = face_of g2 -> (p <= 3)%nat -> (i1 < sides g1)%nat -> (i2 < sides g2)%nat ->
  (o1 < orientations (face_of g1))%nat -> (o2 < orientations (face_of g2))%nat -> length D1 = ndof g1 p -> length D2 = ndof g2 p ->
  face_row g1 (face_of g1) p i1 (Z.of_nat o1) D1 = face_row g2 (face_of g2) p i2 (Z.of_nat o2) D2 ->
  forall (u : Z -> R) xi1 xi2, length xi1 = face_dim (face_of g1) -> length xi2 = face_dim (face_of g2) -> face_point (face_of g1) o1 xi1 = face_point (face_of g2) o2 xi2 ->
  exists x, field_at s g1 p (map u D1) (side_point g1 i1 xi1) = Some x /\ field_at s g2 p (map u D2) (side_point g2 i2 xi2) = Some x.
Proof.
  intros Hs G1 G2 GG Hp I1 I2 O1 O2 L1 L2 E u xi1 xi2 X1 X2 EP.
  destruct (face_row_traces s g1 p i1 o1 D1 Hs G1 Hp I1 O1 L1) as (r1 & E1 & _ & T1).
  destruct (face_row_traces s g2 p i2 o2 D2 Hs G2 Hp I2 O2 L2) as (r2 & E2 & _ & T2).
  rewrite E1, E2 in E. injection E as <-. destruct (T1 u xi1 X1) as (a & A1 & A2). destruct (T2 u xi2 X2) as (b & B1 & B2).
  rewrite EP in A1. rewrite GG in A1. rewrite A1 in B1. injection B1 as <-. eauto.
Qed.

(** ** the whole mesh *)
(** the number of the side [f] among the sides [l] of an element *)
Fixpoint side_number (f : nat) (l : list nat) : nat := match l with [] => 0 | a :: r => if Nat.eq_dec a f then 0 else S (side_number f r) end%nat.
Lemma position_side f l : position_in f l = side_number f l.
Proof. induction l as [|a l IH]; [reflexivity|]. cbn [position_in side_number]. destruct (Nat.eq_dec a f) as [-> | N]; [now rewrite Nat.eqb_refl|]. apply Nat.eqb_neq in N. now rewrite N, IH. Qed.
(** the orientation in which an element sees its face: mfem's, except that it is discarded on two-dimensional boundaries *)
Definition seen (m : mesh) (interior : bool) (f e : nat) : nat :=
  let o := nth (side_number f (elem_sides m e)) (elem_orient m e) 0%Z in
  if Nat.eqb (dimension m) 2 then (if interior then (if Z.eqb o (-1) then 1 else 0) else 0)%nat else Z.to_nat o.
(** what mfem guarantees about an element [e] listed for face [f] *)
Definition proper (m : mesh) (D : nat -> list Z) (p : nat) (fg : geom) (f e : nat) : Prop :=
  let i := side_number f (elem_sides m e) in let o := nth i (elem_orient m e) 0%Z in
  is_element (elem_geom m e) /\ face_of (elem_geom m e) = fg /\ length (D e) = ndof (elem_geom m e) p /\ nth_error (elem_sides m e) i = Some f /\ (i < sides (elem_geom m e))%nat /\ (i < length (elem_orient m e))%nat /\
  (if Nat.eqb (dimension m) 2 then fg = Seg /\ (o = 1 \/ o = -1)%Z else (0 <= o < Z.of_nat (orientations fg))%Z).
Definition proper_mesh (m : mesh) (D : nat -> list Z) (p : nat) : Prop :=
  forall f fg interior es, nth_error (faces m) f = Some (fg, interior, es) -> length es = (if interior then 2 else 1)%nat /\ List.Forall (proper m D p fg f) es.
(** the faces of one kind, with their numbers *)
Definition faces_of (m : mesh) (fg : geom) (interior : bool) : list (nat * (geom * bool * list nat)) := filter (fun nf => kept fg interior (snd nf)) (combine (seq 0 (length (faces m))) (faces m)).
(** row by row: the dofs of one element after those of the other, each giving that element's field on the face *)
Definition right_row (s : R) (m : mesh) (D : nat -> list Z) (p : nat) (interior : bool) (nf : nat * (geom * bool * list nat)) (row : list Z) : Prop :=
  exists rs, row = concat rs /\ Forall2 (fun e r => length r = ndof (fst (fst (snd nf))) p /\ traces s (elem_geom m e) p (side_number (fst nf) (elem_sides m e)) (seen m interior (fst nf) e) (D e) r) (snd (snd nf)) rs.

Lemma kept_ok fg interior f : kept fg interior f = true -> fst (fst f) = fg /\ snd (fst f) = interior.
Proof. unfold kept. intros H. apply andb_prop in H as [H1 H2]. split; [|now apply eqb_prop]. destruct (fst (fst f)), fg; try discriminate; reflexivity. Qed.
Lemma element_row_ok s m D p fg interior f e : root5 s -> (p <= 3)%nat -> proper m D p fg f e ->
  exists r, element_row m D p fg interior f e = Ok r /\ length r = ndof fg p /\ traces s (elem_geom m e) p (side_number f (elem_sides m e)) (seen m interior f e) (D e) r.
Proof.
  intros Hs Hp (G & <- & L & _ & Hi & Hl & Ho). unfold element_row, seen. rewrite !position_side. set (i := side_number f (elem_sides m e)) in *.
  destruct (Nat.eqb (dimension m) 2) eqn:E.
  - destruct Ho as [Hg Ho]. destruct interior; cbn [andb negb bindO].
    + unfold vec_get. destruct (Z.ltb_spec (Z.of_nat i) 0); [lia|]. rewrite Nat2Z.id, nth_error_map, (nth_error_nth' _ 0%Z Hl). cbn [option_map bindO].
      assert (H2 : ((if Z.eqb (nth i (elem_orient m e) 0%Z) (-1) then 1 else 0) < orientations (face_of (elem_geom m e)))%nat) by (rewrite Hg; cbn [orientations]; destruct (Z.eqb _ _); lia).
      replace (if Z.eqb (nth i (elem_orient m e) 0%Z) (-1) then 1%Z else 0%Z) with (Z.of_nat (if Z.eqb (nth i (elem_orient m e) 0%Z) (-1) then 1 else 0)%nat) by (destruct (Z.eqb _ _); reflexivity).
      apply face_row_traces; auto.
    + change 0%Z with (Z.of_nat 0). apply face_row_traces; auto. rewrite Hg. cbn [orientations]. lia.
  - cbn [andb]. rewrite vec_get_ok by lia. rewrite Nat2Z.id. cbn [bindO].
    destruct (face_row_traces s (elem_geom m e) p i (Z.to_nat (nth i (elem_orient m e) 0%Z)) (D e) Hs G Hp Hi ltac:(lia) L) as (r & Er & Lr & Tr). rewrite Z2Nat.id in Er by lia. exists r. auto.
Qed.
Lemma rows_of_elements s m D p fg interior f es : root5 s -> (p <= 3)%nat -> List.Forall (proper m D p fg f) es ->
  exists rs, mapO (element_row m D p fg interior f) es = Ok rs /\ Forall2 (fun e r => length r = ndof fg p /\ traces s (elem_geom m e) p (side_number f (elem_sides m e)) (seen m interior f e) (D e) r) es rs.
Proof.
  intros Hs Hp. induction es as [|e es IH]; intros H; [exists []; split; [reflexivity|constructor]|]. apply Forall_cons_iff in H as [H1 H2].
  destruct (element_row_ok s m D p fg interior f e Hs Hp H1) as (r & E & L & T). destruct (IH H2) as (rs & Er & F).
  exists (r :: rs). cbn [mapO]. rewrite E. cbn [bindO]. rewrite Er. cbn [bindO]. split; [reflexivity|]. constructor; auto.
Qed.
Lemma Forall2_len {A B} (P : A -> B -> Prop) l m : Forall2 P l m -> length l = length m.
Proof. induction 1; cbn [length]; auto. Qed.
Lemma concat_width (rs : list (list Z)) w : List.Forall (fun r => length r = w) rs -> length (concat rs) = (length rs * w)%nat.
Proof. induction 1 as [|r rs H _ IH]; [reflexivity|]. cbn [concat length]. rewrite app_length, IH, H. lia. Qed.
Lemma chop_concat w (rs : list (list Z)) : List.Forall (fun r => length r = w) rs -> chop (length rs) w (concat rs) = rs.
Proof.
  induction 1 as [|r rs H _ IH]; [reflexivity|]. cbn [length chop concat]. rewrite firstn_app, skipn_app, H, Nat.sub_diag. cbn [firstn skipn].
  rewrite firstn_all2 by lia. rewrite skipn_all2 by lia. rewrite app_nil_r. cbn [app]. now rewrite IH.
Qed.
Lemma face_rows_ok s m D p fg interior : root5 s -> (p <= 3)%nat -> forall fs n,
  (forall k g (b : bool) es, nth_error fs k = Some (g, b, es) -> length es = (if b then 2 else 1)%nat /\ List.Forall (proper m D p g (n + k)) es) ->
  exists rows, face_rows m D p fg interior n fs = Ok rows /\ List.Forall (fun r => length r = ((if interior then 2 else 1) * ndof fg p)%nat) rows /\
  Forall2 (right_row s m D p interior) (filter (fun nf => kept fg interior (snd nf)) (combine (seq n (length fs)) fs)) rows.
Proof.
  intros Hs Hp. induction fs as [|f fs IH]; intros n H; [exists []; repeat split; constructor|].
  destruct (IH (S n)) as (rows & E & W & F). { intros k g b es Hk. replace (S n + k)%nat with (n + S k)%nat by lia. apply H. exact Hk. }
  cbn [face_rows length seq combine filter]. cbn [snd fst]. destruct (kept fg interior f) eqn:K; [|exists rows; auto].
  destruct f as [[g b] es]. apply kept_ok in K as [K1 K2]. cbn [fst snd] in K1, K2. subst g b.
  destruct (H 0%nat fg interior es eq_refl) as [L P]. rewrite Nat.add_0_r in P.
  destruct (rows_of_elements s m D p fg interior n es Hs Hp P) as (rs & Er & Fr). cbn [snd].
  replace (if interior then es else firstn 1 es) with es by (destruct interior; [reflexivity|]; destruct es as [|e [|e' es]]; try discriminate L; reflexivity).
  rewrite Er. cbn [bindO]. rewrite E. cbn [bindO]. exists (concat rs :: rows). split; [reflexivity|]. split.
  - constructor; auto. rewrite (concat_width rs (ndof fg p)).
    + rewrite <- (Forall2_len _ _ _ Fr), L. reflexivity.
    + clear -Fr. induction Fr as [|e r es rs [Hl _] _ IH]; constructor; auto.
  - constructor; auto. exists rs. split; [reflexivity|exact Fr].
Qed.
Lemma get_face_dofs_ok s m D p fg interior : root5 s -> (p <= 3)%nat -> proper_mesh m D p ->
  exists rows, get_face_dofs m D p fg interior = Ok rows /\ Forall2 (right_row s m D p interior) (faces_of m fg interior) rows.
Proof.
  intros Hs Hp H. destruct (face_rows_ok s m D p fg interior Hs Hp (faces m) 0) as (rows & E & W & F). { intros k g b es Hk. cbn [Nat.add]. eapply H; eauto. }
  exists rows. split; [|exact F]. unfold get_face_dofs. rewrite E. cbn [bindO]. f_equal. destruct rows as [|r rows]; [reflexivity|].
  rewrite (concat_width _ _ W). rewrite (Nat.mul_comm (length (r :: rows))), Nat.div_mul by (cbn [length]; lia). now apply chop_concat.
Qed.

(** ** functions of order zero *)
Definition ref_dim (g : geom) : nat := match g with Seg => 1 | Tri | Sq => 2 | _ => 3 end%nat.
Lemma l2_functions s g p : root5 s -> (p <= 3)%nat -> sums_to_one (ref_dim g) (l2_shape s g p) /\ exact_gradients (ref_dim g) (l2_shape s g p) (l2_grad s g p).
Proof.
  intros Hs Hp. destruct (Nat.eq_dec p 0) as [-> | N].
  - split.
    + intros pt L. destruct g; destruct pt as [|x [|y [|z [|w pt]]]]; try discriminate L; cbn; ring.
    + intros pt L. destruct g; destruct pt as [|x [|y [|z [|w pt]]]]; try discriminate L; (split; [reflexivity|]); intros i a Hi Ha; cbn [length l2_shape seg_fn quad_fn hex_fn lob_list lob Nat.add flat_map map app] in Hi; destruct i as [|i]; try (cbn in Hi; lia);
        destruct a as [|[|[|a]]]; try (cbn in Ha; lia); cbn; auto_derive; auto; ring.
  - assert (1 <= p <= 3)%nat by lia. destruct g; cbn [ref_dim].
    + destruct (seg_facts s p Hs H) as (_ & A & _ & B); split; assumption.
    + destruct (tri_facts s p Hs H) as (_ & A & _ & B). destruct p as [|p]; [lia|]. split; assumption.
    + destruct (quad_facts s p Hs H) as (_ & A & _ & B); split; assumption.
    + destruct (tet_facts s p Hs H) as (_ & A & _ & B). destruct p as [|p]; [lia|]. split; assumption.
    + destruct (hex_facts s p Hs H) as (_ & A & _ & B); split; assumption.
Qed.

(** as many values and gradients as dofs, and as many entries in a gradient as coordinates *)
Lemma l2_sizes s g p pt : (p <= 3)%nat -> length pt = ref_dim g ->
  length (l2_shape s g p pt) = ndof g p /\ length (l2_grad s g p pt) = ndof g p /\ List.Forall (fun v => length v = ref_dim g) (l2_grad s g p pt).
Proof.
  intros Hp L. destruct p as [|[|[|[|p]]]]; try lia; destruct g; destruct pt as [|x [|y [|z [|w pt]]]]; try discriminate L; (split; [reflexivity|split; [reflexivity|]]); cbv [l2_grad]; repeat (apply List.Forall_cons; [reflexivity|]); apply List.Forall_nil.
Qed.

(** ** values and places together *)
(** the part [r] of a row that belongs to element [e] of face [f]: at every point of the face it gives the value of the
    element's field at a point of the element that lies at the same place *)
Definition right_values (s : R) (m : mesh) (ev fv : nat -> list Z) (p : nat) (fg : geom) (f e : nat) (D r : list Z) : Prop :=
  forall eta, length eta = face_dim fg -> exists pt,
    (forall X, exists x, place s fg X (fv f) eta = Some x /\ place s (elem_geom m e) X (ev e) pt = Some x) /\
    (forall u, exists x, field_at s fg p (map u r) eta = Some x /\ field_at s (elem_geom m e) p (map u D) pt = Some x).
(** the vertices of elements and faces agree with the orientations *)
Definition proper_vertices (m : mesh) (ev fv : nat -> list Z) (interior : bool) : Prop :=
  forall f fg es, nth_error (faces m) f = Some (fg, interior, es) -> length (fv f) = length (corners fg) /\
  List.Forall (fun e => length (ev e) = length (corners (elem_geom m e)) /\ winding (elem_geom m e) (side_number f (elem_sides m e)) (seen m interior f e) (ev e) (fv f)) es.
Lemma seen_bound m D p fg interior f e : proper m D p fg f e -> (seen m interior f e < orientations fg)%nat.
Proof.
  intros (G & E & L & _ & Hi & Hl & Ho). unfold seen. destruct (Nat.eqb (dimension m) 2).
  - destruct Ho as [-> _]. cbn [orientations]. destruct interior; [destruct (Z.eqb _ _)|]; lia.
  - lia.
Qed.
Lemma faces_of_in m fg interior f g b es : In (f, (g, b, es)) (faces_of m fg interior) -> nth_error (faces m) f = Some (g, b, es) /\ g = fg /\ b = interior.
Proof.
  unfold faces_of. intros H. apply filter_In in H as [H K]. cbn [snd] in K. apply kept_ok in K as [K1 K2]. cbn [fst snd] in K1, K2. split; [|auto].
  apply In_nth with (d := (0%nat, (g, b, es))) in H as (k & Hk & E). rewrite combine_length, seq_length, Nat.min_id in Hk.
  rewrite combine_nth in E by apply seq_length. injection E as E1 E2. rewrite seq_nth in E1 by exact Hk. cbn [Nat.add] in E1. subst k.
  rewrite <- E2. apply nth_error_nth'. exact Hk.
Qed.
Lemma all_values s m D ev fv p fg interior : root5 s -> (p <= 3)%nat -> proper_mesh m D p -> proper_vertices m ev fv interior ->
  exists rows, get_face_dofs m D p fg interior = Ok rows /\
  Forall2 (fun nf row => exists rs, row = concat rs /\ Forall2 (fun e r => length r = ndof fg p /\ right_values s m ev fv p fg (fst nf) e (D e) r) (snd (snd nf)) rs) (faces_of m fg interior) rows.
Proof.
  intros Hs Hp HM HV. destruct (get_face_dofs_ok s m D p fg interior Hs Hp HM) as (rows & E & F). exists rows. split; [exact E|]. clear E.
  assert (K : forall nf, In nf (faces_of m fg interior) -> In nf (faces_of m fg interior)) by auto. revert F K. generalize (faces_of m fg interior) at 1 2 4. intros l F K.
  induction F as [|[f [[g b] es]] row l rows H F IH]; constructor; [|apply IH; intros; apply K; right; auto]. clear IH F.
  destruct (faces_of_in m fg interior f g b es (K _ (or_introl eq_refl))) as (N & -> & ->). destruct (HM _ _ _ _ N) as [_ P]. destruct (HV _ _ _ N) as [LF W].
  destruct H as (rs & -> & F2). cbn [fst snd] in F2 |- *. exists rs. split; [reflexivity|].
  clear K N. induction F2 as [|e r es rs [L T] F2 IH]; constructor; [|exact (IH (Forall_inv_tail P) (Forall_inv_tail W))].
  split; [exact L|]. apply Forall_inv in P. apply Forall_inv in W. destruct W as [LV W]. pose proof (seen_bound _ _ _ _ interior _ _ P) as B.
  destruct P as (G & E & LD & _ & Hi & Hl & Ho). intros eta He. destruct (face_point_onto _ _ eta B He) as (xi & Hx & <-).
  exists (side_point (elem_geom m e) (side_number f (elem_sides m e)) xi). subst fg. split; [|intros u; exact (T u xi Hx)].
  intros X. apply same_place; auto.
Qed.

(** ** examples *)
(** a square cut into the triangles 0 1 2 and 0 2 3; face 2 is the diagonal from 0 to 2 *)
Definition cut : mesh := {| dimension := 2; faces := [(Seg, false, [0]); (Seg, false, [0]); (Seg, true, [0; 1]); (Seg, false, [1]); (Seg, false, [1])]%nat;
  elem_sides := fun e => match e with 0%nat => [0; 1; 2]%nat | _ => [2; 3; 4]%nat end; elem_orient := fun e => match e with 0%nat => [1; 1; -1]%Z | _ => [1; 1; -1]%Z end; elem_geom := fun _ => Tri |}.
Definition cut_dofs (e : nat) : list Z := match e with 0%nat => [0; 1; 2]%Z | _ => [3; 4; 5]%Z end.
Definition cut_ev (e : nat) : list Z := match e with 0%nat => [0; 1; 2]%Z | _ => [0; 2; 3]%Z end.
Definition cut_fv (f : nat) : list Z := match f with 0%nat => [0; 1]%Z | 1%nat => [1; 2]%Z | 2%nat => [0; 2]%Z | 3%nat => [2; 3]%Z | _ => [3; 0]%Z end.
Lemma cut_proper : proper_mesh cut cut_dofs 1.
Proof. intros f fg b es H. do 5 (destruct f as [|f]; [injection H as <- <- <-; split; [reflexivity|]; repeat constructor; cbn; auto; lia|]). destruct f; discriminate H. Qed.
Lemma cut_vertices b : proper_vertices cut cut_ev cut_fv b.
Proof. intros f fg es H. do 5 (destruct f as [|f]; [cbn in H; injection H as <- <- <-; split; [reflexivity|]; repeat constructor|]). destruct f; discriminate H. Qed.
Lemma cut_rows : get_face_dofs cut cut_dofs 1 Seg true = Ok [[0; 2; 3; 4]]%Z /\ get_face_dofs cut cut_dofs 1 Seg false = Ok [[0; 1]; [1; 2]; [4; 5]; [5; 3]]%Z.
Proof. split; vm_compute; reflexivity. Qed.
(** tetrahedra 0 1 2 3 and 4 2 1 3 with the common face 1 2 3, seen by the second with its first two corners exchanged *)
Definition pair : mesh := {| dimension := 3; faces := [(Tri, true, [0; 1])]%nat; elem_sides := fun _ => [0; 7; 8; 9]%nat;
  elem_orient := fun e => match e with 0%nat => [0; 0; 0; 0]%Z | _ => [1; 0; 0; 0]%Z end; elem_geom := fun _ => Tet |}.
Definition pair_dofs (e : nat) : list Z := match e with 0%nat => [0; 1; 2; 3]%Z | _ => [4; 5; 6; 7]%Z end.
Definition pair_ev (e : nat) : list Z := match e with 0%nat => [0; 1; 2; 3]%Z | _ => [4; 2; 1; 3]%Z end.
Lemma pair_proper : proper_mesh pair pair_dofs 1.
Proof. intros f fg b es H. destruct f as [|f]; [injection H as <- <- <-; split; [reflexivity|]; repeat constructor; cbn; auto; lia|]. destruct f; discriminate H. Qed.
Lemma pair_vertices : proper_vertices pair pair_ev (fun _ => [1; 2; 3]%Z) true.
Proof. intros f fg es H. destruct f as [|f]; [injection H as <- <-; split; [reflexivity|]; repeat constructor|]. destruct f; discriminate H. Qed.
Lemma pair_rows : get_face_dofs pair pair_dofs 1 Tri true = Ok [[1; 2; 3; 6; 5; 7]]%Z.
Proof. vm_compute; reflexivity. Qed.
(** continuous functions on the square: the second triangle uses the first one's dofs on the diagonal *)
Lemma cut_continuous : face_row Tri Seg 1 2 1 [0; 1; 2]%Z = face_row Tri Seg 1 0 0 [0; 2; 3]%Z.
Proof. vm_compute; reflexivity. Qed.

(** the square of [cut] when side 4 is shared with another process: mfem calls it interior but lists one element *)
Definition shared : mesh := {| dimension := 2; faces := [(Seg, false, [0]); (Seg, false, [0]); (Seg, true, [0; 1]); (Seg, false, [1]); (Seg, true, [1])]%nat;
  elem_sides := elem_sides cut; elem_orient := elem_orient cut; elem_geom := elem_geom cut |}.
Lemma shared_rows : face_rows shared cut_dofs 1 Seg true 0 (faces shared) = Ok [[0; 2; 3; 4]; [3; 5]]%Z /\ get_face_dofs shared cut_dofs 1 Seg true = Ok [[0; 2; 3]; [4; 3; 5]]%Z.
Proof. split; vm_compute; reflexivity. Qed.

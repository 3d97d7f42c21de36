(** * The mesh of a run, for every description in an input file *)
From Coq Require Import String List ZArith Bool Permutation Lia Reals Lra.
From Verif Require Import Mesh MeshInput MeshInputFacts.
Import ListNotations.
Local Open Scope R_scope.

(** ** specification *)
(** the block describes a box with [n] elements along each side, of sizes [s] *)
Definition box_block (b : block) (n : list Z) (s : list R) : Prop :=
  kind b = Some "box"%string /\ List.Forall (fun a => (0 < a)%Z) n /\ List.length s = List.length n /\
  match n with
  | [x; y] => ex b = Some x /\ ey b = Some y /\ ez b = None
  | [x; y; z] => ex b = Some x /\ ey b = Some y /\ ez b = Some z
  | _ => False
  end /\
  (sx b = None /\ sy b = None /\ sz b = None /\ List.Forall (eq 1) s \/
   match s with
   | [a; c] => sx b = Some a /\ sy b = Some c /\ sz b = None
   | [a; c; d] => sx b = Some a /\ sy b = Some c /\ sz b = Some d
   | _ => False
   end).
(** the interval number [i] of [0, s] cut into n equal ones *)
Definition slice (n : Z) (s : R) (side : R * R) : Prop := exists i : Z, (0 <= i < n)%Z /\ side = (IZR i * (s / IZR n), IZR (i + 1) * (s / IZR n)).
(** the cells of the box *)
Definition box_cell (n : list Z) (s : list R) (c : cell) : Prop := exists sides, c = Brick sides /\ Forall2 (fun ns side => slice (fst ns) (snd ns) side) (combine n s) sides.
Definition total (n : list Z) : Z := fold_right Z.mul 1%Z n.

Lemma in_product {A} (ls : list (list A)) : forall c, In c (product ls) <-> Forall2 (fun l x => In x l) ls c.
Proof.
  induction ls as [|l ls IH]; intros c; cbn [product].
  - split; [intros [<-|[]]; constructor|intros H; inversion H; now left].
  - rewrite in_flat_map. split.
    + intros (x & Hx & H). apply in_map_iff in H as (c' & <- & H). constructor; [exact Hx|now apply IH].
    + intros H. inversion H as [|? x ? c' Hx H']; subst. exists x. split; [exact Hx|]. apply in_map_iff. exists c'. split; [reflexivity|now apply IH].
Qed.
Lemma in_axis n s side : (0 < n)%Z -> In side (axis n s) <-> slice n s side.
Proof.
  intros Hn. assert (N : IZR n <> 0) by (apply not_0_IZR; lia). unfold axis, slice. rewrite in_map_iff. split.
  - intros (i & <- & Hi). apply in_seq in Hi. exists (Z.of_nat i). split; [lia|]. rewrite plus_IZR, !INR_IZR_INZ, Nat2Z.inj_succ, succ_IZR. f_equal; field; exact N.
  - intros (i & Hi & ->). exists (Z.to_nat i). split; [|apply in_seq; lia]. rewrite plus_IZR, !INR_IZR_INZ, Nat2Z.inj_succ, Z2Nat.id, succ_IZR by lia. f_equal; field; exact N.
Qed.
Lemma axis_length n s : List.length (axis n s) = Z.to_nat n.
Proof. unfold axis. now rewrite map_length, seq_length. Qed.
Lemma in_cells n : forall s c, List.Forall (fun a => (0 < a)%Z) n -> List.length s = List.length n -> In c (cells n s) <-> box_cell n s c.
Proof.
  intros s c P L. unfold cells, box_cell. rewrite in_map_iff. apply (iff_trans (B := exists sides, c = Brick sides /\ In sides (product (map (fun ns => axis (fst ns) (snd ns)) (combine n s))))).
  { split; intros (x & A & B); exists x; split; auto. }
  assert (E : forall sides, In sides (product (map (fun ns => axis (fst ns) (snd ns)) (combine n s))) <-> Forall2 (fun ns side => slice (fst ns) (snd ns) side) (combine n s) sides).
  { intros sides. rewrite in_product. clear c. revert s L sides. induction P as [|a n Ha P IH]; intros s L sides.
    - cbn [combine map]. split; intros H; inversion H; constructor.
    - destruct s as [|r s]; [discriminate L|]. cbn [combine map fst snd]. split; intros H; inversion H; subst; constructor; try (apply IH; auto); cbn [fst snd] in *; now apply in_axis. }
  split; intros (x & A & B); exists x; split; auto; now apply E.
Qed.
Lemma cells_length n : forall s, List.Forall (fun a => (0 < a)%Z) n -> List.length s = List.length n -> List.length (cells n s) = Z.to_nat (total n).
Proof.
  intros s P L. unfold cells. rewrite map_length, (proj1 (product_length _)). assert (H : fold_right Nat.mul 1%nat (map (@List.length (R * R)) (map (fun ns => axis (fst ns) (snd ns)) (combine n s))) = Z.to_nat (total n) /\ (0 < total n)%Z); [|exact (proj1 H)].
  revert s L. induction P as [|a n Ha P IH]; intros s L; [split; reflexivity|]. destruct s as [|r s]; [discriminate L|]. destruct (IH s) as [A B]; [now injection L|]. cbn [combine map fold_right total fst snd]. rewrite axis_length, A. fold (total n). split; [|lia]. rewrite Z2Nat.inj_mul; lia.
Qed.
Lemma total_doubled k n : total (map (doubled k) n) = (total n * (2 ^ Z.of_nat (List.length n)) ^ Z.of_nat k)%Z.
Proof.
  induction n as [|a n IH]; [cbn [map total fold_right List.length]; change (2 ^ Z.of_nat 0)%Z with 1%Z; rewrite Z.pow_1_l; lia|].
  cbn [map total fold_right List.length]. fold (total (map (doubled k) n)). fold (total n). rewrite IH. unfold doubled. rewrite Nat2Z.inj_succ, Z.pow_succ_r, Z.pow_mul_l by lia. ring.
Qed.

(** ** boxes *)
Lemma box_serial w b n s : box_block b n s -> verified b = true /\ exists m, read b = Built (Box n s, level (ser b), level (par b)) /\ serial w (Box n s) = Built m /\ elems m = cells n s.
Proof.
  intros (K & P & L & N & S0). split; [unfold verified; rewrite K; reflexivity|]. exists {| elems := cells n s; bdr := [] |}.
  assert (C : forallb (Z.ltb 0) n = true). { apply forallb_forall. rewrite Forall_forall in P. intros a Ha. apply Z.ltb_lt. auto. }
  destruct n as [|x [|y [|z [|? n]]]]; try contradiction; destruct N as (Ex & Ey & Ez).
  - destruct s as [|a [|c [|? s]]]; try discriminate L. split.
    + unfold read. rewrite K, Ex, Ey, Ez. cbn [String.eqb]. change (String.eqb "box" "box") with true. cbn [bindB need]. destruct S0 as [(Sx & Sy & Sz & U)|(Sx & Sy & Sz)]; rewrite Sx, Sy, Sz; cbn [given orb need bindB].
      * inversion U as [|? ? A U']; subst. inversion U' as [|? ? B U'']; subst. reflexivity.
      * reflexivity.
    + cbn [serial List.length Nat.eqb at_ nth_error bindB]. unfold cartesian. rewrite C. split; reflexivity.
  - destruct s as [|a [|c [|d [|? s]]]]; try discriminate L. split.
    + unfold read. rewrite K, Ex, Ey, Ez. change (String.eqb "box" "box") with true. cbn [bindB need]. destruct S0 as [(Sx & Sy & Sz & U)|(Sx & Sy & Sz)]; rewrite Sx, Sy, Sz; cbn [given orb need bindB].
      * inversion U as [|? ? A U']; subst. inversion U' as [|? ? B U'']; subst. inversion U'' as [|? ? B' U''']; subst. reflexivity.
      * reflexivity.
    + cbn [serial List.length Nat.eqb at_ nth_error bindB]. unfold cartesian. rewrite C. split; reflexivity.
Qed.
Lemma box_mesh w b n s : shares w -> box_block b n s -> exists ms, main_mesh w b = Built ms /\
  (forall c, In c (all_elems ms) <-> box_cell (map (doubled (depth b)) n) s c) /\
  Z.of_nat (List.length (all_elems ms)) = (total n * (2 ^ Z.of_nat (List.length n)) ^ Z.of_nat (depth b))%Z.
Proof.
  intros Hw H. destruct (box_serial w b n s H) as (V & m & E1 & E2 & E3). exists (refine_and_distribute w m (level (ser b)) (level (par b))). split; [unfold main_mesh; rewrite V, E1; cbn [bindB]; rewrite E2; reflexivity|].
  destruct H as (_ & P & L & _). destruct (distributed w m (level (ser b)) (level (par b)) Hw) as [D _]. rewrite E3 in D. fold (depth b) in D.
  pose proof (perm_trans D (box_refined (diagonal w) n s (depth b) P (eq_sym L))) as Q. set (n' := map (doubled (depth b)) n) in *.
  assert (P' : List.Forall (fun a => (0 < a)%Z) n'). { unfold n'. rewrite Forall_map. eapply Forall_impl; [|exact P]. intros a Ha. unfold doubled. apply Z.mul_pos_pos; [exact Ha|]. apply Z.pow_pos_nonneg; lia. }
  assert (L' : List.length s = List.length n') by (unfold n'; now rewrite map_length).
  split.
  - intros c. rewrite <- (in_cells n' s c P' L'). split; intros Hc; [exact (Permutation_in c Q Hc)|exact (Permutation_in c (Permutation_sym Q) Hc)].
  - rewrite (Permutation_length Q), (cells_length n' s P' L'). rewrite Z2Nat.id; [unfold n'; apply total_doubled|].
    clear -P'. induction P' as [|a l Ha _ IH]; cbn [total fold_right]; [lia|]. fold (total l). lia.
Qed.

(** ** disks and balls *)
Lemma squished_dim d l : List.Forall (of_dim d) l -> List.Forall (of_dim d) (map squished l).
Proof. intros H. rewrite Forall_map. eapply Forall_impl; [|exact H]. intros [u|v]; cbn [squished of_dim]; [auto|]. now rewrite map_length. Qed.
Lemma squished_points g k l (P : vec -> Prop) : List.Forall simplicial l -> (forall c v, In c l -> reach (points c) v -> P (squish v)) ->
  forall c p, In c (map squished (times k (flat_map (refine_cell g)) l)) -> simplicial c /\ (In p (points c) -> P p).
Proof.
  intros F H c p Hc. apply in_map_iff in Hc as (c' & <- & Hc). destruct (times_reach g k l c' [] F Hc) as [S0 _]. destruct c' as [u|v]; [contradiction|]. split; [exact Logic.I|]. cbn [squished points]. intros Hp.
  apply in_map_iff in Hp as (q & <- & Hq). destruct (times_reach g k l (Simplex v) q F Hc) as [_ T]. destruct (T Hq) as (c0 & H0 & R0). eapply H; eauto.
Qed.
Definition ball_of (g : list vec -> nat) (n : Z) (dim : nat) (m : mesh) : Prop :=
  nball g n dim = Built m /\ List.Forall (of_dim dim) (elems m) /\ (exists k, List.length (elems m) = (2 ^ dim * (2 ^ dim) ^ k)%nat) /\ (n <= (if Nat.eqb dim 2 then 2 else 4) * Z.of_nat (List.length (elems m)))%Z /\
  (List.length (elems m) = (2 ^ dim)%nat \/ (Z.of_nat (List.length (elems m)) < 2 * n)%Z) /\
  (forall c p, In c (elems m) -> simplicial c /\ (In p (points c) -> n2 p <= 1)) /\ (forall c p, In c (bdr m) -> simplicial c /\ (In p (points c) -> n2 p = 1)).
Lemma simplices_simplicial vs es : List.Forall simplicial (simplices vs es).
Proof. apply Forall_map, Forall_forall. cbn. auto. Qed.
Lemma ball_exists g n dim : dim = 2%nat \/ dim = 3%nat -> exists m, ball_of g n dim m.
Proof.
  intros Hd.
  assert (G : forall (vs : list (list Z)) (es bs : list (list nat)) thr, List.Forall (of_dim dim) (simplices vs es) -> List.length es = (2 ^ dim)%nat -> (thr * 2 = 2 ^ Z.of_nat dim)%Z -> (1 <= thr)%Z ->
    (forall e v, In e bs -> reach (corners vs e) v -> n2 (squish v) = 1) -> (forall e v, In e es -> reach (corners vs e) v -> n2 (squish v) <= 1) ->
    let start := {| elems := simplices vs es; bdr := simplices vs bs |} in
    exists k, coarse_loop g (S (S (Z.to_nat n))) thr n start = Some (times k (refine g) start) /\ let m := both (map squished) (times k (refine g) start) in
    List.Forall (of_dim dim) (elems m) /\ (exists k, List.length (elems m) = (2 ^ dim * (2 ^ dim) ^ k)%nat) /\ (n <= thr * Z.of_nat (List.length (elems m)))%Z /\
    (List.length (elems m) = (2 ^ dim)%nat \/ (Z.of_nat (List.length (elems m)) < 2 * n)%Z) /\
    (forall c p, In c (elems m) -> simplicial c /\ (In p (points c) -> n2 p <= 1)) /\ (forall c p, In c (bdr m) -> simplicial c /\ (In p (points c) -> n2 p = 1))).
  { intros vs es bs thr F Le Ht Ht1 B1 B2 start. assert (L0 : List.length (elems start) = (2 ^ dim)%nat) by (cbn [start elems]; unfold simplices; now rewrite map_length).
    assert (P0 : (1 <= 2 ^ dim)%nat) by (destruct Hd as [-> | ->]; cbn; lia).
    destruct (coarse_loop_ok dim g thr n ltac:(lia) Ht1 (S (Z.to_nat n)) start F ltac:(lia) ltac:(lia)) as (k & E1 & E2 & E3). exists k. split; [exact E1|]. intros m.
    assert (Em : elems m = map squished (times k (flat_map (refine_cell g)) (simplices vs es))) by (unfold m; cbn [both elems]; rewrite (proj1 (times_elems _ _ _)); reflexivity).
    assert (Bm : bdr m = map squished (times k (flat_map (refine_cell g)) (simplices vs bs))) by (unfold m; cbn [both bdr]; rewrite (proj2 (times_elems _ _ _)); reflexivity).
    assert (Lm : List.length (elems m) = List.length (elems (times k (refine g) start))) by (unfold m; cbn [both elems]; apply map_length).
    destruct (times_count dim g k (simplices vs es) F) as [C1 C2]. split; [rewrite Em; now apply squished_dim|].
    assert (Lk : List.length (elems m) = (2 ^ dim * (2 ^ dim) ^ k)%nat) by (rewrite Em, map_length, C1; unfold simplices; rewrite map_length, Le; reflexivity).
    split; [exists k; exact Lk|]. rewrite <- Lm in E2, E3. split; [lia|]. split.
    - destruct E3 as [-> | E3]; [left; rewrite Lk; cbn [Nat.pow]; lia|right; nia].
    - rewrite Em, Bm. split; intros c p Hc.
      + revert Hc. apply (squished_points g k _ (fun v => n2 v <= 1)); [apply simplices_simplicial|]. intros c0 v H0. apply in_map_iff in H0 as (e & <- & He). cbn [points]. apply B2, He.
      + revert Hc. apply (squished_points g k _ (fun v => n2 v = 1)); [apply simplices_simplicial|]. intros c0 v H0. apply in_map_iff in H0 as (e & <- & He). cbn [points]. apply B1, He. }
  destruct Hd as [-> | ->].
  - destruct (G disk_vertices disk_triangles disk_segments 2%Z) as (k & E & A); try reflexivity; try lia; [repeat constructor|apply disk_ok|apply disk_ok|].
    eexists. split; [unfold nball; change (Nat.eqb 2 2) with true; cbv beta iota zeta; rewrite E; reflexivity|]. exact A.
  - destruct (G ball_vertices ball_tetrahedra ball_triangles 4%Z) as (k & E & A); try reflexivity; try lia; [repeat constructor|apply ball_ok|apply ball_ok|].
    eexists. split; [unfold nball; change (Nat.eqb 3 2) with false; cbv beta iota zeta; rewrite E; reflexivity|]. exact A.
Qed.
Definition ball_block (b : block) (n : Z) (dim : nat) : Prop := kind b = Some (if Nat.eqb dim 2 then "disk" else "ball")%string /\ approx b = Some n /\ (dim = 2%nat \/ dim = 3%nat).
(** the least number of elements, by repeated refinement of the coarsest mesh, that reaches a half (disk) or a quarter (ball) of the wish *)
Definition ball_number (n : Z) (dim : nat) (N : Z) : Prop :=
  (exists k, N = (2 ^ Z.of_nat dim) ^ Z.of_nat (S k))%Z /\ (n <= (if Nat.eqb dim 2 then 2 else 4) * N)%Z /\ (N = 2 ^ Z.of_nat dim \/ N < 2 * n)%Z.
Lemma ball_number_of g n dim m : ball_of g n dim m -> ball_number n dim (Z.of_nat (List.length (elems m))).
Proof.
  intros (_ & _ & (k & L) & A & B & _). split; [|split; [exact A|]].
  - exists k. rewrite L, Nat2Z.inj_mul, !Nat2Z.inj_pow, (Nat2Z.inj_succ k), Z.pow_succ_r by lia. reflexivity.
  - destruct B as [-> | B]; [left; now rewrite Nat2Z.inj_pow|right; exact B].
Qed.
Lemma ball_mesh w b n dim : shares w -> ball_block b n dim -> exists ms N, main_mesh w b = Built ms /\ ball_number n dim N /\
  Z.of_nat (List.length (all_elems ms)) = (N * (2 ^ Z.of_nat dim) ^ Z.of_nat (depth b))%Z /\
  (forall c, In c (all_elems ms) -> exists v, c = Simplex v /\ List.length v = S dim /\ forall p, In p v -> n2 p <= 1) /\
  (forall c p, In c (all_bdr ms) -> In p (points c) -> n2 p <= 1 /\ (depth b = O -> n2 p = 1)).
Proof.
  intros Hw (K & A & Hd). destruct (ball_exists (diagonal w) n dim Hd) as (m & B). exists (refine_and_distribute w m (level (ser b)) (level (par b))), (Z.of_nat (List.length (elems m))).
  pose proof (ball_number_of _ _ _ _ B) as BN. destruct B as (E & F & _ & _ & _ & PE & PB). destruct (distributed w m (level (ser b)) (level (par b)) Hw) as [D1 D2]. fold (depth b) in D1, D2.
  destruct (times_count dim (diagonal w) (depth b) (elems m) F) as [C1 C2].
  assert (SE : List.Forall simplicial (elems m)) by (apply Forall_forall; intros c Hc; exact (proj1 (PE c [] Hc))).
  assert (SB : List.Forall simplicial (bdr m)) by (apply Forall_forall; intros c Hc; exact (proj1 (PB c [] Hc))).
  split; [|split; [exact BN|split; [|split]]].
  - unfold main_mesh, verified, read. rewrite K, A. destruct Hd as [-> | ->]; cbn [need bindB serial]; change (Nat.eqb 2 2) with true in *; change (Nat.eqb 3 2) with false in *; cbv iota in *.
    + change (existsb (String.eqb "disk") valid_kinds) with true. change (String.eqb "disk" "box") with false. change (String.eqb "disk" "disk") with true. cbn [orb bindB serial]. rewrite E. reflexivity.
    + change (existsb (String.eqb "ball") valid_kinds) with true. change (String.eqb "ball" "box") with false. change (String.eqb "ball" "disk") with false. change (String.eqb "ball" "ball") with true. cbn [orb bindB serial]. rewrite E. reflexivity.
  - rewrite (Permutation_length D1), C1, Nat2Z.inj_mul, !Nat2Z.inj_pow. reflexivity.
  - intros c Hc. apply (Permutation_in c D1) in Hc. destruct (times_reach (diagonal w) (depth b) (elems m) c [] SE Hc) as [Sc _]. rewrite Forall_forall in C2. specialize (C2 c Hc). destruct c as [u|v]; [contradiction|].
    exists v. split; [reflexivity|]. split; [exact (proj2 C2)|]. intros p Hp. destruct (proj2 (times_reach (diagonal w) (depth b) (elems m) (Simplex v) p SE Hc) Hp) as (c0 & H0 & R0).
    eapply reach_ball; [|exact R0]. intros q Hq. exact (proj2 (PE c0 q H0) Hq).
  - intros c p Hc Hp. apply (Permutation_in c D2) in Hc. split.
    + destruct (proj2 (times_reach (diagonal w) (depth b) (bdr m) c p SB Hc) Hp) as (c0 & H0 & R0). eapply reach_ball; [|exact R0]. intros q Hq. right. exact (proj2 (PB c0 q H0) Hq).
    + intros Z0. rewrite Z0 in Hc. cbn [times] in Hc. exact (proj2 (PB c p Hc) Hp).
Qed.

(** ** files *)
(** the name the mesh is read from: as given when that exists, next to the input file otherwise *)
Definition file_block (w : world) (b : block) (m : mesh) : Prop := kind b = Some "file"%string /\ exists name, path b = Some name /\
  (disk w name = Some (Some m) /\ name <> ""%string \/ disk w name = None /\ disk w (here w name) = Some (Some m) /\ here w name <> ""%string).
Lemma file_serial w b m : file_block w b m -> verified b = true /\ exists name, read b = Built (File name, level (ser b), level (par b)) /\ serial w (File name) = Built m.
Proof.
  intros (K & name & P & H). split; [unfold verified; rewrite K; reflexivity|]. exists name. split; [unfold read; rewrite K, P; reflexivity|]. cbn [serial]. unfold find_path.
  destruct H as [[H N]|(H1 & H & N)].
  - rewrite H. cbn [given bindB]. apply String.eqb_neq in N. rewrite N. unfold from_file. rewrite H. reflexivity.
  - rewrite H1. cbn [given]. rewrite H. cbn [given bindB]. apply String.eqb_neq in N. rewrite N. unfold from_file. rewrite H. reflexivity.
Qed.
Lemma file_mesh w b m : shares w -> file_block w b m -> exists ms, main_mesh w b = Built ms /\
  Permutation (all_elems ms) (elems (times (depth b) (refine (diagonal w)) m)) /\ Permutation (all_bdr ms) (bdr (times (depth b) (refine (diagonal w)) m)).
Proof.
  intros Hw H. destruct (file_serial w b m H) as (V & name & E1 & E2). exists (refine_and_distribute w m (level (ser b)) (level (par b))). split; [unfold main_mesh; rewrite V, E1; cbn [bindB]; rewrite E2; reflexivity|].
  rewrite (proj1 (times_elems _ _ _)), (proj2 (times_elems _ _ _)). now apply distributed.
Qed.
Lemma refined_number w b m d : file_block w b m -> shares w -> List.Forall (of_dim d) (elems m) -> exists ms, main_mesh w b = Built ms /\ List.length (all_elems ms) = (List.length (elems m) * (2 ^ d) ^ depth b)%nat.
Proof.
  intros H Hw F. destruct (file_mesh w b m Hw H) as (ms & E & P & _). exists ms. split; [exact E|]. rewrite (Permutation_length P), (proj1 (times_elems _ _ _)). now apply times_count.
Qed.

(** ** the same mesh on any number of processes and for any split of the refinements *)
Definition same_but_levels (b b' : block) : Prop := kind b' = kind b /\ path b' = path b /\ ex b' = ex b /\ ey b' = ey b /\ ez b' = ez b /\ sx b' = sx b /\ sy b' = sy b /\ sz b' = sz b /\ approx b' = approx b.
Definition same_world (w w' : world) : Prop := (forall s, disk w' s = disk w s) /\ (forall s, here w' s = here w s) /\ diagonal w' = diagonal w.
Lemma same_read b b' : same_but_levels b b' -> verified b' = verified b /\ forall s a c, read b = Built (s, a, c) -> a = level (ser b) /\ c = level (par b) /\ read b' = Built (s, level (ser b'), level (par b')).
Proof.
  intros (K & P & X & Y & Z0 & SX & SY & SZ & A). split; [unfold verified; now rewrite K|]. intros s a c. unfold read. rewrite K, P, X, Y, Z0, SX, SY, SZ, A. destruct (kind b) as [k|]; [|discriminate].
  destruct (String.eqb k "box").
  - destruct (ex b); cbn [need bindB]; [|discriminate]. destruct (ey b); cbn [need bindB]; [|discriminate]. destruct (given (sx b) || given (sy b) || given (sz b)).
    + destruct (sx b); cbn [need bindB]; [|discriminate]. destruct (sy b); cbn [need bindB]; [|discriminate]. intros H. injection H as <- <- <-. auto.
    + intros H. injection H as <- <- <-. auto.
  - destruct (String.eqb k "disk" || String.eqb k "ball").
    + destruct (approx b); cbn [need bindB]; [|discriminate]. intros H. injection H as <- <- <-. auto.
    + destruct (String.eqb k "file"); [|discriminate]. destruct (path b); cbn [need bindB]; [|discriminate]. intros H. injection H as <- <- <-. auto.
Qed.
Lemma same_serial w w' s : same_world w w' -> serial w' s = serial w s.
Proof. intros (D & H & G). destruct s as [e l|n d|name]; cbn [serial]; [reflexivity|now rewrite G|]. unfold find_path, from_file. rewrite D, H, D. destruct (given (disk w name)); cbn [bindB]; [now rewrite D|]. destruct (given (disk w (here w name))); cbn [bindB]; [now rewrite D|reflexivity]. Qed.
Lemma any_processes w w' b b' ms : shares w -> shares w' -> same_world w w' -> same_but_levels b b' -> depth b' = depth b -> main_mesh w b = Built ms ->
  exists ms', main_mesh w' b' = Built ms' /\ List.length ms' = ranks w' /\ Permutation (all_elems ms') (all_elems ms) /\ Permutation (all_bdr ms') (all_bdr ms).
Proof.
  intros Hw Hw' SW SB HD. destruct (same_read b b' SB) as [V R0]. unfold main_mesh. rewrite V. destruct (verified b); [|discriminate].
  destruct (read b) as [[[s a] c]| | |] eqn:E; try discriminate. destruct (R0 s a c eq_refl) as (-> & -> & ->). cbn [bindB]. rewrite (same_serial w w' s SW). destruct (serial w s) as [m| | |]; try discriminate. cbn [bindB].
  intros H. injection H as <-. eexists. split; [reflexivity|]. split; [unfold refine_and_distribute; now rewrite map_length, seq_length|].
  destruct (distributed w m (level (ser b)) (level (par b)) Hw) as [A1 A2]. destruct (distributed w' m (level (ser b')) (level (par b')) Hw') as [B1 B2]. fold (depth b) in A1, A2. fold (depth b') in B1, B2. rewrite HD in B1, B2.
  destruct SW as (_ & _ & G). rewrite G in B1, B2. split; [exact (perm_trans B1 (Permutation_sym A1))|exact (perm_trans B2 (Permutation_sym A2))].
Qed.

(** ** which descriptions are accepted *)
Definition positive (o : option Z) : Prop := match o with Some z => (0 < z)%Z | None => False end.
Definition sizes_ok (b : block) : Prop := (sx b = None /\ sy b = None /\ sz b = None) \/ (sx b <> None /\ sy b <> None /\ (ez b <> None -> sz b <> None)).
Definition accepted (w : world) (b : block) : Prop :=
  (kind b = Some "box"%string /\ positive (ex b) /\ positive (ey b) /\ (ez b = None \/ positive (ez b)) /\ sizes_ok b) \/
  ((kind b = Some "disk"%string \/ kind b = Some "ball"%string) /\ approx b <> None) \/ (exists m, file_block w b m).
Definition forgotten_size (b : block) : Prop := kind b = Some "box"%string /\ ex b <> None /\ ey b <> None /\ ez b <> None /\ sx b <> None /\ sy b <> None /\ sz b = None.
Lemma verified_kinds b : verified b = true <-> kind b = Some "ball"%string \/ kind b = Some "box"%string \/ kind b = Some "disk"%string \/ kind b = Some "file"%string.
Proof.
  unfold verified. destruct (kind b) as [k|]; [|split; [discriminate|intros H; decompose [or] H; discriminate]]. split.
  - intros H. apply existsb_exists in H as (x & Hx & E). apply String.eqb_eq in E. subst x. cbn [valid_kinds In] in Hx. decompose [or] Hx; subst; auto. contradiction.
  - intros H. decompose [or] H; clear H; match goal with E : Some _ = Some _ |- _ => injection E as -> end; reflexivity.
Qed.
Lemma box_outcome w b : kind b = Some "box"%string ->
  ((exists ms, main_mesh w b = Built ms) <-> (positive (ex b) /\ positive (ey b) /\ (ez b = None \/ positive (ez b)) /\ sizes_ok b)) /\ (main_mesh w b = Thrown <-> forgotten_size b).
Proof.
  intros K. unfold main_mesh, verified, read, forgotten_size, sizes_ok, positive. rewrite K. change (existsb (String.eqb "box") valid_kinds) with true. change (String.eqb "box" "box") with true. cbv iota.
  destruct (ex b) as [x|], (ey b) as [y|], (ez b) as [z|], (sx b) as [a|], (sy b) as [c|], (sz b) as [d|]; cbn [need bindB given orb repeat List.length serial Nat.eqb at_ nth_error]; unfold cartesian; cbn [forallb];
    repeat match goal with |- context [Z.ltb 0 ?v] => destruct (Z.ltb_spec 0 v) as [?P|?P] end; cbn [andb bindB];
    (split; [split; [intros (ms & H); try discriminate H; repeat split; try assumption; try (left; repeat split; reflexivity); try (right; assumption); try (left; reflexivity); try (right; repeat split; intros; first [discriminate | congruence])
                    |intros (H1 & H2 & H3 & H4); try contradiction; try lia; try (eexists; reflexivity); exfalso; destruct H3 as [H3|H3]; try discriminate H3; try lia; destruct H4 as [(A & B & C)|(A & B & C)]; try discriminate; try (now apply A); try (now apply B); try (apply C; [discriminate|reflexivity])]
            |split; [intros H; try discriminate H; repeat split; try discriminate|intros (_ & H1 & H2 & H3 & H4 & H5 & H6); try reflexivity; try discriminate; exfalso; auto]]).
Qed.
Lemma ball_outcome w b : kind b = Some "disk"%string \/ kind b = Some "ball"%string -> ((exists ms, main_mesh w b = Built ms) <-> approx b <> None) /\ main_mesh w b <> Thrown.
Proof.
  intros K. assert (E : exists dim, (dim = 2 \/ dim = 3)%nat /\ main_mesh w b = bindB (need (approx b)) (fun n => bindB (nball (diagonal w) n dim) (fun m => Built (refine_and_distribute w m (level (ser b)) (level (par b)))))).
  { unfold main_mesh, verified, read. destruct K as [-> | ->]; [exists 2%nat|exists 3%nat]; (split; [auto|]).
    - change (existsb (String.eqb "disk") valid_kinds) with true. change (String.eqb "disk" "box") with false. change (String.eqb "disk" "disk") with true. cbn [orb]. destruct (approx b); reflexivity.
    - change (existsb (String.eqb "ball") valid_kinds) with true. change (String.eqb "ball" "box") with false. change (String.eqb "ball" "disk") with false. change (String.eqb "ball" "ball") with true. cbn [orb]. destruct (approx b); reflexivity. }
  destruct E as (dim & Hd & ->). destruct (approx b) as [n|]; cbn [need bindB].
  - destruct (ball_exists (diagonal w) n dim Hd) as (m & -> & _). cbn [bindB]. split; [|discriminate]. split; [discriminate|eauto].
  - split; [|discriminate]. split; [intros (ms & H); discriminate H|intros H; now contradiction H].
Qed.
Lemma file_outcome w b : kind b = Some "file"%string -> ((exists ms, main_mesh w b = Built ms) <-> exists m, file_block w b m) /\ main_mesh w b <> Thrown.
Proof.
  intros K. assert (E : main_mesh w b = bindB (need (path b)) (fun s => bindB (serial w (File s)) (fun m => Built (refine_and_distribute w m (level (ser b)) (level (par b)))))).
  { unfold main_mesh, verified, read. rewrite K. change (existsb (String.eqb "file") valid_kinds) with true. change (String.eqb "file" "box") with false. change (String.eqb "file" "disk" || String.eqb "file" "ball") with false. change (String.eqb "file" "file") with true. cbv iota. destruct (path b); reflexivity. }
  split.
  - split.
    + rewrite E. unfold file_block. destruct (path b) as [s|]; cbn [need bindB serial]; [|intros (ms & H); discriminate H]. unfold find_path, from_file. intros (ms & H). destruct (disk w s) as [[m|]|] eqn:D; cbn [given bindB] in H.
      * exists m. split; [exact K|]. exists s. split; [reflexivity|]. left. split; [exact D|]. intros ->. discriminate H.
      * rewrite D in H. destruct (String.eqb s ""); discriminate H.
      * destruct (disk w (here w s)) as [[m|]|] eqn:D2; cbn [given bindB] in H; [|rewrite D2 in H; destruct (String.eqb (here w s) ""); discriminate H|discriminate H].
        exists m. split; [exact K|]. exists s. split; [reflexivity|]. right. split; [exact D|]. split; [exact D2|]. intros Z0. rewrite Z0 in H. discriminate H.
    + intros (m & H). destruct (file_serial w b m H) as (V & name & R0 & S0). unfold main_mesh. rewrite V, R0. cbn [bindB]. rewrite S0. cbn [bindB]. eauto.
  - rewrite E. destruct (path b) as [s|]; cbn [need bindB serial]; [|discriminate]. unfold find_path, from_file. destruct (given (disk w s)); cbn [bindB].
    + destruct (String.eqb s ""); [discriminate|]. destruct (disk w s) as [[m|]|]; discriminate.
    + destruct (given (disk w (here w s))); cbn [bindB]; [|discriminate]. destruct (String.eqb (here w s) ""); [discriminate|]. destruct (disk w (here w s)) as [[m|]|]; discriminate.
Qed.
Lemma outcomes w b : ((exists ms, main_mesh w b = Built ms) <-> accepted w b) /\ (main_mesh w b = Thrown <-> forgotten_size b).
Proof.
  destruct (verified b) eqn:V.
  - apply verified_kinds in V. destruct V as [K|[K|[K|K]]].
    + destruct (ball_outcome w b (or_intror K)) as [A B]. split.
      * rewrite A. unfold accepted, file_block. rewrite K. split; [intros H; right; left; split; auto|]. intros [(H & _)|[(_ & H)|(m & H & _)]]; [discriminate H|exact H|discriminate H].
      * unfold forgotten_size. rewrite K. split; [intros H; now contradiction B|intros (H & _); discriminate H].
    + destruct (box_outcome w b K) as [A B]. split; [|exact B]. rewrite A. unfold accepted, file_block. rewrite K. split; [intros H; left; split; auto|]. intros [(_ & H)|[([H|H] & _)|(m & H & _)]]; [exact H|discriminate H..].
    + destruct (ball_outcome w b (or_introl K)) as [A B]. split.
      * rewrite A. unfold accepted, file_block. rewrite K. split; [intros H; right; left; split; auto|]. intros [(H & _)|[(_ & H)|(m & H & _)]]; [discriminate H|exact H|discriminate H].
      * unfold forgotten_size. rewrite K. split; [intros H; now contradiction B|intros (H & _); discriminate H].
    + destruct (file_outcome w b K) as [A B]. split.
      * rewrite A. unfold accepted. rewrite K. split; [intros H; right; right; exact H|]. intros [(H & _)|[([H|H] & _)|H]]; [discriminate H..|exact H].
      * unfold forgotten_size. rewrite K. split; [intros H; now contradiction B|intros (H & _); discriminate H].
  - assert (N : ~ (kind b = Some "ball"%string \/ kind b = Some "box"%string \/ kind b = Some "disk"%string \/ kind b = Some "file"%string)) by (rewrite <- verified_kinds; congruence).
    unfold main_mesh. rewrite V. unfold accepted, forgotten_size, file_block. split; (split; [try (intros (ms & H); discriminate H); discriminate|]).
    + intros [(H & _)|[([H|H] & _)|(m & H & _)]]; exfalso; apply N; auto.
    + intros (H & _). exfalso. apply N. auto.
Qed.

(** ** examples *)
Definition empty_block : block := {| kind := None; ser := None; par := None; path := None; ex := None; ey := None; ez := None; sx := None; sy := None; sz := None; approx := None |}.
Definition bar : block := {| kind := Some "box"%string; ser := Some 1%Z; par := None; path := None; ex := Some 3%Z; ey := Some 1%Z; ez := None; sx := Some 3; sy := Some 1; sz := None; approx := None |}.
Definition square_mesh : mesh := {| elems := [Brick [(0, 1); (0, 1)]]; bdr := [] |}.
Definition desk : world := {| disk := fun s => if String.eqb s "in/square.mesh" then Some (Some square_mesh) else None; here := fun s => ("in/" ++ s)%string; ranks := 2; owner := fun i => Nat.modulo i 2; diagonal := fun _ => 0%nat |}.
Definition from_disk : block := {| kind := Some "file"%string; ser := Some 1%Z; par := Some 1%Z; path := Some "square.mesh"%string; ex := None; ey := None; ez := None; sx := None; sy := None; sz := None; approx := None |}.
Definition round : block := {| kind := Some "disk"%string; ser := None; par := None; path := None; ex := None; ey := None; ez := None; sx := None; sy := None; sz := None; approx := Some 100%Z |}.
Lemma desk_shares : shares desk.
Proof. intros i. cbn [desk owner ranks]. apply Nat.mod_upper_bound. discriminate. Qed.
Lemma bar_block : box_block bar [3; 1]%Z [3; 1].
Proof. repeat split; repeat constructor; right; repeat split. Qed.
Lemma round_block : ball_block round 100 2.
Proof. repeat split. now left. Qed.
Lemma from_disk_block : file_block desk from_disk square_mesh.
Proof. split; [reflexivity|]. exists "square.mesh"%string. split; [reflexivity|]. right. repeat split. discriminate. Qed.
(** a box with elements but no size along z *)
Definition forgot : block := {| kind := Some "box"%string; ser := None; par := None; path := None; ex := Some 3%Z; ey := Some 1%Z; ez := Some 2%Z; sx := Some 3; sy := Some 1; sz := None; approx := None |}.
Lemma forgot_size : forgotten_size forgot.
Proof. repeat split; discriminate. Qed.
(** no elements at all *)
Definition none_x : block := {| kind := Some "box"%string; ser := None; par := None; path := None; ex := Some 0%Z; ey := Some 1%Z; ez := None; sx := None; sy := None; sz := None; approx := None |}.
Lemma none_undefined w : main_mesh w none_x = Undefined.
Proof. reflexivity. Qed.
(** a size along z of a rectangle, and negative levels, change nothing *)
Lemma unused_size w b z : kind b = Some "box"%string -> ez b = None -> sx b <> None -> sy b <> None ->
  main_mesh w {| kind := kind b; ser := ser b; par := par b; path := path b; ex := ex b; ey := ey b; ez := ez b; sx := sx b; sy := sy b; sz := z; approx := approx b |} = main_mesh w b.
Proof.
  intros K E A B. unfold main_mesh, verified, read. cbn [kind ser par path ex ey ez sx sy sz approx]. rewrite K, E. change (String.eqb "box" "box") with true. destruct (sx b) as [a|]; [|contradiction]. destruct (sy b) as [c|]; [|contradiction].
  destruct (existsb _ _); [|reflexivity]. destruct (ex b); [|reflexivity]. destruct (ey b); [|reflexivity]. cbn [need bindB given orb]. destruct z, (sz b); reflexivity.
Qed.
Lemma negative_levels w b k : (k < 0)%Z ->
  main_mesh w {| kind := kind b; ser := Some k; par := par b; path := path b; ex := ex b; ey := ey b; ez := ez b; sx := sx b; sy := sy b; sz := sz b; approx := approx b |} =
  main_mesh w {| kind := kind b; ser := None; par := par b; path := path b; ex := ex b; ey := ey b; ez := ez b; sx := sx b; sy := sy b; sz := sz b; approx := approx b |}.
Proof.
  intros H. assert (R0 : forall m p, refine_and_distribute w m k p = refine_and_distribute w m 0 p). { intros m p. unfold refine_and_distribute, levels. replace (Z.to_nat k) with (Z.to_nat 0) by lia. reflexivity. }
  unfold main_mesh, verified, read. cbn [kind ser par path ex ey ez sx sy sz approx level]. destruct (kind b) as [t|]; [|reflexivity]. destruct (existsb _ _); [|reflexivity].
  destruct (String.eqb t "box").
  - destruct (ex b), (ey b); cbn [need bindB]; try reflexivity. destruct (given (sx b) || given (sy b) || given (sz b)).
    + destruct (sx b), (sy b); cbn [need bindB]; try reflexivity. destruct (serial w _); cbn [bindB]; try reflexivity. now rewrite R0.
    + cbn [bindB]. destruct (serial w _); cbn [bindB]; try reflexivity. now rewrite R0.
  - destruct (String.eqb t "disk" || String.eqb t "ball").
    + destruct (approx b); cbn [need bindB]; try reflexivity. destruct (serial w _); cbn [bindB]; try reflexivity. now rewrite R0.
    + destruct (String.eqb t "file"); [|reflexivity]. destruct (path b); cbn [need bindB]; try reflexivity. destruct (serial w _); cbn [bindB]; try reflexivity. now rewrite R0.
Qed.
(** refining a disk does not make it rounder *)
Definition polygon : block := {| kind := Some "disk"%string; ser := Some 1%Z; par := None; path := None; ex := None; ey := None; ez := None; sx := None; sy := None; sz := None; approx := Some 8%Z |}.
Lemma squish_e1 : squish [1; 0] = [1; 0] /\ squish [0; 1] = [0; 1].
Proof.
  assert (A : n2 [1; 0] = 1) by (unfold n2; cbn [fold_right]; replace (1 * 1 + (0 * 0 + 0)) with 1 by ring; apply sqrt_1).
  assert (B : n2 [0; 1] = 1) by (unfold n2; cbn [fold_right]; replace (0 * 0 + (1 * 1 + 0)) with 1 by ring; apply sqrt_1).
  assert (L : / 10 ^ 6 <= 1) by lra.
  split.
  - destruct (squish_norm [1; 0]) as [_ ->]; [now rewrite A|]. rewrite A. unfold n1, scale. cbn [fold_right map]. rewrite Rabs_R0, Rabs_R1. f_equal; [lra|f_equal; lra].
  - destruct (squish_norm [0; 1]) as [_ ->]; [now rewrite B|]. rewrite B. unfold n1, scale. cbn [fold_right map]. rewrite Rabs_R0, Rabs_R1. f_equal; [lra|f_equal; lra].
Qed.
Lemma polygon_corner w : shares w -> exists ms c p, main_mesh w polygon = Built ms /\ In c (all_bdr ms) /\ In p (points c) /\ n2 p < 1.
Proof.
  intros Hw. destruct squish_e1 as [E1 E2].
  set (m := both (map squished) {| elems := simplices disk_vertices disk_triangles; bdr := simplices disk_vertices disk_segments |}).
  assert (N : nball (diagonal w) 8 2 = Built m) by reflexivity.
  exists (refine_and_distribute w m 1 0), (Simplex [squish [1; 0]; mid (squish [1; 0]) (squish [0; 1])]), (mid (squish [1; 0]) (squish [0; 1])).
  split; [unfold main_mesh; change (verified polygon) with true; change (read polygon) with (Built (NBall 8 2, 1%Z, 0%Z)); cbn [bindB serial]; rewrite N; reflexivity|].
  split; [|split; [right; now left|]].
  - destruct (distributed w m 1 0 Hw) as [_ D]. apply (Permutation_in _ (Permutation_sym D)). left. reflexivity.
  - rewrite E1, E2. unfold n2. cbn [mid fold_right]. apply Rlt_le_trans with (sqrt 1); [apply sqrt_lt_1; lra|rewrite sqrt_1; lra].
Qed.

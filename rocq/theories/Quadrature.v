(** * Quadrature rules (C32): quadrature.hpp, polynomials.hpp:42-367, geometry.hpp:25-43 *)
From Coq Require Import ZArith Reals Lra Lia List Bool Factorial Permutation.
From Coquelicot Require Import Coquelicot.
From Verif Require Import Sums QuadTables Simplex.
Import ListNotations.
Local Open Scope R_scope.

(** quadrature.hpp:28-39 QuadratureRule: weights and points *)
Notation rule := (list (R * list R)) (only parsing).
Definition quad (t : rule) (f : list R -> R) : R := suml t (fun wp => fst wp * f (snd wp)).
Notation table := (list (Z * list Z)) (only parsing).
Definition scale : Z := 10 ^ 22.
Definition to_rule (t : table) : rule := map (fun wp => (IZR (fst wp) / IZR scale, map (fun z => IZR z / IZR scale) (snd wp))) t.
Definition pair_up (w : option (list Z)) (x : option (list (list Z))) : option table :=
  match w, x with Some w, Some x => if Nat.eqb (length w) (length x) then Some (combine w x) else None | _, _ => None end.
Definition seg_table (n : nat) : option table := pair_up (seg_weights n) (seg_nodes n).
Definition tri_table (n : nat) : option table := pair_up (tri_weights n) (tri_nodes n).
Definition tet_table (n : nat) : option table := pair_up (tet_weights n) (tet_nodes n).
(** quadrature.hpp:46-81 GaussQuadratureRule: points {x[i], x[j]} with i fastest *)
Definition square_rule (t : rule) : rule :=
  flat_map (fun q => map (fun p => (fst p * fst q, snd p ++ snd q)) t) t.
Definition cube_rule (t : rule) : rule :=
  flat_map (fun s => flat_map (fun q => map (fun p => (fst p * fst q * fst s, snd p ++ snd q ++ snd s)) t) t) t.
(** geometry.hpp:25-43 *)
Definition seg_count (q : nat) := q.
Definition tri_count (q : nat) := (q * (q + 1) / 2)%nat.
Definition tet_count (q : nat) := (q * (q + 1) * (q + 2) / 6)%nat.

(** ** polynomials: sums of coefficient times monomial *)
Fixpoint mono (e : list nat) (p : list R) : R :=
  match e, p with k :: e', x :: p' => x ^ k * mono e' p' | _, _ => 1 end.
Notation poly := (list (R * list nat)) (only parsing).
Definition evalp (P : poly) (p : list R) : R := suml P (fun t => fst t * mono (snd t) p).
Definition coef_sum (P : poly) : R := suml P (fun t => Rabs (fst t)).
Definition total (e : list nat) : nat := fold_right Nat.add 0%nat e.
(** d variables, total degree at most k / degree at most k in each variable *)
Definition total_degree (d k : nat) (P : poly) : Prop := forall t, In t P -> length (snd t) = d /\ (total (snd t) <= k)%nat.
Definition each_degree (d k : nat) (P : poly) : Prop := forall t, In t P -> length (snd t) = d /\ (forall j, In j (snd t) -> (j <= k)%nat).
Definition facts (e : list nat) : R := fold_right (fun k a => INR (fact k) * a) 1 e.
(** integral of the monomial over the simplex *)
Definition simplex (d : nat) (e : list nat) : R := facts e / INR (fact (total e + d)).
Definition tol : R := / 10 ^ 14.

(** ** the tables in fixed point: 60 bits after the point, rounded down after every product *)
Definition one : Z := 2 ^ 60.
Fixpoint times (j : nat) (x v : Z) : Z := match j with O => v | S j' => times j' x (Z.shiftr (x * v) 60) end.
Fixpoint monoZ (e : list nat) (v : Z) (p : list Z) : Z :=
  match e, p with j :: e', x :: p' => monoZ e' (times j x v) p' | _, _ => v end.
Definition momentZ (t : table) (e : list nat) : Z := fold_right (fun wp a => (monoZ e (fst wp) (snd wp) + a)%Z) 0%Z t.
Definition fixed (z : Z) : Z := (z * one / scale)%Z.
Definition rounded (t : table) : table := map (fun wp => (fixed (fst wp), map fixed (snd wp))) t.
Fixpoint zfact (n : nat) : Z := match n with O => 1%Z | S k => (Z.of_nat n * zfact k)%Z end.
Definition zfacts (e : list nat) : Z := fold_right (fun k a => (zfact k * a)%Z) 1%Z e.
(** the fixed-point moment of n points is off by at most 2 total(e) + 1 units per point *)
Definition moment_ok (d n : nat) (e : list nat) (m : Z) : bool :=
  let F := zfact (total e + d) in
  (10 ^ 14 * (Z.abs (m * F - zfacts e * one) + Z.of_nat (n * (2 * total e + 1)) * F) <=? F * one)%Z.
(** moments are built one multiplication at a time, over non-increasing exponents only; the rules are symmetric in the coordinates *)
Definition bump (t : table) : table := map (fun wp => (match snd wp with x :: _ => Z.shiftr (x * fst wp) 60 | [] => fst wp end, snd wp)) t.
Definition descend (t : table) : table := map (fun wp => (fst wp, tl (snd wp))) t.
Fixpoint levels (d k cap : nat) (F : list nat -> Z -> bool) (t : table) (acc : list nat) : bool :=
  match d with
  | O => F acc (momentZ t [])
  | S d' =>
    (fix loop (m j : nat) (t : table) : bool :=
       (levels d' (k - j) j F (descend t) (acc ++ [j]) && match m with O => true | S m' => loop m' (S j) (bump t) end)%bool)
    (Nat.min k cap) O t
  end.
Definition swap01 {A} (p : list A) : list A := match p with x :: y :: r => y :: x :: r | _ => p end.
Definition swap12 {A} (p : list A) : list A := match p with x :: r => x :: swap01 r | _ => p end.
Fixpoint same_coords (p q : list Z) : bool := match p, q with [], [] => true | x :: p', y :: q' => ((x =? y)%Z && same_coords p' q')%bool | _, _ => false end.
Fixpoint take_out (a : Z * list Z) (t : table) : option table :=
  match t with
  | [] => None
  | b :: t' => if ((fst a =? fst b)%Z && same_coords (snd a) (snd b))%bool then Some t' else option_map (cons b) (take_out a t')
  end.
Fixpoint same_entries (s t : table) : bool := match s with [] => match t with [] => true | _ => false end | a :: s' => match take_out a t with Some t' => same_entries s' t' | None => false end end.
Definition entry_ok (d : nat) (wp : Z * list Z) : bool :=
  ((0 <? fst wp)%Z && (fst wp <=? scale)%Z && Nat.eqb (length (snd wp)) d && forallb (fun z => (0 <? z)%Z) (snd wp) && (fold_right Z.add 0 (snd wp) <? scale)%Z)%bool.
Definition table_ok (t : table) (d k n : nat) : bool :=
  (Nat.eqb (length t) n && forallb (entry_ok d) t &&
   same_entries (map (fun wp => (fst wp, swap01 (snd wp))) t) t && same_entries (map (fun wp => (fst wp, swap12 (snd wp))) t) t &&
   Nat.leb d 3 && levels d k k (moment_ok d n) (rounded t) [])%bool.
Definition rule_ok (o : option table) (d k n : nat) : bool := match o with Some t => table_ok t d k n | None => false end.

Lemma same_coords_eq : forall p q, same_coords p q = true -> p = q.
Proof. induction p as [|x p IH]; intros [|y q] H; cbn [same_coords] in H; try discriminate; auto. apply andb_true_iff in H. destruct H as [A B]. apply Z.eqb_eq in A. subst. f_equal. auto. Qed.
Lemma take_out_perm a : forall t t', take_out a t = Some t' -> Permutation (a :: t') t.
Proof.
  induction t as [|b t IH]; intros t' H; cbn [take_out] in H; [discriminate|]. destruct (Z.eqb (fst a) (fst b) && same_coords (snd a) (snd b))%bool eqn:E.
  - apply andb_true_iff in E. destruct E as [A B]. apply Z.eqb_eq in A. apply same_coords_eq in B. injection H as <-. destruct a, b. cbn in A, B. subst. apply Permutation_refl.
  - destruct (take_out a t) as [r|] eqn:R; [|discriminate]. injection H as <-. eapply Permutation_trans; [apply perm_swap|]. apply perm_skip. auto.
Qed.
Lemma same_entries_perm : forall s t, same_entries s t = true -> Permutation s t.
Proof.
  induction s as [|a s IH]; intros t H; cbn [same_entries] in H.
  - destruct t; [constructor|discriminate].
  - destruct (take_out a t) as [r|] eqn:R; [|discriminate]. apply take_out_perm in R. eapply Permutation_trans; [apply perm_skip; apply IH; exact H|exact R].
Qed.
Lemma momentZ_map f e e' t : (forall wp, In wp t -> monoZ e (fst (f wp)) (snd (f wp)) = monoZ e' (fst wp) (snd wp)) -> momentZ (map f t) e = momentZ t e'.
Proof.
  induction t as [|a t IH]; intros H; [reflexivity|]. cbn [map momentZ fold_right]. fold (momentZ (map f t) e) (momentZ t e').
  rewrite IH by (intros; apply H; now right). rewrite (H a) by now left. reflexivity.
Qed.
Lemma momentZ_bump t k e : (forall wp, In wp t -> snd wp <> []) -> momentZ (bump t) (k :: e) = momentZ t (S k :: e).
Proof. intros H. apply momentZ_map. intros [w [|x p]] Hi; cbn [fst snd]; [now specialize (H _ Hi)|reflexivity]. Qed.
Lemma momentZ_descend t e : (forall wp, In wp t -> snd wp <> []) -> momentZ (descend t) e = momentZ t (0%nat :: e).
Proof. intros H. apply momentZ_map. intros [w [|x p]] Hi; cbn [fst snd tl]; [now specialize (H _ Hi)|reflexivity]. Qed.
Fixpoint falling (cap : nat) (e : list nat) : Prop := match e with [] => True | j :: e' => (j <= cap)%nat /\ falling j e' end.
Lemma levels_sound d : forall k cap F t acc e, (forall wp, In wp t -> length (snd wp) = d) -> levels d k cap F t acc = true ->
  length e = d -> falling cap e -> (total e <= k)%nat -> F (acc ++ e) (momentZ t e) = true.
Proof.
  induction d as [|d IH]; intros k cap F t acc e Lp H L M T.
  - destruct e; [|discriminate]. rewrite app_nil_r. exact H.
  - destruct e as [|j e]; [discriminate|]. cbn [levels] in H.
    set (loop := fix loop (m j : nat) (t : table) : bool := (levels d (k - j) j F (descend t) (acc ++ [j]) && match m with O => true | S m' => loop m' (S j) (bump t) end)%bool) in H.
    cbn [falling] in M. destruct M as [Mj Me]. cbn [total fold_right] in T. fold (total e) in T.
    assert (X : forall m i t, (forall wp, In wp t -> length (snd wp) = S d) -> loop m i t = true -> (i <= j <= i + m)%nat -> F (acc ++ j :: e) (momentZ t ((j - i)%nat :: e)) = true).
    { induction m as [|m IHm]; intros i s Ls Hl Hj; cbn in Hl; apply andb_true_iff in Hl; destruct Hl as [A B].
      - assert (i = j) by lia. subst i. rewrite Nat.sub_diag. rewrite <- momentZ_descend by (intros wp Hi E; specialize (Ls wp Hi); rewrite E in Ls; discriminate).
        change (acc ++ j :: e) with (acc ++ [j] ++ e). rewrite app_assoc. refine (IH _ _ _ _ _ _ _ A _ _ _); auto; [|try (cbn in L; lia)..].
        intros wp Hi. unfold descend in Hi. apply in_map_iff in Hi. destruct Hi as [q [<- Hq]]. cbn [snd]. specialize (Ls q Hq). destruct (snd q); [discriminate|]. cbn in *. lia.
      - destruct (Nat.eq_dec i j) as [->|Ne].
        + rewrite Nat.sub_diag. rewrite <- momentZ_descend by (intros wp Hi E; specialize (Ls wp Hi); rewrite E in Ls; discriminate).
          change (acc ++ j :: e) with (acc ++ [j] ++ e). rewrite app_assoc. refine (IH _ _ _ _ _ _ _ A _ _ _); auto; [|try (cbn in L; lia)..].
          intros wp Hi. unfold descend in Hi. apply in_map_iff in Hi. destruct Hi as [q [<- Hq]]. cbn [snd]. specialize (Ls q Hq). destruct (snd q); [discriminate|]. cbn in *. lia.
        + replace (j - i)%nat with (S (j - S i)) by lia. rewrite <- momentZ_bump by (intros wp Hi E; specialize (Ls wp Hi); rewrite E in Ls; discriminate).
          apply IHm with (2 := B); [|lia]. intros wp Hi. unfold bump in Hi. apply in_map_iff in Hi. destruct Hi as [q [<- Hq]]. cbn [snd]. auto. }
    specialize (X _ _ _ Lp H). rewrite Nat.sub_0_r in X. apply X. lia.
Qed.
Lemma scale_pos : 0 < IZR scale. Proof. apply IZR_lt. reflexivity. Qed.
Lemma one_pos : 0 < IZR one. Proof. apply IZR_lt. reflexivity. Qed.
Lemma zfact_INR n : IZR (zfact n) = INR (fact n).
Proof. induction n; [reflexivity|]. rewrite INR_fact_S, <- IHn. cbn [zfact]. rewrite mult_IZR, <- INR_IZR_INZ. reflexivity. Qed.
Lemma zfacts_R e : IZR (zfacts e) = facts e.
Proof. induction e; [reflexivity|]. cbn [zfacts facts fold_right]. rewrite mult_IZR, zfact_INR. fold (zfacts e) (facts e). now rewrite IHe. Qed.
(** ** fixed-point error *)
Lemma floor_div a b : (0 < b)%Z -> IZR a / IZR b - 1 <= IZR (a / b) <= IZR a / IZR b.
Proof.
  intros Hb. pose proof (Z.div_mod a b ltac:(lia)) as E. pose proof (Z.mod_pos_bound a b Hb) as B.
  set (q := (a / b)%Z) in *. set (r := (a mod b)%Z) in *. assert (Hb' := IZR_lt _ _ Hb). destruct B as [B1 B2]. apply IZR_le in B1. apply IZR_lt in B2.
  rewrite E, plus_IZR, mult_IZR. replace ((IZR b * IZR q + IZR r) / IZR b) with (IZR q + IZR r / IZR b) by (field; lra).
  assert (0 <= IZR r / IZR b <= 1).
  { split; [apply Rmult_le_pos; [lra|left; apply Rinv_0_lt_compat; lra]|]. apply (Rmult_le_reg_r (IZR b)); [lra|]. unfold Rdiv. rewrite Rmult_assoc, Rinv_l by lra. lra. }
  lra.
Qed.
Definition u : R := / IZR one.
Lemma u_pos : 0 < u. Proof. apply Rinv_0_lt_compat. apply one_pos. Qed.
Lemma fixed_close z : IZR z / IZR scale - u <= IZR (fixed z) * u <= IZR z / IZR scale.
Proof.
  unfold fixed. pose proof (floor_div (z * one) scale ltac:(reflexivity)) as [A B]. pose proof u_pos. pose proof one_pos. pose proof scale_pos. rewrite mult_IZR in A, B.
  assert (E : IZR z * IZR one / IZR scale * u = IZR z / IZR scale) by (unfold u; field; lra). split; [|rewrite <- E; nra].
  replace (IZR z / IZR scale - u) with ((IZR z * IZR one / IZR scale - 1) * u) by (rewrite Rmult_minus_distr_r, E; ring). nra.
Qed.
Lemma step_close x v (X V eps : R) : 0 <= IZR x * u <= 1 -> 0 <= IZR v * u <= 1 -> 0 <= X <= 1 -> X - u <= IZR x * u <= X -> Rabs (IZR v * u - V) <= eps ->
  (0 <= IZR (Z.shiftr (x * v) 60) * u <= 1) /\ Rabs (IZR (Z.shiftr (x * v) 60) * u - X * V) <= eps + 2 * u.
Proof.
  intros Hx Hv HX HxX He. rewrite Z.shiftr_div_pow2 by lia. fold one. pose proof (floor_div (x * v) one ltac:(reflexivity)) as [A B]. pose proof u_pos as U.
  rewrite mult_IZR in A, B. assert (E : IZR x * IZR v / IZR one * u = (IZR x * u) * (IZR v * u)) by (unfold u; pose proof one_pos; field; lra).
  assert (Ui : IZR one * u = 1) by (unfold u; pose proof one_pos; field; lra).
  set (q := (x * v / one)%Z) in *. set (a := IZR x * u) in *. set (b := IZR v * u) in *.
  assert (Q1 : a * b - u <= IZR q * u) by (replace (a * b - u) with ((IZR x * IZR v / IZR one - 1) * u) by (rewrite Rmult_minus_distr_r, E; ring); nra).
  assert (Q2 : IZR q * u <= a * b) by (rewrite <- E; nra).
  assert (Q0 : 0 <= IZR q * u).
  { apply Rmult_le_pos; [|lra]. apply IZR_le. unfold q. apply Z.div_pos; [|reflexivity].
    assert (P : 0 <= IZR x * IZR v) by (assert (0 <= IZR x) by (unfold a in Hx; nra); assert (0 <= IZR v) by (unfold b in Hv; nra); nra).
    rewrite <- mult_IZR in P. apply le_IZR. exact P. }
  split; [split; [exact Q0|nra]|].
  apply Rabs_le. apply Rabs_le_between in He. assert (a * b - X * b <= 0 /\ - u <= a * b - X * b) by nra.
  assert (X * b - X * V <= Rmax eps eps /\ - eps <= X * b - X * V) by (rewrite Rmax_left by lra; nra). rewrite Rmax_left in * by lra. lra.
Qed.
Lemma times_close x X : 0 <= IZR x * u <= 1 -> 0 <= X <= 1 -> X - u <= IZR x * u <= X -> forall j v V eps, 0 <= IZR v * u <= 1 -> Rabs (IZR v * u - V) <= eps ->
  (0 <= IZR (times j x v) * u <= 1) /\ Rabs (IZR (times j x v) * u - X ^ j * V) <= eps + 2 * INR j * u.
Proof.
  intros Hx HX HxX. induction j as [|j IH]; intros v V eps Hv He.
  - cbn [times pow INR]. split; [exact Hv|]. rewrite Rmult_1_l. lra.
  - cbn [times]. destruct (step_close x v X V eps Hx Hv HX HxX He) as [A B]. destruct (IH _ _ _ A B) as [C D]. split; [exact C|].
    cbn [pow]. replace (X * X ^ j * V) with (X ^ j * (X * V)) by ring. rewrite S_INR. lra.
Qed.
Definition unit_point (p : list Z) : Prop := forall z, In z p -> (0 <= z <= scale)%Z.
Lemma ratio_range z : (0 <= z <= scale)%Z -> 0 <= IZR z / IZR scale <= 1.
Proof.
  intros [A B]. apply IZR_le in A, B. pose proof scale_pos. split; [apply Rmult_le_pos; [lra|left; apply Rinv_0_lt_compat; lra]|].
  apply (Rmult_le_reg_r (IZR scale)); [lra|]. unfold Rdiv. rewrite Rmult_assoc, Rinv_l by lra. lra.
Qed.
Lemma fixed_range z : (0 <= z <= scale)%Z -> 0 <= IZR (fixed z) * u <= 1.
Proof.
  intros H. pose proof (ratio_range z H). pose proof (fixed_close z). pose proof u_pos. split; [|lra]. apply Rmult_le_pos; [|lra]. apply IZR_le. unfold fixed.
  apply Z.div_pos; [|reflexivity]. apply Z.mul_nonneg_nonneg; [lia|]. unfold one. apply Z.pow_nonneg. lia.
Qed.
Lemma mono_close : forall e p v V eps, length e = length p -> unit_point p -> 0 <= IZR v * u <= 1 -> Rabs (IZR v * u - V) <= eps ->
  Rabs (IZR (monoZ e v (map fixed p)) * u - V * mono e (map (fun z => IZR z / IZR scale) p)) <= eps + 2 * INR (total e) * u.
Proof.
  induction e as [|j e IH]; intros [|x p] v V eps L Hp Hv He; cbn [length] in L; try discriminate.
  - cbn [monoZ mono total fold_right INR]. rewrite Rmult_1_r. lra.
  - cbn [map monoZ mono total fold_right]. fold (total e). assert (Hx := Hp x (or_introl eq_refl)).
    destruct (times_close (fixed x) (IZR x / IZR scale) (fixed_range x Hx) (ratio_range x Hx) (fixed_close x) j v V eps Hv He) as [A B].
    assert (Q := IH p _ _ _ ltac:(lia) (fun z H => Hp z (or_intror H)) A B). rewrite plus_INR.
    replace (V * ((IZR x / IZR scale) ^ j * mono e (map (fun z => IZR z / IZR scale) p))) with ((IZR x / IZR scale) ^ j * V * mono e (map (fun z => IZR z / IZR scale) p)) by ring. lra.
Qed.
Definition unit_table (d : nat) (t : table) : Prop := forall wp, In wp t -> length (snd wp) = d /\ (0 <= fst wp <= scale)%Z /\ unit_point (snd wp).
Lemma quad_close d e : length e = d -> forall t, unit_table d t ->
  Rabs (IZR (momentZ (rounded t) e) * u - quad (to_rule t) (mono e)) <= INR (length t) * (2 * INR (total e) + 1) * u.
Proof.
  intros Le. unfold quad, to_rule. induction t as [|[w p] t IH]; intros H.
  - cbn [rounded map momentZ fold_right suml length INR]. rewrite Rmult_0_l, Rminus_0_r, Rabs_R0. lra.
  - specialize (IH (fun wp Hi => H wp (or_intror Hi))). destruct (H (w, p) (or_introl eq_refl)) as [A [B C]]. cbn [fst snd] in A, B, C.
    cbn [rounded map momentZ fold_right suml fst snd]. fold (rounded t). fold (momentZ (rounded t) e).
    assert (W : Rabs (IZR (fixed w) * u - IZR w / IZR scale) <= u) by (pose proof (fixed_close w); apply Rabs_le; pose proof u_pos; lra).
    assert (Q := mono_close e p (fixed w) (IZR w / IZR scale) u ltac:(lia) C (fixed_range w B) W).
    rewrite plus_IZR, Rmult_plus_distr_r. change (length ((w, p) :: t)) with (S (length t)). rewrite S_INR.
    set (m := IZR (monoZ e (fixed w) (map fixed p)) * u) in *. set (M := IZR w / IZR scale * mono e (map (fun z => IZR z / IZR scale) p)) in *.
    set (r := suml _ _) in *. set (k := IZR (momentZ (rounded t) e) * u) in *.
    replace (m + k - (M + r)) with ((m - M) + (k - r)) by ring. eapply Rle_trans; [apply Rabs_triang|]. lra.
Qed.
Lemma moment_bound t d n e : length e = d -> length t = n -> unit_table d t -> moment_ok d n e (momentZ (rounded t) e) = true ->
  Rabs (quad (to_rule t) (mono e) - simplex d e) <= tol.
Proof.
  intros Le Ln Ht H. unfold moment_ok in H. apply Z.leb_le in H. apply IZR_le in H.
  assert (Q := quad_close d e Le t Ht). rewrite Ln in Q. unfold simplex, tol. rewrite <- zfacts_R, <- zfact_INR.
  rewrite !mult_IZR, plus_IZR, abs_IZR, minus_IZR, !mult_IZR, <- INR_IZR_INZ, mult_INR, plus_INR, mult_INR in H. change (INR 2) with 2 in H. change (INR 1) with 1 in H.
  assert (Fp : 0 < IZR (zfact (total e + d))) by (rewrite zfact_INR; apply INR_fact_pos). set (F := IZR (zfact (total e + d))) in *.
  set (m := IZR (momentZ (rounded t) e)) in *. set (a := IZR (zfacts e)) in *. set (c := INR n * (2 * INR (total e) + 1)) in *.
  assert (Ui : IZR one * u = 1) by (unfold u; pose proof one_pos; field; lra). pose proof u_pos as U.
  assert (T : 0 < 10 ^ 14) by (apply pow_lt; lra).
  assert (E14 : IZR (10 ^ 14) = 10 ^ 14) by (symmetry; exact (pow_IZR 10 14)). rewrite E14 in H.
  assert (D : Rabs (m * u - a / F) = Rabs (m * F - a * IZR one) * (u / F)).
  { replace (m * u - a / F) with ((m * F - a * IZR one) * (u / F)).
    - rewrite Rabs_mult, (Rabs_right (u / F)); [reflexivity|]. apply Rle_ge. apply Rmult_le_pos; [lra|left; apply Rinv_0_lt_compat; lra].
    - replace a with (a * (IZR one * u)) at 2 by (rewrite Ui; ring). field. lra. }
  assert (S : 10 ^ 14 * (Rabs (m * u - a / F) + c * u) <= 1).
  { rewrite D. replace 1 with (F * IZR one * (u / F)) by (rewrite <- Ui; field; lra).
    replace (10 ^ 14 * (Rabs (m * F - a * IZR one) * (u / F) + c * u)) with (10 ^ 14 * (Rabs (m * F - a * IZR one) + c * F) * (u / F)) by (field; lra).
    apply Rmult_le_compat_r; [|exact H]. apply Rmult_le_pos; [lra|left; apply Rinv_0_lt_compat; lra]. }
  apply (Rmult_le_reg_l (10 ^ 14)); [exact T|]. rewrite Rinv_r by lra. eapply Rle_trans; [|exact S]. apply Rmult_le_compat_l; [lra|].
  set (qd := quad (to_rule t) (mono e)) in *. replace (qd - a / F) with (- (m * u - qd) + (m * u - a / F)) by ring.
  eapply Rle_trans; [apply Rabs_triang|]. rewrite Rabs_Ropp. lra.
Qed.

(** ** what a table check gives *)
Definition inside (p : list R) : Prop := (forall x, In x p -> 0 < x < 1) /\ suml p (fun x => x) < 1.
Lemma inside_scaled p : (forall z, In z p -> (0 < z)%Z) -> (fold_right Z.add 0 p < scale)%Z -> inside (map (fun z => IZR z / IZR scale) p).
Proof.
  intros Pos Lt. pose proof scale_pos as Sp. assert (Ip : 0 < / IZR scale) by (apply Rinv_0_lt_compat; exact Sp).
  assert (S : suml (map (fun z => IZR z / IZR scale) p) (fun x => x) = IZR (fold_right Z.add 0%Z p) / IZR scale).
  { clear. induction p; cbn [map suml fold_right]; [unfold Rdiv; ring|]. rewrite IHp, plus_IZR. unfold Rdiv. ring. }
  assert (Lr : IZR (fold_right Z.add 0%Z p) / IZR scale < 1).
  { apply IZR_lt in Lt. apply (Rmult_lt_reg_r (IZR scale)); [exact Sp|]. unfold Rdiv. rewrite Rmult_assoc, Rinv_l by lra. lra. }
  split; [|rewrite S; exact Lr]. intros x Hx. apply in_map_iff in Hx. destruct Hx as [z [<- Hz]]. split.
  - apply Rmult_lt_0_compat; [apply IZR_lt; auto|exact Ip].
  - eapply Rle_lt_trans; [|exact Lr]. apply Rmult_le_compat_r; [lra|]. apply IZR_le.
    clear - Pos Hz. induction p as [|w p IH]; [contradiction|]. cbn [fold_right].
    assert (Nn : forall q, (forall z, In z q -> (0 < z)%Z) -> (0 <= fold_right Z.add 0 q)%Z).
    { induction q as [|y q IQ]; intros Q; cbn [fold_right]; [lia|]. specialize (IQ (fun z H => Q z (or_intror H))). specialize (Q y (or_introl eq_refl)). lia. }
    destruct Hz as [->|Hz].
    + specialize (Nn p (fun z H => Pos z (or_intror H))). lia.
    + specialize (IH (fun z H => Pos z (or_intror H)) Hz). specialize (Pos w (or_introl eq_refl)). lia.
Qed.
Lemma quad_evalp t P : quad t (evalp P) = suml P (fun m => fst m * quad t (mono (snd m))).
Proof.
  unfold quad, evalp. transitivity (suml t (fun wp => suml P (fun m => fst wp * (fst m * mono (snd m) (snd wp))))).
  - apply suml_ext. intros. now rewrite suml_scal_l.
  - rewrite suml_swap. apply suml_ext. intros m _. rewrite <- suml_scal_l. apply suml_ext. intros. ring.
Qed.
Lemma combine_bounds (P : poly) (q i : list nat -> R) (b : R) : (forall m, In m P -> Rabs (q (snd m) - i (snd m)) <= b) ->
  Rabs (suml P (fun m => fst m * q (snd m)) - suml P (fun m => fst m * i (snd m))) <= b * coef_sum P.
Proof.
  unfold coef_sum. induction P as [|m P IH]; intros H; cbn [suml].
  - rewrite Rminus_0_r, Rabs_R0. lra.
  - specialize (IH (fun m H' => H m (or_intror H'))). specialize (H m (or_introl eq_refl)).
    replace (fst m * q (snd m) + suml P (fun m => fst m * q (snd m)) - (fst m * i (snd m) + suml P (fun m => fst m * i (snd m))))
      with (fst m * (q (snd m) - i (snd m)) + (suml P (fun m => fst m * q (snd m)) - suml P (fun m => fst m * i (snd m)))) by ring.
    eapply Rle_trans; [apply Rabs_triang|]. rewrite Rabs_mult. pose proof (Rabs_pos (fst m)). nra.
Qed.
Definition exact_sum (i : list nat -> R) (P : poly) : R := suml P (fun m => fst m * i (snd m)).
Definition near (t : table) (d : nat) (e : list nat) : Prop := Rabs (quad (to_rule t) (mono e) - simplex d e) <= tol.
Lemma near_swap t d f e e' : Permutation (map (fun wp => (fst wp, f (snd wp))) t) t -> facts e = facts e' -> total e = total e' ->
  (forall wp, In wp t -> mono e (map (fun z => IZR z / IZR scale) (f (snd wp))) = mono e' (map (fun z => IZR z / IZR scale) (snd wp))) -> near t d e' -> near t d e.
Proof.
  intros P A B H N. unfold near, simplex in *. rewrite A, B. replace (quad (to_rule t) (mono e)) with (quad (to_rule t) (mono e')); [exact N|].
  unfold quad, to_rule. rewrite !suml_map. symmetry. etransitivity; [symmetry; apply (suml_perm _ _ _ P)|]. rewrite suml_map. apply suml_ext. intros wp Hi. cbn [fst snd]. now rewrite H.
Qed.
Lemma all_moments t d k n : unit_table d t -> length t = n -> (d <= 3)%nat ->
  Permutation (map (fun wp => (fst wp, swap01 (snd wp))) t) t -> Permutation (map (fun wp => (fst wp, swap12 (snd wp))) t) t ->
  levels d k k (moment_ok d n) (rounded t) [] = true -> forall e, length e = d -> (total e <= k)%nat -> near t d e.
Proof.
  intros Ht Ln D P01 P12 H.
  assert (Base : forall e, length e = d -> falling k e -> (total e <= k)%nat -> near t d e).
  { intros e A B C. apply (moment_bound t d n e A Ln Ht). apply (levels_sound d k k (moment_ok d n) (rounded t) [] e); auto.
    intros wp Hi. unfold rounded in Hi. apply in_map_iff in Hi. destruct Hi as [q [<- Hq]]. cbn [snd]. rewrite map_length. apply (Ht q Hq). }
  assert (Sw01 : forall a b r, length (a :: b :: r) = d -> near t d (b :: a :: r) -> near t d (a :: b :: r)).
  { intros a b r L. apply (near_swap t d swap01); [exact P01|unfold facts; cbn [fold_right]; ring|unfold total; cbn [fold_right]; lia|].
    intros wp Hi. destruct (Ht wp Hi) as [Lp _]. destruct (snd wp) as [|x [|y p]]; cbn [length] in *; try lia. cbn [swap01 map mono]. ring. }
  assert (Sw12 : forall a b c r, length (a :: b :: c :: r) = d -> near t d (a :: c :: b :: r) -> near t d (a :: b :: c :: r)).
  { intros a b c r L. apply (near_swap t d swap12); [exact P12|unfold facts; cbn [fold_right]; ring|unfold total; cbn [fold_right]; lia|].
    intros wp Hi. destruct (Ht wp Hi) as [Lp _]. destruct (snd wp) as [|x [|y [|z p]]]; cbn [length] in *; try lia. cbn [swap12 swap01 map mono]. ring. }
  intros e L T. destruct e as [|a [|b [|c [|? ?]]]]; cbn [length] in L; try lia.
  - apply Base; auto. exact Logic.I.
  - apply Base; auto. cbn [falling total fold_right] in *. lia.
  - cbn [total fold_right] in T. destruct (Nat.le_gt_cases b a).
    + apply Base; auto; cbn [falling total fold_right]; lia.
    + apply Sw01; [exact L|]. apply Base; auto; cbn [falling total fold_right]; lia.
  - cbn [total fold_right] in T.
    assert (Srt : forall x y z, (y <= x)%nat -> (z <= y)%nat -> (x + (y + (z + 0)) <= k)%nat -> near t d [x; y; z]).
    { intros x y z A B C. apply Base; auto; cbn [falling total fold_right]; lia. }
    destruct (Nat.le_gt_cases b a), (Nat.le_gt_cases c b), (Nat.le_gt_cases c a); try lia.
    + apply Srt; lia.
    + apply Sw12; [exact L|]. apply Srt; lia.
    + apply Sw12; [exact L|]. apply Sw01; [exact L|]. apply Srt; lia.
    + apply Sw01; [exact L|]. apply Srt; lia.
    + apply Sw01; [exact L|]. apply Sw12; [exact L|]. apply Srt; lia.
    + apply Sw12; [exact L|]. apply Sw01; [exact L|]. apply Sw12; [exact L|]. apply Srt; lia.
Qed.
Lemma total_bounds (p : list Z) : (forall z, In z p -> (0 < z)%Z) -> (0 <= fold_right Z.add 0 p)%Z /\ forall z, In z p -> (z <= fold_right Z.add 0 p)%Z.
Proof.
  induction p as [|x p IH]; intros H; cbn [fold_right]; [split; [lia|contradiction]|]. destruct (IH (fun z Hz => H z (or_intror Hz))) as [A B].
  pose proof (H x (or_introl eq_refl)). split; [lia|]. intros z [<-|Hz]; [lia|]. specialize (B z Hz). lia.
Qed.
Theorem table_sound t d k n : table_ok t d k n = true ->
  length (to_rule t) = n /\ (forall wp, In wp (to_rule t) -> 0 < fst wp /\ length (snd wp) = d /\ inside (snd wp)) /\
  forall P, total_degree d k P -> Rabs (quad (to_rule t) (evalp P) - exact_sum (simplex d) P) <= tol * coef_sum P.
Proof.
  intros H. unfold table_ok in H. apply andb_true_iff in H. destruct H as [H H6]. apply andb_true_iff in H. destruct H as [H H5].
  apply andb_true_iff in H. destruct H as [H H4]. apply andb_true_iff in H. destruct H as [H H3]. apply andb_true_iff in H. destruct H as [H1 H2].
  apply PeanoNat.Nat.eqb_eq in H1. apply PeanoNat.Nat.leb_le in H5. apply same_entries_perm in H3, H4. rewrite forallb_forall in H2.
  assert (Zt : forall wp, In wp t -> (0 < fst wp <= scale)%Z /\ length (snd wp) = d /\ (forall z, In z (snd wp) -> (0 < z)%Z) /\ (fold_right Z.add 0 (snd wp) < scale)%Z).
  { intros wp Hi. specialize (H2 wp Hi). unfold entry_ok in H2. apply andb_true_iff in H2. destruct H2 as [H2 Hd]. apply andb_true_iff in H2. destruct H2 as [H2 Hc].
    apply andb_true_iff in H2. destruct H2 as [H2 Hb]. apply andb_true_iff in H2. destruct H2 as [Ha Ha']. apply Z.ltb_lt in Ha. apply Z.leb_le in Ha'. apply Z.ltb_lt in Hd.
    apply PeanoNat.Nat.eqb_eq in Hb. rewrite forallb_forall in Hc.
    split; [split; [exact Ha|exact Ha']|]. split; [exact Hb|]. split; [|exact Hd]. intros z Hz. apply Z.ltb_lt. auto. }
  split; [unfold to_rule; now rewrite map_length|]. split.
  - intros wp Hi. unfold to_rule in Hi. apply in_map_iff in Hi. destruct Hi as [q [<- Hq]]. destruct (Zt q Hq) as [[A _] [B [C D]]]. cbn [fst snd].
    split; [apply Rmult_lt_0_compat; [apply IZR_lt; exact A|apply Rinv_0_lt_compat; apply scale_pos]|].
    split; [now rewrite map_length|]. apply inside_scaled; assumption.
  - intros P HP. rewrite quad_evalp. apply (combine_bounds P (fun e => quad (to_rule t) (mono e)) (simplex d) tol). intros m Hm. destruct (HP m Hm) as [L T].
    assert (Ut : unit_table d t).
    { intros wp Hi. destruct (Zt wp Hi) as [A [B [C D]]]. split; [exact B|]. split; [split; [apply Z.lt_le_incl; apply A|apply A]|].
      intros z Hz. destruct (total_bounds _ C) as [E F]. specialize (F z Hz). specialize (C z Hz). split; [apply Z.lt_le_incl; exact C|].
      eapply Z.le_trans; [exact F|apply Z.lt_le_incl; exact D]. }
    apply (all_moments t d k n); auto.
Qed.

(** ** the tabulated rules *)
Definition seg_degree (n : nat) : nat := (2 * n - 1)%nat.
Definition tri_degree (n : nat) : nat := match n with 1 => 1 | 2 => 2 | 3 => 4 | 4 => 5 | 5 => 7 | _ => 0 end%nat.
Definition tet_degree (n : nat) : nat := match n with 1 => 1 | 2 => 2 | 3 => 3 | 4 => 5 | 5 => 6 | 6 => 8 | _ => 0 end%nat.
Lemma seg_checked : forallb (fun n => rule_ok (seg_table n) 1 (seg_degree n) (seg_count n)) (seq 1 8) = true.
Proof. vm_compute. reflexivity. Qed.
Lemma tri_checked : forallb (fun n => rule_ok (tri_table n) 2 (tri_degree n) (tri_count n)) (seq 1 5) = true.
Proof. vm_compute. reflexivity. Qed.
Lemma tet_checked : forallb (fun n => rule_ok (tet_table n) 3 (tet_degree n) (tet_count n)) (seq 1 6) = true.
Proof. vm_compute. reflexivity. Qed.
Lemma pick f lo hi n : forallb f (seq lo hi) = true -> (lo <= n < lo + hi)%nat -> f n = true.
Proof. intros H L. rewrite forallb_forall in H. apply H. apply in_seq. exact L. Qed.

Definition poly1 (P : poly) (x : R) := evalp P [x].
Definition poly2 (P : poly) (x y : R) := evalp P [x; y].
Definition poly3 (P : poly) (x y z : R) := evalp P [x; y; z].
Lemma seg_exact P k : total_degree 1 k P -> seg_int (poly1 P) (exact_sum (simplex 1) P).
Proof.
  unfold poly1, exact_sum. induction P as [|[c e] P IH]; intros H.
  - apply seg_zero.
  - destruct (H (c, e) (or_introl eq_refl)) as [L _]. cbn [snd] in L. destruct e as [|a [|? ?]]; try discriminate.
    specialize (IH (fun t Ht => H t (or_intror Ht))). assert (M := seg_comb _ _ c _ _ (seg_mono a) IH). revert M. apply rint_ext.
    + intros x. unfold evalp. cbn [suml fst snd mono]. ring.
    + cbn [suml fst snd]. f_equal. unfold simplex, facts, total. cbn [fold_right]. rewrite !PeanoNat.Nat.add_0_r. f_equal. unfold Rdiv. ring.
Qed.
Lemma tri_ext (f g : R -> R -> R) (u v : R) : (forall x y, f x y = g x y) -> u = v -> tri_int f u -> tri_int g v.
Proof.
  intros E <- [F [A B]]. exists F. split; [|exact B]. intros x Hx. apply (rint_ext (f x) (g x) _ _ (F x) (F x)); auto.
Qed.
Lemma tet_ext (f g : R -> R -> R -> R) (u v : R) : (forall x y z, f x y z = g x y z) -> u = v -> tet_int f u -> tet_int g v.
Proof.
  intros E <- [F [G [A B]]]. exists F, G. split; [|exact B]. intros x y Hx Hy. apply (rint_ext (f x y) (g x y) _ _ (F x y) (F x y)); auto.
Qed.
Lemma square_ext (f g : R -> R -> R) (u v : R) : (forall x y, f x y = g x y) -> u = v -> square_int f u -> square_int g v.
Proof.
  intros E <- [F [A B]]. exists F. split; [|exact B]. intros x Hx. apply (rint_ext (f x) (g x) _ _ (F x) (F x)); auto.
Qed.
Lemma cube_ext (f g : R -> R -> R -> R) (u v : R) : (forall x y z, f x y z = g x y z) -> u = v -> cube_int f u -> cube_int g v.
Proof.
  intros E <- [F [G [A B]]]. exists F, G. split; [|exact B]. intros x y Hx Hy. apply (rint_ext (f x y) (g x y) _ _ (F x y) (F x y)); auto.
Qed.
Lemma tri_exact P k : total_degree 2 k P -> tri_int (poly2 P) (exact_sum (simplex 2) P).
Proof.
  unfold poly2, exact_sum. induction P as [|[c e] P IH]; intros H.
  - apply tri_zero.
  - destruct (H (c, e) (or_introl eq_refl)) as [L _]. cbn [snd] in L. destruct e as [|a [|b [|? ?]]]; try discriminate.
    specialize (IH (fun t Ht => H t (or_intror Ht))). assert (M := tri_comb _ _ c _ _ (tri_mono a b) IH). revert M. apply tri_ext.
    + intros x y. unfold evalp. cbn [suml fst snd mono]. ring.
    + cbn [suml fst snd]. f_equal. unfold simplex, facts, total. cbn [fold_right]. rewrite !PeanoNat.Nat.add_0_r. f_equal. unfold Rdiv. ring.
Qed.
Lemma tet_exact P k : total_degree 3 k P -> tet_int (poly3 P) (exact_sum (simplex 3) P).
Proof.
  unfold poly3, exact_sum. induction P as [|[c e] P IH]; intros H.
  - apply tet_zero.
  - destruct (H (c, e) (or_introl eq_refl)) as [L _]. cbn [snd] in L. destruct e as [|a [|b [|d [|? ?]]]]; try discriminate.
    specialize (IH (fun t Ht => H t (or_intror Ht))). assert (M := tet_comb _ _ c _ _ (tet_mono a b d) IH). revert M. apply tet_ext.
    + intros x y z. unfold evalp. cbn [suml fst snd mono]. ring.
    + cbn [suml fst snd]. f_equal. unfold simplex, facts, total. cbn [fold_right]. rewrite !PeanoNat.Nat.add_0_r, !PeanoNat.Nat.add_assoc. f_equal. unfold Rdiv. ring.
Qed.
(** degree at most k in each variable *)
Definition boxed (e : list nat) : R := fold_right (fun k a => simplex 1 [k] * a) 1 e.
Lemma simplex1 a : simplex 1 [a] = INR (fact a) / INR (fact (a + 1)).
Proof. unfold simplex, facts, total. cbn [fold_right]. rewrite PeanoNat.Nat.add_0_r. unfold Rdiv. ring. Qed.
Lemma square_exact P k : each_degree 2 k P -> square_int (poly2 P) (exact_sum boxed P).
Proof.
  unfold poly2, exact_sum. induction P as [|[c e] P IH]; intros H.
  - apply square_zero.
  - destruct (H (c, e) (or_introl eq_refl)) as [L _]. cbn [snd] in L. destruct e as [|a [|b [|? ?]]]; try discriminate.
    specialize (IH (fun t Ht => H t (or_intror Ht))). assert (M := square_comb _ _ c _ _ (square_mono a b) IH). revert M. apply square_ext.
    + intros x y. unfold evalp. cbn [suml fst snd mono]. ring.
    + cbn [suml fst snd]. f_equal. unfold boxed. cbn [fold_right]. rewrite !simplex1. ring.
Qed.
Lemma cube_exact P k : each_degree 3 k P -> cube_int (poly3 P) (exact_sum boxed P).
Proof.
  unfold poly3, exact_sum. induction P as [|[c e] P IH]; intros H.
  - apply cube_zero.
  - destruct (H (c, e) (or_introl eq_refl)) as [L _]. cbn [snd] in L. destruct e as [|a [|b [|d [|? ?]]]]; try discriminate.
    specialize (IH (fun t Ht => H t (or_intror Ht))). assert (M := cube_comb _ _ c _ _ (cube_mono a b d) IH). revert M. apply cube_ext.
    + intros x y z. unfold evalp. cbn [suml fst snd mono]. ring.
    + cbn [suml fst snd]. f_equal. unfold boxed. cbn [fold_right]. rewrite !simplex1. ring.
Qed.

(** a rule with n points: the count, points, weights and exactness asked of it *)
Definition good_rule (t : rule) (d count : nat) : Prop :=
  length t = count /\ forall wp, In wp t -> 0 < fst wp /\ length (snd wp) = d /\ inside (snd wp).
Theorem seg_rules n : (1 <= n <= 8)%nat -> exists t, seg_table n = Some t /\ good_rule (to_rule t) 1 (seg_count n) /\
  forall P, total_degree 1 (seg_degree n) P -> exists v, seg_int (poly1 P) v /\ Rabs (quad (to_rule t) (evalp P) - v) <= tol * coef_sum P.
Proof.
  intros Hn. assert (C := pick _ _ _ n seg_checked ltac:(lia)). cbv beta in C. unfold rule_ok in C.
  destruct (seg_table n) as [t|]; [|discriminate]. exists t. split; [reflexivity|]. destruct (table_sound _ _ _ _ C) as [A [B D]].
  split; [split; assumption|]. intros P HP. exists (exact_sum (simplex 1) P). split; [eapply seg_exact; exact HP|apply D; exact HP].
Qed.
Theorem tri_rules n : (1 <= n <= 5)%nat -> exists t, tri_table n = Some t /\ good_rule (to_rule t) 2 (tri_count n) /\
  forall P, total_degree 2 (tri_degree n) P -> exists v, tri_int (poly2 P) v /\ Rabs (quad (to_rule t) (evalp P) - v) <= tol * coef_sum P.
Proof.
  intros Hn. assert (C := pick _ _ _ n tri_checked ltac:(lia)). cbv beta in C. unfold rule_ok in C.
  destruct (tri_table n) as [t|]; [|discriminate]. exists t. split; [reflexivity|]. destruct (table_sound _ _ _ _ C) as [A [B D]].
  split; [split; assumption|]. intros P HP. exists (exact_sum (simplex 2) P). split; [eapply tri_exact; exact HP|apply D; exact HP].
Qed.
Theorem tet_rules n : (1 <= n <= 6)%nat -> exists t, tet_table n = Some t /\ good_rule (to_rule t) 3 (tet_count n) /\
  forall P, total_degree 3 (tet_degree n) P -> exists v, tet_int (poly3 P) v /\ Rabs (quad (to_rule t) (evalp P) - v) <= tol * coef_sum P.
Proof.
  intros Hn. assert (C := pick _ _ _ n tet_checked ltac:(lia)). cbv beta in C. unfold rule_ok in C.
  destruct (tet_table n) as [t|]; [|discriminate]. exists t. split; [reflexivity|]. destruct (table_sound _ _ _ _ C) as [A [B D]].
  split; [split; assumption|]. intros P HP. exists (exact_sum (simplex 3) P). split; [eapply tet_exact; exact HP|apply D; exact HP].
Qed.

(** ** tensor products *)
Lemma mono_app : forall e p e' p', length e = length p -> mono (e ++ e') (p ++ p') = mono e p * mono e' p'.
Proof.
  induction e as [|k e IH]; intros [|x p] e' p' L; cbn [length] in L; try discriminate; cbn [app mono]; [ring|]. rewrite IH by lia. ring.
Qed.
Lemma square_moment t a b : (forall wp, In wp t -> length (snd wp) = 1%nat) ->
  quad (square_rule t) (mono [a; b]) = quad t (mono [a]) * quad t (mono [b]).
Proof.
  intros H. unfold quad, square_rule. rewrite suml_flat_map. rewrite <- suml_scal_l. apply suml_ext. intros q Hq.
  rewrite suml_map, <- suml_scal_r. apply suml_ext. intros p Hp. cbn [fst snd].
  change [a; b] with ([a] ++ [b]). rewrite mono_app by (rewrite (H p Hp); reflexivity). ring.
Qed.
Lemma cube_moment t a b c : (forall wp, In wp t -> length (snd wp) = 1%nat) ->
  quad (cube_rule t) (mono [a; b; c]) = quad t (mono [a]) * quad t (mono [b]) * quad t (mono [c]).
Proof.
  intros H. unfold quad, cube_rule. rewrite suml_flat_map. rewrite <- suml_scal_l. apply suml_ext. intros s Hs.
  rewrite suml_flat_map. rewrite <- suml_scal_l, <- suml_scal_r. apply suml_ext. intros q Hq.
  rewrite suml_map, <- !suml_scal_r. apply suml_ext. intros p Hp. cbn [fst snd].
  change [a; b; c] with ([a] ++ [b] ++ [c]). rewrite mono_app by (rewrite (H p Hp); reflexivity).
  rewrite mono_app by (rewrite (H q Hq); reflexivity). ring.
Qed.
Lemma tol_bounds : 0 < tol <= / 10. Proof. unfold tol. split; [apply Rinv_0_lt_compat; apply pow_lt; lra|]. apply Rinv_le_contravar; [lra|]. cbn [pow]. lra. Qed.
Lemma product_bound a b i j s u : Rabs (a - i) <= s -> Rabs (b - j) <= u -> 0 <= i <= 1 -> 0 <= j <= 1 -> s <= / 2 ->
  Rabs (a * b - i * j) <= s + 1.5 * u.
Proof.
  intros A B I1 J1 S1. replace (a * b - i * j) with ((a - i) * j + a * (b - j)) by ring. eapply Rle_trans; [apply Rabs_triang|].
  rewrite !Rabs_mult. rewrite (Rabs_right j) by lra. assert (Rabs a <= 1.5).
  { replace a with ((a - i) + i) by ring. eapply Rle_trans; [apply Rabs_triang|]. rewrite (Rabs_right i) by lra. lra. }
  pose proof (Rabs_pos (a - i)). pose proof (Rabs_pos (b - j)). pose proof (Rabs_pos a). nra.
Qed.
Lemma simplex1_range a : 0 <= simplex 1 [a] <= 1.
Proof.
  rewrite simplex1. replace (a + 1)%nat with (S a) by lia. rewrite INR_fact_S. pose proof (INR_fact_pos a).
  assert (1 <= INR (S a)) by (rewrite S_INR; pose proof (pos_INR a); lra).
  replace (INR (fact a) / (INR (S a) * INR (fact a))) with (/ INR (S a)) by (field; lra). split.
  - left. apply Rinv_0_lt_compat. lra.
  - rewrite <- Rinv_1. apply Rinv_le_contravar; lra.
Qed.
Lemma good_square t n : good_rule t 1 n ->
  length (square_rule t) = (n * n)%nat /\ forall wp, In wp (square_rule t) -> 0 < fst wp /\ length (snd wp) = 2%nat /\ forall x, In x (snd wp) -> 0 < x < 1.
Proof.
  intros [L G]. split.
  - unfold square_rule. assert (X : forall l : rule, length (flat_map (fun q => map (fun p => (fst p * fst q, snd p ++ snd q)) t) l) = (length l * n)%nat).
    { induction l as [|q l IH]; [reflexivity|]. cbn [flat_map length]. rewrite app_length, map_length, IH, L. lia. }
    rewrite X, L. reflexivity.
  - intros wp H. unfold square_rule in H. apply in_flat_map in H. destruct H as [q [Hq H]]. apply in_map_iff in H. destruct H as [p [<- Hp]].
    destruct (G p Hp) as [A [B [C _]]]. destruct (G q Hq) as [A' [B' [C' _]]]. cbn [fst snd]. split; [nra|].
    split; [rewrite app_length; lia|]. intros x Hx. apply in_app_or in Hx. destruct Hx; auto.
Qed.
Lemma good_cube t n : good_rule t 1 n ->
  length (cube_rule t) = (n * n * n)%nat /\ forall wp, In wp (cube_rule t) -> 0 < fst wp /\ length (snd wp) = 3%nat /\ forall x, In x (snd wp) -> 0 < x < 1.
Proof.
  intros [L G]. split.
  - unfold cube_rule.
    assert (X : forall s (l : rule), length (flat_map (fun q => map (fun p => (fst p * fst q * fst s, snd p ++ snd q ++ snd s)) t) l) = (length l * n)%nat).
    { intros s. induction l as [|q l IH]; [reflexivity|]. cbn [flat_map length]. rewrite app_length, map_length, IH, L. lia. }
    assert (Y : forall l : rule, length (flat_map (fun s => flat_map (fun q => map (fun p => (fst p * fst q * fst s, snd p ++ snd q ++ snd s)) t) t) l) = (length l * (n * n))%nat).
    { induction l as [|q l IH]; [reflexivity|]. cbn [flat_map length]. rewrite app_length, X, IH, L. lia. }
    rewrite Y, L. lia.
  - intros wp H. unfold cube_rule in H. apply in_flat_map in H. destruct H as [s [Hs H]]. apply in_flat_map in H. destruct H as [q [Hq H]].
    apply in_map_iff in H. destruct H as [p [<- Hp]].
    destruct (G p Hp) as [A [B [C _]]]. destruct (G q Hq) as [A' [B' [C' _]]]. destruct (G s Hs) as [A2 [B2 [C2 _]]]. cbn [fst snd].
    split; [apply Rmult_lt_0_compat; [apply Rmult_lt_0_compat|]; assumption|].
    split; [rewrite !app_length; lia|]. intros x Hx. apply in_app_or in Hx. destruct Hx as [Hx|Hx]; [auto|]. apply in_app_or in Hx. destruct Hx; auto.
Qed.
Lemma seg_moment n t a : (1 <= n <= 8)%nat -> seg_table n = Some t -> (a <= seg_degree n)%nat ->
  Rabs (quad (to_rule t) (mono [a]) - simplex 1 [a]) <= tol.
Proof.
  intros Hn E Ha. assert (C := pick _ _ _ n seg_checked ltac:(lia)). cbv beta in C. unfold rule_ok in C. rewrite E in C.
  destruct (table_sound _ _ _ _ C) as [_ [_ D]]. specialize (D [(1, [a])]).
  assert (T : total_degree 1 (seg_degree n) [(1, [a])]).
  { intros t' [<-|[]]. cbn [snd length total fold_right]. split; [reflexivity|lia]. }
  specialize (D T). rewrite quad_evalp in D. unfold exact_sum, coef_sum in D. cbn [suml fst snd] in D. rewrite Rabs_R1, !Rplus_0_r, !Rmult_1_l, Rmult_1_r in D. exact D.
Qed.
Theorem square_rules n : (1 <= n <= 8)%nat -> exists t, seg_table n = Some t /\
  length (square_rule (to_rule t)) = (n * n)%nat /\
  (forall wp, In wp (square_rule (to_rule t)) -> 0 < fst wp /\ length (snd wp) = 2%nat /\ forall x, In x (snd wp) -> 0 < x < 1) /\
  forall P, each_degree 2 (2 * n - 1) P -> exists v, square_int (poly2 P) v /\
    Rabs (quad (square_rule (to_rule t)) (evalp P) - v) <= 3 * tol * coef_sum P.
Proof.
  intros Hn. destruct (seg_rules n Hn) as [t [E [G _]]]. exists t. split; [exact E|]. destruct (good_square _ _ G) as [A B].
  split; [exact A|]. split; [exact B|]. intros P HP. exists (exact_sum boxed P). split; [eapply square_exact; exact HP|].
  rewrite quad_evalp. apply (combine_bounds P (fun e => quad (square_rule (to_rule t)) (mono e)) boxed (3 * tol)). intros m Hm. destruct (HP m Hm) as [L D]. destruct (snd m) as [|a [|b [|? ?]]]; try discriminate.
  rewrite square_moment by (intros wp Hi; apply (proj2 G wp Hi)). unfold boxed. cbn [fold_right]. rewrite Rmult_1_r.
  pose proof tol_bounds. eapply Rle_trans; [apply (product_bound _ _ _ _ tol tol)|]; auto using simplex1_range; try lra.
  - apply (seg_moment n); auto. apply D. now left.
  - apply (seg_moment n); auto. apply D. right. now left.
Qed.
Theorem cube_rules n : (1 <= n <= 8)%nat -> exists t, seg_table n = Some t /\
  length (cube_rule (to_rule t)) = (n * n * n)%nat /\
  (forall wp, In wp (cube_rule (to_rule t)) -> 0 < fst wp /\ length (snd wp) = 3%nat /\ forall x, In x (snd wp) -> 0 < x < 1) /\
  forall P, each_degree 3 (2 * n - 1) P -> exists v, cube_int (poly3 P) v /\
    Rabs (quad (cube_rule (to_rule t)) (evalp P) - v) <= 5 * tol * coef_sum P.
Proof.
  intros Hn. destruct (seg_rules n Hn) as [t [E [G _]]]. exists t. split; [exact E|]. destruct (good_cube _ _ G) as [A B].
  split; [exact A|]. split; [exact B|]. intros P HP. exists (exact_sum boxed P). split; [eapply cube_exact; exact HP|].
  rewrite quad_evalp. apply (combine_bounds P (fun e => quad (cube_rule (to_rule t)) (mono e)) boxed (5 * tol)). intros m Hm. destruct (HP m Hm) as [L D]. destruct (snd m) as [|a [|b [|c [|? ?]]]]; try discriminate.
  rewrite cube_moment by (intros wp Hi; apply (proj2 G wp Hi)). unfold boxed. cbn [fold_right]. rewrite Rmult_1_r, Rmult_assoc.
  pose proof tol_bounds. assert (Ra := simplex1_range a). assert (Rb := simplex1_range b). assert (Rc := simplex1_range c).
  assert (Q : Rabs (quad (to_rule t) (mono [b]) * quad (to_rule t) (mono [c]) - simplex 1 [b] * simplex 1 [c]) <= tol + 1.5 * tol).
  { apply product_bound; auto; try lra; apply (seg_moment n); auto; apply D; [right; now left|right; right; now left]. }
  eapply Rle_trans; [apply (product_bound _ _ _ _ tol (tol + 1.5 * tol))|]; auto; try lra.
  - apply (seg_moment n); auto. apply D. now left.
  - nra.
Qed.
(** a polynomial to try them on *)
Example sample_degree : total_degree 3 8 [(2, [8; 0; 0]%nat); (- 1, [3; 2; 3]%nat); (5, [0; 0; 0]%nat)].
Proof. intros t H. cbn in H. decompose [or] H; subst; try contradiction; cbn; lia. Qed.

(** * Shape functions on segments, quads and hexes (C33) *)
From Coq Require Import Reals Lra Lia List Arith.
From Coquelicot Require Import Coquelicot.
From Verif Require Import Sums Quadrature ShapeDefs ShapeFacts ShapeGrad.
Import ListNotations.
Local Open Scope R_scope.

(** ** the code *)
Definition lob_list (s : R) (n : nat) (x : R) : list R := match lob s n x with Some l => l | None => [] end.
Definition lob_d_list (s : R) (n : nat) (x : R) : list R := match lob_d s n x with Some l => l | None => [] end.
(** detail/segment_H1.inl:41-49 *)
Definition seg_fn (s : R) (p : nat) (pt : list R) : list R := match pt with [x] => lob_list s (p + 1) x | _ => [] end.
Definition seg_gr (s : R) (p : nat) (pt : list R) : list (list R) := match pt with [x] => map (fun v => [v]) (lob_d_list s (p + 1) x) | _ => [] end.
(** detail/quadrilateral_H1.inl:74-105: i fastest *)
Definition quad_fn (s : R) (p : nat) (pt : list R) : list R :=
  match pt with
  | [x; y] => flat_map (fun nj => map (fun ni => ni * nj) (lob_list s (p + 1) x)) (lob_list s (p + 1) y)
  | _ => []
  end.
Definition both (l d : list R) : list (R * R) := combine l d.
Definition quad_gr (s : R) (p : nat) (pt : list R) : list (list R) :=
  match pt with
  | [x; y] => let X := both (lob_list s (p + 1) x) (lob_d_list s (p + 1) x) in let Y := both (lob_list s (p + 1) y) (lob_d_list s (p + 1) y) in
              flat_map (fun j => map (fun i => [snd i * fst j; fst i * snd j]) X) Y
  | _ => []
  end.
(** detail/hexahedron_H1.inl:39-84 *)
Definition hex_fn (s : R) (p : nat) (pt : list R) : list R :=
  match pt with
  | [x; y; z] => flat_map (fun nk => flat_map (fun nj => map (fun ni => ni * nj * nk) (lob_list s (p + 1) x)) (lob_list s (p + 1) y)) (lob_list s (p + 1) z)
  | _ => []
  end.
Definition hex_gr (s : R) (p : nat) (pt : list R) : list (list R) :=
  match pt with
  | [x; y; z] => let X := both (lob_list s (p + 1) x) (lob_d_list s (p + 1) x) in let Y := both (lob_list s (p + 1) y) (lob_d_list s (p + 1) y) in
                 let Z := both (lob_list s (p + 1) z) (lob_d_list s (p + 1) z) in
                 flat_map (fun k => flat_map (fun j => map (fun i => [snd i * fst j * fst k; fst i * snd j * fst k; fst i * fst j * snd k]) X) Y) Z
  | _ => []
  end.
Definition seg_pts (s : R) (p : nat) : list (list R) := map (fun x => [x]) (lob_nodes s (p + 1)).
Definition quad_pts (s : R) (p : nat) : list (list R) := flat_map (fun y => map (fun x => [x; y]) (lob_nodes s (p + 1))) (lob_nodes s (p + 1)).
Definition hex_pts (s : R) (p : nat) : list (list R) :=
  flat_map (fun z => flat_map (fun y => map (fun x => [x; y; z]) (lob_nodes s (p + 1))) (lob_nodes s (p + 1))) (lob_nodes s (p + 1)).

(** ** products of lists, first index fastest *)
Definition outer {A B C} (g : A -> B -> C) (l : list A) (m : list B) : list C := flat_map (fun b => map (fun a => g a b) l) m.
Lemma outer_length {A B C} (g : A -> B -> C) l m : length (outer g l m) = (length l * length m)%nat.
Proof. unfold outer. induction m as [|b m IH]; cbn [flat_map length]; [lia|]. rewrite app_length, map_length, IH. lia. Qed.
Lemma outer_nth {A B C} (g : A -> B -> C) l da db dc : forall m i, (i < length l * length m)%nat ->
  nth i (outer g l m) dc = g (nth (i mod length l) l da) (nth (i / length l) m db).
Proof.
  unfold outer. induction m as [|b m IH]; intros i Hi; cbn [length] in Hi; [lia|]. cbn [flat_map]. assert (Hn : (length l <> 0)%nat) by nia.
  destruct (Nat.lt_ge_cases i (length l)) as [H|H].
  - rewrite app_nth1 by (now rewrite map_length). rewrite Nat.mod_small, Nat.div_small by exact H. cbn [nth].
    rewrite (nth_indep _ dc (g da b)) by (now rewrite map_length). exact (map_nth (fun a => g a b) l da i).
  - rewrite app_nth2 by (now rewrite map_length). rewrite map_length. rewrite IH by nia.
    replace i with ((i - length l) + 1 * length l)%nat at 3 4 by lia. rewrite Nat.mod_add, Nat.div_add by exact Hn.
    replace ((i - length l) / length l + 1)%nat with (S ((i - length l) / length l)) by lia. reflexivity.
Qed.
Lemma combine_app' {A B} : forall (a1 a2 : list A) (b1 b2 : list B), length a1 = length b1 -> combine (a1 ++ a2) (b1 ++ b2) = combine a1 b1 ++ combine a2 b2.
Proof. induction a1 as [|x a1 IH]; intros a2 [|y b1] b2 L; cbn [length] in L; try discriminate; [reflexivity|]. cbn [app combine]. f_equal. apply IH. lia. Qed.
Lemma combine_map2 {A B C D} (f : A -> C) (g : B -> D) : forall l m, combine (map f l) (map g m) = map (fun ab => (f (fst ab), g (snd ab))) (combine l m).
Proof. induction l as [|a l IH]; intros [|b m]; cbn [map combine]; auto. f_equal. apply IH. Qed.
Lemma outer_combine {A B C A' B' C'} (g : A -> B -> C) (h : A' -> B' -> C') l l' m m' : length l = length l' -> length m = length m' ->
  combine (outer g l m) (outer h l' m') = outer (fun a b => (g (fst a) (fst b), h (snd a) (snd b))) (combine l l') (combine m m').
Proof.
  intros Ll. revert m'. unfold outer. induction m as [|b m IH]; intros [|b' m'] Lm; cbn [length] in Lm; try discriminate; [reflexivity|].
  cbn [flat_map combine]. rewrite combine_app' by (now rewrite !map_length). rewrite IH by lia. f_equal. exact (combine_map2 (fun a => g a b) (fun a => h a b') l l').
Qed.
Lemma suml_outer {A B C} (g : A -> B -> C) l m f : suml (outer g l m) f = suml m (fun b => suml l (fun a => f (g a b))).
Proof. unfold outer. rewrite suml_flat_map. apply suml_ext. intros b _. apply suml_map. Qed.
Lemma outer_outer {A B C D E} (g : A -> B -> C) (h : C -> D -> E) l m n :
  outer h (outer g l m) n = flat_map (fun k => flat_map (fun j => map (fun i => h (g i j) k) l) m) n.
Proof.
  unfold outer. induction n as [|k n IH]; [reflexivity|]. cbn [flat_map]. f_equal; [|exact IH].
  clear. induction m as [|b m IH]; [reflexivity|]. cbn [flat_map]. rewrite map_app, map_map, IH. reflexivity.
Qed.

(** ** product elements *)
Record element := { el_dim : nat; el_nodes : list (list R); el_shape : list R -> list R; el_grad : list R -> list (list R); el_exps : list nat -> Prop }.
Definition monos_ok (e : element) : Prop :=
  forall k p, el_exps e k -> length p = el_dim e -> interpolant (el_nodes e) (el_shape e) (mono k) p = mono k p.
Record good (e : element) : Prop := {
  g_len : forall p, length p = el_dim e -> length (el_shape e p) = length (el_nodes e);
  g_dim : forall n, In n (el_nodes e) -> length n = el_dim e;
  g_kron : kronecker (el_nodes e) (el_shape e);
  g_mono : monos_ok e;
  g_explen : forall k, el_exps e k -> length k = el_dim e;
  g_gradlen : forall p n, length p = el_dim e -> In n (el_grad e p) -> length n = el_dim e;
  g_grad : exact_gradients (el_dim e) (el_shape e) (el_grad e)
}.
Definition scaled (c : R) (l : list R) : list R := map (fun v => v * c) l.
Definition prod_grad (a b : R * list R) : list R := scaled (fst b) (snd a) ++ scaled (fst a) (snd b).
Definition product (e f : element) : element := {|
  el_dim := el_dim e + el_dim f;
  el_nodes := outer (fun a b => a ++ b) (el_nodes e) (el_nodes f);
  el_shape := fun p => outer Rmult (el_shape e (firstn (el_dim e) p)) (el_shape f (skipn (el_dim e) p));
  el_grad := fun p => outer prod_grad (combine (el_shape e (firstn (el_dim e) p)) (el_grad e (firstn (el_dim e) p)))
                                      (combine (el_shape f (skipn (el_dim e) p)) (el_grad f (skipn (el_dim e) p)));
  el_exps := fun k => exists a b, k = a ++ b /\ el_exps e a /\ el_exps f b |}.
Lemma update_length p : forall a t, length (update p a t) = length p.
Proof. induction p as [|x p IH]; intros [|a] t; cbn [update length]; auto. Qed.
Lemma firstn_update p : forall d a t, (a < d)%nat -> firstn d (update p a t) = update (firstn d p) a t.
Proof. induction p as [|x p IH]; intros [|d] [|a] t H; try lia; cbn [update firstn]; auto. f_equal. apply IH. lia. Qed.
Lemma firstn_update_ge p : forall d a t, (d <= a)%nat -> firstn d (update p a t) = firstn d p.
Proof. induction p as [|x p IH]; intros [|d] [|a] t H; try lia; cbn [update firstn]; auto. f_equal. apply IH. lia. Qed.
Lemma skipn_update p : forall d a t, (a < d)%nat -> skipn d (update p a t) = skipn d p.
Proof. induction p as [|x p IH]; intros [|d] [|a] t H; try lia; cbn [update skipn]; auto. apply IH. lia. Qed.
Lemma skipn_update_ge p : forall d a t, (d <= a)%nat -> skipn d (update p a t) = update (skipn d p) (a - d) t.
Proof. induction p as [|x p IH]; intros [|d] [|a] t H; try lia; cbn [update skipn Nat.sub]; auto. apply IH. lia. Qed.
Lemma nth_firstn' {A} (d0 : A) : forall d i l, (i < d)%nat -> nth i (firstn d l) d0 = nth i l d0.
Proof. induction d as [|d IH]; intros i l H; [lia|]. destruct l as [|x l]; [now destruct i|]. destruct i; cbn [firstn nth]; auto. apply IH. lia. Qed.
Lemma nth_skipn' {A} (d0 : A) : forall d i l, nth i (skipn d l) d0 = nth (d + i) l d0.
Proof. induction d as [|d IH]; intros i l; [reflexivity|]. destruct l as [|x l]; [now destruct i|]. cbn [skipn nth Nat.add]. apply IH. Qed.
Lemma scaled_nth c l i : nth i (scaled c l) 0 = nth i l 0 * c.
Proof.
  unfold scaled. destruct (Nat.lt_ge_cases i (length l)) as [H|H].
  - rewrite (nth_indep _ 0 (0 * c)) by (now rewrite map_length). exact (map_nth (fun v => v * c) l 0 i).
  - rewrite !nth_overflow by (try rewrite map_length; assumption). ring.
Qed.
Lemma nth_combine' {A B} (a : A) (b : B) l m i : length l = length m -> nth i (combine l m) (a, b) = (nth i l a, nth i m b).
Proof. exact (fun L => combine_nth l m i a b L). Qed.
Lemma deriv_mul_const (f : R -> R) (x l c : R) : is_derive f x l -> is_derive (fun t : R => f t * c) x (l * c).
Proof.
  intros H. replace (l * c) with (scal l c) by reflexivity. apply (is_derive_ext (fun t => scal (f t) c)); [reflexivity|].
  apply (is_derive_scal_l f x l c H).
Qed.
Lemma deriv_const_mul (f : R -> R) (x l c : R) : is_derive f x l -> is_derive (fun t : R => c * f t) x (l * c).
Proof. intros H. apply (is_derive_ext (fun t => f t * c)); [intros; apply Rmult_comm|]. apply deriv_mul_const. exact H. Qed.
Theorem product_good e f : good e -> good f -> good (product e f).
Proof.
  intros Ge Gf.
  assert (Split : forall p : list R, length p = (el_dim e + el_dim f)%nat -> length (firstn (el_dim e) p) = el_dim e /\ length (skipn (el_dim e) p) = el_dim f).
  { intros p L. rewrite firstn_length, skipn_length. lia. }
  constructor; cbn [product el_dim el_nodes el_shape el_grad el_exps].
  - intros p L. destruct (Split p L) as [A B]. rewrite !outer_length, (g_len e Ge _ A), (g_len f Gf _ B). reflexivity.
  - intros n Hn. unfold outer in Hn. apply in_flat_map in Hn. destruct Hn as [b [Hb Hn]]. apply in_map_iff in Hn. destruct Hn as [a [<- Ha]].
    rewrite app_length, (g_dim e Ge a Ha), (g_dim f Gf b Hb). reflexivity.
  - intros i j Hi Hj. rewrite outer_length in Hi, Hj. set (n := length (el_nodes e)) in *. set (m := length (el_nodes f)) in *.
    assert (Hn : (n <> 0)%nat) by nia.
    assert (Bd : forall k, (k < n * m)%nat -> (k mod n < n /\ k / n < m)%nat).
    { intros k Hk. split; [apply Nat.mod_upper_bound; exact Hn|apply Nat.div_lt_upper_bound; lia]. }
    destruct (Bd i Hi) as [I1 I2]. destruct (Bd j Hj) as [J1 J2].
    rewrite (outer_nth _ (el_nodes e) [] [] []) by exact Hi. fold n.
    set (a := nth (i mod n) (el_nodes e) []). set (b := nth (i / n) (el_nodes f) []).
    assert (La : length a = el_dim e) by (apply (g_dim e Ge); apply nth_In; exact I1).
    assert (Lb : length b = el_dim f) by (apply (g_dim f Gf); apply nth_In; exact I2).
    rewrite firstn_app, skipn_app, La, Nat.sub_diag. rewrite firstn_O, app_nil_r. rewrite <- La. rewrite firstn_all, skipn_all. cbn [app skipn].
    assert (Sa := g_len e Ge a La). assert (Sb := g_len f Gf b Lb). fold n in Sa. fold m in Sb.
    rewrite (outer_nth _ _ 0 0 0) by (rewrite Sa, Sb; exact Hj). rewrite Sa.
    unfold a, b. rewrite (g_kron e Ge (i mod n)%nat (j mod n)%nat I1 J1), (g_kron f Gf (i / n)%nat (j / n)%nat I2 J2).
    destruct (Nat.eqb_spec i j) as [->|Ne]; [rewrite !Nat.eqb_refl; ring|].
    destruct (Nat.eqb_spec (i mod n)%nat (j mod n)%nat) as [E1|E1]; [|ring]. destruct (Nat.eqb_spec (i / n)%nat (j / n)%nat) as [E2|E2]; [|ring].
    exfalso. apply Ne. rewrite (Nat.div_mod i n Hn), (Nat.div_mod j n Hn), E1, E2. reflexivity.
  - intros k p [a [b [-> [Ea Eb]]]] L. cbn [product el_dim] in L. destruct (Split p L) as [A B]. unfold interpolant. cbn [product el_shape el_nodes].
    rewrite outer_combine by (symmetry; first [exact (g_len e Ge _ A)|exact (g_len f Gf _ B)]). rewrite suml_outer.
    assert (Ma := g_mono e Ge a _ Ea A). assert (Mb := g_mono f Gf b _ Eb B). unfold interpolant in Ma, Mb.
    transitivity (mono (a ++ b) (firstn (el_dim e) p ++ skipn (el_dim e) p)); [|now rewrite firstn_skipn]. rewrite (mono_app a (firstn (el_dim e) p)) by (rewrite A; apply (g_explen e Ge a Ea)). rewrite <- Ma, <- Mb.
    rewrite <- suml_scal_l. apply suml_ext. intros [nb vb] Hb. rewrite <- suml_scal_r. apply suml_ext. intros [na va] Ha. cbn [fst snd].
    assert (Na := in_combine_l _ _ _ _ Ha). rewrite mono_app by (rewrite (g_dim e Ge na Na); apply (g_explen e Ge a Ea)). ring.
  - intros k [a [b [-> [Ea Eb]]]]. rewrite app_length, (g_explen e Ge a Ea), (g_explen f Gf b Eb). reflexivity.
  - intros p n L Hn. cbn [el_dim] in L. destruct (Split p L) as [A B]. unfold outer in Hn. apply in_flat_map in Hn. destruct Hn as [[vb gb] [Hb Hn]].
    apply in_map_iff in Hn. destruct Hn as [[va ga] [<- Ha]]. unfold prod_grad, scaled. cbn [fst snd]. rewrite app_length, !map_length.
    rewrite (g_gradlen e Ge _ ga A (in_combine_r _ _ _ _ Ha)), (g_gradlen f Gf _ gb B (in_combine_r _ _ _ _ Hb)). reflexivity.
  - intros p L. destruct (Split p L) as [A B]. destruct (g_grad e Ge _ A) as [GLe GDe]. destruct (g_grad f Gf _ B) as [GLf GDf]. split.
    + rewrite !outer_length, !combine_length, GLe, GLf, !Nat.min_id. reflexivity.
    + intros i c Hi Hc. rewrite outer_length in Hi. set (pe := firstn (el_dim e) p) in *. set (pf := skipn (el_dim e) p) in *.
      set (n := length (el_shape e pe)) in *. set (m := length (el_shape f pf)) in *. assert (Hn : (n <> 0)%nat) by nia.
      assert (I1 : (i mod n < n)%nat) by (apply Nat.mod_upper_bound; exact Hn). assert (I2 : (i / n < m)%nat) by (apply Nat.div_lt_upper_bound; lia).
      rewrite (outer_nth prod_grad _ (0, []) (0, []) []) by (rewrite !combine_length, GLe, GLf, !Nat.min_id; exact Hi).
      rewrite combine_length, GLe, Nat.min_id. fold n. rewrite !nth_combine' by (symmetry; assumption). unfold prod_grad. cbn [fst snd].
      assert (Lg : length (nth (i mod n) (el_grad e pe) []) = el_dim e).
      { apply (g_gradlen e Ge pe _ A). apply nth_In. rewrite GLe. exact I1. }
      destruct (Nat.lt_ge_cases c (el_dim e)) as [Hlt|Hge].
      * rewrite app_nth1 by (unfold scaled; rewrite map_length, Lg; exact Hlt). rewrite scaled_nth.
        apply (is_derive_ext (fun t : R => nth (i mod n) (el_shape e (update pe c t)) 0 * nth (i / n) (el_shape f pf) 0)).
        -- intros t. rewrite firstn_update, skipn_update by exact Hlt. fold pe pf.
           assert (Lu : length (el_shape e (update pe c t)) = n) by (rewrite (g_len e Ge) by (now rewrite update_length); symmetry; apply (g_len e Ge _ A)).
           rewrite (outer_nth _ _ 0 0 0) by (rewrite Lu; exact Hi). rewrite Lu. reflexivity.
        -- apply deriv_mul_const. replace (nth c p 0) with (nth c pe 0) by (apply nth_firstn'; exact Hlt). apply GDe; assumption.
      * rewrite app_nth2 by (unfold scaled; rewrite map_length, Lg; exact Hge). unfold scaled at 1. rewrite map_length, Lg. rewrite scaled_nth.
        apply (is_derive_ext (fun t : R => nth (i mod n) (el_shape e pe) 0 * nth (i / n) (el_shape f (update pf (c - el_dim e) t)) 0)).
        -- intros t. rewrite firstn_update_ge, skipn_update_ge by exact Hge. fold pe pf.
           assert (Lu : length (el_shape f (update pf (c - el_dim e) t)) = m) by (rewrite (g_len f Gf) by (now rewrite update_length); symmetry; apply (g_len f Gf _ B)).
           rewrite (outer_nth _ _ 0 0 0) by (fold n; rewrite Lu; exact Hi). reflexivity.
        -- apply deriv_const_mul. replace (nth c p 0) with (nth (c - el_dim e) pf 0) by (unfold pf; rewrite nth_skipn'; f_equal; lia). apply GDf; [assumption|lia].
Qed.

(** ** the segment *)
Definition segment (s : R) (p : nat) : element := {| el_dim := 1; el_nodes := seg_pts s p; el_shape := seg_fn s p; el_grad := seg_gr s p; el_exps := fun k => exists j, k = [j] /\ (j <= p)%nat |}.
Theorem segment_good s p : root5 s -> (1 <= p <= 3)%nat -> good (segment s p).
Proof.
  unfold root5. intros H Hp. constructor; cbn [segment el_dim el_nodes el_shape el_grad el_exps].
  - intros [|x [|? ?]] L; try discriminate. destruct p as [|[|[|[|p]]]]; try lia; reflexivity.
  - intros n Hn. unfold seg_pts in Hn. apply in_map_iff in Hn. destruct Hn as [? [<- _]]. reflexivity.
  - apply kronecker_rows. destruct p as [|[|[|[|p]]]]; try lia;
    cbn [seg_pts lob_nodes length map seg_fn lob_list lob unit_rows seq Nat.eqb Nat.add]; entries H.
  - intros k [|x [|? ?]] [j [-> Hj]] L; try discriminate. unfold interpolant. cbn [segment el_nodes el_shape].
    destruct p as [|[|[|[|p]]]]; try lia; enum j; cbn [seg_pts lob_nodes map combine seg_fn lob_list lob suml fst snd mono pow Nat.add]; field [H].
  - intros k [j [-> _]]. reflexivity.
  - intros [|x [|? ?]] n L Hn; try discriminate. cbn [seg_gr] in Hn. apply in_map_iff in Hn. destruct Hn as [? [<- _]]. reflexivity.
  - intros [|x [|? ?]] L; try discriminate. split; [destruct p as [|[|[|[|p]]]]; try lia; reflexivity|].
    intros i a Hi Ha. assert (a = 0%nat) by lia. subst a. destruct p as [|[|[|[|p]]]]; try lia; cbn [seg_fn lob_list lob length Nat.add] in Hi; enum i;
    cbn [seg_fn seg_gr lob_list lob_d_list lob lob_d update nth Nat.add map]; (auto_derive; [repeat split; auto; try exact Logic.I|field [H]]).
Qed.
Lemma seg_values s p x : (1 <= p <= 3)%nat -> length (lob_list s (p + 1) x) = (p + 1)%nat /\ length (lob_d_list s (p + 1) x) = (p + 1)%nat.
Proof. intros Hp. destruct p as [|[|[|[|p]]]]; try lia; split; reflexivity. Qed.

(** ** quads and hexes are the products *)
Definition square (s : R) (p : nat) := product (segment s p) (segment s p).
Definition cube (s : R) (p : nat) := product (square s p) (segment s p).
Lemma map_outer {A B C D} (h : C -> D) (g : A -> B -> C) l m : map h (outer g l m) = outer (fun a b => h (g a b)) l m.
Proof. unfold outer. induction m as [|b m IH]; [reflexivity|]. cbn [flat_map]. rewrite map_app, map_map, IH. reflexivity. Qed.
Lemma outer_map {A A' B B' C} (g : A' -> B' -> C) (f : A -> A') (h : B -> B') l m : outer g (map f l) (map h m) = outer (fun a b => g (f a) (h b)) l m.
Proof. unfold outer. induction m as [|b m IH]; [reflexivity|]. cbn [map flat_map]. rewrite map_map, IH. reflexivity. Qed.
Lemma outer_map_r {A B B' C} (g : A -> B' -> C) (h : B -> B') l m : outer g l (map h m) = outer (fun a b => g a (h b)) l m.
Proof. unfold outer. induction m as [|b m IH]; [reflexivity|]. cbn [map flat_map]. rewrite IH. reflexivity. Qed.
Lemma map_fst_combine {A B} : forall (l : list A) (m : list B), length l = length m -> map fst (combine l m) = l.
Proof. induction l as [|a l IH]; intros [|b m] L; cbn [length] in L; try discriminate; [reflexivity|]. cbn [combine map fst]. f_equal. apply IH. lia. Qed.
Lemma outer_ext {A B C} (g h : A -> B -> C) l m : (forall a b, g a b = h a b) -> outer g l m = outer h l m.
Proof. intros E. unfold outer. induction m as [|b m IH]; [reflexivity|]. cbn [flat_map]. rewrite IH. f_equal. apply map_ext. intros. apply E. Qed.
Lemma combine_map_r {A B C} (f : B -> C) : forall (l : list A) m, combine l (map f m) = map (fun ab => (fst ab, f (snd ab))) (combine l m).
Proof. induction l as [|a l IH]; intros [|b m]; cbn [map combine]; auto. f_equal. apply IH. Qed.
Lemma square_is_quad s p : el_nodes (square s p) = quad_pts s p /\ (forall x y, el_shape (square s p) [x; y] = quad_fn s p [x; y]) /\
  (forall x y, el_grad (square s p) [x; y] = quad_gr s p [x; y]).
Proof.
  unfold square, product. cbn [el_nodes el_shape el_grad segment el_dim firstn skipn]. split; [|split].
  - unfold seg_pts. rewrite outer_map. reflexivity.
  - intros x y. reflexivity.
  - intros x y. cbn [seg_fn seg_gr quad_gr]. rewrite !combine_map_r, outer_map. unfold both.
    change (outer (fun a b => prod_grad (fst a, [snd a]) (fst b, [snd b])) (combine (lob_list s (p + 1) x) (lob_d_list s (p + 1) x)) (combine (lob_list s (p + 1) y) (lob_d_list s (p + 1) y)) =
      outer (fun i j => [snd i * fst j; fst i * snd j]) (combine (lob_list s (p + 1) x) (lob_d_list s (p + 1) x)) (combine (lob_list s (p + 1) y) (lob_d_list s (p + 1) y))).
    apply outer_ext. intros a b. unfold prod_grad, scaled. cbn [fst snd map app]. f_equal. f_equal. ring.
Qed.
Lemma cube_is_hex s p : (1 <= p <= 3)%nat -> el_nodes (cube s p) = hex_pts s p /\ (forall x y z, el_shape (cube s p) [x; y; z] = hex_fn s p [x; y; z]) /\
  (forall x y z, el_grad (cube s p) [x; y; z] = hex_gr s p [x; y; z]).
Proof.
  intros Hp. destruct (square_is_quad s p) as [A [B C]]. unfold cube, product at 1 2 3. cbn [el_nodes el_shape el_grad]. rewrite A. split; [|split].
  - cbn [segment el_nodes]. unfold seg_pts, quad_pts, hex_pts.
    change (outer (fun a b => a ++ b) (outer (fun x y => [x; y]) (lob_nodes s (p + 1)) (lob_nodes s (p + 1))) (map (fun x => [x]) (lob_nodes s (p + 1))) =
      flat_map (fun z => flat_map (fun y => map (fun x => [x; y; z]) (lob_nodes s (p + 1))) (lob_nodes s (p + 1))) (lob_nodes s (p + 1))).
    rewrite outer_map_r, outer_outer. reflexivity.
  - intros x y z. change (el_dim (square s p)) with 2%nat. cbn [firstn skipn]. rewrite B. cbn [quad_fn hex_fn segment el_shape seg_fn].
    exact (outer_outer Rmult Rmult (lob_list s (p + 1) x) (lob_list s (p + 1) y) (lob_list s (p + 1) z)).
  - intros x y z. change (el_dim (square s p)) with 2%nat. cbn [firstn skipn]. rewrite B, C. cbn [quad_fn quad_gr hex_gr segment el_shape el_grad seg_fn seg_gr].
    set (X := lob_list s (p + 1) x). set (Y := lob_list s (p + 1) y). set (Z := lob_list s (p + 1) z).
    set (DX := lob_d_list s (p + 1) x). set (DY := lob_d_list s (p + 1) y). set (DZ := lob_d_list s (p + 1) z).
    assert (LX : length X = length DX) by (unfold X, DX; destruct (seg_values s p x Hp); congruence). assert (LY : length Y = length DY) by (unfold Y, DY; destruct (seg_values s p y Hp); congruence).
    unfold both.
    assert (E : combine (outer Rmult X Y) (outer (fun i j => [snd i * fst j; fst i * snd j]) (combine X DX) (combine Y DY)) =
                outer (fun i j => (fst i * fst j, [snd i * fst j; fst i * snd j])) (combine X DX) (combine Y DY)).
    { assert (F : outer Rmult X Y = outer (fun i j => fst i * fst j) (combine X DX) (combine Y DY)).
      { rewrite <- (outer_map Rmult fst fst). f_equal; symmetry; apply map_fst_combine; assumption. }
      rewrite F. rewrite outer_combine by reflexivity. clear. set (P := combine X DX). set (Q := combine Y DY).
      assert (D : forall (T : Type) (l : list T), combine l l = map (fun a => (a, a)) l) by (intros T; induction l as [|a l IH]; [reflexivity|]; cbn [combine map]; f_equal; exact IH).
      rewrite !D, outer_map. reflexivity. }
    change (flat_map (fun nj => map (fun ni => ni * nj) X) Y) with (outer Rmult X Y).
    change (flat_map (fun j => map (fun i => [snd i * fst j; fst i * snd j]) (combine X DX)) (combine Y DY)) with (outer (fun i j => [snd i * fst j; fst i * snd j]) (combine X DX) (combine Y DY)).
    rewrite E, combine_map_r, outer_map_r, outer_outer.
    apply flat_map_ext. intros k. apply flat_map_ext. intros j. apply map_ext. intros i. unfold prod_grad, scaled. cbn [fst snd map app].
    repeat (apply (f_equal2 (@cons R)); [ring|]). reflexivity.
Qed.

(** ** the four facts for the coded functions *)
Lemma good_transfer e d nodes shape grad : good e -> el_dim e = d -> el_nodes e = nodes -> (forall p, length p = d -> el_shape e p = shape p) ->
  (forall p, length p = d -> el_grad e p = grad p) -> el_exps e (repeat 0%nat d) ->
  kronecker nodes shape /\ sums_to_one d shape /\ (forall deg : list (R * list nat) -> Prop, (forall P, deg P -> forall m, In m P -> el_exps e (snd m)) -> reproduces deg d nodes shape) /\ exact_gradients d shape grad.
Proof.
  intros G Ed En Es Eg E0.
  assert (Rep : forall deg : list (R * list nat) -> Prop, (forall P, deg P -> forall m, In m P -> el_exps e (snd m)) -> reproduces deg d nodes shape).
  { intros deg D. apply (reproduces_monos _ _ _ _ (el_exps e) D). intros k p Hk Lp. rewrite <- Ed in Lp. rewrite <- (g_mono e G k p Hk Lp).
    unfold interpolant. rewrite En, Es; [reflexivity|congruence]. }
  split; [|split; [|split]].
  - intros i j Hi Hj. subst nodes. rewrite <- Es by (rewrite <- Ed; apply (g_dim e G); apply nth_In; exact Hi). apply (g_kron e G); assumption.
  - apply (sums_from_reproduces (fun P => P = [(1, repeat 0%nat d)]) _ nodes _).
    + apply Rep. intros P -> m [<-|[]]. exact E0.
    + reflexivity.
    + intros p Lp. rewrite <- Es by exact Lp. rewrite <- En. symmetry. apply (g_len e G). congruence.
    + intros n Hn. rewrite <- Ed. apply (g_dim e G). congruence.
  - exact Rep.
  - intros p Lp. rewrite <- Es, <- Eg by exact Lp. rewrite <- Ed in Lp. destruct (g_grad e G p Lp) as [A B]. split; [exact A|].
    intros i a Hi Ha. rewrite <- Ed in Ha. apply (is_derive_ext (fun t : R => nth i (el_shape e (update p a t)) 0)); [|exact (B i a Hi Ha)].
    intros t. rewrite Es; [reflexivity|]. rewrite update_length. congruence.
Qed.
Lemma seg_exps s p k : length k = 1%nat -> (forall j, In j k -> (j <= p)%nat) -> el_exps (segment s p) k.
Proof. destruct k as [|j [|? ?]]; intros L H; try discriminate. exists j. split; [reflexivity|apply H; now left]. Qed.
Lemma square_exps s p k : length k = 2%nat -> (forall j, In j k -> (j <= p)%nat) -> el_exps (square s p) k.
Proof.
  destruct k as [|i [|j [|? ?]]]; intros L H; try discriminate. exists [i], [j]. split; [reflexivity|].
  split; apply seg_exps; try reflexivity; intros k Hk; apply H; cbn [In] in *; tauto.
Qed.
Lemma cube_exps s p k : length k = 3%nat -> (forall j, In j k -> (j <= p)%nat) -> el_exps (cube s p) k.
Proof.
  destruct k as [|i [|j [|l [|? ?]]]]; intros L H; try discriminate. exists [i; j], [l]. split; [reflexivity|].
  split; [apply square_exps|apply seg_exps]; try reflexivity; intros k Hk; apply H; cbn [In] in *; tauto.
Qed.
Lemma zero_in d j : In j (repeat 0%nat d) -> forall p, (j <= p)%nat.
Proof. intros H p. apply repeat_spec in H. lia. Qed.
Lemma seg_facts s p : root5 s -> (1 <= p <= 3)%nat ->
  kronecker (seg_pts s p) (seg_fn s p) /\ sums_to_one 1 (seg_fn s p) /\ reproduces (each_degree 1 p) 1 (seg_pts s p) (seg_fn s p) /\ exact_gradients 1 (seg_fn s p) (seg_gr s p).
Proof.
  intros H Hp. destruct (good_transfer (segment s p) 1 (seg_pts s p) (seg_fn s p) (seg_gr s p) (segment_good s p H Hp) eq_refl eq_refl) as [A [B [C D]]]; auto.
  - apply seg_exps; [reflexivity|]. intros j Hj. exact (zero_in 1 j Hj p).
  - split; [exact A|]. split; [exact B|]. split; [|exact D]. apply C. intros P HP m Hm. destruct (HP m Hm). apply seg_exps; assumption.
Qed.
Lemma quad_facts s p : root5 s -> (1 <= p <= 3)%nat ->
  kronecker (quad_pts s p) (quad_fn s p) /\ sums_to_one 2 (quad_fn s p) /\ reproduces (each_degree 2 p) 2 (quad_pts s p) (quad_fn s p) /\ exact_gradients 2 (quad_fn s p) (quad_gr s p).
Proof.
  intros H Hp. destruct (square_is_quad s p) as [E1 [E2 E3]].
  destruct (good_transfer (square s p) 2 (quad_pts s p) (quad_fn s p) (quad_gr s p) (product_good _ _ (segment_good s p H Hp) (segment_good s p H Hp)) eq_refl E1) as [A [B [C D]]].
  - intros [|x [|y [|? ?]]] L; try discriminate. apply E2.
  - intros [|x [|y [|? ?]]] L; try discriminate. apply E3.
  - apply square_exps; [reflexivity|]. intros j Hj. exact (zero_in 2 j Hj p).
  - split; [exact A|]. split; [exact B|]. split; [|exact D]. apply C. intros P HP m Hm. destruct (HP m Hm). apply square_exps; assumption.
Qed.
Lemma hex_facts s p : root5 s -> (1 <= p <= 3)%nat ->
  kronecker (hex_pts s p) (hex_fn s p) /\ sums_to_one 3 (hex_fn s p) /\ reproduces (each_degree 3 p) 3 (hex_pts s p) (hex_fn s p) /\ exact_gradients 3 (hex_fn s p) (hex_gr s p).
Proof.
  intros H Hp. destruct (cube_is_hex s p Hp) as [E1 [E2 E3]].
  destruct (good_transfer (cube s p) 3 (hex_pts s p) (hex_fn s p) (hex_gr s p)
    (product_good _ _ (product_good _ _ (segment_good s p H Hp) (segment_good s p H Hp)) (segment_good s p H Hp)) eq_refl E1) as [A [B [C D]]].
  - intros [|x [|y [|z [|? ?]]]] L; try discriminate. apply E2.
  - intros [|x [|y [|z [|? ?]]]] L; try discriminate. apply E3.
  - apply cube_exps; [reflexivity|]. intros j Hj. exact (zero_in 3 j Hj p).
  - split; [exact A|]. split; [exact B|]. split; [|exact D]. apply C. intros P HP m Hm. destruct (HP m Hm). apply cube_exps; assumption.
Qed.
Lemma tri_facts s p : root5 s -> (1 <= p <= 3)%nat ->
  kronecker (tri_nodes s p) (tri_fn s p) /\ sums_to_one 2 (tri_fn s p) /\ reproduces (total_degree 2 p) 2 (tri_nodes s p) (tri_fn s p) /\ exact_gradients 2 (tri_fn s p) (tri_gr s p).
Proof. intros H Hp. split; [apply tri_kronecker|split; [apply tri_sums|split; [apply tri_reproduces|apply tri_gradients]]]; assumption. Qed.
Lemma tet_facts s p : root5 s -> (1 <= p <= 3)%nat ->
  kronecker (tet_nodes s p) (tet_fn s p) /\ sums_to_one 3 (tet_fn s p) /\ reproduces (total_degree 3 p) 3 (tet_nodes s p) (tet_fn s p) /\ exact_gradients 3 (tet_fn s p) (tet_gr s p).
Proof. intros H Hp. split; [apply tet_kronecker|split; [apply tet_sums|split; [apply tet_reproduces|apply tet_gradients]]]; assumption. Qed.
Lemma sqrt5_root : root5 (sqrt 5).
Proof. apply sqrt_sqrt. lra. Qed.
(** orders above three are accepted by the simplex elements and give zero everywhere *)
Lemma tri_order4 s pt : length pt = 2%nat -> suml (tri_fn s 4 pt) (fun v => v) = 0.
Proof. destruct pt as [|x [|y [|? ?]]]; intros L; try discriminate. cbn [tri_fn tri_shape tri_ndof repeat Nat.mul Nat.add Nat.div Nat.divmod fst suml]. cbn. ring. Qed.

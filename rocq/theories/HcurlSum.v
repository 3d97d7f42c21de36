(** * Edge elements: interpolation, integration and element matrices against the shape functions (C62) *)
From Coq Require Import Reals Lra Lia List Arith.
From Verif Require Import Sums Quadrature ShapeDefs ShapeFacts ShapeTensor SumFactor Hcurl.
Import ListNotations.
Local Open Scope R_scope.

(** ** specification of integration *)
Definition hq_tested s p (t : list (R * list R)) (src : nat -> nat -> R) (flx : nat -> R) (k : nat) : R :=
  sumn (length t) (fun Q => let pt := snd (nth Q t (0, [])) in fst (nth Q t (0, [])) *
    (sumn 2 (fun a => src Q a * nth a (nth k (hq_shape s p pt) []) 0) + flx Q * nth k (hq_curl s p pt) 0)).
Definition hx_tested s p (t : list (R * list R)) (src flx : nat -> nat -> R) (k : nat) : R :=
  sumn (length t) (fun Q => let pt := snd (nth Q t (0, [])) in fst (nth Q t (0, [])) *
    (sumn 3 (fun a => src Q a * nth a (nth k (hx_shape s p pt) []) 0) + sumn 3 (fun a => flx Q a * nth a (nth k (hx_curl s p pt) []) 0))).

(** ** quadrilaterals *)
Lemma B1_at p t i j : calculate_B1 p false t i j = o p j (xq t i).
Proof. reflexivity. Qed.
Lemma B2_at s p t i j : calculate_B s (p + 1) false t i j = c s p j (xq t i).
Proof. reflexivity. Qed.
Lemma G2_at s p t i j : calculate_G s (p + 1) false t i j = dc s p j (xq t i).
Proof. reflexivity. Qed.
Lemma hq_interp s p t u Q : (p <= 3)%nat -> (Q < length t * length t)%nat ->
  let pt := snd (nth Q (square_rule (lift1 t)) (0, [])) in
  hq_interpolate s p t u Q = ([hq_field s p u 0 pt; hq_field s p u 1 pt], hq_field_curl s p u pt).
Proof.
  intros Hp HQ. destruct (split_index _ _ HQ) as [Hy [Hx E]]. cbv zeta.
  replace (nth Q (square_rule (lift1 t)) (0, [])) with (wq t (Q mod length t) * wq t (Q / length t), [xq t (Q mod length t); xq t (Q / length t)])
    by (rewrite E at 5; symmetry; apply square_at; assumption).
  cbn [snd]. destruct (hq_field_at s p Hp u (xq t (Q mod length t)) (xq t (Q / length t))) as [-> ->]. rewrite hq_field_curl_at by exact Hp.
  unfold hq_interpolate, contract2, entry. cbv zeta.
  set (x := xq t (Q mod length t)). set (y := xq t (Q / length t)).
  assert (X : forall g : nat -> R, sumn (p + 1) (fun k => sumn p (fun k0 => d2x u k k0 * calculate_B1 p false t (Q mod length t) k0) * g k) =
              sumn (p + 1) (fun j => sumn p (fun i => d2x u j i * (o p i x * g j)))).
  { intros g. apply sumn_ext. intros j Hj. rewrite <- sumn_scal_r. apply sumn_ext. intros i Hi. rewrite B1_at. fold x. ring. }
  assert (Y : forall g : nat -> R, sumn (p + 1) (fun k => sumn p (fun k0 => d2y u k0 k * calculate_B1 p false t (Q / length t) k0) * g k) =
              sumn p (fun j => sumn (p + 1) (fun i => d2y u j i * (g i * o p j y)))).
  { intros g. rewrite sumn_swap. apply sumn_ext. intros i Hi. rewrite <- sumn_scal_r. apply sumn_ext. intros j Hj. rewrite B1_at. fold y. ring. }
  rewrite !X, !Y. f_equal. unfold Rminus. rewrite Rplus_0_l. reflexivity.
Qed.
Lemma weighted_B1 p t i j : calculate_B1 p true t i j = o p j (xq t i) * wq t i.
Proof. reflexivity. Qed.
Lemma weighted_B2 s p t i j : calculate_B s (p + 1) true t i j = c s p j (xq t i) * wq t i.
Proof. reflexivity. Qed.
Lemma weighted_G2 s p t i j : calculate_G s (p + 1) true t i j = dc s p j (xq t i) * wq t i.
Proof. reflexivity. Qed.
Lemma hq_split p k : (k < hq_ndof p)%nat ->
  (exists j i, (j < p + 1)%nat /\ (i < p)%nat /\ k = (j * p + i)%nat) \/ (exists j i, (j < p)%nat /\ (i < p + 1)%nat /\ k = ((p + 1) * p + (j * (p + 1) + i))%nat).
Proof.
  unfold hq_ndof. intros H. assert (p <> 0)%nat by nia. destruct (Nat.lt_ge_cases k ((p + 1) * p)) as [L|L].
  - left. exists (k / p)%nat, (k mod p)%nat. split; [apply Nat.div_lt_upper_bound; lia|]. split; [now apply Nat.mod_upper_bound|]. rewrite (Nat.div_mod k p) at 1 by assumption. lia.
  - right. set (m := (k - (p + 1) * p)%nat). exists (m / (p + 1))%nat, (m mod (p + 1))%nat. assert (m < (p + 1) * p)%nat by (unfold m; nia).
    split; [apply Nat.div_lt_upper_bound; lia|]. split; [apply Nat.mod_upper_bound; lia|]. pose proof (Nat.div_mod m (p + 1) ltac:(lia)). unfold m in *. lia.
Qed.
Lemma hq_integ s p t src flx res k : (p <= 3)%nat -> (k < hq_ndof p)%nat ->
  flat_hq p (hq_integrate s p t src flx res) k = flat_hq p res k + hq_tested s p (square_rule (lift1 t)) src flx k.
Proof.
  intros Hp Hk. unfold hq_tested. rewrite square_length, sumn_mul. destruct (hq_split p k Hk) as [[j [i [Hj [Hi ->]]]]|[j [i [Hj [Hi ->]]]]].
  - rewrite !flat_hq_x by assumption. unfold hq_integrate. cbn [d2x]. f_equal. unfold contract2, entry. cbv zeta.
    transitivity (sumn (length t) (fun qx => sumn (length t) (fun qy => (src (qy * length t + qx)%nat 0%nat * c s p j (xq t qy) - flx (qy * length t + qx)%nat * dc s p j (xq t qy)) * wq t qy * (o p i (xq t qx) * wq t qx)))).
    + apply sumn_ext. intros qx Hx. rewrite <- sumn_minus, <- sumn_scal_r. apply sumn_ext. intros qy Hy. rewrite weighted_B1, weighted_B2, weighted_G2. ring.
    + rewrite sumn_swap. apply sumn_ext. intros qy Hy. apply sumn_ext. intros qx Hx. rewrite (square_at t qy qx Hy Hx). cbn [fst snd sumn].
      rewrite hq_shape_x, hq_curl_x by assumption. cbn [nth]. ring.
  - rewrite !flat_hq_y by assumption. unfold hq_integrate. cbn [d2y]. f_equal. unfold contract2, entry. cbv zeta.
    apply sumn_ext. intros qy Hy. rewrite <- sumn_plus, <- sumn_scal_r. apply sumn_ext. intros qx Hx. rewrite weighted_B1, weighted_B2, weighted_G2.
    rewrite (square_at t qy qx Hy Hx). cbn [fst snd sumn]. rewrite hq_shape_y, hq_curl_y by assumption. cbn [nth]. ring.
Qed.
Lemma eqb_S n : Nat.eqb (S n) 0 = false.
Proof. reflexivity. Qed.
Lemma hq_applied s p t j D Q : (p <= 3)%nat -> (j < hq_ndof p)%nat -> (Q < length t * length t)%nat ->
  let pt := snd (nth Q (square_rule (lift1 t)) (0, [])) in let r := hq_chain (D Q) (nth j (hq_shape s p pt) [], nth j (hq_curl s p pt) 0) in
  (forall a, fst (hq_apply s p t j D Q) a = fst r a) /\ (forall a, snd (hq_apply s p t j D Q) a = snd r a).
Proof.
  intros Hp Hj HQ. destruct (split_index _ _ HQ) as [Hy [Hx E]]. cbv zeta.
  replace (nth Q (square_rule (lift1 t)) (0, [])) with (wq t (Q mod length t) * wq t (Q / length t), [xq t (Q mod length t); xq t (Q / length t)])
    by (rewrite E at 5; symmetry; apply square_at; assumption).
  cbn [snd]. unfold hq_apply, hq_chain. cbv zeta. cbn [fst snd sumn]. destruct (hq_split p j Hj) as [[jy [jx [Hjy [Hjx ->]]]]|[jy [jx [Hjy [Hjx ->]]]]].
  - assert (E0 : ((jy * p + jx) / ((p + 1) * p) = 0)%nat) by (apply Nat.div_small; nia). rewrite E0. cbn [Nat.eqb]. destruct (flat_divmod p jy jx Hjx) as [-> ->].
    rewrite hq_shape_x, hq_curl_x by assumption. rewrite !B1_at, !B2_at, !G2_at. cbn [nth]. split; intros a; ring.
  - assert (E0 : (((p + 1) * p + (jy * (p + 1) + jx)) / ((p + 1) * p) = 1)%nat).
    { symmetry. apply (Nat.div_unique _ _ 1 (jy * (p + 1) + jx)); nia. }
    assert (E1 : (((p + 1) * p + (jy * (p + 1) + jx)) mod ((p + 1) * p) = jy * (p + 1) + jx)%nat).
    { symmetry. apply (Nat.mod_unique _ _ 1 (jy * (p + 1) + jx)); nia. }
    rewrite E0, E1. cbn [Nat.eqb]. destruct (flat_divmod (p + 1) jy jx Hjx) as [-> ->].
    rewrite hq_shape_y, hq_curl_y by assumption. rewrite !B1_at, !B2_at, !G2_at. cbn [nth]. split; intros a; ring.
Qed.

(** ** hexahedra *)
Definition outer3 {A B C D} (h : A -> B -> C -> D) l m n := flat_map (fun c => flat_map (fun b => map (fun a => h a b c) l) m) n.
Lemma outer3_length {A B C D} (h : A -> B -> C -> D) l m n : length (outer3 h l m n) = (length l * length m * length n)%nat.
Proof.
  unfold outer3. induction n as [|c n IH]; cbn [flat_map length]; [lia|]. rewrite app_length, IH. 
  pose proof (outer_length (fun a b => h a b c) l m) as L. unfold outer in L. rewrite L. lia.
Qed.
Section Hex.
Variables (s : R) (p : nat).
Hypothesis Hp : (p <= 3)%nat.
Lemma both_l x : length (both (lob_list s (p + 1) x) (lob_d_list s (p + 1) x)) = (p + 1)%nat.
Proof. exact (both_len s p x Hp). Qed.
Lemma both_n x i : nth i (both (lob_list s (p + 1) x) (lob_d_list s (p + 1) x)) (0, 0) = (c s p i x, dc s p i x).
Proof. exact (both_nth s p x i Hp). Qed.
Let m := ((p + 1) * (p + 1) * p)%nat.
Lemma nth_first {A} (L M : list A) d k : (k < length L)%nat -> nth k (L ++ M) d = nth k L d.
Proof. apply app_nth1. Qed.
Lemma nth_second {A} (L M : list A) d k a : length L = a -> nth (a + k) (L ++ M) d = nth k M d.
Proof. intros <-. rewrite app_nth2 by lia. f_equal. lia. Qed.
Ltac lens := rewrite ?outer3_length, ?leg_len, ?both_l, ?(lob_l s p Hp); unfold m; lia.
Lemma hx_shape_x x y z k j i : (k < p + 1)%nat -> (j < p + 1)%nat -> (i < p)%nat ->
  nth ((k * (p + 1) + j) * p + i) (hx_shape s p [x; y; z]) [] = [o p i x * c s p j y * c s p k z; 0; 0].
Proof.
  intros Hk Hj Hi. unfold hx_shape. fold (outer3 (fun a b c : R => [a * b * c; 0; 0]) (leg_list p x) (lob_list s (p + 1) y) (lob_list s (p + 1) z)).
  rewrite nth_first by (rewrite outer3_length, leg_len, !(lob_l s p Hp); nia).
  pose proof (outer3_at (fun a b c : R => [a * b * c; 0; 0]) (leg_list p x) (lob_list s (p + 1) y) (lob_list s (p + 1) z) 0 0 0 [] i j k) as H.
  rewrite leg_len, !(lob_l s p Hp) in H. exact (H Hi Hj Hk).
Qed.
Lemma hx_shape_y x y z k j i : (k < p + 1)%nat -> (j < p)%nat -> (i < p + 1)%nat ->
  nth (m + ((k * p + j) * (p + 1) + i)) (hx_shape s p [x; y; z]) [] = [0; c s p i x * o p j y * c s p k z; 0].
Proof.
  intros Hk Hj Hi. unfold hx_shape. fold (outer3 (fun a b c : R => [a * b * c; 0; 0]) (leg_list p x) (lob_list s (p + 1) y) (lob_list s (p + 1) z)).
  rewrite nth_second by lens. fold (outer3 (fun a b c : R => [0; a * b * c; 0]) (lob_list s (p + 1) x) (leg_list p y) (lob_list s (p + 1) z)).
  rewrite nth_first by (rewrite outer3_length, leg_len, !(lob_l s p Hp); nia).
  pose proof (outer3_at (fun a b c : R => [0; a * b * c; 0]) (lob_list s (p + 1) x) (leg_list p y) (lob_list s (p + 1) z) 0 0 0 [] i j k) as H.
  rewrite leg_len, !(lob_l s p Hp) in H. exact (H Hi Hj Hk).
Qed.
Lemma hx_shape_z x y z k j i : (k < p)%nat -> (j < p + 1)%nat -> (i < p + 1)%nat ->
  nth (m + (m + ((k * (p + 1) + j) * (p + 1) + i))) (hx_shape s p [x; y; z]) [] = [0; 0; c s p i x * c s p j y * o p k z].
Proof.
  intros Hk Hj Hi. unfold hx_shape. fold (outer3 (fun a b c : R => [a * b * c; 0; 0]) (leg_list p x) (lob_list s (p + 1) y) (lob_list s (p + 1) z)).
  rewrite nth_second by lens. fold (outer3 (fun a b c : R => [0; a * b * c; 0]) (lob_list s (p + 1) x) (leg_list p y) (lob_list s (p + 1) z)).
  rewrite nth_second by lens.
  pose proof (outer3_at (fun a b c : R => [0; 0; a * b * c]) (lob_list s (p + 1) x) (lob_list s (p + 1) y) (leg_list p z) 0 0 0 [] i j k) as H.
  rewrite leg_len, !(lob_l s p Hp) in H. exact (H Hi Hj Hk).
Qed.
Let g := fun v => both (lob_list s (p + 1) v) (lob_d_list s (p + 1) v).
Lemma g_len v : length (g v) = (p + 1)%nat.
Proof. exact (both_l v). Qed.
Lemma hx_curl_x x y z k j i : (k < p + 1)%nat -> (j < p + 1)%nat -> (i < p)%nat ->
  nth ((k * (p + 1) + j) * p + i) (hx_curl s p [x; y; z]) [] = [0; o p i x * c s p j y * dc s p k z; - o p i x * dc s p j y * c s p k z].
Proof.
  intros Hk Hj Hi. unfold hx_curl. cbv zeta. fold (g x) (g y) (g z).
  fold (outer3 (fun (a : R) (b c : R * R) => [0; a * fst b * snd c; - a * snd b * fst c]) (leg_list p x) (g y) (g z)).
  rewrite nth_first by (unfold g; rewrite outer3_length, leg_len, !both_l; nia).
  pose proof (outer3_at (fun (a : R) (b c : R * R) => [0; a * fst b * snd c; - a * snd b * fst c]) (leg_list p x) (g y) (g z) 0 (0, 0) (0, 0) [] i j k) as H.
  rewrite leg_len, !g_len in H. specialize (H Hi Hj Hk). unfold outer3. unfold g in *. rewrite H, !both_n. reflexivity.
Qed.
Lemma hx_curl_y x y z k j i : (k < p + 1)%nat -> (j < p)%nat -> (i < p + 1)%nat ->
  nth (m + ((k * p + j) * (p + 1) + i)) (hx_curl s p [x; y; z]) [] = [- c s p i x * o p j y * dc s p k z; 0; dc s p i x * o p j y * c s p k z].
Proof.
  intros Hk Hj Hi. unfold hx_curl. cbv zeta. fold (g x) (g y) (g z).
  fold (outer3 (fun (a : R) (b c : R * R) => [0; a * fst b * snd c; - a * snd b * fst c]) (leg_list p x) (g y) (g z)).
  rewrite nth_second by (unfold g; lens). fold (outer3 (fun (a : R * R) (b : R) (c : R * R) => [- fst a * b * snd c; 0; snd a * b * fst c]) (g x) (leg_list p y) (g z)).
  rewrite nth_first by (unfold g; rewrite outer3_length, leg_len, !both_l; nia).
  pose proof (outer3_at (fun (a : R * R) (b : R) (c : R * R) => [- fst a * b * snd c; 0; snd a * b * fst c]) (g x) (leg_list p y) (g z) (0, 0) 0 (0, 0) [] i j k) as H.
  rewrite leg_len, !g_len in H. specialize (H Hi Hj Hk). unfold outer3. unfold g in *. rewrite H, !both_n. reflexivity.
Qed.
Lemma hx_curl_z x y z k j i : (k < p)%nat -> (j < p + 1)%nat -> (i < p + 1)%nat ->
  nth (m + (m + ((k * (p + 1) + j) * (p + 1) + i))) (hx_curl s p [x; y; z]) [] = [c s p i x * dc s p j y * o p k z; - dc s p i x * c s p j y * o p k z; 0].
Proof.
  intros Hk Hj Hi. unfold hx_curl. cbv zeta. fold (g x) (g y) (g z).
  fold (outer3 (fun (a : R) (b c : R * R) => [0; a * fst b * snd c; - a * snd b * fst c]) (leg_list p x) (g y) (g z)).
  rewrite nth_second by (unfold g; lens). fold (outer3 (fun (a : R * R) (b : R) (c : R * R) => [- fst a * b * snd c; 0; snd a * b * fst c]) (g x) (leg_list p y) (g z)).
  rewrite nth_second by (unfold g; lens).
  pose proof (outer3_at (fun (a b : R * R) (c : R) => [fst a * snd b * c; - snd a * fst b * c; 0]) (g x) (g y) (leg_list p z) (0, 0) (0, 0) 0 [] i j k) as H.
  rewrite leg_len, !g_len in H. specialize (H Hi Hj Hk). unfold g in *. rewrite H, !both_n. reflexivity.
Qed.
Lemma flat_mix n1 n2 k j i : (j < n2)%nat -> (i < n1)%nat -> let r := ((k * n2 + j) * n1 + i)%nat in (r / n1 / n2 = k /\ (r / n1) mod n2 = j /\ r mod n1 = i)%nat.
Proof. intros Hj Hi. cbv zeta. destruct (flat_divmod n1 (k * n2 + j) i Hi) as [-> ->]. destruct (flat_divmod n2 k j Hj) as [-> ->]. auto. Qed.
Lemma flat_hx_x u k j i : (k < p + 1)%nat -> (j < p + 1)%nat -> (i < p)%nat -> flat_hx p u ((k * (p + 1) + j) * p + i) = d3x u k j i.
Proof.
  intros Hk Hj Hi. unfold flat_hx. cbv zeta. rewrite (proj2 (Nat.ltb_lt _ _)) by nia.
  destruct (flat_mix p (p + 1) k j i Hj Hi) as [-> [-> ->]]. reflexivity.
Qed.
Lemma flat_hx_y u k j i : (k < p + 1)%nat -> (j < p)%nat -> (i < p + 1)%nat -> flat_hx p u (m + ((k * p + j) * (p + 1) + i)) = d3y u k j i.
Proof.
  intros Hk Hj Hi. unfold flat_hx. fold m. cbv zeta. rewrite (proj2 (Nat.ltb_ge _ m)) by lia.
  assert ((k * p + j) * (p + 1) + i < m)%nat by (unfold m; nia). rewrite (proj2 (Nat.ltb_lt _ _)) by lia.
  replace (m + ((k * p + j) * (p + 1) + i) - m)%nat with ((k * p + j) * (p + 1) + i)%nat by lia. destruct (flat_mix (p + 1) p k j i Hj Hi) as [-> [-> ->]]. reflexivity.
Qed.
Lemma flat_hx_z u k j i : (k < p)%nat -> (j < p + 1)%nat -> (i < p + 1)%nat -> flat_hx p u (m + (m + ((k * (p + 1) + j) * (p + 1) + i))) = d3z u k j i.
Proof.
  intros Hk Hj Hi. unfold flat_hx. fold m. cbv zeta. rewrite (proj2 (Nat.ltb_ge _ m)) by lia. rewrite (proj2 (Nat.ltb_ge _ _)) by lia.
  replace (m + (m + ((k * (p + 1) + j) * (p + 1) + i)) - (m + m))%nat with ((k * (p + 1) + j) * (p + 1) + i)%nat by lia.
  destruct (flat_mix (p + 1) (p + 1) k j i Hj Hi) as [-> [-> ->]]. reflexivity.
Qed.
Lemma hx_sum f : sumn (hx_ndof p) f =
  sumn (p + 1) (fun k => sumn (p + 1) (fun j => sumn p (fun i => f ((k * (p + 1) + j) * p + i)%nat))) +
  (sumn (p + 1) (fun k => sumn p (fun j => sumn (p + 1) (fun i => f (m + ((k * p + j) * (p + 1) + i))%nat))) +
   sumn p (fun k => sumn (p + 1) (fun j => sumn (p + 1) (fun i => f (m + (m + ((k * (p + 1) + j) * (p + 1) + i)))%nat)))).
Proof.
  unfold hx_ndof. replace (3 * p * (p + 1) * (p + 1))%nat with (m + (m + m))%nat by (unfold m; ring). rewrite sumn_app, sumn_app. f_equal; [|f_equal].
  - unfold m. rewrite (sumn_mul ((p + 1) * (p + 1)) p), (sumn_mul (p + 1) (p + 1)). reflexivity.
  - transitivity (sumn ((p + 1) * p * (p + 1)) (fun i => f (m + i)%nat)); [f_equal; unfold m; ring|]. rewrite (sumn_mul ((p + 1) * p) (p + 1)), (sumn_mul (p + 1) p). reflexivity.
  - transitivity (sumn (p * (p + 1) * (p + 1)) (fun i => f (m + (m + i))%nat)); [f_equal; unfold m; ring|]. rewrite (sumn_mul (p * (p + 1)) (p + 1)), (sumn_mul p (p + 1)). reflexivity.
Qed.
Definition xs (F : nat -> nat -> nat -> R) : R := sumn (p + 1) (fun k => sumn (p + 1) (fun j => sumn p (fun i => F k j i))).
Definition ys (F : nat -> nat -> nat -> R) : R := sumn (p + 1) (fun k => sumn p (fun j => sumn (p + 1) (fun i => F k j i))).
Definition zs (F : nat -> nat -> nat -> R) : R := sumn p (fun k => sumn (p + 1) (fun j => sumn (p + 1) (fun i => F k j i))).
Lemma sum3_ext n1 n2 n3 (F G : nat -> nat -> nat -> R) : (forall k j i, (k < n1)%nat -> (j < n2)%nat -> (i < n3)%nat -> F k j i = G k j i) ->
  sumn n1 (fun k => sumn n2 (fun j => sumn n3 (fun i => F k j i))) = sumn n1 (fun k => sumn n2 (fun j => sumn n3 (fun i => G k j i))).
Proof. intros H. apply sumn_ext. intros k Hk. apply sumn_ext. intros j Hj. apply sumn_ext. intros i Hi. now apply H. Qed.
Lemma hx_field_sum shape u a pt FX FY FZ :
  (forall k j i, (k < p + 1)%nat -> (j < p + 1)%nat -> (i < p)%nat -> nth a (nth ((k * (p + 1) + j) * p + i) (shape pt) []) 0 = FX k j i) ->
  (forall k j i, (k < p + 1)%nat -> (j < p)%nat -> (i < p + 1)%nat -> nth a (nth (m + ((k * p + j) * (p + 1) + i)) (shape pt) []) 0 = FY k j i) ->
  (forall k j i, (k < p)%nat -> (j < p + 1)%nat -> (i < p + 1)%nat -> nth a (nth (m + (m + ((k * (p + 1) + j) * (p + 1) + i))) (shape pt) []) 0 = FZ k j i) ->
  comp_sum shape (hx_ndof p) (flat_hx p u) a pt = xs (fun k j i => d3x u k j i * FX k j i) + (ys (fun k j i => d3y u k j i * FY k j i) + zs (fun k j i => d3z u k j i * FZ k j i)).
Proof.
  intros A B C. unfold comp_sum. rewrite hx_sum. f_equal; [|f_equal]; apply sum3_ext; intros k j i Hk Hj Hi; [rewrite flat_hx_x, A by assumption|rewrite flat_hx_y, B by assumption|rewrite flat_hx_z, C by assumption]; reflexivity.
Qed.
Lemma sum3_zero n1 n2 n3 (F : nat -> nat -> nat -> R) : (forall k j i, F k j i = 0) -> sumn n1 (fun k => sumn n2 (fun j => sumn n3 (fun i => F k j i))) = 0.
Proof. intros H. apply sumn_zero. intros k _. apply sumn_zero. intros j _. apply sumn_zero. intros i _. apply H. Qed.
Lemma hx_field_at u x y z :
  hx_field s p u 0 [x; y; z] = xs (fun k j i => d3x u k j i * (o p i x * c s p j y * c s p k z)) /\
  hx_field s p u 1 [x; y; z] = ys (fun k j i => d3y u k j i * (c s p i x * o p j y * c s p k z)) /\
  hx_field s p u 2 [x; y; z] = zs (fun k j i => d3z u k j i * (c s p i x * c s p j y * o p k z)).
Proof.
  unfold hx_field. split; [|split].
  - rewrite (hx_field_sum _ u 0 [x; y; z] (fun k j i => o p i x * c s p j y * c s p k z) (fun _ _ _ => 0) (fun _ _ _ => 0)); [|intros k j i Hk Hj Hi; rewrite ?hx_shape_x, ?hx_shape_y, ?hx_shape_z by assumption; reflexivity..].
    unfold ys, zs. rewrite !sum3_zero by (intros; ring). ring.
  - rewrite (hx_field_sum _ u 1 [x; y; z] (fun _ _ _ => 0) (fun k j i => c s p i x * o p j y * c s p k z) (fun _ _ _ => 0)); [|intros k j i Hk Hj Hi; rewrite ?hx_shape_x, ?hx_shape_y, ?hx_shape_z by assumption; reflexivity..].
    unfold xs, zs. rewrite !sum3_zero by (intros; ring). ring.
  - rewrite (hx_field_sum _ u 2 [x; y; z] (fun _ _ _ => 0) (fun _ _ _ => 0) (fun k j i => c s p i x * c s p j y * o p k z)); [|intros k j i Hk Hj Hi; rewrite ?hx_shape_x, ?hx_shape_y, ?hx_shape_z by assumption; reflexivity..].
    unfold xs, ys. rewrite !sum3_zero by (intros; ring). ring.
Qed.
Lemma sum3_opp n1 n2 n3 (F : nat -> nat -> nat -> R) : sumn n1 (fun k => sumn n2 (fun j => sumn n3 (fun i => - F k j i))) = - sumn n1 (fun k => sumn n2 (fun j => sumn n3 (fun i => F k j i))).
Proof. rewrite <- sumn_opp. apply sumn_ext. intros k _. rewrite <- sumn_opp. apply sumn_ext. intros j _. now rewrite <- sumn_opp. Qed.
Lemma hx_field_curl_at u x y z :
  hx_field_curl s p u 0 [x; y; z] = - ys (fun k j i => d3y u k j i * (c s p i x * o p j y * dc s p k z)) + zs (fun k j i => d3z u k j i * (c s p i x * dc s p j y * o p k z)) /\
  hx_field_curl s p u 1 [x; y; z] = xs (fun k j i => d3x u k j i * (o p i x * c s p j y * dc s p k z)) - zs (fun k j i => d3z u k j i * (dc s p i x * c s p j y * o p k z)) /\
  hx_field_curl s p u 2 [x; y; z] = - xs (fun k j i => d3x u k j i * (o p i x * dc s p j y * c s p k z)) + ys (fun k j i => d3y u k j i * (dc s p i x * o p j y * c s p k z)).
Proof.
  unfold hx_field_curl. split; [|split].
  - rewrite (hx_field_sum _ u 0 [x; y; z] (fun _ _ _ => 0) (fun k j i => - (c s p i x * o p j y * dc s p k z)) (fun k j i => c s p i x * dc s p j y * o p k z)).
    + unfold xs, ys, zs. rewrite sum3_zero by (intros; ring). rewrite Rplus_0_l, <- sum3_opp. f_equal. apply sum3_ext. intros; ring.
    + intros k j i Hk Hj Hi; rewrite ?hx_curl_x by assumption; reflexivity.
    + intros k j i Hk Hj Hi; rewrite ?hx_curl_y by assumption; cbn [nth]; ring.
    + intros k j i Hk Hj Hi; rewrite ?hx_curl_z by assumption; reflexivity.
  - rewrite (hx_field_sum _ u 1 [x; y; z] (fun k j i => o p i x * c s p j y * dc s p k z) (fun _ _ _ => 0) (fun k j i => - (dc s p i x * c s p j y * o p k z))).
    + unfold xs, ys, zs. rewrite (sum3_zero _ _ _ (fun k j i => d3y u k j i * 0)) by (intros; ring). rewrite Rplus_0_l. unfold Rminus. rewrite <- sum3_opp. f_equal. apply sum3_ext. intros; ring.
    + intros k j i Hk Hj Hi; rewrite ?hx_curl_x by assumption; reflexivity.
    + intros k j i Hk Hj Hi; rewrite ?hx_curl_y by assumption; reflexivity.
    + intros k j i Hk Hj Hi; rewrite ?hx_curl_z by assumption; cbn [nth]; ring.
  - rewrite (hx_field_sum _ u 2 [x; y; z] (fun k j i => - (o p i x * dc s p j y * c s p k z)) (fun k j i => dc s p i x * o p j y * c s p k z) (fun _ _ _ => 0)).
    + unfold xs, ys, zs. rewrite (sum3_zero _ _ _ (fun k j i => d3z u k j i * 0)) by (intros; ring). rewrite Rplus_0_r. rewrite <- sum3_opp. f_equal. apply sum3_ext. intros; ring.
    + intros k j i Hk Hj Hi; rewrite ?hx_curl_x by assumption; cbn [nth]; ring.
    + intros k j i Hk Hj Hi; rewrite ?hx_curl_y by assumption; reflexivity.
    + intros k j i Hk Hj Hi; rewrite ?hx_curl_z by assumption; reflexivity.
Qed.
End Hex.

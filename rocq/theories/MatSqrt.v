(** * The matrix square root (C61)

    numerics/functional/tensor.hpp:1306-1313, over the reals, for 3x3 matrices (the only size the library uses it for). *)
From Coq Require Import Reals Lra Lia Bool Setoid Morphisms Psatz.
From Verif Require Import Sums Dual Tensor LU MatAlg SymEig SymEigFacts SymEigRotate SymEigMain IsoFun IsoEig Spectral.
Local Open Scope R_scope.

(** tensor.hpp:1310: B = 0.5 * (B + dot(A, inv(B))); inv of a singular matrix is [None] *)
Definition sqrt_step (A B : mat) : option mat :=
  match invn 3 B with None => None | Some Bi => Some (mscal 0.5 (madd B (mmul 3 A Bi))) end.
(** tensor.hpp:1309: the loop *)
Fixpoint sqrt_steps (n : nat) (A B : mat) : option mat :=
  match n with
  | O => Some B
  | Datatypes.S n' => match sqrt_step A B with None => None | Some B' => sqrt_steps n' A B' end
  end.
(** tensor.hpp:1306-1313: 15 steps from A itself *)
Definition matrix_sqrt (A : mat) : option mat := sqrt_steps 15 A A.
(** liquid_crystal_elastomer.hpp:165-167: the stretch and the rotation of a deformation gradient *)
Definition polar (F : mat) : option (mat * mat) :=
  match matrix_sqrt (mmul 3 (transpose F) F) with
  | None => None
  | Some U => match invn 3 U with None => None | Some Ui => Some (U, mmul 3 F Ui) end
  end.

(** ** the scalar iteration *)
Fixpoint heron (n : nat) (x b : R) : R := match n with O => b | Datatypes.S n' => heron n' x (0.5 * (b + x * / b)) end.
Fixpoint sq (n : nat) (r : R) : R := match n with O => r | Datatypes.S n' => sq n' (r * r) end.

Lemma heron_next x b : 0 < x -> 0 < b -> 0 < 0.5 * (b + x * / b).
Proof. intros Hx Hb. assert (P := Rinv_0_lt_compat b Hb). assert (Q := Rmult_lt_0_compat x (/ b) Hx P). lra. Qed.
Lemma heron_pos n : forall x b, 0 < x -> 0 < b -> 0 < heron n x b.
Proof. induction n as [|n IH]; intros x b Hx Hb; cbn [heron]; [exact Hb|]. apply IH; [exact Hx|now apply heron_next]. Qed.
Lemma heron_closed n : forall s b, 0 < s -> 0 < b -> heron n (s * s) b - s = sq n ((b - s) / (b + s)) * (heron n (s * s) b + s).
Proof.
  induction n as [|n IH]; intros s b Hs Hb; cbn [heron sq].
  - field. lra.
  - assert (P := heron_next (s * s) b (Rmult_lt_0_compat _ _ Hs Hs) Hb). rewrite (IH s _ Hs P).
    replace ((0.5 * (b + s * s * / b) - s) / (0.5 * (b + s * s * / b) + s)) with ((b - s) / (b + s) * ((b - s) / (b + s))); [reflexivity|].
    assert (X1 := Rmult_lt_0_compat b b Hb Hb). assert (X2 := Rmult_lt_0_compat s s Hs Hs). assert (X3 := Rmult_lt_0_compat s b Hs Hb).
    replace 0.5 with (/ 2) by lra.
    replace (/ 2 * (b + s * s * / b) - s) with ((b - s) * (b - s) / (2 * b)) by (field; lra).
    replace (/ 2 * (b + s * s * / b) + s) with ((b + s) * (b + s) / (2 * b)) by (field; lra). field. lra.
Qed.

Lemma sq_nonneg n : forall r, 0 <= sq (Datatypes.S n) r.
Proof. induction n as [|n IH]; intro r; [cbn [sq]; assert (X := Rle_0_sqr r); exact X|]. change (0 <= sq (Datatypes.S n) (r * r)). apply IH. Qed.
Lemma sq_add n m : forall r, sq (n + m) r = sq m (sq n r).
Proof. induction n as [|n IH]; intro r; [reflexivity|]. cbn [Nat.add sq]. apply IH. Qed.
Lemma sq_mono n : forall r s, 0 <= r <= s -> 0 <= sq n r <= sq n s.
Proof. induction n as [|n IH]; intros r s H; [exact H|]. cbn [sq]. apply IH. split; [apply Rmult_le_pos; lra|]. apply Rmult_le_compat; lra. Qed.
Lemma sq_abs n r : sq (Datatypes.S n) r = sq (Datatypes.S n) (Rabs r).
Proof. cbn [sq]. f_equal. unfold Rabs. destruct (Rcase_abs r); ring. Qed.
Lemma sq_bound n : forall r x, 0 <= r -> 0 <= x -> r * (1 + x) <= 1 -> sq n r * (1 + 2 ^ n * x) <= 1.
Proof.
  induction n as [|n IH]; intros r x Hr Hx H; [cbn [sq pow]; lra|]. cbn [sq pow].
  replace (1 + 2 * 2 ^ n * x) with (1 + 2 ^ n * (2 * x)) by ring. apply IH; [apply Rmult_le_pos; lra|lra|].
  assert (P : 0 <= r * (1 + x)) by (apply Rmult_le_pos; lra).
  assert (Q : r * (1 + x) * (r * (1 + x)) <= 1 * 1) by (apply Rmult_le_compat; lra).
  assert (T : 0 <= r * r * (x * x)) by (apply Rmult_le_pos; apply Rmult_le_pos; lra). lra.
Qed.
Lemma ten19 : 10 ^ 19 = 10000000000000000000.
Proof. cbn [pow]. lra. Qed.
Lemma ten18 : 10 ^ 18 = 1000000000000000000.
Proof. cbn [pow]. lra. Qed.
Lemma ten6 : 10 ^ 6 = 1000000.
Proof. cbn [pow]. lra. Qed.
Lemma sq_15 r : Rabs r <= 999 / 1001 -> 0 <= sq 15 r <= / 10 ^ 19.
Proof.
  intro H. split; [apply sq_nonneg|]. rewrite sq_abs. set (a := Rabs r) in *. assert (Ha : 0 <= a) by apply Rabs_pos. clearbody a.
  rewrite ten19. change (sq 15 a) with (sq (9 + 6) a). rewrite sq_add.
  assert (B : sq 9 a <= / 2).
  { assert (X := sq_bound 9 a (2 / 999) Ha ltac:(lra) ltac:(lra)). assert (Y := sq_mono 9 0 a ltac:(lra)). cbn [pow] in X. lra. }
  assert (P : 0 <= sq 9 a) by apply sq_nonneg.
  apply Rle_trans with (sq 6 (/ 2)); [apply sq_mono; lra|]. cbn [sq].
  assert (E4 : / 2 * / 2 * (/ 2 * / 2) = / 16) by lra. rewrite E4.
  assert (E8 : / 16 * / 16 = / 256) by lra. rewrite E8. assert (E16 : / 256 * / 256 = / 65536) by lra. rewrite E16.
  assert (E32 : / 65536 * / 65536 = / 4294967296) by lra. rewrite E32. lra.
Qed.

Lemma heron_15 x : / 10 ^ 6 <= x <= 10 ^ 6 -> let b := heron 15 x x in 0 < b /\ 0 <= b * b - x <= / 10 ^ 18 * x.
Proof.
  intros Hx. cbv zeta. rewrite ten6 in Hx. rewrite ten18. assert (Px : 0 < x) by lra. assert (P := heron_pos 15 x x Px Px). split; [exact P|].
  set (s := sqrt x). assert (Ps : 0 < s) by (apply sqrt_lt_R0; exact Px).
  assert (Es : x = s * s) by (unfold s; now rewrite sqrt_sqrt by lra).
  assert (S1 : / 1000 <= s <= 1000).
  { clear P. clearbody s. subst x. split; nra. }
  assert (C := heron_closed 15 s x Ps Px). rewrite <- Es in C. set (b := heron 15 x x) in *.
  assert (Er : (x - s) / (x + s) = (s - 1) / (s + 1)). { rewrite Es. field. split; [|nra]. lra. }
  rewrite Er in C.
  assert (Ra : Rabs ((s - 1) / (s + 1)) <= 999 / 1001).
  { apply Rabs_le. assert (D : 0 < / (s + 1)) by (apply Rinv_0_lt_compat; lra).
    split; apply (Rmult_le_reg_r (s + 1)); try lra; unfold Rdiv; rewrite Rmult_assoc, Rinv_l by lra; lra. }
  assert (B := sq_15 _ Ra). set (rho := sq 15 ((s - 1) / (s + 1))) in *. clearbody rho b s. rewrite ten19 in B.
  assert (D : b * b - x = rho * ((b + s) * (b + s))). { replace (b * b - x) with ((b - s) * (b + s)) by (rewrite Es; ring). rewrite C. ring. }
  assert (L : b <= 2 * s).
  { assert (M : rho * (b + s) <= / 9 * (b + s)) by (apply Rmult_le_compat_r; lra). lra. }
  assert (Q : (b + s) * (b + s) <= 9 * x).
  { rewrite Es. replace (9 * (s * s)) with ((3 * s) * (3 * s)) by ring. apply Rmult_le_compat; lra. }
  assert (Q0 : 0 <= (b + s) * (b + s)) by (apply Rmult_le_pos; lra).
  rewrite D. split; [apply Rmult_le_pos; lra|].
  apply Rle_trans with (rho * (9 * x)); [apply Rmult_le_compat_l; lra|].
  apply Rle_trans with (/ 10000000000000000000 * (9 * x)); [apply Rmult_le_compat_r; lra|]. lra.
Qed.

(** ** the matrix iteration acts on each eigenvalue *)
Lemma det_of_inverse A B : meq 3 (mmul 3 A B) ident -> detn 3 A <> 0.
Proof.
  intros H Z. assert (D : dim23 3) by now right. assert (E := detn_mul 3 A B D). rewrite (detn_ext 3 _ _ D H), (detn_ident 3 D), Z in E. lra.
Qed.
Lemma inverse_is A B : meq 3 (mmul 3 A B) ident -> meq 3 (mmul 3 B A) ident -> exists C, invn 3 A = Some C /\ meq 3 C B.
Proof.
  intros H H'. assert (D : dim23 3) by now right. destruct (invn_works 3 A D (det_of_inverse A B H)) as [C E]. exists C. split; [exact E|].
  symmetry. exact (invn_unique 3 A C B D E H').
Qed.
Lemma comp_inverse Q l g B : orth 3 Q -> (forall k, (k < 3)%nat -> g (l k) <> 0) -> meq 3 B (comp 3 Q l g) ->
  exists C, invn 3 B = Some C /\ meq 3 C (comp 3 Q l (fun x => / g x)).
Proof.
  intros O P E.
  assert (I1 : meq 3 (comp 3 Q l (fun _ => 1)) ident). { intros i j Hi Hj. rewrite (comp_const 3 Q l 1 O i j Hi Hj). ring. }
  apply inverse_is; rewrite E, comp_mul by exact O; rewrite <- I1; apply comp_ext; intros k Hk; field; now apply P.
Qed.
Lemma madd_comp Q l f g : meq 3 (madd (comp 3 Q l f) (comp 3 Q l g)) (comp 3 Q l (fun x => f x + g x)).
Proof. intros i j _ _. unfold madd, comp. rewrite <- sumn_plus. apply sumn_ext. intros. ring. Qed.
Lemma mscal_comp Q l c f : meq 3 (mscal c (comp 3 Q l f)) (comp 3 Q l (fun x => c * f x)).
Proof. intros i j _ _. unfold mscal, comp. rewrite <- sumn_scal_l. apply sumn_ext. intros. ring. Qed.
Lemma steps_comp A Q l : orth 3 Q -> eigs 3 A Q l -> (forall k, (k < 3)%nat -> 0 < l k) ->
  forall n B g, (forall k, (k < 3)%nat -> 0 < g (l k)) -> meq 3 B (comp 3 Q l g) ->
  exists B', sqrt_steps n A B = Some B' /\ meq 3 B' (comp 3 Q l (fun x => heron n x (g x))).
Proof.
  intros O E L. induction n as [|n IH]; intros B g G H.
  - exists B. split; [reflexivity|exact H].
  - cbn [sqrt_steps]. unfold sqrt_step.
    destruct (comp_inverse Q l g B O) as [C [EC HC]]; [intros k Hk; assert (X := G k Hk); lra|exact H|]. rewrite EC.
    destruct (IH (mscal 0.5 (madd B (mmul 3 A C))) (fun x => 0.5 * (g x + x * / g x))) as [B' [EB HB]].
    + intros k Hk. apply heron_next; auto.
    + assert (EA := comp_id 3 A Q l O E). rewrite H, HC. rewrite <- EA. rewrite comp_mul by exact O. rewrite madd_comp, mscal_comp. reflexivity.
    + exists B'. split; [exact EB|exact HB].
Qed.

(** ** quadratic forms *)
Definition coef (Q : mat) (u : v3) (k : nat) : R := sumn 3 (fun i => Q i k * entry u i).
Lemma quad_comp Q l f u : dot3 u (mv3 (comp 3 Q l f) u) = sumn 3 (fun k => f (l k) * (coef Q u k * coef Q u k)).
Proof. destruct u as [a b c]. unfold dot3, mv3, comp, coef. cbn [c0 c1 c2 sumn entry]. ring. Qed.
Lemma mv3_ext A B u : meq 3 A B -> mv3 A u = mv3 B u.
Proof. intro H. unfold mv3. rewrite !(H _ _) by lia. reflexivity. Qed.
Lemma mv3_ident u : mv3 ident u = u.
Proof. destruct u as [a b c]. unfold mv3, ident. cbn [Nat.eqb c0 c1 c2]. f_equal; ring. Qed.
Lemma norm_coef Q u : orth 3 Q -> dot3 u u = sumn 3 (fun k => coef Q u k * coef Q u k).
Proof.
  intro O. rewrite <- (mv3_ident u) at 2. rewrite (mv3_ext ident (comp 3 Q (fun _ => 0) (fun _ => 1)) u).
  - rewrite quad_comp. apply sumn_ext. intros. ring.
  - intros i j Hi Hj. rewrite (comp_const 3 Q _ 1 O i j Hi Hj). ring.
Qed.
Definition col (Q : mat) (k : nat) : v3 := V (Q 0%nat k) (Q 1%nat k) (Q 2%nat k).
Lemma col_unit Q k : orth 3 Q -> (k < 3)%nat -> dot3 (col Q k) (col Q k) = 1.
Proof. intros O Hk. assert (X := cols 3 Q k k O Hk Hk). unfold ident in X. rewrite Nat.eqb_refl in X. cbn [sumn] in X. unfold dot3, col. cbn [c0 c1 c2]. lra. Qed.
Lemma col_value A Q l k : orth 3 Q -> eigs 3 A Q l -> (k < 3)%nat -> dot3 (col Q k) (mv3 A (col Q k)) = l k.
Proof.
  intros O E Hk. assert (U := col_unit Q k O Hk).
  assert (M : mv3 A (col Q k) = vscal (l k) (col Q k)).
  { unfold mv3, vscal, col. cbn [c0 c1 c2]. assert (X0 := E 0%nat k ltac:(lia) Hk). assert (X1 := E 1%nat k ltac:(lia) Hk). assert (X2 := E 2%nat k ltac:(lia) Hk).
    cbn [sumn] in X0, X1, X2. f_equal; lra. }
  rewrite M, dot3_scal_r, U. ring.
Qed.
Lemma col_nonzero Q k : orth 3 Q -> (k < 3)%nat -> col Q k <> zero3.
Proof. intros O Hk Z. assert (U := col_unit Q k O Hk). rewrite Z in U. unfold dot3, zero3 in U. cbn [c0 c1 c2] in U. lra. Qed.
Lemma sum3_nonneg f : (forall k, (k < 3)%nat -> 0 <= f k) -> 0 <= sumn 3 f.
Proof. intro H. cbn [sumn]. assert (X0 := H 0%nat ltac:(lia)). assert (X1 := H 1%nat ltac:(lia)). assert (X2 := H 2%nat ltac:(lia)). lra. Qed.

(** ** the result *)
(** all stretches of the matrix lie between lo and hi *)
Definition within (lo hi : R) (A : mat) : Prop := forall u, lo * dot3 u u <= dot3 u (mv3 A u) <= hi * dot3 u u.

Lemma sqrt_spectral A : symmetric3 A -> positive_definite A -> exists Q l B, orth 3 Q /\ eigs 3 A Q l /\ (forall k, (k < 3)%nat -> 0 < l k) /\
  matrix_sqrt A = Some B /\ meq 3 B (comp 3 Q l (fun x => heron 15 x x)).
Proof.
  intros HS PD. destruct (spectral A HS) as [Q [l [O E]]].
  assert (L : forall k, (k < 3)%nat -> 0 < l k) by (intros k Hk; rewrite <- (col_value A Q l k O E Hk); apply PD, col_nonzero; auto).
  destruct (steps_comp A Q l O E L 15 A (fun x => x) L) as [B [EB HB]]; [symmetry; now apply comp_id|].
  exists Q, l, B. repeat split; auto; apply O.
Qed.

Theorem sqrt_shape A : symmetric3 A -> positive_definite A -> exists B, matrix_sqrt A = Some B /\ symmetric3 B /\ positive_definite B /\
  meq 3 (mmul 3 A B) (mmul 3 B A).
Proof.
  intros HS PD. destruct (sqrt_spectral A HS PD) as [Q [l [B [O [E [L [EB HB]]]]]]]. exists B. split; [exact EB|]. split; [|split].
  - intros i j Hi Hj. rewrite !HB by assumption. apply comp_sym.
  - intros u Hu. rewrite (mv3_ext B _ u HB), quad_comp.
    assert (P : forall k, (k < 3)%nat -> 0 <= heron 15 (l k) (l k) * (coef Q u k * coef Q u k)).
    { intros k Hk. apply Rmult_le_pos; [left; apply heron_pos; auto|]. assert (X := Rle_0_sqr (coef Q u k)). exact X. }
    destruct (Rle_lt_or_eq_dec _ _ (sum3_nonneg _ P)) as [Hlt|Z]; [exact Hlt|]. exfalso. apply Hu, dot3_zero. rewrite (norm_coef Q u O).
    assert (Zk : forall k, (k < 3)%nat -> coef Q u k * coef Q u k = 0).
    { intros k Hk. cbn [sumn] in Z. assert (P0 := P 0%nat ltac:(lia)). assert (P1 := P 1%nat ltac:(lia)). assert (P2 := P 2%nat ltac:(lia)).
      assert (M : heron 15 (l k) (l k) * (coef Q u k * coef Q u k) = 0) by (destruct k as [|[|[|]]]; try lia; lra).
      apply Rmult_integral in M. destruct M as [M|M]; [|exact M]. assert (X := heron_pos 15 (l k) (l k) (L k Hk) (L k Hk)). lra. }
    cbn [sumn]. rewrite !Zk by lia. lra.
  - assert (EA := comp_id 3 A Q l O E). rewrite HB. rewrite <- EA. rewrite !comp_mul by exact O. apply comp_ext. intros. ring.
Qed.

Lemma within_positive lo hi A : 0 < lo -> within lo hi A -> positive_definite A.
Proof.
  intros Hl W u Hu. assert (X := W u). assert (P : 0 < dot3 u u).
  { destruct (Rle_lt_or_eq_dec _ _ (dot3_self u)) as [P|Z]; [exact P|]. exfalso. apply Hu, dot3_zero. now symmetry. }
  assert (Y := Rmult_lt_0_compat _ _ Hl P). lra.
Qed.
Lemma within_values lo hi A Q l : within lo hi A -> orth 3 Q -> eigs 3 A Q l -> forall k, (k < 3)%nat -> lo <= l k <= hi.
Proof. intros W O E k Hk. assert (X := W (col Q k)). rewrite (col_unit Q k O Hk), (col_value A Q l k O E Hk) in X. lra. Qed.

Theorem sqrt_accurate A : symmetric3 A -> within (/ 10 ^ 6) (10 ^ 6) A -> exists B, matrix_sqrt A = Some B /\
  forall u, 0 <= dot3 u (mv3 (msub (mmul 3 B B) A) u) <= / 10 ^ 18 * dot3 u (mv3 A u).
Proof.
  intros HS W. assert (PD : positive_definite A) by (apply (within_positive _ _ A) with (2 := W); apply Rinv_0_lt_compat, pow_lt; lra).
  destruct (sqrt_spectral A HS PD) as [Q [l [B [O [E [L [EB HB]]]]]]]. exists B. split; [exact EB|]. intro u.
  assert (EA := comp_id 3 A Q l O E).
  assert (D : meq 3 (msub (mmul 3 B B) A) (comp 3 Q l (fun x => heron 15 x x * heron 15 x x - x))).
  { rewrite HB. rewrite <- EA. rewrite comp_mul by exact O. intros i j _ _. unfold msub, comp. rewrite <- sumn_minus. apply sumn_ext. intros. ring. }
  assert (K : forall k, (k < 3)%nat -> 0 <= heron 15 (l k) (l k) * heron 15 (l k) (l k) - l k <= / 10 ^ 18 * l k).
  { intros k Hk. apply heron_15. exact (within_values _ _ A Q l W O E k Hk). }
  rewrite (mv3_ext _ _ u D), quad_comp. rewrite (mv3_ext A _ u ltac:(symmetry; exact EA)), quad_comp. split.
  - apply sum3_nonneg. intros k Hk. apply Rmult_le_pos; [apply K, Hk|]. assert (X := Rle_0_sqr (coef Q u k)). exact X.
  - rewrite <- sumn_scal_l.
    assert (M : forall k, (k < 3)%nat -> (heron 15 (l k) (l k) * heron 15 (l k) (l k) - l k) * (coef Q u k * coef Q u k) <= / 10 ^ 18 * (l k * (coef Q u k * coef Q u k))).
    { intros k Hk. rewrite <- (Rmult_assoc (/ 10 ^ 18)). apply Rmult_le_compat_r; [assert (X := Rle_0_sqr (coef Q u k)); exact X|apply K, Hk]. }
    assert (M0 := M 0%nat ltac:(lia)). assert (M1 := M 1%nat ltac:(lia)). assert (M2 := M 2%nat ltac:(lia)). clear - M0 M1 M2. cbn [sumn].
    set (e := / 10 ^ 18) in *. clearbody e. lra.
Qed.

(** ** the polar decomposition *)
Lemma quad_gram F u : dot3 u (mv3 (mmul 3 (transpose F) F) u) = dot3 (mv3 F u) (mv3 F u).
Proof. destruct u as [a b c]. unfold dot3, mv3, mmul, transpose. cbn [c0 c1 c2 sumn]. ring. Qed.
Lemma gram_sym F : symmetric3 (mmul 3 (transpose F) F).
Proof. intros i j _ _. unfold mmul, transpose. apply sumn_ext. intros. ring. Qed.

(** every line is stretched by a factor between a thousandth and a thousand *)
Definition moderate (F : mat) : Prop := forall u, / 10 ^ 6 * dot3 u u <= dot3 (mv3 F u) (mv3 F u) <= 10 ^ 6 * dot3 u u.

Theorem polar_accurate F : moderate F -> exists U Rt, polar F = Some (U, Rt) /\ meq 3 (mmul 3 Rt U) F /\ symmetric3 U /\ positive_definite U /\
  forall u, 0 <= dot3 u u - dot3 (mv3 Rt u) (mv3 Rt u) <= / 10 ^ 18 * dot3 u u.
Proof.
  intro Mo. set (A := mmul 3 (transpose F) F).
  assert (HS : symmetric3 A) by apply gram_sym.
  assert (W : within (/ 10 ^ 6) (10 ^ 6) A) by (intro u; unfold A; rewrite quad_gram; apply Mo).
  assert (PD : positive_definite A) by (apply (within_positive _ _ A) with (2 := W); apply Rinv_0_lt_compat, pow_lt; lra).
  destruct (sqrt_shape A HS PD) as [B' [EB' [SB [PB _]]]].
  destruct (sqrt_spectral A HS PD) as [Q [l [B [O [E [L [EB HB]]]]]]]. assert (B' = B) by congruence. subst B'.
  assert (K : forall k, (k < 3)%nat -> 0 < heron 15 (l k) (l k) /\ 0 <= heron 15 (l k) (l k) * heron 15 (l k) (l k) - l k <= / 10 ^ 18 * l k).
  { intros k Hk. apply (heron_15 (l k)). exact (within_values _ _ A Q l W O E k Hk). }
  destruct (comp_inverse Q l (fun x => heron 15 x x) B O) as [C [EC HC]]; [intros k Hk; destruct (K k Hk); lra|exact HB|].
  exists B, (mmul 3 F C). split; [unfold polar; fold A; now rewrite EB, EC|]. split; [|split; [exact SB|split; [exact PB|]]].
  - destruct (invn_some 3 B C (or_intror eq_refl) EC) as [_ [H2 _]]. rewrite mmul_assoc, H2, mmul_ident_r. reflexivity.
  - intro u. rewrite <- quad_gram.
    assert (EA := comp_id 3 A Q l O E).
    assert (D : meq 3 (mmul 3 (transpose (mmul 3 F C)) (mmul 3 F C)) (comp 3 Q l (fun x => / heron 15 x x * (x * / heron 15 x x)))).
    { assert (ST : meq 3 (transpose C) C) by (intros i j Hi Hj; unfold transpose; rewrite !HC by assumption; apply comp_sym).
      rewrite transpose_mul, ST, mmul_assoc, <- (mmul_assoc 3 (transpose F) F C). fold A. rewrite <- EA, HC, !comp_mul by exact O. reflexivity. }
    rewrite (mv3_ext _ _ u D), quad_comp, (norm_coef Q u O), <- sumn_minus, <- sumn_scal_l.
    assert (M : forall k, (k < 3)%nat -> 0 <= coef Q u k * coef Q u k - / heron 15 (l k) (l k) * (l k * / heron 15 (l k) (l k)) * (coef Q u k * coef Q u k) <= / 10 ^ 18 * (coef Q u k * coef Q u k)).
    { intros k Hk. destruct (K k Hk) as [P [K1 K2]]. assert (Lk := L k Hk). set (b := heron 15 (l k) (l k)) in *. assert (X := Rle_0_sqr (coef Q u k)). unfold Rsqr in X.
      set (c := coef Q u k * coef Q u k) in *. clearbody b c. set (x := l k) in *. clearbody x. set (e := / 10 ^ 18) in *.
      assert (Pe : 0 < e) by (apply Rinv_0_lt_compat, pow_lt; lra). clearbody e.
      replace (c - / b * (x * / b) * c) with ((b * b - x) * (/ b * / b) * c) by (field; lra).
      assert (Pb : 0 < / b) by now apply Rinv_0_lt_compat. assert (Pbb : 0 < / b * / b) by now apply Rmult_lt_0_compat.
      split; [apply Rmult_le_pos; [apply Rmult_le_pos; lra|lra]|]. apply Rmult_le_compat_r; [lra|].
      apply Rle_trans with (e * (b * b) * (/ b * / b)); [|right; field; lra]. apply Rmult_le_compat_r; [lra|].
      apply Rle_trans with (e * x); [lra|]. apply Rmult_le_compat_l; lra. }
    assert (M0 := M 0%nat ltac:(lia)). assert (M1 := M 1%nat ltac:(lia)). assert (M2 := M 2%nat ltac:(lia)). clear - M0 M1 M2. cbn [sumn].
    set (e := / 10 ^ 18) in *. clearbody e. lra.
Qed.

(** ** where it fails *)
Lemma heron_half n : forall x b, 0 < x -> 0 < b -> b <= 2 ^ n * heron n x b.
Proof.
  induction n as [|n IH]; intros x b Hx Hb; cbn [heron pow]; [lra|].
  assert (X := IH x _ Hx (heron_next x b Hx Hb)). assert (P := Rinv_0_lt_compat b Hb). assert (Q := Rmult_lt_0_compat x (/ b) Hx P). lra.
Qed.
Theorem sqrt_inaccurate : exists A B, symmetric3 A /\ positive_definite A /\ matrix_sqrt A = Some B /\
  forall u, 9 * dot3 u (mv3 A u) <= dot3 u (mv3 (mmul 3 B B) u).
Proof.
  set (x := 10 ^ 10). set (A := mscal x ident). assert (Px : 0 < x) by (unfold x; apply pow_lt; lra).
  assert (QA : forall u, dot3 u (mv3 A u) = x * dot3 u u) by (intros [a b c]; unfold A, mscal, ident, dot3, mv3; cbn [c0 c1 c2 Nat.eqb]; ring).
  assert (O : orth 3 ident).
  { split; [rewrite transpose_ident, mmul_ident_l; reflexivity|rewrite mmul_ident_l, transpose_ident; reflexivity]. }
  assert (E : eigs 3 A ident (fun _ => x)).
  { intros i k Hi Hk. unfold A, mscal. destruct i as [|[|[|]]]; try lia; destruct k as [|[|[|]]]; try lia; unfold ident; cbn [sumn Nat.eqb]; ring. }
  destruct (steps_comp A ident (fun _ => x) O E (fun _ _ => Px) 15 A (fun y => y) (fun _ _ => Px)) as [B [EB HB]]; [symmetry; now apply comp_id|].
  exists A, B. split; [intros i j _ _; unfold A, mscal, ident; now rewrite Nat.eqb_sym|]. split.
  { intros u Hu. rewrite QA. apply Rmult_lt_0_compat; [exact Px|]. destruct (Rle_lt_or_eq_dec _ _ (dot3_self u)) as [P|Z]; [exact P|]. exfalso. apply Hu, dot3_zero. now symmetry. }
  split; [exact EB|]. intro u.
  assert (D : meq 3 (mmul 3 B B) (comp 3 ident (fun _ => x) (fun y => heron 15 y y * heron 15 y y))) by (rewrite HB, comp_mul by exact O; reflexivity).
  rewrite QA, (mv3_ext _ _ u D), quad_comp, (norm_coef ident u O).
  assert (H := heron_half 15 x x Px Px). set (b := heron 15 x x) in *.
  assert (Pb : 0 < b) by now apply heron_pos. clearbody b.
  assert (L : 9 * x <= b * b).
  { unfold x in *. cbn [pow] in *. assert (Hb : 300000 <= b) by lra. assert (300000 * 300000 <= b * b) by (apply Rmult_le_compat; lra). lra. }
  assert (N := norm_coef ident u O). rewrite sumn_scal_l. rewrite <- Rmult_assoc. apply Rmult_le_compat_r; [rewrite <- N; apply dot3_self|exact L].
Qed.

(** * Balance of momentum, of angular momentum and of heat for the residuals of the physics modules *)
From Coq Require Import NArith ZArith Reals List Lia Lra Bool.
From Verif Require Import Prelude DofCodec Sums Restriction Kernels FunctionalModel Assembly Tensor MatAlg Materials ShapeAware WeakForm WeakFormFacts.
Import ListNotations.
Local Open Scope R_scope.

(** ** specification: what each term contributes to the i-th component of the total, per unit of parent measure *)
Definition unit_normal (n : nat) (J : mat) : vec := fun k => crossn n J k / vnorm n (crossn n J).
Definition solid_force {St} (n : nat) (T : solid_term St) (t : R) (X : vec) (J : mat) (u a : slots) (i : nat) : R :=
  match T with
  | SMaterial _ rho _ => rho * a i 0%nat * detn n J
  | SBody b => - b X t i * detn n J
  | STraction tr => - tr X (unit_normal n J) t i * vnorm n (crossn n J)
  | SPressure on p => p X t * crossn n (fun r c => J r c + if on then u r (S c) else 0) i
  end.
Definition heat_rate (n : nat) (T : heat_term) (t : R) (X : vec) (J : mat) (u ut : slots) (H : mat) : R :=
  match T with
  | HMaterial m => fst (m X (u 0%nat 0%nat) (H 0%nat)) * ut 0%nat 0%nat * detn n J
  | HSource s => - s X t (u 0%nat 0%nat) (H 0%nat) * detn n J
  | HFlux q => q X (unit_normal n J) t (u 0%nat 0%nat) * vnorm n (crossn n J)
  end.
Definition is_volume {St} (T : solid_term St) : bool := match T with SMaterial _ _ _ | SBody _ => true | _ => false end.
Definition is_volume_h (T : heat_term) : bool := match T with HFlux _ => false | _ => true end.

Lemma crossn_ext n D E i : dim23 n -> (forall a b, (a < n)%nat -> (b < n - 1)%nat -> D a b = E a b) -> crossn n D i = crossn n E i.
Proof.
  intros [-> | ->] H; unfold crossn; cbn [Nat.eqb]; destruct i as [|[|[|i]]]; rewrite ?H by lia; reflexivity.
Qed.
Lemma point_out_volume n J s P out : dim23 n -> point_out n (Volume J s P) = Some out ->
  exists KT, invn n (transpose J) = Some KT /\ (forall i, out i 0%nat = s i * detn n J) /\ (forall i j, out i (S j) = mmul n P KT i j * detn n J).
Proof.
  intros D E. cbn [point_out] in E. unfold physical_to_parent in E. destruct (invn n (transpose J)) as [KT|] eqn:EK; [|discriminate].
  injection E as <-. exists KT. rewrite detn_transpose by auto. repeat split.
Qed.

(** the source part of a solid's integrand *)
Lemma solid_point_source {St} n (T : solid_term St) t X J u a st p out i : dim23 n -> solid_point n T t X J u a st = Some p -> point_out n p = Some out ->
  out i 0%nat = solid_force n T t X J u a i.
Proof.
  intros D E O. destruct T as [on rho sigma|b|tr|on pr]; cbn [solid_point] in E.
  - destruct (grad_phys n J u) as [H|]; [|discriminate]. destruct (sigma st H) as [s|]; [|discriminate].
    destruct (flux n on s H) as [P|]; [|discriminate]. injection E as <-. destruct (point_out_volume n J _ P out D O) as (KT & _ & A & _). now rewrite A.
  - injection E as <-. destruct (point_out_volume n J _ _ out D O) as (KT & _ & A & _). rewrite A. cbn [solid_force]. ring.
  - destruct (Req_EM_T _ _) as [|N]; [discriminate|]. injection E as <-. cbn [point_out] in O. injection O as <-. cbn [solid_force]. unfold unit_normal. ring.
  - destruct (Req_EM_T _ _) as [|N]; [discriminate|]. injection E as <-. cbn [point_out] in O. injection O as <-. cbn [solid_force].
    rewrite (crossn_ext n (fun r c => J r c + (if on then u r (S c) else 0))
       (if on then madd (madd J (mscal 0 (fun i j => u i (S j)))) (fun i j => u i (S j)) else madd J (mscal 0 (fun i j => u i (S j)))) i D).
    + field. exact N.
    + intros r c _ _. destruct on; unfold madd, mscal; ring.
Qed.
Lemma heat_point_source n T t X J u ut p out H : dim23 n -> heat_point n T t X J u ut = Some p -> point_out n p = Some out ->
  (is_volume_h T = true -> grad_phys n J u = Some H) -> out 0%nat 0%nat = heat_rate n T t X J u ut H.
Proof.
  intros D E O HH. destruct T as [m|s|q]; cbn [heat_point] in E.
  - rewrite HH in E by reflexivity. injection E as <-. destruct (point_out_volume n J _ _ out D O) as (KT & _ & A & _). now rewrite A.
  - rewrite HH in E by reflexivity. injection E as <-. destruct (point_out_volume n J _ _ out D O) as (KT & _ & A & _). rewrite A. cbn [heat_rate]. ring.
  - destruct (Req_EM_T _ _) as [|N]; [discriminate|]. injection E as <-. cbn [point_out] in O. injection O as <-. reflexivity.
Qed.

(** ** P F^T is the Kirchhoff stress *)
Lemma flux_moment n on s H P : dim23 n -> flux n on s H = Some P ->
  meq n (mmul n P (transpose (fun i j => ident i j + if on then H i j else 0)))
        (mscal (detn n (fun i j => ident i j + if on then H i j else 0)) s).
Proof.
  intros D E. unfold flux in E.
  set (dx := if on then madd (madd (mscal 0 H) ident) H else madd (mscal 0 H) ident) in E.
  assert (Edx : meq n (fun i j => ident i j + (if on then H i j else 0)) dx).
  { intros i j _ _. unfold dx. destruct on; unfold madd, mscal; ring. }
  destruct (invn n dx) as [B|] eqn:EB; [|discriminate]. injection E as <-. destruct (invn_some n dx B D EB) as (A & _ & _).
  intros i j Hi Hj. rewrite (detn_ext n _ dx D Edx). rewrite mmul_scal_l by auto. unfold mscal. f_equal.
  rewrite (rmul_ext n _ (mmul n s (transpose B)) _ (transpose dx) i j); [|reflexivity|].
  - rewrite rmul_assoc. rewrite (rmul_ext n s s _ ident i j); [now apply mmul_ident_r|reflexivity|].
    intros k Hk. rewrite <- (transpose_mul n dx B k j) by auto. unfold transpose. rewrite A by auto. unfold ident. now rewrite Nat.eqb_sym.
  - intros k Hk. unfold transpose. now apply Edx.
Qed.

Section Physics.
Context {St : Type}.
Notation gkernel := (gkernel St). Notation integral := (integral St).
Notation functional := (functional St). Notation mem := (mem St).

(** the k-th integral of the functional is the k-th term, evaluated at points with position [pos] and Jacobian [jac];
    argument 0 is the displacement, argument 1 the acceleration *)
Definition solid_residual (n : nat) (f : functional) t Ls (m : mem) (terms : list (solid_term St)) (pos : nat -> nat -> nat -> nat -> vec) (jac : nat -> nat -> nat -> nat -> mat) : Prop :=
  forall k Ig g G le q, nth_error (f_integrals f) k = Some Ig -> nth_error (i_geoms Ig) g = Some G -> (le < length (gk_elems G))%nat -> (q < gk_nq G)%nat ->
  exists T p out, nth_error terms k = Some T /\
    solid_point n T t (pos k g le q) (jac k g le q) (qf_inputs G g (Es_of f Ls Ig) le q 0%nat) (qf_inputs G g (Es_of f Ls Ig) le q 1%nat) (m_q m k g le q) = Some p /\
    point_out n p = Some out /\ gk_dim1 G = (if is_volume T then S n else n) /\
    (forall i b, (i < n)%nat -> (b < gk_dim1 G)%nat -> qf_out f t Ls m k Ig g G le q i b = out i b).
Definition heat_residual (n : nat) (f : functional) t Ls (m : mem) (terms : list heat_term) (pos : nat -> nat -> nat -> nat -> vec) (jac grad : nat -> nat -> nat -> nat -> mat) : Prop :=
  forall k Ig g G le q, nth_error (f_integrals f) k = Some Ig -> nth_error (i_geoms Ig) g = Some G -> (le < length (gk_elems G))%nat -> (q < gk_nq G)%nat ->
  exists T p out, nth_error terms k = Some T /\
    heat_point n T t (pos k g le q) (jac k g le q) (qf_inputs G g (Es_of f Ls Ig) le q 0%nat) (qf_inputs G g (Es_of f Ls Ig) le q 1%nat) = Some p /\
    point_out n p = Some out /\ gk_dim1 G = (if is_volume_h T then S n else n) /\
    (is_volume_h T = true -> grad_phys n (jac k g le q) (qf_inputs G g (Es_of f Ls Ig) le q 0%nat) = Some (grad k g le q)) /\
    (forall b, (b < gk_dim1 G)%nat -> qf_out f t Ls m k Ig g G le q 0%nat b = out 0%nat b).

Section Solid.
Context (n : nat) (Hn : dim23 n) (f : functional) (t : R) (wrt : option nat) (upd : bool) (Ls : nat -> list R) (m m' : mem) (L' : list R) (o : ordering) (nn : nat)
        (terms : list (solid_term St)) (pos : nat -> nat -> nat -> nat -> vec) (jac : nat -> nat -> nat -> nat -> mat).
Context (Hwf : wf f (nn * n) (fun w => length (Ls w))) (Hfit : all_fit f) (Hlay : layout f o nn n)
        (He : evaluate f t wrt upd Ls (nn * n) m = Ok (L', m')) (Hres : solid_residual n f t Ls m terms pos jac).
Notation args G g Ig le q := (qf_inputs G g (Es_of f Ls Ig) le q).

Theorem momentum i : (i < n)%nat -> unity f -> total o nn n L' i =
  over_points f (fun k Ig g G r le q => match nth_error terms k with Some T =>
     solid_force n T t (pos k g le q) (jac k g le q) (args G g Ig le q 0%nat) (args G g Ig le q 1%nat) i | None => 0 end).
Proof.
  intros Hi HU. rewrite (balance f t wrt upd Ls m m' L' o nn n Hwf Hfit Hlay He i Hi HU). apply over_points_ext.
  intros k Ig g G r le q E1 E2 E3 Hle Hq. destruct (Hres k Ig g G le q E1 E2 Hle Hq) as (T & p & out & A1 & A2 & A3 & A4 & A5). rewrite A1.
  assert (HD : (0 < gk_dim1 G)%nat) by (rewrite A4; destruct (is_volume T); [lia|destruct Hn; lia]). rewrite A5 by auto. now apply (solid_point_source n T t _ _ _ _ _ p out i Hn A2 A3).
Qed.

(** reference positions [xref] of the nodes reproduce the geometry; displacement interpolated like the test functions *)
Definition isoparametric (xref : nat -> nat -> R) : Prop :=
  forall k Ig g G r le q, nth_error (f_integrals f) k = Some Ig -> nth_error (i_geoms Ig) g = Some G -> nth_error (f_test f (i_type Ig)) g = Some r ->
   (le < length (gk_elems G))%nat -> (q < gk_nq G)%nat ->
   (forall i, (i < n)%nat -> field_at G r xref le q i 0%nat = pos k g le q i) /\
   (forall i j, (i < n)%nat -> (S j < gk_dim1 G)%nat -> field_at G r xref le q i (S j) = jac k g le q i j).
Definition same_spaces : Prop := (forall dt, f_trial f 0 dt = f_test f dt) /\
  forall Ig, In Ig (f_integrals f) -> (exists rest, i_active Ig = 0%nat :: rest) /\ forall G, In G (i_geoms Ig) -> gk_trial G 0%nat = gk_test G.

Lemma displacement_arg k Ig g G r le q i b : same_spaces -> nth_error (f_integrals f) k = Some Ig -> nth_error (i_geoms Ig) g = Some G -> nth_error (f_test f (i_type Ig)) g = Some r ->
  (le < length (gk_elems G))%nat -> (i < n)%nat -> args G g Ig le q 0%nat i b = field_at G r (fun a c => nth (dof_number o nn n a c) (Ls 0%nat) 0) le q i b.
Proof.
  intros [S1 S2] E1 E2 E3 Hle Hi. assert (HI : In Ig (f_integrals f)) by (now apply nth_error_In in E1).
  assert (Hr : In r (f_test f (i_type Ig))) by (now apply nth_error_In in E3).
  destruct (S2 Ig HI) as [(rest & Ea) S3]. unfold qf_inputs. rewrite (S3 G) by (now apply nth_error_In in E2).
  unfold field_at. apply interpolate_ext. intros j Hj. unfold elem_dofs, Es_of. rewrite Ea. cbn [map nth]. rewrite S1.
  rewrite (nth_error_nth _ _ [] (map_nth_error (fun r0 => gatherF r0 (Ls 0%nat)) g _ E3)).
  destruct (Hfit Ig g G r HI E2 E3) as (F1 & F2 & F3). destruct (Hlay (i_type Ig) r Hr) as (Hp & Ho & Hnn & Hnc). rewrite F1, F2.
  assert (Hel : (nth le (gk_elems G) 0 < r_num_elements r)%nat) by (now apply F3, nth_In).
  rewrite gatherF_entry by (auto; lia). destruct (plain_node_of r (nth le (gk_elems G) 0%nat) i j Hp Hel) as [A B]; [lia|lia|].
  now rewrite B, Ho, Hnn, Hnc.
Qed.

(** sum over the nodes of (x_l r_i - x_i r_l), x the position of the node in the configuration of the material terms *)
Definition node_position (on : bool) (xref : nat -> nat -> R) : nat -> nat -> R :=
  fun a c => xref a c + if on then nth (dof_number o nn n a c) (Ls 0%nat) 0 else 0.
Definition point_position (on : bool) k g le q (G : gkernel) (Ig : integral) i : R := pos k g le q i + if on then args G g Ig le q 0%nat i 0%nat else 0.
Theorem angular_momentum on xref i l : (i < n)%nat -> (l < n)%nat -> same_spaces -> isoparametric xref ->
  (forall k on' rho sigma, nth_error terms k = Some (SMaterial on' rho sigma) -> on' = on /\ forall st H s, sigma st H = Some s -> symmetric n s) ->
  sumn nn (fun a => node_position on xref a l * nth (dof_number o nn n a i) L' 0 - node_position on xref a i * nth (dof_number o nn n a l) L' 0) =
  over_points f (fun k Ig g G r le q => match nth_error terms k with Some T =>
     point_position on k g le q G Ig l * solid_force n T t (pos k g le q) (jac k g le q) (args G g Ig le q 0%nat) (args G g Ig le q 1%nat) i -
     point_position on k g le q G Ig i * solid_force n T t (pos k g le q) (jac k g le q) (args G g Ig le q 0%nat) (args G g Ig le q 1%nat) l | None => 0 end).
Proof.
  intros Hi Hl HS HX Hmat.
  pose proof (tested_component f t wrt upd Ls m m' L' o nn n Hwf Hfit Hlay He (fun a => node_position on xref a l) i Hi) as Ti.
  pose proof (tested_component f t wrt upd Ls m m' L' o nn n Hwf Hfit Hlay He (fun a => node_position on xref a i) l Hl) as Tl.
  cbv beta in Ti, Tl.
  transitivity (sumn nn (fun a => nth (dof_number o nn n a i) L' 0 * node_position on xref a l) - sumn nn (fun a => nth (dof_number o nn n a l) L' 0 * node_position on xref a i)).
  { rewrite <- sumn_minus. apply sumn_ext. intros. ring. }
  rewrite Ti, Tl, <- over_points_minus. apply over_points_ext. intros k Ig g G r le q E1 E2 E3 Hle Hq.
  destruct (Hres k Ig g G le q E1 E2 Hle Hq) as (T & p & out & A1 & A2 & A3 & A4 & A5). rewrite A1.
  destruct (HX k Ig g G r le q E1 E2 E3 Hle Hq) as [X1 X2].
  assert (HD : (1 <= gk_dim1 G)%nat) by (rewrite A4; destruct (is_volume T); [lia|destruct Hn; lia]).
  (* the position field at the point *)
  assert (Pos0 : forall c, (c < n)%nat -> scalar_at G r (fun a => node_position on xref a c) le q 0%nat = point_position on k g le q G Ig c).
  { intros c Hc. unfold scalar_at, node_position, point_position. rewrite <- X1 by auto.
    destruct on; [rewrite (displacement_arg k Ig g G r le q c 0%nat HS E1 E2 E3 Hle Hc)|]; unfold field_at, interpolate; [rewrite <- sumn_plus|rewrite Rplus_0_r];
      apply sumn_ext; intros; ring. }
  assert (PosS : forall c j, (c < n)%nat -> (S j < gk_dim1 G)%nat -> scalar_at G r (fun a => node_position on xref a c) le q (S j) =
     jac k g le q c j + if on then args G g Ig le q 0%nat c (S j) else 0).
  { intros c j Hc Hj. unfold scalar_at, node_position. rewrite <- X2 by auto.
    destruct on; [rewrite (displacement_arg k Ig g G r le q c (S j) HS E1 E2 E3 Hle Hc)|]; unfold field_at, interpolate; [rewrite <- sumn_plus|rewrite Rplus_0_r];
      apply sumn_ext; intros; ring. }
  set (u := args G g Ig le q 0%nat) in *. set (acc := args G g Ig le q 1%nat) in *. set (J := jac k g le q) in *. set (X := pos k g le q) in *.
  rewrite <- (solid_point_source n T t X J u acc _ p out i Hn A2 A3), <- (solid_point_source n T t X J u acc _ p out l Hn A2 A3).
  assert (Split : forall c d, (c < n)%nat -> (d < n)%nat -> sumn (gk_dim1 G) (fun b => qf_out f t Ls m k Ig g G le q c b * scalar_at G r (fun a => node_position on xref a d) le q b) =
     out c 0%nat * point_position on k g le q G Ig d + sumn (gk_dim1 G - 1) (fun j => out c (S j) * (J d j + if on then u d (S j) else 0))).
  { intros c d Hc Hd. replace (gk_dim1 G) with (S (gk_dim1 G - 1)) at 1 by lia. rewrite sumn_S_l. rewrite A5, Pos0 by (auto; lia). f_equal.
    apply sumn_ext. intros j Hj. rewrite A5, PosS by (auto; lia). reflexivity. }
  rewrite !Split by auto.
  assert (Flux : sumn (gk_dim1 G - 1) (fun j => out i (S j) * (J l j + if on then u l (S j) else 0)) =
                 sumn (gk_dim1 G - 1) (fun j => out l (S j) * (J i j + if on then u i (S j) else 0))).
  { destruct T as [on' rho sigma|b|tr|on' pr]; cbn [solid_point is_volume] in A2, A4.
    - destruct (Hmat k on' rho sigma A1) as [-> Hsym]. rewrite A4. replace (S n - 1)%nat with n by lia.
      unfold grad_phys, parent_to_physical in A2. destruct (invn n J) as [K|] eqn:EK; [|discriminate]. cbn [snd] in A2.
      set (H := mmul n (fun i j => u i (S j)) K) in *. destruct (sigma _ H) as [s|] eqn:Es; [|discriminate].
      destruct (flux n on s H) as [P|] eqn:EP; [|discriminate]. injection A2 as <-.
      destruct (point_out_volume n J _ P out Hn A3) as (KT & EKT & _ & OF).
      pose proof (inv_transpose n J K KT Hn EK EKT) as HT. pose proof (flux_moment n on s H P Hn EP) as FM.
      destruct (invn_some n J K Hn EK) as (JK & _ & _).
      assert (Main : forall c d, (c < n)%nat -> (d < n)%nat -> sumn n (fun j => out c (S j) * (J d j + if on then u d (S j) else 0)) =
          detn n J * (detn n (fun i j => ident i j + if on then H i j else 0) * s c d)).
      { intros c d Hc Hd. rewrite (sumn_ext n _ (fun j => detn n J * (sumn n (fun k0 => P c k0 * KT k0 j) * (J d j + if on then u d (S j) else 0))))
          by (intros; rewrite OF; unfold mmul; ring).
        rewrite sumn_scal_l. f_equal. rewrite (conj_row n (P c) (fun j => J d j + if on then u d (S j) else 0) K KT HT).
        specialize (FM c d Hc Hd). unfold mscal in FM. rewrite <- FM. unfold mmul, transpose. apply sumn_ext. intros k0 Hk0. f_equal.
        rewrite <- (JK d k0) by auto. unfold H, mmul. destruct on; [rewrite <- sumn_plus|rewrite Rplus_0_r]; apply sumn_ext; intros; ring. }
      rewrite !Main by auto. do 2 f_equal. symmetry. apply (Hsym _ H s Es i l); auto.
    - injection A2 as <-. destruct (point_out_volume n J _ _ out Hn A3) as (KT & _ & _ & OF).
      rewrite !sumn_zero; [reflexivity| |]; intros j _; rewrite OF; unfold mmul; rewrite sumn_zero; intros; ring.
    - destruct (Req_EM_T _ _); [discriminate|]. injection A2 as <-. cbn [point_out] in A3. injection A3 as <-.
      rewrite !sumn_zero; [reflexivity| |]; intros; ring.
    - destruct (Req_EM_T _ _); [discriminate|]. injection A2 as <-. cbn [point_out] in A3. injection A3 as <-.
      rewrite !sumn_zero; [reflexivity| |]; intros; ring. }
  rewrite Flux. ring.
Qed.
End Solid.

Theorem heat_balance n f t wrt upd Ls (m m' : mem) L' o nn terms pos jac grad : dim23 n ->
  wf f (nn * 1) (fun w => length (Ls w)) -> all_fit f -> layout f o nn 1 -> evaluate f t wrt upd Ls (nn * 1) m = Ok (L', m') ->
  heat_residual n f t Ls m terms pos jac grad -> unity f -> total o nn 1 L' 0%nat =
  over_points f (fun k Ig g G r le q => match nth_error terms k with Some T =>
     heat_rate n T t (pos k g le q) (jac k g le q) (qf_inputs G g (Es_of f Ls Ig) le q 0%nat) (qf_inputs G g (Es_of f Ls Ig) le q 1%nat) (grad k g le q) | None => 0 end).
Proof.
  intros Hn Hwf Hfit Hlay He Hres HU. rewrite (balance f t wrt upd Ls m m' L' o nn 1 Hwf Hfit Hlay He 0 Nat.lt_0_1 HU). apply over_points_ext.
  intros k Ig g G r le q E1 E2 E3 Hle Hq. destruct (Hres k Ig g G le q E1 E2 Hle Hq) as (T & p & out & A1 & A2 & A3 & A4 & A5 & A6). rewrite A1.
  assert (HD : (0 < gk_dim1 G)%nat) by (rewrite A4; destruct (is_volume_h T); [lia|destruct Hn; lia]). rewrite A6 by auto. now apply (heat_point_source n T t _ _ _ _ p out _ Hn A2 A3).
Qed.
End Physics.

(** without acceleration and loads the nodal forces are in equilibrium *)
Lemma over_points_zero {St} (f : functional St) h : (forall k Ig g G r le q, h k Ig g G r le q = 0) -> over_points f h = 0.
Proof.
  intros H. unfold over_points. apply sumn_zero. intros n _. destruct (nth_error _ n) as [Ig|]; [|reflexivity]. apply sumn_zero. intros g _.
  destruct (nth_error (i_geoms Ig) g) as [G|]; [|reflexivity]. destruct (nth_error (f_test f (i_type Ig)) g) as [r|]; [|reflexivity].
  apply sumn_zero. intros le _. apply sumn_zero. intros q _. rewrite H. ring.
Qed.
Theorem stresses_balance {St} n (f : functional St) t wrt upd Ls (m m' : mem St) L' o nn terms pos jac : dim23 n ->
  wf f (nn * n) (fun w => length (Ls w)) -> all_fit f -> layout f o nn n -> evaluate f t wrt upd Ls (nn * n) m = Ok (L', m') ->
  solid_residual n f t Ls m terms pos jac -> unity f -> (forall k T, nth_error terms k = Some T -> exists on sigma, T = SMaterial on 0 sigma) ->
  forall i, (i < n)%nat -> total o nn n L' i = 0.
Proof.
  intros Hn Hwf Hfit Hlay He Hres HU HT i Hi. rewrite (momentum n Hn f t wrt upd Ls m m' L' o nn terms pos jac Hwf Hfit Hlay He Hres i Hi HU).
  apply over_points_zero. intros k Ig g G r le q. destruct (nth_error terms k) as [T|] eqn:E; [|reflexivity].
  destruct (HT k T E) as (on & sigma & ->). cbn [solid_force]. ring.
Qed.

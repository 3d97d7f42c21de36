(** * Coefficient inputs (C39): infrastructure/input.cpp *)
From Coq Require Import String List Bool Arith ZArith Reals Lia Lra.
Import ListNotations.
From Verif Require Import StateMgr FEVector.
Local Open Scope Z_scope.

Notation point := (list R).
(** a vector given as x, y, z (input.cpp:96-103) *)
Record xyz := { vx : option R; vy : option R; vz : option R }.
(** the keys of a coefficient table, each present or not (input.cpp:190-212).
    Piecewise maps are lists of (attribute, value); a Lua table or JSON object gives each key once. *)
Record table := { vector_function : option (point -> R -> list R); scalar_function : option (point -> R -> R); constant : option R; vector_constant : option xyz;
  piecewise : option (list (Z * R)); vector_piecewise : option (list (Z * xyz)); component_key : option Z }.
Record options := { o_vf : option (point -> R -> list R); o_sf : option (point -> R -> R); o_c : option R; o_vc : option (list R); o_pw : list (Z * R); o_vpw : list (Z * list R); o_component : option Z }.
Definition has {A} (o : option A) : bool := match o with Some _ => true | None => false end.
Definition one {A} (o : option A) : nat := if has o then 1 else 0.
(** input.cpp:216-231: a missing x is an Inlet error *)
Definition read_vector (v : xyz) : outcome (list R) :=
  match vx v with
  | None => Refused
  | Some x => Done (match vy v with Some y => match vz v with Some z => [x; y; z] | None => [x; y] end | None => [x] end)
  end.
Fixpoint read_vectors (l : list (Z * xyz)) : outcome (list (Z * list R)) :=
  match l with [] => Done [] | (k, v) :: l' => bind (read_vector v) (fun w => bind (read_vectors l') (fun l'' => Done ((k, w) :: l''))) end.
Definition opt_read {A B} (f : A -> outcome B) (o : option A) : outcome (option B) := match o with None => Done None | Some a => bind (f a) (fun b => Done (Some b)) end.
Definition or_nil {A} (o : option (list A)) : list A := match o with Some l => l | None => [] end.
Definition nonempty {A} (l : list A) : bool := match l with [] => false | _ => true end.
(** input.cpp:246-308 *)
Definition definitions (t : table) : nat := (one (vector_function t) + one (scalar_function t) + one (constant t) + one (vector_constant t) + one (piecewise t) + one (vector_piecewise t))%nat.
Definition parse (t : table) : outcome options :=
  bind (opt_read read_vector (vector_constant t)) (fun vc =>
  bind (opt_read read_vectors (vector_piecewise t)) (fun vpw =>
  if (1 <? definitions t)%nat then Refused else if (definitions t =? 0)%nat then Refused else
  Done {| o_vf := vector_function t; o_sf := scalar_function t; o_c := constant t; o_vc := vc; o_pw := or_nil (piecewise t); o_vpw := or_nil vpw;
          o_component := if has (constant t) || has (scalar_function t) || nonempty (or_nil (piecewise t)) then component_key t else None |})).
(** input.cpp:111-114 *)
Definition is_vector (o : options) : bool := has (o_vf o) || has (o_vc o) || nonempty (o_vpw o).
(** std::max_element over the attributes; empty lists do not reach it *)
Definition max_attr {A} (l : list (Z * A)) : Z := fold_right (fun p m => Z.max (fst p) m) (match l with [] => 0 | p :: _ => fst p end) l.
(** the element std::max_element points at (the first largest; keys are distinct) *)
Definition max_entry {A} (l : list (Z * A)) : option (Z * A) := find (fun p => Z.eqb (fst p) (max_attr l)) l.
(** mfem::Vector::operator()(i) = x: outside the vector undefined *)
Fixpoint put (v : list R) (i : nat) (x : R) : list R := match v, i with _ :: v', O => x :: v' | y :: v', Datatypes.S i' => y :: put v' i' x | [], _ => [] end.
Definition write (v : list R) (i : Z) (x : R) : outcome (list R) := if (0 <=? i) && (i <? Z.of_nat (length v)) then Done (put v (Z.to_nat i) x) else Undef.
Fixpoint write_all (v : list R) (l : list (Z * R)) : outcome (list R) := match l with [] => Done v | (k, x) :: l' => bind (write v (k - 1) x) (fun v' => write_all v' l') end.
(** input.cpp:164-182 (and 136-141 for one component) *)
Definition pw_table (l : list (Z * R)) : outcome (list R) := if max_attr l <? 0 then Undef else write_all (repeat 0%R (Z.to_nat (max_attr l))) l.
(** mfem::PWConstCoefficient::Eval: constants(attribute - 1) *)
Definition pw_eval (v : list R) (att : Z) : outcome R := if (1 <=? att) && (att <=? Z.of_nat (length v)) then Done (nth (Z.to_nat (att - 1)) v 0%R) else Undef.
(** a scalar coefficient: attribute, point, time *)
Notation coefficient := (Z -> point -> R -> outcome R).
Notation vcoefficient := (Z -> point -> R -> outcome (list R)).
(** input.cpp:156-188 *)
Definition construct_scalar (o : options) : outcome coefficient :=
  if is_vector o then Refused else
  match o_sf o, o_c o, o_pw o with
  | Some f, _, _ => Done (fun _ x t => Done (f x t))
  | None, Some c, _ => Done (fun _ _ _ => Done c)
  | None, None, (_ :: _) as l => bind (pw_table l) (fun v => Done (fun att _ _ => pw_eval v att))
  | None, None, [] => Refused
  end.
(** entry.second[i]: reading past the end is undefined *)
Fixpoint component_list (i : nat) (l : list (Z * list R)) : outcome (list (Z * R)) :=
  match l with [] => Done [] | (k, w) :: l' => match nth_error w i with None => Undef | Some x => bind (component_list i l') (fun l'' => Done ((k, x) :: l'')) end end.
Fixpoint mapM {A B} (f : A -> outcome B) (l : list A) : outcome (list B) := match l with [] => Done [] | a :: l' => bind (f a) (fun b => bind (mapM f l') (fun bs => Done (b :: bs))) end.
(** input.cpp:116-154 *)
Definition construct_vector (o : options) (dim : nat) : outcome vcoefficient :=
  if negb (is_vector o) then Refused else
  match o_vf o, o_vc o, o_vpw o with
  | Some f, _, _ => Done (fun _ x t => Done (firstn (length x) (f x t)))
  | None, Some w, _ => Done (fun _ _ _ => Done w)
  | None, None, [] => Refused
  | None, None, l => match max_entry l with
    | None => Undef
    | Some (_, w) => bind (mapM (fun i => bind (component_list i l) pw_table) (seq 0 (length w))) (fun vs => Done (fun att _ _ => mapM (fun v => pw_eval v att) vs))
    end
  end.

(** ** facts *)
Lemma put_length v : forall i x, length (put v i x) = length v.
Proof. induction v as [|y v IH]; intros [|i] x; cbn; auto. Qed.
Lemma put_nth v : forall i x j, (i < length v)%nat -> nth j (put v i x) 0%R = if Nat.eqb j i then x else nth j v 0%R.
Proof.
  induction v as [|y v IH]; intros [|i] x [|j] H; cbn [length] in H; try lia; cbn [put nth Nat.eqb]; try reflexivity. apply IH. lia.
Qed.
Lemma max_attr_ge {A} (l : list (Z * A)) p : In p l -> fst p <= max_attr l.
Proof. unfold max_attr. generalize (match l with [] => 0 | q :: _ => fst q end). intros b H. induction l as [|q l IH]; [contradiction|]. cbn [fold_right]. destruct H as [<-|H]; [lia|]. specialize (IH H). lia. Qed.
Lemma max_attr_in {A} (l : list (Z * A)) : l <> [] -> In (max_attr l) (map fst l).
Proof.
  destruct l as [|q l]; [congruence|]. intros _. unfold max_attr.
  assert (G : forall l' (b : Z), fold_right (fun p m => Z.max (fst p) m) b l' = b \/ In (fold_right (fun (p : Z * A) m => Z.max (fst p) m) b l') (map fst l')).
  { intros l' b. induction l' as [|p l' IH]; [now left|]. cbn [fold_right map]. destruct (Z.max_spec (fst p) (fold_right (fun p m => Z.max (fst p) m) b l')) as [[H1 ->]|[H1 ->]]; [|right; now left]. destruct IH as [IH|IH]; [left; exact IH|right; now right]. }
  destruct (G (q :: l) (fst q)) as [E|E]; [rewrite E; now left|exact E].
Qed.
Lemma write_all_ok : forall l v, (forall p, In p l -> 1 <= fst p <= Z.of_nat (length v)) -> NoDup (map fst l) ->
  exists w, write_all v l = Done w /\ length w = length v /\ (forall p, In p l -> nth (Z.to_nat (fst p - 1)) w 0%R = snd p) /\ (forall i, ~ In (Z.of_nat i + 1) (map fst l) -> nth i w 0%R = nth i v 0%R).
Proof.
  induction l as [|[k x] l IH]; intros v H N; [exists v; cbn; repeat split; auto; contradiction|].
  cbn [write_all]. unfold write. pose proof (H (k, x) (or_introl eq_refl)) as Hk. cbn [fst] in Hk.
  replace (0 <=? k - 1) with true by (symmetry; apply Z.leb_le; lia). replace (k - 1 <? Z.of_nat (length v)) with true by (symmetry; apply Z.ltb_lt; lia). cbn [andb bind].
  inversion N as [|k' l' Nk Nl]. subst. destruct (IH (put v (Z.to_nat (k - 1)) x)) as [w [E1 [E2 [E3 E4]]]]; [intros p Hp; rewrite put_length; apply H; now right|exact Nl|].
  exists w. split; [exact E1|]. rewrite put_length in E2. split; [exact E2|]. split.
  - intros p [<-|Hp]; [|now apply E3]. cbn [fst snd]. rewrite E4; [rewrite put_nth by lia; now rewrite Nat.eqb_refl|]. replace (Z.of_nat (Z.to_nat (k - 1)) + 1) with k by lia. exact Nk.
  - intros i Hi. cbn [map fst] in Hi. rewrite E4 by (intros A; apply Hi; now right). rewrite put_nth by lia. destruct (Nat.eqb i (Z.to_nat (k - 1))) eqn:B; [|reflexivity]. apply Nat.eqb_eq in B. exfalso. apply Hi. left. lia.
Qed.
(** the table of a well-formed piecewise map *)
Lemma pw_ok l : l <> [] -> (forall p, In p l -> 1 <= fst p) -> NoDup (map fst l) -> exists v, pw_table l = Done v /\
  (forall att x, In (att, x) l -> pw_eval v att = Done x) /\ (forall att, 1 <= att <= max_attr l -> ~ In att (map fst l) -> pw_eval v att = Done 0%R) /\ (forall att, max_attr l < att -> pw_eval v att = Undef).
Proof.
  intros Hne Hpos N. assert (M : 1 <= max_attr l). { pose proof (max_attr_in l Hne) as Hin. apply in_map_iff in Hin. destruct Hin as [p [<- Hp]]. now apply Hpos. }
  unfold pw_table. replace (max_attr l <? 0) with false by (symmetry; apply Z.ltb_ge; lia).
  destruct (write_all_ok l (repeat 0%R (Z.to_nat (max_attr l)))) as [w [E1 [E2 [E3 E4]]]]; [intros p Hp; rewrite repeat_length; split; [now apply Hpos|]; pose proof (max_attr_ge l p Hp); lia|exact N|].
  rewrite repeat_length in E2. exists w. split; [exact E1|]. unfold pw_eval. rewrite E2, Z2Nat.id by lia. split; [|split].
  - intros att x Hin. pose proof (Hpos _ Hin) as H1. pose proof (max_attr_ge _ _ Hin) as H2. cbn [fst] in H1, H2. replace (1 <=? att) with true by (symmetry; apply Z.leb_le; lia). replace (att <=? max_attr l) with true by (symmetry; apply Z.leb_le; lia).
    cbn [andb]. f_equal. exact (E3 (att, x) Hin).
  - intros att Ha Hn. replace (1 <=? att) with true by (symmetry; apply Z.leb_le; lia). replace (att <=? max_attr l) with true by (symmetry; apply Z.leb_le; lia). cbn [andb]. f_equal. rewrite E4.
    + apply nth_repeat.
    + replace (Z.of_nat (Z.to_nat (att - 1)) + 1) with att by lia. exact Hn.
  - intros att Ha. replace (att <=? max_attr l) with false by (symmetry; apply Z.leb_gt; lia). now rewrite andb_false_r.
Qed.
(** ** exactly one definition. Specification: the list of definition keys that are present *)
Inductive defkey := KVectorFunction | KScalarFunction | KConstant | KVectorConstant | KPiecewise | KVectorPiecewise.
Definition present (t : table) (k : defkey) : bool :=
  match k with KVectorFunction => has (vector_function t) | KScalarFunction => has (scalar_function t) | KConstant => has (constant t) | KVectorConstant => has (vector_constant t) | KPiecewise => has (piecewise t) | KVectorPiecewise => has (vector_piecewise t) end.
Definition readable (t : table) : Prop := (forall v, vector_constant t = Some v -> vx v <> None) /\ (forall l p, vector_piecewise t = Some l -> In p l -> vx (snd p) <> None).
Lemma read_vector_ok v : vx v <> None -> exists w, read_vector v = Done w.
Proof. unfold read_vector. destruct (vx v); [eauto|congruence]. Qed.
Lemma read_vectors_ok l : (forall p, In p l -> vx (snd p) <> None) -> exists w, read_vectors l = Done w.
Proof.
  induction l as [|[k v] l IH]; intros H; [now exists []|]. cbn [read_vectors]. destruct (read_vector_ok v (H (k, v) (or_introl eq_refl))) as [w ->]. cbn [bind].
  destruct IH as [ws ->]; [intros p Hp; apply H; now right|]. cbn [bind]. eauto.
Qed.
Lemma definitions_unique t : definitions t = 1%nat <-> exists k, present t k = true /\ forall k', present t k' = true -> k' = k.
Proof.
  unfold definitions, one. split.
  - intros H. destruct (has (vector_function t)) eqn:E1, (has (scalar_function t)) eqn:E2, (has (constant t)) eqn:E3, (has (vector_constant t)) eqn:E4, (has (piecewise t)) eqn:E5, (has (vector_piecewise t)) eqn:E6; cbn in H; try discriminate H;
    [exists KVectorFunction|exists KScalarFunction|exists KConstant|exists KVectorConstant|exists KPiecewise|exists KVectorPiecewise]; (split; [assumption|intros [] Hk; cbn [present] in Hk; congruence]).
  - intros [k [Hk U]]. pose proof (U KVectorFunction) as U1. pose proof (U KScalarFunction) as U2. pose proof (U KConstant) as U3. pose proof (U KVectorConstant) as U4. pose proof (U KPiecewise) as U5. pose proof (U KVectorPiecewise) as U6.
    cbn [present] in *. destruct k; cbn [present] in Hk; rewrite Hk in *;
    repeat match goal with |- context [has ?x] => destruct (has x) eqn:?; [exfalso; match goal with U : true = true -> ?a = ?b |- _ => assert (a = b) by (apply U; reflexivity); discriminate end|] end; reflexivity.
Qed.
Lemma parse_iff t : readable t -> (exists o, parse t = Done o) <-> exists k, present t k = true /\ forall k', present t k' = true -> k' = k.
Proof.
  intros [R1 R2]. rewrite <- definitions_unique. unfold parse.
  assert (A : exists vc, opt_read read_vector (vector_constant t) = Done vc). { unfold opt_read. destruct (vector_constant t) as [v|]; [|now exists None]. destruct (read_vector_ok v (R1 v eq_refl)) as [w ->]. cbn. eauto. }
  assert (B : exists vc, opt_read read_vectors (vector_piecewise t) = Done vc). { unfold opt_read. destruct (vector_piecewise t) as [v|]; [|now exists None]. destruct (read_vectors_ok v (fun p => R2 v p eq_refl)) as [w ->]. cbn. eauto. }
  destruct A as [vc ->]. destruct B as [vpw ->]. cbn [bind]. split.
  - intros [o H]. destruct (1 <? definitions t)%nat eqn:E; [discriminate|]. destruct (definitions t =? 0)%nat eqn:F; [discriminate|]. apply Nat.ltb_ge in E. apply Nat.eqb_neq in F. lia.
  - intros ->. cbn. eauto.
Qed.
(** what the accepted options hold *)
Lemma parse_inv t o : parse t = Done o -> exists vc vpw, opt_read read_vector (vector_constant t) = Done vc /\ opt_read read_vectors (vector_piecewise t) = Done vpw /\ definitions t = 1%nat /\
  o = {| o_vf := vector_function t; o_sf := scalar_function t; o_c := constant t; o_vc := vc; o_pw := or_nil (piecewise t); o_vpw := or_nil vpw;
         o_component := if has (constant t) || has (scalar_function t) || nonempty (or_nil (piecewise t)) then component_key t else None |}.
Proof.
  unfold parse. destruct (opt_read read_vector (vector_constant t)) as [vc| |]; cbn [bind]; try discriminate. destruct (opt_read read_vectors (vector_piecewise t)) as [vpw| |]; cbn [bind]; try discriminate.
  destruct (1 <? definitions t)%nat eqn:E; [discriminate|]. destruct (definitions t =? 0)%nat eqn:F; [discriminate|]. intros H. injection H as <-. apply Nat.ltb_ge in E. apply Nat.eqb_neq in F. exists vc, vpw. repeat split. lia.
Qed.
Ltac others t := unfold definitions, one in *; destruct (vector_function t) eqn:?, (scalar_function t) eqn:?, (constant t) eqn:?, (vector_constant t) eqn:?, (piecewise t) eqn:?, (vector_piecewise t) eqn:?; cbn [has Nat.add] in *; try discriminate.
Lemma scalar_const t o c : parse t = Done o -> constant t = Some c -> exists f, construct_scalar o = Done f /\ (forall a x tm, f a x tm = Done c) /\ forall dim, construct_vector o dim = Refused.
Proof. intros H E. destruct (parse_inv t o H) as [vc [vpw [E1 [E2 [E3 ->]]]]]. others t. cbn in E1, E2. injection E1 as <-. injection E2 as <-. injection E as <-. eexists. split; [reflexivity|]. split; reflexivity. Qed.
Lemma scalar_fun t o g : parse t = Done o -> scalar_function t = Some g -> exists f, construct_scalar o = Done f /\ (forall a x tm, f a x tm = Done (g x tm)) /\ forall dim, construct_vector o dim = Refused.
Proof. intros H E. destruct (parse_inv t o H) as [vc [vpw [E1 [E2 [E3 ->]]]]]. others t. cbn in E1, E2. injection E1 as <-. injection E2 as <-. injection E as <-. eexists. split; [reflexivity|]. split; reflexivity. Qed.
Lemma scalar_pw t o l : parse t = Done o -> piecewise t = Some l -> l <> [] -> (forall p, In p l -> 1 <= fst p) -> NoDup (map fst l) ->
  exists f, construct_scalar o = Done f /\ (forall att v, In (att, v) l -> forall x tm, f att x tm = Done v) /\
  (forall att, 1 <= att <= max_attr l -> ~ In att (map fst l) -> forall x tm, f att x tm = Done 0%R) /\ forall dim, construct_vector o dim = Refused.
Proof.
  intros H E Hne Hp N. destruct (parse_inv t o H) as [vc [vpw [E1 [E2 [E3 ->]]]]]. others t. cbn in E1, E2. injection E1 as <-. injection E2 as <-. injection E as ->.
  destruct (pw_ok l Hne Hp N) as [v [P1 [P2 [P3 P4]]]]. destruct l as [|p0 l0]; [congruence|]. unfold construct_scalar. cbn [is_vector o_vf o_vc o_vpw o_sf o_c o_pw or_nil has nonempty orb]. rewrite P1. cbn [bind].
  eexists. split; [reflexivity|]. split; [intros att x Hin q tm; now apply P2|]. split; [intros att Ha Hn q tm; now apply P3|reflexivity].
Qed.
Lemma vector_const t o v w dim : parse t = Done o -> vector_constant t = Some v -> read_vector v = Done w -> construct_scalar o = Refused /\ exists f, construct_vector o dim = Done f /\ forall a x tm, f a x tm = Done w.
Proof.
  intros H E Ew. destruct (parse_inv t o H) as [vc [vpw [E1 [E2 [E3 ->]]]]]. others t. injection E as ->. cbn [opt_read] in E1, E2. rewrite Ew in E1. cbn in E1, E2. injection E1 as <-. injection E2 as <-.
  split; [reflexivity|]. eexists. split; reflexivity.
Qed.
Lemma vector_fun t o g dim : parse t = Done o -> vector_function t = Some g -> construct_scalar o = Refused /\ exists f, construct_vector o dim = Done f /\ forall a x tm, f a x tm = Done (firstn (length x) (g x tm)).
Proof.
  intros H E. destruct (parse_inv t o H) as [vc [vpw [E1 [E2 [E3 ->]]]]]. others t. cbn in E1, E2. injection E1 as <-. injection E2 as <-. injection E as <-. split; [reflexivity|]. eexists. split; reflexivity.
Qed.
(** piecewise vectors of one size *)
Definition pick (i : nat) (l : list (Z * list R)) : list (Z * R) := map (fun p => (fst p, nth i (snd p) 0%R)) l.
Lemma component_list_ok i l : (forall p, In p l -> (i < length (snd p))%nat) -> component_list i l = Done (pick i l).
Proof.
  induction l as [|[k w] l IH]; intros H; [reflexivity|]. cbn [component_list]. pose proof (H (k, w) (or_introl eq_refl)) as Hi. cbn [snd] in Hi. rewrite (nth_error_nth' w 0%R Hi). rewrite IH by (intros p Hp; apply H; now right). reflexivity.
Qed.
Lemma pick_keys i l : map fst (pick i l) = map fst l.
Proof. unfold pick. rewrite map_map. apply map_ext. reflexivity. Qed.
Lemma max_attr_pick i l : max_attr (pick i l) = max_attr l.
Proof.
  assert (G : forall l b, fold_right (fun (p : Z * R) m => Z.max (fst p) m) b (pick i l) = fold_right (fun (p : Z * list R) m => Z.max (fst p) m) b l). { intros l' b. induction l' as [|p l' IH]; [reflexivity|]. change (pick i (p :: l')) with ((fst p, nth i (snd p) 0%R) :: pick i l'). cbn [fold_right fst]. now rewrite IH. }
  unfold max_attr. rewrite G. destruct l as [|[k w] l]; reflexivity.
Qed.
Lemma mapM_seq {B} (f : nat -> outcome B) (g : nat -> B) : forall n a, (forall i, (a <= i < a + n)%nat -> f i = Done (g i)) -> mapM f (seq a n) = Done (map g (seq a n)).
Proof. induction n as [|n IH]; intros a H; [reflexivity|]. cbn [seq mapM map]. rewrite H by lia. cbn [bind]. rewrite IH; [reflexivity|]. intros i Hi. apply H. lia. Qed.
Lemma mapM_fun {A B} (f : A -> outcome B) : forall l, (forall a, In a l -> exists b, f a = Done b) -> exists bs, mapM f l = Done bs /\ Forall2 (fun a b => f a = Done b) l bs.
Proof.
  induction l as [|a l IH]; intros H; [exists []; split; [reflexivity|constructor]|]. destruct (H a (or_introl eq_refl)) as [b Eb]. destruct IH as [bs [E1 E2]]; [intros x Hx; apply H; now right|].
  exists (b :: bs). cbn [mapM]. rewrite Eb. cbn [bind]. rewrite E1. cbn [bind]. split; [reflexivity|]. constructor; assumption.
Qed.
Lemma Forall2_mapM {A B C} (P : A -> B -> Prop) (f : B -> outcome C) (g : A -> C) : forall l bs, Forall2 P l bs -> (forall a b, In a l -> P a b -> f b = Done (g a)) -> mapM f bs = Done (map g l).
Proof.
  intros l bs H. induction H as [|a b l bs Hab H IH]; intros G; [reflexivity|]. cbn [mapM map]. rewrite (G a b (or_introl eq_refl) Hab). cbn [bind]. rewrite IH; [reflexivity|]. intros x y Hx. apply G. now right.
Qed.
Lemma vpw_ok l d : l <> [] -> (forall p, In p l -> 1 <= fst p /\ length (snd p) = d) -> NoDup (map fst l) -> forall dim, exists f,
  construct_vector {| o_vf := None; o_sf := None; o_c := None; o_vc := None; o_pw := []; o_vpw := l; o_component := None |} dim = Done f /\
  (forall att w, In (att, w) l -> forall x tm, f att x tm = Done w) /\ (forall att, 1 <= att <= max_attr l -> ~ In att (map fst l) -> forall x tm, f att x tm = Done (repeat 0%R d)).
Proof.
  intros Hne H N dim. unfold construct_vector. cbn [is_vector o_vf o_vc o_vpw has orb]. destruct l as [|p0 l0]; [congruence|]. set (l := p0 :: l0) in *. cbn [nonempty negb].
  destruct (max_entry l) as [[k w]|] eqn:Em.
  2:{ exfalso. pose proof (max_attr_in l Hne) as Hin. apply in_map_iff in Hin. destruct Hin as [p [Ep Hp]]. pose proof (find_none _ _ Em p Hp) as F. cbn in F. rewrite Ep, Z.eqb_refl in F. discriminate. }
  unfold max_entry in Em. apply find_some in Em. destruct Em as [Em1 Em2]. destruct (H _ Em1) as [_ Lw]. cbn [snd] in Lw. rewrite Lw. change (match p0 with (_, _) => _ end) with (max_entry l).
  assert (Q : forall i, (i < d)%nat -> pick i l <> [] /\ (forall p, In p (pick i l) -> 1 <= fst p) /\ NoDup (map fst (pick i l))).
  { intros i Hi. split; [discriminate|]. split; [|rewrite pick_keys; exact N]. intros p Hp. apply in_map_iff in Hp. destruct Hp as [q [<- Hq]]. cbn [fst]. now apply H. }
  destruct (mapM_fun (fun i => bind (component_list i l) pw_table) (seq 0 d)) as [vs [E1 E2]].
  { intros i Hi. apply in_seq in Hi. rewrite component_list_ok by (intros p Hp; destruct (H p Hp) as [_ ->]; lia). cbn [bind]. destruct (Q i) as [Q1 [Q2 Q3]]; [lia|]. destruct (pw_ok _ Q1 Q2 Q3) as [v [Hv _]]. eauto. }
  rewrite E1. cbn [bind]. eexists. split; [reflexivity|].
  assert (T : forall (g : nat -> R) att, (forall i v, (i < d)%nat -> pw_table (pick i l) = Done v -> pw_eval v att = Done (g i)) -> mapM (fun v => pw_eval v att) vs = Done (map g (seq 0 d))).
  { intros g att G. apply (Forall2_mapM _ _ g (seq 0 d) vs E2). intros i v Hi Hv. apply in_seq in Hi. rewrite component_list_ok in Hv by (intros p Hp; destruct (H p Hp) as [_ ->]; lia). apply G; [lia|exact Hv]. }
  split.
  - intros att u Hin x tm. rewrite (T (fun i => nth i u 0%R)).
    + f_equal. destruct (H _ Hin) as [_ Lu]. cbn [snd] in Lu. rewrite <- Lu. clear. induction u as [|y u IH]; [reflexivity|]. cbn [length seq map]. f_equal. rewrite <- seq_shift, map_map. exact IH.
    + intros i v Hi Hv. destruct (Q i Hi) as [Q1 [Q2 Q3]]. destruct (pw_ok _ Q1 Q2 Q3) as [v' [Hv' [P2 _]]]. rewrite Hv' in Hv. injection Hv as ->. apply P2. unfold pick. apply in_map_iff. exists (att, u). auto.
  - intros att Ha Hn x tm. rewrite (T (fun _ => 0%R)).
    + f_equal. clear. generalize 0%nat. induction d as [|d IH]; intros a; [reflexivity|]. cbn [seq map repeat]. now rewrite IH.
    + intros i v Hi Hv. destruct (Q i Hi) as [Q1 [Q2 Q3]]. destruct (pw_ok _ Q1 Q2 Q3) as [v' [Hv' [_ [P3 _]]]]. rewrite Hv' in Hv. injection Hv as ->. apply P3; [rewrite max_attr_pick; exact Ha|]. rewrite pick_keys. exact Hn.
Qed.
Lemma vector_pw t o l0 l d : parse t = Done o -> vector_piecewise t = Some l0 -> read_vectors l0 = Done l -> l <> [] -> (forall p, In p l -> 1 <= fst p /\ length (snd p) = d) -> NoDup (map fst l) ->
  construct_scalar o = Refused /\ forall dim, exists f, construct_vector o dim = Done f /\ (forall att w, In (att, w) l -> forall x tm, f att x tm = Done w) /\
  (forall att, 1 <= att <= max_attr l -> ~ In att (map fst l) -> forall x tm, f att x tm = Done (repeat 0%R d)).
Proof.
  intros H E El Hne Hl N. destruct (parse_inv t o H) as [vc [vpw [E1 [E2 [E3 ->]]]]]. others t. injection E as ->. cbn [opt_read] in E1, E2. rewrite El in E2. cbn in E1, E2. injection E1 as <-. injection E2 as <-. split.
  - unfold construct_scalar. cbn [is_vector o_vf o_vc o_vpw has orb or_nil]. destruct l; [congruence|reflexivity].
  - intros dim. exact (vpw_ok l d Hne Hl N dim).
Qed.
(** ** what goes wrong *)
Definition only_pw (l : list (Z * R)) : table := {| vector_function := None; scalar_function := None; constant := None; vector_constant := None; piecewise := Some l; vector_piecewise := None; component_key := None |}.
Definition only_vpw (l : list (Z * xyz)) : table := {| vector_function := None; scalar_function := None; constant := None; vector_constant := None; piecewise := None; vector_piecewise := Some l; component_key := None |}.
Definition only_vc (v : xyz) : table := {| vector_function := None; scalar_function := None; constant := None; vector_constant := Some v; piecewise := None; vector_piecewise := None; component_key := None |}.
Lemma nonpositive_attr x : exists o, parse (only_pw [(0, x); (1, 2%R)]) = Done o /\ construct_scalar o = Undef.
Proof. eexists. split; reflexivity. Qed.
Lemma short_vector : exists o, parse (only_vpw [(1, {| vx := Some 1%R; vy := None; vz := None |}); (2, {| vx := Some 1%R; vy := Some 2%R; vz := None |})]) = Done o /\ construct_vector o 2 = Undef.
Proof. eexists. split; reflexivity. Qed.
Lemma gap_vector : exists o f, parse (only_vc {| vx := Some 1%R; vy := None; vz := Some 3%R |}) = Done o /\ construct_vector o 3 = Done f /\ forall a x tm, f a x tm = Done [1%R].
Proof. eexists. eexists. split; [reflexivity|]. split; reflexivity. Qed.
Lemma above_largest : exists o f, parse (only_pw [(1, 5%R)]) = Done o /\ construct_scalar o = Done f /\ f 2 [] 0%R = Undef.
Proof. eexists. eexists. split; [reflexivity|]. split; reflexivity. Qed.
Lemma max_attr_spec (l : list (Z * R)) : l <> [] -> In (max_attr l) (map fst l) /\ forall p, In p l -> fst p <= max_attr l.
Proof. intros H. split; [now apply max_attr_in|apply max_attr_ge]. Qed.
(** whatever else is set: a scalar and a vector coefficient are never both given out *)
Lemma kinds_exclusive o dim : (is_vector o = true -> construct_scalar o = Refused) /\ (is_vector o = false -> construct_vector o dim = Refused).
Proof. unfold construct_scalar, construct_vector. split; intros ->; reflexivity. Qed.
Lemma vector_means o : is_vector o = true <-> o_vf o <> None \/ o_vc o <> None \/ o_vpw o <> [].
Proof. unfold is_vector. destruct (o_vf o), (o_vc o), (o_vpw o); cbn; split; intros; try reflexivity; try discriminate; try (left; discriminate); try (right; left; discriminate); try (right; right; discriminate). destruct H as [H|[H|H]]; congruence. Qed.
Lemma kinds o dim : (o_vf o <> None \/ o_vc o <> None \/ o_vpw o <> [] -> construct_scalar o = Refused) /\ (o_vf o = None -> o_vc o = None -> o_vpw o = [] -> construct_vector o dim = Refused).
Proof.
  destruct (kinds_exclusive o dim) as [A B]. split; [intros H; apply A, vector_means, H|]. intros H1 H2 H3. apply B. unfold is_vector. rewrite H1, H2, H3. reflexivity.
Qed.

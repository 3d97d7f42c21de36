(** * What integrands receive is the physical field with its physical gradient or curl (C63) *)
From Coq Require Import Reals Lra Lia List Arith FunctionalExtensionality.
From Coquelicot Require Import Coquelicot.
From Verif Require Import Sums FunctionalGrad Tensor MatAlg ShapeAware.
Import ListNotations.
Local Open Scope R_scope.

(** ** specification *)
(** the line through [x] along coordinate [k] *)
Definition along (x : vec) (k : nat) (t : R) : vec := fun m => x m + if Nat.eqb m k then t else 0.
(** [D] is the matrix of partial derivatives of [f] (r components) at [x] *)
Definition partials (n r : nat) (f : vec -> vec) (x : vec) (D : mat) : Prop :=
  forall i k, (i < r)%nat -> (k < n)%nat -> is_derive (fun t : R => f (along x k t) i) 0 (D i k).
(** [D] is the derivative of [f] at [x] along every differentiable curve *)
Definition differential (n r : nat) (f : vec -> vec) (x : vec) (D : mat) : Prop :=
  forall (g : R -> vec) (dg : vec), (forall m, (m < n)%nat -> g 0 m = x m /\ is_derive (fun t : R => g t m) 0 (dg m)) ->
  forall i, (i < r)%nat -> is_derive (fun t : R => f (g t) i) 0 (sumn n (fun m => D i m * dg m)).
(** [jac] is the Jacobian of the map [phi] at [x], and has symmetric derivatives there *)
Definition geometry (n : nat) (phi : vec -> vec) (jac : vec -> mat) (x : vec) : Prop :=
  partials n n phi x (jac x) /\
  exists H : nat -> nat -> nat -> R, (forall i j k, (i < n)%nat -> (j < n)%nat -> (k < n)%nat -> H i j k = H i k j) /\
    forall i j k, (i < n)%nat -> (j < n)%nat -> (k < n)%nat -> is_derive (fun t : R => jac (along x k t) i j) 0 (H i j k).
(** curl of a field with derivatives D: the out-of-plane component in 2D *)
Definition curl (n : nat) (D : mat) : vec :=
  if Nat.eqb n 2 then fun _ => D 1%nat 0%nat - D 0%nat 1%nat
  else fun a => match a with O => D 2%nat 1%nat - D 1%nat 2%nat | S O => D 0%nat 2%nat - D 2%nat 0%nat | _ => D 1%nat 0%nat - D 0%nat 1%nat end.
Definition curls (n : nat) : nat := if Nat.eqb n 2 then 1 else 3.
(** pull-back of a vector field: covariant components in the parent element *)
Definition covariant (n : nat) (phi : vec -> vec) (jac : vec -> mat) (V : vec -> vec) : vec -> vec := fun x j => sumn n (fun i => jac x i j * V (phi x) i).

Lemma along_0 x k : along x k 0 = x.
Proof. apply functional_extensionality. intros m. unfold along. destruct (Nat.eqb m k); ring. Qed.
(** along the coordinate lines the composite with the map follows the chain rule *)
Lemma composite n r phi J U x D : partials n n phi x J -> differential n r U (phi x) D -> partials n r (fun y => U (phi y)) x (mmul n D J).
Proof.
  intros HP HD i k Hi Hk. unfold mmul. apply (HD (fun t => phi (along x k t)) (fun m => J m k)); [|exact Hi]. intros m Hm. split; [now rewrite along_0|now apply HP].
Qed.

(** ** scalars and components: the physical gradient *)
Theorem physical_gradient n r phi jac U x D f : dim23 n -> (f = H1 \/ f = L2) -> detn n (jac x) <> 0 -> partials n n phi x (jac x) -> differential n r U (phi x) D ->
  exists D' p, partials n r (fun y => U (phi y)) x D' /\ parent_to_physical n f (jac x) (U (phi x), D') = Some p /\
    (forall i, (i < r)%nat -> fst p i = U (phi x) i) /\ (forall i j, (i < r)%nat -> (j < n)%nat -> snd p i j = D i j).
Proof.
  intros Hn Hf Hd HP HD. destruct (invn_works n (jac x) Hn Hd) as (K & EK). exists (mmul n D (jac x)), (U (phi x), mmul n (mmul n D (jac x)) K).
  split; [now apply composite|]. split; [unfold parent_to_physical; rewrite EK; destruct Hf as [-> | ->]; reflexivity|]. split; [reflexivity|].
  intros i j Hi Hj. cbn [snd]. rewrite rmul_assoc. destruct (invn_some n _ K Hn EK) as (A & _ & _).
  rewrite (rmul_ext n D D _ ident i j); [|reflexivity|intros k Hk; now apply A].
  unfold mmul. rewrite (sumn_ext n _ (fun k => if Nat.eqb k j then D i k else 0)) by (intros k _; unfold ident; destruct (Nat.eqb k j); ring). now apply (sumn_delta n j (D i)).
Qed.

(** ** vector fields of edge elements: value and curl *)
Lemma derive_prod (f g : R -> R) (x df dg : R) : is_derive f x df -> is_derive g x dg -> is_derive (fun t => f t * g t) x (df * g x + f x * dg).
Proof.
  intros Hf Hg. evar_last; [apply (is_derive_mult f g x df dg Hf Hg); intros; apply Rmult_comm|]. reflexivity.
Qed.
Lemma covariant_partials n phi jac V x D H : partials n n phi x (jac x) -> differential n n V (phi x) D ->
  (forall i j k, (i < n)%nat -> (j < n)%nat -> (k < n)%nat -> is_derive (fun t : R => jac (along x k t) i j) 0 (H i j k)) ->
  partials n n (covariant n phi jac V) x (fun j k => sumn n (fun i => H i j k * V (phi x) i + jac x i j * mmul n D (jac x) i k)).
Proof.
  intros HP HD HH j k Hj Hk. unfold covariant.
  apply (is_derive_sumn n (fun i t => jac (along x k t) i j * V (phi (along x k t)) i)). intros i Hi.
  pose proof (derive_prod (fun t => jac (along x k t) i j) (fun t => V (phi (along x k t)) i) 0 _ _ (HH i j k Hi Hj Hk) (composite n n phi (jac x) V x D HP HD i k Hi Hk)) as P.
  cbv beta in P. rewrite !along_0 in P. exact P.
Qed.
Theorem physical_curl n phi jac V x D : dim23 n -> detn n (jac x) <> 0 -> geometry n phi jac x -> differential n n V (phi x) D ->
  exists D' p, partials n n (covariant n phi jac V) x D' /\ parent_to_physical n HCURL (jac x) (covariant n phi jac V x, fun _ => curl n D') = Some p /\
    (forall i, (i < n)%nat -> fst p i = V (phi x) i) /\ (forall a, (a < curls n)%nat -> snd p 0%nat a = curl n D a).
Proof.
  intros Hn Hd (HP & H & HS & HH) HD. destruct (invn_works n (jac x) Hn Hd) as (K & EK).
  exists (fun j k => sumn n (fun i => H i j k * V (phi x) i + jac x i j * mmul n D (jac x) i k)). eexists. split; [now apply covariant_partials|].
  split; [unfold parent_to_physical; rewrite EK; reflexivity|]. cbn [fst snd]. split.
  - intros i Hi. unfold vmat, covariant. destruct (invn_some n _ K Hn EK) as (A & _ & _).
    rewrite (sumn_ext n _ (fun j => sumn n (fun l => V (phi x) l * (jac x l j * K j i)))) by (intros; rewrite <- sumn_scal_r; apply sumn_ext; intros; ring).
    rewrite sumn_swap. rewrite (sumn_ext n _ (fun l => if Nat.eqb l i then V (phi x) l else 0)).
    + now apply (sumn_delta n i (V (phi x))).
    + intros l Hl. rewrite sumn_scal_l. change (sumn n (fun k => jac x l k * K k i)) with (mmul n (jac x) K l i). rewrite A by auto. unfold ident. destruct (Nat.eqb l i); ring.
  - intros a Ha. set (v := V (phi x)) in *. clearbody v. set (J := jac x) in *. clearbody J. clear EK HP HD HH K.
    destruct Hn as [-> | ->]; unfold curl, curls, detn in *; cbn [Nat.eqb] in *.
    + assert (a = 0%nat) by lia. subst a. cbn [sumn]. unfold mmul. cbn [sumn]. rewrite (HS 0 1 0)%nat, (HS 1 1 0)%nat by lia. unfold det2 in *. field. exact Hd.
    + pose proof (fun i => HS i 1 0)%nat as S10. pose proof (fun i => HS i 2 0)%nat as S20. pose proof (fun i => HS i 2 1)%nat as S21.
      unfold mmul, transpose. cbn [sumn]. rewrite !S10, !S20, !S21 by lia. unfold det3 in *.
      destruct a as [|[|[|a]]]; [| | |lia]; cbn [Nat.eqb]; field; exact Hd.
Qed.

(** ** example: a bilinear map and a rotating field *)
Definition ex_map (x : vec) : vec := fun i => match i with O => x 0%nat + x 0%nat * x 1%nat | _ => x 1%nat end.
Definition ex_jac (x : vec) : mat := fun i j => match i, j with O, O => 1 + x 1%nat | O, _ => x 0%nat | S _, O => 0 | S _, S _ => 1 end.
Definition ex_turn (y : vec) : vec := fun i => match i with O => - y 1%nat | _ => y 0%nat end.
Definition ex_turn_d : mat := fun i j => match i, j with O, S O => - 1 | S O, O => 1 | _, _ => 0 end.
Definition ex_at : vec := fun _ => 1.
Definition ex_second (i j k : nat) : R := match i with O => if Nat.eqb j k then 0 else 1 | _ => 0 end.
Lemma ex_geometry : geometry 2 ex_map ex_jac ex_at /\ detn 2 (ex_jac ex_at) = 2 /\ differential 2 2 ex_turn (ex_map ex_at) ex_turn_d /\ curl 2 ex_turn_d 0 = 2.
Proof.
  split; [|split; [unfold detn, det2, ex_jac, ex_at; cbn; ring|split; [|unfold curl, ex_turn_d; cbn; ring]]].
  - split.
    + intros i k Hi Hk. destruct i as [|[|i]]; [| |lia]; destruct k as [|[|k]]; try lia; unfold ex_map, ex_jac, along, ex_at; cbn [Nat.eqb]; auto_derive; try exact Logic.I; ring.
    + exists ex_second. split.
      * intros i j k Hi Hj Hk. unfold ex_second. rewrite (Nat.eqb_sym j k). reflexivity.
      * intros i j k Hi Hj Hk. destruct i as [|[|i]]; [| |lia]; destruct j as [|[|j]]; try lia; destruct k as [|[|k]]; try lia; unfold ex_jac, along, ex_at, ex_second; cbn [Nat.eqb]; auto_derive; try exact Logic.I; ring.
  - intros g dg Hg i Hi. destruct (Hg 0%nat ltac:(lia)) as (G0 & D0). destruct (Hg 1%nat ltac:(lia)) as (G1 & D1). destruct i as [|[|i]]; [| |lia]; unfold ex_turn, ex_turn_d; cbn [sumn].
    + evar_last; [apply (is_derive_opp (fun t => g t 1%nat) 0 _ D1)|]. change (- dg 1%nat = 0 + 0 * dg 0%nat + -1 * dg 1%nat). ring.
    + evar_last; [exact D0|]. change (dg 0%nat = 0 + 1 * dg 0%nat + 0 * dg 1%nat). ring.
Qed.

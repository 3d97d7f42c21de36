(** * The inverse of a matrix of dual numbers (C82): the overload with its own rule gives the numbers of the cofactor formula run on duals *)
From Coq Require Import NArith ZArith Reals List Lia Lra Bool FunctionalExtensionality.
From Coquelicot Require Import Coquelicot.
From Verif Require Import Sums Dual Tensor LU LUDeriv MatAlg Traced TracedSolid.
Import ListNotations.
Local Open Scope R_scope.

(** tuple_tensor_dual_functions.hpp:473-488 *)
Definition dual_inv (n : nat) (A : nat -> nat -> num) : option (nat -> nat -> num) :=
  match invn n (fun i j => get_value (A i j)) with
  | None => None
  | Some B => Some (fun i j => Dua (B i j) (fun d => inv_grad n B (fun k l => get_gradient (A k l) d) i j))
  end.

Fixpoint subst (s : nat -> expr) (e : expr) : expr :=
  match e with
  | Var v => s v | Cst c => Cst c | Un u a => Un u (subst s a) | Bin b a c => Bin b (subst s a) (subst s c)
  | Sel a c t f => Sel (subst s a) (subst s c) (subst s t) (subst s f)
  end.
Lemma deval_kind e ins r : deval e ins = Some r -> kind r = is_dual (fun i => kind (ins i)) e.
Proof.
  intros E. destruct (deval_acts (fun i => get_value (ins i)) (fun i => kind (ins i)) e) as [N|(v & l & A)].
  - rewrite N in E by (intros i; auto). discriminate.
  - destruct (A ins) as (r' & E' & _ & K & _); [intros i; auto|]. rewrite E in E'. injection E' as <-. exact K.
Qed.
Lemma deval_subst s ins r e : (forall v, deval (s v) ins = Some (r v)) -> deval (subst s e) ins = deval e r.
Proof.
  intros H. assert (K : forall e, is_dual (fun i => kind (ins i)) (subst s e) = is_dual (fun i => kind (r i)) e).
  { induction e0 as [v|c|u a IHa|b a IHa c IHc|a IHa c IHc t IHt f IHf]; cbn [subst is_dual]; auto; [symmetry; now apply deval_kind| |]; congruence. }
  induction e as [v|c|u a IHa|b a IHa c IHc|a IHa c IHc t IHt f IHf]; cbn [subst deval]; auto.
  - now rewrite IHa.
  - now rewrite IHa, IHc.
  - now rewrite IHa, IHc, IHt, IHf, !K.
Qed.

Lemma einv_vars n E i j : dim23 n -> (i < n)%nat -> (j < n)%nat ->
  einv n E i j = subst (fun v => if Nat.ltb v (n * n) then E (v / n)%nat (v mod n)%nat else Cst 0) (einv n (gvar n) i j).
Proof.
  intros D Hi Hj. dims D.
  - destruct i as [|[|i]]; try lia; destruct j as [|[|j]]; try lia; reflexivity.
  - destruct i as [|[|[|i]]]; try lia; destruct j as [|[|[|j]]]; try lia; reflexivity.
Qed.
Lemma invn_derivative n (A : R -> mat) dA (t0 : R) : dim23 n -> (forall i j, (i < n)%nat -> (j < n)%nat -> is_derive (fun t => A t i j) t0 (dA i j)) -> detn n (A t0) <> 0 ->
  exists B, locally t0 (fun t => invn n (A t) = Some (B t)) /\ forall i j, (i < n)%nat -> (j < n)%nat -> is_derive (fun t => B t i j) t0 (inv_grad n (B t0) dA i j).
Proof. intros D HA N. dims D; unfold invn, detn in *; cbn [Nat.eqb] in *; [now apply inv2_derivative|now apply inv3_derivative]. Qed.

Theorem inverse_overload n (E : emat) ins (A B : nat -> nat -> num) : dim23 n ->
  (forall i j, (i < n)%nat -> (j < n)%nat -> deval (E i j) ins = Some (A i j)) -> dual_inv n A = Some B ->
  forall i j, (i < n)%nat -> (j < n)%nat -> exists r, deval (einv n E i j) ins = Some r /\ get_value r = get_value (B i j) /\
    forall d, get_gradient r d = get_gradient (B i j) d.
Proof.
  intros D HE HB i j Hi Hj. unfold dual_inv in HB. set (M := fun i j => get_value (A i j)) in HB. destruct (invn n M) as [K|] eqn:EK; [|discriminate]. injection HB as <-.
  assert (n0 : (0 < n)%nat) by (destruct D; lia).
  set (r := fun v => if Nat.ltb v (n * n) then A (v / n)%nat (v mod n)%nat else Dbl 0).
  rewrite (einv_vars n E i j D Hi Hj), (deval_subst _ ins r).
  2:{ intros v. unfold r. destruct (Nat.ltb_spec v (n * n)); [|reflexivity]. apply HE; [apply Nat.div_lt_upper_bound; lia|apply Nat.mod_upper_bound; lia]. }
  assert (Rv : forall a b, (a < n)%nat -> (b < n)%nat -> r (a * n + b)%nat = A a b).
  { intros a b Ha Hb. unfold r. assert (a * n + b < n * n)%nat by nia. destruct (Nat.ltb_spec (a * n + b) (n * n)); [|lia].
    rewrite Nat.div_add_l, Nat.div_small, Nat.add_0_r by lia. now rewrite Nat.add_comm, Nat.mod_add, Nat.mod_small by lia. }
  assert (FM : mfine n n (fun v => kind (r v)) (fun v => get_value (r v)) (gvar n) M).
  { intros a b Ha Hb. eapply fine_eq; [apply fine_var|]. cbv beta. now rewrite Rv. }
  destruct (mfine_inv _ _ n (gvar n) M K D FM EK i j Hi Hj) as [Ev Sm].
  destruct (exact_derivative (einv n (gvar n) i j) r (K i j) Ev Sm) as (q & Q1 & Q2 & Q3). exists q. split; [exact Q1|]. split; [exact Q2|].
  intros d. cbn [get_gradient].
  set (x := fun (t : R) v => get_value (r v) + t * get_gradient (r v) d).
  destruct (Q3 d x 0) as (G & L & _ & DG).
  { intros v. unfold x. split; [ring|]. destruct (r v) as [c|c g]; cbn [get_value get_gradient]; [intros t; ring|]. auto_derive; [exact Logic.I|ring]. }
  destruct (invn_some n M K D EK) as (_ & _ & N).
  set (Ac := fun (t : R) a b => M a b + t * get_gradient (A a b) d).
  assert (A0 : Ac 0 = M) by (apply functional_extensionality; intros a; apply functional_extensionality; intros b; unfold Ac; ring).
  destruct (invn_derivative n Ac (fun a b => get_gradient (A a b) d) 0 D) as (Bc & L2 & D2).
  { intros a b _ _. unfold Ac. auto_derive; [exact Logic.I|ring]. } { now rewrite A0. }
  assert (B0 : Bc 0 = K) by (apply locally_singleton in L2; rewrite A0, EK in L2; now injection L2).
  specialize (D2 i j Hi Hj). rewrite B0 in D2. apply (d_unique G 0); [exact DG|]. apply (is_derive_ext_loc (fun t => Bc t i j)); [|exact D2].
  generalize (filter_and _ _ L L2). apply filter_imp. intros t [E1 E2].
  assert (F2 : mfine n n (fun _ => true) (x t) (gvar n) (Ac t)).
  { intros a b Ha Hb. eapply fine_eq; [apply fine_var|]. unfold x, Ac, M. now rewrite Rv. }
  destruct (mfine_inv _ _ n (gvar n) (Ac t) (Bc t) D F2 E2 i j Hi Hj) as [E3 _]. rewrite E1 in E3. now injection E3.
Qed.

(** twice the identity, its first entry moving *)
Definition twice (v : nat) : num := match v with O => Dua 2 (fun d => match d with O => 1 | _ => 0 end) | S (S (S O)) => Dua 2 (fun _ => 0) | _ => Dua 0 (fun _ => 0) end.
Lemma twice_inverse : (forall i j, (i < 2)%nat -> (j < 2)%nat -> deval (gvar 2 i j) twice = Some (twice (i * 2 + j)%nat)) /\
  exists B, dual_inv 2 (fun i j => twice (i * 2 + j)%nat) = Some B /\ get_value (B 0%nat 0%nat) = / 2 /\ get_gradient (B 0%nat 0%nat) 0%nat = - / 4.
Proof.
  split; [reflexivity|]. unfold dual_inv.
  assert (E : invn 2 (fun i j => get_value (twice (i * 2 + j)%nat)) = Some (inv2_raw (fun i j => get_value (twice (i * 2 + j)%nat)))).
  { unfold invn. cbn [Nat.eqb]. unfold inv2. destruct (Req_EM_T (det2 (fun i j => get_value (twice (i * 2 + j)%nat))) 0) as [Z|]; [|reflexivity].
    unfold det2 in Z. cbn in Z. lra. }
  rewrite E. eexists. split; [reflexivity|]. cbn [get_value get_gradient]. unfold inv_grad, inv2_raw, det2. cbn. split; field.
Qed.

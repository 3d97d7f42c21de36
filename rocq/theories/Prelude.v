(** * Shared vocabulary of the model

    An operation of the modelled program ends in one of three ways.
    [Refused] stands for a call of SLIC_ERROR / SLIC_ERROR_ROOT, which reports the
    error and aborts (/repo/src/serac/infrastructure/logger.hpp).  [UB] stands for
    undefined behaviour of C++, e.g. an unchecked out-of-range [operator[]]. *)
From Coq Require Import List ZArith Lia Bool.
Import ListNotations.

Inductive outcome (A : Type) : Type :=
| Ok (a : A)
| Refused
| UB.
Arguments Ok {A} a.
Arguments Refused {A}.
Arguments UB {A}.

Definition bindO {A B} (x : outcome A) (f : A -> outcome B) : outcome B :=
  match x with Ok a => f a | Refused => Refused | UB => UB end.

(** Unchecked C++ [v[k]] on a std::vector with a signed index that was cast to size_t:
    a negative or too large index is undefined behaviour. *)
Definition vec_get {A} (l : list A) (k : Z) : outcome A :=
  if (k <? 0)%Z then UB
  else match nth_error l (Z.to_nat k) with Some a => Ok a | None => UB end.

(** Replace element [k] of a list (no change when out of range). *)
Fixpoint upd {A} (l : list A) (k : nat) (a : A) : list A :=
  match l, k with
  | [], _ => []
  | _ :: t, O => a :: t
  | h :: t, S k' => h :: upd t k' a
  end.

Definition vec_set {A} (l : list A) (k : Z) (a : A) : outcome (list A) :=
  if ((k <? 0)%Z || (Z.of_nat (length l) <=? k)%Z)%bool then UB
  else Ok (upd l (Z.to_nat k) a).

Lemma upd_length A (l : list A) k a : length (upd l k a) = length l.
Proof. revert k; induction l as [|h t IH]; intros [|k]; simpl; auto. Qed.

Lemma nth_error_upd_eq A (l : list A) k a :
  k < length l -> nth_error (upd l k a) k = Some a.
Proof.
  revert k; induction l as [|h t IH]; intros [|k] H; simpl in *; try lia; auto.
  apply IH; lia.
Qed.

Lemma nth_error_upd_neq A (l : list A) k j a :
  j <> k -> nth_error (upd l k a) j = nth_error l j.
Proof.
  revert k j; induction l as [|h t IH]; intros [|k] [|j] H; simpl; auto; try lia.
Qed.

Lemma upd_map A B (f : A -> B) l k a : map f (upd l k a) = upd (map f l) k (f a).
Proof. revert k; induction l as [|h t IH]; intros [|k]; simpl; auto. now rewrite IH. Qed.

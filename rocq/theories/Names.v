(** * Field-name prefixes and parameter lookup
    Models base_physics.cpp:389-412 and base_physics.hpp:236-285. *)
From Coq Require Import String List Bool Ascii Lia.
From Verif Require Import Prelude.
Import ListNotations.
Local Open Scope string_scope.

(** detail::addPrefix (base_physics.cpp:390-396) *)
Definition addPrefix (prefix target : string) : string :=
  match prefix with
  | EmptyString => target
  | _ => prefix ++ "_" ++ target
  end.

(** std::string::erase(0, n) *)
Fixpoint drop (n : nat) (s : string) : string :=
  match n, s with
  | O, _ => s
  | S n', String _ r => drop n' r
  | S _, EmptyString => EmptyString
  end.

(** detail::removePrefix (base_physics.cpp:398-411): find(prefix + "_") == 0 holds exactly when the
    text starts with prefix + "_". *)
Definition removePrefix (prefix target : string) : string :=
  match prefix with
  | EmptyString => target
  | _ => if String.prefix (prefix ++ "_") target then drop (String.length prefix + 1) target else target
  end.

(** parameter(name) (base_physics.hpp:240-254): compares against the stored, prefixed names;
    [params] lists the stored name and value of each parameter. *)
Fixpoint find_param {V} (full : string) (params : list (string * V)) : outcome V :=
  match params with
  | [] => Refused
  | (n, v) :: r => if String.eqb full n then Ok v else find_param full r
  end.
Definition parameter {V} (module_name pname : string) (params : list (string * V)) : outcome V :=
  find_param (addPrefix module_name pname) params.

(** parameterNames() (base_physics.hpp:277-286) *)
Definition parameterNames {V} (module_name : string) (params : list (string * V)) : list string :=
  map (fun p => removePrefix module_name (fst p)) params.

(** Construction of the parameter list (solid_mechanics.hpp:237, heat_transfer.hpp:202) *)
Definition make_params {V} (module_name : string) (given : list (string * V)) : list (string * V) :=
  map (fun p => (addPrefix module_name (fst p), snd p)) given.

Lemma prefix_app p s : String.prefix p (p ++ s) = true.
Proof. induction p as [|c p IH]; simpl; [destruct s; reflexivity|]. destruct (ascii_dec c c); [exact IH|contradiction]. Qed.

Lemma drop_app p s : drop (String.length p) (p ++ s) = s.
Proof. induction p; simpl; auto. Qed.

Lemma length_app_s a b : String.length (a ++ b) = String.length a + String.length b.
Proof. induction a; simpl; auto. Qed.

Lemma app_assoc_s a b c : (a ++ b) ++ c = a ++ b ++ c.
Proof. induction a as [|x a IH]; simpl; [reflexivity|now rewrite IH]. Qed.

Lemma remove_add p n : removePrefix p (addPrefix p n) = n.
Proof.
  unfold removePrefix, addPrefix. destruct p as [|c p]; [reflexivity|].
  set (q := String c p).
  rewrite <- app_assoc_s, prefix_app.
  replace (String.length q + 1)%nat with (String.length (q ++ "_")) by (rewrite length_app_s; simpl; lia).
  apply drop_app.
Qed.

Lemma addPrefix_inj p n m : addPrefix p n = addPrefix p m -> n = m.
Proof. intros H. rewrite <- (remove_add p n), <- (remove_add p m). now rewrite H. Qed.

Lemma parameterNames_make {V} mn (given : list (string * V)) :
  parameterNames mn (make_params mn given) = map fst given.
Proof.
  unfold parameterNames, make_params. rewrite map_map. apply map_ext. intros [n v]; simpl. apply remove_add.
Qed.

Lemma parameter_found {V} mn (given : list (string * V)) n v :
  NoDup (map fst given) -> In (n, v) given -> parameter mn n (make_params mn given) = Ok v.
Proof.
  unfold parameter, make_params. induction given as [|[m w] r IH]; intros Hnd Hin; [easy|].
  simpl in *. inversion Hnd as [|? ? Hx Hy]; subst.
  destruct (String.eqb_spec (addPrefix mn n) (addPrefix mn m)) as [E|E].
  - apply addPrefix_inj in E. subst m. destruct Hin as [E|Hin]; [now inversion E|].
    exfalso. apply Hx. apply in_map_iff. now exists (n, v).
  - destruct Hin as [H|Hin]; [inversion H; subst; contradiction|auto].
Qed.

Lemma parameter_unknown {V} mn (given : list (string * V)) n :
  ~ In n (map fst given) -> parameter mn n (make_params mn given) = Refused.
Proof.
  unfold parameter, make_params. induction given as [|[m w] r IH]; intros H; [reflexivity|].
  simpl in *. destruct (String.eqb_spec (addPrefix mn n) (addPrefix mn m)) as [E|E].
  - apply addPrefix_inj in E. subst. tauto.
  - apply IH. tauto.
Qed.

(** * C38: the two-type variant *)
From Coq Require Import List.
Import ListNotations.
From Verif Require Import StateMgr Variant.

(** the alternative and value last assigned are what every accessor sees, and a copy or a move sees the same;
    a copy acquires what it will release, a move leaves nothing to release *)
Theorem C38_access : forall K v i w, idx v = i -> bits v = w ->
  get v i = Done w /\ get v (negb i) = Undef /\ holds v i = true /\ holds v (negb i) = false /\ get_if v i = Done (Some w) /\ get_if v (negb i) = Done None /\
  (forall A (f : bool -> option nat -> A), visit f v = Done (f i w)) /\ (forall p, w = Some p -> retrieve v = Done p) /\
  fst (copy_var K v) = v /\ snd (copy_var K v) = clear K v /\ fst (move_var K v) = v /\ clear K (snd (move_var K v)) = [].
Proof. exact access_ok. Qed.
Print Assumptions C38_access.
(** from construction to destruction, every owning reference handed over is released exactly once, and nothing else is;
    missing: histories that assign an owning alternative while the other one is held *)
Theorem C38_life_partial : forall K i w ops, no_switch K i ops -> exists z out,
  run K (construct i w) ops = Done (z, out) /\ out ++ clear K z = given K ((i, w) :: ops) /\ z = last (map (fun o => construct (fst o) (snd o)) ops) (construct i w).
Proof. exact life. Qed.
Print Assumptions C38_life_partial.
Example C38_life_nonvacuous : no_switch maybe_owning true [(true, Some 4); (false, Some 5); (false, Some 6)] /\
  given maybe_owning ((true, Some 3) :: [(true, Some 4); (false, Some 5); (false, Some 6)]) = [3; 4].
Proof. cbn. repeat split; congruence. Qed.
(** variants of trivially destructible types: every history *)
Theorem C38_plain : forall K i w ops, (forall i, K i = Plain) -> exists z,
  run K (construct i w) ops = Done (z, []) /\ clear K z = [] /\ z = last (map (fun o => construct (fst o) (snd o)) ops) (construct i w).
Proof. exact plain_life. Qed.
Print Assumptions C38_plain.
Example C38_plain_nonvacuous : exists K : alts, forall i, K i = Plain.
Proof. now exists (fun _ => Plain). Qed.
(** switching to an owning alternative assigns to an object that is not alive, in every variant *)
Theorem C38_switch_refuted : forall K v i w, K i = Owning -> i <> idx v -> assign K v i w = Undef.
Proof. exact switch_undef. Qed.
Print Assumptions C38_switch_refuted.
(** ... and what memory then shows: the word of the old alternative is released (once more) through the new one *)
Theorem C38_switch_memory : forall K v i w p, K i = Owning -> i <> idx v -> bits v = Some p -> snd (assign_mem K v i w) = drop (K (idx v)) (Some p) ++ [p].
Proof. exact switch_memory. Qed.
Print Assumptions C38_switch_memory.
Theorem C38_frees_foreign_refuted : snd (assign_mem maybe_owning (construct false (Some 7)) true (Some 8)) = [7] /\ ~ In 7 (given maybe_owning [(false, Some 7); (true, Some 8)]).
Proof. exact frees_foreign. Qed.
Print Assumptions C38_frees_foreign_refuted.
Theorem C38_coefficient_released_twice_refuted : snd (assign_mem general_coefficient (construct false (Some 7)) true (Some 8)) = [7; 7] /\ given general_coefficient [(false, Some 7); (true, Some 8)] = [7; 8].
Proof. exact releases_twice. Qed.
Print Assumptions C38_coefficient_released_twice_refuted.
(** an argument goes to the first alternative that its type is, or is assignable to, and is rejected when there is none *)
Theorem C38_select : forall s0 a0 s1 a1, let fits := fun i : bool => (if i then s1 || a1 else s0 || a0)%bool = true in
  (fits false -> select s0 a0 s1 a1 = Some false) /\ (~ fits false -> fits true -> select s0 a0 s1 a1 = Some true) /\ (select s0 a0 s1 a1 = None <-> ~ fits false /\ ~ fits true).
Proof. exact select_fits. Qed.
Print Assumptions C38_select.

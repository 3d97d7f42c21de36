(** * The run summary (C70): base_physics.cpp:217-328, output.cpp:33-47

    A Sidre group is an association list; its names contain no '/'.  [lp] is ParGridFunction::ComputeLpError against zero (mfem);
    average, maximum and minimum are those of FEVector (C50): a field is the list of its entries on each rank. *)
From Coq Require Import String List ZArith Reals Lra Lia Bool.
From Verif Require Import Prelude Names Ledger Driver FEVector.
Import ListNotations.
Local Open Scope string_scope.
Local Open Scope list_scope.

Notation field := (list (list R)).
Inductive power := P1 | P2 | Pinf.
(** an entry of a curve; [None] when the vector has no entries, so that its maximum and average do not exist *)
Notation value := (option R).
Definition group := list (string * list value).
Record summary := { s_ranks : nat; s_t : list R; s_states : list (string * group) }.
(** what is under the root of a process' DataStore: "serac_summary", if it exists *)
Notation store := (option summary).

Fixpoint find {A} (k : string) (l : list (string * A)) : option A :=
  match l with [] => None | (k', a) :: r => if String.eqb k k' then Some a else find k r end.
(** append to an entry, if it exists *)
Fixpoint append_at {A} (k : string) (f : A -> option A) (l : list (string * A)) : option (list (string * A)) :=
  match l with
  | [] => None
  | (k', a) :: r => if String.eqb k k' then match f a with Some b => Some ((k', b) :: r) | None => None end
                    else match append_at k f r with Some r' => Some ((k', a) :: r') | None => None end
  end.

Section Summary.
Context (lp : field -> power -> R).

(** avg (finite_element_vector.cpp, C50) divides by the number of entries *)
Definition average (f : field) : value := match concat f with [] => None | _ => Some (avg f) end.

(** base_physics.cpp:247 static_cast<IndexType>(ceil(t_final / dt)), [index_max] the largest IndexType: out of range is undefined.
    The number only reserves memory; axom takes a negative one as zero. *)
Definition capacity_ok (index_max : R) (t_final dt : R) : bool :=
  if Req_EM_T dt 0 then false else if Rle_dec (Rabs (t_final / dt) + 1) index_max then true else false.
(** base_physics.cpp:253-266: Group::createGroup returns a null pointer when the name is taken, here by the view "t" or another state *)
Fixpoint create_groups (names : list string) (gs : list (string * group)) : outcome (list (string * group)) :=
  match names with
  | [] => Ok gs
  | n :: r => if String.eqb n "t" then UB else match find n gs with Some _ => UB | None =>
      create_groups r (gs ++ [(n, map (fun k => (k, [])) ["l1norms"; "l2norms"; "linfnorms"; "avgs"; "mins"; "maxs"])]) end
  end.
(** base_physics.cpp:217-268 *)
Definition initialize_summary (index_max : R) (count rank : nat) (names : list string) (t_final dt : R) (ds : store) : outcome store :=
  if negb (Nat.eqb rank 0) then Ok ds
  else match ds with Some _ => Refused | None =>
    if capacity_ok index_max t_final dt then
      match create_groups names [] with Ok gs => Ok (Some {| s_ranks := count; s_t := []; s_states := gs |}) | Refused => Refused | UB => UB end
    else UB end.

(** base_physics.cpp:305-327: the six pushes; a missing view is a null pointer *)
Definition push (k : string) (v : value) (g : group) : option group := append_at k (fun l => Some (l ++ [v])) g.
Definition opt_bind {A B} (o : option A) (f : A -> option B) : option B := match o with Some a => f a | None => None end.
Definition push_stats (f : field) (g : group) : option group :=
  opt_bind (push "l1norms" (Some (lp f P1)) g) (fun g =>
  opt_bind (push "l2norms" (Some (lp f P2)) g) (fun g =>
  opt_bind (push "linfnorms" (Some (lp f Pinf)) g) (fun g =>
  opt_bind (push "avgs" (average f) g) (fun g =>
  opt_bind (push "maxs" (gmax f) g) (fun g => push "mins" (gmin f) g))))).
(** base_physics.cpp:289-328 *)
Fixpoint save_states (states : list (string * field)) (gs : list (string * group)) : outcome (list (string * group)) :=
  match states with
  | [] => Ok gs
  | (n, f) :: r => match append_at n (push_stats f) gs with Some gs' => save_states r gs' | None => UB end
  end.
(** base_physics.cpp:270-330 *)
Definition save_summary (rank : nat) (states : list (string * field)) (t : R) (ds : store) : outcome store :=
  if negb (Nat.eqb rank 0) then Ok ds
  else match ds with None => Refused | Some s =>
    match save_states states (s_states s) with Ok gs => Ok (Some {| s_ranks := s_ranks s; s_t := s_t s ++ [t]; s_states := gs |}) | Refused => Refused | UB => UB end end.

(** the summary of a program that initializes once and then saves at the given times; [names] are the names of the module's states *)
Fixpoint saves (rank : nat) (names : list string) (history : list (R * (string -> field))) (ds : store) : outcome store :=
  match history with
  | [] => Ok ds
  | (t, x) :: r => match save_summary rank (map (fun n => (n, x n)) names) t ds with Ok ds' => saves rank names r ds' | Refused => Refused | UB => UB end
  end.
Definition summarize (index_max : R) (count rank : nat) (names : list string) (t_final dt : R) (history : list (R * (string -> field))) : outcome store :=
  match initialize_summary index_max count rank names t_final dt None with Ok ds => saves rank names history ds | Refused => Refused | UB => UB end.

(** ** specification *)
(** what each curve records of a field *)
Definition statistic (k : string) (f : field) : option value :=
  find k [("l1norms", Some (lp f P1)); ("l2norms", Some (lp f P2)); ("linfnorms", Some (lp f Pinf)); ("avgs", average f); ("mins", gmin f); ("maxs", gmax f)].
Definition curve (s : summary) (n k : string) : option (list value) := opt_bind (find n (s_states s)) (find k).
(** a summary with the times of a history and, for each state and statistic, its value at each of them *)
Definition records (count : nat) (names : list string) (history : list (R * (string -> field))) (s : summary) : Prop :=
  s_ranks s = count /\ s_t s = map fst history /\ map fst (s_states s) = names /\
  forall n k, In n names -> curve s n k = match statistic k [] with None => None | Some _ => Some (flat_map (fun h => match statistic k (snd h n) with Some v => [v] | None => [] end) history) end.

(** ** proofs *)
Lemma find_app {A} k (l l' : list (string * A)) : find k (l ++ l') = match find k l with Some a => Some a | None => find k l' end.
Proof. induction l as [|[k' a] r IH]; [reflexivity|]. cbn [app find]. destruct (String.eqb k k'); [reflexivity|exact IH]. Qed.
Lemma find_none {A} k (l : list (string * A)) : ~ In k (map fst l) -> find k l = None.
Proof. induction l as [|[k' a] r IH]; [reflexivity|]. cbn [find map fst]. intros H. destruct (String.eqb_spec k k') as [->|]; [destruct H; now left|]. apply IH. intros X. apply H. now right. Qed.
Lemma find_known {A} k (l : list (string * A)) : find k l <> None <-> In k (map fst l).
Proof.
  induction l as [|[k' a] r IH]; cbn [find map fst In]; [split; [intros H; now destruct H|intros []]|]. destruct (String.eqb_spec k k') as [E|N].
  - split; [now left|discriminate].
  - rewrite IH. split; [now right|]. intros [E|H]; [now symmetry in E|exact H].
Qed.
Lemma append_at_ok {A} k f (l : list (string * A)) a b : find k l = Some a -> f a = Some b ->
  exists l', append_at k f l = Some l' /\ map fst l' = map fst l /\ find k l' = Some b /\ forall k', k' <> k -> find k' l' = find k' l.
Proof.
  intros E F. induction l as [|[k' x] r IH]; [discriminate|]. cbn [find append_at] in *. destruct (String.eqb_spec k k') as [->|N].
  - injection E as ->. rewrite F. eexists. split; [reflexivity|]. split; [reflexivity|]. cbn [find]. rewrite String.eqb_refl. split; [reflexivity|].
    intros k'' N. destruct (String.eqb_spec k'' k'); [contradiction|reflexivity].
  - destruct (IH E) as (r' & E1 & E2 & E3 & E4). rewrite E1. eexists. split; [reflexivity|]. cbn [map fst find]. split; [now rewrite E2|].
    destruct (String.eqb_spec k k'); [contradiction|]. split; [exact E3|]. intros k'' N''. rewrite (E4 k'' N''). reflexivity.
Qed.
Lemma append_at_none {A} k f (l : list (string * A)) : find k l = None -> append_at k f l = None.
Proof. induction l as [|[k' x] r IH]; [reflexivity|]. cbn [find append_at]. destruct (String.eqb k k'); [discriminate|]. intros H. now rewrite (IH H). Qed.

Definition stat_names := ["l1norms"; "l2norms"; "linfnorms"; "avgs"; "mins"; "maxs"].
Lemma statistic_known k f : statistic k f <> None <-> In k stat_names.
Proof. exact (find_known k [("l1norms", Some (lp f P1)); ("l2norms", Some (lp f P2)); ("linfnorms", Some (lp f Pinf)); ("avgs", average f); ("mins", gmin f); ("maxs", gmax f)]). Qed.
(** a group with all six views *)
Definition complete (g : group) : Prop := forall k, find k g <> None <-> In k stat_names.
Lemma push_ok k v g l : find k g = Some l -> exists g', push k v g = Some g' /\ find k g' = Some (l ++ [v]) /\ forall k', k' <> k -> find k' g' = find k' g.
Proof. intros E. destruct (append_at_ok k (fun l => Some (l ++ [v])) g l (l ++ [v]) E eq_refl) as (g' & E1 & _ & E2 & E3). eauto. Qed.
Lemma push_stats_ok f g : complete g -> exists g', push_stats f g = Some g' /\ complete g' /\
  forall k, find k g' = match find k g with Some l => Some (l ++ match statistic k f with Some v => [v] | None => [] end) | None => None end.
Proof.
  intros C. assert (H : forall k, In k stat_names -> exists l, find k g = Some l). { intros k Hk. apply C in Hk. destruct (find k g); [eauto|now destruct Hk]. }
  destruct (H "l1norms") as (l1 & E1); [now left|]. destruct (H "l2norms") as (l2 & E2); [right; now left|]. destruct (H "linfnorms") as (l3 & E3); [do 2 right; now left|].
  destruct (H "avgs") as (l4 & E4); [do 3 right; now left|]. destruct (H "mins") as (l5 & E5); [do 4 right; now left|]. destruct (H "maxs") as (l6 & E6); [do 5 right; now left|].
  unfold push_stats. destruct (push_ok "l1norms" (Some (lp f P1)) g l1 E1) as (g1 & -> & A1 & B1). cbn [opt_bind].
  destruct (push_ok "l2norms" (Some (lp f P2)) g1 l2) as (g2 & -> & A2 & B2); [now rewrite B1 by discriminate|]. cbn [opt_bind].
  destruct (push_ok "linfnorms" (Some (lp f Pinf)) g2 l3) as (g3 & -> & A3 & B3); [now rewrite B2, B1 by discriminate|]. cbn [opt_bind].
  destruct (push_ok "avgs" (average f) g3 l4) as (g4 & -> & A4 & B4); [now rewrite B3, B2, B1 by discriminate|]. cbn [opt_bind].
  destruct (push_ok "maxs" (gmax f) g4 l6) as (g5 & -> & A5 & B5); [now rewrite B4, B3, B2, B1 by discriminate|]. cbn [opt_bind].
  destruct (push_ok "mins" (gmin f) g5 l5) as (g6 & -> & A6 & B6); [now rewrite B5, B4, B3, B2, B1 by discriminate|].
  exists g6. split; [reflexivity|].
  assert (V : forall k, find k g6 = match find k g with Some l => Some (l ++ match statistic k f with Some v => [v] | None => [] end) | None => None end).
  { intros k. unfold statistic. cbn [find].
    destruct (String.eqb_spec k "l1norms") as [->|N1]. { rewrite B6, B5, B4, B3, B2, A1, E1 by discriminate. reflexivity. }
    destruct (String.eqb_spec k "l2norms") as [->|N2]. { rewrite B6, B5, B4, B3, A2, E2 by discriminate. reflexivity. }
    destruct (String.eqb_spec k "linfnorms") as [->|N3]. { rewrite B6, B5, B4, A3, E3 by discriminate. reflexivity. }
    destruct (String.eqb_spec k "avgs") as [->|N4]. { rewrite B6, B5, A4, E4 by discriminate. reflexivity. }
    destruct (String.eqb_spec k "mins") as [->|N5]. { rewrite A6, E5. reflexivity. }
    destruct (String.eqb_spec k "maxs") as [->|N6]. { rewrite B6, A5, E6 by discriminate. reflexivity. }
    rewrite B6, B5, B4, B3, B2, B1 by assumption. destruct (find k g) as [l|]; [now rewrite app_nil_r|reflexivity]. }
  split; [|exact V]. intros k. rewrite V. pose proof (C k) as Ck. destruct (find k g); [|exact Ck]. split; [intros _; apply Ck|]; discriminate.
Qed.

Definition fresh_group : group := map (fun k => (k, [])) ["l1norms"; "l2norms"; "linfnorms"; "avgs"; "mins"; "maxs"].
Lemma create_ok names : forall gs, NoDup (map fst gs ++ names) -> ~ In "t" names ->
  create_groups names gs = Ok (gs ++ map (fun n => (n, fresh_group)) names).
Proof.
  induction names as [|n r IH]; intros gs ND T; cbn [create_groups map]; [now rewrite app_nil_r|].
  destruct (String.eqb_spec n "t") as [->|_]; [destruct T; now left|]. rewrite find_none.
  - rewrite IH.
    + now rewrite <- app_assoc.
    + rewrite map_app. cbn [map fst]. now rewrite <- app_assoc.
    + intros X. apply T. now right.
  - intros X. apply NoDup_remove_2 in ND. apply ND. apply in_or_app. now left.
Qed.
Lemma find_fresh names n : In n names -> find n (map (fun n => (n, fresh_group)) names) = Some fresh_group.
Proof. induction names as [|m r IH]; [intros []|]. cbn [map find]. destruct (String.eqb_spec n m); [reflexivity|]. intros [->|H]; [contradiction|auto]. Qed.

Lemma save_states_ok x names : forall gs, NoDup names -> (forall n, In n names -> exists g, find n gs = Some g /\ complete g) ->
  exists gs', save_states (map (fun n => (n, x n)) names) gs = Ok gs' /\ map fst gs' = map fst gs /\
  (forall n, In n names -> exists g g', find n gs = Some g /\ find n gs' = Some g' /\ push_stats (x n) g = Some g') /\ (forall n, ~ In n names -> find n gs' = find n gs).
Proof.
  induction names as [|n r IH]; intros gs ND H.
  - exists gs. split; [reflexivity|]. split; [reflexivity|]. split; [intros n []|reflexivity].
  - inversion ND as [|? ? Nn NDr]; subst. destruct (H n (or_introl eq_refl)) as (g & Eg & Cg). destruct (push_stats_ok (x n) g Cg) as (g1 & Ep & C1 & _).
    destruct (append_at_ok n (push_stats (x n)) gs g g1 Eg Ep) as (gs1 & E1 & F1 & F2 & F3). cbn [map save_states]. rewrite E1.
    assert (K : forall n', In n' r -> n' <> n) by (intros n' Hn' ->; contradiction).
    destruct (IH gs1 NDr) as (gs2 & S1 & S2 & S3 & S4). { intros n' Hn'. rewrite F3 by auto. apply H. now right. }
    exists gs2. split; [exact S1|]. split; [now rewrite S2|]. split.
    + intros n' [->|Hn'].
      * exists g, g1. rewrite S4 by exact Nn. auto.
      * destruct (S3 n' Hn') as (g2 & g3 & A1 & A2 & A3). rewrite F3 in A1 by auto. eauto.
    + intros n' Hn'. rewrite S4 by (intros X; apply Hn'; now right). apply F3. intros ->. apply Hn'. now left.
Qed.

Definition well (count : nat) (names : list string) (past : list (R * (string -> field))) (s : summary) : Prop :=
  s_ranks s = count /\ s_t s = map fst past /\ map fst (s_states s) = names /\
  forall n, In n names -> exists g, find n (s_states s) = Some g /\ complete g /\
    forall k, In k stat_names -> find k g = Some (flat_map (fun h => match statistic k (snd h n) with Some v => [v] | None => [] end) past).
Lemma saves_ok count names history : NoDup names -> forall past s, well count names past s ->
  exists s', saves 0 names history (Some s) = Ok (Some s') /\ well count names (past ++ history)%list s'.
Proof.
  intros ND. induction history as [|[t x] r IH]; intros past s W.
  - exists s. rewrite app_nil_r. now split.
  - destruct W as (W1 & W2 & W3 & W4). destruct (save_states_ok x names (s_states s) ND) as (gs' & E & F1 & F2 & _).
    { intros n Hn. destruct (W4 n Hn) as (g & A & B & _). eauto. }
    cbn [saves]. unfold save_summary. cbn [Nat.eqb negb]. rewrite E.
    destruct (IH (past ++ [(t, x)])%list {| s_ranks := s_ranks s; s_t := s_t s ++ [t]; s_states := gs' |}) as (s' & E' & W').
    + split; [exact W1|]. split; [cbn [s_t]; now rewrite W2, map_app|]. split; [cbn [s_states]; now rewrite F1|]. cbn [s_states].
      intros n Hn. destruct (W4 n Hn) as (g & A & B & C). destruct (F2 n Hn) as (g0 & g1 & G0 & G1 & G2). rewrite A in G0. injection G0 as <-.
      exists g1. destruct (push_stats_ok (x n) g B) as (g2 & H1 & H2 & H3). rewrite H1 in G2. injection G2 as ->. split; [exact G1|]. split; [exact H2|].
      intros k Hk. rewrite H3, (C k Hk). rewrite flat_map_app. cbn [flat_map snd]. now rewrite app_nil_r.
    + exists s'. split; [exact E'|]. now rewrite <- app_assoc in W'.
Qed.
Lemma fresh_complete : complete fresh_group.
Proof. intros k. exact (find_known k fresh_group). Qed.
Lemma fresh_find k : In k stat_names -> find k fresh_group = Some [].
Proof. intros [<-|[<-|[<-|[<-|[<-|[<-|[]]]]]]]; reflexivity. Qed.

Theorem summary_records index_max count names t_final dt history : NoDup names -> ~ In "t" names -> capacity_ok index_max t_final dt = true ->
  exists s, summarize index_max count 0 names t_final dt history = Ok (Some s) /\ records count names history s.
Proof.
  intros ND T C. unfold summarize, initialize_summary. cbn [Nat.eqb negb]. rewrite C. rewrite create_ok by (cbn [map app]; assumption). cbn [app].
  set (gs := map (fun n => (n, fresh_group)) names).
  destruct (saves_ok count names history ND [] {| s_ranks := count; s_t := []; s_states := gs |}) as (s & E & W1 & W2 & W3 & W4).
  - split; [reflexivity|]. split; [reflexivity|]. cbn [s_states]. split; [unfold gs; rewrite map_map; apply map_id|].
    intros n Hn. exists fresh_group. split; [unfold gs; now apply find_fresh|]. split; [exact fresh_complete|]. intros k Hk. cbn [flat_map]. now apply fresh_find.
  - exists s. split; [exact E|]. cbn [app] in *. split; [exact W1|]. split; [exact W2|]. split; [exact W3|]. intros n k Hn. destruct (W4 n Hn) as (g & A & B & D).
    unfold curve. rewrite A. cbn [opt_bind]. destruct (statistic k []) eqn:Es.
    + apply D. apply (statistic_known k []). congruence.
    + destruct (find k g) eqn:Eg; [|reflexivity]. exfalso. assert (X : In k stat_names) by (apply B; congruence). apply (statistic_known k []) in X. contradiction.
Qed.
Theorem other_ranks index_max count rank names t_final dt history : rank <> 0%nat -> summarize index_max count rank names t_final dt history = Ok None.
Proof.
  intros H. unfold summarize, initialize_summary. destruct (Nat.eqb_spec rank 0); [contradiction|]. cbn [negb].
  induction history as [|[t x] r IH]; [reflexivity|]. cbn [saves]. unfold save_summary. destruct (Nat.eqb_spec rank 0); [contradiction|]. exact IH.
Qed.
Theorem misuse index_max count names t_final dt states t s : save_summary 0 states t None = Refused /\ initialize_summary index_max count 0 names t_final dt (Some s) = Refused.
Proof. split; reflexivity. Qed.
(** an entry of a curve *)
Lemma one_per_save k n history : statistic k [] <> None -> length (flat_map (fun h : R * (string -> field) => match statistic k (snd h n) with Some v => [v] | None => [] end) history) = length history /\
  forall i h, nth_error history i = Some h -> nth_error (flat_map (fun h => match statistic k (snd h n) with Some v => [v] | None => [] end) history) i = statistic k (snd h n).
Proof.
  intros K. assert (A : forall f, exists v, statistic k f = Some v). { intros f. apply statistic_known in K. apply (statistic_known k f) in K. destruct (statistic k f); [eauto|now destruct K]. }
  induction history as [|h r [IH1 IH2]]; [split; [reflexivity|intros [|i] h; discriminate]|]. cbn [flat_map length]. destruct (A (snd h n)) as (v & Ev). rewrite Ev. cbn [app length]. split; [now rewrite IH1|].
  intros [|i] h' E; cbn [nth_error] in *; [now injection E as <-|]. now apply IH2.
Qed.
(** sharing a DataStore *)
Theorem second_module index_max count names others t_final dt history n x t : NoDup names -> ~ In "t" names -> capacity_ok index_max t_final dt = true -> In n others -> ~ In n names ->
  exists s, summarize index_max count 0 names t_final dt history = Ok (Some s) /\ initialize_summary index_max count 0 others t_final dt (Some s) = Refused /\
    save_summary 0 (map (fun n => (n, x n)) others) t (Some s) = UB.
Proof.
  intros ND T C Hn Nn. destruct (summary_records index_max count names t_final dt history ND T C) as (s & E & (_ & _ & W & _)). exists s. split; [exact E|]. split; [reflexivity|].
  unfold save_summary. cbn [Nat.eqb negb]. assert (X : forall gs, map fst gs = names -> save_states (map (fun n => (n, x n)) others) gs = UB); [|now rewrite (X _ W)].
  clear E W s T C ND. induction others as [|m r IH]; [destruct Hn|]. intros gs W. cbn [map save_states].
  destruct (append_at m (push_stats (x m)) gs) as [gs'|] eqn:Ea; [|reflexivity].
  assert (NK : map fst gs' = map fst gs /\ In m (map fst gs)).
  { clear IH W. revert gs' Ea. induction gs as [|[k a] q IHq]; intros gs' Ea; [discriminate|]. cbn [append_at] in Ea. destruct (String.eqb_spec m k) as [->|].
    - destruct (push_stats (x k) a); [|discriminate]. injection Ea as <-. split; [reflexivity|now left].
    - destruct (append_at m (push_stats (x m)) q) as [q'|]; [|discriminate]. injection Ea as <-. destruct (IHq q' eq_refl) as [A B]. cbn [map fst]. split; [now rewrite A|now right]. }
  destruct NK as [K1 K2]. rewrite W in K2. apply IH; [|now rewrite K1]. destruct Hn as [->|Hn]; [contradiction|exact Hn].
Qed.

(** ** in the driver (drivers/serac.cpp:388-423) *)
(** Driver.main_loop with the call of saveSummary (line 413) for the module's states, whose names are [names] *)
Fixpoint summary_loop (fuel : nat) (rank : nat) (names : list string) (cfg : config) (solve : ledger field -> R -> string -> field) (t_final dt t : R) (s : ledger field) (ds : store) : option (outcome store) :=
  match fuel with
  | O => None
  | S k =>
      let dt_real := Rmin dt (t_final - t) in
      let t' := (t + dt_real)%R in
      let s' := advance field cfg dt_real (solve s dt_real) s in
      match save_summary rank (map (fun n => (n, l_fields field s' n)) names) t' ds with
      | Ok ds' => if Rle_dec (t_final - / 10 ^ 8 * dt) t' then Some (Ok ds') else summary_loop k rank names cfg solve t_final dt t' s' ds'
      | Refused => Some Refused | UB => Some UB end
  end.
(** drivers/serac.cpp:388-420 and output.cpp:33-47: what outputSummary saves *)
Definition driver_summary (fuel : nat) (index_max : R) (count rank : nat) (names : list string) (cfg : config) (solve : ledger field -> R -> string -> field) (t_final dt t : R) (s : ledger field) : option (outcome store) :=
  match initialize_summary index_max count rank names t_final dt None with
  | Ok ds => summary_loop fuel rank names cfg solve t_final dt t s ds | Refused => Some Refused | UB => Some UB end.

(** the history of a run that takes the given steps: after each of them the driver's time and the module's fields *)
Definition run_history (cfg : config) (solve : ledger field -> R -> string -> field) (t : R) (s : ledger field) (steps : list R) : list (R * (string -> field)) :=
  map (fun k => ((t + Rsum (firstn k steps))%R, l_fields field (after field cfg solve s (firstn k steps)))) (seq 1 (length steps)).
Lemma run_history_cons cfg solve t s h r : run_history cfg solve t s (h :: r) =
  ((t + h)%R, l_fields field (advance field cfg h (solve s h) s)) :: run_history cfg solve (t + h) (advance field cfg h (solve s h) s) r.
Proof.
  unfold run_history. cbn [length seq map firstn after]. f_equal.
  - f_equal. unfold Rsum; cbn. lra.
  - rewrite <- (seq_shift (length r) 1), map_map. apply map_ext. intros k. cbn [firstn after]. f_equal. unfold Rsum. cbn [fold_right]. lra.
Qed.
Lemma summary_loop_saves rank names cfg solve t_final dt : forall fuel t s ds steps, drive fuel t_final dt t = Some steps ->
  forall ds', saves rank names (run_history cfg solve t s steps) ds = Ok ds' -> summary_loop fuel rank names cfg solve t_final dt t s ds = Some (Ok ds').
Proof.
  induction fuel as [|k IH]; intros t s ds steps D ds' E; [discriminate|]. cbn [drive summary_loop] in *. set (h := Rmin dt (t_final - t)) in *.
  destruct (Rle_dec _ _) as [L|L].
  - injection D as <-. rewrite run_history_cons in E. cbn [saves] in E. destruct (save_summary _ _ _ _) as [d| |]; [|discriminate|discriminate]. cbn [saves run_history length seq map] in E. now injection E as ->.
  - destruct (drive k t_final dt (t + h)) as [st|] eqn:D1; [|discriminate]. injection D as <-. rewrite run_history_cons in E. cbn [saves] in E.
    destruct (save_summary _ _ _ _) as [d| |]; [|discriminate|discriminate]. now apply (IH _ _ _ st).
Qed.
Theorem driver_records fuel index_max count names cfg solve t_final dt t s steps : NoDup names -> ~ In "t" names -> capacity_ok index_max t_final dt = true -> drive fuel t_final dt t = Some steps ->
  exists r, driver_summary fuel index_max count 0 names cfg solve t_final dt t s = Some (Ok (Some r)) /\ records count names (run_history cfg solve t s steps) r.
Proof.
  intros ND T C D. destruct (summary_records index_max count names t_final dt (run_history cfg solve t s steps) ND T C) as (r & E & W). exists r. split; [|exact W].
  unfold summarize in E. unfold driver_summary. destruct (initialize_summary _ _ _ _ _ _ _) as [ds| |]; [|discriminate|discriminate]. now apply (summary_loop_saves 0 names cfg solve t_final dt fuel t s ds steps D).
Qed.
End Summary.

(** ** the modules' states *)
Inductive module_kind := Heat (quasistatic : bool) | Solid (quasistatic : bool) | Thermo.
(** heat_transfer.hpp:158-182, solid_mechanics.hpp:176-215, thermomechanics.hpp:79-91 *)
Definition state_names (m : module_kind) (name : string) : list string :=
  match m with
  | Heat q => addPrefix name "temperature" :: (if q then [] else [addPrefix name "temperature_rate"])
  | Solid q => addPrefix name "displacement" :: (if q then [] else [addPrefix name "velocity"; addPrefix name "acceleration"])
  | Thermo => [addPrefix (name ++ "thermal") "temperature"; addPrefix (name ++ "mechanical") "velocity"; addPrefix (name ++ "mechanical") "displacement"]
  end.
Lemma last_char_app a b : b <> "" -> get (String.length (a ++ b) - 1) (a ++ b) = get (String.length b - 1) b.
Proof.
  intros Hb. induction a as [|c a IH]; [reflexivity|]. cbn [append String.length]. rewrite <- IH. replace (S (String.length (a ++ b)) - 1)%nat with (S (String.length (a ++ b) - 1)); [reflexivity|].
  assert (0 < String.length (a ++ b))%nat; [|lia]. destruct a as [|c' a]; cbn; [destruct b; [contradiction|cbn; lia]|lia].
Qed.
Definition ending (s : string) := get (String.length s - 1) s.
Lemma ending_prefix p n : n <> "" -> ending (addPrefix p n) = ending n.
Proof.
  intros H. unfold addPrefix, ending. destruct p as [|c p]; [reflexivity|].
  rewrite last_char_app; [|discriminate]. exact (last_char_app "_" n H).
Qed.
Theorem module_names m name : NoDup (state_names m name) /\ ~ In "t" (state_names m name).
Proof.
  assert (T : forall p n, addPrefix p n = "t" -> n = "t" \/ n = "").
  { intros p n E. unfold addPrefix in E. destruct p as [|c p]; [now left|]. right. cbn in E. injection E as _ E. destruct p; cbn in E; discriminate. }
  destruct m as [q|q|]; cbn [state_names].
  - split.
    + destruct q; repeat constructor; cbn [In]; [tauto| |tauto]. intros [E|[]]. apply addPrefix_inj in E. discriminate.
    + destruct q; cbn [In]; intros H; repeat destruct H as [H|H]; try contradiction; apply T in H; destruct H; discriminate.
  - split.
    + destruct q; repeat constructor; cbn [In]; try tauto; intros H; repeat destruct H as [H|H]; try contradiction; apply addPrefix_inj in H; discriminate.
    + destruct q; cbn [In]; intros H; repeat destruct H as [H|H]; try contradiction; apply T in H; destruct H; discriminate.
  - split; [|cbn [In]; intros H; repeat destruct H as [H|H]; try contradiction; apply T in H; destruct H; discriminate].
    assert (L : forall a b c d, addPrefix a b = addPrefix c d -> b <> "" -> d <> "" -> ending b = ending d). { intros a b c d E B D. rewrite <- (ending_prefix a b B), E. now apply ending_prefix. }
    repeat constructor; cbn [In]; try tauto; intros H; repeat destruct H as [H|H]; try contradiction.
    + apply L in H; discriminate.
    + apply L in H; discriminate.
    + apply addPrefix_inj in H. discriminate.
Qed.

(** * A quantity of interest on a bar of two elements divided among three processes (C75) *)
From Coq Require Import NArith ZArith Reals List Lia Lra Bool Permutation.
From Verif Require Import Prelude DofCodec Sums Restriction Csr Kernels FunctionalModel FunctionalGrad FunctionalTotal Assembly FunctionalEx WeakForm ParallelModel ParallelFacts ParallelSum ParallelMatrix ParallelEx.
Import ListNotations.
Local Open Scope R_scope.

(** c u^2 with a weight c per element *)
Definition meter_kernel (cs : list R) : gkernel R :=
  {| gk_elems := seq 0 (length cs); gk_dim1 := 1; gk_nq := 1; gk_w := fun _ => 1; gk_test := end_space; gk_trial := fun _ => seg_space;
     gk_qf := fun e q t v st => (fun i b => nth e cs 0 * v O O O * v O O O, st); gk_ad := fun s e q t v st => fun i b j a => 2 * nth e cs 0 * v O O O |}.
Definition ones {A} (es : list A) : list (list nat) := map (fun _ => [0%nat]) es.
Definition meter (nn : nat) (es : list (list nat)) (cs : list R) (there : nat -> nat -> bool) : rank R :=
  {| k_all := {| f_test := fun dt => match dt with Elements => [rows 1 1 (ones es)] | BoundaryElements => [] end;
                 f_trial := fun _ dt => match dt with Elements => [rows 2 nn es] | BoundaryElements => [] end;
                 f_integrals := [{| i_type := Elements; i_active := [0%nat]; i_geoms := [meter_kernel cs] |}] |};
     k_count := fun dt => match dt with Elements => length es | BoundaryElements => 0%nat end;
     k_lsize := 1; k_tsize := fun _ => nn;
     k_Ptest := fun _ _ => 1; k_Ptrial := fun _ l T => if there l T then 1 else 0 |}.
Definition q_whole : rank R := meter 3 [[0; 1]; [1; 2]]%nat [1; 5] Nat.eqb.
Definition q_first : rank R := meter 2 [[0; 1]]%nat [1] Nat.eqb.
Definition q_second : rank R := meter 2 [[1; 0]]%nat [5] (fun l T => Nat.eqb (l + T) 2).
Definition q_third : rank R := meter 0 [] [] Nat.eqb.
Definition p_first (d g : nat) : list nat := [0%nat].
Definition p_second (d g : nat) : list nat := [1%nat].
Definition q_three : list (rank R * (nat -> nat -> list nat)) := [(q_first, p_first); (q_second, p_second); (q_third, at_third)].

Lemma ones_plain {A} (es : list A) : plain (rows 1 1 (ones es)).
Proof. apply rows_plain; [lia|]. intros row H. apply in_map_iff in H as (x & <- & _). split; [reflexivity|]. intros n [<-|[]]. lia. Qed.
Lemma meter_sound nn es cs there : plain (rows 2 nn es) -> length cs = length es -> sound (meter nn es cs there).
Proof.
  intros Pe Hc. split; [|split; [|split]].
  - assert (N1 : NoDup [0%nat]) by (constructor; [intros []|constructor]).
    intros Ig [<-|[]]; cbn [i_type i_active i_geoms meter k_all k_lsize k_tsize];
      (split; [|split; [|split; [reflexivity|exact N1]]]); [intros r H|intros w r H]; cbn in H; destruct H as [<-|[]]; apply rows_ids; [apply ones_plain|exact Pe].
  - intros Ig g G rt [<-|[]] HG Hr; destruct g as [|g]; try (destruct g; discriminate); cbn in HG, Hr; inversion HG; inversion Hr; subst; cbn;
      (split; [reflexivity|]; split; [reflexivity|]); intros el Hel; apply in_seq in Hel; unfold r_num_elements; cbn; unfold ones; rewrite !map_length; lia.
  - intros Ig s w g G [<-|[]] Hw HG; destruct g as [|g]; try (destruct g; discriminate); cbn in HG; inversion HG; subst; cbn;
      eexists; (split; [reflexivity|]; split; [reflexivity|]; split; [reflexivity|]); intros el Hel; apply in_seq in Hel; unfold r_num_elements; cbn; rewrite map_length; lia.
  - intros Ig G [<-|[]] H0 [<-|[]]; cbn in H0 |- *; destruct es, cs; cbn in *; try discriminate; reflexivity.
Qed.
Lemma meter_integrand cs cs' le le' : nth le cs 0 = nth le' cs' 0 -> same_integrand 1 (meter_kernel cs) (meter_kernel cs') le le'.
Proof.
  intros E q t u u' st _ Hu. assert (U : forall b, u 0%nat 0%nat b = u' 0%nat 0%nat b) by (intros b; apply Hu; cbn; lia).
  cbn. rewrite !U, E. split; [reflexivity|]. split; [reflexivity|]. intros s Hs i b j a _ _ _ _. reflexivity.
Qed.
Lemma meter_part nn es cs there pos : length (pos 0%nat 0%nat) = length cs ->
  (forall le, (le < length cs)%nat -> nth le cs 0 = nth (nth le (pos 0%nat 0%nat) 0%nat) [1; 5] 0 /\ forall j T, (j < 2)%nat -> (T < 3)%nat ->
     there (Z.to_nat (L_id (rows 2 nn es) (nth le (seq 0 (length cs)) 0%nat) 0 j)) T = Nat.eqb (Z.to_nat (L_id (rows 2 3 [[0; 1]; [1; 2]]%nat) (nth (nth le (pos 0%nat 0%nat) 0%nat) [0; 1]%nat 0%nat) 0 j)) T) ->
  is_part 1 (fun _ => 3%nat) q_whole (meter nn es cs there) pos.
Proof.
  intros L1 H1. split; [reflexivity|]. intros d Ig Ig' HI HI'.
  destruct d as [|d]; [|destruct d; discriminate]; cbn in HI, HI'; inversion HI; inversion HI'; subst Ig Ig'; cbn [i_type i_active i_geoms];
    (split; [reflexivity|]; split; [reflexivity|]; split; [reflexivity|]); intros g G G' HG HG';
    (destruct g as [|g]; [|destruct g; discriminate]); cbn in HG, HG'; inversion HG; inversion HG'; subst G G'.
  split; [repeat split|]. split; [cbn [gk_elems meter_kernel]; now rewrite seq_length|]. intros le Hle. cbn [gk_elems meter_kernel] in Hle. rewrite seq_length in Hle.
  destruct (H1 le Hle) as (Hc & HT1). split; [now apply meter_integrand|]. split.
  - intros rt rt' Hr Hr' i j T Hi Hj HT. reflexivity.
  - intros s w rr rr' Hw Hr Hr'. cbn in Hr, Hr'. inversion Hr; inversion Hr'; subst rr rr'. intros i j T Hi Hj HT. cbn in Hi, Hj. destruct i as [|i]; [|lia].
    cbn [k_Ptrial meter q_whole gk_elems meter_kernel]. now rewrite (HT1 j T Hj HT).
Qed.
Lemma q_sound : sound q_whole. Proof. apply meter_sound; [apply whole_plain|reflexivity]. Qed.
Lemma q_divide : divides 1 (fun _ => 3%nat) q_whole q_three.
Proof.
  split; [apply q_sound|]. split.
  - intros k pos [E|[E|[E|[]]]]; inversion E; subst k pos.
    + split; [apply meter_sound; [apply first_plain|reflexivity]|]. apply meter_part; [reflexivity|]; cbn [length]; intros le Hle. small. split; [reflexivity|]. intros j T Hj HT. small; vm_compute; reflexivity.
    + split; [apply meter_sound; [apply second_plain|reflexivity]|]. apply meter_part; [reflexivity|]; cbn [length]; intros le Hle. small. split; [reflexivity|]. intros j T Hj HT. small; vm_compute; reflexivity.
    + split; [apply meter_sound; [apply third_plain|reflexivity]|]. apply meter_part; [reflexivity|]; cbn [length]; intros le Hle. lia.
  - intros d Ig g G HI HG. destruct d as [|d]; [|destruct d; discriminate]; inversion HI; subst Ig; (destruct g as [|g]; [|destruct g; discriminate]); inversion HG; subst G; apply Permutation_refl.
Qed.
Lemma q_remember : remember q_whole q_three (fresh 0) [fresh 0; fresh 0; fresh 0].
Proof.
  unfold remember, q_three. apply Forall2_cons; [|apply Forall2_cons; [|apply Forall2_cons; [|apply Forall2_nil]]]; cbn [fst snd]; intros d Ig g G le q HI HG Hle Hq;
    split; try reflexivity; intros; exact Logic.I.
Qed.
Lemma meter_ready nn es cs there : plain (rows 2 nn es) -> length cs = length es -> gradient_ready (meter nn es cs there) 0.
Proof.
  intros Pe Hc. assert (Hl : forall Ig, In Ig (f_integrals (local_functional (meter nn es cs there))) -> Ig = {| i_type := Elements; i_active := [0%nat]; i_geoms := [meter_kernel cs] |}).
  { intros Ig H. apply filter_In in H as [[<-|[]] _]. reflexivity. }
  split; [split; reflexivity|]. split.
  - split; [|split; [|split; [|split]]].
    + intros [|] rt H; cbn in H; [destruct H as [<-|[]]|contradiction]. split; [apply ones_plain|]. apply rows_ids, ones_plain.
    + intros [|] rt H; cbn in H; [destruct H as [<-|[]]|contradiction]. split; [exact Pe|]. now apply rows_ids.
    + intros [|]; reflexivity.
    + intros Ig H. apply Hl in H. subst Ig. reflexivity.
    + intros Ig s g G rt rr H Hs HG Ht Hrr. apply Hl in H. subst Ig. cbn in Ht, Hrr.
      (destruct g as [|g]; [|destruct g; discriminate]); inversion HG; inversion Ht; inversion Hrr; subst; repeat split; try (now (unfold r_num_elements; cbn; unfold ones; rewrite !map_length));
        intros el Hel; apply in_seq in Hel; unfold r_num_elements; cbn; unfold ones; rewrite ?map_length; lia.
  - intros [|] rt rr [|g] H1 H2; cbn in H1, H2; try (destruct g; discriminate); try discriminate; inversion H1; inversion H2; subst. unfold r_num_elements. cbn. unfold ones. now rewrite !map_length.
Qed.
Lemma gradient_case X : exists Ts mS ms g,
  par_history [q_whole] 1 (fun _ => 3%nat) (at_start X) [fresh 0] = Ok (Ts, [mS]) /\
  par_history (map fst q_three) 1 (fun _ => 3%nat) (at_start X) [fresh 0; fresh 0; fresh 0] = Ok (Ts, ms) /\
  par_gradient (map fst q_three) 0 3 ms = Ok g /\ par_gradient [q_whole] 0 3 [mS] = Ok g.
Proof.
  destruct (divided_evaluation 1 (fun _ => 3%nat) q_whole q_sound q_three 1 (Some 0%nat) true X (fresh 0) [fresh 0; fresh 0; fresh 0] q_divide q_remember) as (T & mS & ms & A & B & C).
  destruct (divided_gradient 1 (fun _ => 3%nat) q_whole q_three 0 mS ms q_divide eq_refl C) as (g & D & E).
  - exact (differentiated q_whole 1 0 true 1 (fun _ => 3%nat) X (fresh 0) mS T q_sound B).
  - intros k pos [H|[H|[H|[]]]]; inversion H; subst; apply meter_ready; try reflexivity; first [apply first_plain|apply second_plain|apply third_plain].
  - apply meter_ready; [apply whole_plain|reflexivity].
  - exists [T], mS, ms, g. cbn [par_history at_start rq_t rq_wrt rq_update rq_in]. rewrite A, B. cbn [bindO fst snd]. auto.
Qed.

(** * A bar of two elements divided among three processes (C75)

    Nodes 0, 1, 2; the boundary integral, on node 2, is added first.  The first process holds the first element and no boundary, the
    second the second element (nodes numbered 2, 1) and the boundary, the third nothing. *)
From Coq Require Import NArith ZArith Reals List Lia Lra Bool Permutation.
From Verif Require Import Prelude DofCodec Sums Restriction Csr Kernels FunctionalModel FunctionalGrad FunctionalTotal Assembly FunctionalEx WeakForm ParallelModel ParallelFacts ParallelSum ParallelMatrix.
Import ListNotations.
Local Open Scope R_scope.

Definition rows (npe nn : nat) (es : list (list nat)) : restriction :=
  {| r_ordering := byNODES; r_components := 1; r_num_nodes := nn; r_nodes_per_elem := npe; r_dofs := map (map (fun n => mk_dof (N.of_nat n) 0 0)) es |}.
Definition end_space : elem_space := {| es_c := 1; es_n := 1; es_B := fun k q a => match a with O => 1 | _ => 0 end |}.
(** source c u^2 with a modulus c per element, flux du; the state accumulates u *)
Definition bar_kernel (cs : list R) : gkernel R :=
  {| gk_elems := seq 0 (length cs); gk_dim1 := 2; gk_nq := 1; gk_w := fun _ => 1; gk_test := seg_space; gk_trial := fun _ => seg_space;
     gk_qf := fun e q t v st => (fun i b => match b with O => nth e cs 0 * v O O O * v O O O + t + st | 1%nat => v O O 1%nat | _ => 0 end, st + v O O O);
     gk_ad := fun s e q t v st => fun i b j a => match b, a with O, O => 2 * nth e cs 0 * v O O O | 1%nat, 1%nat => 1 | _, _ => 0 end |}.
(** 3 u on the boundary *)
Definition end_kernel (nb : nat) : gkernel R :=
  {| gk_elems := seq 0 nb; gk_dim1 := 1; gk_nq := 1; gk_w := fun _ => 1; gk_test := end_space; gk_trial := fun _ => end_space;
     gk_qf := fun e q t v st => (fun i b => 3 * v O O O, st); gk_ad := fun s e q t v st => fun i b j a => 3 |}.
(** [there l T]: local dof l is true dof T *)
Definition bar (nn : nat) (es bs : list (list nat)) (cs : list R) (there : nat -> nat -> bool) : rank R :=
  {| k_all := {| f_test := fun dt => match dt with Elements => [rows 2 nn es] | BoundaryElements => [rows 1 nn bs] end;
                 f_trial := fun _ dt => match dt with Elements => [rows 2 nn es] | BoundaryElements => [rows 1 nn bs] end;
                 f_integrals := [{| i_type := BoundaryElements; i_active := [0%nat]; i_geoms := [end_kernel (length bs)] |};
                                 {| i_type := Elements; i_active := [0%nat]; i_geoms := [bar_kernel cs] |}] |};
     k_count := fun dt => match dt with Elements => length es | BoundaryElements => length bs end;
     k_lsize := nn; k_tsize := fun _ => nn;
     k_Ptest := fun l T => if there l T then 1 else 0; k_Ptrial := fun _ l T => if there l T then 1 else 0 |}.
Definition whole : rank R := bar 3 [[0; 1]; [1; 2]]%nat [[2]]%nat [1; 5] Nat.eqb.
Definition first : rank R := bar 2 [[0; 1]]%nat [] [1] Nat.eqb.
Definition second : rank R := bar 2 [[1; 0]]%nat [[0]]%nat [5] (fun l T => Nat.eqb (l + T) 2).
Definition third : rank R := bar 0 [] [] [] Nat.eqb.
Definition at_first (d g : nat) : list nat := match d with 1%nat => [0%nat] | _ => [] end.
Definition at_second (d g : nat) : list nat := match d with O => [0%nat] | _ => [1%nat] end.
Definition at_third (d g : nat) : list nat := [].
Definition three : list (rank R * (nat -> nat -> list nat)) := [(first, at_first); (second, at_second); (third, at_third)].
(** initial state 0 in the first element, 7 in the second *)
Definition before_whole : mem R := {| m_q := fun n g e q => match n, e with 1%nat, 1%nat => 7 | _, _ => 0 end; m_d := fun _ _ _ _ _ => None |}.
Definition before_second : mem R := {| m_q := fun n g e q => match n with 1%nat => 7 | _ => 0 end; m_d := fun _ _ _ _ _ => None |}.

Lemma rows_plain npe nn es : (Z.of_nat nn < 2147483648)%Z -> (forall row, In row es -> length row = npe /\ forall n, In n row -> (n < nn)%nat) -> plain (rows npe nn es).
Proof.
  intros Hn H. split; [|cbn; lia]. intros row Hr. cbn in Hr. apply in_map_iff in Hr as (l & <- & Hl). destruct (H l Hl) as (A & B). split; [cbn; now rewrite map_length|].
  intros d Hd. apply in_map_iff in Hd as (n & <- & Hn'). exists n. split; [now apply B|reflexivity].
Qed.
Lemma rows_ids npe nn es : plain (rows npe nn es) -> ids_ok (rows npe nn es) nn.
Proof. intros H. pose proof (plain_ids_ok _ H) as A. cbn in A. rewrite Nat.mul_1_r in A. exact A. Qed.

Lemma bar_sound nn es bs cs there : plain (rows 2 nn es) -> plain (rows 1 nn bs) -> length cs = length es -> sound (bar nn es bs cs there).
Proof.
  intros Pe Pb Hc. split; [|split; [|split]].
  - assert (N1 : NoDup [0%nat]) by (constructor; [intros []|constructor]).
    intros Ig [<-|[<-|[]]]; cbn [i_type i_active i_geoms bar k_all k_lsize k_tsize];
      (split; [|split; [|split; [reflexivity|exact N1]]]); [intros r H|intros w r H|intros r H|intros w r H]; cbn in H; destruct H as [<-|[]]; now apply rows_ids.
  - intros Ig g G rt [<-|[<-|[]]] HG Hr; destruct g as [|g]; try (destruct g; discriminate); cbn in HG, Hr; inversion HG; inversion Hr; subst; cbn;
      (split; [reflexivity|]; split; [reflexivity|]); intros el Hel; apply in_seq in Hel; unfold r_num_elements; cbn; rewrite map_length; lia.
  - intros Ig s w g G [<-|[<-|[]]] Hw HG; destruct g as [|g]; try (destruct g; discriminate); cbn in HG; inversion HG; subst; cbn;
      eexists; (split; [reflexivity|]; split; [reflexivity|]; split; [reflexivity|]); intros el Hel; apply in_seq in Hel; unfold r_num_elements; cbn; rewrite map_length; lia.
  - intros Ig G [<-|[<-|[]]] H0 [<-|[]]; cbn in H0 |- *; destruct bs, es, cs; cbn in *; try discriminate; reflexivity.
Qed.
Ltac in_cases := repeat match goal with H : In _ _ |- _ => cbn in H; repeat (destruct H as [H|H]; [subst|]); try contradiction end.
Lemma whole_plain : plain (rows 2 3 [[0; 1]; [1; 2]]%nat) /\ plain (rows 1 3 [[2]]%nat).
Proof. split; apply rows_plain; try lia; intros row Hr; in_cases; (split; [reflexivity|]); intros n Hn; in_cases; lia. Qed.
Lemma first_plain : plain (rows 2 2 [[0; 1]]%nat) /\ plain (rows 1 2 []).
Proof. split; apply rows_plain; try lia; intros row Hr; in_cases; (split; [reflexivity|]); intros n Hn; in_cases; lia. Qed.
Lemma second_plain : plain (rows 2 2 [[1; 0]]%nat) /\ plain (rows 1 2 [[0]]%nat).
Proof. split; apply rows_plain; try lia; intros row Hr; in_cases; (split; [reflexivity|]); intros n Hn; in_cases; lia. Qed.
Lemma third_plain : plain (rows 2 0 []) /\ plain (rows 1 0 []).
Proof. split; apply rows_plain; try lia; intros row Hr; in_cases. Qed.
Lemma whole_sound : sound whole. Proof. destruct whole_plain. now apply bar_sound. Qed.
Lemma first_sound : sound first. Proof. destruct first_plain. now apply bar_sound. Qed.
Lemma second_sound : sound second. Proof. destruct second_plain. now apply bar_sound. Qed.
Lemma third_sound : sound third. Proof. destruct third_plain. now apply bar_sound. Qed.

Lemma bar_integrand cs cs' le le' : nth le cs 0 = nth le' cs' 0 -> same_integrand 1 (bar_kernel cs) (bar_kernel cs') le le'.
Proof.
  intros E q t u u' st _ Hu. assert (U : forall b, u 0%nat 0%nat b = u' 0%nat 0%nat b) by (intros b; apply Hu; cbn; lia).
  cbn. rewrite !U, E. split; [reflexivity|]. split; [reflexivity|]. intros s Hs i b j a _ _ _ _. reflexivity.
Qed.
Lemma end_integrand n n' le le' : same_integrand 1 (end_kernel n) (end_kernel n') le le'.
Proof.
  intros q t u u' st _ Hu. assert (U : forall b, u 0%nat 0%nat b = u' 0%nat 0%nat b) by (intros b; apply Hu; cbn; lia).
  cbn. rewrite !U. split; [reflexivity|]. split; [reflexivity|]. intros s Hs i b j a _ _ _ _. reflexivity.
Qed.
Lemma bar_part nn es bs cs there pos :
  length (pos 0%nat 0%nat) = length bs -> length (pos 1%nat 0%nat) = length cs ->
  (forall le, (le < length bs)%nat -> forall j T, (j < 1)%nat -> (T < 3)%nat ->
     there (Z.to_nat (L_id (rows 1 nn bs) (nth le (seq 0 (length bs)) 0%nat) 0 j)) T = Nat.eqb (Z.to_nat (L_id (rows 1 3 [[2]]%nat) (nth (nth le (pos 0%nat 0%nat) 0%nat) [0%nat] 0%nat) 0 j)) T) ->
  (forall le, (le < length cs)%nat -> nth le cs 0 = nth (nth le (pos 1%nat 0%nat) 0%nat) [1; 5] 0 /\ forall j T, (j < 2)%nat -> (T < 3)%nat ->
     there (Z.to_nat (L_id (rows 2 nn es) (nth le (seq 0 (length cs)) 0%nat) 0 j)) T = Nat.eqb (Z.to_nat (L_id (rows 2 3 [[0; 1]; [1; 2]]%nat) (nth (nth le (pos 1%nat 0%nat) 0%nat) [0; 1]%nat 0%nat) 0 j)) T) ->
  is_part 3 (fun _ => 3%nat) whole (bar nn es bs cs there) pos.
Proof.
  intros L0 L1 H0 H1. split; [reflexivity|]. intros d Ig Ig' HI HI'.
  destruct d as [|[|d]]; [| |destruct d; discriminate]; cbn in HI, HI'; inversion HI; inversion HI'; subst Ig Ig'; cbn [i_type i_active i_geoms];
    (split; [reflexivity|]; split; [reflexivity|]; split; [reflexivity|]); intros g G G' HG HG';
    (destruct g as [|g]; [|destruct g; discriminate]); cbn in HG, HG'; inversion HG; inversion HG'; subst G G'.
  - split; [repeat split|]. split; [cbn [gk_elems end_kernel]; now rewrite seq_length|]. intros le Hle. cbn [gk_elems end_kernel] in Hle. rewrite seq_length in Hle.
    split; [apply end_integrand|]. split.
    + intros rt rt' Hr Hr'. cbn in Hr, Hr'. inversion Hr; inversion Hr'; subst rt rt'. intros i j T Hi Hj HT. cbn in Hi, Hj. destruct i as [|i]; [|lia].
      cbn [k_Ptest bar whole gk_elems end_kernel]. now rewrite (H0 le Hle j T Hj HT).
    + intros s w rr rr' Hw Hr Hr'. cbn in Hr, Hr'. inversion Hr; inversion Hr'; subst rr rr'. intros i j T Hi Hj HT. cbn in Hi, Hj. destruct i as [|i]; [|lia].
      cbn [k_Ptrial bar whole gk_elems end_kernel]. now rewrite (H0 le Hle j T Hj HT).
  - split; [repeat split|]. split; [cbn [gk_elems bar_kernel]; now rewrite seq_length|]. intros le Hle. cbn [gk_elems bar_kernel] in Hle. rewrite seq_length in Hle.
    destruct (H1 le Hle) as (Hc & HT1). split; [now apply bar_integrand|]. split.
    + intros rt rt' Hr Hr'. cbn in Hr, Hr'. inversion Hr; inversion Hr'; subst rt rt'. intros i j T Hi Hj HT. cbn in Hi, Hj. destruct i as [|i]; [|lia].
      cbn [k_Ptest bar whole gk_elems bar_kernel]. now rewrite (HT1 j T Hj HT).
    + intros s w rr rr' Hw Hr Hr'. cbn in Hr, Hr'. inversion Hr; inversion Hr'; subst rr rr'. intros i j T Hi Hj HT. cbn in Hi, Hj. destruct i as [|i]; [|lia].
      cbn [k_Ptrial bar whole gk_elems bar_kernel]. now rewrite (HT1 j T Hj HT).
Qed.
Ltac small := repeat match goal with H : (?x < _)%nat |- _ => is_var x; destruct x as [|x]; [clear H|try (apply Nat.succ_lt_mono in H); try lia] end.
Lemma three_divide : divides 3 (fun _ => 3%nat) whole three.
Proof.
  split; [apply whole_sound|]. split.
  - intros k pos [E|[E|[E|[]]]]; inversion E; subst k pos.
    + split; [apply first_sound|]. apply bar_part; try reflexivity; cbn [length]; intros le Hle; [lia|]. small. split; [reflexivity|]. intros j T Hj HT. small; vm_compute; reflexivity.
    + split; [apply second_sound|]. apply bar_part; try reflexivity; cbn [length]; intros le Hle; small.
      * intros j T Hj HT. small; vm_compute; reflexivity.
      * split; [reflexivity|]. intros j T Hj HT. small; vm_compute; reflexivity.
    + split; [apply third_sound|]. apply bar_part; try reflexivity; cbn [length]; intros le Hle; lia.
  - intros d Ig g G HI HG. destruct d as [|[|d]]; [| |destruct d; discriminate]; inversion HI; subst Ig; (destruct g as [|g]; [|destruct g; discriminate]); inversion HG; subst G; apply Permutation_refl.
Qed.
Lemma three_remember : remember whole three before_whole [fresh 0; before_second; fresh 0].
Proof.
  unfold remember, three. apply Forall2_cons; [|apply Forall2_cons; [|apply Forall2_cons; [|apply Forall2_nil]]]; cbn [fst snd]; intros d Ig g G le q HI HG Hle Hq;
  (destruct d as [|[|d]]; [| |destruct d; discriminate]); inversion HI; subst Ig; (destruct g as [|g]; [|destruct g; discriminate]); inversion HG; subst G;
    cbn in Hle, Hq; try lia; (destruct le as [|le]; [|lia]); split; try reflexivity; intros; exact Logic.I.
Qed.
(** the integral over the elements is the first on the first process, and the second on the whole *)
Lemma numbers_differ : number whole 1 = 1%nat /\ number first 1 = 0%nat /\ f_integrals (local_functional third) = [].
Proof. repeat split. Qed.

(** ** assembling *)
Definition two : list (rank R * (nat -> nat -> list nat)) := [(first, at_first); (second, at_second)].
Lemma two_divide : divides 3 (fun _ => 3%nat) whole two.
Proof.
  destruct three_divide as (A & B & C). split; [exact A|]. split.
  - intros k pos [H|[H|[]]]; apply B; [now left|right; now left].
  - intros d Ig g G HI HG. specialize (C d Ig g G HI HG). cbn [three flat_map snd] in C. exact C.
Qed.
Lemma two_remember : remember whole two before_whole [fresh 0; before_second].
Proof. pose proof three_remember as H. inversion_clear H. inversion_clear H1. repeat apply Forall2_cons; auto. Qed.
Definition keys (k : rank R) : list entry := map fst (lut_keys (emitted_all (blocks_of (local_functional k) 0 Elements))).
Lemma bar_tabulated w nn es bs cs there : plain (rows 2 nn es) -> plain (rows 1 nn bs) -> length cs = length es ->
  (forall l, (l < nn)%nat -> exists col, coupled [(rows 2 nn es, rows 2 nn es)] (Z.of_nat l, col)) -> (0 < nn)%nat -> (Z.of_nat nn <= 2 ^ 32)%Z ->
  (forall x, coupled [(rows 1 nn bs, rows 1 nn bs)] x -> coupled [(rows 2 nn es, rows 2 nn es)] x) ->
  tabulated (bar nn es bs cs there) w (keys (bar nn es bs cs there)).
Proof.
  intros Pe Pb Hc Hr H0 Hl Hb. split; [|split; [|split; [|split; [exact Hr|split; [exact H0|split; [exact Hl|split; [exact Hb|apply Permutation_refl]]]]]]].
  - split; [|split; [|split; [|split]]].
    + intros [|] rt H; cbn in H; destruct H as [<-|[]]; (split; [assumption|now apply rows_ids]).
    + intros [|] rt H; cbn in H; destruct H as [<-|[]]; (split; [assumption|now apply rows_ids]).
    + intros [|]; reflexivity.
    + intros Ig H. apply local_in in H. destruct H as [<-|[<-|[]]]; reflexivity.
    + intros Ig s g G rt rr H Hs HG Ht Hrr. apply local_in in H. cbn in Ht, Hrr.
      destruct H as [<-|[<-|[]]]; cbn in Ht, Hrr; (destruct g as [|g]; [|destruct g; discriminate]); inversion HG; inversion Ht; inversion Hrr; subst; repeat split;
        intros el Hel; apply in_seq in Hel; unfold r_num_elements; cbn; rewrite map_length; lia.
  - intros [|] rt rr [|g] H1 H2; cbn in H1, H2; try (destruct g; discriminate); inversion H1; inversion H2; subst; reflexivity.
  - intros rt [<-|[]]. cbn. lia.
Qed.
Ltac couple e i j := exists (rows 2 3 [[0; 1]; [1; 2]]%nat), (rows 2 3 [[0; 1]; [1; 2]]%nat), e, i, j, 0%nat, 0%nat; repeat split; cbn; auto; lia.
Lemma whole_tabulated w : tabulated whole w (keys whole).
Proof.
  destruct whole_plain. apply bar_tabulated; auto; try lia.
  - intros l Hl. destruct l as [|[|[|l]]]; [exists 0%Z; couple 0%nat 0%nat 0%nat|exists 1%Z; couple 0%nat 1%nat 1%nat|exists 2%Z; couple 1%nat 1%nat 1%nat|lia].
  - intros x (te & tr & e & i & j & k & l & [E|[]] & He & Hi & Hj & Hk & Hl & ->). inversion E; subst te tr. cbn in He, Hi, Hj, Hk, Hl.
    assert (e = 0 /\ i = 0 /\ j = 0 /\ k = 0 /\ l = 0)%nat as (-> & -> & -> & -> & ->) by lia.
    couple 1%nat 1%nat 1%nat.
Qed.
Ltac couple2 es i j := exists (rows 2 2 es), (rows 2 2 es), 0%nat, i, j, 0%nat, 0%nat; repeat split; cbn; auto; lia.
Lemma first_tabulated w : tabulated first w (keys first).
Proof.
  destruct first_plain. apply bar_tabulated; auto; try lia.
  - intros l Hl. destruct l as [|[|l]]; [exists 0%Z; couple2 [[0; 1]]%nat 0%nat 0%nat|exists 1%Z; couple2 [[0; 1]]%nat 1%nat 1%nat|lia].
  - intros x (te & tr & e & i & j & k & l & [E|[]] & He & _). inversion E; subst te tr. cbn in He. lia.
Qed.
Lemma second_tabulated w : tabulated second w (keys second).
Proof.
  destruct second_plain. apply bar_tabulated; auto; try lia.
  - intros l Hl. destruct l as [|[|l]]; [exists 0%Z; couple2 [[1; 0]]%nat 1%nat 1%nat|exists 1%Z; couple2 [[1; 0]]%nat 0%nat 0%nat|lia].
  - intros x (te & tr & e & i & j & k & l & [E|[]] & He & Hi & Hj & Hk & Hl & ->). inversion E; subst te tr. cbn in He, Hi, Hj, Hk, Hl.
    assert (e = 0 /\ i = 0 /\ j = 0 /\ k = 0 /\ l = 0)%nat as (-> & -> & -> & -> & ->) by lia.
    couple2 [[1; 0]]%nat 1%nat 1%nat.
Qed.

(** differentiate, then assemble, on the whole, on two processes and on three *)
Definition at_start (X : nat -> list R) : list (@request) := [{| rq_t := 1; rq_wrt := Some 0%nat; rq_update := true; rq_in := X |}].
Lemma matrix_case X : exists Ts mS ms As AS,
  par_history [whole] 3 (fun _ => 3%nat) (at_start X) [before_whole] = Ok (Ts, [mS]) /\
  par_history (map fst two) 3 (fun _ => 3%nat) (at_start X) [fresh 0; before_second] = Ok (Ts, ms) /\
  par_assemble (map fst two) 0 [keys first; keys second] ms = Ok As /\ par_assemble [whole] 0 [keys whole] [mS] = Ok AS /\
  forall i j, (i < 3)%nat -> (j < 3)%nat -> par_matrix (map fst two) As 0 i j = par_matrix [whole] AS 0 i j.
Proof.
  destruct (divided_evaluation 3 (fun _ => 3%nat) whole whole_sound two 1 (Some 0%nat) true X before_whole [fresh 0; before_second] two_divide two_remember) as (T & mS & ms & A & B & C).
  destruct (divided_matrix 3 (fun _ => 3%nat) whole two 0 [keys first; keys second] (keys whole) mS ms two_divide C) as (As & AS & D & E & F).
  - exact (differentiated whole 1 0 true 3 (fun _ => 3%nat) X before_whole mS T whole_sound B).
  - reflexivity.
  - intros k c [H|[H|[]]]; inversion H; subst; [apply first_tabulated|apply second_tabulated].
  - apply whole_tabulated.
  - exists [T], mS, ms, As, AS. cbn [par_history at_start rq_t rq_wrt rq_update rq_in]. rewrite A, B. cbn [bindO fst snd]. auto.
Qed.
Lemma empty_process : exists (S : rank R) parts nt mS ms orders, divides 3 nt S parts /\ remember S parts mS ms /\ all_written (local_functional S) 0 mS /\
  (forall k o, In (k, o) (combine (map fst parts) orders) -> Permutation o (map fst (lut_keys (emitted_all (blocks_of (local_functional k) 0 Elements))))) /\
  (exists o AS, par_assemble [S] 0 [o] [mS] = Ok AS) /\ (exists T, par_action (map fst parts) 0 3 (nt 0%nat) [1; 0; 0] ms = Ok T) /\
  par_assemble (map fst parts) 0 orders ms = UB.
Proof.
  destruct (divided_evaluation 3 (fun _ => 3%nat) whole whole_sound three 1 (Some 0%nat) true (fun _ => [1; 2; 4]) before_whole [fresh 0; before_second; fresh 0] three_divide three_remember) as (T & mS & ms & A & B & C).
  pose proof (differentiated whole 1 0 true 3 (fun _ => 3%nat) _ before_whole mS T whole_sound B) as Hw.
  exists whole, three, (fun _ => 3%nat), mS, ms, [keys first; keys second; []].
  split; [apply three_divide|]. split; [exact C|]. split; [exact Hw|]. split; [|split; [|split]].
  - intros k o [H|[H|[H|[]]]]; inversion H; subst; apply Permutation_refl.
  - exists (keys whole). destruct (rows_act 0 3 [whole] [keys whole] [mS] eq_refl eq_refl) as (AS & D & _); [|eauto].
    intros k c m [E|[]]. inversion E; subst. split; [apply whole_tabulated|exact Hw].
  - destruct (divided_action 3 (fun _ => 3%nat) whole whole_sound three 0 [1; 0; 0] mS ms three_divide) as (T' & E & _); auto; [| |eauto].
    + intros k pos [H|[H|[H|[]]]]; inversion H; subst; intros [|] rr [<-|[]]; apply rows_ids; first [apply first_plain|apply second_plain|apply third_plain].
    + intros [|] rr [<-|[]]; apply rows_ids; apply whole_plain.
  - pose proof C as C'. inversion C' as [|x1 m1 l1 ms1 _ C1 E1 F1]; subst. inversion C1 as [|x2 m2 l2 ms2 _ C2 E2 F2]; subst. inversion C2 as [|x3 m3 l3 ms3 _ C3 E3 F3]; subst. inversion C3; subst.
    destruct (rows_act 0 3 [first; second] [keys first; keys second] [m1; m2] eq_refl eq_refl) as (As & D & _).
    { intros k c m Hin. assert (W := parts_written 3 (fun _ => 3%nat) whole three 0 mS _ three (proj2 (proj2 three_divide)) (incl_refl _) (proj1 (proj2 three_divide)) whole_sound C Hw).
      destruct Hin as [E|[E|[]]]; inversion E; subst; (split; [first [apply first_tabulated|apply second_tabulated]|apply W; cbn; auto]). }
    unfold par_assemble in D |- *. cbn [map three fst combine mapO snd] in D |- *.
    destruct (local_table first 0 (keys first)); cbn [bindO] in D |- *; try discriminate. destruct (assemble (local_functional first) 0 m1 a); cbn [bindO] in D |- *; try discriminate.
    destruct (local_table second 0 (keys second)); cbn [bindO] in D |- *; try discriminate. destruct (assemble (local_functional second) 0 m2 a1); cbn [bindO] in D |- *; try discriminate.
    reflexivity.
Qed.

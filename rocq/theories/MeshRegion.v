(** * Refinement divides the region of a mesh without gaps and overlaps (C84) *)
From Coq Require Import String List ZArith Bool Permutation Lia Reals Lra.
From Verif Require Import Mesh MeshInput MeshInputFacts MeshInputEx.
Import ListNotations.
Local Open Scope R_scope.

(** ** specification *)
Definition sum (l : list R) : R := fold_right Rplus 0 l.
(** a point of a simplex is a mean of its corners *)
Definition mean (v : list vec) (weights : list R) (p : vec) : Prop :=
  List.length weights = List.length v /\ List.Forall (fun a => 0 <= a) weights /\ sum weights = 1 /\
  forall i, nth i p 0 = sum (map (fun '(a, q) => a * nth i q 0) (combine weights v)).
Definition inside (c : cell) (p : vec) : Prop :=
  match c with
  | Brick l => List.Forall2 (fun s x => fst s <= x <= snd s) l p
  | Simplex v => exists weights, mean v weights p
  end.
Definition region (l : list cell) (p : vec) : Prop := exists c, In c l /\ inside c p.
(** cells of [D] coordinates; the sides of a brick go upwards *)
Definition proper (D : nat) (c : cell) : Prop :=
  match c with Brick l => List.length l = D /\ List.Forall (fun s => fst s <= snd s) l | Simplex v => List.Forall (fun q => List.length q = D) v end.
(** length, area, volume *)
Definition measure (c : cell) : R :=
  match c with
  | Brick l => fold_right (fun s r => (snd s - fst s) * r) 1 l
  | Simplex [[a]; [b]] => Rabs (b - a)
  | Simplex [[a1; a2]; [b1; b2]; [c1; c2]] => Rabs ((b1 - a1) * (c2 - a2) - (b2 - a2) * (c1 - a1)) / 2
  | Simplex [[a1; a2; a3]; [b1; b2; b3]; [c1; c2; c3]; [d1; d2; d3]] =>
      Rabs ((b1 - a1) * ((c2 - a2) * (d3 - a3) - (c3 - a3) * (d2 - a2)) - (b2 - a2) * ((c1 - a1) * (d3 - a3) - (c3 - a3) * (d1 - a1))
            + (b3 - a3) * ((c1 - a1) * (d2 - a2) - (c2 - a2) * (d1 - a1))) / 6
  | _ => 0
  end.
Definition size (l : list cell) : R := sum (map measure l).

(** ** proofs *)
Lemma nth_mid i a : forall b, List.length a = List.length b -> nth i (mid a b) 0 = (nth i a 0 + nth i b 0) / 2.
Proof.
  revert i. induction a as [|x a IH]; intros i [|y b] L; try discriminate; cbn [mid].
  - destruct i; cbn; lra.
  - destruct i as [|i]; cbn [nth]; [reflexivity|]. apply IH. now injection L.
Qed.
Lemma mid_length a : forall b, List.length a = List.length b -> List.length (mid a b) = List.length a.
Proof. induction a as [|x a IH]; intros [|y b] L; try discriminate; [reflexivity|]. cbn. f_equal. apply IH. now injection L. Qed.

Ltac means ws := exists ws; split; [reflexivity|]; split; [repeat (apply Forall_cons; [lra|]); apply Forall_nil|]; split; [cbn; lra|]; let i := fresh "i" in intros i;
  repeat match goal with H : forall i, nth i _ 0 = _ |- _ => specialize (H i) end; cbn [map combine fold_right sum] in *;
  rewrite ?nth_mid by congruence; lra.
Lemma mean2 a b (p : vec) : inside (Simplex [a; b]) p <-> exists x y, 0 <= x /\ 0 <= y /\ x + y = 1 /\ forall i, nth i p 0 = x * nth i a 0 + y * nth i b 0.
Proof.
  split.
  - intros (l & L & F & S1 & H). destruct l as [|x [|y [|z l]]]; try discriminate L. inversion F as [|? ? X F']; subst. inversion F' as [|? ? Y _]; subst.
    exists x, y. cbn in S1. repeat split; try lra. intros i. specialize (H i). cbn in H. lra.
  - intros (x & y & X & Y & S1 & H). means [x; y].
Qed.
Lemma mean3 a b c (p : vec) : inside (Simplex [a; b; c]) p <-> exists x y z, 0 <= x /\ 0 <= y /\ 0 <= z /\ x + y + z = 1 /\ forall i, nth i p 0 = x * nth i a 0 + y * nth i b 0 + z * nth i c 0.
Proof.
  split.
  - intros (l & L & F & S1 & H). destruct l as [|x [|y [|z [|u l]]]]; try discriminate L. inversion F as [|? ? X F']; subst. inversion F' as [|? ? Y F'']; subst. inversion F'' as [|? ? Z _]; subst.
    exists x, y, z. cbn in S1. repeat split; try lra. intros i. specialize (H i). cbn in H. lra.
  - intros (x & y & z & X & Y & Z & S1 & H). means [x; y; z].
Qed.
Lemma mean4 a b c d (p : vec) : inside (Simplex [a; b; c; d]) p <-> exists x y z u, 0 <= x /\ 0 <= y /\ 0 <= z /\ 0 <= u /\ x + y + z + u = 1 /\
  forall i, nth i p 0 = x * nth i a 0 + y * nth i b 0 + z * nth i c 0 + u * nth i d 0.
Proof.
  split.
  - intros (l & L & F & S1 & H). destruct l as [|x [|y [|z [|u [|v l]]]]]; try discriminate L. inversion F as [|? ? X F']; subst. inversion F' as [|? ? Y F'']; subst.
    inversion F'' as [|? ? Z F3]; subst. inversion F3 as [|? ? U _]; subst.
    exists x, y, z, u. cbn in S1. repeat split; try lra. intros i. specialize (H i). cbn in H. lra.
  - intros (x & y & z & u & X & Y & Z & U & S1 & H). means [x; y; z; u].
Qed.

Ltac into n := let i := fresh "i" in repeat (split; [lra|]); intros i; match goal with H : forall i, nth i _ 0 = _ |- _ => rewrite (H i) end; rewrite ?nth_mid by congruence; (lra || field_simplify; lra).
Lemma segment_covered a b p : List.length a = List.length b -> (inside (Simplex [a; mid a b]) p \/ inside (Simplex [mid a b; b]) p) <-> inside (Simplex [a; b]) p.
Proof.
  intros L. rewrite !mean2. split.
  - intros [(x & y & X & Y & S1 & H)|(x & y & X & Y & S1 & H)]; [exists (x + y / 2), (y / 2)|exists (x / 2), (y + x / 2)]; into 2.
  - intros (x & y & X & Y & S1 & H). assert (Es : y = 1 - x) by lra. subst y. destruct (Rle_dec (1 / 2) x) as [C|C]; [left; exists (2 * x - 1), (2 * (1 - x))|right; exists (2 * x), (2 * (1 - x) - 1)]; into 2.
Qed.
Lemma triangle_covered g a b c p : List.length a = List.length b -> List.length a = List.length c ->
  (exists u, In u (sub g [a; b; c]) /\ inside (Simplex u) p) <-> inside (Simplex [a; b; c]) p.
Proof.
  intros L1 L2. cbn [sub]. split.
  - intros (u & H & K). cbn [In] in H. rewrite mean3.
    destruct H as [<-|[<-|[<-|[<-|[]]]]]; apply mean3 in K; destruct K as (x & y & z & X & Y & Z & S1 & H).
    + exists (x + y / 2 + z / 2), (y / 2), (z / 2). into 3.
    + exists (x / 2), (x / 2 + y + z / 2), (z / 2). into 3.
    + exists (x / 2), (y / 2), (x / 2 + y / 2 + z). into 3.
    + exists (x / 2 + z / 2), (x / 2 + y / 2), (y / 2 + z / 2). into 3.
  - rewrite mean3. intros (x & y & z & X & Y & Z & S1 & H). assert (Es : z = 1 - x - y) by lra. subst z.
    destruct (Rle_dec (1 / 2) x) as [Cx|Cx]; [exists [a; mid a b; mid a c]; split; [cbn; tauto|]; apply mean3; exists (2 * x - 1), (2 * y), (2 * (1 - x - y)); into 3|].
    destruct (Rle_dec (1 / 2) y) as [Cy|Cy]; [exists [mid a b; b; mid b c]; split; [cbn; tauto|]; apply mean3; exists (2 * x), (2 * y - 1), (2 * (1 - x - y)); into 3|].
    destruct (Rle_dec (1 / 2) (1 - x - y)) as [Cz|Cz]; [exists [mid a c; mid b c; c]; split; [cbn; tauto|]; apply mean3; exists (2 * x), (2 * y), (2 * (1 - x - y) - 1); into 3|].
    exists [mid a b; mid b c; mid a c]. split; [cbn; tauto|]. apply mean3. exists (1 - 2 * (1 - x - y)), (1 - 2 * x), (1 - 2 * y). into 3.
Qed.
(** what a point of a part is in terms of the corners *)
Lemma part4 (a b c d q1 q2 q3 q4 p : vec) (m : list (R * R * R * R)) :
  (forall k i, (k < 4)%nat -> let '(x, y, z, u) := nth k m (0, 0, 0, 0) in 0 <= x /\ 0 <= y /\ 0 <= z /\ 0 <= u /\ x + y + z + u = 1 /\
     nth i (nth k [q1; q2; q3; q4] []) 0 = x * nth i a 0 + y * nth i b 0 + z * nth i c 0 + u * nth i d 0) ->
  inside (Simplex [q1; q2; q3; q4]) p -> inside (Simplex [a; b; c; d]) p.
Proof.
  intros M. rewrite !mean4. intros (x & y & z & u & X & Y & Z & U & S1 & H).
  destruct (nth 0 m (0, 0, 0, 0)) as [[[x1 y1] z1] u1] eqn:E1. destruct (nth 1 m (0, 0, 0, 0)) as [[[x2 y2] z2] u2] eqn:E2.
  destruct (nth 2 m (0, 0, 0, 0)) as [[[x3 y3] z3] u3] eqn:E3. destruct (nth 3 m (0, 0, 0, 0)) as [[[x4 y4] z4] u4] eqn:E4.
  assert (M1 := fun i => M 0%nat i ltac:(lia)). assert (M2 := fun i => M 1%nat i ltac:(lia)). assert (M3 := fun i => M 2%nat i ltac:(lia)). assert (M4 := fun i => M 3%nat i ltac:(lia)).
  rewrite E1 in M1. rewrite E2 in M2. rewrite E3 in M3. rewrite E4 in M4. cbn [nth] in M1, M2, M3, M4.
  exists (x * x1 + y * x2 + z * x3 + u * x4), (x * y1 + y * y2 + z * y3 + u * y4), (x * z1 + y * z2 + z * z3 + u * z4), (x * u1 + y * u2 + z * u3 + u * u4).
  destruct (M1 0%nat) as (? & ? & ? & ? & S2 & _), (M2 0%nat) as (? & ? & ? & ? & S3 & _), (M3 0%nat) as (? & ? & ? & ? & S4 & _), (M4 0%nat) as (? & ? & ? & ? & S5 & _).
  assert (P : forall s t, 0 <= s -> 0 <= t -> 0 <= s * t) by (intros; now apply Rmult_le_pos).
  split; [repeat apply Rplus_le_le_0_compat; now apply P|]. split; [repeat apply Rplus_le_le_0_compat; now apply P|]. split; [repeat apply Rplus_le_le_0_compat; now apply P|].
  split; [repeat apply Rplus_le_le_0_compat; now apply P|]. split.
  - replace (_ + _ + _ + _) with (x * (x1 + y1 + z1 + u1) + y * (x2 + y2 + z2 + u2) + z * (x3 + y3 + z3 + u3) + u * (x4 + y4 + z4 + u4)) by ring. rewrite S2, S3, S4, S5. lra.
  - intros i. rewrite (H i). destruct (M1 i) as (_ & _ & _ & _ & _ & ->), (M2 i) as (_ & _ & _ & _ & _ & ->), (M3 i) as (_ & _ & _ & _ & _ & ->), (M4 i) as (_ & _ & _ & _ & _ & ->). ring.
Qed.
Lemma tetrahedron_covered g a b c d p : List.length a = List.length b -> List.length a = List.length c -> List.length a = List.length d ->
  (exists u, In u (sub g [a; b; c; d]) /\ inside (Simplex u) p) <-> inside (Simplex [a; b; c; d]) p.
Proof.
  intros L1 L2 L3. split.
  - intros (u & H & K).
    assert (G : exists s1 s2 s3 s4, u = [s1; s2; s3; s4] /\ forall s, In s u -> exists x y z v, 0 <= x /\ 0 <= y /\ 0 <= z /\ 0 <= v /\ x + y + z + v = 1 /\
       forall i, nth i s 0 = x * nth i a 0 + y * nth i b 0 + z * nth i c 0 + v * nth i d 0).
    { assert (W : forall s, In s [a; b; c; d; mid a b; mid a c; mid a d; mid b c; mid b d; mid c d] -> exists x y z v, 0 <= x /\ 0 <= y /\ 0 <= z /\ 0 <= v /\ x + y + z + v = 1 /\
         forall i, nth i s 0 = x * nth i a 0 + y * nth i b 0 + z * nth i c 0 + v * nth i d 0).
      { intros s Hs. cbn [In] in Hs.
        destruct Hs as [<-|[<-|[<-|[<-|[<-|[<-|[<-|[<-|[<-|[<-|[]]]]]]]]]]];
        [exists 1, 0, 0, 0|exists 0, 1, 0, 0|exists 0, 0, 1, 0|exists 0, 0, 0, 1|exists (1/2), (1/2), 0, 0|exists (1/2), 0, (1/2), 0|exists (1/2), 0, 0, (1/2)|exists 0, (1/2), (1/2), 0|exists 0, (1/2), 0, (1/2)|exists 0, 0, (1/2), (1/2)];
        repeat (split; [lra|]); intros i; rewrite ?nth_mid by congruence; lra. }
      cbn [sub] in H. destruct (g [a; b; c; d]) as [|[|?]]; cbn [app In] in H;
      repeat (destruct H as [<-|H]; [do 4 eexists; split; [reflexivity|]; intros s Hs; apply W; cbn [In] in Hs |- *; tauto|]); contradiction. }
    destruct G as (s1 & s2 & s3 & s4 & -> & G).
    destruct (G s1 ltac:(cbn; tauto)) as (x1 & y1 & z1 & v1 & G1), (G s2 ltac:(cbn; tauto)) as (x2 & y2 & z2 & v2 & G2), (G s3 ltac:(cbn; tauto)) as (x3 & y3 & z3 & v3 & G3), (G s4 ltac:(cbn; tauto)) as (x4 & y4 & z4 & v4 & G4).
    apply (part4 a b c d s1 s2 s3 s4 p [(x1, y1, z1, v1); (x2, y2, z2, v2); (x3, y3, z3, v3); (x4, y4, z4, v4)]); [|exact K].
    intros k i Hk. destruct k as [|[|[|[|k]]]]; [| | | |lia]; cbn [nth].
    + destruct G1 as (? & ? & ? & ? & ? & E). auto 10.
    + destruct G2 as (? & ? & ? & ? & ? & E). auto 10.
    + destruct G3 as (? & ? & ? & ? & ? & E). auto 10.
    + destruct G4 as (? & ? & ? & ? & ? & E). auto 10.
  - rewrite mean4. intros (x & y & z & u & X & Y & Z & U & S1 & H). cbn [sub]. assert (Es : u = 1 - x - y - z) by lra. subst u.
    destruct (Rle_dec (1 / 2) x) as [Cx|Cx]; [exists [a; mid a b; mid a c; mid a d]; split; [apply in_or_app; left; cbn; tauto|]; apply mean4; exists (2 * x - 1), (2 * y), (2 * z), (2 * (1 - x - y - z)); into 4|].
    destruct (Rle_dec (1 / 2) y) as [Cy|Cy]; [exists [mid a b; b; mid b c; mid b d]; split; [apply in_or_app; left; cbn; tauto|]; apply mean4; exists (2 * x), (2 * y - 1), (2 * z), (2 * (1 - x - y - z)); into 4|].
    destruct (Rle_dec (1 / 2) z) as [Cz|Cz]; [exists [mid a c; mid b c; c; mid c d]; split; [apply in_or_app; left; cbn; tauto|]; apply mean4; exists (2 * x), (2 * y), (2 * z - 1), (2 * (1 - x - y - z)); into 4|].
    destruct (Rle_dec (1 / 2) (1 - x - y - z)) as [Cu|Cu]; [exists [mid a d; mid b d; mid c d; d]; split; [apply in_or_app; left; cbn; tauto|]; apply mean4; exists (2 * x), (2 * y), (2 * z), (2 * (1 - x - y - z) - 1); into 4|].
    destruct (g [a; b; c; d]) as [|[|?]].
    + (* diagonal ab - cd *)
      destruct (Rle_dec (1 / 2) (x + z)) as [C1|C1], (Rle_dec (1 / 2) (x + (1 - x - y - z))) as [C2|C2].
      * exists [mid a b; mid c d; mid a c; mid a d]. split; [apply in_or_app; right; cbn; tauto|]. apply mean4. exists (2 * y), (1 - 2 * x), (2 * x + 2 * z - 1), (2 * x + 2 * (1 - x - y - z) - 1). into 4.
      * exists [mid a b; mid c d; mid b c; mid a c]. split; [apply in_or_app; right; cbn; tauto|]. apply mean4. exists (1 - 2 * z), (2 * (1 - x - y - z)), (2 * y + 2 * z - 1), (2 * x + 2 * z - 1). into 4.
      * exists [mid a b; mid c d; mid a d; mid b d]. split; [apply in_or_app; right; cbn; tauto|]. apply mean4. exists (1 - 2 * (1 - x - y - z)), (2 * z), (2 * x + 2 * (1 - x - y - z) - 1), (2 * y + 2 * (1 - x - y - z) - 1). into 4.
      * exists [mid a b; mid c d; mid b d; mid b c]. split; [apply in_or_app; right; cbn; tauto|]. apply mean4. exists (2 * x), (1 - 2 * y), (2 * y + 2 * (1 - x - y - z) - 1), (2 * y + 2 * z - 1). into 4.
    + (* diagonal ac - bd *)
      destruct (Rle_dec (1 / 2) (x + y)) as [C1|C1], (Rle_dec (1 / 2) (x + (1 - x - y - z))) as [C2|C2].
      * exists [mid a c; mid b d; mid a b; mid a d]. split; [apply in_or_app; right; cbn; tauto|]. apply mean4. exists (2 * z), (1 - 2 * x), (2 * x + 2 * y - 1), (2 * x + 2 * (1 - x - y - z) - 1). into 4.
      * exists [mid a c; mid b d; mid b c; mid a b]. split; [apply in_or_app; right; cbn; tauto|]. apply mean4. exists (1 - 2 * y), (2 * (1 - x - y - z)), (2 * y + 2 * z - 1), (2 * x + 2 * y - 1). into 4.
      * exists [mid a c; mid b d; mid a d; mid c d]. split; [apply in_or_app; right; cbn; tauto|]. apply mean4. exists (1 - 2 * (1 - x - y - z)), (2 * y), (2 * x + 2 * (1 - x - y - z) - 1), (2 * z + 2 * (1 - x - y - z) - 1). into 4.
      * exists [mid a c; mid b d; mid c d; mid b c]. split; [apply in_or_app; right; cbn; tauto|]. apply mean4. exists (2 * x), (1 - 2 * z), (2 * z + 2 * (1 - x - y - z) - 1), (2 * y + 2 * z - 1). into 4.
    + (* diagonal ad - bc *)
      destruct (Rle_dec (1 / 2) (x + y)) as [C1|C1], (Rle_dec (1 / 2) (x + z)) as [C2|C2].
      * exists [mid a d; mid b c; mid a b; mid a c]. split; [apply in_or_app; right; cbn; tauto|]. apply mean4. exists (2 * (1 - x - y - z)), (1 - 2 * x), (2 * x + 2 * y - 1), (2 * x + 2 * z - 1). into 4.
      * exists [mid a d; mid b c; mid b d; mid a b]. split; [apply in_or_app; right; cbn; tauto|]. apply mean4. exists (1 - 2 * y), (2 * z), (2 * y + 2 * (1 - x - y - z) - 1), (2 * x + 2 * y - 1). into 4.
      * exists [mid a d; mid b c; mid a c; mid c d]. split; [apply in_or_app; right; cbn; tauto|]. apply mean4. exists (1 - 2 * z), (2 * y), (2 * x + 2 * z - 1), (2 * z + 2 * (1 - x - y - z) - 1). into 4.
      * exists [mid a d; mid b c; mid c d; mid b d]. split; [apply in_or_app; right; cbn; tauto|]. apply mean4. exists (2 * x), (1 - 2 * (1 - x - y - z)), (2 * z + 2 * (1 - x - y - z) - 1), (2 * y + 2 * (1 - x - y - z) - 1). into 4.
Qed.
Lemma sub_covered g v p D : List.Forall (fun q => List.length q = D) v -> (exists u, In u (sub g v) /\ inside (Simplex u) p) <-> inside (Simplex v) p.
Proof.
  intros F. assert (T : (exists u, In u [v] /\ inside (Simplex u) p) <-> inside (Simplex v) p).
  { split; [intros (u & [<-|[]] & H); exact H|]. intros H. exists v. split; [now left|exact H]. }
  destruct v as [|a [|b [|c [|d [|e v]]]]]; try exact T; rewrite ?Forall_cons_iff in F.
  - destruct F as (La & Lb & _). rewrite <- (segment_covered a b p) by congruence. cbn [sub In]. split.
    + intros (u & [<-|[<-|[]]] & H); auto.
    + intros [H|H]; eexists; (split; [|exact H]); auto.
  - destruct F as (La & Lb & Lc & _). apply triangle_covered; congruence.
  - destruct F as (La & Lb & Lc & Ld & _). apply tetrahedron_covered; congruence.
Qed.
Lemma brick_covered l : forall p, (exists u, In u (product (map half l)) /\ List.Forall2 (fun s x => fst s <= x <= snd s) u p) <-> List.Forall (fun s => fst s <= snd s) l /\ List.Forall2 (fun s x => fst s <= x <= snd s) l p.
Proof.
  induction l as [|s l IH]; intros p; cbn [map product].
  - split; [intros (u & [<-|[]] & H); auto|]. intros [_ H]. exists []. split; [now left|exact H].
  - split.
    + intros (u & H & K). apply in_flat_map in H as (h & Hh & H). apply in_map_iff in H as (r & <- & Hr). inversion K as [|? x ? q Kx Kq]; subst.
      destruct (proj1 (IH q)) as [A B]; [exists r; auto|]. cbn [half In] in Hh. destruct Hh as [<-|[<-|[]]]; cbn [fst snd] in Kx; (split; [constructor; [lra|exact A]|constructor; [lra|exact B]]).
    + intros [A B]. inversion A as [|? ? A1 A2]; subst. inversion B as [|? x ? q B1 B2]; subst. destruct (proj2 (IH q)) as (r & R1 & R2); [auto|].
      destruct (Rle_dec x ((fst s + snd s) / 2)) as [C|C].
      * exists ((fst s, (fst s + snd s) / 2) :: r). split; [|constructor; [cbn [fst snd]; lra|exact R2]]. apply in_flat_map. exists (fst s, (fst s + snd s) / 2). split; [now left|]. now apply in_map.
      * exists (((fst s + snd s) / 2, snd s) :: r). split; [|constructor; [cbn [fst snd]; lra|exact R2]]. apply in_flat_map. exists ((fst s + snd s) / 2, snd s). split; [right; now left|]. now apply in_map.
Qed.
Lemma cell_covered g c D p : proper D c -> region (refine_cell g c) p <-> inside c p.
Proof.
  unfold region. destruct c as [l|v]; cbn [proper refine_cell inside].
  - intros [_ F]. transitivity (exists u, In u (product (map half l)) /\ List.Forall2 (fun s x => fst s <= x <= snd s) u p); [|rewrite brick_covered; tauto].
    split; [intros (c & H & K); apply in_map_iff in H as (u & <- & H); exists u; auto|]. intros (u & H & K). exists (Brick u). split; [now apply in_map|exact K].
  - intros F. transitivity (exists u, In u (sub g v) /\ inside (Simplex u) p); [|exact (sub_covered g v p D F)].
    split; [intros (c & H & K); apply in_map_iff in H as (u & <- & H); exists u; auto|]. intros (u & H & K). exists (Simplex u). split; [now apply in_map|exact K].
Qed.
Lemma sub_proper D g v : List.Forall (fun q => List.length q = D) v -> List.Forall (List.Forall (fun q => List.length q = D)) (sub g v).
Proof.
  intros F. assert (T : List.Forall (List.Forall (fun q => List.length q = D)) [v]) by (constructor; [exact F|constructor]).
  destruct v as [|a [|b [|c [|d [|e v]]]]]; try exact T; clear T; rewrite ?Forall_cons_iff in F; cbn [sub].
  - destruct F as (? & ? & _). repeat constructor; rewrite ?mid_length; congruence.
  - destruct F as (? & ? & ? & _). repeat constructor; rewrite ?mid_length; congruence.
  - destruct F as (? & ? & ? & ? & _). destruct (g [a; b; c; d]) as [|[|?]]; cbn [app]; repeat constructor; rewrite ?mid_length; congruence.
Qed.
Lemma half_proper l : List.Forall (fun s => fst s <= snd s) l -> List.Forall (List.Forall (fun s => fst s <= snd s)) (product (map half l)).
Proof.
  induction 1 as [|s l H _ IH]; [repeat constructor|]. cbn [map product]. apply Forall_flat_map. unfold half. apply Forall_cons; [|apply Forall_cons; [|apply Forall_nil]]; apply Forall_map; (eapply Forall_impl; [|exact IH]); intros u Hu; constructor; cbn [fst snd]; auto; lra.
Qed.
Lemma refine_proper D g c : proper D c -> List.Forall (proper D) (refine_cell g c).
Proof.
  destruct c as [l|v]; cbn [proper refine_cell]; intros F; apply Forall_map.
  - destruct F as [L F]. destruct (product_length (map half l)) as [_ P]. rewrite map_length in P. rewrite Forall_forall in *. intros u Hu. cbn [proper]. split; [rewrite <- L; now apply P|].
    assert (X := half_proper l). rewrite !Forall_forall in X. apply X; auto.
  - apply sub_proper. exact F.
Qed.
Lemma list_covered g D l p : List.Forall (proper D) l -> region (flat_map (refine_cell g) l) p <-> region l p.
Proof.
  intros F. rewrite Forall_forall in F. unfold region at 1 2. split.
  - intros (c & H & K). apply in_flat_map in H as (c0 & H0 & H). exists c0. split; [exact H0|]. apply (cell_covered g c0 D p (F _ H0)). exists c. auto.
  - intros (c0 & H0 & K). apply (cell_covered g c0 D p (F _ H0)) in K as (c & H & K). exists c. split; [|exact K]. apply in_flat_map. eauto.
Qed.
Lemma times_covered g D p k : forall l, List.Forall (proper D) l -> region (times k (flat_map (refine_cell g)) l) p <-> region l p.
Proof.
  induction k as [|k IH]; intros l F; [reflexivity|]. cbn [times]. rewrite IH, (list_covered g D l p F); [reflexivity|]. apply Forall_flat_map. eapply Forall_impl; [|exact F]. intros c. apply refine_proper.
Qed.

(** *** measures *)
Lemma sum_app a b : sum (a ++ b) = sum a + sum b.
Proof. unfold sum. induction a as [|x a IH]; cbn [app fold_right]; [ring|]. rewrite IH. ring. Qed.
Lemma size_app a b : size (a ++ b) = size a + size b.
Proof. unfold size. now rewrite map_app, sum_app. Qed.
Lemma measure_brick l : size (map Brick (product (map half l))) = measure (Brick l).
Proof.
  induction l as [|s l IH]; cbn [map product measure fold_right]; [unfold size; cbn; lra|]. cbn [measure] in IH. rewrite <- IH. cbn [half flat_map]. rewrite !map_app, !size_app.
  assert (E : forall h (ls : list (list (R * R))), size (map Brick (map (cons h) ls)) = (snd h - fst h) * size (map Brick ls)).
  { intros h ls. induction ls as [|u ls IHl]; [unfold size; cbn; lra|]. cbn [map]. change (size (?c :: ?r)) with (measure c + size r). rewrite IHl. cbn [measure fold_right]. ring. }
  rewrite !E. cbn [fst snd map]. unfold size at 3. cbn. field_simplify. lra.
Qed.
Lemma abs_part x y k : 0 < k -> y = x / k \/ y = - x / k -> Rabs y = Rabs x / k.
Proof.
  intros K [-> | ->]; unfold Rdiv; rewrite Rabs_mult, ?Rabs_Ropp, (Rabs_pos_eq (/ k)) by (left; now apply Rinv_0_lt_compat); reflexivity.
Qed.
Lemma measure_sub g d v : (1 <= d <= 3)%nat -> List.length v = S d -> List.Forall (fun q => List.length q = d) v -> List.Forall (fun u => measure (Simplex u) = measure (Simplex v) / INR (2 ^ d)) (sub g v).
Proof.
  intros Hd L F. destruct d as [|[|[|[|d]]]]; try lia.
  - destruct v as [|a [|b [|? ?]]]; try discriminate L. rewrite !Forall_cons_iff in F. destruct F as (La & Lb & _).
    destruct a as [|a [|? ?]]; try discriminate La. destruct b as [|b [|? ?]]; try discriminate Lb.
    cbn [sub mid measure]. replace (INR (2 ^ 1)) with 2 by (cbn; lra). repeat apply Forall_cons; try apply Forall_nil; (apply abs_part; [lra|]; left; lra).
  - destruct v as [|a [|b [|c [|? ?]]]]; try discriminate L. rewrite !Forall_cons_iff in F. destruct F as (La & Lb & Lc & _).
    destruct a as [|a1 [|a2 [|? ?]]]; try discriminate La. destruct b as [|b1 [|b2 [|? ?]]]; try discriminate Lb. destruct c as [|c1 [|c2 [|? ?]]]; try discriminate Lc.
    cbn [sub mid measure]. replace (INR (2 ^ 2)) with 4 by (cbn; lra).
    assert (X : forall x y, y = x / 4 \/ y = - x / 4 -> Rabs y / 2 = Rabs x / 2 / 4) by (intros x y H; rewrite (abs_part x y 4 ltac:(lra) H); lra).
    repeat apply Forall_cons; try apply Forall_nil; (apply X; left; field).
  - destruct v as [|a [|b [|c [|e [|? ?]]]]]; try discriminate L. rewrite !Forall_cons_iff in F. destruct F as (La & Lb & Lc & Le & _).
    destruct a as [|a1 [|a2 [|a3 [|? ?]]]]; try discriminate La. destruct b as [|b1 [|b2 [|b3 [|? ?]]]]; try discriminate Lb. destruct c as [|c1 [|c2 [|c3 [|? ?]]]]; try discriminate Lc.
    destruct e as [|e1 [|e2 [|e3 [|? ?]]]]; try discriminate Le.
    replace (INR (2 ^ 3)) with 8 by (cbn; lra).
    assert (X : forall x y, y = x / 8 \/ y = - x / 8 -> Rabs y / 6 = Rabs x / 6 / 8) by (intros x y H; rewrite (abs_part x y 8 ltac:(lra) H); lra).
    cbn [sub]. destruct (g _) as [|[|?]]; cbn [app mid measure]; repeat apply Forall_cons; try apply Forall_nil; (apply X; ((left; field) || (right; field))).
Qed.
Lemma size_same l r : List.Forall (fun u => measure (Simplex u) = r) l -> size (map Simplex l) = INR (List.length l) * r.
Proof.
  induction 1 as [|u l H _ IH]; [unfold size; cbn; lra|]. cbn [map]. change (size (?c :: ?s)) with (measure c + size s). rewrite IH, H. cbn [List.length]. rewrite S_INR. ring.
Qed.
Lemma cell_size g d c : of_dim d c -> proper d c -> size (refine_cell g c) = measure c.
Proof.
  destruct c as [l|v]; cbn [of_dim proper refine_cell]; [intros _ _; apply measure_brick|]. intros [Hd L] F. destruct (sub_dim d g v Hd L) as [A _].
  rewrite (size_same _ _ (measure_sub g d v Hd L F)), A. field. apply not_0_INR. apply Nat.pow_nonzero. lia.
Qed.
Lemma times_size g d k : forall l, List.Forall (of_dim d) l -> List.Forall (proper d) l -> size (times k (flat_map (refine_cell g)) l) = size l.
Proof.
  induction k as [|k IH]; intros l F P; [reflexivity|]. cbn [times]. rewrite IH.
  - clear IH. induction l as [|c l IHl]; [reflexivity|]. inversion F; inversion P; subst. cbn [flat_map]. rewrite size_app, (cell_size g d c), IHl by assumption. reflexivity.
  - apply (refine_count d g l F).
  - apply Forall_flat_map. eapply Forall_impl; [|exact P]. intros c. apply refine_proper.
Qed.
Lemma size_perm a b : Permutation a b -> size a = size b.
Proof. unfold size. induction 1 as [|x l l' _ IH|x y l|l l' l'' _ I1 _ I2]; cbn [map sum fold_right]; unfold sum in *; cbn [map fold_right] in *; lra. Qed.
Lemma region_perm a b p : Permutation a b -> region a p <-> region b p.
Proof. intros H. unfold region. split; intros (c & K & I1); exists c; (split; [|exact I1]); [apply (Permutation_in _ H K)|apply (Permutation_in _ (Permutation_sym H) K)]. Qed.
Lemma times_both g k : forall m, elems (times k (refine g) m) = times k (flat_map (refine_cell g)) (elems m).
Proof. induction k as [|k IH]; intros m; [reflexivity|]. cbn [times]. now rewrite IH. Qed.

(** the processes together hold a division of the region described by the file *)
Theorem file_region w b m D : shares w -> file_block w b m -> List.Forall (proper D) (elems m) -> exists ms, main_mesh w b = Built ms /\
  (forall p, region (all_elems ms) p <-> region (elems m) p) /\ (List.Forall (of_dim D) (elems m) -> size (all_elems ms) = size (elems m)).
Proof.
  intros Sh Fb P. destruct (file_mesh w b m Sh Fb) as (ms & E & Pe & _). exists ms. split; [exact E|]. rewrite times_both in Pe. split.
  - intros p. rewrite (region_perm _ _ p Pe). now apply times_covered with (D := D).
  - intros Od. rewrite (size_perm _ _ Pe). now apply times_size with (d := D).
Qed.
Lemma square_region : file_block desk from_disk square_mesh /\ List.Forall (proper 2) (elems square_mesh) /\ List.Forall (of_dim 2) (elems square_mesh) /\ size (elems square_mesh) = 1 /\
  proper 2 (Simplex [[0; 0]; [1; 0]; [0; 1]]) /\ measure (Simplex [[0; 0]; [1; 0]; [0; 1]]) = 1 / 2 /\ inside (Simplex [[0; 0]; [1; 0]; [0; 1]]) [1 / 4; 1 / 2].
Proof.
  split; [apply from_disk_block|]. split; [constructor; [|constructor]; cbn [proper square_mesh elems]; split; [reflexivity|]; repeat (apply Forall_cons; [cbn; lra|]); apply Forall_nil|].
  split; [repeat constructor|]. split; [unfold size; cbn; lra|]. split; [repeat constructor|]. split.
  - cbn [measure]. rewrite Rabs_pos_eq; lra.
  - apply mean3. exists (1 / 4), (1 / 4), (1 / 2). repeat (split; [lra|]). intros [|[|[|i]]]; cbn; lra.
Qed.

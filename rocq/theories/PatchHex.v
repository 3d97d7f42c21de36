(** * The trilinear element in the patch test (C72) *)
From Coq Require Import NArith ZArith Reals List Lia Lra Bool Permutation.
From Verif Require Import Prelude Sums ShapeDefs ShapeTensor PatchMesh.
Import ListNotations.
Local Open Scope R_scope.

(** polynomials in the coordinates of the parent element: coefficients with exponents *)
Definition poly := list (R * (nat * nat * nat)).
Definition mono (p : nat -> R) (e : nat * nat * nat) : R := let '(a, b, c) := e in p 0%nat ^ a * p 1%nat ^ b * p 2%nat ^ c.
Definition peval (p : nat -> R) (l : poly) : R := suml l (fun t => fst t * mono p (snd t)).
Definition eadd (e d : nat * nat * nat) : nat * nat * nat := let '(a, b, c) := e in let '(a', b', c') := d in (a + a', b + b', c + c')%nat.
Definition pmul (l m : poly) : poly := flat_map (fun t => map (fun u => (fst t * fst u, eadd (snd t) (snd u))) m) l.
Definition pscal (k : R) (l : poly) : poly := map (fun t => (k * fst t, snd t)) l.
Definition pint (l : poly) : R := suml l (fun t => let '(a, b, c) := snd t in fst t * (1 / (INR a + 1) / (INR b + 1) / (INR c + 1))).
Definition low (e : nat * nat * nat) : bool := let '(a, b, c) := e in (Nat.leb a 2 && Nat.leb b 2 && Nat.leb c 2)%bool.

Lemma mono_add p e d : mono p (eadd e d) = mono p e * mono p d.
Proof. destruct e as [[a b] c], d as [[a' b'] c']. unfold mono, eadd. rewrite !pow_add. ring. Qed.
Lemma peval_mul p l m : peval p (pmul l m) = peval p l * peval p m.
Proof.
  unfold peval, pmul. rewrite suml_flat_map, <- suml_scal_r. apply suml_ext. intros t _. rewrite suml_map, <- suml_scal_l. apply suml_ext. intros u _. cbn [fst snd]. rewrite mono_add. ring.
Qed.
Lemma peval_app p l m : peval p (l ++ m) = peval p l + peval p m.
Proof. apply suml_app. Qed.
Lemma peval_scal p k l : peval p (pscal k l) = k * peval p l.
Proof. unfold peval, pscal. rewrite suml_map, <- suml_scal_l. apply suml_ext. intros. cbn [fst snd]. ring. Qed.
Lemma integrate nq (w : nat -> R) (pt : nat -> nat -> R) kappa l :
  (forall a b c, (a <= 2)%nat -> (b <= 2)%nat -> (c <= 2)%nat -> sumn nq (fun q => pt q 0%nat ^ a * pt q 1%nat ^ b * pt q 2%nat ^ c * w q) = kappa * (1 / (INR a + 1) / (INR b + 1) / (INR c + 1))) ->
  forallb (fun t => low (snd t)) l = true -> sumn nq (fun q => peval (pt q) l * w q) = kappa * pint l.
Proof.
  intros Hw. unfold peval, pint. induction l as [|[k [[a b] c]] l IH]; intros H; cbn [suml forallb fst snd low] in *.
  - rewrite (sumn_zero nq) by (intros; ring). ring.
  - apply andb_prop in H. destruct H as [H1 H2]. apply andb_prop in H1. destruct H1 as [H1 Hc]. apply andb_prop in H1. destruct H1 as [Ha Hb].
    apply Nat.leb_le in Ha, Hb, Hc. rewrite Rmult_plus_distr_l, <- (IH H2).
    transitivity (k * sumn nq (fun q => pt q 0%nat ^ a * pt q 1%nat ^ b * pt q 2%nat ^ c * w q) + sumn nq (fun q => suml l (fun t => fst t * mono (pt q) (snd t)) * w q)).
    + rewrite <- sumn_scal_l, <- sumn_plus. apply sumn_ext. intros q _. unfold mono. ring.
    + rewrite (Hw a b c Ha Hb Hc). ring.
Qed.

(** coefficients of the trilinear function with nodal values g *)
Record coefs := { c1 : R; cx : R; cy : R; cz : R; cxy : R; cyz : R; cxz : R; cxyz : R }.
Definition nodal_coefs (g : nat -> R) : coefs := {|
  c1 := g 0%nat; cx := g 1%nat - g 0%nat; cy := g 2%nat - g 0%nat; cz := g 4%nat - g 0%nat;
  cxy := g 3%nat - g 2%nat - g 1%nat + g 0%nat; cyz := g 6%nat - g 4%nat - g 2%nat + g 0%nat; cxz := g 5%nat - g 4%nat - g 1%nat + g 0%nat;
  cxyz := g 7%nat - g 6%nat - g 5%nat - g 3%nat + g 4%nat + g 2%nat + g 1%nat - g 0%nat |}.
Definition dx (g : coefs) : poly := [(cx g, (0, 0, 0)); (cxy g, (0, 1, 0)); (cxz g, (0, 0, 1)); (cxyz g, (0, 1, 1))]%nat.
Definition dy (g : coefs) : poly := [(cy g, (0, 0, 0)); (cxy g, (1, 0, 0)); (cyz g, (0, 0, 1)); (cxyz g, (1, 0, 1))]%nat.
Definition dz (g : coefs) : poly := [(cz g, (0, 0, 0)); (cxz g, (1, 0, 0)); (cyz g, (0, 1, 0)); (cxyz g, (1, 1, 0))]%nat.
Definition minor (a b c d : poly) : poly := pmul a b ++ pscal (- 1) (pmul c d).
Definition det_poly (c g h : coefs) : poly :=
  pmul (dx c) (minor (dy g) (dz h) (dz g) (dy h)) ++ pmul (dy c) (minor (dz g) (dx h) (dx g) (dz h)) ++ pmul (dz c) (minor (dx g) (dy h) (dy g) (dx h)).
Definition value (g : coefs) (l : nat) : R :=
  match l with
  | 0%nat => c1 g | 1%nat => c1 g + cx g | 2%nat => c1 g + cy g | 3%nat => c1 g + cx g + cy g + cxy g
  | 4%nat => c1 g + cz g | 5%nat => c1 g + cx g + cz g + cxz g | 6%nat => c1 g + cy g + cz g + cyz g
  | _ => c1 g + cx g + cy g + cz g + cxy g + cyz g + cxz g + cxyz g end.
Lemma det_low c g h : forallb (fun t => low (snd t)) (det_poly c g h) = true.
Proof. reflexivity. Qed.
Lemma face_identity c g h : pint (det_poly c g h) = face_sum 8 (value c) (value g) (value h).
Proof.
  destruct c as [a1 ax ay az axy ayz axz axyz], g as [b1 bx by_ bz bxy byz bxz bxyz], h as [d1 dx dy dz dxy dyz dxz dxyz].
  unfold face_sum, corner_faces, outside, turns, cr, value. cbn [flat_map app suml fst snd c1 cx cy cz cxy cyz cxz cxyz].
  unfold pint, det_poly, minor, pmul, pscal, PatchHex.dx, PatchHex.dy, PatchHex.dz. cbn [flat_map map app suml fst snd eadd Nat.add c1 cx cy cz cxy cyz cxz cxyz INR].
  field.
Qed.
Lemma value_nodal g l : (l < 8)%nat -> value (nodal_coefs g) l = g l.
Proof. intros H. destruct l as [|[|[|[|[|[|[|[|l]]]]]]]]; [..|lia]; unfold value, nodal_coefs; cbn [c1 cx cy cz cxy cyz cxz cxyz]; ring. Qed.
Lemma face_sum_ext c c' g g' h h' : (forall l, (l < 8)%nat -> c l = c' l) -> (forall l, (l < 8)%nat -> g l = g' l) -> (forall l, (l < 8)%nat -> h l = h' l) ->
  face_sum 8 c g h = face_sum 8 c' g' h'.
Proof.
  intros Hc Hg Hh. unfold face_sum, corner_faces, outside, turns, cr. cbn [flat_map app suml fst snd]. rewrite !Hc, !Hg, !Hh by lia. reflexivity.
Qed.
Lemma hex_identity s kappa nq B w (pt : nat -> nat -> R) c g h :
  (forall l q k, (l < 8)%nat -> (q < nq)%nat -> (k < 3)%nat -> B l q k = nth k (nth l (hex_gr s 1 [pt q 0%nat; pt q 1%nat; pt q 2%nat]) []) 0) ->
  (forall a b e, (a <= 2)%nat -> (b <= 2)%nat -> (e <= 2)%nat -> sumn nq (fun q => pt q 0%nat ^ a * pt q 1%nat ^ b * pt q 2%nat ^ e * w q) = kappa * (1 / (INR a + 1) / (INR b + 1) / (INR e + 1))) ->
  jac3 nq 8 B w c g h = kappa * face_sum 8 c g h.
Proof.
  intros HB Hw.
  assert (DX : forall u q, (q < nq)%nat -> deriv 8 B u q 0 = peval (pt q) (dx (nodal_coefs u)) /\ deriv 8 B u q 1 = peval (pt q) (dy (nodal_coefs u)) /\ deriv 8 B u q 2 = peval (pt q) (dz (nodal_coefs u))).
  { intros u q Hq. unfold deriv. cbn [sumn]. rewrite !HB by lia. unfold hex_gr, both, lob_list, lob_d_list, peval, dx, dy, dz, nodal_coefs, mono.
    cbn [Nat.add lob lob_d combine map flat_map app nth fst snd suml pow c1 cx cy cz cxy cyz cxz cxyz]. repeat split; ring. }
  rewrite (face_sum_ext c (value (nodal_coefs c)) g (value (nodal_coefs g)) h (value (nodal_coefs h))) by (intros; now rewrite value_nodal).
  rewrite <- face_identity, <- (integrate nq w pt kappa _ Hw (det_low _ _ _)). unfold jac3. apply sumn_ext. intros q Hq.
  destruct (DX c q Hq) as (-> & -> & ->), (DX g q Hq) as (-> & -> & ->), (DX h q Hq) as (-> & -> & ->).
  unfold det_poly, minor. rewrite !peval_app, !peval_mul, !peval_app, !peval_scal, !peval_mul. ring.
Qed.

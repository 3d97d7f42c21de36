(** * Coefficient inputs (C39) and material inputs (C40) *)
From Coq Require Import String List ZArith Reals.
Import ListNotations.
From Verif Require Import StateMgr FEVector Inputs MatInputs.
Local Open Scope Z_scope.

(** a table whose vectors are readable is accepted exactly when one definition key is present *)
Theorem C39_exactly_one : forall t, readable t -> (exists o, parse t = Done o) <-> exists k, present t k = true /\ forall k', present t k' = true -> k' = k.
Proof. exact parse_iff. Qed.
Print Assumptions C39_exactly_one.
(** the coefficient built is the one defined, and a scalar definition is never taken as a vector or the other way round *)
Theorem C39_constant : forall t o c, parse t = Done o -> constant t = Some c -> exists f, construct_scalar o = Done f /\ (forall a x tm, f a x tm = Done c) /\ forall dim, construct_vector o dim = Refused.
Proof. exact scalar_const. Qed.
Print Assumptions C39_constant.
Theorem C39_function : forall t o g, parse t = Done o -> scalar_function t = Some g -> exists f, construct_scalar o = Done f /\ (forall a x tm, f a x tm = Done (g x tm)) /\ forall dim, construct_vector o dim = Refused.
Proof. exact scalar_fun. Qed.
Print Assumptions C39_function.
Theorem C39_vector_constant : forall t o v w dim, parse t = Done o -> vector_constant t = Some v -> read_vector v = Done w ->
  construct_scalar o = Refused /\ exists f, construct_vector o dim = Done f /\ forall a x tm, f a x tm = Done w.
Proof. exact vector_const. Qed.
Print Assumptions C39_vector_constant.
Theorem C39_vector_function : forall t o g dim, parse t = Done o -> vector_function t = Some g ->
  construct_scalar o = Refused /\ exists f, construct_vector o dim = Done f /\ forall a x tm, f a x tm = Done (firstn (length x) (g x tm)).
Proof. exact vector_fun. Qed.
Print Assumptions C39_vector_function.
(** piecewise constants with positive attributes; missing: tables with attributes below one, which are accepted too *)
Theorem C39_piecewise_partial : forall t o l, parse t = Done o -> piecewise t = Some l -> l <> [] -> (forall p, In p l -> 1 <= fst p) -> NoDup (map fst l) ->
  exists f, construct_scalar o = Done f /\ (forall att v, In (att, v) l -> forall x tm, f att x tm = Done v) /\
  (forall att, 1 <= att <= max_attr l -> ~ In att (map fst l) -> forall x tm, f att x tm = Done 0%R) /\ forall dim, construct_vector o dim = Refused.
Proof. exact scalar_pw. Qed.
Print Assumptions C39_piecewise_partial.
Theorem C39_largest : forall l : list (Z * R), l <> [] -> In (max_attr l) (map fst l) /\ forall p, In p l -> fst p <= max_attr l.
Proof. exact max_attr_spec. Qed.
Print Assumptions C39_largest.
(** piecewise vectors of one length *)
Theorem C39_vector_piecewise_partial : forall t o l0 l d, parse t = Done o -> vector_piecewise t = Some l0 -> read_vectors l0 = Done l -> l <> [] ->
  (forall p, In p l -> 1 <= fst p /\ length (snd p) = d) -> NoDup (map fst l) ->
  construct_scalar o = Refused /\ forall dim, exists f, construct_vector o dim = Done f /\ (forall att w, In (att, w) l -> forall x tm, f att x tm = Done w) /\
  (forall att, 1 <= att <= max_attr l -> ~ In att (map fst l) -> forall x tm, f att x tm = Done (repeat 0%R d)).
Proof. exact vector_pw. Qed.
Print Assumptions C39_vector_piecewise_partial.
Example C39_nonvacuous : (exists o, parse (only_pw [(3, 5%R); (1, 2%R)]) = Done o) /\ NoDup (map fst [(3, 5%R); (1, 2%R)]) /\ max_attr [(3, 5%R); (1, 2%R)] = 3.
Proof. split; [eexists; reflexivity|]. split; [repeat constructor; cbn; intuition discriminate|reflexivity]. Qed.
Example C39_nonvacuous_vector : exists o l, parse (only_vpw [(2, {| vx := Some 1%R; vy := Some 2%R; vz := None |})]) = Done o /\ read_vectors [(2, {| vx := Some 1%R; vy := Some 2%R; vz := None |})] = Done l /\ forall p, In p l -> 1 <= fst p /\ length (snd p) = 2%nat.
Proof. eexists. eexists. split; [reflexivity|]. split; [reflexivity|]. intros p [<-|[]]. split; [discriminate|reflexivity]. Qed.
(** an attribute below one is accepted and written before the start of the array *)
Theorem C39_nonpositive_attribute_refuted : forall x, exists o, parse (only_pw [(0, x); (1, 2%R)]) = Done o /\ construct_scalar o = Undef.
Proof. exact nonpositive_attr. Qed.
Print Assumptions C39_nonpositive_attribute_refuted.
(** vectors of different lengths are accepted and read past their end *)
Theorem C39_short_vector_refuted : exists o, parse (only_vpw [(1, {| vx := Some 1%R; vy := None; vz := None |}); (2, {| vx := Some 1%R; vy := Some 2%R; vz := None |})]) = Done o /\ construct_vector o 2 = Undef.
Proof. exact short_vector. Qed.
Print Assumptions C39_short_vector_refuted.
(** a vector with x and z loses z, and its length is not checked against the dimension *)
Theorem C39_vector_gap_refuted : exists o f, parse (only_vc {| vx := Some 1%R; vy := None; vz := Some 3%R |}) = Done o /\ construct_vector o 3 = Done f /\ forall a x tm, f a x tm = Done [1%R].
Proof. exact gap_vector. Qed.
Print Assumptions C39_vector_gap_refuted.
(** attributes above the largest listed one are read past the end *)
Theorem C39_above_largest_refuted : exists o f, parse (only_pw [(1, 5%R)]) = Done o /\ construct_scalar o = Done f /\ f 2 [] 0%R = Undef.
Proof. exact above_largest. Qed.
Print Assumptions C39_above_largest_refuted.

Local Open Scope string_scope.
(** ** C40 *)
Theorem C40_voce : forall c, names_model c "law" "VoceHardening" -> (verify_hardening c = true <-> provides c ["sigma_y"; "sigma_sat"; "strain_constant"] /\ lacks c ["n"; "eps0"]).
Proof. exact voce_iff. Qed.
Print Assumptions C40_voce.
(** missing: strain_constant, which belongs to the Voce law, is not rejected *)
Theorem C40_power_law_partial : forall c, names_model c "law" "PowerLawHardening" -> (verify_hardening c = true <-> provides c ["sigma_y"; "n"; "eps0"] /\ lacks c ["sigma_sat"]).
Proof. exact power_iff. Qed.
Print Assumptions C40_power_law_partial.
Theorem C40_power_law_refuted : names_model power_extra "law" "PowerLawHardening" /\ verify_hardening power_extra = true /\ value_is power_extra "strain_constant" 3.
Proof. exact power_extra_accepted. Qed.
Print Assumptions C40_power_law_refuted.
Theorem C40_j2 : forall c, names_model c "model" "J2SmallStrain" ->
  (verify_solid c = true <-> provides c ["density"; "E"; "nu"; "Hk"] /\ (exists h, find_key "hardening" c = Some (VObject h) /\ verify_hardening h = true) /\ lacks c ["mu"; "K"]).
Proof. exact j2_iff. Qed.
Print Assumptions C40_j2.
(** missing: Hk, which belongs to J2, is not rejected *)
Theorem C40_elastic_partial : forall c m, m = "NeoHookean" \/ m = "LinearIsotropic" -> names_model c "model" m ->
  (verify_solid c = true <-> provides c ["density"; "mu"; "K"] /\ lacks c ["E"; "nu"] /\ forall h, find_key "hardening" c <> Some (VObject h)).
Proof. exact elastic_iff. Qed.
Print Assumptions C40_elastic_partial.
Theorem C40_elastic_refuted : names_model neo_extra "model" "NeoHookean" /\ verify_solid neo_extra = true /\ value_is neo_extra "Hk" 3.
Proof. exact neo_extra_accepted. Qed.
Print Assumptions C40_elastic_refuted.
(** linear hardening, a law the material library and the input variant offer, is never accepted *)
Theorem C40_linear_hardening_refuted : forall c, names_model c "law" "LinearHardening" -> verify_hardening c = false.
Proof. exact linear_hardening_rejected. Qed.
Print Assumptions C40_linear_hardening_refuted.
Theorem C40_isotropic_conductor : forall c, names_model c "model" "LinearIsotropicConductor" ->
  (verify_thermal c = true <-> provides c ["density"; "cp"; "kappa"] /\ (forall z, find_key "dim" c <> Some (VInt z)) /\ forall h, find_key "kappa_tensor" c <> Some (VObject h)).
Proof. exact iso_conductor_iff. Qed.
Print Assumptions C40_isotropic_conductor.
Theorem C40_conductor : forall c, names_model c "model" "LinearConductor" ->
  (verify_thermal c = true <-> provides c ["density"; "cp"] /\ lacks c ["kappa"] /\ exists t, find_key "kappa_tensor" c = Some (VObject t) /\
    ((find_key "dim" c = Some (VInt 2) /\ (exists r1 r2, find_key "row1" t = Some (VArray r1) /\ find_key "row2" t = Some (VArray r2) /\ length r1 = 2%nat /\ length r2 = 2%nat) /\ forall r, find_key "row3" t <> Some (VArray r)) \/
     (find_key "dim" c = Some (VInt 3) /\ exists r1 r2 r3, find_key "row1" t = Some (VArray r1) /\ find_key "row2" t = Some (VArray r2) /\ find_key "row3" t = Some (VArray r3) /\ length r1 = 3%nat /\ length r2 = 3%nat /\ length r3 = 3%nat))).
Proof. exact conductor_iff. Qed.
Print Assumptions C40_conductor.
(** an accepted table builds the material it names, with the values it gives *)
Theorem C40_build_solid : forall c, verify_solid c = true -> exists m, build_solid c = Done m /\ solid_of c m.
Proof. exact build_solid_ok. Qed.
Print Assumptions C40_build_solid.
Theorem C40_build_thermal : forall c, verify_thermal c = true -> exists m, build_thermal c = Done m /\ thermal_of c m.
Proof. exact build_thermal_ok. Qed.
Print Assumptions C40_build_thermal.
Example C40_nonvacuous : verify_solid j2_table = true /\ verify_thermal cond_table = true.
Proof. split; reflexivity. Qed.
(** options filled in by hand, not by the parser: any vector field set means no scalar coefficient, none set means no vector coefficient *)
Theorem C39_kinds : forall o dim, (o_vf o <> None \/ o_vc o <> None \/ o_vpw o <> [] -> construct_scalar o = Refused) /\ (o_vf o = None -> o_vc o = None -> o_vpw o = [] -> construct_vector o dim = Refused).
Proof. exact kinds. Qed.
Print Assumptions C39_kinds.

(** * Material input verification (C40): physics/materials/hardening_input.cpp, solid_material_input.cpp, thermal_material_input.cpp *)
From Coq Require Import String List Bool Arith ZArith Reals Lia.
Import ListNotations.
From Verif Require Import StateMgr FEVector.
Local Open Scope string_scope.

(** an Inlet container: user-provided fields only. contains(k) and type() look at these. Simplifications: a struct is contained when provided;
    an array is contained when provided; rows left out read as empty vectors. *)
Inductive val := VDouble (x : R) | VInt (z : Z) | VString (s : string) | VArray (l : list R) | VObject (o : list (string * val)).
Notation obj := (list (string * val)).
Fixpoint find_key (k : string) (o : obj) : option val := match o with [] => None | (k', v) :: o' => if String.eqb k k' then Some v else find_key k o' end.
(** c.contains(k) && c[k].type() == double *)
Definition dbl (o : obj) (k : string) : bool := match find_key k o with Some (VDouble _) => true | _ => false end.
Definition int_ (o : obj) (k : string) : bool := match find_key k o with Some (VInt _) => true | _ => false end.
Definition strct (o : obj) (k : string) : bool := match find_key k o with Some (VObject _) => true | _ => false end.
Definition str_is (o : obj) (k s : string) : bool := match find_key k o with Some (VString s') => String.eqb s' s | _ => false end.
(** hardening_input.cpp:27-46 (the repeated test is the source's) *)
Definition verify_hardening (c : obj) : bool :=
  if str_is c "law" "PowerLawHardening" then dbl c "sigma_y" && dbl c "n" && dbl c "eps0" && negb (dbl c "sigma_sat") && negb (dbl c "sigma_sat")
  else if str_is c "law" "VoceHardening" then dbl c "sigma_y" && negb (dbl c "n") && negb (dbl c "eps0") && dbl c "sigma_sat" && dbl c "strain_constant"
  else false.
(** solid_material_input.cpp:30-50; the verifier of the nested container runs too *)
Definition verify_solid (c : obj) : bool :=
  (if str_is c "model" "NeoHookean" || str_is c "model" "LinearIsotropic" then dbl c "density" && dbl c "mu" && dbl c "K" && negb (dbl c "E") && negb (dbl c "nu") && negb (strct c "hardening")
   else if str_is c "model" "J2SmallStrain" then dbl c "density" && negb (dbl c "mu") && negb (dbl c "K") && dbl c "E" && dbl c "nu" && dbl c "Hk" && strct c "hardening"
   else false) && match find_key "hardening" c with Some (VObject h) => verify_hardening h | _ => true end.
(** thermal_material_input.cpp:33-71 *)
Definition row (c : obj) (k : string) : option (list R) := match find_key "kappa_tensor" c with Some (VObject t) => match find_key k t with Some (VArray l) => Some l | _ => None end | _ => None end.
Definition row_size (c : obj) (k : string) : nat := match row c k with Some l => length l | None => 0 end.
Definition row_present (c : obj) (k : string) : bool := match row c k with Some _ => true | None => false end.
Definition int_value (c : obj) (k : string) : option Z := match find_key k c with Some (VInt z) => Some z | _ => None end.
Definition verify_thermal (c : obj) : bool :=
  if str_is c "model" "LinearIsotropicConductor" then dbl c "density" && dbl c "cp" && dbl c "kappa" && negb (int_ c "dim") && negb (strct c "kappa_tensor")
  else if str_is c "model" "LinearConductor" then
    if dbl c "density" && dbl c "cp" && negb (dbl c "kappa") && int_ c "dim" && strct c "kappa_tensor" then
      match int_value c "dim" with
      | Some 2%Z => row_present c "row1" && (row_size c "row1" =? 2)%nat && row_present c "row2" && (row_size c "row2" =? 2)%nat && negb (row_present c "row3")
      | Some 3%Z => row_present c "row1" && (row_size c "row1" =? 3)%nat && row_present c "row2" && (row_size c "row2" =? 3)%nat && row_present c "row3" && (row_size c "row3" =? 3)%nat
      | _ => false
      end
    else false
  else false.
(** ** constructing the materials: a missing or mistyped field is an Inlet error *)
Inductive hardening := LinearHardening (sigma_y Hi : R) | PowerLawHardening (sigma_y n eps0 : R) | VoceHardening (sigma_y sigma_sat strain_constant : R).
Inductive solid := NeoHookean (density K G : R) | LinearIsotropic (density K G : R) | J2SmallStrain (E nu : R) (h : hardening) (Hk density : R).
Inductive thermal := Isotropic (density cp kappa : R) | Conductor2 (density cp : R) (k : list (list R)) | Conductor3 (density cp : R) (k : list (list R)).
Definition get_double (c : obj) (k : string) : outcome R := match find_key k c with Some (VDouble x) => Done x | _ => Refused end.
Definition get_string (c : obj) (k : string) : outcome string := match find_key k c with Some (VString x) => Done x | _ => Refused end.
(** a default-constructed std::variant holds its first alternative, here with indeterminate members *)
(** hardening_input.cpp:53-65 *)
Definition build_hardening (c : obj) : outcome hardening :=
  bind (get_string c "law") (fun law =>
  if String.eqb law "PowerLawHardening" then bind (get_double c "sigma_y") (fun s => bind (get_double c "n") (fun n => bind (get_double c "eps0") (fun e => Done (PowerLawHardening s n e))))
  else if String.eqb law "VoceHardening" then bind (get_double c "sigma_y") (fun s => bind (get_double c "sigma_sat") (fun n => bind (get_double c "strain_constant") (fun e => Done (VoceHardening s n e))))
  else Undef).
(** solid_material_input.cpp:56-95 *)
Definition build_solid (c : obj) : outcome solid :=
  bind (get_string c "model") (fun m =>
  if String.eqb m "NeoHookean" then bind (get_double c "density") (fun d => bind (get_double c "K") (fun k => bind (get_double c "mu") (fun g => Done (NeoHookean d k g))))
  else if String.eqb m "LinearIsotropic" then bind (get_double c "density") (fun d => bind (get_double c "K") (fun k => bind (get_double c "mu") (fun g => Done (LinearIsotropic d k g))))
  else if String.eqb m "J2SmallStrain" then
    match find_key "hardening" c with
    | Some (VObject h) => bind (build_hardening h) (fun hd => bind (get_double c "E") (fun e => bind (get_double c "nu") (fun nu => bind (get_double c "Hk") (fun hk => bind (get_double c "density") (fun d => Done (J2SmallStrain e nu hd hk d))))))
    | _ => Refused
    end
  else Undef).
(** v[i][j]: reading past the end of a row is undefined *)
Definition take_row (n : nat) (c : obj) (k : string) : outcome (list R) := match row c k with Some l => if (n <=? length l)%nat then Done (firstn n l) else Undef | None => Undef end.
(** thermal_material_input.cpp:93-119 (the checks of the material constructors are in Conductors.v) *)
Definition build_thermal (c : obj) : outcome thermal :=
  bind (get_string c "model") (fun m =>
  if String.eqb m "LinearIsotropicConductor" then bind (get_double c "density") (fun d => bind (get_double c "cp") (fun p => bind (get_double c "kappa") (fun k => Done (Isotropic d p k))))
  else if String.eqb m "LinearConductor" then
    match int_value c "dim" with
    | Some 2%Z => bind (take_row 2 c "row1") (fun r1 => bind (take_row 2 c "row2") (fun r2 => bind (get_double c "density") (fun d => bind (get_double c "cp") (fun p => Done (Conductor2 d p [r1; r2])))))
    | Some 3%Z => bind (take_row 3 c "row1") (fun r1 => bind (take_row 3 c "row2") (fun r2 => bind (take_row 3 c "row3") (fun r3 => bind (get_double c "density") (fun d => bind (get_double c "cp") (fun p => Done (Conductor3 d p [r1; r2; r3]))))))
    | _ => Undef
    end
  else Undef).

(** ** specification: which keys each model needs, from the schema's own comments (hardening_input.cpp:13-24, solid_material_input.cpp:15-26) *)
Definition value_is (c : obj) (k : string) (x : R) : Prop := find_key k c = Some (VDouble x).
Definition provides (c : obj) (keys : list string) : Prop := forall k, In k keys -> exists x, find_key k c = Some (VDouble x).
Definition lacks (c : obj) (keys : list string) : Prop := forall k, In k keys -> forall x, find_key k c <> Some (VDouble x).
Definition names_model (c : obj) (k m : string) : Prop := find_key k c = Some (VString m).
Lemma dbl_iff c k : dbl c k = true <-> exists x, find_key k c = Some (VDouble x).
Proof. unfold dbl. split; [destruct (find_key k c) as [[]|]; try discriminate; eauto|intros [x ->]; reflexivity]. Qed.
Lemma ndbl_iff c k : negb (dbl c k) = true <-> forall x, find_key k c <> Some (VDouble x).
Proof. unfold dbl. split; [destruct (find_key k c) as [[]|]; try discriminate; intros _ x E; discriminate|]. intros H. destruct (find_key k c) as [[]|]; try reflexivity. now destruct (H x). Qed.
Lemma str_iff c k s : str_is c k s = true <-> find_key k c = Some (VString s).
Proof. unfold str_is. split; [destruct (find_key k c) as [[]|]; try discriminate; rewrite String.eqb_eq; now intros ->|intros ->; apply String.eqb_refl]. Qed.
Lemma strct_iff c k : strct c k = true <-> exists h, find_key k c = Some (VObject h).
Proof. unfold strct. split; [destruct (find_key k c) as [[]|]; try discriminate; eauto|intros [x ->]; reflexivity]. Qed.
Lemma nstrct_iff c k : negb (strct c k) = true <-> forall h, find_key k c <> Some (VObject h).
Proof. unfold strct. split; [destruct (find_key k c) as [[]|]; try discriminate; intros _ x E; discriminate|]. intros H. destruct (find_key k c) as [[]|]; try reflexivity. now destruct (H o). Qed.
Lemma nint_iff c k : negb (int_ c k) = true <-> forall h, find_key k c <> Some (VInt h).
Proof. unfold int_. split; [destruct (find_key k c) as [[]|]; try discriminate; intros _ x E; discriminate|]. intros H. destruct (find_key k c) as [[]|]; try reflexivity. now destruct (H z). Qed.
Lemma provides_cons c k l : provides c (k :: l) <-> dbl c k = true /\ provides c l.
Proof. rewrite dbl_iff. unfold provides. split; [intros H; split; [apply H; now left|intros q Hq; apply H; now right]|intros [H1 H2] q [<-|Hq]; auto]. Qed.
Lemma provides_nil c : provides c [] <-> True.
Proof. split; auto. intros _ k []. Qed.
Lemma lacks_cons c k l : lacks c (k :: l) <-> negb (dbl c k) = true /\ lacks c l.
Proof. rewrite ndbl_iff. unfold lacks. split; [intros H; split; [apply H; now left|intros q Hq; apply H; now right]|intros [H1 H2] q [<-|Hq]; auto]. Qed.
Lemma lacks_nil c : lacks c [] <-> True.
Proof. split; auto. intros _ k []. Qed.
Lemma str_other c k s s' : find_key k c = Some (VString s) -> s' <> s -> str_is c k s' = false.
Proof. intros E N. unfold str_is. rewrite E. apply String.eqb_neq. congruence. Qed.
Lemma voce_iff c : names_model c "law" "VoceHardening" -> (verify_hardening c = true <-> provides c ["sigma_y"; "sigma_sat"; "strain_constant"] /\ lacks c ["n"; "eps0"]).
Proof.
  intros E. unfold verify_hardening. rewrite (str_other c "law" _ "PowerLawHardening" E) by discriminate. replace (str_is c "law" "VoceHardening") with true by (symmetry; now apply str_iff).
  rewrite !provides_cons, !lacks_cons, provides_nil, lacks_nil, !andb_true_iff. tauto.
Qed.
(** what the power-law test says *)
Lemma power_iff c : names_model c "law" "PowerLawHardening" -> (verify_hardening c = true <-> provides c ["sigma_y"; "n"; "eps0"] /\ lacks c ["sigma_sat"]).
Proof.
  intros E. unfold verify_hardening. replace (str_is c "law" "PowerLawHardening") with true by (symmetry; now apply str_iff).
  rewrite !provides_cons, !lacks_cons, provides_nil, lacks_nil, !andb_true_iff. tauto.
Qed.
Lemma law_unknown c : (forall s, names_model c "law" s -> s <> "PowerLawHardening" /\ s <> "VoceHardening") -> verify_hardening c = false.
Proof.
  intros H. unfold verify_hardening. destruct (str_is c "law" "PowerLawHardening") eqn:E1; [apply str_iff in E1; destruct (H _ E1); congruence|]. destruct (str_is c "law" "VoceHardening") eqn:E2; [apply str_iff in E2; destruct (H _ E2); congruence|]. reflexivity.
Qed.
Definition hardening_ok (c : obj) : Prop := match find_key "hardening" c with Some (VObject h) => verify_hardening h = true | _ => True end.
Lemma hard_iff c : match find_key "hardening" c with Some (VObject h) => verify_hardening h | _ => true end = true <-> hardening_ok c.
Proof. unfold hardening_ok. destruct (find_key "hardening" c) as [[]|]; tauto. Qed.
Lemma j2_iff c : names_model c "model" "J2SmallStrain" ->
  (verify_solid c = true <-> provides c ["density"; "E"; "nu"; "Hk"] /\ (exists h, find_key "hardening" c = Some (VObject h) /\ verify_hardening h = true) /\ lacks c ["mu"; "K"]).
Proof.
  intros E. unfold verify_solid. rewrite (str_other c "model" _ "NeoHookean" E), (str_other c "model" _ "LinearIsotropic" E) by discriminate. replace (str_is c "model" "J2SmallStrain") with true by (symmetry; now apply str_iff). cbn [orb].
  rewrite andb_true_iff, hard_iff, !provides_cons, !lacks_cons, provides_nil, lacks_nil, !andb_true_iff, strct_iff. unfold hardening_ok. split.
  - intros [H1 H2]. destruct H1 as [[[[[[? ?] ?] ?] ?] ?] [h Eh]]. rewrite Eh in H2. repeat split; auto. eauto.
  - intros [[? [? [? [? _]]]] [[h [Eh Hh]] [? [? _]]]]. rewrite Eh. repeat split; auto. eauto.
Qed.
Lemma elastic_iff c m : m = "NeoHookean" \/ m = "LinearIsotropic" -> names_model c "model" m ->
  (verify_solid c = true <-> provides c ["density"; "mu"; "K"] /\ lacks c ["E"; "nu"] /\ forall h, find_key "hardening" c <> Some (VObject h)).
Proof.
  intros Hm E. unfold verify_solid. replace (str_is c "model" "NeoHookean" || str_is c "model" "LinearIsotropic")%bool with true by (symmetry; apply orb_true_iff; rewrite !str_iff; destruct Hm as [-> | ->]; auto).
  rewrite andb_true_iff, hard_iff, !provides_cons, !lacks_cons, provides_nil, lacks_nil, !andb_true_iff, nstrct_iff. unfold hardening_ok. split.
  - intros [H1 H2]. intuition.
  - intros [? [? H3]]. split; [intuition|]. destruct (find_key "hardening" c) as [[]|]; auto. now destruct (H3 o).
Qed.
Lemma iso_conductor_iff c : names_model c "model" "LinearIsotropicConductor" ->
  (verify_thermal c = true <-> provides c ["density"; "cp"; "kappa"] /\ (forall z, find_key "dim" c <> Some (VInt z)) /\ forall h, find_key "kappa_tensor" c <> Some (VObject h)).
Proof.
  intros E. unfold verify_thermal. replace (str_is c "model" "LinearIsotropicConductor") with true by (symmetry; now apply str_iff). rewrite !provides_cons, provides_nil, !andb_true_iff, nstrct_iff, nint_iff. tauto.
Qed.
Lemma conductor_iff c : names_model c "model" "LinearConductor" ->
  (verify_thermal c = true <-> provides c ["density"; "cp"] /\ lacks c ["kappa"] /\ exists t, find_key "kappa_tensor" c = Some (VObject t) /\
    ((find_key "dim" c = Some (VInt 2) /\ (exists r1 r2, find_key "row1" t = Some (VArray r1) /\ find_key "row2" t = Some (VArray r2) /\ length r1 = 2%nat /\ length r2 = 2%nat) /\ forall r, find_key "row3" t <> Some (VArray r)) \/
     (find_key "dim" c = Some (VInt 3) /\ exists r1 r2 r3, find_key "row1" t = Some (VArray r1) /\ find_key "row2" t = Some (VArray r2) /\ find_key "row3" t = Some (VArray r3) /\ length r1 = 3%nat /\ length r2 = 3%nat /\ length r3 = 3%nat))).
Proof.
  intros E. unfold verify_thermal. rewrite (str_other c "model" _ "LinearIsotropicConductor" E) by discriminate. replace (str_is c "model" "LinearConductor") with true by (symmetry; now apply str_iff).
  rewrite !provides_cons, !lacks_cons, provides_nil, lacks_nil. split.
  - destruct (dbl c "density" && dbl c "cp" && negb (dbl c "kappa") && int_ c "dim" && strct c "kappa_tensor")%bool eqn:G; [|discriminate]. rewrite !andb_true_iff in G. destruct G as [[[[G1 G2] G3] _] Ht]. apply strct_iff in Ht. destruct Ht as [t Et]. intros H.
    split; [auto|]. split; [auto|]. exists t. split; [exact Et|]. unfold int_value, row_present, row_size, row in H. rewrite Et in H. destruct (find_key "dim" c) as [[|z| | |]|]; try discriminate.
    destruct (Z.eq_dec z 2) as [->|N2]; [left|destruct (Z.eq_dec z 3) as [->|N3]; [right|exfalso; destruct z as [|q|q]; try discriminate H; destruct q as [q|q|]; try discriminate H; destruct q; try discriminate H; congruence]].
    + split; [reflexivity|]. destruct (find_key "row1" t) as [[| | |r1|]|]; try discriminate. destruct (find_key "row2" t) as [[| | |r2|]|]; try (cbn in H; rewrite ?andb_false_r in H; cbn in H; rewrite ?andb_false_r in H; discriminate). rewrite !andb_true_iff, !Nat.eqb_eq in H. destruct H as [[[[_ H1] _] H2] H3]. split; [exists r1, r2; auto|].
      intros r Er. rewrite Er in H3. discriminate.
    + split; [reflexivity|]. destruct (find_key "row1" t) as [[| | |r1|]|]; try discriminate. destruct (find_key "row2" t) as [[| | |r2|]|]; try (cbn in H; rewrite ?andb_false_r in H; cbn in H; rewrite ?andb_false_r in H; discriminate). destruct (find_key "row3" t) as [[| | |r3|]|]; try (cbn in H; rewrite ?andb_false_r in H; cbn in H; rewrite ?andb_false_r in H; discriminate).
      rewrite !andb_true_iff, !Nat.eqb_eq in H. destruct H as [[[[[_ H1] _] H2] _] H3]. exists r1, r2, r3. repeat split; auto.
  - intros [[H1 [H2 _]] [[H3 _] [t [Et H]]]]. replace (strct c "kappa_tensor") with true by (symmetry; apply strct_iff; eauto). rewrite H1, H2, H3. unfold int_, int_value, row_present, row_size, row. rewrite Et. destruct H as [[Ed [[r1 [r2 [E1 [E2 [L1 L2]]]]] N3]]|[Ed [r1 [r2 [r3 [E1 [E2 [E3 [L1 [L2 L3]]]]]]]]]].
    + rewrite Ed, E1, E2, L1, L2. cbn. destruct (find_key "row3" t) as [[]|]; try reflexivity. now destruct (N3 l).
    + rewrite Ed, E1, E2, E3, L1, L2, L3. reflexivity.
Qed.
(** ** verified tables build, with the values of the table *)
Lemma get_double_ok c k x : value_is c k x -> get_double c k = Done x.
Proof. intros H. unfold get_double. now rewrite H. Qed.
Lemma provides_value c keys k : provides c keys -> In k keys -> exists x, value_is c k x.
Proof. intros H I1. exact (H k I1). Qed.
Definition hardening_of (c : obj) (h : hardening) : Prop :=
  match h with
  | LinearHardening _ _ => False
  | PowerLawHardening s n e => names_model c "law" "PowerLawHardening" /\ value_is c "sigma_y" s /\ value_is c "n" n /\ value_is c "eps0" e
  | VoceHardening s t k => names_model c "law" "VoceHardening" /\ value_is c "sigma_y" s /\ value_is c "sigma_sat" t /\ value_is c "strain_constant" k
  end.
Lemma str_cases c k s : str_is c k s = true -> get_string c k = Done s.
Proof. rewrite str_iff. intros E. unfold get_string. now rewrite E. Qed.
Ltac getd c P k x := let V := fresh "V" in destruct (provides_value c _ k P ltac:(cbn; tauto)) as [x V].
Lemma build_hardening_ok c : verify_hardening c = true -> exists h, build_hardening c = Done h /\ hardening_of c h.
Proof.
  intros H. pose proof H as H0. unfold verify_hardening in H0. destruct (str_is c "law" "PowerLawHardening") eqn:E1; [|destruct (str_is c "law" "VoceHardening") eqn:E2; [|discriminate]].
  - pose proof (proj1 (str_iff _ _ _) E1) as E1'. destruct (proj1 (power_iff c E1') H) as [P _]. getd c P "sigma_y" s. getd c P "n" n. getd c P "eps0" e.
    unfold build_hardening. rewrite (str_cases _ _ _ E1). cbn [bind]. rewrite String.eqb_refl, (get_double_ok c "sigma_y" s), (get_double_ok c "n" n), (get_double_ok c "eps0" e) by assumption. cbn [bind]. eexists. split; [reflexivity|]. cbn. auto.
  - pose proof (proj1 (str_iff _ _ _) E2) as E2'. destruct (proj1 (voce_iff c E2') H) as [P _]. getd c P "sigma_y" s. getd c P "sigma_sat" n. getd c P "strain_constant" e.
    unfold build_hardening. rewrite (str_cases _ _ _ E2). cbn [bind]. change (String.eqb "VoceHardening" "PowerLawHardening") with false. rewrite String.eqb_refl, (get_double_ok c "sigma_y" s), (get_double_ok c "sigma_sat" n), (get_double_ok c "strain_constant" e) by assumption. cbn [bind]. eexists. split; [reflexivity|]. cbn. auto.
Qed.
Definition solid_of (c : obj) (m : solid) : Prop :=
  match m with
  | NeoHookean d k g => names_model c "model" "NeoHookean" /\ value_is c "density" d /\ value_is c "K" k /\ value_is c "mu" g
  | LinearIsotropic d k g => names_model c "model" "LinearIsotropic" /\ value_is c "density" d /\ value_is c "K" k /\ value_is c "mu" g
  | J2SmallStrain e nu h hk d => names_model c "model" "J2SmallStrain" /\ value_is c "E" e /\ value_is c "nu" nu /\ value_is c "Hk" hk /\ value_is c "density" d /\ exists t, find_key "hardening" c = Some (VObject t) /\ hardening_of t h
  end.
Lemma build_solid_ok c : verify_solid c = true -> exists m, build_solid c = Done m /\ solid_of c m.
Proof.
  intros H. destruct (str_is c "model" "NeoHookean") eqn:E1; [|destruct (str_is c "model" "LinearIsotropic") eqn:E2; [|destruct (str_is c "model" "J2SmallStrain") eqn:E3; [|unfold verify_solid in H; rewrite E1, E2, E3 in H; discriminate]]].
  - pose proof (proj1 (str_iff _ _ _) E1) as E'. destruct (proj1 (elastic_iff c _ (or_introl eq_refl) E') H) as [P _]. getd c P "density" d. getd c P "K" k. getd c P "mu" g.
    unfold build_solid. rewrite (str_cases _ _ _ E1). cbn [bind]. rewrite String.eqb_refl, (get_double_ok c "density" d), (get_double_ok c "K" k), (get_double_ok c "mu" g) by assumption. cbn [bind]. eexists. split; [reflexivity|]. cbn. auto.
  - pose proof (proj1 (str_iff _ _ _) E2) as E'. destruct (proj1 (elastic_iff c _ (or_intror eq_refl) E') H) as [P _]. getd c P "density" d. getd c P "K" k. getd c P "mu" g.
    unfold build_solid. rewrite (str_cases _ _ _ E2). cbn [bind]. change (String.eqb "LinearIsotropic" "NeoHookean") with false. rewrite String.eqb_refl, (get_double_ok c "density" d), (get_double_ok c "K" k), (get_double_ok c "mu" g) by assumption. cbn [bind]. eexists. split; [reflexivity|]. cbn. auto.
  - pose proof (proj1 (str_iff _ _ _) E3) as E'. destruct (proj1 (j2_iff c E') H) as [P [[t [Et Ht]] _]]. getd c P "density" d. getd c P "E" e. getd c P "nu" nu. getd c P "Hk" hk. destruct (build_hardening_ok t Ht) as [h [Eh Hh]].
    unfold build_solid. rewrite (str_cases _ _ _ E3). cbn [bind]. change (String.eqb "J2SmallStrain" "NeoHookean") with false. change (String.eqb "J2SmallStrain" "LinearIsotropic") with false.
    rewrite String.eqb_refl, Et, Eh. cbn [bind]. rewrite (get_double_ok c "density" d), (get_double_ok c "E" e), (get_double_ok c "nu" nu), (get_double_ok c "Hk" hk) by assumption. cbn [bind]. eexists. split; [reflexivity|]. cbn. repeat split; auto. eauto.
Qed.
Definition row_is (c : obj) (k : string) (r : list R) : Prop := exists t, find_key "kappa_tensor" c = Some (VObject t) /\ find_key k t = Some (VArray r).
Definition thermal_of (c : obj) (m : thermal) : Prop :=
  match m with
  | Isotropic d p k => names_model c "model" "LinearIsotropicConductor" /\ value_is c "density" d /\ value_is c "cp" p /\ value_is c "kappa" k
  | Conductor2 d p rows => names_model c "model" "LinearConductor" /\ find_key "dim" c = Some (VInt 2) /\ value_is c "density" d /\ value_is c "cp" p /\ exists r1 r2, rows = [r1; r2] /\ row_is c "row1" r1 /\ row_is c "row2" r2
  | Conductor3 d p rows => names_model c "model" "LinearConductor" /\ find_key "dim" c = Some (VInt 3) /\ value_is c "density" d /\ value_is c "cp" p /\ exists r1 r2 r3, rows = [r1; r2; r3] /\ row_is c "row1" r1 /\ row_is c "row2" r2 /\ row_is c "row3" r3
  end.
Lemma take_row_ok n c k t r : find_key "kappa_tensor" c = Some (VObject t) -> find_key k t = Some (VArray r) -> length r = n -> take_row n c k = Done r.
Proof. intros E1 E2 <-. unfold take_row, row. rewrite E1, E2, Nat.leb_refl, firstn_all. reflexivity. Qed.
Lemma build_thermal_ok c : verify_thermal c = true -> exists m, build_thermal c = Done m /\ thermal_of c m.
Proof.
  intros H. destruct (str_is c "model" "LinearIsotropicConductor") eqn:E1; [|destruct (str_is c "model" "LinearConductor") eqn:E2; [|unfold verify_thermal in H; rewrite E1, E2 in H; discriminate]].
  - pose proof (proj1 (str_iff _ _ _) E1) as E'. destruct (proj1 (iso_conductor_iff c E') H) as [P _]. getd c P "density" d. getd c P "cp" p. getd c P "kappa" k.
    unfold build_thermal. rewrite (str_cases _ _ _ E1). cbn [bind]. rewrite String.eqb_refl, (get_double_ok c "density" d), (get_double_ok c "cp" p), (get_double_ok c "kappa" k) by assumption. cbn [bind]. eexists. split; [reflexivity|]. cbn. auto.
  - pose proof (proj1 (str_iff _ _ _) E2) as E'. destruct (proj1 (conductor_iff c E') H) as [P [_ [t [Et D]]]]. getd c P "density" d. getd c P "cp" p.
    unfold build_thermal. rewrite (str_cases _ _ _ E2). cbn [bind]. change (String.eqb "LinearConductor" "LinearIsotropicConductor") with false. rewrite String.eqb_refl. unfold int_value.
    destruct D as [[Ed [[r1 [r2 [F1 [F2 [L1 L2]]]]] _]]|[Ed [r1 [r2 [r3 [F1 [F2 [F3 [L1 [L2 L3]]]]]]]]]]; rewrite Ed.
    + rewrite (take_row_ok 2 c "row1" t r1 Et F1 L1), (take_row_ok 2 c "row2" t r2 Et F2 L2). cbn [bind]. rewrite (get_double_ok c "density" d), (get_double_ok c "cp" p) by assumption. cbn [bind]. eexists. split; [reflexivity|]. cbn. repeat split; auto. exists r1, r2. unfold row_is. eauto 8.
    + rewrite (take_row_ok 3 c "row1" t r1 Et F1 L1), (take_row_ok 3 c "row2" t r2 Et F2 L2), (take_row_ok 3 c "row3" t r3 Et F3 L3). cbn [bind]. rewrite (get_double_ok c "density" d), (get_double_ok c "cp" p) by assumption. cbn [bind]. eexists. split; [reflexivity|]. cbn. repeat split; auto. exists r1, r2, r3. unfold row_is. eauto 10.
Qed.
(** ** tables that are accepted with another model's parameter *)
Definition power_extra : obj := [("law", VString "PowerLawHardening"); ("sigma_y", VDouble 1); ("n", VDouble 2); ("eps0", VDouble 1); ("strain_constant", VDouble 3)].
Definition neo_extra : obj := [("model", VString "NeoHookean"); ("density", VDouble 1); ("mu", VDouble 2); ("K", VDouble 1); ("Hk", VDouble 3)].
Definition voce_table : obj := [("law", VString "VoceHardening"); ("sigma_y", VDouble 1); ("sigma_sat", VDouble 2); ("strain_constant", VDouble 3)].
Definition j2_table : obj := [("model", VString "J2SmallStrain"); ("density", VDouble 1); ("E", VDouble 2); ("nu", VDouble 0); ("Hk", VDouble 3); ("hardening", VObject voce_table)].
Definition cond_table : obj := [("model", VString "LinearConductor"); ("density", VDouble 1); ("cp", VDouble 2); ("dim", VInt 2); ("kappa_tensor", VObject [("row1", VArray [1%R; 0%R]); ("row2", VArray [0%R; 1%R])])].
Lemma power_extra_accepted : names_model power_extra "law" "PowerLawHardening" /\ verify_hardening power_extra = true /\ value_is power_extra "strain_constant" 3.
Proof. repeat split. Qed.
Lemma neo_extra_accepted : names_model neo_extra "model" "NeoHookean" /\ verify_solid neo_extra = true /\ value_is neo_extra "Hk" 3.
Proof. repeat split. Qed.
Lemma linear_hardening_rejected c : names_model c "law" "LinearHardening" -> verify_hardening c = false.
Proof. intros E. apply law_unknown. intros s Es. unfold names_model in *. rewrite E in Es. injection Es as <-. split; discriminate. Qed.

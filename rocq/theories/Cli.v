(** * The command line and the phases of the executable (C71): infrastructure/cli.cpp, infrastructure/input.cpp, drivers/serac.cpp

    Simplifications: splitting argv into options (CLI11) is not modelled, only its checks; --help is not modelled.
    The time loop (C53, C70) is one action. *)
From Coq Require Import String Ascii List ZArith Reals Lia Bool.
From Coq Require Import DecimalString DecimalZ.
From Verif Require Import Prelude.
Import ListNotations.
Local Open Scope string_scope.
Local Open Scope list_scope.

(** ** options *)
(** what is on the command line, each option at most once *)
Record command := { c_input : option string; c_restart : option Z; c_docs : bool; c_output : option string; c_paraview : bool; c_unused : bool; c_version : bool }.
(** std::unordered_map<std::string, std::string> *)
Definition options := list (string * string).
Fixpoint lookup (k : string) (l : options) : option string :=
  match l with [] => None | (k', v) :: r => if String.eqb k k' then Some v else lookup k r end.

(** std::to_string(int) and std::stoi; of the latter only the part that reads back what the former wrote: no white space, no trailing characters *)
Definition to_string (z : Z) : string := NilZero.string_of_int (Z.to_int z).
Definition stoi (s : string) : outcome Z := match NilZero.int_of_string s with Some i => Ok (Z.of_int i) | None => Refused end.

(** input.cpp:78-93; axom::Path::baseName is what follows the last slash *)
Fixpoint after_last (c : ascii) (s : string) : option string :=
  match s with EmptyString => None | String a r => match after_last c r with Some x => Some x | None => if Ascii.eqb a c then Some r else None end end.
Fixpoint before_last (c : ascii) (s : string) : option string :=
  match s with EmptyString => None | String a r => match before_last c r with Some x => Some (String a x) | None => if Ascii.eqb a c then Some "" else None end end.
Definition base_name (path : string) : string := match after_last "/" path with Some b => b | None => path end.
Definition input_file_name (path : string) : string := let b := base_name path in match before_last "." b with Some s => s | None => b end.

(** cli.cpp:20-88.  [is_file]: CLI::ExistingFile; [int_max]: a number that is not an int is refused by CLI11 *)
Definition define_and_parse (is_file : string -> bool) (int_max : Z) (c : command) : outcome options :=
  let input_ok := match c_input c with Some f => is_file f | None => true end in
  let restart_ok := match c_restart c with Some z => (0 <? z)%Z && (z <=? int_max)%Z | None => true end in
  if negb (input_ok && restart_ok) then Refused
  else if c_version c then Ok [("version", "")]
  else match c_input c with
  | None | Some EmptyString => Refused
  | Some f =>
      let out := match c_output c with None | Some EmptyString => input_file_name f | Some o => o end in
      Ok ([("input-file", f)] ++ (match c_restart c with Some z => [("restart-cycle", to_string z)] | None => [] end)
          ++ (if c_docs c then [("create-input-file-docs", "")] else []) ++ (if c_unused c then [("print-unused", "")] else [])
          ++ [("output-directory", out)] ++ (if c_paraview c then [("paraview", ""); ("paraview-directory", (out ++ "_paraview")%string)] else []))
  end.

(** cli.cpp:100-128: the labels printed, with their values *)
Definition print_given (o : options) : list (string * string) :=
  flat_map (fun p => match lookup (fst p) o with Some v => [(snd p, v)] | None => [] end)
    [("create-input-file-docs", "Create Input File Docs"); ("input-file", "Input File"); ("output-directory", "Output Directory");
     ("paraview", "Enable ParaView output"); ("restart-cycle", "Restart Cycle"); ("version", "Print version")].

(** ** the executable *)
(** what it finds: files, the directory of a path (realpath, dirname), whether the input file verifies and which mesh file it names, and the
    time of each cycle saved in a directory *)
Record world := { w_is_file : string -> bool; w_exists : string -> bool; w_dir : string -> option string; w_verifies : string -> bool;
                  w_mesh_file : string -> option string; w_saved : string -> Z -> option R }.
Inductive action :=
| PrintAbout
| MakeDir (d : string)
| WriteFile (path : string)
| PrintUnused
| BuildMesh (file : option string)
| LoadState (dir : string) (cycle : Z)
| TimeLoop (cycle : Z) (t : R) (dir : string) (paraview : option string).
Definition join_path (dir file : string) : string := (dir ++ "/" ++ file)%string.

(** input.cpp:47-66 *)
Definition find_mesh (w : world) (mesh input : string) : outcome string :=
  if w_exists w mesh then Ok mesh
  else match w_dir w input with
  | None => Refused
  | Some d => if w_exists w (join_path d mesh) then Ok (join_path d mesh) else Refused
  end.
Definition getd (k : string) (o : options) : string := match lookup k o with Some v => v | None => "" end.
Definition has (k : string) (o : options) : bool := match lookup k o with Some _ => true | None => false end.

(** drivers/serac.cpp:246-429 *)
Definition run_main (w : world) (o : options) : outcome (list action) :=
  if has "version" o then Ok [PrintAbout]                                                              (* 256-260 *)
  else
    let input := getd "input-file" o in                                                                  (* 266-271 *)
    let out := getd "output-directory" o in                                                              (* 279-284 *)
    let pv := lookup "paraview-directory" o in                                                           (* 286-292 *)
    let dirs := MakeDir out :: match pv with Some d => [MakeDir d] | None => [] end in
    bindO (match lookup "restart-cycle" o with Some s => bindO (stoi s) (fun z => Ok (Some z)) | None => Ok None end) (fun restart =>   (* 295-298 *)
    if String.eqb out "" then Refused                                                                   (* 304, state_manager.cpp:125 *)
    else if negb (w_verifies w input) then Refused                                                       (* 307-308 *)
    else if has "create-input-file-docs" o then Ok (dirs ++ [WriteFile (join_path out "serac_input.rst")])         (* 311-316 *)
    else if has "print-unused" o then Ok (dirs ++ [PrintUnused])                                                  (* 319-330 *)
    else bindO (match restart with
      | None => bindO (match w_mesh_file w input with Some m => bindO (find_mesh w m input) (fun p => Ok (Some p)) | None => Ok None end)
                      (fun f => Ok (BuildMesh f, 0%Z, 0%R))                                               (* 345-353 *)
      | Some z => match w_saved w out z with Some t => Ok (LoadState out z, z, t) | None => Refused end                (* 354-358 *)
      end) (fun '(a, cycle, t) =>
    Ok (dirs ++ [WriteFile (join_path out "serac_input_values.json"); a; TimeLoop cycle t out pv; WriteFile (join_path out "summary.json")]))).   (* 333-334, 391-426 *)
Definition execute (int_max : Z) (w : world) (c : command) : outcome (list action) :=
  bindO (define_and_parse (w_is_file w) int_max c) (run_main w).

(** ** specification *)
Definition occurs (c : ascii) (s : string) : Prop := exists i, get i s = Some c.
(** the output directory a command asks for *)
Definition asked_output (c : command) (d : string) : Prop :=
  (c_output c = Some d /\ d <> "") \/ ((c_output c = None \/ c_output c = Some "") /\ exists f, c_input c = Some f /\ d = input_file_name f).

(** ** proofs: names *)
Lemma after_last_none c s : after_last c s = None <-> ~ occurs c s.
Proof.
  induction s as [|a r IH]; cbn [after_last]; [split; [intros _ [[|i] H]; discriminate|reflexivity]|]. split.
  - intros H [[|i] G]; cbn [get] in G.
    + injection G as ->. rewrite Ascii.eqb_refl in H. now destruct (after_last c r).
    + destruct (after_last c r); [discriminate|]. apply IH; [reflexivity|]. now exists i.
  - intros H. destruct (after_last c r) eqn:E.
    + apply IH. intros [i G]. apply H. now exists (S i).
    + destruct (Ascii.eqb_spec a c) as [->|]; [|reflexivity]. destruct H. now exists 0%nat.
Qed.
Lemma before_last_none c s : before_last c s = None <-> ~ occurs c s.
Proof.
  induction s as [|a r IH]; cbn [before_last]; [split; [intros _ [[|i] H]; discriminate|reflexivity]|]. split.
  - intros H [[|i] G]; cbn [get] in G.
    + injection G as ->. rewrite Ascii.eqb_refl in H. now destruct (before_last c r).
    + destruct (before_last c r); [discriminate|]. apply IH; [reflexivity|]. now exists i.
  - intros H. destruct (before_last c r) eqn:E.
    + assert (X : Some s = None); [|discriminate]. apply IH. intros [i G]. apply H. now exists (S i).
    + destruct (Ascii.eqb_spec a c) as [->|]; [|reflexivity]. destruct H. now exists 0%nat.
Qed.
Lemma after_last_app c p b : ~ occurs c b -> after_last c (p ++ String c b)%string = Some b.
Proof.
  intros H. induction p as [|a p IH]; cbn [append after_last].
  - apply after_last_none in H. rewrite H, Ascii.eqb_refl. reflexivity.
  - now rewrite IH.
Qed.
Lemma before_last_app c p b : ~ occurs c b -> before_last c (p ++ String c b)%string = Some p.
Proof.
  intros H. induction p as [|a p IH]; cbn [append before_last].
  - apply before_last_none in H. rewrite H, Ascii.eqb_refl. reflexivity.
  - now rewrite IH.
Qed.
Lemma occurs_app_r c p s : occurs c s -> occurs c (p ++ s)%string.
Proof. intros [i H]. induction p as [|a p IH]; [now exists i|]. destruct IH as [j Hj]. now exists (S j). Qed.
Theorem file_name_spec dir base : ~ occurs "/" base ->
  input_file_name base = input_file_name (dir ++ "/" ++ base)%string /\ (~ occurs "." base -> input_file_name base = base) /\
  (forall stem ext, base = (stem ++ "." ++ ext)%string -> ~ occurs "." ext -> input_file_name base = stem).
Proof.
  intros H. unfold input_file_name, base_name. change ("/" ++ base)%string with (String "/" base). rewrite after_last_app by exact H.
  assert (E : after_last "/" base = None) by now apply after_last_none. rewrite E. split; [reflexivity|]. split.
  - intros N. apply before_last_none in N. now rewrite N.
  - intros stem ext -> N. change ("." ++ ext)%string with (String "." ext). now rewrite before_last_app.
Qed.
Lemma to_string_stoi z : stoi (to_string z) = Ok z.
Proof. unfold stoi, to_string. rewrite NilZero.isi, DecimalZ.of_to; [reflexivity| |]; destruct z as [|p|p]; try discriminate; cbn; intros E; injection E as E; exact (DecimalPos.Unsigned.to_uint_nonnil p E). Qed.

(** ** proofs: options *)
Lemma parse_ok is_file int_max c o : define_and_parse is_file int_max c = Ok o ->
  (forall f, c_input c = Some f -> is_file f = true) /\ (forall z, c_restart c = Some z -> (0 < z <= int_max)%Z) /\
  ((c_version c = true /\ o = [("version", "")]) \/
   (c_version c = false /\ exists f out, c_input c = Some f /\ f <> "" /\ asked_output c out /\ has "version" o = false /\ lookup "input-file" o = Some f /\ lookup "output-directory" o = Some out /\
     lookup "restart-cycle" o = option_map to_string (c_restart c) /\ has "create-input-file-docs" o = c_docs c /\ has "print-unused" o = c_unused c /\ has "paraview" o = c_paraview c /\
     lookup "paraview-directory" o = if c_paraview c then Some (out ++ "_paraview")%string else None)).
Proof.
  unfold define_and_parse. intros H.
  destruct (match c_input c with Some f => is_file f | None => true end) eqn:Ei; [|discriminate].
  destruct (match c_restart c with Some z => (0 <? z)%Z && (z <=? int_max)%Z | None => true end) eqn:Er; [|discriminate]. cbn [andb negb] in H.
  split; [intros f Ef; now rewrite Ef in Ei|]. split. { intros z Ez. rewrite Ez in Er. apply andb_true_iff in Er. destruct Er as [A B]. apply Z.ltb_lt in A. apply Z.leb_le in B. lia. }
  destruct (c_version c) eqn:Ev; [injection H as <-; now left|]. right. split; [reflexivity|].
  destruct (c_input c) as [[|a f]|] eqn:Ec; try discriminate.
  set (out := match c_output c with None | Some EmptyString => input_file_name (String a f) | Some d => d end) in *. exists (String a f), out. split; [reflexivity|]. split; [discriminate|].
  split. { unfold out, asked_output. destruct (c_output c) as [[|b d]|]; [right|left|right]; eauto. split; [reflexivity|discriminate]. }
  injection H as <-. clearbody out. unfold has. destruct (c_restart c), (c_docs c), (c_unused c), (c_paraview c); cbn [app lookup option_map String.eqb Ascii.eqb Bool.eqb]; repeat split; reflexivity.
Qed.
Lemma parse_total is_file int_max c : define_and_parse is_file int_max c = Refused <->
  (exists f, c_input c = Some f /\ is_file f = false) \/ (exists z, c_restart c = Some z /\ ~ (0 < z <= int_max)%Z) \/ (c_version c = false /\ (c_input c = None \/ c_input c = Some "")).
Proof.
  unfold define_and_parse. split.
  - intros H. destruct (match c_input c with Some f => is_file f | None => true end) eqn:Ei.
    2: { left. destruct (c_input c) as [f|]; [eauto|discriminate]. }
    destruct (match c_restart c with Some z => (0 <? z)%Z && (z <=? int_max)%Z | None => true end) eqn:Er.
    2: { right. left. destruct (c_restart c) as [z|]; [|discriminate]. exists z. split; [reflexivity|]. intros [A B]. apply Z.ltb_lt in A. apply Z.leb_le in B. now rewrite A, B in Er. }
    cbn [andb negb] in H. right. right. destruct (c_version c); [discriminate|]. split; [reflexivity|]. destruct (c_input c) as [[|a f]|]; [now right|discriminate|now left].
  - intros [(f & E & F)|[(z & E & F)|(E & F)]].
    + now rewrite E, F.
    + rewrite E. assert (X : ((0 <? z)%Z && (z <=? int_max)%Z)%bool = false). { destruct (Z.ltb_spec 0 z), (Z.leb_spec z int_max); try reflexivity. destruct F; lia. } rewrite X, andb_false_r. reflexivity.
    + destruct (negb _); [reflexivity|]. rewrite E. destruct F as [F|F]; now rewrite F.
Qed.

(** ** proofs: phases *)
(** no mesh, no saved state, no time step, and no file but the documentation *)
Definition passive (out : option string) (a : action) : Prop :=
  match a with PrintAbout | PrintUnused | MakeDir _ => True | WriteFile p => exists d, out = Some d /\ p = join_path d "serac_input.rst" | _ => False end.
Theorem inspection int_max w c l : execute int_max w c = Ok l -> c_version c = true \/ c_docs c = true \/ c_unused c = true ->
  (c_version c = true -> l = [PrintAbout]) /\ exists d, Forall (passive d) l /\ (c_version c = false -> exists o, d = Some o /\ asked_output c o).
Proof.
  unfold execute. intros E H. destruct (define_and_parse _ _ _) as [o| |] eqn:P; [|discriminate|discriminate]. cbn [bindO] in E. apply parse_ok in P.
  destruct P as (_ & _ & [(V & ->)|(V & f & out & F1 & F2 & F3 & F4 & F5 & F6 & F7 & F8 & F9 & F10 & F11)]).
  - cbn in E. injection E as <-. split; [reflexivity|]. exists None. split; [repeat constructor|]. intros X; congruence.
  - split; [intros X; congruence|]. exists (Some out). split; [|intros _; eauto]. unfold run_main in E. rewrite F4, F7, F8, F9, F11 in E. unfold getd in E. rewrite F5, F6 in E.
    destruct H as [H|H]; [congruence|].
    assert (D : Forall (passive (Some out)) (MakeDir out :: match (if c_paraview c then Some (out ++ "_paraview")%string else None) with Some d => [MakeDir d] | None => [] end)) by (destruct (c_paraview c); repeat constructor).
    destruct (c_restart c) as [z|]; cbn [option_map] in E; [rewrite to_string_stoi in E|]; cbn [bindO] in E;
    (destruct (String.eqb out ""); [discriminate|]; destruct (negb (w_verifies w f)); [discriminate|]; destruct (c_docs c);
      [injection E as <-; refine (proj2 (Forall_app _ _ _) (conj D _)); repeat constructor; eexists; split; reflexivity|];
      destruct (c_unused c); [injection E as <-; refine (proj2 (Forall_app _ _ _) (conj D _)); repeat constructor|]; destruct H; discriminate).
Qed.
Theorem simulation int_max w c l : execute int_max w c = Ok l -> c_version c = false -> c_docs c = false -> c_unused c = false ->
  exists f out dirs a cycle t, c_input c = Some f /\ asked_output c out /\ out <> "" /\ w_verifies w f = true /\
    (dirs = if c_paraview c then [MakeDir out; MakeDir (out ++ "_paraview")%string] else [MakeDir out]) /\
    l = dirs ++ [WriteFile (join_path out "serac_input_values.json"); a; TimeLoop cycle t out (if c_paraview c then Some (out ++ "_paraview")%string else None); WriteFile (join_path out "summary.json")] /\
    match c_restart c with
    | Some z => a = LoadState out z /\ cycle = z /\ w_saved w out z = Some t
    | None => cycle = 0%Z /\ t = 0%R /\ match w_mesh_file w f with
              | None => a = BuildMesh None
              | Some m => exists p, a = BuildMesh (Some p) /\ w_exists w p = true /\ (p = m \/ (w_exists w m = false /\ exists d, w_dir w f = Some d /\ p = join_path d m)) end
    end.
Proof.
  unfold execute. intros E V Dc Du. destruct (define_and_parse _ _ _) as [o| |] eqn:P; [|discriminate|discriminate]. cbn [bindO] in E. apply parse_ok in P.
  destruct P as (_ & _ & [(V' & _)|(_ & f & out & F1 & F2 & F3 & F4 & F5 & F6 & F7 & F8 & F9 & F10 & F11)]); [congruence|].
  unfold run_main in E. rewrite F4, F7, F8, F9, F11, Dc, Du in E. unfold getd in E. rewrite F5, F6 in E. exists f, out.
  exists (if c_paraview c then [MakeDir out; MakeDir (out ++ "_paraview")%string] else [MakeDir out]).
  destruct (c_restart c) as [z|]; cbn [option_map] in E; [rewrite to_string_stoi in E|]; cbn [bindO] in E.
  - destruct (String.eqb_spec out ""); [discriminate|]. destruct (w_verifies w f) eqn:Ew; [|discriminate]. cbn [negb] in E. destruct (w_saved w out z) as [t|] eqn:Es; [|discriminate]. cbn [bindO] in E.
    injection E as <-. exists (LoadState out z), z, t. repeat split; auto. destruct (c_paraview c); reflexivity.
  - destruct (String.eqb_spec out ""); [discriminate|]. destruct (w_verifies w f) eqn:Ew; [|discriminate]. cbn [negb] in E.
    destruct (w_mesh_file w f) as [m|].
    + destruct (find_mesh w m f) as [p| |] eqn:Ef; cbn [bindO] in E; [|discriminate|discriminate]. injection E as <-. exists (BuildMesh (Some p)), 0%Z, 0%R. repeat split; auto; [destruct (c_paraview c); reflexivity|].
      exists p. split; [reflexivity|]. unfold find_mesh in Ef. destruct (w_exists w m) eqn:Em; [injection Ef as <-; auto|]. destruct (w_dir w f) as [d|]; [|discriminate].
      destruct (w_exists w (join_path d m)) eqn:Ej; [|discriminate]. injection Ef as <-. split; [exact Ej|]. right. eauto.
    + cbn [bindO] in E. injection E as <-. exists (BuildMesh None), 0%Z, 0%R. repeat split; auto. destruct (c_paraview c); reflexivity.
Qed.
(** nothing outside the two directories *)
Definition writes (a : action) : list string := match a with MakeDir d => [d] | WriteFile p => [p] | TimeLoop _ _ d pv => d :: match pv with Some p => [p] | None => [] end | _ => [] end.
Definition within (d p : string) : Prop := p = d \/ exists r, p = (d ++ "/" ++ r)%string.
Lemma Ok_inj {A} (a b : A) : Ok a = Ok b -> a = b.
Proof. now injection 1. Qed.
Theorem contained int_max w c l p : execute int_max w c = Ok l -> In p (flat_map writes l) -> exists d, asked_output c d /\ d <> "" /\ (within d p \/ (c_paraview c = true /\ p = (d ++ "_paraview")%string)).
Proof.
  unfold execute. intros E H. destruct (define_and_parse _ _ _) as [o| |] eqn:P; [|discriminate|discriminate]. cbn [bindO] in E. apply parse_ok in P.
  destruct P as (_ & _ & [(V & ->)|(V & f & out & F1 & F2 & F3 & F4 & F5 & F6 & F7 & F8 & F9 & F10 & F11)]); [cbn in E; injection E as <-; destruct H|].
  exists out. split; [exact F3|]. unfold run_main in E. rewrite F4, F7, F8, F9, F11 in E. unfold getd in E. rewrite F5, F6 in E.
  match type of E with bindO ?m _ = _ => destruct m as [rs| |]; [|discriminate|discriminate] end. cbn [bindO] in E.
  destruct (String.eqb_spec out ""); [discriminate|]. split; [assumption|]. destruct (negb _); [discriminate|].
  assert (W : forall q, within out (join_path out q)) by (intros q; right; now exists q). assert (W0 : within out out) by now left.
  assert (X : In p (flat_map writes (MakeDir out :: match (if c_paraview c then Some (out ++ "_paraview")%string else None) with Some d => [MakeDir d] | None => [] end)) -> within out p \/ c_paraview c = true /\ p = (out ++ "_paraview")%string).
  { destruct (c_paraview c); cbn [flat_map writes app In]; intros Y; repeat destruct Y as [Y|Y]; try contradiction; subst; auto. }
  destruct (c_docs c). { apply Ok_inj in E. subst l. rewrite flat_map_app, in_app_iff in H. destruct H as [H|H]; [auto|]. cbn in H. destruct H as [<-|[]]; auto. }
  destruct (c_unused c). { apply Ok_inj in E. subst l. rewrite flat_map_app, in_app_iff in H. destruct H as [H|H]; [auto|]. cbn in H. destruct H. }
  match type of E with bindO ?m _ = _ => destruct m as [[[a cy] t]| |] eqn:Ea; [|discriminate|discriminate] end. cbn [bindO] in E. apply Ok_inj in E. subst l.
  rewrite flat_map_app, in_app_iff in H. destruct H as [H|H]; [auto|]. cbn [flat_map] in H. rewrite !in_app_iff in H.
  assert (Wa : writes a = []). { destruct rs as [z|]; [destruct (w_saved w out z); [|discriminate]; injection Ea as <- _ _; reflexivity|]. match type of Ea with bindO ?m _ = _ => destruct m; [|discriminate|discriminate] end. cbn in Ea. injection Ea as <- _ _. reflexivity. }
  rewrite Wa in H. destruct (c_paraview c); cbn [writes In app] in H; repeat destruct H as [H|H]; try contradiction; subst; auto.
Qed.
(** no command is undefined *)
Theorem defined int_max w c : execute int_max w c <> UB.
Proof.
  unfold execute. destruct (define_and_parse _ _ _) as [o| |] eqn:P; cbn [bindO]; [|discriminate|].
  - unfold run_main. destruct (has "version" o); [discriminate|].
    match goal with |- bindO ?m _ <> _ => assert (M : m <> UB) end. { destruct (lookup "restart-cycle" o); [|discriminate]. unfold stoi. destruct (NilZero.int_of_string s); discriminate. }
    destruct (match lookup "restart-cycle" o with Some s => _ | None => _ end) as [rs| |]; [|discriminate|contradiction]. cbn [bindO].
    destruct (String.eqb _ ""); [discriminate|]. destruct (negb _); [discriminate|]. destruct (has _ o); [discriminate|]. destruct (has _ o); [discriminate|].
    destruct rs as [z|]; [destruct (w_saved _ _ _); discriminate|]. destruct (w_mesh_file _ _) as [m|]; [|discriminate]. unfold find_mesh.
    destruct (w_exists w m); [discriminate|]. destruct (w_dir _ _); [|discriminate]. destruct (w_exists w _); discriminate.
  - unfold define_and_parse in P. destruct (negb _); [discriminate|]. destruct (c_version c); [discriminate|]. destruct (c_input c) as [[|a f]|]; discriminate.
Qed.
(** a simulation is refused only when an option, the input file, the mesh file or the saved cycle is bad *)
Theorem accepted int_max w c f out : c_input c = Some f -> f <> "" -> w_is_file w f = true -> (forall z, c_restart c = Some z -> (0 < z <= int_max)%Z /\ w_saved w out z <> None) ->
  asked_output c out -> out <> "" -> w_verifies w f = true ->
  (c_restart c = None -> forall m, w_mesh_file w f = Some m -> w_exists w m = true \/ exists d, w_dir w f = Some d /\ w_exists w (join_path d m) = true) -> exists l, execute int_max w c = Ok l.
Proof.
  intros H1 H2 H3 H4 H5 H6 H7 H8. unfold execute. destruct (define_and_parse _ _ _) as [o| |] eqn:P; cbn [bindO].
  2: { apply parse_total in P. destruct P as [(g & A & B)|[(z & A & B)|(A & [B|B])]]; [congruence| |congruence|congruence]. destruct (H4 z A). contradiction. }
  2: { exfalso. unfold define_and_parse in P. destruct (negb _); [discriminate|]. destruct (c_version c); [discriminate|]. destruct (c_input c) as [[|a g]|]; discriminate. }
  apply parse_ok in P. destruct P as (_ & _ & [(V & ->)|(V & f' & out' & F1 & F2 & F3 & F4 & F5 & F6 & F7 & F8 & F9 & F10 & F11)]); [cbn; eauto|].
  assert (f' = f) by congruence. subst f'. assert (out' = out).
  { destruct F3 as [(A & A0)|(A & g & B & C)], H5 as [(A' & A0')|(A' & g' & B' & C')]; [congruence| | |congruence]; [destruct A'|destruct A]; congruence. } subst out'.
  unfold run_main. rewrite F4, F7, F8, F9, F11. unfold getd. rewrite F5, F6.
  destruct (c_restart c) as [z|]; cbn [option_map]; [rewrite to_string_stoi|]; cbn [bindO]; (destruct (String.eqb_spec out ""); [contradiction|]); rewrite H7; cbn [negb]; (destruct (c_docs c); [eauto|]); (destruct (c_unused c); [eauto|]).
  - destruct (H4 z eq_refl) as [_ S]. destruct (w_saved w out z); [cbn [bindO]; eauto|contradiction].
  - specialize (H8 eq_refl). destruct (w_mesh_file w f) as [m|]; [|cbn [bindO]; eauto]. unfold find_mesh. destruct (w_exists w m) eqn:Em; [cbn [bindO]; eauto|].
    destruct (H8 m eq_refl) as [X|(d & D & X)]; [congruence|]. rewrite D, X. cbn [bindO]. eauto.
Qed.
(** what is printed *)
Theorem printed o label v : In (label, v) (print_given o) <-> exists k, lookup k o = Some v /\
  In (k, label) [("create-input-file-docs", "Create Input File Docs"); ("input-file", "Input File"); ("output-directory", "Output Directory");
                 ("paraview", "Enable ParaView output"); ("restart-cycle", "Restart Cycle"); ("version", "Print version")].
Proof.
  unfold print_given. rewrite in_flat_map. split.
  - intros ((k & lb) & H & E). cbn [fst snd] in E. exists k. destruct (lookup k o) as [u|]; [|destruct E]. destruct E as [E|[]]. injection E as -> ->. split; [reflexivity|exact H].
  - intros (k & E & H). exists (k, label). split; [exact H|]. cbn [fst snd]. rewrite E. now left.
Qed.
Theorem unused_not_printed is_file int_max f : f <> "" -> is_file f = true -> exists c c' o o', c_unused c = true /\ c_unused c' = false /\
  define_and_parse is_file int_max c = Ok o /\ define_and_parse is_file int_max c' = Ok o' /\ print_given o = print_given o'.
Proof.
  intros Hf E. set (c := fun b => {| c_input := Some f; c_restart := None; c_docs := false; c_output := None; c_paraview := false; c_unused := b; c_version := false |}).
  exists (c true), (c false). do 2 eexists. split; [reflexivity|]. split; [reflexivity|]. unfold define_and_parse, c; cbn [c_input c_restart c_docs c_output c_paraview c_unused c_version]. rewrite E. destruct f as [|a f]; [contradiction|].
  cbn [andb negb]. split; [reflexivity|]. split; reflexivity.
Qed.

(** ** an example *)
Definition ex_world : world := {| w_is_file := String.eqb "runs/beam.lua"; w_exists := String.eqb "/home/u/runs/beam.mesh"; w_dir := fun _ => Some "/home/u/runs"; w_verifies := fun _ => true;
  w_mesh_file := fun _ => Some "beam.mesh"; w_saved := fun d z => if String.eqb d "beam" && (z =? 12)%Z then Some 3%R else None |}.
Definition ex_command (restart : option Z) : command := {| c_input := Some "runs/beam.lua"; c_restart := restart; c_docs := false; c_output := None; c_paraview := true; c_unused := false; c_version := false |}.
Lemma ex_fresh : execute 2147483647 ex_world (ex_command None) = Ok [MakeDir "beam"; MakeDir "beam_paraview"; WriteFile "beam/serac_input_values.json"; BuildMesh (Some "/home/u/runs/beam.mesh");
  TimeLoop 0 0 "beam" (Some "beam_paraview"); WriteFile "beam/summary.json"].
Proof. reflexivity. Qed.
Lemma ex_restart : execute 2147483647 ex_world (ex_command (Some 12%Z)) = Ok [MakeDir "beam"; MakeDir "beam_paraview"; WriteFile "beam/serac_input_values.json"; LoadState "beam" 12;
  TimeLoop 12 3 "beam" (Some "beam_paraview"); WriteFile "beam/summary.json"].
Proof. reflexivity. Qed.
Lemma ex_missing : execute 2147483647 ex_world (ex_command (Some 13%Z)) = Refused.
Proof. reflexivity. Qed.

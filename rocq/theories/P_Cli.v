(** * C71: the command line decides what a run does *)
From Coq Require Import String Ascii List ZArith Reals.
Import ListNotations.
From Verif Require Import Prelude Cli.
Local Open Scope string_scope.
Local Open Scope list_scope.

(** ** --version, --create-input-file-docs and --print-unused never touch a mesh or a saved state, take no step and write no file but the documentation, whatever else is given *)
Theorem C71_inspection : forall int_max w c l, execute int_max w c = Ok l -> c_version c = true \/ c_docs c = true \/ c_unused c = true ->
  (c_version c = true -> l = [PrintAbout]) /\ exists d, Forall (passive d) l /\ (c_version c = false -> exists o, d = Some o /\ asked_output c o).
Proof. exact inspection. Qed.
Print Assumptions C71_inspection.
(** ** otherwise: a restart loads exactly the cycle asked for and starts from it at its time, and any other run builds the mesh and starts at zero *)
Theorem C71_simulation : forall int_max w c l, execute int_max w c = Ok l -> c_version c = false -> c_docs c = false -> c_unused c = false ->
  exists f out dirs a cycle t, c_input c = Some f /\ asked_output c out /\ out <> "" /\ w_verifies w f = true /\
    (dirs = if c_paraview c then [MakeDir out; MakeDir (out ++ "_paraview")%string] else [MakeDir out]) /\
    l = dirs ++ [WriteFile (join_path out "serac_input_values.json"); a; TimeLoop cycle t out (if c_paraview c then Some (out ++ "_paraview")%string else None); WriteFile (join_path out "summary.json")] /\
    match c_restart c with
    | Some z => a = LoadState out z /\ cycle = z /\ w_saved w out z = Some t
    | None => cycle = 0%Z /\ t = 0%R /\ match w_mesh_file w f with
              | None => a = BuildMesh None
              | Some m => exists p, a = BuildMesh (Some p) /\ w_exists w p = true /\ (p = m \/ (w_exists w m = false /\ exists d, w_dir w f = Some d /\ p = join_path d m)) end
    end.
Proof. exact simulation. Qed.
Print Assumptions C71_simulation.
Example C71_fresh_run : execute 2147483647 ex_world (ex_command None) = Ok [MakeDir "beam"; MakeDir "beam_paraview"; WriteFile "beam/serac_input_values.json"; BuildMesh (Some "/home/u/runs/beam.mesh");
  TimeLoop 0 0 "beam" (Some "beam_paraview"); WriteFile "beam/summary.json"].
Proof. exact ex_fresh. Qed.
Example C71_restarted_run : execute 2147483647 ex_world (ex_command (Some 12%Z)) = Ok [MakeDir "beam"; MakeDir "beam_paraview"; WriteFile "beam/serac_input_values.json"; LoadState "beam" 12;
  TimeLoop 12 3 "beam" (Some "beam_paraview"); WriteFile "beam/summary.json"].
Proof. exact ex_restart. Qed.
(** nothing is written outside the output directory and the ParaView directory beside it *)
Theorem C71_contained : forall int_max w c l p, execute int_max w c = Ok l -> In p (flat_map writes l) ->
  exists d, asked_output c d /\ d <> "" /\ (within d p \/ (c_paraview c = true /\ p = (d ++ "_paraview")%string)).
Proof. exact contained. Qed.
Print Assumptions C71_contained.

(** ** refusals: exactly the bad command lines, and beyond them only bad input, mesh or restart files *)
Theorem C71_refused : forall is_file int_max c, define_and_parse is_file int_max c = Refused <->
  (exists f, c_input c = Some f /\ is_file f = false) \/ (exists z, c_restart c = Some z /\ ~ (0 < z <= int_max)%Z) \/ (c_version c = false /\ (c_input c = None \/ c_input c = Some "")).
Proof. exact parse_total. Qed.
Print Assumptions C71_refused.
Theorem C71_accepted : forall int_max w c f out, c_input c = Some f -> f <> "" -> w_is_file w f = true -> (forall z, c_restart c = Some z -> (0 < z <= int_max)%Z /\ w_saved w out z <> None) ->
  asked_output c out -> out <> "" -> w_verifies w f = true ->
  (c_restart c = None -> forall m, w_mesh_file w f = Some m -> w_exists w m = true \/ exists d, w_dir w f = Some d /\ w_exists w (join_path d m) = true) -> exists l, execute int_max w c = Ok l.
Proof. exact accepted. Qed.
Print Assumptions C71_accepted.
Theorem C71_defined : forall int_max w c, execute int_max w c <> UB.
Proof. exact defined. Qed.
Print Assumptions C71_defined.

(** ** the default output directory is the input file's name without its directory and last extension *)
Theorem C71_default_output : forall dir base, ~ occurs "/" base ->
  input_file_name base = input_file_name (dir ++ "/" ++ base)%string /\ (~ occurs "." base -> input_file_name base = base) /\
  (forall stem ext, base = (stem ++ "." ++ ext)%string -> ~ occurs "." ext -> input_file_name base = stem).
Proof. exact file_name_spec. Qed.
Print Assumptions C71_default_output.
Example C71_default_output_ex : input_file_name "a/b.c/beam.v2.lua" = "beam.v2".
Proof. reflexivity. Qed.

(** ** the options printed are those in effect, but for --print-unused *)
Theorem C71_printed : forall o label v, In (label, v) (print_given o) <-> exists k, lookup k o = Some v /\
  In (k, label) [("create-input-file-docs", "Create Input File Docs"); ("input-file", "Input File"); ("output-directory", "Output Directory");
                 ("paraview", "Enable ParaView output"); ("restart-cycle", "Restart Cycle"); ("version", "Print version")].
Proof. exact printed. Qed.
Print Assumptions C71_printed.
Theorem C71_print_unused_refuted : forall is_file int_max f, f <> "" -> is_file f = true -> exists c c' o o', c_unused c = true /\ c_unused c' = false /\
  define_and_parse is_file int_max c = Ok o /\ define_and_parse is_file int_max c' = Ok o' /\ print_given o = print_given o'.
Proof. exact unused_not_printed. Qed.
Print Assumptions C71_print_unused_refuted.

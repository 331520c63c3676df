(** Model of the command line of a BOUT++ program: src/bout++.cxx, parseCommandLineArgs, and the part of BoutInitialise which
    decides the files (the tree of options is that of IniModel).

    Simplifications: what is printed by the help switches is not modelled, nor whether they exit with failure (unknown type).
    The file system, MPI, PETSc, signals: not modelled; BOUT_USE_COLOR does not matter here. argc is the number of arguments. *)
From Coq Require Import Ascii String List Arith Bool ZArith.
From Verif Require Import Base StringsModel OptionsModel IniModel.
Import ListNotations.

(** include/bout/bout.hxx 107-119 (original_argv is a copy of the arguments, left out). *)
Record cla := mkCla { verbosity : Z; color_output : bool; data_dir : str; opt_file : str; set_file : str; log_file : str; cargv : list str }.
(** The program ends at once, a BoutException, or the arguments. *)
Inductive outcome := Exits | Bad | Args (a : cla).

(** The names given to handleFactoryHelp, lower case, and the plural (bout++.cxx 412-419, 343-346; type_name in the factories). *)
Definition factories : list (str * str) :=
  map (fun p => (chars (fst p), chars (snd p)))
    [("solver", "s"); ("laplacian", "s"); ("laplacexz", "s"); ("invertpar", "s"); ("rkscheme", "s"); ("mesh", "es");
     ("xzinterpolation", "s"); ("zinterpolation", "s")]%string.
(** 340-357; [last]: this is the last argument. None: go on. *)
Fixpoint factory_help (fs : list (str * str)) (arg : str) (last : bool) : option outcome :=
  match fs with
  | [] => None
  | (name, plural) :: fs' =>
      if str_eqb arg (chars "--list-" ++ name ++ plural) then Some Exits
      else if str_eqb arg (chars "--help-" ++ name) then Some (if last then Bad else Exits)
      else factory_help fs' arg last
  end.
(** 362-420: the first loop. *)
Fixpoint early (args : list str) : option outcome :=
  match args with
  | [] => None
  | a :: rest =>
      if str_eqb a (chars "-h") || str_eqb a (chars "--help") then Some Exits
      else if str_eqb a (chars "--print-config") then Some Exits
      else match factory_help factories a (match rest with [] => true | _ => false end) with
           | Some r => Some r
           | None => early rest
           end
  end.
Definition push (st : cla) (l : list str) : cla := mkCla (verbosity st) (color_output st) (data_dir st) (opt_file st) (set_file st) (log_file st) (cargv st ++ l).
(** 430-486: the second loop, on the arguments that are left; cargv: the arguments already done, changed. *)
Fixpoint scan (fuel : nat) (args : list str) (st : cla) : outcome :=
  match fuel with
  | O => Bad
  | S f =>
    match args with
    | [] => Args st
    | a :: rest =>
        if str_eqb a (chars "-d") then
          match rest with
          | [] => Bad
          | v :: rest' => scan f rest' (push (mkCla (verbosity st) (color_output st) v (opt_file st) (set_file st) (log_file st) (cargv st)) [chars "datadir="; v])
          end
        else if str_eqb a (chars "-f") then
          match rest with
          | [] => Bad
          | v :: rest' => scan f rest' (push (mkCla (verbosity st) (color_output st) (data_dir st) v (set_file st) (log_file st) (cargv st)) [chars "optionfile="; v])
          end
        else if str_eqb a (chars "-o") then
          match rest with
          | [] => Bad
          | v :: rest' => scan f rest' (push (mkCla (verbosity st) (color_output st) (data_dir st) (opt_file st) v (log_file st) (cargv st)) [chars "settingsfile="; v])
          end
        else if str_eqb a (chars "-l") || str_eqb a (chars "--log") then
          match rest with
          | [] => Bad
          | v :: rest' => scan f rest' (push (mkCla (verbosity st) (color_output st) (data_dir st) (opt_file st) (set_file st) v (cargv st)) [chars "logfile="; v])
          end
        else if str_eqb a (chars "-v") || str_eqb a (chars "--verbose") then
          scan f rest (push (mkCla (verbosity st + 1) (color_output st) (data_dir st) (opt_file st) (set_file st) (log_file st) (cargv st)) [[]])
        else if str_eqb a (chars "-q") || str_eqb a (chars "--quiet") then
          scan f rest (push (mkCla (verbosity st - 1) (color_output st) (data_dir st) (opt_file st) (set_file st) (log_file st) (cargv st)) [[]])
        else if str_eqb a (chars "-c") || str_eqb a (chars "--color") then
          scan f rest (push (mkCla (verbosity st) true (data_dir st) (opt_file st) (set_file st) (log_file st) (cargv st)) [[]])
        else scan f rest (push st [a])
    end
  end.
Definition erase (l : list str) : list str := filter (fun s => match s with [] => false | _ => true end) l.
(** 359-498; argv with the program first. *)
Definition parseCommandLineArgs (argv : list str) : outcome :=
  match early (tl argv) with
  | Some r => r
  | None =>
      match scan (S (List.length argv)) (tl argv) (mkCla 4 false (chars "data") (chars "BOUT.inp") (chars "BOUT.settings") (chars "BOUT.log") (firstn 1 argv)) with
      | Args st =>
          if str_eqb (set_file st) (opt_file st) then Bad
          else Args (mkCla (verbosity st) (color_output st) (data_dir st) (opt_file st) (set_file st) (log_file st) (erase (cargv st)))
      | r => r
      end
  end.

(** Options::withDefault<std::string> (options.hxx 506-531): the text of the value, or the default if there is none (utils.hxx
    562: a bool is true or false); the check of earlier defaults is left out (there are none yet). *)
Definition text_or (o : tree) (name : str) (d : str) : str :=
  match find_child name (kids o) with
  | Some c => if i_sect (inf c) then d else
              match i_val (inf c) with Some (VS s) => s | Some (VB true) => chars "true" | Some (VB false) => chars "false" | None => d end
  | None => d
  end.
(** 138-192 of BoutInitialise: [inp dir name] is the text of a file. The files used: the settings are read from one; the log is
    in log_dir; then the settings are written to another. [DEFAULT_DIR] is data. *)
Record files := mkFiles { read_dir : str; read_file : str; log_dir : str; written_dir : str; written_file : str }.
Definition BoutInitialise (inp : str -> str -> str) (argv : list str) (root : tree) : res (tree * files) :=
  match parseCommandLineArgs argv with
  | Args a =>
      match read (data_dir a ++ chars "/" ++ opt_file a) (inp (data_dir a) (opt_file a)) root with
      | (o, Ok _) =>
          match parseCommandLine (cargv a) o with
          | (o', Ok _) =>
              Ok (o', mkFiles (data_dir a) (opt_file a) (data_dir a) (text_or o' (chars "datadir") (chars "data")) (text_or o' (chars "settingsfile") (set_file a)))
          | _ => Throw
          end
      | _ => Throw
      end
  | _ => Throw
  end.

(** Specification of the command line: what the user writes, and what it asks for. *)
From Coq Require Import Ascii String List Arith Bool ZArith.
From Verif Require Import Base StringsModel OptionsModel OptionsSpec IniModel IniSpec CmdlineModel.
Import ListNotations.

(** What stands on the command line after the program: switches, in the short or the long form, and other arguments. *)
Inductive word :=
| Dir (v : str) | Input (v : str) | Settings (v : str) | Log (long : bool) (v : str)
| Louder (long : bool) | Quieter (long : bool) | Color (long : bool) | Other (a : str).
Definition written_as (w : word) : list str :=
  match w with
  | Dir v => [chars "-d"; v] | Input v => [chars "-f"; v] | Settings v => [chars "-o"; v]
  | Log long v => [chars (if long then "--log" else "-l"); v]
  | Louder long => [chars (if long then "--verbose" else "-v")] | Quieter long => [chars (if long then "--quiet" else "-q")]
  | Color long => [chars (if long then "--color" else "-c")]
  | Other a => [a]
  end.
Definition switches : list str := map chars ["-d"; "-f"; "-o"; "-l"; "--log"; "-v"; "--verbose"; "-q"; "--quiet"; "-c"; "--color"]%string.
Definition with_value : list str := map chars ["-d"; "-f"; "-o"; "-l"; "--log"]%string.
(** Other arguments are not switches. *)
Definition proper (w : word) : Prop := match w with Other a => ~ In a switches | _ => True end.
(** Words that make the program print something and end. *)
Definition help_words : list str :=
  map chars ["-h"; "--help"; "--print-config"; "--list-solvers"; "--list-laplacians"; "--list-laplacexzs"; "--list-invertpars";
             "--list-rkschemes"; "--list-meshes"; "--list-xzinterpolations"; "--list-zinterpolations"]%string.
(** The same, followed by the name of a type. *)
Definition help_on : list str :=
  map chars ["--help-solver"; "--help-laplacian"; "--help-laplacexz"; "--help-invertpar"; "--help-rkscheme"; "--help-mesh";
             "--help-xzinterpolation"; "--help-zinterpolation"]%string.

(** The last value given, or the default. *)
Fixpoint last_given (sel : word -> option str) (d : str) (ws : list word) : str :=
  match ws with [] => d | w :: ws' => last_given sel (match sel w with Some v => v | None => d end) ws' end.
Definition dir_of (w : word) : option str := match w with Dir v => Some v | _ => None end.
Definition input_of (w : word) : option str := match w with Input v => Some v | _ => None end.
Definition settings_of (w : word) : option str := match w with Settings v => Some v | _ => None end.
Definition log_of (w : word) : option str := match w with Log _ v => Some v | _ => None end.
Definition louder (w : word) : bool := match w with Louder _ => true | _ => false end.
Definition quieter (w : word) : bool := match w with Quieter _ => true | _ => false end.
Definition colored (w : word) : bool := match w with Color _ => true | _ => false end.
Definition count (p : word -> bool) (ws : list word) : Z := Z.of_nat (List.length (filter p ws)).
(** What is handed on to the options: the switches with a value as settings, the other arguments unchanged. *)
Definition handed_on (w : word) : list str :=
  match w with
  | Dir v => [chars "datadir="; v] | Input v => [chars "optionfile="; v] | Settings v => [chars "settingsfile="; v]
  | Log _ v => [chars "logfile="; v] | Other a => [a] | _ => []
  end.
Definition nonempty (s : str) : bool := match s with [] => false | _ => true end.

(** ** The settings which a command line makes. Segments: a switch, or other arguments that make settings (IniSpec.commands). *)
Inductive segment := Switch (w : word) | Sets (acts : list action) (args : list str).
Definition good_segment (s : segment) : Prop :=
  match s with
  | Switch (Other _) => False
  | Switch (Dir v) | Switch (Input v) | Switch (Settings v) | Switch (Log _ v) => cmd_value v
  | Switch _ => True
  | Sets acts args => commands acts args /\ Forall (fun a => ~ In a switches) args
  end.
Definition segment_words (s : segment) : list word := match s with Switch w => [w] | Sets _ args => map Other args end.
Definition makes (s : segment) : list action :=
  match s with
  | Switch (Dir v) => [Put [chars "datadir"] (VS v)] | Switch (Input v) => [Put [chars "optionfile"] (VS v)]
  | Switch (Settings v) => [Put [chars "settingsfile"] (VS v)] | Switch (Log _ v) => [Put [chars "logfile"] (VS v)]
  | Switch _ => []
  | Sets acts _ => acts
  end.
(** Arguments as typed. *)
Definition typed (ss : list segment) : list str := flat_map written_as (flat_map segment_words ss).

(** Model of the choice and parsing of boundary conditions: /repo/src/mesh/boundary_factory.cxx and FieldData::setBoundary
    (/repo/src/field/field_data.cxx 97-161). An operation object is the name it was registered under and what it was cloned
    with: what the standard operations do with their arguments is not modelled here (values: C31). The Options tree is a
    function from section and key to the text that is set there (C13, C16). Ownership of the objects is not modelled. *)
From Coq Require Import Ascii String List ZArith Bool.
From Verif Require Import Base StringsModel OptionsModel.
Import ListNotations.
Open Scope Z_scope.

(** boundary_op.hxx: an object made by clone (64-72) or cloneMod (89). [par]: a BoundaryOpPar. *)
Inductive bop :=
| BOp (par : bool) (name : str) (args : list str) (kws : list (str * str))
| BMod (name : str) (op : bop) (args : list str).
(** opmap, modmap, par_opmap by their keys (lower case); [takes_kw]: operations overriding the clone with keywords. *)
Record factory := mkfac { opmap : list str; modmap : list str; par_opmap : list str; takes_kw : str -> bool }.
Definition known (s : str) (l : list str) : bool := existsb (str_eqb (lowercase s)) l.
(** boundary_factory.cxx:367-391 findBoundaryOp, findBoundaryMod, findBoundaryOpPar. *)
Definition findOp (F : factory) (s : str) : bool := known s (opmap F).
Definition findMod (F : factory) (s : str) : bool := known s (modmap F).
Definition findPar (F : factory) (s : str) : bool := known s (par_opmap F).
(** 327-365 add, addMod (a name in use is refused with a message). *)
Definition add_op (n : str) (F : factory) : factory :=
  if findMod F n || findOp F n then F else mkfac (lowercase n :: opmap F) (modmap F) (par_opmap F) (takes_kw F).
Definition add_par (n : str) (F : factory) : factory :=
  if findPar F n then F else mkfac (opmap F) (modmap F) (lowercase n :: par_opmap F) (takes_kw F).
Definition add_mod (n : str) (F : factory) : factory :=
  if findMod F n || findOp F n then F else mkfac (opmap F) (lowercase n :: modmap F) (par_opmap F) (takes_kw F).
(** 18-48 BoundaryFactory(): none of the standard operations takes keywords. *)
Definition standard_factory : factory :=
  fold_left (fun F n => add_par (chars n) F) ["parallel_dirichlet"; "parallel_dirichlet_O3"; "parallel_dirichlet_interp"; "parallel_neumann"]%string
  (fold_left (fun F n => add_mod (chars n) F) ["relax"; "width"; "toFieldAligned"; "fromFieldAligned"]%string
  (fold_left (fun F n => add_op (chars n) F)
    ["dirichlet"; "dirichlet_o2"; "dirichlet_o3"; "dirichlet_o4"; "dirichlet_4thorder"; "neumann"; "neumann_O2"; "neumann_4thorder"; "neumann_O4";
     "neumannpar"; "neumann_nonorthogonal"; "robin"; "constgradient"; "zerolaplace"; "zerolaplace2"; "constlaplace"; "free"; "free_o2"; "free_o3"]%string
    (mkfac [] [] [] (fun _ => false)))).

(** The clone functions: boundary_op.hxx:64-72 (keywords an operation does not take are an error),
    parallel_boundary_op.hxx:35-40 (keywords are dropped unless taken). *)
Definition clone_op (F : factory) (n : str) (args : list str) (kws : list (str * str)) : res (option bop) :=
  match kws with
  | [] => Ok (Some (BOp false n args []))
  | _ => if takes_kw F n then Ok (Some (BOp false n args kws)) else Throw
  end.
Definition clone_par (F : factory) (n : str) (args : list str) (kws : list (str * str)) : res (option bop) :=
  Ok (Some (BOp true n args (if takes_kw F n then kws else []))).

Definition is (a b : ascii) : bool := Ascii.eqb a b.
Definition opening (c : ascii) : bool := is c "(" || is c "[" || is c "<".
Definition closing (c : ascii) : bool := is c ")" || is c "]" || is c ">".
(** 127-165: the pieces of the argument between commas outside of brackets; [cur] is the piece so far, reversed. *)
Fixpoint pieces (level : Z) (cur : str) (arg : str) : list str :=
  match arg with
  | [] => [rev cur]
  | c :: r =>
      if opening c then pieces (level + 1) (c :: cur) r
      else if closing c then pieces (level - 1) (c :: cur) r
      else if is c "," && (level =? 0) then rev cur :: pieces level [] r
      else pieces level (c :: cur) r
  end.
(** std::map<string, string>::operator[] = . *)
Fixpoint kw_set (k v : str) (l : list (str * str)) : list (str * str) :=
  match l with
  | [] => [(k, v)]
  | (k', v') :: l' => if str_eqb k k' then (k, v) :: l' else (k', v') :: kw_set k v l'
  end.
(** 147-157, 166-173: a piece with a = sign anywhere is a keyword. *)
Definition add_piece (s : str) (a : list str * list (str * str)) : list str * list (str * str) :=
  match find_first (is "=") s 0 with
  | Some p => (fst a, kw_set (trim (firstn p s) ws_trim) (trim (skipn (p + 1) s) ws_trim) (snd a))
  | None => (fst a ++ [trim s ws_trim], snd a)
  end.
Definition split_args (arg : str) : list str * list (str * str) := fold_left (fun a s => add_piece s a) (pieces 0 [] arg) ([], []).

(** 80-210 create; [par] is region->isParallel, None is a null pointer. list::front of an empty list is UB. *)
Fixpoint create_ (fuel : nat) (F : factory) (par : bool) (name : str) : res (option bop) :=
  match fuel with
  | O => UB
  | S fuel =>
    match find_first (is "(") name 0 with
    | None =>
        if str_eqb name (chars "null") || str_eqb name (chars "none") then Ok None else
        let n := trim name ws_trim in
        if par then if findPar F n then clone_par F (lowercase n) [] [] else Throw
        else if findOp F n then clone_op F (lowercase n) [] [] else Throw
    | Some pos =>
        let func := trim (firstn pos name) ws_trim in
        let rest := skipn (pos + 1) name in
        (* the length pos2 - pos - 1 is unsigned: to the end of the string if there is no bracket or it comes first *)
        let arg := trim (match find_last (is ")") name 0 None with
                         | Some pos2 => if (pos <? pos2)%nat then firstn (pos2 - pos - 1) rest else rest
                         | None => rest end) ws_trim in
        let (arglist, keywords) := split_args arg in
        if findMod F func then
          match arglist with
          | [] => UB
          | a :: arglist' =>
              do op <- create_ fuel F par a;
              match op with
              | None => Ok None
              | Some op => if par then Ok None (* dynamic_cast<BoundaryOp> of a BoundaryOpPar *) else Ok (Some (BMod (lowercase func) op arglist'))
              end
          end
        else if par then if findPar F func then clone_par F (lowercase func) arglist keywords else Throw
        else if findOp F func then clone_op F (lowercase func) arglist keywords else Throw
    end
  end.
Definition create (F : factory) (par : bool) (name : str) : res (option bop) := create_ (S (List.length name)) F par name.

(** 216-321 createFromOptions. *)
Inductive bndry_loc := XIN | XOUT | YDOWN | YUP | FWD_XIN | FWD_XOUT | BKWD_XIN | BKWD_XOUT | OTHER.
Definition side (l : bndry_loc) : str :=
  chars (match l with XIN => "xin" | XOUT => "xout" | YDOWN => "ydown" | YUP => "yup" | FWD_XIN => "par_yup_xin" | FWD_XOUT => "par_yup_xout"
         | BKWD_XIN => "par_ydown_xin" | BKWD_XOUT => "par_ydown_xout" | OTHER => "all" end)%string.
Record bregion := mkbreg { br_label : str; br_loc : bndry_loc; br_par : bool }.
Definition bndry_ (s : str) : str := chars "bndry_" ++ s.
Definition settings := str -> str -> option str.
Definition createFromOptions (F : factory) (S : settings) (var : str) (r : bregion) : res (option bop) :=
  let all := if br_par r then bndry_ (chars "par_all") else bndry_ (chars "all") in
  match S var (bndry_ (br_label r)) with Some s => create F (br_par r) s | None =>
  match S var (bndry_ (side (br_loc r))) with Some s => create F (br_par r) s | None =>
  match S var all with Some s => create F (br_par r) s | None =>
  match S (chars "all") (bndry_ (br_label r)) with Some s => create F (br_par r) s | None =>
  match S (chars "all") (bndry_ (side (br_loc r))) with Some s => create F (br_par r) s | None =>
  create F (br_par r) (match S (chars "all") all with Some s => s | None => if br_par r then chars "parallel_dirichlet" else chars "dirichlet" end)
  end end end end end.
(** field_data.cxx:137-161 setBoundary: the operations of the regions, those that are null left out. *)
Fixpoint set_regions (F : factory) (S : settings) (var : str) (rs : list bregion) : res (list (bregion * bop)) :=
  match rs with
  | [] => Ok []
  | r :: rs' => do op <- createFromOptions F S var r; do l <- set_regions F S var rs';
                Ok (match op with Some o => (r, o) :: l | None => l end)
  end.
(** 97-126 markBoundariesAsConditionallyUsed: the keys marked in the sections of the variable and [all]. *)
Definition marked (possible : list str) : list str :=
  map bndry_ (possible ++ map chars ["xin"; "xout"; "ydown"; "yup"; "par_yup"; "par_ydown"; "all"]%string).

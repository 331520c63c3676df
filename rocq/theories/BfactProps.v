(** Property theorems C73 (boundary settings) and C74 (which setting counts). *)
From Coq Require Import Ascii String List ZArith Bool Lia.
From Verif Require Import Base StringsModel StringsSpec IniSpec BfactModel BfactSpec BfactProofs.
Import ListNotations.
Open Scope Z_scope.

(** ** C73. A setting written with any blanks, brackets in its arguments and any depth of modifiers is understood as written;
    names do not depend on case. *)
Theorem C73_understood F s t : spells s t -> registered F s -> no_nested_keywords s ->
  exists b, create F false t = Ok (Some b) /\ means false s b.
Proof. intros SP RG NK. apply (understood F s t _ SP RG NK). lia. Qed.
Theorem C73_parallel F n a t : spells (Cond n a) t -> In (lowercase n) (par_opmap F) -> ~ In (lowercase n) (modmap F) ->
  keywords_of (Cond n a) = [] \/ takes_kw F (lowercase n) = true ->
  exists b, create F true t = Ok (Some b) /\ means true (Cond n a) b.
Proof. exact (understood_par F n a t). Qed.
(** Unknown names are an error at any depth. *)
Theorem C73_unknown F s t : spells s t -> unknown F s -> no_nested_keywords s -> create F false t = Throw.
Proof. intros SP RG NK. apply (rejected F s t _ SP RG NK). lia. Qed.
(** The setting means one thing. *)
Theorem C73_none F par : create F par (chars "none") = Ok None /\ create F par (chars "null") = Ok None.
Proof. split; reflexivity. Qed.
(** Keywords inside of a modifier: the = is taken for one of the modifier, which is left without its operation. *)
Theorem C73_nested_keywords_refuted : exists F s t, spells s t /\ registered F s /\ create F false t = UB.
Proof.
  set (F := mkfac [chars "mine"] [chars "relax"] [] (fun _ => true)).
  exists F, (Modified (chars "relax") (Cond (chars "mine") (Some [Key (chars "w") (chars "2")])) []), (chars "relax(mine(w=2))").
  assert (W : forall s, s <> [] -> bare ws_trim s -> Forall (fun c => ~ In c ["("; ")"; "["; "]"; "<"; ">"; ","; "="]%char) s -> word s) by (intros; split; auto).
  assert (P : forall s, pad ws_trim s s) by (intros s; exists [], []; rewrite app_nil_r; auto).
  split; [|split].
  - change (chars "relax(mine(w=2))") with (chars "relax" ++ "("%char :: join ","%char [chars "mine" ++ "("%char :: join ","%char [chars "w" ++ "="%char :: chars "2"] ++ ")"%char :: []] ++ ")"%char :: []).
    apply (sp_mod (chars "relax") (Cond (chars "mine") (Some [Key (chars "w") (chars "2")])) [] (chars "relax") (chars "mine" ++ "("%char :: join ","%char [chars "w" ++ "="%char :: chars "2"] ++ ")"%char :: []) [] []).
    + apply W; [discriminate|split; [cbn; intuition discriminate|right; exists (chars "rela"), "x"%char; split; [reflexivity|cbn; intuition discriminate]]|repeat constructor; cbn; intuition discriminate].
    + apply P.
    + apply sp_args; [| |discriminate| |constructor].
      * apply W; [discriminate|split; [cbn; intuition discriminate|right; exists (chars "min"), "e"%char; split; [reflexivity|cbn; intuition discriminate]]|repeat constructor; cbn; intuition discriminate].
      * apply P.
      * constructor; [|constructor]. apply spa_key; try apply P; try reflexivity.
        -- split; [cbn; intuition discriminate|right; exists [], "w"%char; split; [reflexivity|cbn; intuition discriminate]].
        -- split; [cbn; intuition discriminate|right; exists [], "2"%char; split; [reflexivity|cbn; intuition discriminate]].
        -- cbn. intuition discriminate.
    + constructor.
    + constructor.
  - vm_compute. intuition (try discriminate; auto 30).
  - vm_compute. reflexivity.
Qed.
(** A modifier on a parallel boundary is accepted and no condition is set; keywords of a modifier are dropped. *)
Theorem C73_parallel_modifier_refuted :
  create standard_factory true (chars "relax(parallel_dirichlet(1), 10)") = Ok None /\
  create standard_factory false (chars "relax(dirichlet(1), rate=10)") = create standard_factory false (chars "relax(dirichlet(1))").
Proof. split; vm_compute; reflexivity. Qed.
Print Assumptions C73_understood.
Print Assumptions C73_parallel.
Print Assumptions C73_unknown.
Print Assumptions C73_none.
Print Assumptions C73_nested_keywords_refuted.
Print Assumptions C73_parallel_modifier_refuted.
(** Non-vacuity, with the standard conditions. *)
Example C73_case : create standard_factory false (chars "Relax( width( Dirichlet_O3( gauss(x - 0.5, [y]) + t ) , 4) ,10 ) ") =
  Ok (Some (BMod (chars "relax") (BMod (chars "width") (BOp false (chars "dirichlet_o3") [chars "gauss(x - 0.5, [y]) + t"] []) [chars "4"]) [chars "10"])) /\
  create standard_factory false (chars "robin(1, 2, 3)") = Ok (Some (BOp false (chars "robin") [chars "1"; chars "2"; chars "3"] [])) /\
  create standard_factory false (chars "dirchlet(1)") = Throw /\
  exists t, t = chars " robin ( 1,x*(y, 2) ) " /\ spells (Cond (chars "robin") (Some [Pos (chars "1"); Pos (chars "x*(y, 2)")])) t /\
  registered standard_factory (Cond (chars "robin") (Some [Pos (chars "1"); Pos (chars "x*(y, 2)")])).
Proof.
  split; [vm_compute; reflexivity|]. split; [vm_compute; reflexivity|]. split; [vm_compute; reflexivity|]. eexists. split; [reflexivity|]. split.
  - change (chars " robin ( 1,x*(y, 2) ) ") with (chars " robin " ++ "("%char :: join ","%char [chars " 1"; chars "x*(y, 2) "] ++ ")"%char :: chars " ").
    apply sp_args.
    + split; [discriminate|]. split; [split; [cbn; intuition discriminate|right; exists (chars "robi"), "n"%char; split; [reflexivity|cbn; intuition discriminate]]|repeat constructor; cbn; intuition discriminate].
    + exists [" "%char], [" "%char]. split; [reflexivity|]. split; repeat constructor.
    + discriminate.
    + constructor; [|constructor; [|constructor]].
      * apply spa_pos; [split; [cbn; intuition discriminate|right; exists [], "1"%char; split; [reflexivity|cbn; intuition discriminate]]|reflexivity|cbn; intuition discriminate|].
        exists [" "%char], []. split; [reflexivity|]. split; repeat constructor.
      * apply spa_pos; [split; [cbn; intuition discriminate|right; exists (chars "x*(y, 2"), ")"%char; split; [reflexivity|cbn; intuition discriminate]]|reflexivity|cbn; intuition discriminate|].
        exists [], [" "%char]. split; [reflexivity|]. split; repeat constructor.
    + repeat constructor.
  - vm_compute. intuition (try discriminate; auto 30).
Qed.

(** ** C74. The most specific setting counts: by label, by side, for all boundaries; of the variable, then of [all]; the
    default is dirichlet (parallel_dirichlet). Fields get the conditions of their regions in order. *)
Theorem C74_lookup F S var r : exists t, chosen S var r t /\ (forall t', chosen S var r t' -> t' = t) /\ createFromOptions F S var r = create F (br_par r) t.
Proof.
  destruct (chosen_unique S var r) as (t & A & B). exists t. split; [exact A|]. split; [|apply B]. intros t' H. exact (chosen_fun _ _ _ _ _ H A).
Qed.
Theorem C74_setBoundary F S var rs l : set_regions F S var rs = Ok l <->
  exists ops, Forall2 (fun r o => exists t, chosen S var r t /\ create F (br_par r) t = Ok o) rs ops /\
    l = flat_map (fun ro => match snd ro with Some o => [(fst ro, o)] | None => [] end) (combine rs ops).
Proof. apply set_regions_spec. Qed.
(** Settings of regions that exist on other processors only are not reported as unused: every key that a perpendicular
    region with a possible label consults is marked. *)
Theorem C74_marked possible var r s k : br_par r = false -> In (br_label r) possible -> In (br_loc r) [XIN; XOUT; YDOWN; YUP; OTHER] ->
  In (s, k) (consulted var r) -> In k (marked possible) /\ (s = var \/ s = chars "all").
Proof.
  intros HP HL HLoc H. unfold consulted in H. rewrite HP in H. cbv zeta iota in H.
  assert (A : forall x, In x (possible ++ map chars ["xin"; "xout"; "ydown"; "yup"; "par_yup"; "par_ydown"; "all"]%string) -> In (bndry_ x) (marked possible)) by (intros x Hx; unfold marked; apply in_map; exact Hx).
  assert (K1 : In (bndry_ (br_label r)) (marked possible)) by (apply A, in_app_iff; left; exact HL).
  assert (K2 : In (bndry_ (chars "all")) (marked possible)) by (apply A, in_app_iff; right; apply in_map; cbn [In]; tauto).
  assert (K3 : In (bndry_ (side (br_loc r))) (marked possible)).
  { apply A, in_app_iff. right. unfold side. apply in_map. cbn [In] in *. destruct HLoc as [<-|[<-|[<-|[<-|[<-|[]]]]]]; tauto. }
  cbn [In] in H. repeat (destruct H as [H|H]; [injection H as <- <-; auto|]). destruct H.
Qed.
(** Those of parallel regions are not. *)
Theorem C74_marked_refuted : exists r, br_par r = true /\ forall possible, ~ In (chars "par_all") possible -> ~ In (side (br_loc r)) possible ->
  ~ In (bndry_ (side (br_loc r))) (marked possible) /\ ~ In (bndry_ (chars "par_all")) (marked possible).
Proof.
  exists (mkbreg (chars "FCI_fwd") FWD_XIN true). split; [reflexivity|]. intros possible N1 N2.
  assert (A : forall x, ~ In x possible -> ~ In x (map chars ["xin"; "xout"; "ydown"; "yup"; "par_yup"; "par_ydown"; "all"]%string) -> ~ In (bndry_ x) (marked possible)).
  { intros x H1 H2 H. unfold marked in H. apply in_map_iff in H. destruct H as (y & E & H). unfold bndry_ in E. apply app_inv_head in E. subst y.
    apply in_app_iff in H. destruct H; contradiction. }
  split; apply A; auto; vm_compute; intuition discriminate.
Qed.
Print Assumptions C74_lookup.
Print Assumptions C74_setBoundary.
Print Assumptions C74_marked.
Print Assumptions C74_marked_refuted.
(** Non-vacuity. *)
Definition S_ex : settings := fun s k =>
  if OptionsModel.str_eqb s (chars "n") && OptionsModel.str_eqb k (chars "bndry_xin") then Some (chars "neumann")
  else if OptionsModel.str_eqb s (chars "all") && OptionsModel.str_eqb k (chars "bndry_core") then Some (chars "none") else None.
Example C74_case : set_regions standard_factory S_ex (chars "n") [mkbreg (chars "core") XIN false; mkbreg (chars "sol") XOUT false] =
    Ok [(mkbreg (chars "core") XIN false, BOp false (chars "neumann") [] []); (mkbreg (chars "sol") XOUT false, BOp false (chars "dirichlet") [] [])] /\
  set_regions standard_factory S_ex (chars "m") [mkbreg (chars "core") XIN false; mkbreg (chars "sol") XOUT false] = Ok [(mkbreg (chars "sol") XOUT false, BOp false (chars "dirichlet") [] [])].
Proof. split; vm_compute; reflexivity. Qed.

(** C85 the main program around the commands. *)
From Coq Require Import String Ascii Reals List Arith ZArith Bool Lia Lra.
From Verif Require Import Prelude L_Prelude M_Mesh M_Boundary L_Flux M_ODE M_TimeStepping M_Solver M_ShallowWater M_Benchmark M_FVSolver S_FVSolver L_FVSolver M_ScalarSolver S_ScalarSolver P_ScalarSolver M_Misc P_Misc M_Command M_Series
  M_Parser S_Parser P_Parser M_CommandLine S_CommandLine L_CommandLine P_CommandLine S_CommandRun L_CommandRun P_CommandRun P_CommandMore P_FVWater P_CommandCalc M_Program S_Program.
Import ListNotations.
Open Scope R_scope.
Notation length := List.length.

(** ** Every command is started with the arguments it takes *)
Theorem C85_keywords_fit : forall c, exists l, keywords c = Ok l /\ NoDup l /\ forall n, In n l <-> In n (wanted c).
Proof.
  assert (F : forall l m, forallb (fun n => existsb (String.eqb n) m) l = true -> forallb (fun n => existsb (String.eqb n) l) m = true -> forall n, In n l <-> In n m).
  { intros l m H1 H2 n. rewrite forallb_forall in H1, H2. split; intro H; [specialize (H1 n H); rename H1 into X|specialize (H2 n H); rename H2 into X];
    (apply existsb_exists in X as [k [K1 K2]]; apply String.eqb_eq in K2; subst; exact K1). }
  assert (D : forall l, (fix d (l : list string) := match l with [] => true | x :: l' => negb (existsb (String.eqb x) l') && d l' end) l = true -> NoDup l).
  { induction l as [|x l IH]; intro H; [constructor|]. apply andb_true_iff in H as [H1 H2]. constructor; [|apply IH, H2]. intro X. apply negb_true_iff in H1.
    rewrite <- not_true_iff_false in H1. apply H1, existsb_exists. exists x. split; [exact X|apply String.eqb_refl]. }
  intro c.
  destruct c as [[p|p|p|p| | |]| | | | | | |]; try destruct p;
    (eexists; split; [vm_compute; reflexivity|split; [apply D; vm_compute; reflexivity|apply F; vm_compute; reflexivity]]).
Qed.
Print Assumptions C85_keywords_fit.

(** ** --args *)
(* induction over values, through lists and dictionaries *)
Lemma pyval_ind' (P : pyval -> Prop) : P Atom -> (forall d, P (PyDict d)) -> (forall l, Forall P l -> P (PyList l)) ->
  (forall d, Forall (fun kv => P (snd kv)) d -> P (Thing (Ok d))) -> (forall e, P (Thing (Err e))) -> forall v, P v.
Proof.
  intros H1 H2 H3 H4 H5. fix IH 1. intros [|d|l|[d|e]]; [exact H1|apply H2| | |apply H5].
  - apply H3. induction l as [|x l IHl]; constructor; [apply IH|exact IHl].
  - apply H4. induction d as [|[k v] d IHd]; constructor; [apply IH|exact IHd].
Qed.
Definition told (v : pyval) : Prop :=
  (exists v', deep_value v = Ok v' /\ shown v v' /\ forall e, ~ fails e v) \/ exists e, deep_value v = Err e /\ fails e v.
Notation deep_entries := (fix deep (d : list (string * pyval)) : result (list (string * pyval)) :=
        match d with [] => Ok [] | (k, v) :: d' => bind (deep_value v) (fun v' => bind (deep d') (fun r => Ok ((k, v') :: r))) end).
Notation deep_elements := (fix elements (l : list pyval) : result (list pyval) :=
        match l with
        | [] => Ok []
        | x :: l' => bind (match x with Thing _ => deep_value x | _ => Ok x end) (fun x' => bind (elements l') (fun r => Ok (x' :: r)))
        end).
Lemma entries_told d : Forall (fun kv => told (snd kv)) d ->
  (exists d', deep_entries d = Ok d' /\ Forall2 shown_entry d d' /\ forall e k v, In (k, v) d -> ~ fails e v) \/ exists e k v, deep_entries d = Err e /\ In (k, v) d /\ fails e v.
Proof.
  induction 1 as [|[k v] d H F IH]; [left; exists []; split; [reflexivity|]; split; [constructor|intros e k v []]|]. cbn [snd] in H.
  destruct H as [[v' [E1 [E2 E3]]]|[e [E1 E2]]].
  - destruct IH as [[d' [G1 [G2 G3]]]|[e [k' [v1 [G1 [G2 G3]]]]]].
    + left. exists ((k, v') :: d'). rewrite E1. cbn [bind]. rewrite G1. split; [reflexivity|]. split; [constructor; [constructor; exact E2|exact G2]|].
      intros e k1 v1 [X|X]; [injection X as <- <-; apply E3|exact (G3 e k1 v1 X)].
    + right. exists e, k', v1. rewrite E1. cbn [bind]. rewrite G1. split; [reflexivity|]. split; [right; exact G2|exact G3].
  - right. exists e, k, v. rewrite E1. split; [reflexivity|]. split; [left; reflexivity|exact E2].
Qed.
Lemma elements_told l : Forall told l ->
  (exists l', deep_elements l = Ok l' /\ Forall2 shown_element l l' /\ forall e r, In (Thing r) l -> ~ fails e (Thing r)) \/ exists e r, deep_elements l = Err e /\ In (Thing r) l /\ fails e (Thing r).
Proof.
  induction 1 as [|x l H F IH]; [left; exists []; split; [reflexivity|]; split; [constructor|intros e r []]|].
  assert (X : (exists x', match x with Thing _ => deep_value x | _ => Ok x end = Ok x' /\ shown_element x x' /\ forall e r, x = Thing r -> ~ fails e x) \/
    exists e r, match x with Thing _ => deep_value x | _ => Ok x end = Err e /\ x = Thing r /\ fails e x).
  { destruct x as [|d|l0|r]; try (left; eexists; split; [reflexivity|]; split; [constructor; discriminate|discriminate]).
    destruct H as [[v' [E1 [E2 E3]]]|[e [E1 E2]]]; [left; exists v'; split; [exact E1|]; split; [constructor; exact E2|intros e r' _; apply E3]|right; exists e, r; auto]. }
  destruct X as [[x' [E1 [E2 E3]]]|[e [r [E1 [E2 E3]]]]].
  - destruct IH as [[l' [G1 [G2 G3]]]|[e [r [G1 [G2 G3]]]]].
    + left. exists (x' :: l'). rewrite E1. cbn [bind]. rewrite G1. split; [reflexivity|]. split; [constructor; assumption|]. intros e r [Y|Y]; [subst x; apply (E3 e r eq_refl)|exact (G3 e r Y)].
    + right. exists e, r. rewrite E1. cbn [bind]. rewrite G1. split; [reflexivity|]. split; [right; exact G2|exact G3].
  - right. exists e, r. rewrite E1. split; [reflexivity|]. subst x. split; [left; reflexivity|exact E3].
Qed.
Lemma deep_told v : told v.
Proof.
  induction v as [|d|l F|d F|e] using pyval_ind'.
  - left. exists Atom. split; [reflexivity|]. split; [constructor|]. intros e H. inversion H.
  - left. exists (PyDict d). split; [reflexivity|]. split; [constructor|]. intros e H. inversion H.
  - destruct (elements_told l F) as [[l' [G1 [G2 G3]]]|[e [r [G1 [G2 G3]]]]].
    + left. exists (PyList l'). cbn [deep_value]. rewrite G1. split; [reflexivity|]. split; [constructor; exact G2|]. intros e H. inversion H; subst. eapply G3; eassumption.
    + right. exists e. cbn [deep_value]. rewrite G1. split; [reflexivity|]. econstructor; eassumption.
  - destruct (entries_told d F) as [[d' [G1 [G2 G3]]]|[e [k [v [G1 [G2 G3]]]]]].
    + left. exists (PyDict d'). cbn [deep_value]. rewrite G1. split; [reflexivity|]. split; [constructor; exact G2|]. intros e H. inversion H; subst. eapply G3; eassumption.
    + right. exists e. cbn [deep_value]. rewrite G1. split; [reflexivity|]. econstructor; eassumption.
  - right. exists e. split; [reflexivity|constructor].
Qed.

(** Without --args nothing is printed. With --args every argument is printed under its name, objects by their descriptions, unless one of them fails to
    describe itself: then the program ends with its exception. *)
Theorem C85_printing : forall arguments, print_arguments false arguments = Ok None /\
  ((exists text, print_arguments true arguments = Ok (Some text) /\ Forall2 shown_entry arguments text /\ forall e k v, In (k, v) arguments -> ~ fails e v) \/
   exists e k v, print_arguments true arguments = Err e /\ In (k, v) arguments /\ fails e v).
Proof.
  intro d. split; [reflexivity|]. assert (F : Forall (fun kv => told (snd kv)) d) by (apply Forall_forall; intros; apply deep_told).
  assert (E : forall d, deep_entries d = deep_dict d) by (induction d0 as [|[k v] d0 IH]; [reflexivity|]; cbn [deep_dict]; rewrite IH; reflexivity).
  destruct (entries_told d F) as [[d' [G1 [G2 G3]]]|[e [k [v [G1 [G2 G3]]]]]]; rewrite E in G1; unfold print_arguments; rewrite G1; cbn [bind]; [left; exists d'; auto|right; exists e, k, v; auto].
Qed.
Print Assumptions C85_printing.
Example C85_printing_ex : forall e, let good := Thing (Ok [("name"%string, Atom)]) in
  (exists text, print_arguments true [("a", Thing (Ok [("b", PyList [good; Atom])]))]%string = Ok (Some text) /\ text = [("a", PyDict [("b", PyList [PyDict [("name", Atom)]; Atom])])]%string) /\
  print_arguments true [("a", Thing (Ok [("b", PyList [good; Thing (Err e)])]))]%string = Err e.
Proof. intros e good. split; [eexists; split; reflexivity|reflexivity]. Qed.

(** the solvers a job has *)
Definition has_solvers (j : job) (objects : list object) : Prop :=
  match j with JCalculate _ None | JPlot _ None _ _ _ _ _ => objects = [] | JGenerate _ _ _ _ _ _ _ _ _ _ => length objects = 1%nat | JVariation _ _ _ _ _ _ _ _ _ _ _ => length objects = 2%nat | _ => True end.
Lemma object_deep o : deep_value (object_value o) = if adaptive_object o then Err AttributeError
  else Ok (PyDict [("name", Atom); ("right_hand_side", match o with Scalar _ => Atom | _ => PyDict [("numerical_flux", Atom)] end); ("ode_solver", Atom);
                   ("time_stepping", PyDict [("start_time", Atom); ("end_time", Atom); ("time_step_generator", PyDict [("time_step", Atom); ("cfl", Atom); ("adaptive", Atom)])])])%string.
Proof. unfold object_value. destruct (adaptive_object o), o; reflexivity. Qed.
Lemma objects_deep os : (exists l, deep_value (PyList (map object_value os)) = Ok l /\ forall o, In o os -> adaptive_object o = false) \/
  (deep_value (PyList (map object_value os)) = Err AttributeError /\ exists o, In o os /\ adaptive_object o = true).
Proof.
  cbn [deep_value]. assert (X : (exists l, deep_elements (map object_value os) = Ok l /\ forall o, In o os -> adaptive_object o = false) \/
    (deep_elements (map object_value os) = Err AttributeError /\ exists o, In o os /\ adaptive_object o = true)).
  { induction os as [|o os IH]; [left; eexists; split; [reflexivity|intros o []]|]. cbn [map].
    replace (match object_value o with Thing _ => deep_value (object_value o) | _ => Ok (object_value o) end) with (deep_value (object_value o)) by reflexivity.
    rewrite object_deep. destruct (adaptive_object o) eqn:A; cbn [bind].
    - right. split; [reflexivity|]. exists o. split; [left; reflexivity|exact A].
    - destruct IH as [[l [E H]]|[E [o' [H1 H2]]]]; rewrite E; cbn [bind].
      + left. eexists. split; [reflexivity|]. intros o' [<-|H']; [exact A|exact (H o' H')].
      + right. split; [reflexivity|]. exists o'. split; [right; exact H1|exact H2]. }
  destruct X as [[l [E H]]|[E H]]; rewrite E; cbn [bind]; [left; eauto|right; auto].
Qed.

(** For the arguments of the commands this happens exactly if a solver has adaptive time steps, except in eoc, which shows none of its solvers. *)
Theorem C85_args_of_commands : forall j objects, has_solvers j objects ->
  let adaptive := (exists o, In o objects /\ adaptive_object o = true) /\ (forall b n, j <> JEOC b n) in
  (adaptive -> print_arguments true (job_values j objects) = Err AttributeError) /\
  (~ adaptive -> exists text, print_arguments true (job_values j objects) = Ok (Some text) /\ map fst text = map fst (job_values j objects)).
Proof.
  intros j os H adaptive.
  destruct j as [b [l|]|b [l|] pt ini sp sd hd|b l pt ini ts sv st du sh|b cs|b a e sv sh|b s T d n dg se ra no ow|b a e dr rf pre nb se T va sp]; cbn [has_solvers] in H; unfold print_arguments; cbn [job_values].
  all: try (destruct (objects_deep os) as [[l' [E Q]]|[E [o [Q1 Q2]]]];
    [split; [intros [[o [Q1 Q2]] _]; rewrite (Q o Q1) in Q2; discriminate|intros _; cbn [deep_dict]; rewrite E; cbn; eexists; split; reflexivity]
    |split; [intros _; cbn [deep_dict]; rewrite E; reflexivity|intro N; exfalso; apply N; split; [eauto|discriminate]]]).
  all: try (subst os; split; [intros [[o [[] _]] _]|intros _; eexists; split; reflexivity]).
  - split; [intros [_ N]; destruct (N b cs eq_refl)|]. intros _. eexists. split; reflexivity.
  - destruct os as [|o [|]]; try discriminate H. split.
    + intros [[o' [[<-|[]] Q2]] _]. cbn [deep_dict]. rewrite object_deep, Q2. reflexivity.
    + intro N. cbn [deep_dict]. rewrite object_deep. destruct (adaptive_object o) eqn:A; [exfalso; apply N; split; [exists o; split; [left; reflexivity|exact A]|discriminate]|]. eexists. split; reflexivity.
  - destruct os as [|o1 [|o2 [|]]]; try discriminate H. cbn [deep_dict app]. rewrite !object_deep. split.
    + intros [[o' [[<-|[<-|[]]] Q2]] _]; rewrite Q2; [reflexivity|]. destruct (adaptive_object o1); reflexivity.
    + intro N. destruct (adaptive_object o1) eqn:A1; [exfalso; apply N; split; [exists o1; split; [left; reflexivity|exact A1]|discriminate]|].
      destruct (adaptive_object o2) eqn:A2; [exfalso; apply N; split; [exists o2; split; [right; left; reflexivity|exact A2]|discriminate]|]. eexists. split; reflexivity.
Qed.
Print Assumptions C85_args_of_commands.

(** ** From the words to what is seen *)
Lemma shown_is xs : asked ShowArguments xs = true <-> In ShowArguments xs.
Proof.
  unfold asked. assert (G : forall d, last_wish (fun x => match x, ShowArguments with
    | Initial, Initial | Hide, Hide | Append, Append | PlotsToo, PlotsToo | AnimationsToo, AnimationsToo | ShowArguments, ShowArguments => Some true | _, _ => None end) xs d = true <-> d = true \/ In ShowArguments xs).
  { induction xs as [|x xs IH]; intro d; cbn [last_wish In]; [tauto|]. rewrite IH. destruct x; intuition (discriminate || congruence || auto). }
  rewrite G. intuition discriminate.
Qed.
Lemma lines_is xs n : profile_of xs n = lines_of xs n.
Proof. unfold profile_of. revert n. induction xs as [|x xs IH]; intro n; [reflexivity|]. cbn [last_wish lines_of]. destruct x; try apply IH. destruct n0; apply IH. Qed.
Section Lines.
Context (parse_int : string -> option Z) (parse_float : string -> option pyfloat) (net net2 : list state -> state).
Context (newton : (R -> R) -> R -> result R) (moving_height : R -> R) (random_waves : Z -> oscillation) (drawn : Z) (splitext : string -> string * string).
Context (eig : nat -> (nat -> nat -> R) -> (nat -> R) * (nat -> nat -> R)) (linear_solver : M_Misc.mat -> list R -> list R) (old : nat -> R).
Context (finite : list R -> bool) (finite2 : list state -> bool).
Notation cwrite := (cwritten parse_int parse_float net net2 newton moving_height).
Notation parses := (parse_options parse_int parse_float net net2 newton moving_height random_waves drawn).
Notation summary := (summary random_waves drawn).
Notation job_for := (expected_job net net2 random_waves drawn splitext).
Notation request_line := (requested parse_int parse_float net net2 newton moving_height random_waves drawn splitext).
Notation settings_line := (line_settings parse_int parse_float net net2 newton moving_height random_waves drawn).
Notation parsed_command := (parse_command parse_int parse_float net net2 newton moving_height random_waves drawn).
Notation post := (postprocess net net2 splitext).
Notation made := (construct eig linear_solver old).
Notation order_of := (ordered net net2 false).

Lemma settings_request words : request_line words = obind (settings_line words) (fun cs => post (fst cs) (snd cs)).
Proof.
  assert (X : forall c rest, obind (parsed_command c rest) (post c) = obind (obind (parsed_command c rest) (fun s => Parsed (c, s))) (fun cs => post (fst cs) (snd cs)))
    by (intros; destruct (parsed_command c rest); reflexivity).
  destruct words as [|name rest]; [reflexivity|]. unfold requested, line_settings. destruct (first_is dash name); [reflexivity|].
  destruct (problems_of name) as [ps|].
  - destruct rest as [|p rest]; [reflexivity|]. destruct (first_is dash p); [reflexivity|]. destruct (find_key ps p); [apply X|reflexivity].
  - destruct (single_command name); [apply X|]. destruct (existsb _ other_commands); reflexivity.
Qed.
Lemma settings_command words c s : settings_line words = Parsed (c, s) -> exists tokens, exists_command c /\ words = command_words c ++ tokens /\ parsed_command c tokens = Parsed s.
Proof.
  assert (X : forall c0 rest, obind (parsed_command c0 rest) (fun s => Parsed (c0, s)) = Parsed (c, s) -> c0 = c /\ parsed_command c rest = Parsed s)
    by (intros c0 rest H; destruct (parsed_command c0 rest) eqn:Q; try discriminate H; injection H as -> <-; auto).
  intro E. destruct words as [|name rest]; [discriminate|]. unfold line_settings in E. destruct (first_is dash name); [discriminate|].
  unfold problems_of, single_command, find_key in E. cbn [find fst] in E.
  repeat match type of E with context [String.eqb ?a name] => destruct (String.eqb_spec a name) as [<-|]; cbn [option_map snd] in E end;
  try (destruct rest as [|p rest]; [discriminate|]; destruct (first_is dash p); [discriminate|]; cbn [map find fst problem_key] in E;
    repeat match type of E with context [String.eqb ?a p] => destruct (String.eqb_spec a p) as [<-|]; cbn [option_map snd] in E end;
    try discriminate; apply X in E as [<- E]; (exists rest; split; [|split; [|exact E]]; [let H := fresh in intro H; discriminate H|reflexivity]));
  try (apply X in E as [<- E]; exists rest; split; [|split; [|exact E]]; [let H := fresh in intro H; discriminate H|reflexivity]).
  destruct (existsb _ other_commands); discriminate.
Qed.
(* the settings of a line of calculate *)
Lemma calculate_settings line c s b l : finite_words parse_float line -> settings_line line = Parsed (c, s) -> post c s = Parsed (JCalculate b l) ->
  exists p xs wss, c = CCalculate p /\ line = command_words (CCalculate p) ++ List.concat wss /\ Forall2 (cwrite any_word (CCalculate p)) xs wss /\ Forall (coffered (CCalculate p)) xs /\ exclusive xs /\
    s_args s = asked ShowArguments xs /\ s_profile s = lines_of xs 0 /\ l = option_map (map order_of) (requests_of xs).
Proof.
  intros Fin E P. assert (R : request_line line = Parsed (JCalculate b l)) by (rewrite settings_request, E; exact P).
  destruct (settings_command line c s E) as [tokens [Ex [-> E']]]. unfold parse_command in E'. destruct (existsb _ tokens); [discriminate|]. rewrite <- (summary_nil random_waves drawn c) in E'.
  destruct (parses c (S (List.length tokens)) false [] tokens (summary c [])) as [[[s1 lo] un]| | |] eqn:Q; try discriminate. destruct un; [discriminate|].
  destruct (parsed_line parse_int parse_float net net2 newton moving_height random_waves drawn c (S (List.length tokens)) tokens [] [] s1 lo) as [ys [wss [H1 [H2 [H3 [H4 [H5 H6]]]]]]]; [reflexivity| |exact Q|].
  { intros w f Hw. apply Fin. apply in_or_app. right. exact Hw. }
  cbn [app] in *. subst s1 lo tokens. pose proof (written_sound _ _ _ _ _ _ _ _ _ _ H2) as S.
  assert (C : exists p, c = CCalculate p).
  { destruct c as [p|p|p|p| | |]; [eauto|exfalso..]; unfold postprocess in P;
    repeat match type of P with obind ?x _ = _ => destruct x; cbn [obind] in P; try discriminate P
      | match ?x with _ => _ end = _ => destruct x; cbn [obind] in P; try discriminate P | (if ?x then _ else _) = _ => destruct x; cbn [obind] in P; try discriminate P end. }
  destruct C as [p ->]. destruct (result_directories ys) as [|d [|d2 ds]] eqn:D; try discriminate E'. cbn [obind] in E'. injection E' as <-.
  assert (O : Forall (coffered (CCalculate p)) ys).
  { clear - H3 D. apply Forall_forall. intros x Hx. rewrite Forall_forall in H3. destruct (H3 x Hx) as [X|X]; [|exact X]. destruct x; try discriminate X.
    exfalso. assert (In d (result_directories ys)) by (apply in_flat_map; exists (ResultDirectory d); split; [exact Hx|left; reflexivity]). rewrite D in H. contradiction. }
  exists p, ys, wss. split; [reflexivity|]. split; [reflexivity|]. split; [exact H2|]. split; [exact O|]. split; [apply (exclusive_agree newton moving_height random_waves drawn); exact H4|].
  split; [reflexivity|]. split; [exact (lines_is ys 0)|].
  pose proof (post_summary parse_int parse_float net net2 random_waves drawn splitext (CCalculate p) ys S ltac:(discriminate) ltac:(auto)) as X. rewrite P in X. cbn [expected_job] in X. injection X as _ ->. reflexivity.
Qed.

End Lines.
Lemma adaptive_is ws : wants AdaptiveSteps ws = true <-> In AdaptiveSteps ws.
Proof.
  unfold wants. assert (G : forall d, chosen (fun y => match AdaptiveSteps, y with AdaptiveSteps, AdaptiveSteps => Some true | ExactFlux, ExactFlux => Some true | _, _ => None end) ws d = true <-> d = true \/ In AdaptiveSteps ws).
  { induction ws as [|x ws IH]; intro d; cbn [chosen In]; [tauto|]. rewrite IH. destruct x; intuition (discriminate || congruence || auto). }
  rewrite G. intuition discriminate.
Qed.
Lemma made_adaptive net net2 eig linear_solver old b r s : construct eig linear_solver old b (snd (ordered net net2 false r)) = Ok s -> adaptive_object s = true <-> asks_adaptive r.
Proof.
  destruct r as [[k ws] wss]. cbn [ordered].
  assert (W : forall g x a c w, sw_solver eig g x a = Ok (c, w) -> gen_adaptive (c_gen c) = false).
  { intros g x a c w E. destruct (sw_solver_inv _ _ _ _ _ _ E) as [m [u [nf [bc [_ [_ [_ [-> _]]]]]]]]. reflexivity. }
  assert (Fv : forall g x a c w, scalar_solver eig g x a = Ok (c, w) -> gen_adaptive (c_gen c) = false).
  { intros g x a c w E. destruct (scalar_solver_inv _ _ _ _ _ _ E) as [m [u [nf [bc [_ [_ [_ [_ [_ [_ [_ [_ [-> _]]]]]]]]]]]]]. reflexivity. }
  assert (Li : forall f ad x a c w, limited_solver eig old f ad x a = Ok (c, w) -> gen_adaptive (c_gen c) = ad).
  { intros f ad x a c w E. unfold limited_solver in E. inv_bind E. destruct a0 as [s1 u]. inv_bind E. apply Ok_inj in E. injection E as <- _. reflexivity. }
  intro M. assert (N : forall v, adaptive_object s = v -> (v = false /\ k <> CGLow /\ k <> FEMCL) \/ (v = wants AdaptiveSteps ws /\ (k = CGLow \/ k = FEMCL)) -> adaptive_object s = true <-> asks_adaptive (k, ws, wss)).
  { intros v -> [[-> [K1 K2]]|[-> K]]; [split; [discriminate|intros [[K|K] _]; contradiction]|]. rewrite adaptive_is. cbn. tauto. }
  destruct k; cbn [expected snd] in M; destruct b as [sb|sb]; try discriminate M; cbn [construct] in M; inv_bind M; apply Ok_inj in M; subst s; destruct a as [c w].
  all: try (eapply N; [cbn [adaptive_object]; eapply W; exact E|left; repeat split; discriminate]).
  all: try (eapply N; [cbn [adaptive_object]; eapply Fv; exact E|left; repeat split; discriminate]).
  all: try (eapply N; [cbn [adaptive_object fe_solver] in *; eapply Li; exact E|right; split; [reflexivity|auto]]).
  - eapply N; [|left; repeat split; discriminate]. cbn [adaptive_object fe_solver] in *. unfold cg_solver in E. inv_bind E. destruct a as [s1 u]. inv_bind E. inv_bind E. apply Ok_inj in E. injection E as <- _. reflexivity.
  - eapply N; [|left; repeat split; discriminate]. cbn [adaptive_object]. unfold lw_solver in E. inv_bind E. destruct a as [m u]. inv_bind E. apply Ok_inj in E. injection E as <- _. reflexivity.
  - eapply N; [|left; repeat split; discriminate]. destruct c as [c d]. cbn [adaptive_object]. unfold coarse_solver in E. inv_bind E. destruct a as [c0 w0]. cbn [fv a_history] in E. apply Ok_inj in E. injection E as <- _ _. eapply W. exact E0.
Qed.

Lemma what_is_seen net net2 eig linear_solver old finite finite2 n xs b s l r j : s_args s = asked ShowArguments xs -> s_profile s = lines_of xs 0 -> l = option_map (map (ordered net net2 false)) (requests_of xs) ->
  j = JCalculate b l ->
  match l with
  | None => Parsed (calculate_execute (solve_any finite finite2 n) NoSolver)
  | Some l => match mapM (fun o => construct eig linear_solver old b (snd o)) l with
              | Ok objects => Parsed (calculate_execute (solve_any finite finite2 n) (SolverList objects))
              | Err e => Raised e
              end
  end = Parsed r ->
  let main := match mapM (fun o : order => construct eig linear_solver old b (snd o)) (match l with Some l => l | None => [] end) with
      | Err e => Raised e
      | Ok objects =>
          match print_arguments (s_args s) (job_values j objects) with
          | Err e => Raised e
          | Ok p =>
              let r := calculate_execute (solve_any finite finite2 n) (match l with Some _ => SolverList objects | None => NoSolver end) in
              Parsed {| printed := p; calculated := r; profiled := match snd r with None => if (0 <? s_profile s)%Z then Some (s_profile s) else None | Some _ => None end |}
          end
      end in
    let breaks := In ShowArguments xs /\ exists rs q, requests_of xs = Some rs /\ In q rs /\ asks_adaptive q in
    (breaks -> main = Raised AttributeError) /\
    (~ breaks -> exists s, main = Parsed s /\ calculated s = r /\ (printed s <> None <-> In ShowArguments xs) /\
       forall m, profiled s = Some m <-> snd r = None /\ m = lines_of xs 0 /\ (0 < m)%Z).
Proof.
  intros H5 H6 H7 -> C. rename linear_solver into ls. cbv zeta. rewrite H5, H6.
  assert (Pf : forall (e : option exn) m, match e with None => if (0 <? lines_of xs 0)%Z then Some (lines_of xs 0) else None | Some _ => None end = Some m <-> e = None /\ m = lines_of xs 0 /\ (0 < m)%Z).
  { intros [e|] m; [split; [discriminate|intros [X _]; discriminate X]|]. destruct (Z.ltb_spec 0 (lines_of xs 0)); split; intro X; try discriminate X; [injection X as <-; auto|destruct X as [_ [-> _]]; reflexivity|lia]. }
  subst l. destruct (requests_of xs) as [rs|] eqn:Rs; cbn [option_map] in *.
  - match type of C with context [mapM ?f ?x] => destruct (mapM f x) as [os|] eqn:M end; [|discriminate C]. injection C as <-. cbv iota. repeat match goal with |- context [mapM ?f ?l] => replace (mapM f l) with (Ok os) by (symmetry; exact M) end.
    pose proof (C85_args_of_commands (JCalculate b (Some (map (ordered net net2 false) rs))) os I) as [A1 A2].
    assert (Ad : (exists o, In o os /\ adaptive_object o = true) <-> exists q, In q rs /\ asks_adaptive q).
    { apply mapM_made in M. assert (F : Forall2 (fun q o => construct eig ls old b (snd (ordered net net2 false q)) = Ok o) rs os).
      { clear - M. revert os M. induction rs as [|q rs IH]; intros os M; inversion M; subst; constructor; auto. }
      clear - F. induction F as [|q o rs os H F IH]; [split; intros [x [[] _]]|]. pose proof (made_adaptive _ _ _ _ _ _ _ _ H) as X. split.
      - intros [x [[<-|Hx] Y]]; [exists q; split; [left; reflexivity|apply X, Y]|]. destruct IH as [IH _]. destruct (IH ltac:(eauto)) as [y [Y1 Y2]]. exists y. split; [right; exact Y1|exact Y2].
      - intros [x [[<-|Hx] Y]]; [exists o; split; [left; reflexivity|apply X, Y]|]. destruct IH as [_ IH]. destruct (IH ltac:(eauto)) as [y [Y1 Y2]]. exists y. split; [right; exact Y1|exact Y2]. }
    split.
    + intros [B1 [rs' [q [B2 [B3 B4]]]]]. injection B2 as <-. rewrite (proj2 (shown_is xs) B1). rewrite A1; [reflexivity|]. split; [apply Ad; eauto|discriminate].
    + intro N. destruct (asked ShowArguments xs) eqn:As.
      * destruct A2 as [text [A2 _]]; [intros [X _]; apply N; split; [apply shown_is; exact As|]; apply Ad in X as [q [Q1 Q2]]; eauto|]. rewrite A2. eexists. split; [reflexivity|]. cbn [calculated printed profiled].
        split; [reflexivity|]. split; [split; [intros _; apply shown_is; exact As|discriminate]|]. apply Pf.
      * cbn [print_arguments]. eexists. split; [reflexivity|]. cbn [calculated printed profiled]. split; [reflexivity|]. split; [|apply Pf].
        split; [intro X; congruence|]. intro X. apply shown_is in X. congruence.
  - injection C as <-. cbn [mapM]. split; [intros [_ [rs [q [X _]]]]; discriminate X|]. intros _. unfold print_arguments. destruct (asked ShowArguments xs) eqn:As; cbn [job_values deep_dict deep_value bind].
    + eexists. split; [reflexivity|]. cbn [calculated printed profiled]. split; [reflexivity|]. split; [split; [intros _; apply shown_is; exact As|discriminate]|]. apply Pf.
    + eexists. split; [reflexivity|]. cbn [calculated printed profiled]. split; [reflexivity|]. split; [|apply Pf]. split; [intro X; congruence|]. intro X. apply shown_is in X. congruence.
Qed.

(** --args and --profile leave a calculation alone: what cls1 does with them is the calculation of calculate, after its arguments if --args is written, and before a
    profile of the lines asked for if the calculation raises nothing. The exception is --args with a solver with adaptive time steps: then the program ends
    with an AttributeError and nothing is calculated. *)
Theorem C85_args_and_profile : forall parse_int parse_float net net2 newton moving_height random_waves drawn splitext eig linear_solver old finite finite2 n line r,
  finite_words parse_float line ->
  calculate_line parse_int parse_float net net2 newton moving_height random_waves drawn splitext eig linear_solver old finite finite2 n line = Parsed r ->
  let main := main_calculate parse_int parse_float net net2 newton moving_height random_waves drawn splitext eig linear_solver old finite finite2 n line in
  exists p xs wss, line = command_words (CCalculate p) ++ List.concat wss /\ Forall2 (cwritten parse_int parse_float net net2 newton moving_height any_word (CCalculate p)) xs wss /\
    Forall (coffered (CCalculate p)) xs /\ exclusive xs /\
    let breaks := In ShowArguments xs /\ exists rs q, requests_of xs = Some rs /\ In q rs /\ asks_adaptive q in
    (breaks -> main = Raised AttributeError) /\
    (~ breaks -> exists s, main = Parsed s /\ calculated s = r /\ (printed s <> None <-> In ShowArguments xs) /\
       forall m, profiled s = Some m <-> snd r = None /\ m = lines_of xs 0 /\ (0 < m)%Z).
Proof.
  intros parse_int parse_float net net2 newton moving_height random_waves drawn splitext eig ls old finite finite2 n line r Fin C main.
  unfold calculate_line in C. rewrite settings_request in C. unfold main, main_calculate.
  destruct (line_settings parse_int parse_float net net2 newton moving_height random_waves drawn line) as [[c s]| | |] eqn:E; cbn [obind] in *; try discriminate C. cbn [fst snd] in C.
  destruct (postprocess net net2 splitext c s) as [j| | |] eqn:P; cbn [obind]; try discriminate C. destruct j as [b l| | | | | |]; try discriminate C.
  destruct (calculate_settings _ _ _ _ _ _ _ _ _ _ _ _ _ _ Fin E P) as [p [xs [wss [-> [H1 [H2 [H3 [H4 [H5 [H6 H7]]]]]]]]]].
  exists p, xs, wss. split; [exact H1|]. split; [exact H2|]. split; [exact H3|]. split; [exact H4|]. 
  eapply what_is_seen; eauto.
Qed.
Print Assumptions C85_args_and_profile.

(** The same for all lines that are written as they should be; the solvers are those of C84_solvers_are_built. *)
Theorem C85_args_and_profile_granted : forall parse_int parse_float net net2 newton moving_height random_waves drawn splitext eig linear_solver old finite finite2 n p xs wss,
  eig2_works eig -> Forall2 (cwritten parse_int parse_float net net2 newton moving_height value_word (CCalculate p)) xs wss -> Forall (coffered (CCalculate p)) xs ->
  Forall (no_key_in_values (CCalculate p)) xs -> exclusive xs -> separated xs -> finite_words parse_float (command_words (CCalculate p) ++ List.concat wss) ->
  let line := command_words (CCalculate p) ++ List.concat wss in
  let main := main_calculate parse_int parse_float net net2 newton moving_height random_waves drawn splitext eig linear_solver old finite finite2 n line in
  exists r, calculate_line parse_int parse_float net net2 newton moving_height random_waves drawn splitext eig linear_solver old finite finite2 n line = Parsed r /\
    let breaks := In ShowArguments xs /\ exists rs q, requests_of xs = Some rs /\ In q rs /\ asks_adaptive q in
    (breaks -> main = Raised AttributeError) /\
    (~ breaks -> exists s, main = Parsed s /\ calculated s = r /\ (printed s <> None <-> In ShowArguments xs) /\
       forall m, profiled s = Some m <-> snd r = None /\ m = lines_of xs 0 /\ (0 < m)%Z).
Proof.
  intros parse_int parse_float net net2 newton moving_height random_waves drawn splitext eig ls old finite finite2 n p xs wss HE W O K A Sep Fin line main.
  pose proof (C83_everything_granted parse_int parse_float net net2 newton moving_height random_waves drawn splitext (CCalculate p) xs wss _ ltac:(discriminate) W O K A Sep ltac:(discriminate) eq_refl) as Rq. fold line in Rq.
  set (b := end_of _ _) in Rq. assert (E : exists r, calculate_line parse_int parse_float net net2 newton moving_height random_waves drawn splitext eig ls old finite finite2 n line = Parsed r).
  { destruct (requests_of xs) as [rs|] eqn:Er; cbn [option_map] in Rq.
    - destruct (C84_solvers_are_built parse_int parse_float net net2 newton moving_height random_waves drawn splitext eig ls old finite finite2 line n _ _ HE Fin Rq) as [p' [rs' [objects [e [_ [_ [E _]]]]]]]. eauto.
    - unfold calculate_line. rewrite Rq. eauto. }
  destruct E as [r E]. exists r. split; [exact E|].
  assert (St : line_settings parse_int parse_float net net2 newton moving_height random_waves drawn line = Parsed (CCalculate p, summary random_waves drawn (CCalculate p) xs)).
  { assert (X : line_settings parse_int parse_float net net2 newton moving_height random_waves drawn line = obind (parse_command parse_int parse_float net net2 newton moving_height random_waves drawn (CCalculate p) (List.concat wss)) (fun s => Parsed (CCalculate p, s))) by (destruct p; reflexivity).
    rewrite X. unfold parse_command. assert (O' : Forall (fun y => positional y = true \/ coffered (CCalculate p) y) xs) by (apply (Forall_impl _ (fun a H => or_intror H) O)).
    rewrite (not_odd_line _ _ _ _ _ _ (CCalculate p) xs wss W O'). rewrite <- (summary_nil random_waves drawn (CCalculate p)).
    assert (Rd : result_directories xs = []) by (clear - O; induction O as [|x xs H O IH]; [reflexivity|]; cbn [result_directories flat_map]; destruct x; try discriminate H; exact IH).
    rewrite (parse_line parse_int parse_float net net2 newton moving_height random_waves drawn (CCalculate p) xs wss W O' K) with (lo := []); try assumption.
    - cbn [app]. cbv iota. rewrite Rd. reflexivity.
    - intros. exact Rd.
    - apply (exclusive_agree newton moving_height random_waves drawn). exact A.
    - lia. }
  unfold main, main_calculate. rewrite St. cbn [obind]. rewrite settings_request, St in Rq. cbn [obind fst snd] in Rq. rewrite Rq. cbn [obind].
  unfold calculate_line in E. rewrite settings_request, St in E. cbn [obind fst snd] in E. rewrite Rq in E. eapply what_is_seen; [reflexivity|apply lines_is|reflexivity|reflexivity|exact E].
Qed.
Print Assumptions C85_args_and_profile_granted.

(** And lines that are refused stay refused in the same way. *)
Theorem C85_refusals : forall parse_int parse_float net net2 newton moving_height random_waves drawn splitext eig linear_solver old finite finite2 n line,
  let main := main_calculate parse_int parse_float net net2 newton moving_height random_waves drawn splitext eig linear_solver old finite finite2 n line in
  match calculate_line parse_int parse_float net net2 newton moving_height random_waves drawn splitext eig linear_solver old finite finite2 n line with
  | Parsed _ => True | Exit s l => main = Exit s l | Raised e => main = Raised e | Unmodelled => main = Unmodelled end.
Proof.
  intros parse_int parse_float net net2 newton moving_height random_waves drawn splitext eig ls old finite finite2 n line main. unfold calculate_line, main, main_calculate. rewrite settings_request.
  destruct (line_settings parse_int parse_float net net2 newton moving_height random_waves drawn line) as [[c s]| | |] eqn:E; cbn [obind fst snd]; try reflexivity.
  destruct (postprocess net net2 splitext c s) as [j| | |] eqn:P; cbn [obind]; try reflexivity. destruct j as [b [l|]| | | | | |]; try reflexivity.
  match goal with |- context [mapM ?f l] => destruct (mapM f l) as [os|e] eqn:M end; [exact I|].
  match goal with |- context [mapM ?f l] => replace (mapM f l) with (@Err (list object) e) by (symmetry; exact M) end. reflexivity.
Qed.
Print Assumptions C85_refusals.

(** "calculate advection -s cg-low ++adaptive --args": the program ends with an AttributeError. Without --args the same line is calculated. *)
Definition adaptive_wishes (more : list cwish) : list cwish := Solvers [(CGLow, [AdaptiveSteps], [["++adaptive"]])]%string :: more.
Definition adaptive_line : list string := ["calculate"; "advection"; "-s"; "cg-low"; "++adaptive"]%string.
Lemma adaptive_written net net2 newton moving_height : Forall2 (cwritten ex_number ex_float net net2 newton moving_height value_word (CCalculate M_CommandLine.Advection)) (adaptive_wishes []) [["-s"; "cg-low"; "++adaptive"]]%string.
Proof.
  unfold adaptive_wishes. repeat (apply Forall2_cons || apply Forall2_nil). exists "-s"%string. split; [reflexivity|]. split; [left; reflexivity|]. split; [discriminate|]. split.
  - repeat (apply Forall_cons || apply Forall_nil). split; [eexists; reflexivity|]. split; repeat (apply Forall2_cons || apply Forall2_nil || apply Forall_cons || apply Forall_nil); [reflexivity|left; reflexivity].
  - cbn. repeat (apply Forall_cons || apply Forall_nil); apply plain_word; exact I.
Qed.
Lemma adaptive_keys more : Forall (no_key_in_values (CCalculate M_CommandLine.Advection)) more -> Forall (no_key_in_values (CCalculate M_CommandLine.Advection)) (adaptive_wishes more).
Proof. intro H. constructor; [|exact H]. cbn; auto; repeat (apply Forall_cons || apply Forall_nil); intros f w E; discriminate E. Qed.
Theorem C85_args_adaptive_refuted : forall net net2 newton moving_height random_waves drawn splitext linear_solver old finite finite2 n, exists eig r,
  eig2_works eig /\
  calculate_line ex_number ex_float net net2 newton moving_height random_waves drawn splitext eig linear_solver old finite finite2 n adaptive_line = Parsed r /\
  (exists s, main_calculate ex_number ex_float net net2 newton moving_height random_waves drawn splitext eig linear_solver old finite finite2 n adaptive_line = Parsed s /\ calculated s = r) /\
  main_calculate ex_number ex_float net net2 newton moving_height random_waves drawn splitext eig linear_solver old finite finite2 n (adaptive_line ++ ["--args"%string]) = Raised AttributeError.
Proof.
  intros. destruct (P_Gauss.C43_decomposition_exists 2) as [eig HE]. assert (HE2 : eig2_works eig) by (apply HE; lia).
  destruct (C85_args_and_profile_granted ex_number ex_float net net2 newton moving_height random_waves drawn splitext eig linear_solver old finite finite2 n M_CommandLine.Advection (adaptive_wishes []) [["-s"; "cg-low"; "++adaptive"]]%string
    HE2 (adaptive_written _ _ _ _) ltac:(repeat constructor) ltac:(apply adaptive_keys; constructor) ltac:(right; intros [[H|[]]|[z [H|[]]]]; discriminate H) ltac:(cbn; repeat split) (ex_finite _)) as [r [E [_ F]]].
  destruct F as [s [F1 [F2 _]]]; [intros [[H|[]] _]; discriminate H|].
  destruct (C85_args_and_profile_granted ex_number ex_float net net2 newton moving_height random_waves drawn splitext eig linear_solver old finite finite2 n M_CommandLine.Advection (adaptive_wishes [ShowArguments]) [["-s"; "cg-low"; "++adaptive"]; ["--args"]]%string
    HE2) as [r' [_ [G _]]].
  - pose proof (adaptive_written net net2 newton moving_height) as W. inversion W; subst. constructor; [assumption|]. constructor; [|constructor]. cbn. auto.
  - repeat constructor.
  - apply adaptive_keys. repeat constructor.
  - right. intros [[H|[H|[]]]|[z [H|[H|[]]]]]; discriminate H.
  - cbn. split; [intros [_ [d X]]; discriminate X|exact I].
  - apply ex_finite.
  - exists eig, r. split; [exact HE2|]. split; [exact E|]. split; [exists s; split; [exact F1|exact F2]|]. apply G. split; [right; left; reflexivity|].
    eexists. eexists. split; [reflexivity|]. split; [left; reflexivity|]. split; [left; reflexivity|left; reflexivity].
Qed.
Print Assumptions C85_args_adaptive_refuted.

(** "calculate advection -s llf +m 20 mcl-fem --profile 20 --args" shows the arguments, calculates, and shows 20 lines of the profile if nothing is raised *)
Example C85_args_and_profile_ex net net2 newton moving_height random_waves drawn splitext linear_solver old finite finite2 n : exists eig s,
  eig2_works eig /\
  main_calculate ex_number ex_float net net2 newton moving_height random_waves drawn splitext eig linear_solver old finite finite2 n (hill_line ++ ["--profile"%string; "20"%string; "--args"%string]) = Parsed s /\
  printed s <> None /\ (snd (calculated s) = None -> profiled s = Some 20%Z).
Proof.
  destruct (P_Gauss.C43_decomposition_exists 2) as [eig HE]. assert (HE2 : eig2_works eig) by (apply HE; lia).
  destruct (C85_args_and_profile_granted ex_number ex_float net net2 newton moving_height random_waves drawn splitext eig linear_solver old finite finite2 n M_CommandLine.Advection (hill_wishes ++ [Profile (Some 20%Z); ShowArguments])
    (hill_words ++ [["--profile"; "20"]; ["--args"]]%string) HE2) as [r [_ [_ G]]].
  - apply Forall2_app; [apply hill_written; auto|]. constructor; [|constructor; [|constructor]].
    + right. exists "20"%string. split; [reflexivity|]. split; [apply plain_word; exact I|reflexivity].
    + cbn. auto.
  - repeat constructor.
  - apply Forall_app. split; [exact hill_keys|]. repeat constructor.
  - right. intros [[H|[H|[H|[]]]]|[z [H|[H|[H|[]]]]]]; discriminate H.
  - cbn. split; [intros [_ [d X]]; discriminate X|]. split; [intros [X _]; discriminate X|exact I].
  - apply ex_finite.
  - destruct G as [s [G1 [G2 [G3 G4]]]].
    + intros [_ [rs [q [X [Q1 Q2]]]]]. injection X as <-. destruct Q1 as [<-|[<-|[]]]; destruct Q2 as [[Q2|Q2] Q3]; try discriminate Q2; destruct Q3.
    + exists eig, s. split; [exact HE2|]. split; [exact G1|]. split; [apply G3; right; right; left; reflexivity|]. intro Z. apply G4. rewrite <- G2. split; [exact Z|]. split; [reflexivity|lia].
Qed.

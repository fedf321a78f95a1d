(** C82 solver command lines. *)
From Coq Require Import String Ascii Reals List Arith ZArith Bool Lia Lra.
From Verif Require Import Prelude L_Prelude M_Boundary L_Flux M_ODE M_ShallowWater M_FVSolver M_ScalarSolver M_Misc P_Misc M_Parser S_Parser.
Import ListNotations.
Open Scope R_scope.

(** ** Namespaces *)
Definition dest_of (x : wish) : string :=
  match x with
  | Name _ => "name" | Short _ => "short" | MeshSize _ => "mesh_size" | Cfl _ => "cfl_number" | TimeIntegrator _ => "ode_solver_type"
  | FluxOf _ => "flux_getter" | Gamma _ => "gamma" | CoarseningDegree _ => "coarsening_degree" | AdaptiveSteps => "adaptive" | ExactFlux => "exact_flux"
  end%string.
Definition value_of (x : wish) : ovalue :=
  match x with
  | Name s | Short s => OStr s | MeshSize n | CoarseningDegree n => OInt (Z.of_nat n) | Cfl x | Gamma x => OFloat (Finite x)
  | TimeIntegrator T => OMethod T | FluxOf g => OFlux g | AdaptiveSteps | ExactFlux => OFlag true
  end.
Definition apply_wish (ns : namespace) (x : wish) : namespace := set_value (dest_of x) (value_of x) ns.
Definition initial (k : solver_class) : namespace := map (fun o => (op_dest o, op_default o)) (options k).

Lemma find_set d x e : forall ns, find_key (set_value d x ns) e =
  match find_key ns e with Some y => Some (if String.eqb d e then x else y) | None => None end.
Proof.
  induction ns as [|[k y] ns IH]; [reflexivity|]. unfold find_key, set_value in *. cbn [map find fst].
  destruct (String.eqb_spec k d) as [->|N]; cbn [fst].
  - destruct (String.eqb_spec d e) as [->|M]; cbn [option_map snd]; [reflexivity|exact IH].
  - destruct (String.eqb_spec k e) as [->|M]; cbn [option_map snd]; [|exact IH].
    destruct (String.eqb_spec d e); [congruence|reflexivity].
Qed.
Lemma find_apply e : forall ws ns y, find_key ns e = Some y ->
  find_key (fold_left apply_wish ws ns) e = Some (chosen (fun x => if String.eqb (dest_of x) e then Some (value_of x) else None) ws y).
Proof.
  induction ws as [|x ws IH]; intros ns y E; [exact E|]. cbn [fold_left chosen]. apply IH. unfold apply_wish. rewrite find_set, E.
  destruct (String.eqb (dest_of x) e); reflexivity.
Qed.
Lemma find_apply_none e : forall ws ns, find_key ns e = None -> find_key (fold_left apply_wish ws ns) e = None.
Proof. induction ws as [|x ws IH]; intros ns E; [exact E|]. cbn [fold_left]. apply IH. unfold apply_wish. rewrite find_set, E. reflexivity. Qed.
Lemma chosen_map {A B} (f : A -> B) pick pick' : (forall x, pick' x = option_map f (pick x)) ->
  forall ws d, chosen pick' ws (f d) = f (chosen pick ws d).
Proof.
  intros H. induction ws as [|x ws IH]; intro d; [reflexivity|]. cbn [chosen]. rewrite <- IH, H. destruct (pick x); reflexivity.
Qed.
Lemma names_apply : forall ws ns, map fst (fold_left apply_wish ws ns) = map fst ns.
Proof.
  induction ws as [|x ws IH]; intro ns; [reflexivity|]. cbn [fold_left]. rewrite IH. unfold apply_wish, set_value. rewrite map_map.
  apply map_ext. intros [k y]. cbn [fst]. destruct (String.eqb_spec k (dest_of x)); cbn [fst]; congruence.
Qed.
Lemma finite_apply : forall ws ns, forallb (fun p => is_finite (snd p)) ns = true -> forallb (fun p => is_finite (snd p)) (fold_left apply_wish ws ns) = true.
Proof.
  induction ws as [|x ws IH]; intros ns H; [exact H|]. cbn [fold_left]. apply IH. unfold apply_wish, set_value. rewrite forallb_forall in *.
  intros p Hp. apply in_map_iff in Hp. destruct Hp as [q [<- Hq]]. destruct (String.eqb (fst q) (dest_of x)); [|apply H; exact Hq].
  cbn [snd]. destruct x; reflexivity.
Qed.
Lemma accepts_names k : forall ns ns', map fst ns = map fst ns' -> accepts k ns = accepts k ns'.
Proof.
  unfold accepts. induction ns as [|p ns IH]; intros [|p' ns'] E; try discriminate; [reflexivity|]. cbn [map forallb] in *. injection E as E1 E2.
  rewrite E1, (IH ns' E2). reflexivity.
Qed.

(** reading the chosen values *)
Lemma get_apply ws ns e y : find_key ns e = Some y -> get (fold_left apply_wish ws ns) e = chosen (fun x => if String.eqb (dest_of x) e then Some (value_of x) else None) ws y.
Proof. intro E. unfold get. rewrite (find_apply e ws ns y E). reflexivity. Qed.
Lemma get_apply_none ws ns e : find_key ns e = None -> get (fold_left apply_wish ws ns) e = ONone.
Proof. intro E. unfold get. rewrite (find_apply_none e ws ns E). reflexivity. Qed.

Section Read.
Context (k : solver_class) (ws : list wish).
Let ns := fold_left apply_wish ws (initial k).
Lemma read_mesh n : find_key (initial k) "mesh_size" = Some (OInt (Z.of_nat n)) -> as_nat (get ns "mesh_size") = Some (mesh_of ws n).
Proof.
  intro E. unfold ns. rewrite (get_apply _ _ _ _ E).
  rewrite (chosen_map (fun n => OInt (Z.of_nat n)) (fun x => match x with MeshSize n => Some n | _ => None end)) by (intros []; reflexivity).
  cbn [as_nat]. rewrite Nat2Z.id. reflexivity.
Qed.
Lemma read_cfl c : find_key (initial k) "cfl_number" = Some (OFloat (Finite c)) -> as_real (get ns "cfl_number") = Some (cfl_of ws c).
Proof.
  intro E. unfold ns. rewrite (get_apply _ _ _ _ E).
  rewrite (chosen_map (fun c => OFloat (Finite c)) (fun x => match x with Cfl c => Some c | _ => None end)) by (intros []; reflexivity). reflexivity.
Qed.
Lemma read_method T : find_key (initial k) "ode_solver_type" = Some (OMethod T) -> as_method (get ns "ode_solver_type") = Some (method_of ws T).
Proof.
  intro E. unfold ns. rewrite (get_apply _ _ _ _ E).
  rewrite (chosen_map OMethod (fun x => match x with TimeIntegrator c => Some c | _ => None end)) by (intros []; reflexivity). reflexivity.
Qed.
Lemma read_gamma c : find_key (initial k) "gamma" = Some (OFloat (Finite c)) -> as_real (get ns "gamma") = Some (gamma_of ws c).
Proof.
  intro E. unfold ns. rewrite (get_apply _ _ _ _ E).
  rewrite (chosen_map (fun c => OFloat (Finite c)) (fun x => match x with Gamma c => Some c | _ => None end)) by (intros []; reflexivity). reflexivity.
Qed.
Lemma read_degree n : find_key (initial k) "coarsening_degree" = Some (OInt (Z.of_nat n)) -> as_nat (get ns "coarsening_degree") = Some (degree_of ws n).
Proof.
  intro E. unfold ns. rewrite (get_apply _ _ _ _ E).
  rewrite (chosen_map (fun n => OInt (Z.of_nat n)) (fun x => match x with CoarseningDegree n => Some n | _ => None end)) by (intros []; reflexivity).
  cbn [as_nat]. rewrite Nat2Z.id. reflexivity.
Qed.
Lemma read_flux g : find_key (initial k) "flux_getter" = Some ONone -> or_flux (get ns "flux_getter") g = flux_of ws g.
Proof.
  intro E. unfold ns. rewrite (get_apply _ _ _ _ E).
  pose proof (chosen_map (fun o => match o with Some g => OFlux g | None => ONone end) (fun x => match x with FluxOf g => Some (Some g) | _ => None end)
    (fun x => if String.eqb (dest_of x) "flux_getter" then Some (value_of x) else None) ltac:(intros []; reflexivity) ws None) as X. cbv beta iota in X. rewrite X.
  unfold flux_of. assert (G : forall ws o, or_flux match chosen (fun x => match x with FluxOf g0 => Some (Some g0) | _ => None end) ws o with Some g0 => OFlux g0 | None => ONone end g
    = chosen (fun x => match x with FluxOf g0 => Some g0 | _ => None end) ws match o with Some g0 => g0 | None => g end).
  { clear. intro l. induction l as [|x l IH]; intro o; [destruct o; reflexivity|]. cbn [chosen]. rewrite IH. destruct x; reflexivity. }
  apply (G ws None).
Qed.
Lemma read_name s d : find_key (initial k) "name" = Some (OStr s) -> as_label (get ns "name") d = unless_empty (name_of ws s) d.
Proof.
  intro E. unfold ns. rewrite (get_apply _ _ _ _ E).
  rewrite (chosen_map OStr (fun x => match x with Name c => Some c | _ => None end)) by (intros []; reflexivity). reflexivity.
Qed.
Lemma read_short s d : find_key (initial k) "short" = Some (OStr s) -> as_label (get ns "short") d = unless_empty (short_of ws s) d.
Proof.
  intro E. unfold ns. rewrite (get_apply _ _ _ _ E).
  rewrite (chosen_map OStr (fun x => match x with Short c => Some c | _ => None end)) by (intros []; reflexivity). reflexivity.
Qed.
Lemma read_adaptive : find_key (initial k) "adaptive" = Some (OFlag false) -> match get ns "adaptive" with OFlag b => b | _ => false end = wants AdaptiveSteps ws.
Proof.
  intro E. unfold ns. rewrite (get_apply _ _ _ _ E).
  rewrite (chosen_map OFlag (fun x => match x with AdaptiveSteps => Some true | _ => None end)) by (intros []; reflexivity). reflexivity.
Qed.
Lemma read_exact : find_key (initial k) "exact_flux" = Some (OFlag false) -> match get ns "exact_flux" with OFlag b => b | _ => false end = wants ExactFlux ws.
Proof.
  intro E. unfold ns. rewrite (get_apply _ _ _ _ E).
  rewrite (chosen_map OFlag (fun x => match x with ExactFlux => Some true | _ => None end)) by (intros []; reflexivity). reflexivity.
Qed.
Lemma read_absent e : find_key (initial k) e = None -> get ns e = ONone.
Proof. apply get_apply_none. Qed.
End Read.
Lemma unless_empty_empty s : unless_empty s "" = s.
Proof. unfold unless_empty. destruct (String.eqb_spec s ""); congruence. Qed.

Ltac reads := 
  repeat first
  [ rewrite (read_mesh _ _ 400%nat) by reflexivity | rewrite (read_mesh _ _ 50%nat) by reflexivity
  | erewrite (read_cfl _ _ _) by reflexivity | erewrite (read_method _ _ _) by reflexivity
  | erewrite (read_gamma _ _ _) by reflexivity | rewrite (read_degree _ _ 8%nat) by reflexivity
  | rewrite read_flux by reflexivity | erewrite (read_name _ _ _ _) by reflexivity | erewrite (read_short _ _ _ _) by reflexivity
  | rewrite read_adaptive by reflexivity | rewrite read_exact by reflexivity
  | rewrite read_absent by reflexivity ].
Lemma build_apply net net2 k ws history : build_call net net2 k (fold_left apply_wish ws (initial k)) history = Parsed (expected net net2 k ws history).
Proof.
  unfold build_call.
  assert (A : accepts k (fold_left apply_wish ws (initial k) ++ (if history then [("save_history"%string, OFlag true)] else [])) = true).
  { rewrite (accepts_names k _ (initial k ++ (if history then [("save_history"%string, OFlag true)] else []))).
    - destruct k, history; reflexivity.
    - rewrite !map_app, names_apply. reflexivity. }
  rewrite A. cbn [negb]. rewrite finite_apply by (destruct k; reflexivity). cbn [negb]. cbv zeta.
  unfold labels. f_equal.
  destruct k; cbn [label_defaults fst snd]; reads; rewrite ?unless_empty_empty; reflexivity.
Qed.

(** ** Parsing *)
Lemma value_plain opts w : is_value w -> classify opts w = Plain.
Proof.
  intros [A B]. unfold classify. destruct (String.eqb_spec w "--"); [congruence|]. destruct w as [|c r]; [reflexivity|]. cbn [first_is].
  unfold plus. destruct (Ascii.eqb_spec c "+"%char) as [->|]; [exfalso; apply (B r); reflexivity|reflexivity].
Qed.
Lemma plain_value opts w : classify opts w = Plain -> is_value w.
Proof.
  unfold classify. destruct (String.eqb_spec w "--"); [discriminate|]. intro H. split; [assumption|]. intros r ->. cbn in H.
  destruct (find _ opts); [discriminate|]. destruct (_ || _); discriminate.
Qed.
Lemma option_flag opts t o : classify opts t = Option o -> In o opts /\ spelled (op_short o) (op_long o) t.
Proof.
  unfold classify. destruct (String.eqb t "--"); [discriminate|]. destruct (negb (first_is plus t)); [discriminate|].
  destruct (find (fun o0 => existsb (String.eqb t) (flags o0)) opts) as [o'|] eqn:F; [|destruct (_ || _); discriminate].
  intro E. injection E as ->. apply find_some in F. destruct F as [F1 F2]. split; [exact F1|]. cbn in F2. rewrite !orb_true_iff in F2.
  unfold spelled. destruct F2 as [F2|[F2|F2]]; [left|right|discriminate]; apply String.eqb_eq; exact F2.
Qed.

(** the option that stores a wish, given the one that is offered *)
Inductive stores : opt -> wish -> Prop :=
| st_name s x : stores (o_name s) (Name x) | st_short s x : stores (o_short s) (Short x) | st_mesh n x : stores (o_mesh n) (MeshSize x)
| st_cfl c x : stores (o_cfl c) (Cfl x) | st_ode x : stores o_ode (TimeIntegrator x) | st_flux x : stores o_flux (FluxOf x)
| st_gamma x : stores o_gamma (Gamma x) | st_degree x : stores o_degree (CoarseningDegree x) | st_adaptive : stores o_adaptive AdaptiveSteps
| st_exact : stores o_exact ExactFlux.

Ltac find_stores := repeat match goal with
  | |- exists o, classify _ _ = Option o /\ _ => eexists; split; [reflexivity|constructor]
  end.
Lemma flag_classified k x f : offered k x ->
  match x with
  | Name _ => spelled "+n" "++name" f | Short _ => spelled "+s" "++short" f | MeshSize _ => spelled "+m" "++mesh-size" f
  | Cfl _ => f = "++cfl"%string | TimeIntegrator _ => spelled "+o" "++ode-solver" f | FluxOf _ => spelled "+f" "++flux" f
  | Gamma _ => spelled "+g" "++gamma" f | CoarseningDegree _ => spelled "+c" "++coarsening-degree" f
  | AdaptiveSteps => f = "++adaptive"%string | ExactFlux => f = "++exact-flux"%string
  end -> exists o, classify (options k) f = Option o /\ stores o x.
Proof.
  intros O W. destruct x; cbn [offered] in O; unfold spelled in W.
  - destruct k; destruct W as [->| ->]; find_stores.
  - destruct k; destruct W as [->| ->]; find_stores.
  - destruct k; destruct W as [->| ->]; find_stores.
  - destruct k; subst f; find_stores.
  - destruct k; try (exfalso; apply O; cbn; tauto); destruct W as [->| ->]; find_stores.
  - cbn in O. destruct O as [<-|[<-|[<-|[]]]]; destruct W as [->| ->]; find_stores.
  - subst k. destruct W as [->| ->]; find_stores.
  - subst k. destruct W as [->| ->]; find_stores.
  - subst f. destruct O as [-> | ->]; find_stores.
  - subst f k. find_stores.
Qed.
Lemma option_offered k o : In o (options k) -> exists x, stores o x /\ forall y, stores o y -> offered k y.
Proof.
  intro H. destruct k; cbn in H;
  repeat (destruct H as [<-|H]; [eexists; split; [econstructor|intros y S; inversion S; subst; cbn; try exact I; try reflexivity; try tauto; intuition discriminate]|]); contradiction.
Unshelve. all: try exact ""%string; try exact 0%nat; try exact 0; try exact euler; try exact GLow.
Qed.

Section Tokens.
Context (parse_int : string -> option Z) (parse_float : string -> option pyfloat) (net net2 : list state -> state).
Notation parses := (parse_tokens parse_int parse_float net net2).
Notation write := (written parse_int parse_float net net2).

Lemma stores_dest o x : stores o x -> op_dest o = dest_of x.
Proof. intros []; reflexivity. Qed.
(** one wish *)
Lemma parse_wish k x ws rest b ns : offered k x -> write x ws ->
  parses (options k) b (ws ++ rest) ns = parses (options k) b rest (apply_wish ns x).
Proof.
  intros O W. destruct x; cbn [written] in W;
  try (subst ws; destruct (flag_classified k _ _ O eq_refl) as [o [C S]]; cbn [app parse_tokens]; rewrite C; inversion S; subst; reflexivity);
  destruct W as [f [w [-> [V W]]]]; cbn [app parse_tokens];
  (destruct (flag_classified k _ f O) as [o [C S]]; [cbn; tauto|]); rewrite C, (value_plain _ _ V); inversion S; subst; cbn [op_kind o_name o_short o_mesh o_cfl o_ode o_flux o_gamma o_degree convert].
  - destruct W as [_ ->]. reflexivity.
  - destruct W as [_ ->]. reflexivity.
  - destruct W as [_ [z [E [P ->]]]]. unfold positive_int, int_of. rewrite E. cbn [bind]. destruct (Z.leb_spec z 0); [lia|]. cbn [bind].
    unfold apply_wish. cbn [value_of]. rewrite Z2Nat.id by lia. reflexivity.
  - destruct W as [_ [E P]]. unfold positive_float, float_of. rewrite E. cbn [bind le_num]. destruct (Rleb_spec x 0); [lra|]. reflexivity.
  - destruct W as [_ [[-> ->]|[[-> ->]|[-> ->]]]]; reflexivity.
  - destruct W as [_ [[-> ->]|[[-> ->]|[[-> ->]|[[-> ->]|[[-> ->]|[[-> ->]|[-> ->]]]]]]]]; reflexivity.
  - destruct W as [_ E]. unfold float_of. rewrite E. reflexivity.
  - destruct W as [_ [z [E [P ->]]]]. unfold positive_int, int_of. rewrite E. cbn [bind]. destruct (Z.leb_spec z 0); [lia|]. cbn [bind].
    unfold apply_wish. cbn [value_of]. rewrite Z2Nat.id by lia. reflexivity.
Qed.
Lemma parse_wishes k : forall xs wss, Forall2 write xs wss -> Forall (offered k) xs -> forall ns,
  parses (options k) false (List.concat wss) ns = Parsed (fold_left apply_wish xs ns).
Proof.
  intros xs wss W. induction W as [|x ws xs wss H W IH]; intros O ns; [reflexivity|]. inversion O; subst. cbn [List.concat fold_left].
  rewrite (parse_wish k x) by assumption. apply IH. assumption.
Qed.
Lemma not_odd k xs wss : Forall2 write xs wss -> Forall (offered k) xs ->
  existsb (fun t => match classify (options k) t with Odd => true | _ => false end) (List.concat wss) = false.
Proof.
  intros W. induction W as [|x ws xs wss H W IH]; intro O; [reflexivity|]. inversion O; subst. cbn [List.concat]. rewrite existsb_app, IH by assumption.
  rewrite orb_false_r.
  destruct x; cbn [written] in H;
  try (subst ws; destruct (flag_classified k _ _ H2 eq_refl) as [o [C S]]; cbn [existsb]; rewrite C; reflexivity);
  destruct H as [f [w [-> [V H]]]]; cbn [existsb]; (destruct (flag_classified k _ f H2) as [o [C S]]; [cbn; tauto|]); rewrite C, (value_plain _ _ V); reflexivity.
Qed.

(** a result of the parser comes from wishes *)
Lemma extras_fail opts : forall n tokens ns ns', (List.length tokens <= n)%nat -> parses opts true tokens ns <> Parsed ns'.
Proof.
  induction n as [|n IH]; intros [|t rest] ns ns' L; cbn [List.length] in L; try lia; try discriminate.
  cbn [parse_tokens]. destruct (classify opts t) as [|o| |]; try discriminate; try (apply IH; lia).
  destruct (op_kind o); try (apply IH; lia); (destruct rest as [|v rest]; [discriminate|]; cbn [List.length] in L; destruct (classify opts v); try discriminate);
  match goal with |- context [convert ?a ?b ?c ?d ?e ?g] => destruct (convert a b c d e g) as [y|[]] end; try discriminate; apply IH; lia.
Qed.
Definition finite_words (ws : list string) : Prop := forall w f, In w ws -> parse_float w = Some f -> exists x, f = Finite x.
Lemma convert_wish k o f w y : In o (options k) -> op_kind o <> KTrue -> spelled (op_short o) (op_long o) f -> is_value w -> finite_words [w] ->
  convert parse_int parse_float net net2 (op_kind o) w = Ok y ->
  exists x, write x [f; w] /\ offered k x /\ (forall ns, set_value (op_dest o) y ns = apply_wish ns x).
Proof.
  intros I K F V Fin C. destruct (option_offered k o I) as [x0 [S A]].
  destruct S; cbn [op_kind o_name o_short o_mesh o_cfl o_ode o_flux o_gamma o_degree o_adaptive o_exact convert op_short op_long] in *; try congruence.
  - injection C as <-. exists (Name w). split; [exists f, w; auto|]. split; [apply A; constructor|reflexivity].
  - injection C as <-. exists (Short w). split; [exists f, w; auto|]. split; [apply A; constructor|reflexivity].
  - unfold positive_int, int_of in C. destruct (parse_int w) as [z|] eqn:E; [|discriminate]. cbn [bind] in C. destruct (Z.leb_spec z 0); [discriminate|].
    injection C as <-. exists (MeshSize (Z.to_nat z)). split; [exists f, w; split; auto; split; auto; split; auto; exists z; auto|]. split; [apply A; constructor|].
    intro ns. unfold apply_wish. cbn [value_of]. rewrite Z2Nat.id by lia. reflexivity.
  - unfold positive_float, float_of in C. destruct (parse_float w) as [z|] eqn:E; [|discriminate]. cbn [bind] in C. destruct (le_num z 0) eqn:L; [discriminate|].
    injection C as <-. destruct (Fin w z (or_introl eq_refl) E) as [r ->]. cbn in L. destruct (Rleb_spec r 0); [discriminate|].
    exists (Cfl r). split; [exists f, w; split; auto; split; auto; split; [destruct F; auto|]; split; auto; lra|]. split; [apply A; constructor|reflexivity].
  - unfold find_key, methods in C. cbn [find fst] in C. 
    destruct (String.eqb_spec "euler" w) as [<-|]; [|destruct (String.eqb_spec "heun" w) as [<-|]; [|destruct (String.eqb_spec "ssp3" w) as [<-|]; [|discriminate]]];
      cbn in C; injection C as <-; (eexists (TimeIntegrator _); split; [exists f; eexists; split; [reflexivity|]; split; [exact V|]; split; [exact F|tauto]|]; split; [apply A; constructor|reflexivity]).
  - unfold find_key, fluxes in C. cbn [find fst] in C.
    repeat match type of C with context [String.eqb ?a w] => destruct (String.eqb_spec a w) as [<-|]; [
      cbn in C; injection C as <-; (eexists (FluxOf _); split; [exists f; eexists; split; [reflexivity|]; split; [exact V|]; split; [exact F|tauto]|]; split; [apply A; constructor|reflexivity])|] end.
    discriminate.
  - unfold float_of in C. destruct (parse_float w) as [z|] eqn:E; [|discriminate]. cbn [bind] in C. injection C as <-. destruct (Fin w z (or_introl eq_refl) E) as [r ->].
    exists (Gamma r). split; [exists f, w; auto|]. split; [apply A; constructor|reflexivity].
  - unfold positive_int, int_of in C. destruct (parse_int w) as [z|] eqn:E; [|discriminate]. cbn [bind] in C. destruct (Z.leb_spec z 0); [discriminate|].
    injection C as <-. exists (CoarseningDegree (Z.to_nat z)). split; [exists f, w; split; auto; split; auto; split; auto; exists z; auto|]. split; [apply A; constructor|].
    intro ns. unfold apply_wish. cbn [value_of]. rewrite Z2Nat.id by lia. reflexivity.
Qed.
Lemma parsed_wishes k : forall n tokens ns ns', (List.length tokens <= n)%nat -> finite_words tokens -> parses (options k) false tokens ns = Parsed ns' ->
  exists xs wss, Forall2 write xs wss /\ Forall (offered k) xs /\ tokens = List.concat wss /\ ns' = fold_left apply_wish xs ns.
Proof.
  induction n as [|n IH]; intros [|t rest] ns ns' L Fin E; cbn [List.length] in L; try lia;
    try (injection E as <-; exists [], []; repeat split; constructor; fail).
  cbn [parse_tokens] in E. destruct (classify (options k) t) as [|o| |] eqn:C; try discriminate;
    try (exfalso; refine (extras_fail _ n _ _ _ _ E); lia).
  destruct (option_flag _ _ _ C) as [I F].
  assert (KT : op_kind o = KTrue \/ op_kind o <> KTrue) by (destruct (op_kind o); auto; right; discriminate). destruct KT as [KT|KT].
  - rewrite KT in E. destruct (option_offered k o I) as [x [S A]]. assert (W : write x [t] /\ forall ns, set_value (op_dest o) (OFlag true) ns = apply_wish ns x).
    { destruct S; try discriminate KT; (split; [destruct F as [->| ->]; reflexivity|reflexivity]). }
    destruct W as [W1 W2]. rewrite W2 in E. destruct (IH rest (apply_wish ns x) ns') as [xs [wss [H1 [H2 [H3 H4]]]]]; [lia|intros w f Hw; apply Fin; right; exact Hw|exact E|].
    exists (x :: xs), ([t] :: wss). split; [constructor; auto|]. split; [constructor; auto|]. split; [cbn; congruence|exact H4].
  - assert (E' : match rest with [] => Exit 2 false | v :: rest' => match classify (options k) v with Odd => Unmodelled | Plain =>
        match convert parse_int parse_float net net2 (op_kind o) v with Ok y => parses (options k) false rest' (set_value (op_dest o) y ns) | Err KeyError => Raised KeyError | Err _ => Exit 2 false end
        | _ => Exit 2 false end end = Parsed ns') by (destruct (op_kind o); [..|congruence]; exact E). clear E.
    destruct rest as [|v rest]; [discriminate|]. destruct (classify (options k) v) eqn:V; try discriminate.
    destruct (convert parse_int parse_float net net2 (op_kind o) v) as [y|[]] eqn:Cv; try discriminate.
    destruct (convert_wish k o t v y I KT F (plain_value _ _ V)) as [x [W1 [W2 W3]]]; [intros w f [<-|[]]; apply Fin; right; left; reflexivity|exact Cv|].
    rewrite W3 in E'. cbn [List.length] in L. destruct (IH rest (apply_wish ns x) ns') as [xs [wss [H1 [H2 [H3 H4]]]]]; [lia|intros w f Hw; apply Fin; right; right; exact Hw|exact E'|].
    exists (x :: xs), ([t; v] :: wss). split; [constructor; auto|]. split; [constructor; auto|]. split; [cbn; congruence|exact H4].
Qed.
End Tokens.

(** ** Theorems *)
Definition registry (swe : bool) : list (string * parser) := if swe then swe_registry else scalar_registry.
Lemma key_registered swe k key : key_for swe k = Some key -> find_key (registry swe) key = Some (parser_of k).
Proof. destruct swe, k; cbn; intro E; try discriminate; injection E as <-; reflexivity. Qed.
Lemma registered_key swe key p : find_key (registry swe) key = Some p -> exists k, key_for swe k = Some key /\ p = parser_of k.
Proof.
  intro E. unfold find_key in E. destruct (find (fun q => String.eqb (fst q) key) (registry swe)) as [[s q]|] eqn:F; [|discriminate].
  cbn in E. injection E as ->. apply find_some in F. destruct F as [F1 F2]. cbn [fst] in F2. apply String.eqb_eq in F2. subst s.
  destruct swe; cbn in F1; repeat (destruct F1 as [F1|F1]; [injection F1 as <- <-; eexists; split; [|reflexivity]; reflexivity|]); contradiction.
Qed.
(** Which strings are keys of solvers. *)
Lemma is_key_iff swe w : is_key (registry swe) w = true <-> exists k, key_for swe k = Some w.
Proof.
  unfold is_key. split.
  - destruct (find_key (registry swe) w) as [p|] eqn:E; [|discriminate]. intros _. destruct (registered_key swe w p E) as [k [K _]]. exists k. exact K.
  - intros [k K]. rewrite (key_registered _ _ _ K). reflexivity.
Qed.

Section Lines.
Context (parse_int : string -> option Z) (parse_float : string -> option pyfloat) (net net2 : list state -> state).
Notation write := (written parse_int parse_float net net2).
Notation nspace := (solver_namespace parse_int parse_float net net2).
Notation action := (solver_action parse_int parse_float net net2).
Notation build := (build_call net net2).
Notation expect := (expected net net2).

Lemma namespace_of_wishes swe k key xs wss : key_for swe k = Some key -> Forall2 write xs wss -> Forall (offered k) xs ->
  nspace (registry swe) (key :: List.concat wss) = Parsed (k, fold_left apply_wish xs (initial k)).
Proof.
  intros K W O. cbn [solver_namespace]. rewrite (key_registered _ _ _ K). unfold parse_arguments. cbn [parser_of pa_options pa_class].
  rewrite (not_odd _ _ _ _ k xs wss W O). fold (initial k). rewrite (parse_wishes _ _ _ _ k xs wss W O). reflexivity.
Qed.
Lemma wishes_of_namespace swe words k ns : finite_words parse_float words -> nspace (registry swe) words = Parsed (k, ns) ->
  exists key xs wss, words = key :: List.concat wss /\ key_for swe k = Some key /\ Forall2 write xs wss /\ Forall (offered k) xs /\ ns = fold_left apply_wish xs (initial k).
Proof.
  destruct words as [|key words]; intros Fin E; [discriminate|]. cbn [solver_namespace] in E. destruct (find_key (registry swe) key) as [p|] eqn:F; [|discriminate].
  destruct (registered_key swe key p F) as [k' [K ->]]. unfold parse_arguments in E. cbn [parser_of pa_options pa_class] in E.
  destruct (existsb _ words); [discriminate|]. fold (initial k') in E.
  destruct (parse_tokens parse_int parse_float net net2 (options k') false words (initial k')) as [ns'|s l|e|] eqn:P; try discriminate; [|destruct e; discriminate].
  injection E as <- <-. destruct (parsed_wishes parse_int parse_float net net2 k' (List.length words) words (initial k') ns') as [xs [wss [H1 [H2 [H3 H4]]]]]; [lia| |exact P|].
  { intros w f Hw. apply Fin. right. exact Hw. }
  exists key, xs, wss. split; [congruence|]. auto.
Qed.
(** Wishes that the solver offers, in any order, repeated or not, are all granted: the solver is built
    exactly as asked for, with the documented defaults where nothing is asked for. *)
Theorem C82_options : forall swe k key xs wss, key_for swe k = Some key -> Forall2 write xs wss -> Forall (offered k) xs ->
  exists ns, nspace (registry swe) (key :: List.concat wss) = Parsed (k, ns) /\ forall history, build k ns history = Parsed (expect k xs history).
Proof.
  intros swe k key xs wss K W O. exists (fold_left apply_wish xs (initial k)). split; [|intro history; apply build_apply].
  apply namespace_of_wishes; assumption.
Qed.

(** Nothing else is accepted: what is built comes from wishes that were written and that the solver
    offers. No string is ignored. *)
Theorem C82_nothing_ignored : forall swe words k ns, finite_words parse_float words -> nspace (registry swe) words = Parsed (k, ns) ->
  exists key xs wss, words = key :: List.concat wss /\ key_for swe k = Some key /\ Forall2 write xs wss /\ Forall (offered k) xs /\
    forall history, build k ns history = Parsed (expect k xs history).
Proof.
  intros swe words k ns Fin E. destruct (wishes_of_namespace swe words k ns Fin E) as [key [xs [wss [H1 [H2 [H3 [H4 ->]]]]]]].
  exists key, xs, wss. repeat (split; [assumption|]). intro history. apply build_apply.
Qed.

(** Whatever is written behind -s, no exception reaches the user: the solvers are built or the program ends with a
    message. *)
Lemma parse_tokens_raised opts : forall n tokens b ns e, (List.length tokens <= n)%nat -> parse_tokens parse_int parse_float net net2 opts b tokens ns = Raised e -> e = KeyError.
Proof.
  induction n as [|n IH]; intros [|t rest] b ns e L; cbn [List.length] in L; try lia; try (destruct b; discriminate).
  cbn [parse_tokens]. destruct (classify opts t) as [|o| |]; try discriminate; try (apply IH; lia).
  destruct (op_kind o); try (apply IH; lia); (destruct rest as [|v rest]; [discriminate|]; cbn [List.length] in L; destruct (classify opts v); try discriminate);
  match goal with |- context [convert ?a ?b ?c ?d ?e ?g] => destruct (convert a b c d e g) as [y|[]] end; try discriminate; try (apply IH; lia); intro H; injection H as <-; reflexivity.
Qed.
Theorem C82_no_exception : forall swe words e, words <> [] -> nspace (registry swe) words <> Raised e.
Proof.
  intros swe [|key words] e N E; [congruence|]. cbn [solver_namespace] in E. destruct (find_key (registry swe) key) as [p|]; [|discriminate].
  unfold parse_arguments in E. destruct (existsb _ words); [discriminate|].
  destruct (parse_tokens parse_int parse_float net net2 _ false words _) as [ns'|s l|e'|] eqn:P; try discriminate.
  apply (parse_tokens_raised _ (List.length words)) in P; [|lia]. subst e'. discriminate.
Qed.

(** ** Several solvers *)
Lemma action_groups swe : forall fuel values, (List.length values <= fuel)%nat ->
  exists gs, groups (is_key (registry swe)) fuel values = Some gs /\
   forall nss, action (registry swe) fuel values = Parsed nss <-> Forall2 (fun g ns => nspace (registry swe) g = Parsed ns) gs nss.
Proof.
  induction fuel as [|fuel IH]; intros [|v values] L; cbn [List.length] in L; try lia;
    try (exists []; split; [reflexivity|]; intro nss; cbn [solver_action]; split; intro E; [injection E as <-; constructor|inversion E; subst; reflexivity]).
  cbn [groups solver_action]. destruct (pop_solver_arguments (is_key (registry swe)) (v :: values)) as [g rest] eqn:E.
  destruct (pop_spec _ v values g rest E) as [P1 [P2 [P3 P4]]]. cbn [List.length] in P3.
  destruct (IH rest ltac:(lia)) as [gs [G1 G2]]. rewrite G1. exists (g :: gs). split; [reflexivity|]. intro nss. split.
  - destruct (nspace (registry swe) g) as [ns|s l|e|] eqn:N; try discriminate.
    destruct (action (registry swe) fuel rest) as [nss'|s l|e|] eqn:A; try discriminate. intro H. injection H as <-. constructor; [exact N|]. apply G2. reflexivity.
  - intro H. inversion H as [|g' ns gs' nss' N F]; subst. rewrite N. apply G2 in F. rewrite F. reflexivity.
Qed.

Notation well_written := (well_written parse_int parse_float net net2).
Definition granted (r : request) (s : solver_class * namespace) : Prop :=
  let '(k, xs, wss) := r in fst s = k /\ forall history, build k (snd s) history = Parsed (expect k xs history).

Lemma flag_no_key swe x ws : write x ws -> exists f t, ws = f :: t /\ is_key (registry swe) f = false /\ (t = [] /\ f <> "+f"%string \/ exists w, t = [w]).
Proof.
  intro W. destruct x; cbn [written] in W; try (subst ws; eexists; eexists; split; [reflexivity|]; split; [destruct swe; reflexivity|left; split; [reflexivity|discriminate]]);
  destruct W as [f [w [-> [_ W]]]]; exists f, [w]; (split; [reflexivity|]; split; [|right; exists w; reflexivity]);
  unfold spelled in W; destruct W as [[->| ->] _] || destruct W as [-> _]; destruct swe; reflexivity.
Qed.
(* inside the words of a request nothing starts a group; the last word is not "+f" *)
Lemma inside_words swe : forall xs wss, Forall2 write xs wss -> Forall (no_key_inside swe) wss -> forall first, first <> "+f"%string ->
  forall i, (S i < List.length (first :: List.concat wss))%nat -> ~ starts (is_key (registry swe)) (nth i (first :: List.concat wss) ""%string) (nth (S i) (first :: List.concat wss) ""%string).
Proof.
  intros xs wss W. induction W as [|x ws xs wss H W IH]; intros N first F.
  - cbn. intros i Hi. lia.
  - inversion N as [|? ? N1 N2]; subst. destruct (flag_no_key swe x ws H) as [f [t [-> [K T]]]]. cbn [List.concat].
    destruct T as [[-> Hf]|[w ->]].
    + cbn [app]. intros [|i] Hi.
      * cbn [nth]. intros [S _]. congruence.
      * apply (IH N2 f Hf i). cbn [List.length] in Hi |- *. lia.
    + cbn [app]. assert (Hw : w <> "+f"%string).
      { destruct x; cbn [written] in H; try discriminate H; destruct H as [f' [w' [E [[V1 V2] _]]]]; injection E as <- <-; intro X; apply (V2 "f"%string); exact X. }
      intros [|[|i]] Hi.
      * cbn [nth]. intros [S _]. congruence.
      * cbn [nth]. intros [S1 S2]. apply is_key_iff in S1. destruct S1 as [k' S1]. apply (N1 f w eq_refl S2 k' S1).
      * apply (IH N2 w Hw i). cbn [List.length] in Hi |- *. lia.
Qed.
Lemma last_word (swe : bool) : forall xs wss, Forall2 write xs wss -> forall first, first <> "+f"%string -> last (first :: List.concat wss) ""%string <> "+f"%string.
Proof.
  intros xs wss W. induction W as [|x ws xs wss H W IH]; intros first F; [exact F|].
  destruct (flag_no_key swe x ws H) as [f [t [-> [K T]]]]. cbn [List.concat]. destruct T as [[-> Hf]|[w ->]]; cbn [app].
  - change (last (first :: f :: List.concat wss) ""%string) with (last (f :: List.concat wss) ""%string). apply IH. exact Hf.
  - change (last (first :: f :: w :: List.concat wss) ""%string) with (last (w :: List.concat wss) ""%string). apply IH.
    destruct x; cbn [written] in H; try discriminate H; destruct H as [f' [w' [E [[V1 V2] _]]]]; injection E as <- <-; intro X; apply (V2 "f"%string); exact X.
Qed.
Lemma words_grouping swe : forall rs, Forall (well_written swe) rs -> Forall (fun r => Forall (no_key_inside swe) (snd r)) rs ->
  grouping (is_key (registry swe)) (map (words swe) rs).
Proof.
  induction rs as [|[[k xs] wss] rs IH]; intros W N; [exact I|]. inversion W as [|? ? W1 W2]; inversion N as [|? ? N1 N2]; subst. cbn [map grouping].
  destruct W1 as [[key K] [W1 W1']]. cbn [words]. rewrite K. assert (Kf : key <> "+f"%string) by (intros ->; destruct swe, k; discriminate).
  split; [split; [discriminate|]; apply (inside_words swe xs wss W1 N1 key Kf)|]. split; [|apply IH; assumption].
  destruct rs as [|[[k2 xs2] wss2] rs]; [exact I|]. pose proof (Forall_inv W2) as W3. destruct W3 as [[key2 K2] _]. cbn [map words]. rewrite K2. cbn [hd].
  split; [apply is_key_iff; exists k2; exact K2|]. apply (last_word swe xs wss W1 key Kf).
Qed.

Definition namespace_of (r : request) : solver_class * namespace := let '(k, xs, wss) := r in (k, fold_left apply_wish xs (initial k)).
Lemma granted_namespace r : granted r (namespace_of r).
Proof. destruct r as [[k xs] wss]. split; [reflexivity|]. intro history. apply build_apply. Qed.
Lemma namespaces_of_line swe rs : Forall (well_written swe) rs -> Forall (fun r => Forall (no_key_inside swe) (snd r)) rs ->
  let line := List.concat (map (words swe) rs) in action (registry swe) (List.length line) line = Parsed (map namespace_of rs).
Proof.
  intros W N line. pose proof (groups_of_grouping _ _ (List.length line) (words_grouping swe rs W N) ltac:(reflexivity)) as G. fold line in G.
  destruct (action_groups swe (List.length line) line ltac:(lia)) as [gs [G' A]]. rewrite G in G'. injection G' as <-.
  apply A. clear - W. induction W as [|[[k xs] wss] rs W0 W IH]; [constructor|]. destruct W0 as [[key K] [W1 W2]]. cbn [map words namespace_of]. rewrite K. constructor; [|exact IH].
  apply namespace_of_wishes; assumption.
Qed.
Lemma line_of_namespaces swe line solvers : finite_words parse_float line -> action (registry swe) (List.length line) line = Parsed solvers ->
  exists rs, line = List.concat (map (words swe) rs) /\ Forall (well_written swe) rs /\ solvers = map namespace_of rs.
Proof.
  intros Fin E. destruct (action_groups swe (List.length line) line ltac:(lia)) as [gs [G A]]. apply A in E.
  destruct (proj1 (C46_groups (is_key (registry swe)) line)) as [gs' [G' [C _]]]. rewrite G in G'. injection G' as <-.
  assert (Fin' : Forall (finite_words parse_float) gs).
  { apply Forall_forall. intros g Hg w f Hw. apply Fin. rewrite <- C. apply in_concat. exists g. auto. }
  clear A G Fin. revert line C. induction E as [|g [k ns] gs nss E F IH]; intros line C.
  - exists []. cbn in *. subst. repeat split; constructor.
  - inversion Fin' as [|? ? Fg Fr]; subst. destruct (IH Fr _ eq_refl) as [rs [R1 [R2 R3]]].
    destruct (wishes_of_namespace swe g k ns Fg E) as [key [xs [wss [-> [K [W1 [W2 B]]]]]]].
    exists ((k, xs, wss) :: rs). cbn [map words List.concat namespace_of]. rewrite K, R1. split; [reflexivity|]. split; [constructor; [split; [exists key; exact K|auto]|exact R2]|].
    congruence.
Qed.
(** A line with several solvers: each gets its own wishes, in order, provided no value except the one of
    +f is spelled like a solver. *)
Theorem C82_several_solvers : forall swe rs, Forall (well_written swe) rs -> Forall (fun r => Forall (no_key_inside swe) (snd r)) rs ->
  let line := List.concat (map (words swe) rs) in
  exists solvers, action (registry swe) (List.length line) line = Parsed solvers /\ Forall2 granted rs solvers.
Proof.
  intros swe rs W N line. exists (map namespace_of rs). split; [apply namespaces_of_line; assumption|].
  clear. induction rs as [|r rs IH]; constructor; [apply granted_namespace|exact IH].
Qed.

(** Every accepted line is of that form: the strings in order are the requests in order. *)
Theorem C82_several_solvers_only : forall swe line solvers, finite_words parse_float line ->
  action (registry swe) (List.length line) line = Parsed solvers ->
  exists rs, line = List.concat (map (words swe) rs) /\ Forall (well_written swe) rs /\ Forall2 granted rs solvers.
Proof.
  intros swe line solvers Fin E. destruct (line_of_namespaces swe line solvers Fin E) as [rs [H1 [H2 ->]]]. exists rs. split; [exact H1|]. split; [exact H2|].
  clear. induction rs as [|r rs IH]; constructor; [apply granted_namespace|exact IH].
Qed.

(** ** Findings *)
(** A solver that does not exist ends the program with exit status 0, as if all had gone well. *)
Theorem C82_unknown_solver_refuted : forall swe key words, (forall k, key_for swe k <> Some key) -> nspace (registry swe) (key :: words) = Exit 0 true.
Proof.
  intros swe key words N. cbn [solver_namespace]. destruct (find_key (registry swe) key) as [p|] eqn:F; [|reflexivity].
  destruct (registered_key swe key p F) as [k [K _]]. exfalso. apply (N k K).
Qed.
(** A misspelled flux or time integrator of an existing solver is reported as an unknown solver, with exit status 0. *)
Theorem C82_unknown_flux_refuted : forall k key f w, In k [MCL; Antidiff; Coarse] -> swe_key k = Some key -> spelled "+f" "++flux" f -> is_value w ->
  (forall g, ~ write (FluxOf g) [f; w]) -> nspace swe_registry [key; f; w] = Exit 0 true.
Proof.
  intros k key f w I K F V N. assert (C : find_key (fluxes net net2) w = None).
  { unfold find_key, fluxes. cbn [find fst]. 
    repeat match goal with |- context [String.eqb ?a w] => destruct (String.eqb_spec a w) as [<-|]; [exfalso; eapply N; exists f; eexists; split; [reflexivity|]; split; [exact V|]; split; [exact F|tauto]|] end.
    reflexivity. }
  assert (P := fun opts => value_plain opts w V). cbn [solver_namespace]. change swe_registry with (registry true). rewrite (key_registered true k key K).
  unfold parse_arguments. cbn [parser_of pa_options pa_class].
  destruct (flag_classified k (FluxOf GLow) f I F) as [o [Co S]]. cbn [existsb]. rewrite Co, P. cbn [orb parse_tokens]. rewrite Co, P. inversion S; subst.
  cbn [op_kind o_flux convert]. rewrite C. reflexivity.
Qed.
Theorem C82_unknown_integrator_refuted : forall swe k key f w T, offered k (TimeIntegrator T) -> key_for swe k = Some key -> spelled "+o" "++ode-solver" f -> is_value w ->
  (forall T, ~ write (TimeIntegrator T) [f; w]) -> nspace (registry swe) [key; f; w] = Exit 0 true.
Proof.
  intros swe k key f w T I K F V N. assert (C : find_key methods w = None).
  { unfold find_key, methods. cbn [find fst]. 
    repeat match goal with |- context [String.eqb ?a w] => destruct (String.eqb_spec a w) as [<-|]; [exfalso; eapply N; exists f; eexists; split; [reflexivity|]; split; [exact V|]; split; [exact F|tauto]|] end.
    reflexivity. }
  assert (P := fun opts => value_plain opts w V). cbn [solver_namespace]. rewrite (key_registered swe k key K).
  unfold parse_arguments. cbn [parser_of pa_options pa_class].
  destruct (flag_classified k (TimeIntegrator T) f I F) as [o [Co S]]. cbn [existsb]. rewrite Co, P. cbn [orb parse_tokens]. rewrite Co, P. inversion S; subst.
  cbn [op_kind o_ode convert]. rewrite C. reflexivity.
Qed.
(** The polynomial degree of the finite element solvers cannot be chosen: the option +p of the finite element parsers
    is refused by all of them, though their constructors take the degree. *)
Theorem C82_polynomial_degree_refuted : forall k key f w, In k [CG; CGLow; FEMCL] -> scalar_key k = Some key -> spelled "+p" "++polynomial-degree" f -> is_value w ->
  nspace scalar_registry [key; f; w] = Exit 2 false /\ accepts k [("polynomial_degree"%string, OInt 2)] = true /\
  (forall xs history, match snd (expect k xs history) with ScalarFE _ a => f_degree a = None | _ => False end).
Proof.
  intros k key f w I K F V. assert (P := fun opts => value_plain opts w V).
  cbn in I. split; [|destruct I as [<-|[<-|[<-|[]]]]; split; try reflexivity; intros; reflexivity].
  destruct I as [<-|[<-|[<-|[]]]]; injection K as <-; cbn [solver_namespace]; destruct F as [->| ->];
  (match goal with |- context [find_key ?a ?b] => let x := eval vm_compute in (find_key (map (fun p => (fst p, pa_class (snd p))) a) b) in
     match x with Some ?c => replace (find_key a b) with (Some (parser_of c)) by reflexivity end end);
  unfold parse_arguments; cbn [parser_of pa_options pa_class existsb];
  (match goal with |- context [classify ?o ?t] => assert (U : classify o t = Unknown) by reflexivity end);
  rewrite U, P; cbn [orb parse_tokens]; rewrite U, P; reflexivity.
Qed.
(** Written with its long option, the flux of a solver is not understood if it is also the name of a solver: "coarse ++flux llf"
    is refused, while "coarse +f llf" works. *)
Theorem C82_long_flux_option_refuted : exists long short ws, Forall2 write [FluxOf GLLF] [long] /\ Forall2 write [FluxOf GLLF] [short] /\
  action swe_registry 3 ("coarse"%string :: long) = Exit 2 false /\
  action swe_registry 3 ("coarse"%string :: short) = Parsed [(Coarse, ws)] /\ nspace swe_registry ("coarse"%string :: long) = Parsed (Coarse, ws).
Proof.
  exists ["++flux"; "llf"]%string, ["+f"; "llf"]%string, (fold_left apply_wish [FluxOf GLLF] (initial Coarse)).
  assert (V : is_value "llf") by (split; [discriminate|intros; discriminate]).
  split; [repeat constructor; eexists; eexists; split; [reflexivity|]; split; [exact V|]; split; [right; reflexivity|tauto]|].
  split; [repeat constructor; eexists; eexists; split; [reflexivity|]; split; [exact V|]; split; [left; reflexivity|tauto]|].
  split; [reflexivity|]. split; reflexivity.
Qed.
End Lines.
Print Assumptions C82_options.
Print Assumptions C82_nothing_ignored.
Print Assumptions C82_no_exception.
Print Assumptions C82_several_solvers.
Print Assumptions C82_several_solvers_only.
Print Assumptions C82_unknown_solver_refuted.
Print Assumptions C82_unknown_flux_refuted.
Print Assumptions C82_unknown_integrator_refuted.
Print Assumptions C82_polynomial_degree_refuted.
Print Assumptions C82_long_flux_option_refuted.

(** Two solvers on one line, "coarse +f es +m 20 +o ssp3 +m 40 llf +n reference": the second mesh size counts. *)
Definition ex_int (s : string) : option Z := if String.eqb s "20" then Some 20%Z else if String.eqb s "40" then Some 40%Z else None.
Definition ex_requests : list request :=
  [(Coarse, [FluxOf GES; MeshSize 20; TimeIntegrator ssp3; MeshSize 40], [["+f"; "es"]; ["+m"; "20"]; ["+o"; "ssp3"]; ["++mesh-size"; "40"]]);
   (LLF, [Name "reference"], [["+n"; "reference"]])]%string.
Example C82_ex (parse_float : string -> option pyfloat) (net net2 : list state -> state) :
  Forall (S_Parser.well_written ex_int parse_float net net2 true) ex_requests /\ Forall (fun r => Forall (no_key_inside true) (snd r)) ex_requests /\
  List.concat (map (words true) ex_requests) = ["coarse"; "+f"; "es"; "+m"; "20"; "+o"; "ssp3"; "++mesh-size"; "40"; "llf"; "+n"; "reference"]%string /\
  expected net net2 Coarse [FluxOf GES; MeshSize 20; TimeIntegrator ssp3; MeshSize 40] false =
    ("Coarsened Solver.", "coarse", SWCoarse GES (fv 40 (1 / 10) (Some ssp3) false) (Some 8%nat))%string.
Proof.
  assert (V : forall w, match w with String "+" _ | "--" => False | _ => True end%string -> is_value w).
  { intros w H. split; [intros ->; exact H|intros r ->; exact H]. }
  split; [|split; [|split; reflexivity]].
  - apply Forall_cons; [|apply Forall_cons; [|apply Forall_nil]].
    + split; [eexists; reflexivity|]. split; [|repeat (apply Forall_cons || apply Forall_nil); cbn; intuition discriminate].
      repeat (apply Forall2_cons || apply Forall2_nil).
      * exists "+f"%string, "es"%string. split; [reflexivity|]. split; [apply V; exact I|]. split; [left; reflexivity|tauto].
      * exists "+m"%string, "20"%string. split; [reflexivity|]. split; [apply V; exact I|]. split; [left; reflexivity|]. exists 20%Z. split; [reflexivity|]. split; [lia|reflexivity].
      * exists "+o"%string, "ssp3"%string. split; [reflexivity|]. split; [apply V; exact I|]. split; [left; reflexivity|tauto].
      * exists "++mesh-size"%string, "40"%string. split; [reflexivity|]. split; [apply V; exact I|]. split; [right; reflexivity|]. exists 40%Z. split; [reflexivity|]. split; [lia|reflexivity].
    + split; [eexists; reflexivity|]. split; [|repeat (apply Forall_cons || apply Forall_nil); exact I].
      repeat (apply Forall2_cons || apply Forall2_nil).
      exists "+n"%string, "reference"%string. split; [reflexivity|]. split; [apply V; exact I|]. split; [left; reflexivity|reflexivity].
  - repeat (apply Forall_cons || apply Forall_nil); intros f w E; injection E as <- <-; intros F k K; try congruence; destruct k; discriminate.
Qed.

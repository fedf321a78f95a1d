(** Reading the command lines of the small commands (for C91). *)
From Coq Require Import String Ascii Reals List Arith ZArith Bool Lia Lra.
From Verif Require Import Prelude L_Prelude M_Misc P_Misc M_Parser S_Parser M_CommandLine S_CommandLine L_CommandLine M_Tools S_Tools.
Import ListNotations.
Open Scope R_scope.
Local Open Scope list_scope.

(** ** Words, as in L_CommandLine *)
Lemma tflag_form c f : In f (flat_map tflags (topts c)) -> exists a r, f = String "-" (String a r) /\ ((58 <= nat_of_ascii a)%nat \/ a = "-"%char) /\ f <> "-"%string.
Proof.
  assert (X : forallb (fun f => match f with String "-" (String a r) => Nat.leb 58 (nat_of_ascii a) || Ascii.eqb a "-" | _ => false end) (flat_map tflags (topts c)) = true)
    by (destruct c; reflexivity).
  intro H. rewrite forallb_forall in X. specialize (X f H). destruct f as [|b [|a r]]; [discriminate|destruct b as [[] [] [] [] [] [] [] []]; discriminate|].
  destruct (Ascii.eqb_spec b "-") as [->|N].
  - exists a, r. split; [reflexivity|]. apply orb_true_iff in X. rewrite Nat.leb_le in X. split; [destruct X as [X|X]; [left; exact X|right; apply Ascii.eqb_eq; exact X]|discriminate].
  - exfalso. destruct b as [[] [] [] [] [] [] [] []]; try discriminate X. apply N. reflexivity.
Qed.
Lemma tvalue_plainly c w : value_word w -> tclassify c w = TPlain.
Proof.
  intros [H|[->|[d [-> D]]]].
  - unfold tclassify. destruct (String.eqb_spec w "--") as [->|]; [exfalso; eapply H; reflexivity|].
    destruct w as [|a w]; [reflexivity|]. unfold first_is, dash. destruct (Ascii.eqb_spec a "-") as [->|]; [exfalso; eapply H; reflexivity|reflexivity].
  - destruct c; reflexivity.
  - destruct (decimal_first d D) as [a [r [E [A1 [A2 A3]]]]].
    assert (NF : forall f, In f (flat_map tflags (topts c)) -> exists b t, f = String "-" (String b t) /\ b <> a).
    { intros f Hf. destruct (tflag_form c f Hf) as [b [t [Ef [[B|B] _]]]]; exists b, t; (split; [exact Ef|]); [intros ->; lia|congruence]. }
    unfold tclassify. destruct (String.eqb_spec (String "-" d) "--") as [X|_]; [injection X as ->; injection E as <- _; congruence|].
    cbn [first_is dash Ascii.eqb negb]. change (negb (first_is dash (String "-" d))) with false. cbv iota.
    assert (F : find (fun o => existsb (String.eqb (String "-" d)) (tflags o)) (topts c) = None).
    { destruct (find _ (topts c)) as [o|] eqn:X; [|reflexivity]. exfalso. apply find_some in X. destruct X as [X1 X2]. apply existsb_exists in X2. destruct X2 as [f [X2 X3]].
      apply String.eqb_eq in X3. subst f. destruct (NF (String "-" d)) as [b [t [Ef B]]]; [apply in_flat_map; exists o; auto|]. injection Ef as Ef. congruence. }
    rewrite F. assert (L : Nat.eqb (String.length (String "-" d)) 1 = false) by (rewrite E; reflexivity). rewrite L.
    assert (P : existsb (fun o => existsb (fun f => prefix (String "-" d) f || String.eqb f (substring 0 2 (String "-" d))) (tflags o)) (topts c) = false).
    { apply not_true_is_false. intro X. apply existsb_exists in X. destruct X as [o [X1 X2]]. apply existsb_exists in X2. destruct X2 as [f [X2 X3]].
      destruct (NF f) as [b [t [-> B]]]; [apply in_flat_map; exists o; auto|]. rewrite E in X3. cbn [prefix substring] in X3. destruct (ascii_dec "-" "-"); [|congruence].
      destruct (ascii_dec a b); [congruence|]. cbn [orb] in X3. apply String.eqb_eq in X3. injection X3 as X3 _. congruence. }
    rewrite P, orb_false_r. assert (Q : has_char "=" (String "-" d) = false) by exact A3. rewrite Q.
    assert (Ne : negative_number (String "-" d) = true) by (apply negative_decimal; exists d; auto). rewrite Ne. reflexivity.
Qed.
Lemma tplainly_word c w : tclassify c w = TPlain -> any_word w.
Proof.
  unfold tclassify. destruct (String.eqb w "--"); [discriminate|]. destruct (first_is dash w) eqn:D; cbn [negb].
  - destruct w as [|a w]; [discriminate|]. cbn [first_is] in D. apply Ascii.eqb_eq in D. unfold dash in D. subst a.
    destruct (find _ (topts c)); [discriminate|]. destruct (Nat.eqb_spec (String.length (String "-" w)) 1) as [L|_].
    + intros _. left. right. left. destruct w; [reflexivity|discriminate].
    + destruct (_ || _)%bool; [discriminate|]. destruct (negative_number (String "-" w)) eqn:N; cbn [orb].
      * intros _. left. right. right. apply negative_decimal. exact N.
      * destruct (has_char " " (String "-" w)) eqn:B; [|discriminate]. intros _. right. split; [exists w; reflexivity|]. unfold has_char in B. apply existsb_exists in B.
        destruct B as [x [B1 B2]]. apply Ascii.eqb_eq in B2. subst x. exact B1.
  - intros _. left. left. intros r ->. cbn in D. discriminate.
Qed.
Lemma toption_in c t o : tclassify c t = TOption o -> In o (topts c) /\ In t (tflags o).
Proof.
  unfold tclassify. destruct (String.eqb t "--"); [discriminate|]. destruct (negb (first_is dash t)); [discriminate|].
  destruct (find _ (topts c)) as [o'|] eqn:F.
  - intro E. injection E as ->. apply find_some in F. destruct F as [F1 F2]. split; [exact F1|]. apply existsb_exists in F2. destruct F2 as [f [F2 F3]]. apply String.eqb_eq in F3. subst. exact F2.
  - destruct (Nat.eqb _ 1); [discriminate|]. destruct (_ || _)%bool; [discriminate|]. destruct (_ || _)%bool; discriminate.
Qed.


(** ** The option of a part *)
Definition topt_of (x : part) : topt :=
  match x with
  | Word _ => THelp | NoFigures => THide | SavePlots => TSave | Histograms => THistogram | StepLength _ => TStep | HeightThreshold _ => TKh | DischargeThreshold _ => TKq
  | NetworkParameter _ _ => TParameter | MaxEpochs _ => TEpochs | EveryNth _ => TSkip | TrainingSeed _ => TSeed | ResumeTraining => TResume | ConfirmSaving => TConfirm
  | PlotLosses => TPlotLoss | ProfileLines _ => TProfile | PrintArguments => TArgs
  end.
Definition is_word (x : part) : bool := match x with Word _ => true | _ => false end.
Lemma tflag_classified t x f : part_offered t x -> is_word x = false -> In f (tflags (topt_of x)) -> tclassify t f = TOption (topt_of x).
Proof.
  intros O P F. destruct x; try discriminate P; clear P; cbn [topt_of tflags In] in F; cbn [part_offered] in O; destruct t; try discriminate O; try congruence;
  repeat match type of F with _ \/ _ => destruct F as [<-|F]; [reflexivity|] end; contradiction.
Qed.
(** what a part does to the settings *)
Definition put (s : tsettings) (x : part) : tsettings :=
  let '(Build_tsettings wo fi hi sa hg st kh kq pa ep sk se re co pl pf ar) := s in
  match x with
  | Word w => Build_tsettings (wo ++ [w]) true hi sa hg st kh kq pa ep sk se re co pl pf ar
  | NoFigures => Build_tsettings wo fi true sa hg st kh kq pa ep sk se re co pl pf ar
  | SavePlots => Build_tsettings wo fi hi true hg st kh kq pa ep sk se re co pl pf ar
  | Histograms => Build_tsettings wo fi hi sa true st kh kq pa ep sk se re co pl pf ar
  | StepLength x => Build_tsettings wo fi hi sa hg (Some x) kh kq pa ep sk se re co pl pf ar
  | HeightThreshold x => Build_tsettings wo fi hi sa hg st (Some x) kq pa ep sk se re co pl pf ar
  | DischargeThreshold x => Build_tsettings wo fi hi sa hg st kh (Some x) pa ep sk se re co pl pf ar
  | NetworkParameter k w => Build_tsettings wo fi hi sa hg st kh kq (pa ++ [(k, w)]) ep sk se re co pl pf ar
  | MaxEpochs z => Build_tsettings wo fi hi sa hg st kh kq pa z sk se re co pl pf ar
  | EveryNth z => Build_tsettings wo fi hi sa hg st kh kq pa ep z se re co pl pf ar
  | TrainingSeed z => Build_tsettings wo fi hi sa hg st kh kq pa ep sk (Some z) re co pl pf ar
  | ResumeTraining => Build_tsettings wo fi hi sa hg st kh kq pa ep sk se true co pl pf ar
  | ConfirmSaving => Build_tsettings wo fi hi sa hg st kh kq pa ep sk se re true pl pf ar
  | PlotLosses => Build_tsettings wo fi hi sa hg st kh kq pa ep sk se re co true pf ar
  | ProfileLines n => Build_tsettings wo fi hi sa hg st kh kq pa ep sk se re co pl (match n with None => 30%Z | Some z => z end) ar
  | PrintArguments => Build_tsettings wo fi hi sa hg st kh kq pa ep sk se re co pl pf true
  end.
Notation puts := (fold_left put).
Lemma puts_words ws s : ws <> [] -> puts (map Word ws) s = with_words ws s.
Proof.
  revert s. induction ws as [|w ws IH]; intros s N; [congruence|]. cbn [map fold_left]. destruct ws as [|w' ws].
  - destruct s. reflexivity.
  - rewrite IH by discriminate. destruct s. cbn. rewrite <- app_assoc. reflexivity.
Qed.
Lemma own_app xs ys : own_words (xs ++ ys) = own_words xs ++ own_words ys. Proof. apply flat_map_app. Qed.
Lemma own_map ws : own_words (map Word ws) = ws. Proof. induction ws as [|w ws IH]; [reflexivity|]. cbn. f_equal. exact IH. Qed.
Lemma get_words : forall xs s, t_words (puts xs s) = t_words s ++ own_words xs.
Proof.
  induction xs as [|x xs IH]; intro s; [cbn; rewrite app_nil_r; reflexivity|]. cbn [fold_left]. rewrite IH. destruct s, x; cbn; rewrite <- ?app_assoc; reflexivity.
Qed.
Lemma get_filled : forall xs s, t_filled (puts xs s) = (t_filled s || existsb is_word xs)%bool.
Proof.
  induction xs as [|x xs IH]; intro s; [cbn; rewrite orb_false_r; reflexivity|]. cbn [fold_left existsb]. rewrite IH. destruct s, x; cbn; rewrite ?orb_true_r; reflexivity.
Qed.
Lemma get_parameters : forall xs s, t_parameters (puts xs s) = t_parameters s ++ given_parameters xs.
Proof.
  induction xs as [|x xs IH]; intro s; [cbn; rewrite app_nil_r; reflexivity|]. cbn [fold_left]. rewrite IH. destruct s, x; cbn; rewrite <- ?app_assoc; reflexivity.
Qed.
Ltac last_field := let xs := fresh "xs" in let x := fresh "x" in let IH := fresh "IH" in let s := fresh "s" in intro xs; induction xs as [|x xs IH]; intro s; [reflexivity|]; cbn [fold_left]; unfold last_part in *; cbn [fold_left]; rewrite IH; destruct s, x; try reflexivity.
Lemma get_epochs : forall xs s, t_epochs (puts xs s) = last_part (fun x => match x with MaxEpochs n => Some n | _ => None end) xs (t_epochs s).
Proof. last_field. Qed.
Lemma get_skip : forall xs s, t_skip (puts xs s) = last_part (fun x => match x with EveryNth n => Some n | _ => None end) xs (t_skip s).
Proof. last_field. Qed.
Lemma get_seed : forall xs s, t_seed (puts xs s) = last_part (fun x => match x with TrainingSeed n => Some (Some n) | _ => None end) xs (t_seed s).
Proof. last_field. Qed.
Lemma get_step : forall xs s, t_step (puts xs s) = last_part (fun x => match x with StepLength n => Some (Some n) | _ => None end) xs (t_step s).
Proof. last_field. Qed.
Lemma get_kh : forall xs s, t_kh (puts xs s) = last_part (fun x => match x with HeightThreshold n => Some (Some n) | _ => None end) xs (t_kh s).
Proof. last_field. Qed.
Lemma get_kq : forall xs s, t_kq (puts xs s) = last_part (fun x => match x with DischargeThreshold n => Some (Some n) | _ => None end) xs (t_kq s).
Proof. last_field. Qed.
Lemma get_profile : forall xs s, t_profile (puts xs s) = last_part (fun x => match x with ProfileLines None => Some 30%Z | ProfileLines (Some n) => Some n | _ => None end) xs (t_profile s).
Proof. last_field. destruct n; reflexivity. Qed.
Ltac flag := let xs := fresh "xs" in let x := fresh "x" in let IH := fresh "IH" in let s := fresh "s" in intro xs; induction xs as [|x xs IH]; intro s; [cbn; intuition congruence|]; cbn [fold_left In]; rewrite IH; destruct s, x; cbn; intuition congruence.
Lemma get_hide : forall xs s, t_hide (puts xs s) = true <-> t_hide s = true \/ In NoFigures xs. Proof. flag. Qed.
Lemma get_save : forall xs s, t_save (puts xs s) = true <-> t_save s = true \/ In SavePlots xs. Proof. flag. Qed.
Lemma get_histogram : forall xs s, t_histogram (puts xs s) = true <-> t_histogram s = true \/ In Histograms xs. Proof. flag. Qed.
Lemma get_resume : forall xs s, t_resume (puts xs s) = true <-> t_resume s = true \/ In ResumeTraining xs. Proof. flag. Qed.
Lemma get_confirm : forall xs s, t_confirm (puts xs s) = true <-> t_confirm s = true \/ In ConfirmSaving xs. Proof. flag. Qed.
Lemma get_plot : forall xs s, t_plot_loss (puts xs s) = true <-> t_plot_loss s = true \/ In PlotLosses xs. Proof. flag. Qed.
Lemma get_args : forall xs s, t_args (puts xs s) = true <-> t_args s = true \/ In PrintArguments xs. Proof. flag. Qed.

(** ** Reading the words of a line *)
Section Lines.
Context (parse_int : string -> option Z) (parse_float : string -> option pyfloat).
Notation written := (part_written parse_int parse_float).
Notation stores := (tstore parse_int parse_float).
Notation parses := (parse_tool parse_int parse_float).
Lemma positive_float_iff w x : positive_float parse_float w = Ok x <-> parse_float w = Some x /\ not_negative x.
Proof.
  unfold positive_float, float_of. destruct (parse_float w) as [f|]; cbn [bind]; [|split; [discriminate|intros [E _]; discriminate]].
  destruct f as [r| | |]; cbn [le_num].
  - destruct (Rleb_spec r 0) as [L|L].
    + split; [discriminate|]. intros [E N]. injection E as <-. cbn in N. lra.
    + split; [intro E; injection E as <-; split; [reflexivity|cbn; lra]|]. intros [E _]. injection E as <-. reflexivity.
  - split; [intro E; injection E as <-; split; [reflexivity|exact I]|intros [E _]; injection E as <-; reflexivity].
  - split; [discriminate|]. intros [E N]. injection E as <-. contradiction.
  - split; [intro E; injection E as <-; split; [reflexivity|exact I]|intros [E _]; injection E as <-; reflexivity].
Qed.
Lemma positive_int_iff w z : positive_int parse_int w = Ok z <-> parse_int w = Some z /\ (0 < z)%Z.
Proof.
  unfold positive_int, int_of. destruct (parse_int w) as [f|]; cbn [bind]; [|split; [discriminate|intros [E _]; discriminate]].
  destruct (Z.leb_spec f 0).
  - split; [discriminate|]. intros [E N]. injection E as <-. lia.
  - split; [intro E; injection E as <-; split; [reflexivity|lia]|]. intros [E N]. injection E as <-. reflexivity.
Qed.
Lemma part_form value x ws : written value x ws -> (exists w, x = Word w /\ ws = [w] /\ value w) \/
  is_word x = false /\ exists f vs, ws = f :: vs /\ In f (tflags (topt_of x)) /\ Forall value vs /\ forall s, stores (topt_of x) vs s = Parsed (put s x).
Proof.
  intro W. destruct x; cbn [part_written] in W;
  try (subst ws; right; split; [reflexivity|]; eexists; exists []; split; [reflexivity|]; split; [cbn; auto|]; split; [constructor|]; intro s; destruct s; reflexivity);
  try (destruct W as [f [w' [-> [F [V [M1 M2]]]]]]; right; split; [reflexivity|]; exists f, [w']; split; [reflexivity|]; split; [destruct F as [->| ->]; cbn; auto|];
       split; [constructor; [exact V|constructor]|]; intro s; destruct s; cbn [tstore topt_of hd]; unfold accepted;
       first [rewrite (proj2 (positive_float_iff w' x) (conj M1 M2))|rewrite (proj2 (positive_int_iff w' n) (conj M1 M2))]; reflexivity).
  - left. exists w. destruct W as [-> V]. auto.
  - right. split; [reflexivity|]. destruct W as [f [-> [F [V1 V2]]]]. exists f, [key; value0]. split; [reflexivity|]. split; [destruct F as [->| ->]; cbn; auto|].
    split; [repeat constructor; assumption|]. intro s; destruct s; reflexivity.
  - right. split; [reflexivity|]. destruct n as [n|].
    + destruct W as [w [-> [V M]]]. eexists; eexists. split; [reflexivity|]. split; [cbn; auto|]. split; [constructor; [exact V|constructor]|].
      intro s; destruct s; cbn [tstore topt_of hd]. unfold int_of. rewrite M. reflexivity.
    + subst ws. eexists; exists []. split; [reflexivity|]. split; [cbn; auto|]. split; [constructor|]. intro s; destruct s; reflexivity.
Qed.
Lemma tplain_value t w : value_word w -> tplain t w = true. Proof. intro V. unfold tplain. rewrite tvalue_plainly by exact V. reflexivity. Qed.
Definition closed_at (t : tool) (rest : list string) : Prop := match rest with [] => True | w :: _ => tplain t w = false end.
Lemma targuments_of t x f vs rest : written value_word x (f :: vs) -> is_word x = false -> (x = ProfileLines None -> closed_at t rest) ->
  targuments t (topt_of x) (vs ++ rest) = Some (vs, rest).
Proof.
  intros W P C. destruct x; try discriminate P; cbn [part_written] in W; cbn [topt_of targuments];
  try (injection W as _ ->; reflexivity);
  try (destruct W as [f' [w' [E [_ [V _]]]]]; injection E as -> ->; cbn [app]; rewrite tplain_value by exact V; reflexivity).
  - destruct W as [f' [E [_ [V1 V2]]]]. injection E as -> ->. cbn [app]. rewrite !tplain_value by assumption. reflexivity.
  - destruct n as [n|].
    + destruct W as [w [E [V _]]]. injection E as -> ->. cbn [app]. rewrite tplain_value by exact V. reflexivity.
    + injection W as -> ->. specialize (C eq_refl). cbn [app]. destruct rest as [|w rest]; [reflexivity|]. cbn in C. rewrite C. reflexivity.
Qed.
(** one option *)
Lemma option_step t x ws rest fuel extra s : written value_word x ws -> part_offered t x -> is_word x = false -> (x = ProfileLines None -> closed_at t rest) ->
  parses t (S fuel) extra (ws ++ rest) s = parses t fuel extra rest (put s x).
Proof.
  intros W O P C. destruct (part_form _ _ _ W) as [[w [-> _]]|[_ [f [vs [-> [F [_ St]]]]]]]; [discriminate|].
  cbn [app parse_tool]. rewrite (tflag_classified t x f O P F), (targuments_of t x f vs rest W P C), St. reflexivity.
Qed.
Lemma starts_closed t x ws rest : written value_word x ws -> part_offered t x -> is_word x = false -> closed_at t (ws ++ rest).
Proof.
  intros W O P. destruct (part_form _ _ _ W) as [[w [-> _]]|[_ [f [vs [-> [F _]]]]]]; [discriminate|]. cbn. unfold tplain. rewrite (tflag_classified t x f O P F). reflexivity.
Qed.
Lemma behind_closed t : forall ys wss rest, Forall2 (written value_word) ys wss -> Forall (part_offered t) ys -> (forall w zs, ys <> Word w :: zs) -> (ys = [] -> closed_at t rest) ->
  closed_at t (List.concat wss ++ rest).
Proof.
  intros ys wss rest W O N R. destruct W as [|y ws ys wss W1 W2]; [apply R; reflexivity|]. cbn [List.concat]. rewrite <- app_assoc. inversion O; subst.
  apply (starts_closed t y); auto. destruct y; try reflexivity. exfalso. apply (N w ys). reflexivity.
Qed.
Lemma written_length value x ws : written value x ws -> (1 <= List.length ws)%nat.
Proof. intro W. destruct (part_form _ _ _ W) as [[w [_ [-> _]]]|[_ [f [vs [-> _]]]]]; cbn; lia. Qed.
(** options only *)
Lemma options_line t : forall ys wss, Forall2 (written value_word) ys wss -> Forall (part_offered t) ys -> own_words ys = [] ->
  forall rest fuel extra s, (forall before, ys = before ++ [ProfileLines None] -> closed_at t rest) -> (List.length (List.concat wss ++ rest) < fuel)%nat ->
  exists fuel', (List.length rest < fuel')%nat /\ parses t fuel extra (List.concat wss ++ rest) s = parses t fuel' extra rest (puts ys s).
Proof.
  intros ys wss W. induction W as [|y ws ys wss H W IH]; intros O N rest fuel extra s B L.
  - exists fuel. split; [exact L|reflexivity].
  - inversion O as [|? ? O1 O2]; subst. assert (P : is_word y = false) by (destruct y; try reflexivity; discriminate N).
    assert (N' : own_words ys = []) by (destruct y; try discriminate P; exact N).
    assert (Nw : forall w zs, ys <> Word w :: zs) by (intros w zs ->; discriminate N').
    destruct fuel as [|fuel]; [lia|]. cbn [List.concat] in *. rewrite <- app_assoc in *.
    rewrite (option_step t y ws _ fuel extra s H O1 P).
    2:{ intros ->. apply (behind_closed t ys); auto. intros ->. apply (B []). reflexivity. }
    apply IH; auto. { intros before ->. apply (B (y :: before)). reflexivity. }
    rewrite app_length in L. pose proof (written_length _ _ _ H). lia.
Qed.
(** single words among the options *)
Lemma single_line t n : tplaces t = Single n -> forall ys wss, Forall2 (written value_word) ys wss -> Forall (part_offered t) ys -> not_swallowed ys ->
  Forall (fun w => allowed t w = true) (own_words ys) ->
  forall fuel extra s, (List.length (t_words s) + List.length (own_words ys) <= n)%nat -> (List.length (List.concat wss) < fuel)%nat ->
  parses t fuel extra (List.concat wss) s = Parsed (puts ys s, extra).
Proof.
  intros Pl ys wss W. induction W as [|y ws ys wss H W IH]; intros O Sw A fuel extra s L F.
  - destruct fuel; [cbn in F; lia|]. reflexivity.
  - inversion O as [|? ? O1 O2]; subst. cbn [List.concat] in *. destruct fuel as [|fuel]; [lia|]. rewrite app_length in F. pose proof (written_length _ _ _ H) as H1.
    assert (Sw' : not_swallowed ys) by (intros b a w ->; apply (Sw (y :: b) a w); reflexivity).
    destruct (is_word y) eqn:P.
    + destruct y; try discriminate P. destruct H as [-> V]. cbn [own_words flat_map app] in A, L. change (flat_map _ ys) with (own_words ys) in A, L. inversion A as [|? ? A1 A2]; subst. cbn [app parse_tool]. rewrite (tvalue_plainly t w V), Pl.
      replace (List.length (t_words s) <? n)%nat with true by (symmetry; apply Nat.ltb_lt; cbn [List.length] in L; lia). rewrite A1.
      rewrite (IH O2 Sw' A2); [destruct s; reflexivity| |lia]. destruct s; cbn in L |- *. rewrite app_length. cbn. lia.
    + assert (A' : Forall (fun w => allowed t w = true) (own_words ys)) by (destruct y; try discriminate P; exact A).
      rewrite (option_step t y ws _ fuel extra s H O1 P).
      * apply IH; auto; [|lia]. destruct s, y; try discriminate P; exact L.
      * intros ->. rewrite <- (app_nil_r (List.concat wss)). apply (behind_closed t ys wss []); [exact W|exact O2| |exact (fun _ => I)]. intros w zs ->. apply (Sw [] zs w). reflexivity.
Qed.
Lemma take_words_all t : forall ws rest, Forall value_word ws -> closed_at t rest -> take_words t (ws ++ rest) = (ws, rest).
Proof.
  induction ws as [|w ws IH]; intros rest V C.
  - destruct rest as [|t' rest]; [reflexivity|]. cbn in C |- *. rewrite C. reflexivity.
  - inversion V; subst. cbn [app take_words]. rewrite tplain_value by assumption. rewrite IH by assumption. reflexivity.
Qed.
Lemma words_written : forall ws wss, Forall2 (written value_word) (map Word ws) wss -> List.concat wss = ws /\ Forall value_word ws.
Proof.
  induction ws as [|w ws IH]; intros wss W; inversion W as [|? ? ? ? H1 H2]; subst; [split; [reflexivity|constructor]|]. destruct (IH _ H2) as [E V]. destruct H1 as [-> V1].
  cbn [List.concat]. rewrite E. split; [reflexivity|constructor; assumption].
Qed.
(** a list of words *)
Lemma listed_line t one : tplaces t = Listed one -> forall ys wss, Forall2 (written value_word) ys wss -> Forall (part_offered t) ys -> not_swallowed ys -> together ys ->
  forall fuel extra s, t_filled s = false -> (List.length (List.concat wss) < fuel)%nat -> parses t fuel extra (List.concat wss) s = Parsed (puts ys s, extra).
Proof.
  intros Pl ys wss W O Sw [before [ws [after [-> [B A]]]]] fuel extra s Fi L.
  apply Forall2_app_inv_l in W. destruct W as [w1 [w23 [W1 [W23 ->]]]]. apply Forall2_app_inv_l in W23. destruct W23 as [w2 [w3 [W2 [W3 ->]]]].
  rewrite !concat_app in *. destruct (words_written _ _ W2) as [E V]. rewrite E in *. rewrite !fold_left_app.
  apply Forall_app in O. destruct O as [O1 O]. apply Forall_app in O. destruct O as [_ O3].
  assert (C3 : closed_at t (List.concat w3)).
  { rewrite <- (app_nil_r (List.concat w3)). apply (behind_closed t after w3 []); [exact W3|exact O3| |exact (fun _ => I)]. intros w zs ->. discriminate A. }
  assert (Last : forall fuel s, (List.length (List.concat w3) < fuel)%nat -> parses t fuel extra (List.concat w3) s = Parsed (puts after s, extra)).
  { intros f s' Lf. rewrite <- (app_nil_r (List.concat w3)) in Lf |- *. destruct (options_line t after w3 W3 O3 A [] f extra s' (fun _ _ => I) Lf) as [f' [Lf' ->]]. destruct f'; [cbn in Lf'; lia|]. reflexivity. }
  destruct (options_line t before w1 W1 O1 B (ws ++ List.concat w3) fuel extra s) as [f [Lf ->]]; [|exact L|].
  { intros b ->. destruct ws as [|w ws]; [exact C3|]. exfalso. apply (Sw b (map Word ws ++ after) w). rewrite <- app_assoc. reflexivity. }
  destruct ws as [|w ws]; [cbn [map fold_left app] in *; apply Last; exact Lf|].
  destruct f as [|f]; [lia|]. rewrite puts_words by discriminate. cbn [app parse_tool]. rewrite (tvalue_plainly t w (Forall_inv V)), Pl.
  assert (Fi' : t_filled (puts before s) = false).
  { rewrite get_filled, Fi. cbn [orb]. clear - B. induction before as [|x l IH]; [reflexivity|]. destruct x; try (cbn; apply IH; exact B). discriminate B. }
  rewrite Fi'. change (w :: ws ++ List.concat w3) with ((w :: ws) ++ List.concat w3). rewrite (take_words_all t (w :: ws) _ V C3). apply Last. rewrite app_length in Lf. cbn in Lf. lia.
Qed.
Lemma no_odd t : forall ys wss, Forall2 (written value_word) ys wss -> Forall (part_offered t) ys ->
  existsb (fun w => match tclassify t w with TOdd => true | _ => false end) (List.concat wss) = false.
Proof.
  intros ys wss W. induction W as [|y ws ys wss H W IH]; intro O; [reflexivity|]. inversion O as [|? ? O1 O2]; subst. cbn [List.concat]. rewrite existsb_app, IH by exact O2. rewrite orb_false_r.
  destruct (part_form _ _ _ H) as [[w [-> [-> V]]]|[P [f [vs [-> [F [V _]]]]]]].
  - cbn [existsb]. rewrite (tvalue_plainly t w V). reflexivity.
  - cbn [existsb]. rewrite (tflag_classified t y f O1 P F). cbn [orb]. clear - V. induction V as [|v vs V1 V2 IH]; [reflexivity|]. cbn [existsb]. rewrite (tvalue_plainly t v V1). exact IH.
Qed.

(** ** The other way: what was read was written *)
Lemma plain_any t w : tplain t w = true -> any_word w.
Proof. intro E. apply (tplainly_word t). unfold tplain in E. destruct (tclassify t w); try discriminate; reflexivity. Qed.
Lemma targuments_only t o rest vs rest' : targuments t o rest = Some (vs, rest') -> rest = vs ++ rest' /\ Forall any_word vs /\
  match o with
  | TStep | TKh | TKq | TEpochs | TSkip | TSeed => exists w, vs = [w] | TParameter => exists k w, vs = [k; w] | TProfile => vs = [] \/ exists w, vs = [w] | _ => vs = []
  end.
Proof.
  destruct o; cbn [targuments]; intro E; try (injection E as <- <-; repeat split; constructor);
  try (destruct rest as [|v rest]; [discriminate|]; destruct (tplain t v) eqn:X; [|discriminate]; injection E as <- <-; repeat split; [constructor; [apply (plain_any t); exact X|constructor]|eauto]).
  - destruct rest as [|v1 [|v2 rest]]; try discriminate. destruct (tplain t v1) eqn:X1; [|discriminate]. destruct (tplain t v2) eqn:X2; [|discriminate]. injection E as <- <-.
    split; [reflexivity|]. split; [constructor; [apply (plain_any t); exact X1|constructor; [apply (plain_any t); exact X2|constructor]]|eauto].
  - destruct rest as [|v rest]; [injection E as <- <-; repeat split; [constructor|auto]|]. destruct (tplain t v) eqn:X; injection E as <- <-; repeat split; auto.
    + constructor; [apply (plain_any t); exact X|constructor].
    + right. eauto.
Qed.
Lemma stored_part t o f vs s s1 : In o (topts t) -> In f (tflags o) -> Forall any_word vs ->
  match o with
  | TStep | TKh | TKq | TEpochs | TSkip | TSeed => exists w, vs = [w] | TParameter => exists k w, vs = [k; w] | TProfile => vs = [] \/ exists w, vs = [w] | _ => vs = []
  end -> stores o vs s = Parsed s1 -> exists x, written any_word x (f :: vs) /\ part_offered t x /\ is_word x = false /\ s1 = put s x.
Proof.
  intros I F V Sh St.
  assert (Fl : forall short long, tflags o = [short; long] -> spelled short long f) by (intros a b E; rewrite E in F; cbn in F; unfold spelled; intuition).
  assert (F1 : forall short, tflags o = [short] -> f = short) by (intros a E; rewrite E in F; cbn in F; intuition).
  assert (Fd : forall w x0 g, vs = [w] -> accepted (positive_float parse_float w) g = Parsed s1 -> x0 = f -> exists x, positive_float parse_float w = Ok x /\ s1 = g x).
  { intros w x0 g _ E _. unfold accepted in E. destruct (positive_float parse_float w) as [x|e]; [injection E as <-; eauto|destruct e; discriminate E]. }
  assert (Id : forall w g, accepted (positive_int parse_int w) g = Parsed s1 -> exists x, positive_int parse_int w = Ok x /\ s1 = g x).
  { intros w g E. unfold accepted in E. destruct (positive_int parse_int w) as [x|e]; [injection E as <-; eauto|destruct e; discriminate E]. }
  assert (Any : forall w, vs = [w] -> any_word w) by (intros w ->; exact (Forall_inv V)).
  destruct s. destruct o; try (cbn in St; discriminate St); cbn [tstore] in St.
  all: try match type of Sh with exists x, ?v = [x] => destruct Sh as [w Ew]; subst v; cbn [hd] in St end.
  1: exists NoFigures. 2: exists SavePlots. 3: exists Histograms.
  11: exists ResumeTraining. 12: exists ConfirmSaving. 13: exists PlotLosses. 15: exists PrintArguments.
  all: try (injection St as <-; subst vs; repeat split; [cbn [part_written]; f_equal; apply F1; reflexivity|destruct t; cbn in I; intuition (congruence || discriminate)]).
  - destruct (Fd _ _ _ eq_refl St eq_refl) as [x [X ->]]. apply positive_float_iff in X. exists (StepLength x). repeat split; [|destruct t; cbn in I; intuition (congruence || discriminate)].
    exists f, w. repeat split; try apply X; [apply Fl; reflexivity|apply Any; reflexivity].
  - destruct (Fd _ _ _ eq_refl St eq_refl) as [x [X ->]]. apply positive_float_iff in X. exists (HeightThreshold x). repeat split; [|destruct t; cbn in I; intuition (congruence || discriminate)].
    exists f, w. repeat split; try apply X; [left; apply F1; reflexivity|apply Any; reflexivity].
  - destruct (Fd _ _ _ eq_refl St eq_refl) as [x [X ->]]. apply positive_float_iff in X. exists (DischargeThreshold x). repeat split; [|destruct t; cbn in I; intuition (congruence || discriminate)].
    exists f, w. repeat split; try apply X; [left; apply F1; reflexivity|apply Any; reflexivity].
  - destruct Sh as [w [w' ->]]. injection St as <-. exists (NetworkParameter w w'). repeat split; [|destruct t; cbn in I; intuition (congruence || discriminate)].
    exists f. inversion V as [|? ? V1 V2]; subst. repeat split; [apply Fl; reflexivity|exact V1|exact (Forall_inv V2)].
  - destruct (Id _ _ St) as [x [X ->]]. apply positive_int_iff in X. exists (MaxEpochs x). repeat split; [|destruct t; cbn in I; intuition (congruence || discriminate)].
    exists f, w. repeat split; try apply X; [apply Fl; reflexivity|apply Any; reflexivity].
  - destruct (Id _ _ St) as [x [X ->]]. apply positive_int_iff in X. exists (EveryNth x). repeat split; [|destruct t; cbn in I; intuition (congruence || discriminate)].
    exists f, w. repeat split; try apply X; [left; apply F1; reflexivity|apply Any; reflexivity].
  - destruct (Id _ _ St) as [x [X ->]]. apply positive_int_iff in X. exists (TrainingSeed x). repeat split; [|destruct t; cbn in I; intuition (congruence || discriminate)].
    exists f, w. repeat split; try apply X; [left; apply F1; reflexivity|apply Any; reflexivity].
  - destruct Sh as [->|[w ->]].
    + injection St as <-. exists (ProfileLines None). repeat split. cbn [part_written]. f_equal. apply F1. reflexivity.
    + cbn [hd] in St. unfold int_of in St. destruct (parse_int w) as [z|] eqn:Z; [|discriminate]. injection St as <-. exists (ProfileLines (Some z)). repeat split.
      exists w. repeat split; [f_equal; apply F1; reflexivity|apply Any; reflexivity|exact Z].
  - injection St as <-. subst vs. repeat split. cbn [part_written]. f_equal. apply F1. reflexivity.
Qed.
Lemma extra_stays t : forall fuel tokens s s', parses t fuel true tokens s <> Parsed (s', false).
Proof.
  induction fuel as [|fuel IH]; intros [|w rest] s s'; cbn [parse_tool]; try discriminate. destruct (tclassify t w) as [|o| |]; try discriminate; try apply IH.
  - destruct (tplaces t); [destruct (_ <? _)%nat; [destruct (allowed t w); [apply IH|discriminate]|apply IH]|]. destruct (t_filled s); [apply IH|].
    destruct (take_words t (w :: rest)) as [a b]. apply IH.
  - destruct (targuments t o rest) as [[vs rest']|]; [|discriminate]. destruct (stores o vs s); try discriminate. apply IH.
Qed.
Lemma take_words_any t : forall l a b, take_words t l = (a, b) -> l = a ++ b /\ Forall any_word a.
Proof.
  induction l as [|w l IH]; intros a b E; cbn [take_words] in E; [injection E as <- <-; split; [reflexivity|constructor]|].
  destruct (tplain t w) eqn:X; [|injection E as <- <-; split; [reflexivity|constructor]]. destruct (take_words t l) as [a' b'] eqn:Y. injection E as <- <-.
  destruct (IH a' b' eq_refl) as [-> H]. split; [reflexivity|constructor; [apply (plain_any t); exact X|exact H]].
Qed.
Lemma words_are_written : forall ws, Forall any_word ws -> Forall2 (written any_word) (map Word ws) (map (fun w => [w]) ws) /\ List.concat (map (fun w => [w]) ws) = ws.
Proof.
  intros ws V. induction V as [|w ws V1 V2 [IH1 IH2]]; [split; [constructor|reflexivity]|]. cbn [map List.concat]. rewrite IH2. split; [constructor; [split; [reflexivity|exact V1]|exact IH1]|reflexivity].
Qed.
Lemma not_empty_line t w rest a b : tplain t w = true -> take_words t (w :: rest) = (a, b) -> a <> [].
Proof. intros P E. cbn [take_words] in E. rewrite P in E. destruct (take_words t rest). injection E as <- _. discriminate. Qed.
Lemma read_line t : forall fuel tokens s s', parses t fuel false tokens s = Parsed (s', false) -> (tplaces t = Single 0 -> t = TCurvature) ->
  (forall n, tplaces t = Single n -> (List.length (t_words s) <= n)%nat) ->
  exists ys wss, tokens = List.concat wss /\ Forall2 (written any_word) ys wss /\ Forall (part_offered t) ys /\ s' = puts ys s /\
    match tplaces t with
    | Single n => (List.length (t_words s') <= n)%nat /\ Forall (fun w => allowed t w = true) (own_words ys)
    | Listed _ => if t_filled s then own_words ys = [] else together ys
    end.
Proof.
  intros fuel. induction fuel as [|fuel IH]; intros [|w rest] s s' E T0 Sg; cbn [parse_tool] in E; try discriminate.
  - injection E as <-. exists [], []. repeat split; try constructor. destruct (tplaces t) as [n|] eqn:Pl; [split; [apply Sg; reflexivity|constructor]|].
    destruct (t_filled s); [reflexivity|]. exists [], [], []. repeat split.
  - destruct (tclassify t w) as [|o| |] eqn:C; try discriminate.
    + assert (Pw : tplain t w = true) by (unfold tplain; rewrite C; reflexivity).
      destruct (tplaces t) as [n|one] eqn:Pl.
      * destruct (Nat.ltb_spec (List.length (t_words s)) n) as [Lt|Ge]; [|exfalso; apply (extra_stays _ _ _ _ _ E)].
        destruct (allowed t w) eqn:Al; [|discriminate].
        destruct (IH rest (with_words [w] s) s' E T0) as [ys [wss [H1 [H2 [H3 [H4 H5]]]]]].
        { intros m Em. injection Em as <-. destruct s; cbn in Lt |- *. rewrite app_length. cbn. lia. }
        exists (Word w :: ys), ([w] :: wss). cbn [List.concat app]. repeat match goal with |- _ /\ _ => split end.
        -- congruence.
        -- constructor; [split; [reflexivity|apply (plain_any t); exact Pw]|exact H2].
        -- constructor; [|exact H3]. cbn. intros ->. cbn in Pl. injection Pl as <-. lia.
        -- cbn [fold_left]. replace (put s (Word w)) with (with_words [w] s) by (destruct s; reflexivity). exact H4.
        -- apply H5.
        -- cbn [own_words flat_map app]. constructor; [exact Al|apply H5].
      * destruct (t_filled s) eqn:Fi; [exfalso; apply (extra_stays _ _ _ _ _ E)|]. destruct (take_words t (w :: rest)) as [a b] eqn:Ta.
        destruct (take_words_any _ _ _ _ Ta) as [Eab Va]. pose proof (not_empty_line _ _ _ _ _ Pw Ta) as Na.
        destruct (IH b (with_words a s) s' E T0) as [ys [wss [H1 [H2 [H3 [H4 H5]]]]]]; [intros m Em; congruence|].
        destruct (words_are_written a Va) as [Wa Ca].
        exists (map Word a ++ ys), (map (fun w => [w]) a ++ wss). rewrite concat_app, Ca, fold_left_app, puts_words by exact Na. repeat match goal with |- _ /\ _ => split end.
        -- congruence.
        -- apply Forall2_app; assumption.
        -- apply Forall_app. split; [|exact H3]. clear - Pl. induction a as [|x a IH]; constructor; [cbn; intros ->; discriminate Pl|exact IH].
        -- exact H4.
        -- replace (t_filled (with_words a s)) with true in H5 by (destruct s; reflexivity). exists [], a, ys. auto.
    + destruct (targuments t o rest) as [[vs rest']|] eqn:Ar; [|discriminate]. destruct (stores o vs s) as [s1| | |] eqn:St; try discriminate. cbn [obind] in E.
      destruct (toption_in _ _ _ C) as [I1 I2]. destruct (targuments_only _ _ _ _ _ Ar) as [-> [V Sh]].
      destruct (stored_part t o w vs s s1 I1 I2 V Sh St) as [x [X1 [X2 [X3 ->]]]].
      assert (Same : t_words (put s x) = t_words s /\ t_filled (put s x) = t_filled s) by (destruct s, x; try discriminate X3; split; reflexivity). destruct Same as [Sm1 Sm2].
      destruct (IH rest' (put s x) s' E T0) as [ys [wss [H1 [H2 [H3 [H4 H5]]]]]]; [rewrite Sm1; exact Sg|].
      assert (Ow : own_words (x :: ys) = own_words ys) by (destruct x; try discriminate X3; reflexivity).
      exists (x :: ys), ((w :: vs) :: wss). cbn [List.concat app fold_left]. rewrite Ow. repeat match goal with |- _ /\ _ => split end.
      * congruence.
      * constructor; assumption.
      * constructor; assumption.
      * exact H4.
      * rewrite Sm2 in H5. destruct (tplaces t) as [n|one]; [exact H5|]. destruct (t_filled s); [exact H5|]. destruct H5 as [b [ws [a [-> [B A]]]]].
        exists (x :: b), ws, a. split; [reflexivity|]. split; [|exact A]. destruct x; try discriminate X3; exact B.
    + exfalso. apply (extra_stays _ _ _ _ _ E).
Qed.
End Lines.

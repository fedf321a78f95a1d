From Coq Require Import Reals List Lia Lra Arith Bool.
From Verif Require Import Prelude L_Prelude M_ODE S_ODE.
Import ListNotations.
Open Scope R_scope.

#[export] Instance R_VecLaws : VecLaws R (fun _ => True).
Proof. constructor; simpl; auto. intros a b _ _ E. apply (E (0%nat, true)). Qed.

#[export] Instance list_VecLaws {W} `{CellLaws W} (n : nat) :
  VecLaws (list W) (fun l => length l = n).
Proof.
  constructor; simpl.
  - intros. rewrite map2_length. lia.
  - intros. rewrite map_length; auto.
  - intros [i k] a b Ha Hb. simpl. destruct (Nat.lt_ge_cases i n).
    + rewrite (nth_map2 cadd a b i czero czero) by lia. apply ccoord_add.
    + rewrite !nth_overflow by (rewrite ?map2_length; lia). rewrite ccoord_zero. lra.
  - intros [i k] r a Ha. simpl. destruct (Nat.lt_ge_cases i n).
    + rewrite (nth_map' (cscal r) a i czero) by lia. apply ccoord_scal.
    + rewrite !nth_overflow by (rewrite ?map_length; lia). rewrite ccoord_zero. lra.
  - intros a b Ha Hb E. apply (list_ext czero); [lia|]. intros i Hi. apply ccoord_ext.
    intro k. apply (E (i, k)).
Qed.

Section RK.
Context {V : Type} (D : V -> Prop) `{L : VecLaws V D}.

Lemma wsum_nil_r cs : wsum cs (@nil V) = None.
Proof. destruct cs; reflexivity. Qed.

Lemma wsum_spec : forall (cs : list R) (ks : list V), Forall D ks -> length cs = length ks ->
  match wsum cs ks with
  | None => ks = []
  | Some r => D r /\ forall p, vcoord p r = rsum (map2 (fun c k => c * vcoord p k) cs ks)
  end.
Proof.
  induction cs as [|c cs IH]; intros [|k ks] Hk Hl; simpl; auto; try discriminate.
  inversion Hk; subst. specialize (IH ks H3 ltac:(simpl in Hl; lia)).
  destruct (wsum cs ks) as [r|].
  - destruct IH as [I1 I2]. split.
    + apply vdom_add; auto. apply vdom_scal; auto.
    + intro p. rewrite vcoord_add, vcoord_scal, I2; auto. apply vdom_scal; auto.
  - subst. split; [apply vdom_scal; auto|]. intro p. rewrite vcoord_scal by auto.
    destruct cs; simpl; lra.
Qed.

Lemma axpy_spec u dt cs ks : D u -> Forall D ks -> length cs = length ks ->
  D (axpy u dt (wsum cs ks)) /\
  forall p, vcoord p (axpy u dt (wsum cs ks)) =
            vcoord p u + dt * rsum (map2 (fun c k => c * vcoord p k) cs ks).
Proof.
  intros Hu Hk Hl. pose proof (wsum_spec cs ks Hk Hl) as W. unfold axpy.
  destruct (wsum cs ks) as [r|].
  - destruct W as [W1 W2]. split.
    + apply vdom_add; auto. apply vdom_scal; auto.
    + intro p. rewrite vcoord_add, vcoord_scal, W2; auto. apply vdom_scal; auto.
  - subst. split; auto. intro p. destruct cs; simpl; lra.
Qed.

Lemma map2_nth_tab {A B} (g : R -> A -> B) cs (ks : list A) da (db : B) n :
  length cs = n -> length ks = n ->
  map2 g cs ks = tab n (fun j => g (nth j cs 0) (nth j ks da)).
Proof.
  intros H1 H2. apply (list_ext db).
  - rewrite map2_length, tab_length. lia.
  - intros i Hi. rewrite map2_length in Hi. rewrite nth_tab by lia.
    apply nth_map2; lia.
Qed.

(* the loop invariant of execute *)
Lemma rk_stages_spec (f : R -> V -> V) (T : tableau) dt (o : ode V) :
  (forall t u, D u -> D (f t u)) -> D (o_sol o) ->
  forall n, (forall i, (i < n)%nat -> (i <= length (nth i (rk_A T) []))%nat) ->
  exists X k,
    fold_left (rk_stage f T dt o) (seq 0 n) ([], [], [])
      = (tab n (fun i => o_time o + rkc T i * dt), tab n X, tab n k) /\
    rk_stage_spec D f T dt (o_time o) (o_sol o) n X k.
Proof.
  intros Hf Hu. induction n; intros HA.
  - exists (fun _ => o_sol o), (fun _ => o_sol o). split; [reflexivity|]. intros i Hi; lia.
  - destruct IHn as [X [k [E S]]]; [intros; apply HA; lia|].
    set (Xn := axpy (o_sol o) dt (wsum (firstn n (nth n (rk_A T) [])) (tab n k))).
    assert (Hk : Forall D (tab n k)).
    { apply Forall_forall. intros y Hy. apply in_tab in Hy as [i [Hi <-]].
      destruct (S i Hi) as [S1 [_ S3]]. rewrite S3. auto. }
    assert (Hlen : length (firstn n (nth n (rk_A T) [])) = length (tab n k)).
    { rewrite firstn_length, tab_length. specialize (HA n ltac:(lia)). lia. }
    destruct (axpy_spec (o_sol o) dt _ _ Hu Hk Hlen) as [A1 A2]. fold Xn in A1, A2.
    exists (fun i => if Nat.eqb i n then Xn else X i),
           (fun i => if Nat.eqb i n then f (o_time o + rkc T n * dt) Xn else k i).
    split.
    + rewrite seq_S, fold_left_app, E. cbn [fold_left plus]. unfold rk_stage. fold Xn.
      rewrite !tab_snoc, Nat.eqb_refl.
      rewrite (tab_ext n (fun i => if Nat.eqb i n then Xn else X i) X).
      2:{ intros i Hi. destruct (Nat.eqb_spec i n); [lia|auto]. }
      rewrite (tab_ext n (fun i => if Nat.eqb i n then f (o_time o + rkc T n * dt) Xn else k i) k).
      2:{ intros i Hi. destruct (Nat.eqb_spec i n); [lia|auto]. }
      reflexivity.
    + intros i Hi. destruct (Nat.eqb_spec i n).
      * subst i. split; [exact A1|]. split; [|reflexivity].
        intro p. rewrite A2. do 2 f_equal.
        rewrite (map2_nth_tab _ _ _ (o_sol o) 0 n) by (rewrite ?tab_length in *; auto).
        f_equal. apply tab_ext. intros j Hj.
        destruct (Nat.eqb_spec j n); [lia|].
        rewrite nth_tab by auto. rewrite nth_firstn by auto. reflexivity.
      * assert (Hi' : (i < n)%nat) by lia. destruct (S i Hi') as [S1 [S2 S3]].
        split; [exact S1|]. split; [|exact S3].
        intro p. rewrite S2. do 2 f_equal. f_equal. apply tab_ext. intros j Hj.
        destruct (Nat.eqb_spec j n); [lia|auto].
Qed.

Lemma rk_execute_correct (f : R -> V -> V) (T : tableau) dt (o : ode V) :
  (forall t u, D u -> D (f t u)) -> D (o_sol o) ->
  (forall i, (i < length (rk_b T))%nat -> (i <= length (nth i (rk_A T) []))%nat) ->
  exists X k,
    rk_stage_spec D f T dt (o_time o) (o_sol o) (length (rk_b T)) X k /\
    rk_time_nodes f T dt o = tab (length (rk_b T)) (fun i => o_time o + rkc T i * dt) /\
    rk_stage_values f T dt o = tab (length (rk_b T)) X /\
    o_time (rk_execute f T dt o) = o_time o + dt /\
    rk_result_spec D T dt (o_sol o) (length (rk_b T)) k (o_sol (rk_execute f T dt o)).
Proof.
  intros Hf Hu HA. destruct (rk_stages_spec f T dt o Hf Hu (length (rk_b T)) HA) as [X [k [E S]]].
  exists X, k. split; [exact S|].
  unfold rk_time_nodes, rk_stage_values, rk_execute, rk_stages. rewrite E. simpl.
  split; [reflexivity|]. split; [reflexivity|]. split; [reflexivity|].
  assert (Hk : Forall D (tab (length (rk_b T)) k)).
  { apply Forall_forall. intros y Hy. apply in_tab in Hy as [i [Hi <-]].
    destruct (S i Hi) as [S1 [_ S3]]. rewrite S3. auto. }
  destruct (axpy_spec (o_sol o) dt (rk_b T) (tab (length (rk_b T)) k) Hu Hk) as [A1 A2].
  { rewrite tab_length; auto. }
  split; [exact A1|]. intro p. rewrite A2. do 2 f_equal.
  rewrite (map2_nth_tab _ _ _ (o_sol o) 0 (length (rk_b T))) by (rewrite ?tab_length; auto).
  f_equal. apply tab_ext. intros j Hj. rewrite nth_tab by auto. reflexivity.
Qed.

(* determinism of the specification *)
Lemma rk_stage_spec_unique f T dt t u s X k X' k' :
  rk_stage_spec D f T dt t u s X k -> rk_stage_spec D f T dt t u s X' k' ->
  forall i, (i < s)%nat -> X i = X' i /\ k i = k' i.
Proof.
  intros S S' i. induction i as [i IH] using lt_wf_ind. intro Hi.
  destruct (S i Hi) as [S1 [S2 S3]], (S' i Hi) as [S1' [S2' S3']].
  assert (X i = X' i).
  { apply vcoord_ext; auto. intro p. rewrite S2, S2'. do 2 f_equal. f_equal. apply tab_ext.
    intros j Hj. destruct (IH j Hj) as [_ E]; [lia|]. rewrite E. reflexivity. }
  split; auto. rewrite S3, S3', H0. reflexivity.
Qed.

(* linear invariants *)
Lemma rk_execute_linear (f : R -> V -> V) (T : tableau) dt (o : ode V) (F : V -> R) :
  (forall a b, D a -> D b -> F (vadd a b) = F a + F b) ->
  (forall r a, D a -> F (vscal r a) = r * F a) ->
  (forall t u, D u -> D (f t u)) -> D (o_sol o) ->
  (forall i, (i < length (rk_b T))%nat -> (i <= length (nth i (rk_A T) []))%nat) ->
  (forall t u, D u -> F (f t u) = 0) ->
  F (o_sol (rk_execute f T dt o)) = F (o_sol o) /\ D (o_sol (rk_execute f T dt o)).
Proof.
  intros Fa Fs Hf Hu HA HF.
  destruct (rk_stages_spec f T dt o Hf Hu (length (rk_b T)) HA) as [X [k [E S]]].
  unfold rk_execute, rk_stages. rewrite E. simpl.
  assert (Hk : Forall (fun v => D v /\ F v = 0) (tab (length (rk_b T)) k)).
  { apply Forall_forall. intros y Hy. apply in_tab in Hy as [i [Hi <-]].
    destruct (S i Hi) as [S1 [_ S3]]. rewrite S3. auto. }
  assert (W : forall cs ks, Forall (fun v => D v /\ F v = 0) ks ->
     match wsum cs ks with None => True | Some r => D r /\ F r = 0 end).
  { induction cs as [|c cs IH]; intros [|y ks] Hy; simpl; auto.
    inversion Hy as [|? ? [Hy1 Hy2] Hy3]; subst. specialize (IH ks Hy3). destruct (wsum cs ks) as [r|].
    - destruct IH. split; [apply vdom_add; auto; apply vdom_scal; auto|].
      rewrite Fa by (auto; apply vdom_scal; auto). rewrite Fs by auto. rewrite Hy2, H1. ring.
    - split; [apply vdom_scal; auto|]. rewrite Fs by auto. rewrite Hy2. ring. }
  specialize (W (rk_b T) _ Hk). unfold axpy. destruct (wsum (rk_b T) _) as [r|]; auto.
  destruct W as [W1 W2]. split.
  - rewrite Fa by (auto; apply vdom_scal; auto). rewrite Fs by auto. rewrite W2. ring.
  - apply vdom_add; auto. apply vdom_scal; auto.
Qed.

(* textbook formulas; vector identities are proved coordinatewise *)
Ltac vdom := repeat first [assumption | apply vdom_add | apply vdom_scal].
Ltac vcoords := repeat first [rewrite vcoord_add by vdom | rewrite vcoord_scal by vdom].
Ltac veq := apply vcoord_ext; [vdom | vdom | let p := fresh "p" in intro p; vcoords].

Lemma euler_step (f : R -> V -> V) dt (o : ode V) : D (o_sol o) -> (forall t u, D u -> D (f t u)) ->
  rk_execute f euler dt o =
  {| o_time := o_time o + dt; o_sol := vadd (o_sol o) (vscal dt (f (o_time o) (o_sol o))) |}.
Proof.
  intros Hu Hf. unfold rk_execute, rk_stages, euler. simpl. f_equal.
  replace (o_time o + 0 * dt) with (o_time o) by ring.
  assert (D (f (o_time o) (o_sol o))) by auto. veq. ring.
Qed.

Lemma heun_step (f : R -> V -> V) dt (o : ode V) : D (o_sol o) -> (forall t u, D u -> D (f t u)) ->
  let u := o_sol o in let t := o_time o in
  let u1 := vadd u (vscal dt (f t u)) in
  rk_execute f heun dt o =
  {| o_time := t + dt;
     o_sol := vadd (vscal (1/2) u) (vscal (1 - 1/2) (vadd u1 (vscal dt (f (t + dt) u1)))) |}.
Proof.
  intros Hu Hf u t u1. unfold rk_execute, rk_stages, heun. simpl.
  fold u t. replace (t + 0 * dt) with t by ring. replace (t + 1 * dt) with (t + dt) by ring.
  assert (Hu0 : D u) by exact Hu. assert (H1 : D (f t u)) by auto.
  assert (E : vadd u (vscal dt (vscal 1 (f t u))) = u1) by (unfold u1; veq; ring).
  rewrite E. assert (D u1) by (unfold u1; vdom). assert (D (f (t + dt) u1)) by auto.
  f_equal. veq. unfold u1 at 2. vcoords. field.
Qed.

Lemma ssp3_step (f : R -> V -> V) dt (o : ode V) : D (o_sol o) -> (forall t u, D u -> D (f t u)) ->
  let u := o_sol o in let t := o_time o in
  let u1 := vadd u (vscal dt (f t u)) in
  let u2 := vadd (vscal (3/4) u) (vscal (1 - 3/4) (vadd u1 (vscal dt (f (t + dt) u1)))) in
  rk_execute f ssp3 dt o =
  {| o_time := t + dt;
     o_sol := vadd (vscal (1/3) u) (vscal (1 - 1/3) (vadd u2 (vscal dt (f (t + 1/2 * dt) u2)))) |}.
Proof.
  intros Hu Hf u t u1 u2. unfold rk_execute, rk_stages, ssp3. simpl.
  fold u t. replace (t + 0 * dt) with t by ring. replace (t + 1 * dt) with (t + dt) by ring.
  assert (Hu0 : D u) by exact Hu. assert (H1 : D (f t u)) by auto.
  assert (E : vadd u (vscal dt (vscal 1 (f t u))) = u1) by (unfold u1; veq; ring).
  rewrite E. assert (D u1) by (unfold u1; vdom). assert (D (f (t + dt) u1)) by auto.
  assert (E2 : vadd u (vscal dt (vadd (vscal (1/4) (f t u)) (vscal (1/4) (f (t + dt) u1)))) = u2).
  { unfold u2. veq. unfold u1 at 2. vcoords. field. }
  rewrite E2. assert (D u2) by (unfold u2; vdom).
  assert (D (f (t + 1/2 * dt) u2)) by auto.
  f_equal. veq. unfold u2 at 2. vcoords. unfold u1 at 2. vcoords. field.
Qed.

(* convex invariants *)
Lemma ssp_convex_invariant (f : R -> V -> V) (K : V -> Prop) dt T (o : ode V) :
  (forall u, K u -> D u) -> (forall t u, D u -> D (f t u)) -> convex_set K ->
  (forall t u, K u -> K (vadd u (vscal dt (f t u)))) ->
  T = euler \/ T = heun \/ T = ssp3 ->
  K (o_sol o) -> K (o_sol (rk_execute f T dt o)).
Proof.
  intros KD Hf Hc HE HT Hu. destruct HT as [->|[->| ->]].
  - rewrite euler_step by auto. simpl. auto.
  - rewrite heun_step by auto. simpl. apply Hc; auto; lra.
  - rewrite ssp3_step by auto. simpl. apply Hc; auto; try lra. apply HE. apply Hc; auto; lra.
Qed.
End RK.

Section Runs.
Context {V : Type} (D : V -> Prop) `{L : VecLaws V D}.

Lemma rk_run_time f T dts (o : ode V) : o_time (rk_run f T dts o) = o_time o + rsum dts.
Proof.
  unfold rk_run. revert o; induction dts as [|dt dts IH]; intro o; simpl; [lra|].
  rewrite IH. unfold rk_execute. destruct (rk_stages f T dt o) as [[? ?] ?]. simpl. unfold rsum. lra.
Qed.

Lemma ssp_convex_run (f : R -> V -> V) (K : V -> Prop) dts T (o : ode V) :
  (forall u, K u -> D u) -> (forall t u, D u -> D (f t u)) -> convex_set K ->
  (forall dt t u, In dt dts -> K u -> K (vadd u (vscal dt (f t u)))) ->
  T = euler \/ T = heun \/ T = ssp3 ->
  K (o_sol o) -> K (o_sol (rk_run f T dts o)).
Proof.
  intros KD Hf Hc HE HT. revert o HE. induction dts as [|dt dts IH]; intros o HE Hu; auto.
  apply (IH (rk_execute f T dt o)).
  - intros; apply HE; simpl; auto.
  - eapply (ssp_convex_invariant D); eauto. intros; apply HE; simpl; auto.
Qed.

Lemma rk_run_linear (f : R -> V -> V) (T : tableau) dts (o : ode V) (F : V -> R) :
  (forall a b, D a -> D b -> F (vadd a b) = F a + F b) ->
  (forall r a, D a -> F (vscal r a) = r * F a) ->
  (forall t u, D u -> D (f t u)) -> D (o_sol o) ->
  (forall i, (i < length (rk_b T))%nat -> (i <= length (nth i (rk_A T) []))%nat) ->
  (forall t u, D u -> F (f t u) = 0) ->
  F (o_sol (rk_run f T dts o)) = F (o_sol o) /\ D (o_sol (rk_run f T dts o)).
Proof.
  intros Fa Fs Hf Hu HA HF. revert o Hu. induction dts as [|dt dts IH]; intros o Hu; [split; auto|].
  destruct (rk_execute_linear D f T dt o F Fa Fs Hf Hu HA HF) as [E1 E2].
  destruct (IH (rk_execute f T dt o) E2) as [I1 I2]. split; [|exact I2].
  change (F (o_sol (rk_run f T dts (rk_execute f T dt o))) = F (o_sol o)). rewrite I1. exact E1.
Qed.
End Runs.

(** ** right hand sides that may raise *)
Section Err.
Context {V : Type} `{VecOps V}.

Definition totalise (d : V) (f : R -> V -> result V) (t : R) (u : V) : V :=
  match f t u with Ok v => v | Err _ => d end.

Lemma stage_e_total f d T dt o st i st' :
  rk_stage_e f T dt o st i = Ok st' -> rk_stage (totalise d f) T dt o st i = st'.
Proof.
  unfold rk_stage_e, rk_stage, totalise. destruct st as [[tns svs] ks].
  set (tn := _ + _). set (sv := axpy _ _ _).
  destruct (f tn sv); simpl; [|discriminate]. intro E; inversion E; reflexivity.
Qed.

Lemma fold_e_total f d T dt o l st st' :
  foldM (rk_stage_e f T dt o) l st = Ok st' -> fold_left (rk_stage (totalise d f) T dt o) l st = st'.
Proof.
  revert st; induction l as [|i l IH]; intros st; simpl; [intro E; inversion E; auto|].
  destruct (rk_stage_e f T dt o st i) eqn:E; simpl; [|discriminate].
  rewrite (stage_e_total _ d _ _ _ _ _ _ E). apply IH.
Qed.

Lemma rk_execute_e_total f d T dt o o' :
  rk_execute_e f T dt o = Ok o' -> rk_execute (totalise d f) T dt o = o'.
Proof.
  unfold rk_execute_e, rk_execute, rk_stages.
  destruct (foldM _ _ _) as [st|] eqn:E; simpl; [|discriminate].
  rewrite (fold_e_total _ d _ _ _ _ _ _ E). destruct st as [[? ?] ?]. intro E'; inversion E'; reflexivity.
Qed.

Lemma rk_run_e_total f d T dts o o' :
  rk_run_e f T dts o = Ok o' -> rk_run (totalise d f) T dts o = o'.
Proof.
  unfold rk_run_e, rk_run. revert o; induction dts as [|dt dts IH]; intros o; simpl; [intro E; inversion E; auto|].
  destruct (rk_execute_e f T dt o) eqn:E; simpl; [|discriminate].
  rewrite (rk_execute_e_total _ d _ _ _ _ E). apply IH.
Qed.

(* conversely, if f succeeds on all stages *)
Lemma rk_stages_prefix f T dt o l st :
  exists a b c, fold_left (rk_stage f T dt o) l st = (fst (fst st) ++ a, snd (fst st) ++ b, snd st ++ c)
   /\ length a = length l /\ length b = length l.
Proof.
  revert st; induction l as [|i l IH]; intros [[tns svs] ks]; cbn [fold_left fst snd].
  - exists [], [], []. rewrite !app_nil_r. auto.
  - destruct (IH (rk_stage f T dt o (tns, svs, ks) i)) as [a [b [c [E [La Lb]]]]]. rewrite E.
    unfold rk_stage; simpl. rewrite <- !app_assoc. simpl.
    do 3 eexists. split; [reflexivity|]. simpl. auto.
Qed.

Lemma fold_e_ok f d T dt o l st : 
  let r := fold_left (rk_stage (totalise d f) T dt o) l st in
  length (fst (fst st)) = length (snd (fst st)) ->
  (forall i t u, (length (snd (fst st)) <= i)%nat -> nth_error (fst (fst r)) i = Some t ->
      nth_error (snd (fst r)) i = Some u -> exists v, f t u = Ok v) ->
  foldM (rk_stage_e f T dt o) l st = Ok r.
Proof.
  revert st; induction l as [|i l IH]; intros st; cbn [fold_left foldM]; intros HL Hr; [reflexivity|].
  destruct st as [[tns svs] ks]. cbn [fst snd] in HL, Hr.
  set (tn := o_time o + nth i (rk_c T) 0 * dt) in *.
  set (sv := axpy (o_sol o) dt (wsum (firstn i (nth i (rk_A T) [])) ks)) in *.
  assert (Hf : exists v, f tn sv = Ok v).
  { apply (Hr (length svs)); auto.
    - destruct (rk_stages_prefix (totalise d f) T dt o l (rk_stage (totalise d f) T dt o (tns, svs, ks) i))
        as [a [b [c [E [La Lb]]]]]. rewrite E. unfold rk_stage; simpl.
      rewrite <- !app_assoc. rewrite nth_error_app2 by lia. rewrite HL, Nat.sub_diag. reflexivity.
    - destruct (rk_stages_prefix (totalise d f) T dt o l (rk_stage (totalise d f) T dt o (tns, svs, ks) i))
        as [a [b [c [E [La Lb]]]]]. rewrite E. unfold rk_stage; simpl.
      rewrite <- !app_assoc. rewrite nth_error_app2 by lia. rewrite Nat.sub_diag. reflexivity. }
  destruct Hf as [v Hv].
  assert (E : rk_stage_e f T dt o (tns, svs, ks) i = Ok (rk_stage (totalise d f) T dt o (tns, svs, ks) i)).
  { unfold rk_stage_e, rk_stage, totalise. fold tn sv. rewrite Hv. reflexivity. }
  rewrite E. simpl bind. apply IH.
  - unfold rk_stage; simpl. rewrite !app_length; simpl; lia.
  - intros j t u Hj. apply Hr. unfold rk_stage in Hj; simpl in Hj. rewrite app_length in Hj. simpl in Hj. lia.
Qed.

Lemma rk_execute_e_ok f d T dt o :
  (forall i t u, nth_error (rk_time_nodes (totalise d f) T dt o) i = Some t ->
     nth_error (rk_stage_values (totalise d f) T dt o) i = Some u -> exists v, f t u = Ok v) ->
  rk_execute_e f T dt o = Ok (rk_execute (totalise d f) T dt o).
Proof.
  intro Hr. unfold rk_execute_e, rk_execute, rk_stages.
  rewrite (fold_e_ok f d T dt o); auto.
  - simpl. destruct (fold_left _ _ _) as [[? ?] ?]. reflexivity.
  - intros i t u _. apply Hr.
Qed.
End Err.

Section ErrRuns.
Context {V : Type} (D : V -> Prop) `{L : VecLaws V D}.
Ltac vdom := repeat first [assumption | apply vdom_add | apply vdom_scal].
Ltac vcoords := repeat first [rewrite vcoord_add by vdom | rewrite vcoord_scal by vdom].
Ltac veq := apply vcoord_ext; [vdom | vdom | let p := fresh "p" in intro p; vcoords].

Lemma ssp_stage_values (f : R -> V -> V) (K : V -> Prop) dt T (o : ode V) :
  (forall u, K u -> D u) -> (forall t u, D u -> D (f t u)) -> convex_set K ->
  (forall t u, K u -> K (vadd u (vscal dt (f t u)))) ->
  T = euler \/ T = heun \/ T = ssp3 ->
  K (o_sol o) -> Forall K (rk_stage_values f T dt o).
Proof.
  intros KD Hf Hc HE HT Hu. set (u := o_sol o) in *. set (t := o_time o).
  assert (Hd : D u) by auto. assert (H1 : forall t, D (f t u)) by auto.
  assert (E : forall t, vadd u (vscal dt (vscal 1 (f t u))) = vadd u (vscal dt (f t u))).
  { intro t'. pose proof (H1 t'). veq. ring. }
  destruct HT as [->|[->| ->]]; unfold rk_stage_values, rk_stages; simpl; fold u t.
  - repeat constructor; auto.
  - repeat constructor; auto. rewrite E. auto.
  - repeat constructor; auto; rewrite ?E; auto.
    replace (t + 0 * dt) with t by ring. replace (t + 1 * dt) with (t + dt) by ring.
    set (u1 := vadd u (vscal dt (f t u))).
    assert (D (f t u)) by auto.
    assert (D u1) by (unfold u1; vdom). assert (D (f (t + dt) u1)) by auto.
    replace (vadd u (vscal dt (vadd (vscal (1/4) (f t u)) (vscal (1/4) (f (t + dt) u1)))))
      with (vadd (vscal (3/4) u) (vscal (1 - 3/4) (vadd u1 (vscal dt (f (t + dt) u1))))).
    + apply Hc; auto; try lra. apply HE. unfold u1. auto.
    + veq. unfold u1 at 1. vcoords. field.
Qed.

Lemma ssp_convex_run_e (f : R -> V -> result V) (d : V) (K : V -> Prop) dts T (o : ode V) :
  D d -> (forall u, K u -> D u) -> (forall t u v, D u -> f t u = Ok v -> D v) -> convex_set K ->
  (forall t u, K u -> exists v, f t u = Ok v) ->
  (forall dt t u v, In dt dts -> K u -> f t u = Ok v -> K (vadd u (vscal dt v))) ->
  T = euler \/ T = heun \/ T = ssp3 ->
  K (o_sol o) -> exists o', rk_run_e f T dts o = Ok o' /\ K (o_sol o') /\ o_time o' = o_time o + rsum dts.
Proof.
  intros Dd KD Hf Hc Hok HE HT Hu.
  assert (Hf' : forall t u, D u -> D (totalise d f t u)).
  { intros t u Du. unfold totalise. destruct (f t u) eqn:E; auto. eapply Hf; eauto. }
  assert (HE' : forall dt t u, In dt dts -> K u -> K (vadd u (vscal dt (totalise d f t u)))).
  { intros dt t u Hdt Ku. unfold totalise. destruct (Hok t u Ku) as [v E]. rewrite E. eapply HE; eauto. }
  assert (R : rk_run_e f T dts o = Ok (rk_run (totalise d f) T dts o)).
  { clear HE. revert o Hu HE'. unfold rk_run_e, rk_run. induction dts as [|dt dts IH]; intros o Hu HE'; [reflexivity|].
    simpl. rewrite (rk_execute_e_ok f d).
    - cbn [bind]. apply IH.
      + apply (ssp_convex_invariant D); auto. intros; apply HE'; simpl; auto.
      + intros; apply HE'; simpl; auto.
    - intros i t u Ht Hu'. apply Hok.
      pose proof (ssp_stage_values (totalise d f) K dt T o KD Hf' Hc
                    (fun t u => HE' dt t u (or_introl eq_refl)) HT Hu) as F.
      rewrite Forall_forall in F. apply F. eapply nth_error_In; eauto. }
  rewrite R. eexists. split; [reflexivity|]. split.
  - eapply (ssp_convex_run D); eauto.
  - apply rk_run_time.
Qed.

(* linear invariants of runs that do not fail *)
Lemma rk_run_e_linear (f : R -> V -> result V) (d : V) (T : tableau) dts (o o' : ode V) (F : V -> R) :
  (forall a b, D a -> D b -> F (vadd a b) = F a + F b) ->
  (forall r a, D a -> F (vscal r a) = r * F a) ->
  D d -> F d = 0 ->
  (forall t u v, D u -> f t u = Ok v -> D v /\ F v = 0) -> D (o_sol o) ->
  (forall i, (i < length (rk_b T))%nat -> (i <= length (nth i (rk_A T) []))%nat) ->
  rk_run_e f T dts o = Ok o' -> F (o_sol o') = F (o_sol o) /\ D (o_sol o').
Proof.
  intros Fa Fs Dd Fd Hf Hu HA E. rewrite <- (rk_run_e_total f d T dts o o' E).
  apply (rk_run_linear D); auto.
  - intros t u Du. unfold totalise. destruct (f t u) eqn:E'; auto. eapply Hf; eauto.
  - intros t u Du. unfold totalise. destruct (f t u) eqn:E'; auto. eapply Hf; eauto.
Qed.
End ErrRuns.

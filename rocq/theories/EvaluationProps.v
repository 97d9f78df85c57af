(** * Evaluation over batches and gradients of the loss (C96) *)
From Verif Require Import Prelude NdArr Skill_model SpecSkill SkillMoreProps Rollout_model SpecGradient Evaluation_model.
Set Implicit Arguments.
Local Open Scope Z_scope.

(** ** Evaluation *)
Lemma mapM_snd_id {A B C : Type} (g : A -> result C) (f : B -> A) l : mapM g (map f l) = mapM (fun b => g (f b)) l.
Proof. induction l as [|x l IH]; cbn; [reflexivity|]. rewrite IH. reflexivity. Qed.
Lemma lookup0_items {M} (l : list (nat * M)) (v : nat -> R) k m : NoDup (map fst l) -> In (k, m) l ->
  lookup0 (map (fun km => (fst km, v (fst km))) l) k = v k.
Proof.
  induction l as [|[k' m'] l IH]; cbn [map fst In lookup0]; intros Hd; [tauto|]. inversion Hd as [|? ? Hn Hd']; subst. intros [E|Hin].
  - injection E as -> _. rewrite Nat.eqb_refl. reflexivity.
  - destruct (Nat.eqb_spec k k') as [->|]; [reflexivity | apply IH; assumption].
Qed.
Lemma eval_batch_ok {P V F T : Type} (trajectory_fn : P -> V -> result (F * T)) (metric_funcs : list (nat * (T -> V -> result R))) params b (f : F) (t : T) (v : nat -> R) :
  trajectory_fn params b = Ok (f, t) -> (forall k m, In (k, m) metric_funcs -> m t b = Ok (v k)) ->
  eval_batch trajectory_fn metric_funcs params b = Ok (map (fun km => (fst km, v (fst km))) metric_funcs).
Proof.
  intros E H. unfold eval_batch. rewrite E. cbn [bind snd]. apply mapM_Ok. intros [k m] Hin. cbn [fst snd]. rewrite (H _ _ Hin). reflexivity.
Qed.
(* @prop C96 Evaluating a model over any nonempty sequence of batches with eval_batch and streaming_mean: when the model and the metrics run, the result has exactly the names of the metrics, and under each name the mean over the batches of that metric of (the trajectory the model predicts for the batch with the given parameters, the batch itself), in this order of arguments. *)
Lemma evaluation_means_lem : forall (P V F T : Type) (trajectory_fn : P -> V -> result (F * T)) (metric_funcs : list (nat * (T -> V -> result R)))
    (params : P) (batches : list V) (final : V -> F) (prediction : V -> T) (value : nat -> V -> R),
  NoDup (map fst metric_funcs) -> batches <> [] ->
  (forall b, In b batches -> trajectory_fn params b = Ok (final b, prediction b)) ->
  (forall b k metric, In b batches -> In (k, metric) metric_funcs -> metric (prediction b) b = Ok (value k b)) ->
  exists means, evaluate batches (eval_batch trajectory_fn metric_funcs params) = Ok means /\
    (forall k, In k (map fst means) <-> In k (map fst metric_funcs)) /\
    forall k metric, In (k, metric) metric_funcs -> lookup0 means k = (rlist_sum (map (value k) batches) / INR (length batches))%R.
Proof.
  intros P V F T tf ms params batches final pred value Hd Hne Ht Hm. unfold evaluate.
  rewrite (mapM_Ok _ (fun b => map (fun km => (fst km, value (fst km) b)) ms) batches) by (intros b Hb; apply (@eval_batch_ok P V F T tf ms params b (final b) (pred b) (fun k => value k b)); [apply Ht; exact Hb | intros; eapply Hm; eassumption]).
  cbn [bind].
  assert (Keys : forall b, map fst (map (fun km : nat * (T -> V -> result R) => (fst km, value (fst km) b)) ms) = map fst ms) by (intros; rewrite map_map; reflexivity).
  destruct (@streaming_mean_value_lem _ (map (fun b => map (fun km : nat * (T -> V -> result R) => (fst km, value (fst km) b)) ms) batches) (fun v => v)) as [_ S].
  { intros x Hx. apply in_map_iff in Hx as (b & <- & _). rewrite Keys. exact Hd. }
  destruct S as (means & E & Val & Ks). { intros C. apply Hne. destruct batches; [reflexivity | discriminate C]. }
  exists means. split; [exact E|]. split.
  - intros k. rewrite Ks. split.
    + intros (x & Hx & Hk). apply in_map_iff in Hx as (b & <- & _). rewrite Keys in Hk. exact Hk.
    + intros Hk. destruct batches as [|b bs]; [congruence|]. eexists. split; [apply in_map; left; reflexivity|]. rewrite Keys. exact Hk.
  - intros k m Hin. rewrite Val, map_length, map_map. f_equal. f_equal. apply map_ext_in. intros b _. apply (@lookup0_items _ ms (fun j => value j b) k m Hd Hin).
Qed.
(* @ex *)
Lemma evaluation_means_ex_lem : let tf := fun (p b : R) => Ok (b, (p * b)%R) in let ms := [(3%nat, fun t v : R => Ok (t - v)%R); (5%nat, fun t v : R => Ok (v * v)%R)] in
  exists means, evaluate [1%R; 3%R] (eval_batch tf ms 2%R) = Ok means /\ lookup0 means 3%nat = 2%R /\ lookup0 means 5%nat = 5%R.
Proof.
  intros tf ms. destruct (@evaluation_means_lem R R R R tf ms 2%R [1%R; 3%R] (fun b => b) (fun b => (2 * b)%R) (fun k v => if (k =? 3)%nat then (2 * v - v)%R else (v * v)%R)) as (means & E & _ & Hv).
  - cbn. constructor; [cbn; lia|]. constructor; [tauto | constructor].
  - discriminate.
  - reflexivity.
  - intros b k m _ [H|[H|[]]]; injection H as <- <-; reflexivity.
  - exists means. split; [exact E|]. split; [rewrite (Hv 3%nat _ (or_introl eq_refl)) | rewrite (Hv 5%nat _ (or_intror (or_introl eq_refl)))]; cbn; unfold rlist_sum; cbn; lra.
Qed.
Lemma rlist_sum_zero l : (forall x, In x l -> (0 <= x)%R) -> (0 <= rlist_sum l)%R /\ (rlist_sum l = 0%R <-> forall x, In x l -> x = 0%R).
Proof.
  induction l as [|a l IH]; intros H; unfold rlist_sum; cbn [fold_right].
  - split; [lra|]. split; [intros _ x []|reflexivity].
  - destruct IH as [I1 I2]; [intros; apply H; right; assumption|]. fold (rlist_sum l). specialize (H a (or_introl eq_refl)). split; [lra|]. split.
    + intros E x [<- | Hx]; [lra|]. apply I2; [lra | exact Hx].
    + intros Hz. rewrite (Hz a (or_introl eq_refl)). destruct I2 as [_ I2]. rewrite I2; [lra|]. intros; apply Hz; right; assumption.
Qed.
(* @prop C96 A metric that is never negative and vanishes only on agreement (such as the l2 losses) gets, from an evaluation over any number of batches, the value 0 exactly when the model predicts every batch exactly; there is no cancellation between batches. *)
Lemma evaluation_zero_iff_perfect_lem : forall (V F : Type) (P : Type) (trajectory_fn : P -> V -> result (F * V)) (metric : V -> V -> R) (k : nat)
    (params : P) (batches : list V) (final : V -> F) (prediction : V -> V),
  (forall t v, 0 <= metric t v)%R -> (forall t v, metric t v = 0%R <-> t = v) -> batches <> [] ->
  (forall b, In b batches -> trajectory_fn params b = Ok (final b, prediction b)) ->
  exists value, evaluate batches (eval_batch trajectory_fn [(k, fun t v => Ok (metric t v))] params) = Ok [(k, value)] /\
    (value = 0%R <-> forall b, In b batches -> prediction b = b).
Proof.
  intros V F P tf metric k params batches final pred Hp Hz Hne Ht.
  destruct (@evaluation_means_lem P V F V tf [(k, fun t v => Ok (metric t v))] params batches final pred (fun _ b => metric (pred b) b)) as (means & E & Ks & Val).
  - cbn. constructor; [tauto | constructor].
  - exact Hne.
  - exact Ht.
  - intros b k' m _ [H|[]]. injection H as <- <-. reflexivity.
  - assert (Hl : exists x, means = [(k, x)]).
    { clear Val Ks. unfold evaluate in E. rewrite (mapM_Ok _ (fun b => [(k, metric (pred b) b)]) batches) in E.
      2: { intros b Hb. unfold eval_batch. rewrite (Ht b Hb). reflexivity. }
      cbn [bind] in E. unfold streaming_mean in E.
      match type of E with context [fold_left ?f ?l ?a] => set (F0 := f) in * end.
      assert (Inv : forall bs x c, exists y d, fold_left F0 (map (fun b => [(k, metric (pred b) b)]) bs) ([(k, x)], c) = ([(k, y)], d)).
      { induction bs as [|b bs IH]; intros x c; cbn [map fold_left]; [eauto|]. unfold F0 at 2. cbn [fold_left fst snd dict_add]. rewrite Nat.eqb_refl. apply IH. }
      destruct batches as [|b bs]; [congruence|]. cbn [map fold_left] in E. unfold F0 at 2 4 in E. cbn [fold_left fst snd dict_add] in E.
      destruct (Inv bs (0 + metric (pred b) b)%R (0 + 1)%nat) as (y & d & Ey). 
      destruct (snd _ =? 0)%nat; [discriminate E|]. unfold F0 in E, Ey. cbn [fst snd fold_left dict_add] in E, Ey. rewrite Ey in E. cbn [fst map snd] in E. injection E as <-. eauto. }
    destruct Hl as (x & ->). exists x. split; [exact E|]. specialize (Val k _ (or_introl eq_refl)). cbn [lookup0] in Val. rewrite Nat.eqb_refl in Val. rewrite Val.
    assert (Hn : (0 < INR (length batches))%R) by (apply (lt_INR 0); destruct batches; [congruence | cbn; lia]).
    destruct (rlist_sum_zero (map (fun b => metric (pred b) b) batches)) as [_ Z0]. { intros y Hy. apply in_map_iff in Hy as (b & <- & _). apply Hp. }
    transitivity (rlist_sum (map (fun b => metric (pred b) b) batches) = 0%R).
    + split; intros H; [|rewrite H; unfold Rdiv; ring]. apply (Rmult_eq_reg_r (/ INR (length batches))); [|apply Rinv_neq_0_compat; lra]. rewrite Rmult_0_l. exact H.
    + rewrite Z0. split.
      * intros H b Hb. apply Hz, H. apply in_map_iff. eauto.
      * intros H y Hy. apply in_map_iff in Hy as (b & <- & Hb). apply Hz, H, Hb.
Qed.
(* @ex *)
Lemma evaluation_zero_iff_perfect_ex_lem : let tf := fun (p b : R) => Ok (b, (p + b)%R) in
  exists value, evaluate [1%R; 3%R] (eval_batch tf [(4%nat, fun t v : R => Ok (Rabs (t - v)))] 2%R) = Ok [(4%nat, value)] /\ value <> 0%R.
Proof.
  intros tf. destruct (@evaluation_zero_iff_perfect_lem R R R tf (fun t v => Rabs (t - v)) 4%nat 2%R [1%R; 3%R] (fun b => b) (fun b => (2 + b)%R)) as (x & E & Hx).
  - intros; apply Rabs_pos.
  - intros t v. split; [|intros ->; rewrite Rminus_diag_eq by reflexivity; apply Rabs_R0]. intros H. destruct (Req_dec (t - v) 0) as [|N]; [lra|]. apply Rabs_no_R0 in N. contradiction.
  - discriminate.
  - reflexivity.
  - exists x. split; [exact E|]. intros H. destruct Hx as [Hx _]. specialize (Hx H 1%R (or_introl eq_refl)). lra.
Qed.

(** ** The gradient of the loss *)
Lemma rabs_bounds a b : (Rabs a <= b)%R -> (- b <= a <= b)%R.
Proof. unfold Rabs. destruct (Rcase_abs a); lra. Qed.
Lemma vscale_length c p : length (vscale c p) = length p.
Proof. apply map_length. Qed.
Lemma vabs_scale c p : vabs (vscale c p) = (Rabs c * vabs p)%R.
Proof. induction p as [|x p IH]; cbn [vscale map vabs fold_right]; [ring|]. unfold vabs, vscale in IH. rewrite IH, Rabs_mult. ring. Qed.
Lemma vabs_pos p : (0 <= vabs p)%R.
Proof. induction p as [|x p IH]; unfold vabs; cbn; [lra|]. pose proof (Rabs_pos x). unfold vabs in IH. lra. Qed.
Lemma vdotl_scale c p h : vdotl p (vscale c h) = (c * vdotl p h)%R.
Proof. revert h. induction p as [|x p IH]; intros [|y h]; unfold vdotl, vscale in *; cbn; try ring. rewrite IH. ring. Qed.
Lemma vdotl_self p : (0 <= vdotl p p)%R.
Proof. induction p as [|x p IH]; unfold vdotl in *; cbn; [lra|]. nra. Qed.
Lemma vdotl_self_zero p : vdotl p p = 0%R -> forall x, In x p -> x = 0%R.
Proof.
  induction p as [|y p IH]; intros E x; [intros []|]. pose proof (vdotl_self p) as Hp. unfold vdotl in *. cbn in E. intros [<- | Hx]; [nra|]. apply IH; [nra | exact Hx].
Qed.
Lemma vdotl_sub g g' h : length g = length h -> length g' = length h -> vdotl (vplus g (vscale (-1) g')) h = (vdotl g h - vdotl g' h)%R.
Proof.
  revert g g'. induction h as [|x h IH]; intros [|y g] [|z g'] L L'; cbn [length] in L, L'; try lia; unfold vdotl, vplus, vscale in *; cbn; [ring|]. rewrite IH by lia. ring.
Qed.
Lemma vplus_length p h : length h = length p -> length (vplus p h) = length p.
Proof. intros L. unfold vplus. rewrite map_length, combine_length. lia. Qed.
Lemma gradient_unique f p g g' : is_gradient f p g -> is_gradient f p g' -> g = g'.
Proof.
  intros (L & H) (L' & H'). set (d := vplus g (vscale (-1) g')).
  assert (Ld : length d = length p) by (unfold d; rewrite vplus_length; rewrite ?vscale_length; lia).
  assert (Sd : vdotl d d = 0%R).
  { destruct (Rle_lt_or_eq_dec 0 (vdotl d d) (vdotl_self d)) as [S|S]; [exfalso | auto]. set (S0 := vdotl d d) in *. set (N := vabs d) in *. assert (HN : (0 <= N)%R) by apply vabs_pos.
    set (eps := (S0 / (4 * (N + 1)))%R). assert (He : (0 < eps)%R) by (apply Rdiv_lt_0_compat; lra).
    destruct (H eps He) as (d1 & P1 & B1). destruct (H' eps He) as (d2 & P2 & B2). set (t := (Rmin d1 d2 / (2 * (N + 1)))%R).
    assert (Hm : (0 < Rmin d1 d2)%R) by (apply Rmin_pos; assumption). assert (Ht : (0 < t)%R) by (apply Rdiv_lt_0_compat; lra).
    assert (Sm : (t * N < Rmin d1 d2)%R).
    { assert (t * (2 * (N + 1)) = Rmin d1 d2)%R by (unfold t; field; lra). nra. }
    assert (Va : vabs (vscale t d) = (t * N)%R) by (rewrite vabs_scale, Rabs_right by lra; reflexivity).
    specialize (B1 (vscale t d)). specialize (B2 (vscale t d)). rewrite vscale_length, Va, vdotl_scale in B1, B2. specialize (B1 Ld). specialize (B2 Ld).
    assert (B1' := B1 (Rlt_le_trans _ _ _ Sm (Rmin_l _ _))). assert (B2' := B2 (Rlt_le_trans _ _ _ Sm (Rmin_r _ _))). clear B1 B2.
    assert (Ed : S0 = (vdotl g d - vdotl g' d)%R) by (unfold S0; unfold d at 1; apply vdotl_sub; lia).
    apply rabs_bounds in B1', B2'. set (X := (f (vplus p (vscale t d)) - f p)%R) in *. assert (Ee : (eps * (4 * (N + 1)) = S0)%R) by (unfold eps; field; lra).
    assert (Q1 : (t * S0 <= 2 * (eps * (t * N)))%R) by (rewrite Ed; lra). assert (Q2 : (t * (S0 - 2 * eps * N) <= 0)%R) by lra.
    assert (Q3 : (0 < S0 - 2 * eps * N)%R) by nra. nra. }
  pose proof (vdotl_self_zero d Sd) as Hz. clear - Hz L L'. subst d. assert (El : length g = length g') by lia. clear L L'. revert g' Hz El. induction g as [|x g IH]; intros [|y g'] Hz El; cbn [length] in El; try lia; [reflexivity|].
  f_equal.
  - specialize (Hz (x + -1 * y)%R (or_introl eq_refl)). lra.
  - apply IH; [|lia]. intros z Hin. apply Hz. right. exact Hin.
Qed.
Lemma gradient_descends f p g : is_gradient f p g -> (exists x, In x g /\ x <> 0%R) -> exists lr0, (0 < lr0)%R /\ forall lr, (0 < lr < lr0)%R -> (f (vplus p (vscale (- lr) g)) < f p)%R.
Proof.
  intros (L & H) (x & Hx & Nx). assert (S : (0 < vdotl g g)%R).
  { destruct (Rle_lt_or_eq_dec 0 (vdotl g g) (vdotl_self g)) as [S|S]; [exact S|]. exfalso. apply Nx. apply (vdotl_self_zero g); auto. }
  set (N := vabs g). assert (HN : (0 <= N)%R) by apply vabs_pos. set (eps := (vdotl g g / (2 * (N + 1)))%R). assert (He : (0 < eps)%R) by (apply Rdiv_lt_0_compat; lra).
  destruct (H eps He) as (d & Pd & B). exists (d / (N + 1))%R. split; [apply Rdiv_lt_0_compat; lra|]. intros lr [H1 H2].
  specialize (B (vscale (- lr) g)). rewrite vscale_length, vabs_scale, vdotl_scale, Rabs_Ropp, (Rabs_right lr) in B by lra. fold N in B. specialize (B L).
  assert (Hs : (lr * N < d)%R). { apply (Rmult_lt_compat_r (N + 1)) in H2; [|lra]. unfold Rdiv in H2. rewrite Rmult_assoc, Rinv_l, Rmult_1_r in H2 by lra. nra. }
  specialize (B Hs). apply rabs_bounds in B. assert (Ee : (eps * (2 * (N + 1)) = vdotl g g)%R) by (unfold eps; field; lra).
  assert (Q : (0 < lr * (vdotl g g - eps * N))%R) by (apply Rmult_lt_0_compat; nra). lra.
Qed.
(* @prop C96 loss_and_gradient with a correct differentiation, for any model and any loss differentiable at the parameters: it returns the loss of the trajectory predicted from the target with these parameters, and the one gradient of that loss with respect to the parameters, the target held fixed. *)
Lemma loss_and_gradient_correct_lem : forall (V F T : Type) (grad_of : (list R -> result R) -> list R -> result (list R))
    (trajectory_fn : list R -> V -> result (F * T)) (loss_fn : T -> V -> result R) (target : V) (params g0 : list R)
    (final : list R -> F) (prediction : list R -> T) (loss : T -> R),
  (forall q, trajectory_fn q target = Ok (final q, prediction q)) -> (forall t, loss_fn t target = Ok (loss t)) ->
  (forall f, (forall q, f q = Ok (loss (prediction q))) -> exists g, grad_of f params = Ok g /\ is_gradient (fun q => loss (prediction q)) params g) ->
  is_gradient (fun q => loss (prediction q)) params g0 ->
  loss_and_gradient grad_of trajectory_fn loss_fn params target = Ok (loss (prediction params), g0).
Proof.
  intros V F T grad_of tf lf target params g0 final pred loss Ht Hl Hg H0. assert (E : forall q, loss_at tf lf target q = Ok (loss (pred q))) by (intros q; unfold loss_at; rewrite Ht; cbn [bind snd]; apply Hl).
  unfold loss_and_gradient. rewrite E. cbn [bind]. destruct (Hg _ E) as (g' & Eg & G'). rewrite Eg. cbn [bind]. rewrite (gradient_unique G' H0). reflexivity.
Qed.
Lemma is_gradient_ext f f' p g : (forall q, f q = f' q) -> is_gradient f p g -> is_gradient f' p g.
Proof. intros E (L & H). split; [exact L|]. intros eps He. destruct (H eps He) as (d & Pd & B). exists d. split; [exact Pd|]. intros h Lh Hh. rewrite <- !E. apply B; assumption. Qed.
Lemma is_gradient_affine p : is_gradient (fun q => (2 * nth 0 q 0)%R) [p] [2%R].
Proof.
  split; [reflexivity|]. intros eps He. exists 1%R. split; [lra|]. intros [|h [|]] Lh _; cbn [length] in Lh; try lia. pose proof (vabs_pos [h]).
  unfold vplus, vdotl. cbn [combine map nth fst snd fold_right]. replace (2 * (p + h) - 2 * p - (2 * h + 0))%R with 0%R by ring. rewrite Rabs_R0. nra.
Qed.
(* @ex *)
Lemma loss_and_gradient_correct_ex_lem : let tf := fun (q : list R) (v : R) => Ok (v, (2 * nth 0 q 0 - v)%R) in
  loss_and_gradient (fun _ _ => Ok [2%R]) tf (fun t v => Ok (t + v)%R) [7%R] 3%R = Ok (14%R, [2%R]).
Proof.
  intros tf. rewrite (@loss_and_gradient_correct_lem R R R (fun _ _ => Ok [2%R]) tf (fun t v => Ok (t + v)%R) 3%R [7%R] [2%R] (fun _ => 3%R) (fun q => (2 * nth 0 q 0 - 3)%R) (fun t => (t + 3)%R)).
  - cbn [nth]. do 2 f_equal. ring.
  - reflexivity.
  - reflexivity.
  - intros f _. exists [2%R]. split; [reflexivity|]. apply (@is_gradient_ext (fun q => (2 * nth 0 q 0)%R) (fun q => (2 * nth 0 q 0 - 3 + 3)%R) [7%R] [2%R]); [intros; ring | apply is_gradient_affine].
  - apply (@is_gradient_ext (fun q => (2 * nth 0 q 0)%R) (fun q => (2 * nth 0 q 0 - 3 + 3)%R) [7%R] [2%R]); [intros; ring | apply is_gradient_affine].
Qed.
(* @prop C96 A training step that subtracts the learning rate times the gradient reports the loss at the old parameters; and whenever the gradient is not zero, every sufficiently small positive learning rate makes the loss on the same batch strictly smaller after the step. *)
Lemma gradient_step_descends_lem : forall (V F T : Type) (grad_of : (list R -> result R) -> list R -> result (list R))
    (trajectory_fn : list R -> V -> result (F * T)) (loss_fn : T -> V -> result R) (target : V) (params g0 : list R) (step : Z)
    (final : list R -> F) (prediction : list R -> T) (loss : T -> R),
  (forall q, trajectory_fn q target = Ok (final q, prediction q)) -> (forall t, loss_fn t target = Ok (loss t)) ->
  (forall f, (forall q, f q = Ok (loss (prediction q))) -> exists g, grad_of f params = Ok g /\ is_gradient (fun q => loss (prediction q)) params g) ->
  is_gradient (fun q => loss (prediction q)) params g0 -> (exists x, In x g0 /\ x <> 0%R) ->
  exists lr0, (0 < lr0)%R /\ forall lr, (0 < lr < lr0)%R -> exists new_params,
    train_step (loss_and_gradient grad_of trajectory_fn loss_fn) (fun _ g p => Ok (vplus p (vscale (- lr) g))) (fun p => p) (step, params) target
      = Ok ((step + 1, new_params), loss (prediction params)) /\
    (loss (prediction new_params) < loss (prediction params))%R.
Proof.
  intros V F T grad_of tf lf target params g0 step final pred loss Ht Hl Hg H0 Hx. destruct (gradient_descends H0 Hx) as (lr0 & P0 & D). exists lr0. split; [exact P0|]. intros lr Hlr. eexists. split; [|exact (D lr Hlr)].
  unfold train_step. rewrite (@loss_and_gradient_correct_lem V F T grad_of tf lf target params g0 final pred loss Ht Hl Hg H0). reflexivity.
Qed.
(* @ex *)
Lemma gradient_step_descends_ex_lem : is_gradient (fun q => (2 * nth 0 q 0)%R) [7%R] [2%R] /\ (exists x, In x [2%R] /\ x <> 0%R).
Proof. split; [apply is_gradient_affine|]. exists 2%R. split; [left; reflexivity | lra]. Qed.

(** * Euler steps, encoders and decoders, noise and training steps (C63) *)
From Verif Require Import Prelude NdArr Grids_model Spec SpecNS SpecRollout Boundaries_model BoundariesPeriodic FD_model Interp_model ArrayUtils_model PRep FDProofs FDProps InterpProps ArrayUtilsProps PressureProps PressureSolveProps EquationsProps Networks_model NetworksProps SkillProps Rollout_model RolloutProps.
Set Implicit Arguments.
Local Open Scope Z_scope.

(** ** euler_integrator *)
Lemma same_shapes_spec {A} (a b : list (arr A)) : same_shapes a b = true <-> map shp a = map shp b.
Proof.
  unfold same_shapes. split.
  - intros H. apply andb_true_iff in H. destruct H as (L & H). apply Nat.eqb_eq in L. revert b L H. induction a as [|x a IH]; intros [|y b] L H; cbn in *; try discriminate; [reflexivity|].
    apply andb_true_iff in H. destruct H as (H1 & H2). f_equal; [exact (shape_eqb_true _ _ H1) | apply IH; [lia | exact H2]].
  - intros H. assert (L : length a = length b) by (rewrite <- (map_length shp a), <- (map_length shp b); congruence). rewrite L, Nat.eqb_refl. cbn [andb].
    revert b H L. induction a as [|x a IH]; intros [|y b] H L; cbn in *; try discriminate; [reflexivity|]. injection H as H1 H2. rewrite H1, shape_eqb_refl. cbn [andb]. apply IH; [exact H2 | lia].
Qed.
Lemma map_nth_err {X Y} (f : X -> Y) l l' k x : map f l = map f l' -> nth_error l k = Some x -> exists y, nth_error l' k = Some y /\ f y = f x.
Proof. intros H Hx. assert (E : nth_error (map f l') k = Some (f x)) by (rewrite <- H, nth_error_map, Hx; reflexivity). rewrite nth_error_map in E. destruct (nth_error l' k) as [y|]; [|discriminate]. cbn in E. exists y. split; congruence. Qed.
Lemma axpy_ok dt x dx y : tree_axpy dt x dx = Ok y -> euler_step_of dt x dx y.
Proof.
  unfold tree_axpy. destruct (same_shapes x dx) eqn:E; [|discriminate]. apply same_shapes_spec in E. intros H. injection H as <-. split; [auto|]. split.
  - rewrite map_map. cbn [amap2 shp]. clear -E. revert dx E. induction x as [|a x IH]; intros [|d dx] E; cbn in *; try discriminate; [reflexivity|]. injection E as E1 E2. f_equal. apply IH. exact E2.
  - intros j a d b Ha Hd Hb ix. revert dx E j Ha Hd Hb. induction x as [|a0 x IH]; intros [|d0 dx] E [|j] Ha Hd Hb; cbn in *; try discriminate.
    + injection Ha as ->. injection Hd as ->. injection Hb as <-. reflexivity.
    + injection E as E1 E2. exact (IH dx E2 j Ha Hd Hb).
Qed.
Lemma axpy_total dt x dx : map shp dx = map shp x -> exists y, tree_axpy dt x dx = Ok y.
Proof. intros E. unfold tree_axpy. assert (S : same_shapes x dx = true) by (apply same_shapes_spec; auto). rewrite S. eexists; reflexivity. Qed.
Lemma euler_inv f dt n : forall x xf frames, euler_integrator f x dt n = Ok (xf, frames) -> length frames = n /\ xf = state_before x frames n /\
  forall k y, nth_error frames k = Some y -> exists d, f (state_before x frames k) = Ok d /\ euler_step_of dt (state_before x frames k) d y.
Proof.
  unfold euler_integrator. induction n as [|n IH]; intros x xf frames E; cbn [hk_scan] in E.
  - injection E as <- <-. split; [reflexivity|]. split; [reflexivity|]. intros [|k] y H; discriminate.
  - destruct (f x) as [d|e] eqn:Ed; [|discriminate]. cbn [bind] in E. destruct (tree_axpy dt x d) as [y|e] eqn:Ey; [|discriminate]. cbn [bind fst snd] in E.
    destruct (hk_scan _ y n) as [[a b]|e] eqn:Es; [|discriminate]. cbn [bind fst snd] in E. injection E as <- <-. destruct (IH y a b Es) as (I1 & I2 & I3). split; [cbn; lia|].
    assert (P : forall k, (k <= n)%nat -> state_before x (y :: b) (S k) = state_before y b k) by (intros [|k] Hk; [reflexivity|]; cbn; apply nth_indep; lia).
    split; [rewrite P by lia; exact I2|]. intros [|k] z Hz; cbn in Hz.
    + injection Hz as <-. exists d. split; [exact Ed | exact (axpy_ok _ _ _ Ey)].
    + assert (Hk : (k < length b)%nat) by (apply nth_error_Some; congruence). destruct (I3 k z Hz) as (d' & D1 & D2). exists d'. rewrite P by lia. split; assumption.
Qed.
(* @prop C63 euler_integrator for every derivative function and every pytree of arrays: when it returns there are num_steps frames, the final state is the last of them (the input if num_steps = 0), and each frame is exactly the previous one plus dt times the derivative there, array by array, with shapes kept.  It does return when the derivative always succeeds and keeps the shapes. *)
Lemma euler_integrator_frames_lem : forall (f : list (arr R) -> result (list (arr R))) x dt n,
  (forall xf frames, euler_integrator f x dt n = Ok (xf, frames) -> length frames = n /\ xf = state_before x frames n /\
     forall k y, nth_error frames k = Some y -> exists dx, f (state_before x frames k) = Ok dx /\ euler_step_of dt (state_before x frames k) dx y) /\
  ((forall z, map shp z = map shp x -> exists dz, f z = Ok dz /\ map shp dz = map shp x) -> exists r, euler_integrator f x dt n = Ok r).
Proof.
  intros f x dt n. split; [intros xf frames; apply euler_inv|]. intros H. unfold euler_integrator.
  enough (G : forall m z, map shp z = map shp x -> exists r, hk_scan (fun state => let* deriv := f state in let* next_state := tree_axpy dt state deriv in Ok (next_state, next_state)) z m = Ok r) by (apply G; reflexivity).
  induction m as [|m IH]; intros z Hz; [eexists; reflexivity|]. cbn [hk_scan]. destruct (H z Hz) as (dz & Ed & Sd). rewrite Ed. cbn [bind]. destruct (@axpy_total dt z dz) as (y & Ey); [congruence|]. rewrite Ey. cbn [bind fst snd].
  destruct (IH y) as (r & Er); [|rewrite Er; eexists; reflexivity]. destruct (axpy_ok _ _ _ Ey) as (_ & E2 & _). congruence.
Qed.
(* @ex *)
Lemma euler_integrator_frames_ex_lem : let f z := Ok (map (amap (fun v => (- v)%R)) z) in let x := [mkarr [2%nat] (fun _ => 1%R); mkarr [] (fun _ => 2%R)] in
  (forall z : list (arr R), map shp z = map shp x -> exists dz, f z = Ok dz /\ map shp dz = map shp x) /\ exists r, euler_integrator f x 1 3 = Ok r /\ length (snd r) = 3%nat.
Proof.
  intros f x. assert (H : forall z : list (arr R), map shp z = map shp x -> exists dz, f z = Ok dz /\ map shp dz = map shp x) by (intros z Hz; eexists; split; [reflexivity|]; rewrite map_map; exact Hz).
  split; [exact H|]. destruct (@euler_integrator_frames_lem f x 1%R 3%nat) as (A & B). destruct (B H) as ([a b] & E). exists (a, b). split; [exact E | exact (proj1 (A a b E))].
Qed.
(* @prop C63 For the linear derivative c * x, every value after k + 1 Euler steps is (1 + c*dt)^(k+1) times the initial one. *)
Lemma euler_integrator_linear_lem : forall (c dt : R) (x : list (arr R)) n,
  exists xf frames, euler_integrator (fun z => Ok (map (amap (Rmult c)) z)) x dt n = Ok (xf, frames) /\ length frames = n /\
    forall k y j a b, nth_error frames k = Some y -> nth_error x j = Some a -> nth_error y j = Some b -> shp b = shp a /\ forall ix, get b ix = ((1 + c * dt) ^ (k + 1) * get a ix)%R.
Proof.
  intros c dt x n. set (f := fun z : list (arr R) => Ok (map (amap (Rmult c)) z)). destruct (@euler_integrator_frames_lem f x dt n) as (A & B).
  destruct B as ([xf frames] & E); [intros z Hz; eexists; split; [reflexivity|]; rewrite map_map; exact Hz|]. exists xf, frames. split; [exact E|]. destruct (A xf frames E) as (L & _ & H). split; [exact L|].
  enough (G : forall k z, (k <= n)%nat -> state_before x frames k = z -> map shp z = map shp x /\ forall j a b, nth_error x j = Some a -> nth_error z j = Some b -> forall ix, get b ix = ((1 + c * dt) ^ k * get a ix)%R).
  { intros k y j a b Hy Ha Hb. assert (Hk : (k < length frames)%nat) by (apply nth_error_Some; congruence). destruct (G (S k) y) as (G1 & G2); [lia | cbn; exact (nth_error_nth _ _ _ Hy)|].
    split; [|rewrite Nat.add_1_r; exact (G2 j a b Ha Hb)]. destruct (@map_nth_err _ _ shp _ _ _ _ G1 Hb) as (a' & Ea & Es). congruence. }
  induction k as [|k IH]; intros z Hk Hz.
  - cbn in Hz. subst z. split; [reflexivity|]. intros j a b Ha Hb ix. rewrite Ha in Hb. injection Hb as <-. cbn. ring.
  - cbn [state_before] in Hz. destruct (nth_error frames k) as [y|] eqn:Ey; [|apply nth_error_None in Ey; lia]. rewrite (nth_error_nth _ _ _ Ey) in Hz. subst y.
    destruct (H k z Ey) as (d & D1 & D2 & D3 & D4). destruct (IH (state_before x frames k)) as (I1 & I2); [lia | reflexivity|]. split; [congruence|]. intros j a b Ha Hb ix.
    destruct (@map_nth_err _ _ shp _ _ _ _ D3 Hb) as (p & Ep & _). unfold f in D1. injection D1 as <-. rewrite (D4 j p (amap (Rmult c) p) b Ep); [|rewrite nth_error_map, Ep; reflexivity | exact Hb]. cbn [amap get]. rewrite (I2 j a p Ha Ep). cbn [pow]. ring.
Qed.
(* @ex *)
Lemma euler_integrator_linear_ex_lem : exists xf frames, euler_integrator (fun z => Ok (map (amap (Rmult (-1))) z)) [afull [2%nat] 1%R] (1 / 2) 4 = Ok (xf, frames) /\ length frames = 4%nat.
Proof. destruct (@euler_integrator_linear_lem (-1) (1 / 2)%R [afull [2%nat] 1%R] 4%nat) as (xf & fr & E & L & _). eauto. Qed.

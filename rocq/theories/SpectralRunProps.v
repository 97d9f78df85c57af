(** * C65: runs of the spectral time steppers *)
From Verif Require Import Prelude NdArr LinAlg Cplx Grids_model FastDiag_model TimeStep_model TimeStepProps FourierProofs FourierLine Spectral_model SpectralProps SpectralUtilProps FourierPlane SpecFourier NS2DBase NS2DProps SpectralStep_model SpecStep StepRel NS2DConserve NS2DMoreProps NS2DWaveProps.
Set Implicit Arguments.
Local Open Scope Z_scope.

(* @prop C65 Every spectral time stepper (backward_forward_euler, crank_nicolson_rk2, low_storage_runge_kutta_crank_nicolson and imex_runge_kutta with any coefficients) respects every linear relation between two equations: if explicit_terms, implicit_terms and implicit_solve of two equations map related states to related states, then any number of steps from related states succeed or fail alike (with the same error), with related results. In particular linear symmetries of the equation are symmetries of the time-discrete solution and linear invariants are conserved. *)
Lemma steppers_respect_linear_relations_lem : forall X Y (Rl : vec X -> vec Y -> Prop) (F G : vec X -> vec X) (Ginv : vec X -> R -> vec X)
    (F' G' : vec Y -> vec Y) (Ginv' : vec Y -> R -> vec Y) (k : spectral_scheme) (dt : R) (steps : nat) (u : vec X) (v : vec Y),
  linear_relation Rl ->
  (forall a b, Rl a b -> Rl (F a) (F' b)) -> (forall a b, Rl a b -> Rl (G a) (G' b)) -> (forall a b h, Rl a b -> Rl (Ginv a h) (Ginv' b h)) ->
  Rl u v -> res_rel Rl (spectral_steps k F G Ginv dt steps u) (spectral_steps k F' G' Ginv' dt steps v).
Proof.
  intros X Y Rl F G Ginv F' G' Ginv' k dt steps u v (R0 & R1 & R2) HF HG HI Huv. apply steps_rel; assumption.
Qed.
(* @ex *)
Lemma steppers_respect_linear_relations_ex_lem : exists (F G : vec bool -> vec bool) (Ginv : vec bool -> R -> vec bool) (Rl : vec bool -> vec bool -> Prop),
  linear_relation Rl /\ (forall a b, Rl a b -> Rl (F a) (F b)) /\ (forall a b, Rl a b -> Rl (G a) (G b)) /\ (forall a b h, Rl a b -> Rl (Ginv a h) (Ginv b h)) /\
  Rl (fun c => if c then 1%R else 2%R) (fun c => if c then 2%R else 1%R).
Proof.
  exists (fun u x => (u x * u (negb x))%R), (fun u x => (- u x)%R), (fun u h x => (u x / (1 + h))%R), (fun u v => forall x, v x = u (negb x)).
  unfold linear_relation, vzero, vadd, vscal. repeat split; intros.
  - rewrite H, H0. reflexivity.
  - rewrite H. reflexivity.
  - rewrite !H, !Bool.negb_involutive. reflexivity.
  - rewrite H. reflexivity.
  - rewrite H. reflexivity.
  - destruct x; reflexivity.
Qed.

(** ** The linear problem *)
Lemma linear_one X (lam : X -> R) k dt u x : res_rel (fun v a => v x = (a * u x)%R) (linear_run lam k dt 1 u) (amplification k dt (lam x)).
Proof.
  unfold amplification. unfold linear_run.
  pose proof (@steps_rel X unit (fun v y => v x = (y tt * u x)%R)) as H.
  specialize (H ltac:(cbv [vzero]; ring) ltac:(cbv [vadd]; intros ? ? ? ? -> ->; ring) ltac:(cbv [vscal]; intros ? ? ? ->; ring)).
  specialize (H (fun _ => vzero) (fun _ => vzero) (fun u x => lam x * u x)%R (fun y _ => lam x * y tt)%R (fun u h x => u x / (1 - h * lam x))%R (fun y h _ => y tt / (1 - h * lam x))%R).
  specialize (H ltac:(intros; cbv [vzero]; ring) ltac:(cbv beta; intros ? ? ->; ring) ltac:(cbv beta; intros ? ? h ->; unfold Rdiv; ring) k dt 1%nat u (fun _ => 1%R) ltac:(cbn; ring)).
  replace (fun (y : vec unit) (_ : unit) => (lam x * y tt)%R) with (fun (y : vec unit) (z : unit) => (lam x * y z)%R) in H
    by (apply functional_extensionality; intros y; apply functional_extensionality; intros []; reflexivity).
  replace (fun (y : vec unit) (h : R) (_ : unit) => (y tt / (1 - h * lam x))%R) with (fun (y : vec unit) (h : R) (z : unit) => (y z / (1 - h * lam x))%R) in H
    by (apply functional_extensionality; intros y; apply functional_extensionality; intros h; apply functional_extensionality; intros []; reflexivity).
  destruct (spectral_steps k (fun _ => vzero) (fun (u0 : vec X) (x0 : X) => (lam x0 * u0 x0)%R) _ dt 1 u), (spectral_steps k (fun _ => vzero) (fun (y : vec unit) (z : unit) => (lam x * y z)%R) _ dt 1 (fun _ => 1%R)); exact H.
Qed.
(* @prop C65 One step of any of the spectral time steppers multiplies every component of a decoupled linear problem dy/dt = lam y (implicit, no explicit terms) by a factor that depends only on the scheme, dt and lam, and n steps multiply it by its n-th power; a non-empty run fails exactly when computing the factor does. *)
Lemma linear_run_powers_lem : forall X (lam : X -> R) (k : spectral_scheme) (dt : R) (steps : nat) (u : vec X) (x : X),
  res_rel (fun v a => v x = (a ^ S steps * u x)%R) (linear_run lam k dt (S steps) u) (amplification k dt (lam x)).
Proof.
  intros X lam k dt steps u x. induction steps as [|n IH].
  - pose proof (linear_one lam k dt u x) as H. destruct (linear_run lam k dt 1 u), (amplification k dt (lam x)); cbn in H |- *; try exact H. rewrite H. ring.
  - unfold linear_run in *. cbn [spectral_steps] in *. set (st := fun v => spectral_step k (fun _ => vzero) (fun (u0 : vec X) (x0 : X) => (lam x0 * u0 x0)%R) (fun (u0 : vec X) (h : R) (x0 : X) => (u0 x0 / (1 - h * lam x0))%R) dt v) in *.
    set (w := bind (spectral_steps k (fun _ => vzero) (fun (u0 : vec X) (x0 : X) => (lam x0 * u0 x0)%R) (fun (u0 : vec X) (h : R) (x0 : X) => (u0 x0 / (1 - h * lam x0))%R) dt n u) st) in *.
    change (bind w st) with (match w with Ok y => st y | Err e => Err e end) || idtac.
    destruct w as [y|e]; cbn [bind]; [|exact IH]. pose proof (linear_one lam k dt y x) as H. unfold linear_run in H. cbn [spectral_steps bind] in H. fold st in H. change (spectral_step k (fun _ => vzero) (fun (u0 : vec X) (x0 : X) => (lam x0 * u0 x0)%R) (fun (u0 : vec X) (h : R) (x0 : X) => (u0 x0 / (1 - h * lam x0))%R) dt y) with (st y) in H.
    destruct (st y), (amplification k dt (lam x)); cbn in H, IH |- *; try contradiction; try exact H. rewrite H, IH. ring.
Qed.
(* @ex *)
Lemma linear_run_powers_ex_lem : is_ok (amplification CrankNicolsonRK2 (1/2) (-3)).
Proof. unfold amplification, linear_run. cbn [spectral_steps spectral_step bind]. exact I || (eexists; reflexivity). Qed.
Lemma zero_wsum X (x : X) row ks n v : Forall (fun o : option (vec X) => match o with Some k => k x = 0%R | None => True end) ks -> wsum row ks n = Ok v -> v x = 0%R.
Proof.
  intros Hk. unfold wsum. assert (G : forall l acc, acc x = 0%R -> forall v, foldM (fun acc j => match nth_error row j with None => Err EIndex | Some c => if nz c then match nth_error ks j with Some (Some k) => Ok (vadd acc (vscal c k)) | _ => Err EUnbound end else Ok acc end) acc l = Ok v -> v x = 0%R).
  { induction l as [|j l IH]; intros acc Ha v0 E; cbn [foldM] in E; [injection E as <-; exact Ha|]. destruct (nth_error row j) as [c|]; [|discriminate]. destruct (nz c); [|eapply IH; eassumption].
    destruct (nth_error ks j) as [[k|]|] eqn:En; try discriminate. apply IH in E; [exact E|]. apply nth_error_In in En. rewrite Forall_forall in Hk. specialize (Hk _ En). cbn in Hk. cbv [vadd vscal]. rewrite Ha, Hk. ring. }
  apply G. reflexivity.
Qed.
Lemma F1_upd {A} (P : A -> Prop) l i a : Forall P l -> P a -> Forall P (upd i a l).
Proof. intros H Ha. revert i. induction H; intros [|i]; cbn; constructor; auto. Qed.
Lemma F1_repeat {A} (P : A -> Prop) a n : P a -> Forall P (repeat a n).
Proof. intros H. induction n; cbn; constructor; auto. Qed.
(** A component on which nothing acts is unchanged by every scheme. *)
Lemma frozen_step X (x : X) (F G : vec X -> vec X) Ginv k dt u v : (forall u, F u x = 0%R) -> (forall u, G u x = 0%R) -> (forall u h, Ginv u h x = u x) -> spectral_step k F G Ginv dt u = Ok v -> v x = u x.
Proof.
  intros HF HG HI E. destruct k as [| |al be ga|t]; cbn [spectral_step] in E.
  - injection E as <-. unfold backward_forward_euler. rewrite HI. cbv [vadd vscal]. rewrite HF. ring.
  - injection E as <-. unfold crank_nicolson_rk2. cbv zeta. rewrite HI. cbv [vadd vscal]. rewrite !HF, HG. ring.
  - unfold low_storage_rk_cn in E. destruct (negb _ && negb _)%bool; [discriminate|].
    match type of E with bind (foldM ?f _ _) _ = _ => assert (G0 : forall l h w r, h x = 0%R -> foldM f (h, w) l = Ok r -> snd r x = w x) end.
    { induction l as [|j l IH]; intros h w r Hh Er; cbn [foldM] in Er; [injection Er as <-; reflexivity|]. destruct (nth_error be j), (nth_error al (j + 1)), (nth_error al j), (nth_error ga j); try discriminate. cbn [bind] in Er. apply IH in Er.
      - rewrite Er, HI. cbv [vadd vscal]. rewrite HF, HG, Hh. ring.
      - cbv [vadd vscal]. rewrite HF, Hh. ring. }
    match type of E with bind ?rr _ = _ => destruct rr as [rs|] eqn:Er; [|discriminate] end. cbn [bind] in E. injection E as <-. eapply G0; [|exact Er]. reflexivity.
  - unfold imex_runge_kutta in E. destruct (length (ib_ex t)) as [|m]; [discriminate|].
    set (P := fun o : option (vec X) => match o with Some k => k x = 0%R | None => True end).
    match type of E with bind (bind (foldM ?f ?a0 ?l0) _) _ = _ => assert (G0 : forall l a r, Forall P (fst (fst (fst a))) -> Forall P (snd (fst (fst a))) -> foldM f a l = Ok r -> Forall P (fst (fst (fst r))) /\ Forall P (snd (fst (fst r)))) end.
    { induction l as [|i l IH]; intros [[[f gg] lf] lg] r H1 H2 Er; cbn [foldM] in Er; [injection Er as <-; split; assumption|]. cbn [fst snd] in H1, H2.
      destruct (nth_error (ia_ex t) (i - 1)) as [rx|]; [|discriminate]. destruct (nth_error (ia_im t) (i - 1)) as [ri|]; [|discriminate].
      destruct (wsum rx f i); [|discriminate]. cbn [bind] in Er. destruct (wsum ri gg i); [|discriminate]. cbn [bind] in Er. destruct (nth_error ri i); [|discriminate]. cbv zeta in Er.
      destruct (stage_needed (ia_ex t) (ib_ex t) i (S m)) as [nf|]; [|discriminate]. cbn [bind] in Er. destruct (stage_needed (ia_im t) (ib_im t) i (S m)) as [ng|]; [|discriminate]. cbn [bind] in Er.
      apply IH in Er; [exact Er| |]; cbn [fst snd]; [destruct nf | destruct ng]; try assumption; apply F1_upd; try assumption; unfold P; [apply HF | apply HG]. }
    match type of E with bind (bind ?r _) _ = _ => destruct r as [[[[f gg] lf] lg]|] eqn:Er; [|discriminate] end. cbn [bind] in E. apply G0 in Er.
    + destruct Er as [H1 H2]. cbn [fst snd] in H1, H2. destruct (wsum (ib_ex t) f (S m)) as [s1|] eqn:E1; [|discriminate]. cbn [bind] in E. destruct (wsum (ib_im t) gg (S m)) as [s2|] eqn:E2; [|discriminate]. cbn [bind fst] in E. injection E as <-.
      cbv [vadd vscal]. rewrite (@zero_wsum _ x _ _ _ _ H1 E1), (@zero_wsum _ x _ _ _ _ H2 E2). ring.
    + cbn [fst snd]. apply F1_upd; [apply F1_repeat; exact I | unfold P; apply HF].
    + cbn [fst snd]. apply F1_upd; [apply F1_repeat; exact I | unfold P; apply HG].
Qed.
(* @prop C65 The amplification factors: 1/(1 - dt lam) for backward_forward_euler, the Crank-Nicolson factor with dt/2 for crank_nicolson_rk2, the product over the stages of the Crank-Nicolson factors with dt (alpha_{j+1} - alpha_j)/2 for low_storage_runge_kutta_crank_nicolson (for coefficient lists of matching lengths), (1 + 5z/12)/((1 - z/3)(1 - z/4)) with z = dt lam for imex_rk_sil3 (away from its poles), and 1 for every scheme when lam = 0. *)
Lemma amplification_factors_lem : forall (dt lam : R),
  amplification BackwardForwardEuler dt lam = Ok (1 / (1 - dt * lam))%R /\
  ((1 - dt / 2 * lam <> 0)%R -> amplification CrankNicolsonRK2 dt lam = Ok (cn_factor (dt / 2) lam)) /\
  (forall al be ga, length al = S (length be) -> length ga = length be ->
     amplification (LowStorage al be ga) dt lam = Ok (rprod (length be) (fun j => cn_factor (dt / 2 * (nth (S j) al 0 - nth j al 0)) lam)%R)) /\
  ((1 - dt * lam / 6 <> 0)%R -> (1 - dt * lam / 3 <> 0)%R -> (1 - dt * lam / 4 <> 0)%R ->
     amplification (Imex sil3_tableau) dt lam = Ok ((1 + 5 * (dt * lam) / 12) / ((1 - dt * lam / 3) * (1 - dt * lam / 4)))%R) /\
  (lam = 0%R -> forall k a, amplification k dt lam = Ok a -> a = 1%R).
Proof.
  intros dt lam. split; [|split; [|split; [|split]]].
  - unfold amplification. cbn. unfold backward_forward_euler. cbv [vadd vscal vzero]. f_equal. f_equal. ring.
  - intros Hz. unfold amplification. cbn. unfold crank_nicolson_rk2, cn_factor. cbv [vadd vscal vzero]. f_equal. unfold Rdiv. replace (1 - 1 * / 2 * dt * lam)%R with (1 - dt * / 2 * lam)%R by ring. f_equal. ring.
  - intros al be ga La Lg. unfold amplification, linear_run. cbn [spectral_steps bind spectral_step]. unfold low_storage_rk_cn.
    replace (Z.of_nat (length al) - 1 =? Z.of_nat (length be)) with true by (symmetry; apply Z.eqb_eq; lia). cbn [negb andb].
    match goal with |- context [foldM ?f ?a0 _] => assert (G : forall j, (j <= length be)%nat -> exists h, (h tt = 0%R) /\ exists w, foldM f a0 (seq 0 j) = Ok (h, w) /\ w tt = rprod j (fun j => cn_factor (dt / 2 * (nth (S j) al 0 - nth j al 0)) lam)%R) end.
    { induction j as [|j IH]; intros Hj; [exists vzero; split; [reflexivity|]; eexists; split; reflexivity|]. destruct (IH ltac:(lia)) as (h & Hh & w & E & Ew). rewrite foldM_seq_snoc, E. cbn [bind]. rewrite Nat.add_0_l, Nat.add_1_r.
      rewrite (@nth_error_nth' _ be j 0%R), (@nth_error_nth' _ al (S j) 0%R), (@nth_error_nth' _ al j 0%R), (@nth_error_nth' _ ga j 0%R) by lia. eexists. split; [|eexists; split; [reflexivity|]]; cbv [vadd vscal vzero].
      - rewrite Hh. ring.
      - cbn [rprod]. rewrite <- Ew, Hh. unfold cn_factor, Rdiv. replace (1 - 1 * / 2 * dt * (nth (S j) al 0 - nth j al 0) * lam)%R with (1 - dt * / 2 * (nth (S j) al 0 - nth j al 0) * lam)%R by ring. ring. }
    destruct (G (length be) ltac:(lia)) as (h & _ & w & E & Ew). rewrite E. cbn [bind snd]. rewrite Ew. reflexivity.
  - intros Z6 Z3 Z4. unfold amplification, linear_run. cbn [spectral_steps bind spectral_step].
    assert (Ht : imex_butcher_tableau (ia_ex sil3_tableau) (ia_im sil3_tableau) (ib_ex sil3_tableau) (ib_im sil3_tableau) = Ok sil3_tableau) by reflexivity.
    match goal with |- context [imex_runge_kutta _ ?F ?G ?Gi _ ?y0] => destruct (@imex_full_sum_lem unit _ _ _ _ _ F G Gi dt y0 Ht) as ((Y & HY) & Hall) end.
    + intros [|[|[|i]]] Hi; cbn in *; lia.
    + intros [|[|[|i]]] Hi; cbn in *; lia.
    + destruct (Hall Y HY) as (lf & lg & HE & _). rewrite HE. clear HE Hall. cbn [bind fst]. f_equal.
      destruct HY as [E0 HY]. assert (H1 := HY 1%nat ltac:(cbn; lia)). assert (H2 := HY 2%nat ltac:(cbn; lia)). assert (H3 := HY 3%nat ltac:(cbn; lia)). clear HY.
      cbn -[Rdiv Rmult Rplus Ropp] in H1, H2, H3. rewrite E0 in *. cbn -[Rdiv Rmult Rplus Ropp]. cbv [vadd vscal vzero] in *.
      rewrite H1 in H2, H3 |- *. rewrite H2 in H3 |- *. rewrite H3, E0. field. repeat split; lra.
  - intros -> k a E. unfold amplification in E. match type of E with bind ?r _ = _ => destruct r as [v|] eqn:Er; [|discriminate] end. cbn [bind] in E. injection E as <-.
    unfold linear_run in Er. cbn [spectral_steps bind] in Er. apply (@frozen_step unit tt) in Er; [exact Er | | |]; intros; cbv [vzero]; try ring. unfold Rdiv. replace (1 - h * 0)%R with 1%R by ring. rewrite Rinv_1. ring.
Qed.
(* @ex *)
Lemma amplification_factors_ex_lem : (1 - (1 / 2) / 2 * -3 <> 0)%R /\ length [0; 1 / 3; 1]%R = S (length [0; -1]%R) /\ (1 - (1/2) * -3 / 6 <> 0)%R /\ (1 - (1/2) * -3 / 3 <> 0)%R /\ (1 - (1/2) * -3 / 4 <> 0)%R.
Proof. repeat split; try lra. Qed.

(** * C87: energy under the time steppers when the equation conserves it *)
From Verif Require Import Prelude NdArr Grids_model Spec Boundaries_model BoundariesPeriodic FD_model Interp_model Advection_model PRep FDProofs FDProps InterpProps AdvectionProofs AdvectionProps ConvectProps MonotoneProps TimeStep_model SpectralStep_model SpecKS TimeStepProps SpecSkew AccuracyProps.
Set Implicit Arguments.
Local Open Scope R_scope.

Section IP.
Variables (X : Type) (ip : vec X -> vec X -> R).
Hypothesis (Hip : inner_product ip).
Lemma ip_sym u v : ip u v = ip v u. Proof. apply Hip. Qed.
Lemma ip_add_l u v w : ip (vadd u v) w = ip u w + ip v w. Proof. apply Hip. Qed.
Lemma ip_scal_l c u w : ip (vscal c u) w = c * ip u w. Proof. apply Hip. Qed.
Lemma ip_add_r u v w : ip u (vadd v w) = ip u v + ip u w. Proof. rewrite ip_sym, ip_add_l, !(ip_sym _ u). reflexivity. Qed.
Lemma ip_scal_r c u w : ip u (vscal c w) = c * ip u w. Proof. rewrite ip_sym, ip_scal_l, (ip_sym w). reflexivity. Qed.
Lemma ip_pos u : 0 <= ip u u. Proof. apply Hip. Qed.
Lemma ip_zero_l u : ip vzero u = 0.
Proof. assert (E : vzero = vscal 0 u) by (apply vec_ext; intros x; unfold vzero, vscal; ring). rewrite E, ip_scal_l. ring. Qed.
Lemma skew A : is_linear A -> (forall w, ip (A w) w = 0) -> forall u v, ip (A u) v = - ip u (A v).
Proof. intros (A1 & _) H u v. pose proof (H (vadd u v)) as E. rewrite A1, !ip_add_l, !ip_add_r, !H in E. rewrite (ip_sym (A v) u) in E. lra. Qed.
End IP.
Ltac ipx H := repeat first [rewrite (@ip_add_l _ _ H) | rewrite (@ip_scal_l _ _ H) | rewrite (@ip_add_r _ _ H) | rewrite (@ip_scal_r _ _ H)].

(* @prop C87 When the explicit terms do no work on a state that the (orthogonal) projection keeps, one forward_euler step increases the energy by exactly dt^2 times the energy of the projected tendency - for nonlinear equations too. So explicit Euler steps of an energy-conserving equation never lose energy, however small the time step. *)
Lemma forward_euler_energy_lem : forall X (ip : vec X -> vec X -> R) F P dt u, inner_product ip -> orthogonal_projection ip P -> P u = u -> ip (F u) u = 0 ->
  exists u', forward_euler F P dt u = Ok u' /\ P u' = u' /\ energy ip u' = energy ip u + dt ^ 2 * energy ip (P (F u)).
Proof.
  intros X ip F P dt u Hip ((P1 & P2) & P3 & P4) Hu HF. destruct (rk_named_schemes_lem F P dt u) as (E & _). eexists. split; [exact E|]. split; [apply P3|]. change (fun x => u x + dt * F u x) with (vadd u (vscal dt (F u))).
  rewrite P1, P2, Hu. unfold energy. ipx Hip. rewrite (ip_sym Hip u (P (F u))), P4, Hu, HF. ring.
Qed.
Section Sk.
Variables (X : Type) (ip : vec X -> vec X -> R) (F P : vec X -> vec X).
Hypothesis (Hip : inner_product ip) (HF : is_linear F) (HP : orthogonal_projection ip P) (HW : forall w, P w = w -> ip (F w) w = 0).
Let A := fun w => P (F w).
Lemma A_lin : is_linear A.
Proof. destruct HF as (F1 & F2), HP as ((P1 & P2) & _). split; intros; unfold A; [rewrite F1, P1 | rewrite F2, P2]; reflexivity. Qed.
Lemma A_range w : P (A w) = A w. Proof. destruct HP as (_ & P3 & _). apply P3. Qed.
Lemma A_skew u v : P u = u -> P v = v -> ip (A u) v = - ip u (A v).
Proof.
  intros Hu Hv. destruct HP as ((P1 & P2) & P3 & P4). destruct A_lin as (A1 & _). assert (H : forall w, P w = w -> ip (A w) w = 0) by (intros w Hw; unfold A; rewrite P4, Hw; apply HW; exact Hw).
  pose proof (H (vadd u v) ltac:(rewrite P1, Hu, Hv; reflexivity)) as E. rewrite A1 in E. revert E. ipx Hip. rewrite !H by assumption. rewrite (ip_sym Hip (A v) u). lra.
Qed.
Lemma A_own u : P u = u -> ip (A u) u = 0.
Proof. intros Hu. destruct HP as (_ & _ & P4). unfold A. rewrite P4, Hu. apply HW; exact Hu. Qed.
End Sk.
(* @prop C87 For a linear equation that does no work on constrained states (central advection in a fixed incompressible flow, waves), starting from a constrained state: midpoint_rk2 and heun_rk2 increase the energy by exactly dt^4/4 times the energy of the second time derivative, and classic_rk4 changes it by exactly - dt^6/72 |A^3 u|^2 + dt^8/576 |A^4 u|^2. *)
Lemma rk_energy_lem : forall X (ip : vec X -> vec X -> R) F P dt u, inner_product ip -> is_linear F -> orthogonal_projection ip P -> (forall w, P w = w -> ip (F w) w = 0) -> P u = u ->
  let A := fun w => P (F w) in
  (exists u', midpoint_rk2 F P dt u = Ok u' /\ heun_rk2 F P dt u = Ok u' /\ energy ip u' = energy ip u + dt ^ 4 / 4 * energy ip (A (A u))) /\
  (exists u', classic_rk4 F P dt u = Ok u' /\ P u' = u' /\ energy ip u' = energy ip u - dt ^ 6 / 72 * energy ip (A (A (A u))) + dt ^ 8 / 576 * energy ip (A (A (A (A u))))).
Proof.
  intros X ip F P dt u Hip HF HP HW Hu A. destruct (@rk_taylor_lem X F P dt u HF (proj1 HP) Hu) as (_ & E2 & E3 & E4). fold A in E2, E3, E4.
  pose proof (@A_range X ip F P HP) as AR. pose proof (@A_skew X ip F P Hip HF HP HW) as AS. pose proof (@A_own X ip F P HP HW) as AO. fold A in AR, AS, AO.
  set (u1 := A u). set (u2 := A u1). set (u3 := A u2). set (u4 := A u3).
  assert (R1 : P u1 = u1) by apply AR. assert (R2 : P u2 = u2) by apply AR. assert (R3 : P u3 = u3) by apply AR. assert (R4 : P u4 = u4) by apply AR.
  assert (T2 : taylor A dt 2 u = vadd u (vadd (vscal dt u1) (vscal (dt ^ 2 / 2) u2))) by (apply vec_ext; intros x; unfold taylor; cbn -[INR Rdiv]; unfold vadd, vscal, u2, u1; simpl fact; simpl INR; field).
  assert (T4 : taylor A dt 4 u = vadd u (vadd (vscal dt u1) (vadd (vscal (dt ^ 2 / 2) u2) (vadd (vscal (dt ^ 3 / 6) u3) (vscal (dt ^ 4 / 24) u4))))) by (apply vec_ext; intros x; unfold taylor; cbn -[INR Rdiv]; unfold vadd, vscal, u4, u3, u2, u1; simpl fact; simpl INR; field).
  assert (I01 : ip u1 u = 0) by (apply AO; exact Hu). assert (I12 : ip u2 u1 = 0) by (apply AO; exact R1). assert (I23 : ip u3 u2 = 0) by (apply AO; exact R2). assert (I34 : ip u4 u3 = 0) by (apply AO; exact R3).
  assert (I02 : ip u2 u = - ip u1 u1) by (apply (AS u1 u R1 Hu)). assert (I13 : ip u3 u1 = - ip u2 u2) by (apply (AS u2 u1 R2 R1)). assert (I24 : ip u4 u2 = - ip u3 u3) by (apply (AS u3 u2 R3 R2)).
  assert (I03 : ip u3 u = 0) by (rewrite (AS u2 u R2 Hu : ip u3 u = - ip u2 u1), I12; ring).
  assert (I14 : ip u4 u1 = 0) by (rewrite (AS u3 u1 R3 R1 : ip u4 u1 = - ip u3 u2), I23; ring).
  assert (I04 : ip u4 u = ip u2 u2) by (rewrite (AS u3 u R3 Hu : ip u4 u = - ip u3 u1), I13; ring).
  split.
  - exists (taylor A dt 2 u). split; [exact E2|]. split; [exact E3|]. rewrite T2. unfold energy. ipx Hip. rewrite (ip_sym Hip u u1), (ip_sym Hip u u2), (ip_sym Hip u1 u2), I01, I02, I12. fold u1 u2. field.
  - exists (taylor A dt 4 u). split; [exact E4|]. split.
    + rewrite T4. destruct HP as ((P1 & P2) & _). rewrite !P1, !P2, Hu, R1, R2, R3, R4. reflexivity.
    + rewrite T4. unfold energy. ipx Hip. rewrite (ip_sym Hip u u1), (ip_sym Hip u u2), (ip_sym Hip u u3), (ip_sym Hip u u4), (ip_sym Hip u1 u2), (ip_sym Hip u1 u3), (ip_sym Hip u1 u4), (ip_sym Hip u2 u3), (ip_sym Hip u2 u4), (ip_sym Hip u3 u4), I01, I02, I03, I04, I12, I13, I14, I23, I24, I34. fold u1 u2 u3 u4. field.
Qed.
(* @prop C87 classic_rk4 is stable on such equations up to its classical limit: if dt |A w| <= sqrt(8) |w| for every constrained state w, the energy never grows over any number of steps. *)
Lemma rk4_energy_stable_lem : forall X (ip : vec X -> vec X -> R) F P dt (run : nat -> vec X), inner_product ip -> is_linear F -> orthogonal_projection ip P -> (forall w, P w = w -> ip (F w) w = 0) ->
  (forall w, P w = w -> dt ^ 2 * energy ip (P (F w)) <= 8 * energy ip w) -> P (run 0%nat) = run 0%nat -> (forall n, classic_rk4 F P dt (run n) = Ok (run (S n))) ->
  forall n m, (n <= m)%nat -> energy ip (run m) <= energy ip (run n).
Proof.
  intros X ip F P dt run Hip HF HP HW HB H0 Hrun. set (A := fun w => P (F w)).
  assert (ST : forall n, P (run n) = run n -> P (run (S n)) = run (S n) /\ energy ip (run (S n)) <= energy ip (run n)).
  { intros n Hn. destruct (@rk_energy_lem X ip F P dt (run n) Hip HF HP HW Hn) as (_ & u' & E & Pu & EE). rewrite Hrun in E. apply ok_inj in E. subst u'. split; [exact Pu|].
    assert (EE' : energy ip (run (S n)) = energy ip (run n) - dt ^ 6 / 72 * energy ip (A (A (A (run n)))) + dt ^ 8 / 576 * energy ip (A (A (A (A (run n)))))) by exact EE. rewrite EE'.
    assert (B : dt ^ 2 * energy ip (A (A (A (A (run n))))) <= 8 * energy ip (A (A (A (run n))))) by exact (HB (A (A (A (run n)))) (@A_range X ip F P HP _)).
    set (e3 := energy ip (A (A (A (run n))))) in *. set (e4 := energy ip (A (A (A (A (run n)))))) in *. pose proof (pow2_ge_0 (dt ^ 3)) as D. replace ((dt ^ 3) ^ 2) with (dt ^ 6) in D by ring.
    apply (Rmult_le_compat_l (dt ^ 6 / 576)) in B; [|lra]. replace (dt ^ 6 / 576 * (dt ^ 2 * e4)) with (dt ^ 8 / 576 * e4) in B by field. replace (dt ^ 6 / 576 * (8 * e3)) with (dt ^ 6 / 72 * e3) in B by field. lra. }
  assert (PR : forall n, P (run n) = run n) by (induction n as [|n IH]; [exact H0 | apply (ST n IH)]).
  intros n m Hnm. induction Hnm as [|m Hnm IH]; [lra|]. eapply Rle_trans; [apply (ST m (PR m)) | exact IH].
Qed.
(* @prop C87 The implicit-explicit schemes without explicit terms, on a linear implicit term that does no work (dispersive terms such as i k^2): crank_nicolson_rk2, crank_nicolson_rk3, crank_nicolson_rk4 and every low-storage Crank-Nicolson scheme keep the energy exactly over any number of steps of any length; backward_forward_euler loses exactly dt^2 times the energy of the new tendency at each step. *)
Lemma implicit_energy_lem : forall X (ip : vec X -> vec X -> R) G Ginv dt (u v : vec X) k n, inner_product ip -> is_linear G -> (forall w, ip (G w) w = 0) ->
  (forall y h, vadd (Ginv y h) (vscal (- h) (G (Ginv y h))) = y) ->
  (k = CrankNicolsonRK2 \/ (exists al be ga, k = LowStorage al be ga) -> spectral_steps k (fun _ => vzero) G Ginv dt n u = Ok v -> energy ip v = energy ip u) /\
  (spectral_step BackwardForwardEuler (fun _ => vzero) G Ginv dt u = Ok v -> energy ip v + dt ^ 2 * energy ip (G v) = energy ip u).
Proof.
  intros X ip G Ginv dt u v k n Hip HG HW HI. pose proof (skew Hip HG HW) as SK. destruct HG as (G1 & G2).
  assert (CN : forall w h y, y = vadd w (vscal h (G w)) -> ip (Ginv y h) (Ginv y h) = ip w w).
  { intros w h y ->. set (z := Ginv _ h). pose proof (HI (vadd w (vscal h (G w))) h) as E. fold z in E.
    assert (E2 : vadd z (vscal (-1) w) = vscal h (G (vadd z w))). { rewrite G1. apply vec_ext. intros x. pose proof (f_equal (fun q => q x) E) as Ex. cbv beta in Ex. unfold vadd, vscal in *. lra. }
    pose proof (f_equal (fun q => ip q (vadd z w)) E2) as E3. cbv beta in E3. rewrite (ip_scal_l Hip h), HW in E3. revert E3. ipx Hip. rewrite (ip_sym Hip z w). lra. }
  split.
  - intros Hk. unfold energy. revert v. induction n as [|n IH]; intros v E; [apply ok_inj in E; subst; reflexivity|]. cbn [spectral_steps] in E. destruct (spectral_steps k _ G Ginv dt n u) as [w|] eqn:En; [|discriminate E]. cbn [bind] in E. rewrite <- (IH w eq_refl). clear IH En.
    destruct Hk as [-> | (al & be & ga & ->)].
    + cbn [spectral_step] in E. apply ok_inj in E. subst v. unfold crank_nicolson_rk2. apply CN. apply vec_ext. intros x. unfold vadd, vscal, vzero. ring.
    + cbn [spectral_step] in E. unfold low_storage_rk_cn in E. destruct (_ && _); [discriminate E|].
      match type of E with bind (foldM ?f _ _) _ = _ => set (ff := f) in E end. assert (FO : forall l h y r, foldM ff (h, y) l = Ok r -> (forall x, h x = 0) -> ip (snd r) (snd r) = ip y y).
      { induction l as [|j l IHl]; intros h y r El Hh; [apply ok_inj in El; subst r; reflexivity|]. cbn [foldM] in El. unfold ff at 1 in El.
        destruct (nth_error be j) as [bk|]; [|discriminate El]. destruct (nth_error al (j + 1)) as [a1|]; [|discriminate El]. destruct (nth_error al j) as [a0|]; [|discriminate El]. destruct (nth_error ga j) as [gk|]; [|discriminate El]. cbn [bind] in El.
        apply IHl in El; [|intros x; unfold vadd, vscal, vzero; rewrite Hh; ring]. rewrite El. apply CN. apply vec_ext. intros x. unfold vadd, vscal, vzero. rewrite Hh. ring. }
      match type of E with bind ?m _ = _ => destruct m as [r|] eqn:Er; [|discriminate E] end. cbn [bind] in E. apply ok_inj in E. subst v. exact (FO _ _ _ _ Er ltac:(reflexivity)).
  - intros E. cbn [spectral_step] in E. apply ok_inj in E. subst v. unfold backward_forward_euler, energy. set (y := vadd u (vscal dt vzero)). set (z := Ginv y dt). assert (Ey : y = u) by (apply vec_ext; intros x; unfold y, vadd, vscal, vzero; ring).
    pose proof (HI y dt) as Ez. fold z in Ez. rewrite Ey in Ez. rewrite <- Ez. ipx Hip. rewrite (ip_sym Hip z (G z)), HW. ring.
Qed.
(** A rotation in the plane as the equation of the examples. *)
Definition plane_product (u v : vec bool) : R := u true * v true + u false * v false.
Definition rotation (u : vec bool) : vec bool := fun x => if x then u false else - u true.
Definition rotation_inv (y : vec bool) (h : R) : vec bool := fun x => (if x then y true + h * y false else y false - h * y true) / (1 + h ^ 2).
Lemma plane_inner : inner_product plane_product.
Proof.
  unfold plane_product. split; [intros; ring|]. split; [intros; unfold vadd; ring|]. split; [intros; unfold vscal; ring|].
  intros u. apply Rplus_le_le_0_compat; apply Rle_0_sqr.
Qed.
Lemma plane_id : orthogonal_projection plane_product (fun u => u).
Proof. split; [split; reflexivity|]. split; reflexivity. Qed.
Lemma rotation_linear : is_linear rotation.
Proof. split; intros; apply vec_ext; intros [|]; unfold rotation, vadd, vscal; ring. Qed.
Lemma rotation_skew w : plane_product (rotation w) w = 0.
Proof. unfold plane_product, rotation. ring. Qed.
(* @ex *)
Lemma forward_euler_energy_ex_lem : inner_product plane_product /\ orthogonal_projection plane_product (fun u => u) /\ (forall w, plane_product (rotation w) w = 0) /\
  exists u', forward_euler rotation (fun u => u) (1 / 2) (fun x => if x then 1 else 0) = Ok u' /\ energy plane_product u' = 5 / 4.
Proof.
  split; [exact plane_inner|]. split; [exact plane_id|]. split; [exact rotation_skew|].
  destruct (rk_named_schemes_lem rotation (fun u => u) (1 / 2) (fun x => if x then 1 else 0)) as (E & _). eexists. split; [exact E|]. unfold energy, plane_product, rotation. field.
Qed.
(* @ex *)
Lemma rk_energy_ex_lem : inner_product plane_product /\ is_linear rotation /\ orthogonal_projection plane_product (fun u => u) /\ (forall w, plane_product (rotation w) w = 0) /\
  exists u', classic_rk4 rotation (fun u => u) 1 (fun x => if x then 1 else 0) = Ok u' /\ energy plane_product u' = 1 - 1 / 72 + 1 / 576.
Proof.
  split; [exact plane_inner|]. split; [exact rotation_linear|]. split; [exact plane_id|]. split; [exact rotation_skew|].
  destruct (rk_named_schemes_lem rotation (fun u => u) 1 (fun x => if x then 1 else 0)) as (_ & _ & _ & E). cbv zeta in E. eexists. split; [exact E|]. unfold energy, plane_product, rotation. field.
Qed.
Definition rotated (n : nat) : vec bool := Nat.iter n (fun u => match classic_rk4 rotation (fun u => u) 2 u with Ok w => w | Err _ => u end) (fun x => if x then 1 else 0).
(* @ex *)
Lemma rk4_energy_stable_ex_lem : inner_product plane_product /\ is_linear rotation /\ orthogonal_projection plane_product (fun u => u) /\ (forall w, plane_product (rotation w) w = 0) /\
  (forall w, 2 ^ 2 * energy plane_product (rotation w) <= 8 * energy plane_product w) /\ (forall n, classic_rk4 rotation (fun u => u) 2 (rotated n) = Ok (rotated (S n))).
Proof.
  split; [exact plane_inner|]. split; [exact rotation_linear|]. split; [exact plane_id|]. split; [exact rotation_skew|]. split.
  - intros w. unfold energy, plane_product, rotation. pose proof (Rle_0_sqr (w true)) as A. pose proof (Rle_0_sqr (w false)) as B. unfold Rsqr in A, B. lra.
  - intros n. change (rotated (S n)) with (match classic_rk4 rotation (fun u => u) 2 (rotated n) with Ok w => w | Err _ => rotated n end). destruct (rk_named_schemes_lem rotation (fun u => u) 2 (rotated n)) as (_ & _ & _ & E). cbv zeta in E. rewrite E. reflexivity.
Qed.
(* @ex *)
Lemma implicit_energy_ex_lem : inner_product plane_product /\ is_linear rotation /\ (forall w, plane_product (rotation w) w = 0) /\
  (forall y h, vadd (rotation_inv y h) (vscal (- h) (rotation (rotation_inv y h))) = y) /\
  exists v, spectral_steps CrankNicolsonRK2 (fun _ => vzero) rotation rotation_inv 3 5 (fun x => if x then 1 else 2) = Ok v.
Proof.
  split; [exact plane_inner|]. split; [exact rotation_linear|]. split; [exact rotation_skew|]. split; [|eexists; reflexivity].
  intros y h. assert (1 + h ^ 2 <> 0) by (pose proof (pow2_ge_0 h); lra). apply vec_ext. intros [|]; unfold vadd, vscal, rotation, rotation_inv; field; simpl in *; lra.
Qed.

(** * A copy of the 3 x 4 example: axes exchanged, moved by (1, 2), cells twice as wide, three times as fast *)
From Verif Require Import Prelude NdArr Grids_model Spec SpecLin SpecDiag SpecDiff LinAlg Cplx Boundaries_model BoundariesPeriodic FD_model LaplacianProps PRep FDProofs FDProps Pressure_model PressureProps FastDiag_model Laplacian_model PressureSolve_model PressureSolveProps Diffusion_model TimeStep_model Equations_model SpecNS EquationsProps EquationsMoreProps SpecSym SymBase.
Set Implicit Arguments.
Local Open Scope Z_scope.

Definition p43g : grid := mkgrid [4%nat; 3%nat] [1%R; 2%R] [(0%R, 4%R); (0%R, 6%R)].
Definition swapped : placement := mkplacement (fun a => (1 - a)%nat) (fun a => (1 - a)%nat) (fun b => if (b =? 0)%nat then 1 else 2).
Definition p43v : list gvar :=
  [mkgv (mkga (mkarr [4%nat; 3%nat] (fun ix => 3 * vval p34v 1 (under 2 swapped ix))%R) [1%Q; (1 # 2)%Q] p43g) (periodic_bc 2);
   mkgv (mkga (mkarr [4%nat; 3%nat] (fun ix => 3 * vval p34v 0 (under 2 swapped ix))%R) [(1 # 2)%Q; 1%Q] p43g) (periodic_bc 2)].
Lemma p43_grid : copied_grid swapped 2 p34g p43g.
Proof.
  split; [reflexivity|]. split.
  - intros [|[|a]] Ha; cbn in *; [repeat split; lia | repeat split; lia | lia].
  - intros [|[|a]] Ha; [| |unfold gndim in Ha; cbn in Ha; lia]; cbn; (split; [reflexivity | unfold hstep; cbn; lra]).
Qed.
Lemma p43_wf : wfg p43g.
Proof. repeat split; repeat constructor; (lia || lra). Qed.
Lemma p43_pv : periodic_velocity p43g half2 [periodic_bc 2; periodic_bc 2] p43v.
Proof.
  split; [|split; [|split]].
  - split; [reflexivity|]. repeat constructor; (lia || lra || reflexivity).
  - repeat constructor.
  - intros [|[|[|i]]] u H; cbn in H; try discriminate; injection H as <-; repeat constructor.
  - reflexivity.
Qed.
Lemma half_copy : copied_offset (gndim p34g) swapped half2 half2.
Proof. split; [reflexivity|]. split; [reflexivity|]. intros [|[|a]] Ha; [reflexivity | reflexivity | unfold gndim in Ha; cbn in Ha; lia]. Qed.
Lemma p43_copy : copied_velocity (gndim p34g) swapped 3 p34v p43v.
Proof.
  assert (P : forall j, (j < 2)%nat -> periodic (gshape p43g) (fun ix => vval p34v j (under 2 swapped ix))).
  { intros j Hj. apply (@sym_periodic p34g p43g swapped 2 p43_grid). apply (periodic_vval (proj1 p34_pv)). exact Hj. }
  intros i Hi ix HL. change (gndim p34g) with 2%nat in *. destruct i as [|[|i]]; [| |lia].
  - change (vval p43v 0 ix) with (3 * vval p34v 1 (under 2 swapped (wrap (gshape p43g) ix)))%R. cbn [swapped to_axis]. f_equal. exact (P 1%nat ltac:(lia) ix HL).
  - change (vval p43v 1 ix) with (3 * vval p34v 0 (under 2 swapped (wrap (gshape p43g) ix)))%R. cbn [swapped to_axis]. f_equal. exact (P 0%nat ltac:(lia) ix HL).
Qed.
Lemma p43_solver tpu eigh : solves_poisson p43g half2 (fun v _ b => pressure_solve_fast_diag tpu eigh (1 / 1000) v (Some b) (Some Fft)).
Proof.
  apply (@default_pressure_solver_lem tpu eigh (1 / 1000) (Some Fft) p43g); [cbn; lia | exact p43_wf | lra | | intros; exact I].
  intros [|[|a]] Ha; [| |unfold gndim in Ha; cbn in Ha; lia]; (split; [cbn; lia | unfold hstep; cbn; lra]).
Qed.
Lemma p43_diff tpu eigh nu dt : (0 <= dt * nu)%R -> forall u, periodic_velocity p43g half2 [periodic_bc 2; periodic_bc 2] u ->
  exists u', p34_ds tpu eigh u nu dt = Ok u' /\ Forall2 (implicitly_diffused (dt * nu)) u u'.
Proof.
  intros Hc u Hu. apply (@default_diffusion_solver_lem tpu eigh (Some Fft) p43g half2 [periodic_bc 2; periodic_bc 2]); [cbn; lia | exact Hc | | intros; exact I | exact Hu].
  intros [|[|a]] Ha; [cbn; lia | cbn; lia | unfold gndim in Ha; cbn in Ha; lia].
Qed.
(** A force equal to the velocity treats copies alike. *)
Definition tailwind (v : list gvar) : result (list garr) := Ok (map garray v).
Lemma tailwind_fields g o bs v : periodic_velocity g o bs v -> fields_at g v (map garray v) (fun i => get (gdata (garray (nth i v dgv)))).
Proof.
  intros (Hv & _). apply fields_at_intro; [apply map_length|]. intros i Hi. change dga with (garray dgv). rewrite map_nth.
  assert (Hi' : (i < gndim g)%nat) by (destruct Hv; lia). destruct (periodic_vec_nth Hv Hi') as (((_ & S & _) & _) & Hg).
  split; [exact Hg|]. split; [apply off_eq_refl|]. split; [congruence|]. intros; reflexivity.
Qed.
Lemma tailwind_alike g g' o o' bs bs' p k : treat_alike g g' o o' bs bs' p k k tailwind tailwind.
Proof.
  intros v v' Hv Hv' R. exists (map garray v), (map garray v'). eexists _, _. split; [reflexivity|]. split; [reflexivity|].
  split; [apply (tailwind_fields Hv)|]. split; [apply (tailwind_fields Hv')|]. intros i w w' Hi E E'.
  rewrite nth_error_map in E. destruct (nth_error v (to_axis p i)) as [u|] eqn:Eu; [|discriminate]. injection E as <-.
  rewrite nth_error_map in E'. destruct (nth_error v' i) as [u'|] eqn:Eu'; [|discriminate]. injection E' as <-.
  specialize (R i Hi). unfold vval in R. rewrite Eu, Eu' in R. exact R.
Qed.

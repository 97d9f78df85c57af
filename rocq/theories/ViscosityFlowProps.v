(** * C68: what a learned eddy viscosity can do to the flow *)
From Verif Require Import Prelude NdArr Grids_model Spec Boundaries_model FD_model PRep FDProofs FDProps Pressure_model Interp_model InterpProofs InterpProps Advection_model AdvectionProps Diffusion_model TilingProofs PressureProps FastDiag_model PressureSolve_model PressureSolveProps TimeStep_model Equations_model SpecNS EquationsProps EquationsMoreProps Forcings_model Subgrid_model SpecSub SubgridProps SubgridMoreProps ArrayUtilsProps SpecML Networks_model LearnedProps Viscosities_model SpecVisc ViscosityProps.
Set Implicit Arguments.
Local Open Scope Z_scope.

(** the three learned viscosities with one scale *)
Lemma spread_sym g o nu i j ix : length ix = gndim g -> spread g o nu i j ix = spread g o nu j i ix.
Proof. intros HL. unfold spread. apply (@lerp_off_eq (gshape g)); [apply offs_comm | exact HL]. Qed.
Lemma lerp_nonneg (s : list nat) (F : list Z -> R) : (forall jx, length jx = length s -> (0 <= F jx)%R) -> forall n p q jx, length jx = length s -> (0 <= lerp n p q F jx)%R.
Proof.
  intros HF. induction n as [|n IH]; intros p q jx HLj; [apply HF; exact HLj|]. cbn [lerp]. unfold lerp_axis. set (d := (nth n q 0 - nth n p 0)%Q).
  assert (Hfr : (0 <= Q2R (d - inject_Z (Qfloor d)) < 1)%R) by apply frac_range.
  pose proof (IH p q (shiftix n (Qfloor d) jx) ltac:(rewrite shiftix_length; exact HLj)). pose proof (IH p q (shiftix n (Qfloor d + 1) jx) ltac:(rewrite shiftix_length; exact HLj)).
  apply Rplus_le_le_0_compat; apply Rmult_le_pos; lra.
Qed.

Lemma learned_viscosity_calc g o unique tower scale v viscosity_fn : (0 < gndim g)%nat -> length o = gndim g -> periodic_vec g v -> face_aligned o v -> lists_distinct unique -> any_network g tower ->
  In viscosity_fn [learned_scalar_viscosity g linear_fn unique tower scale; learned_scalar_viscosity_from_gradients g linear_fn unique tower scale; learned_tensor_viscosity g unique tower scale] ->
  forall s, tensor_at g o s (strain g v) -> exists N m, viscosity_fn s v = Ok m /\ tensor_at g o m N /\
    (forall i j ix, (i < gndim g)%nat -> (j < gndim g)%nat -> inb (gshape g) ix -> N i j ix = N j i ix) /\
    ((0 <= scale)%R -> nonnegative_outputs tower -> forall i j ix, (i < gndim g)%nat -> (j < gndim g)%nat -> inb (gshape g) ix -> (0 <= N i j ix)%R).
Proof.
  intros Hd Ho Hv Hf Hu Hn Hin s Hs. cbn [In] in Hin.
  pose proof (periodic_vec_wfg Hd Hv) as Hw.
  assert (HS : forall y n c x, nonnegative_outputs tower -> shp x = gshape g ++ [c] -> tower n x = Ok y -> (0 <= scale)%R -> forall k ix, (k < n)%nat -> inb (gshape g) ix -> (0 <= (scale + / 1000000) * channel y k ix)%R).
  { intros y n c x Hp Sx E Hsc k ix Hk Hix. apply Rmult_le_pos; [lra|]. destruct (Hn n c x Sx) as (y' & E' & Sy). rewrite E in E'. injection E' as <-. apply (Hp n x y _ E). rewrite Sy. apply inb_app_intro; [exact Hix | cbn; lia]. }
  destruct Hin as [<- | [<- | [<- | []]]].
  - destruct (@learned_scalar_viscosity_spec_lem g o unique tower scale v s Hd Ho Hv Hu Hn Hs) as (x & y & m & Hx & Ey & Em & Hm).
    eexists; exists m. split; [exact Em|]. split; [exact Hm|]. split; [intros i j ix _ _ Hix; apply spread_sym; exact (inb_length _ _ Hix)|].
    intros Hsc Hp i j ix _ _ Hix. apply (@lerp_nonneg (gshape g)); [|exact (inb_length _ _ Hix)]. intros jx Hjx. unfold wrapped. apply (HS y 1%nat _ x Hp (proj1 Hx) Ey Hsc); [lia|]. apply inb_wrap; [apply Hw | exact Hjx].
  - destruct (@learned_viscosity_from_gradients_spec_lem g o unique tower scale v s Hd Ho Hv Hu Hn Hs) as (x & y & m & Hx & Ey & Em & Hm).
    eexists; exists m. split; [exact Em|]. split; [exact Hm|]. split; [intros i j ix _ _ Hix; apply spread_sym; exact (inb_length _ _ Hix)|].
    intros Hsc Hp i j ix _ _ Hix. apply (@lerp_nonneg (gshape g)); [|exact (inb_length _ _ Hix)]. intros jx Hjx. unfold wrapped. apply (HS y 1%nat _ x Hp (proj1 Hx) Ey Hsc); [lia|]. apply inb_wrap; [apply Hw | exact Hjx].
  - destruct (@learned_tensor_viscosity_spec_lem g o unique tower scale v s Hd Ho Hv Hu Hn Hs) as (n & x & y & m & number & Hx & Ey & _ & Em & Hm & Hlt & Hnum & _).
    eexists; exists m. split; [exact Em|]. split; [exact Hm|]. split.
    + intros i j ix Hi Hj _. rewrite (proj2 (Hnum i j j i Hi Hj Hj Hi)); [reflexivity | right; auto].
    + intros Hsc Hp i j ix Hi Hj Hix. apply (HS y n _ x Hp (proj1 Hx) Ey Hsc); [apply Hlt; assumption | exact Hix].
Qed.

(* the strain tensor is unique, so existentials over N can be moved out *)
Lemma learned_evm g o unique tower scale v viscosity_fn : (0 < gndim g)%nat -> length o = gndim g -> periodic_vec g v -> face_aligned o v -> lists_distinct unique -> any_network g tower ->
  In viscosity_fn [learned_scalar_viscosity g linear_fn unique tower scale; learned_scalar_viscosity_from_gradients g linear_fn unique tower scale; learned_tensor_viscosity g unique tower scale] ->
  exists N l, evm_model viscosity_fn v = Ok l /\ fields_at g v l (evmF g v N) /\ (forall w, In w l -> total (gdata w) = 0%R) /\
    work g v l = (- 2 * nsum (gndim g) (fun i => nsum (gndim g) (fun j => asum (gshape g) (fun ix => N i j ix * strain g v i j ix ^ 2))))%R /\
    ((0 <= scale)%R -> nonnegative_outputs tower -> (work g v l <= 0)%R).
Proof.
  intros Hd Ho Hv Hf Hu Hn Hin. destruct (strain_tensor Hd Ho Hv Hf) as (s & Es & Hs).
  destruct (@learned_viscosity_calc g o unique tower scale v viscosity_fn Hd Ho Hv Hf Hu Hn Hin s Hs) as (N & m & Em & Hm & Hsym & Hpos).
  set (fn := fun (s0 : tensor) (v0 : list gvar) => Ok (A := tensor) m).
  assert (Efn : evm_model viscosity_fn v = evm_model fn v).
  { unfold evm_model. rewrite (pvec_all_periodic Hv). cbn [negb]. rewrite (pvec_grid Hd Hv). cbn [bind]. rewrite Es. cbn [bind]. rewrite Em. reflexivity. }
  assert (HN : forall s0, tensor_at g o s0 (strain g v) -> exists m0, fn s0 v = Ok m0 /\ tensor_at g o m0 N) by (intros s0 _; exists m; split; [reflexivity | exact Hm]).
  destruct (@evm_calc g o v N fn Hd Ho Hv Hf HN) as (l & E & Hl). exists N, l. rewrite Efn. split; [exact E|]. split; [exact Hl|].
  destruct (@evm_model_momentum_lem g o v N fn Hd Ho Hv Hf HN) as (l1 & E1 & _ & Z). rewrite E in E1. injection E1 as <-.
  destruct (@evm_dissipation_lem g o v N fn Hd Ho Hv Hf HN Hsym) as (l2 & E2 & W & Wn). rewrite E in E2. injection E2 as <-.
  split; [exact Z|]. split; [exact W|]. intros Hsc Hp. apply Wn. exact (Hpos Hsc Hp).
Qed.

(* @prop C68 eddy_viscosity_model around any of the three learned viscosities, for every network, viscosity scale and order of offsets: it is a legitimate term of the equation (one field per component at that component's points) for every staggered periodic velocity, it exerts no net force, and, when the scale is nonnegative and the network's outputs are, it never does positive work on the flow. *)
Lemma learned_eddy_viscosity_lem : forall g o bs unique tower specs_viscosity scale model, (0 < gndim g)%nat -> length o = gndim g -> lists_distinct unique -> any_network g tower ->
  In model [learned_scalar_viscosity g linear_fn unique tower; learned_scalar_viscosity_from_gradients g linear_fn unique tower; learned_tensor_viscosity g unique tower] ->
  any_term g o bs (eddy_viscosity_model specs_viscosity scale model) /\
  no_net_force g o bs (eddy_viscosity_model specs_viscosity scale model) /\
  ((0 <= match scale with Some s => s | None => specs_viscosity end)%R -> nonnegative_outputs tower -> takes_energy g o bs (eddy_viscosity_model specs_viscosity scale model)).
Proof.
  intros g o bs unique tower sv scale model Hd Ho Hu Hn Hin. unfold eddy_viscosity_model. set (s := match scale with Some s0 => s0 | None => sv end).
  assert (Hin' : In (model s) [learned_scalar_viscosity g linear_fn unique tower s; learned_scalar_viscosity_from_gradients g linear_fn unique tower s; learned_tensor_viscosity g unique tower s]).
  { cbn [In] in Hin |- *. destruct Hin as [<- | [<- | [<- | []]]]; auto. }
  assert (H : forall w, periodic_velocity g o bs w -> exists N l, evm_model (model s) w = Ok l /\ fields_at g w l (evmF g w N) /\ (forall x, In x l -> total (gdata x) = 0%R) /\
     ((0 <= s)%R -> nonnegative_outputs tower -> (work g w l <= 0)%R)).
  { intros w (Hv & _ & Hf & _). destruct (@learned_evm g o unique tower s w (model s) Hd Ho Hv Hf Hu Hn Hin') as (N & l & A & B & C & _ & D). exists N, l. auto. }
  split; [|split].
  - intros w Hw. destruct (H w Hw) as (N & l & E & Hl & _). exists l. eexists. split; [exact E | exact Hl].
  - intros w l i x Hw E Hx. destruct (H w Hw) as (N & l' & E' & _ & Z & _). rewrite E in E'. injection E' as <-. apply Z. exact (nth_error_In _ _ Hx).
  - intros Hsc Hp w l Hw E. destruct (H w Hw) as (N & l' & E' & _ & _ & W). rewrite E in E'. injection E' as <-. exact (W Hsc Hp).
Qed.

(** values of the result of a term *)
Definition termF (f : list gvar -> result (list garr)) (w : list gvar) (i : nat) (ix : list Z) : R :=
  match f w with Ok l => get (gdata (nth i l dga)) ix | Err _ => 0%R end.
Lemma termF_fields g o bs f w : any_term g o bs f -> periodic_velocity g o bs w -> exists l, f w = Ok l /\ fields_at g w l (termF f w).
Proof.
  intros Hf Hw. destruct (Hf w Hw) as (l & F & E & H). exists l. split; [exact E|]. apply fields_at_intro; [apply H|]. intros i Hi. destruct (fields_at_nth H Hi) as (A & B & C & D).
  split; [exact A|]. split; [exact B|]. split; [exact C|]. intros ix Hix. unfold termF. rewrite E. reflexivity.
Qed.

(* @prop C68 implicit_evm_solve_with_diffusion with any eddy-viscosity term that exerts no net force, for every viscosity and time step: whenever the inner solver returns a solution v' of v' - dt * (acceleration(v') + viscosity * laplacian(v')) = v, the result keeps grid, offsets and boundary conditions and the total of every component; and if viscosity and time step are nonnegative and the term never does positive work, the kinetic energy does not grow. *)
Lemma implicit_evm_solve_lem : forall cg g o b model nu dt v x y, (0 < gndim g)%nat -> length o = gndim g -> periodic_velocity g o (repeat b (gndim g)) v ->
  any_term g o (repeat b (gndim g)) model -> no_net_force g o (repeat b (gndim g)) model ->
  cg (evm_linear_op b nu dt model) (map garray v) = Ok x -> (exists X, fields_at g v x X) -> evm_linear_op b nu dt model x = Ok y -> fields_at g v y (vval v) ->
  exists v', implicit_evm_solve_with_diffusion cg model v nu dt = Ok v' /\ periodic_velocity g o (repeat b (gndim g)) v' /\ (forall i, momentum v' i = momentum v i) /\
    ((0 <= nu)%R -> (0 <= dt)%R -> takes_energy g o (repeat b (gndim g)) model -> (kinetic g (vval v') <= kinetic g (vval v))%R).
Proof.
  intros cg g o b model nu dt v x y Hd Ho Hv Hm Hz Ec Hx Ey Hy. pose proof (pv_wfg Hd Hv) as Hg. assert (Hp : allpos (gshape g)) by apply Hg.
  destruct (@implicit_evm_core g o b nu dt model cg v x y (termF model) Hd Ho Hv (fun w => termF_fields Hm (w := w)) Ec Hx Ey Hy) as (v' & E & Hv' & _ & Eq).
  exists v'. split; [exact E|]. split; [exact Hv'|]. destruct (termF_fields Hm Hv') as (l & El & Hl).
  assert (Hper : forall i, (i < gndim g)%nat -> periodic (gshape g) (vval v' i)) by (intros; eapply periodic_vval; [apply Hv' | assumption]).
  split.
  - intros i. destruct (Nat.lt_ge_cases i (gndim g)) as [Hi|Hi].
    + rewrite (momentum_pv Hd Ho Hv' Hi), (momentum_pv Hd Ho Hv Hi). rewrite (@asum_ext (gshape g) (vval v i) _ (fun ix Hix => eq_sym (Eq i ix Hi Hix))).
      rewrite asum_minus, asum_scal, asum_plus, asum_scal, sum_lapF by auto.
      assert (Z : asum (gshape g) (termF model v' i) = 0%R).
      { assert (Hi' : (i < length v')%nat) by (rewrite (pv_len Hv'); exact Hi). pose proof (fields_at_nth Hl Hi') as P. rewrite <- (total_is P). apply (Hz v' l i _ Hv' El). apply nth_error_nth'. rewrite (proj1 Hl). exact Hi'. }
      rewrite Z. ring.
    + rewrite !momentum_out by (rewrite ?(pv_len Hv'), ?(pv_len Hv); exact Hi). reflexivity.
  - intros Hnu Hdt Ht. pose proof (Ht v' l Hv' El) as Wl. rewrite (@work_fields g v' l _ (pv_len Hv') Hl) in Wl.
    set (ip := nsum (gndim g) (fun i => asum (gshape g) (fun ix => vval v' i ix * vval v i ix)%R)).
    set (W := nsum (gndim g) (fun i => asum (gshape g) (fun ix => vval v' i ix * termF model v' i ix)%R)) in *.
    set (L := nsum (gndim g) (fun i => asum (gshape g) (fun ix => vval v' i ix * lapF g (vval v' i) ix)%R)).
    assert (EL : (L <= 0)%R).
    { unfold L. rewrite (@nsum_ext _ _ (fun i => - nsum (gndim g) (fun a => asum (gshape g) (fun ix => fdF g a (vval v' i) ix * fdF g a (vval v' i) ix)))%R) by (intros i Hi; apply lapF_neg; auto).
      rewrite nsum_opp. assert (0 <= nsum (gndim g) (fun i => nsum (gndim g) (fun a => asum (gshape g) (fun ix => fdF g a (vval v' i) ix * fdF g a (vval v' i) ix))))%R; [|lra].
      apply nsum_nonneg. intros i _. apply nsum_nonneg. intros a _. apply asum_nonneg. intros ix _. apply Rle_0_sqr. }
    assert (Eip : (ip = kinetic g (vval v') - dt * (W + nu * L))%R).
    { unfold ip, kinetic, W, L. rewrite <- nsum_scal, <- nsum_plus, <- nsum_scal, <- nsum_minus. apply nsum_ext. intros i Hi. rewrite <- asum_scal, <- asum_plus, <- asum_scal, <- asum_minus. apply asum_ext. intros ix Hix.
      rewrite <- (Eq i ix Hi Hix). ring. }
    assert (Esq : (0 <= kinetic g (vval v) - 2 * ip + kinetic g (vval v'))%R).
    { unfold ip, kinetic. rewrite <- nsum_scal, <- nsum_minus, <- nsum_plus. apply nsum_nonneg. intros i Hi. rewrite <- asum_scal, <- asum_minus, <- asum_plus. apply asum_nonneg. intros ix _.
      replace (vval v i ix ^ 2 - 2 * (vval v' i ix * vval v i ix) + vval v' i ix ^ 2)%R with ((vval v i ix - vval v' i ix) ^ 2)%R by ring. apply pow2_ge_0. }
    assert (nu * L <= 0)%R by nra. assert (dt * (W + nu * L) <= 0)%R by nra. lra.
Qed.

(* @prop C68 The implicit solve of ml/diffusions with a learned eddy viscosity: momentum is kept for every network; energy does not grow when the network's outputs, the viscosity and the time step are nonnegative. *)
Lemma implicit_learned_viscosity_lem : forall cg g o b unique tower specs_viscosity model nu dt v x y,
  (0 < gndim g)%nat -> length o = gndim g -> periodic_velocity g o (repeat b (gndim g)) v -> lists_distinct unique -> any_network g tower ->
  In model [learned_scalar_viscosity g linear_fn unique tower; learned_scalar_viscosity_from_gradients g linear_fn unique tower; learned_tensor_viscosity g unique tower] ->
  cg (evm_linear_op b nu dt (eddy_viscosity_model specs_viscosity None model)) (map garray v) = Ok x -> (exists X, fields_at g v x X) ->
  evm_linear_op b nu dt (eddy_viscosity_model specs_viscosity None model) x = Ok y -> fields_at g v y (vval v) ->
  exists v', ml_implicit_evm_solve_with_diffusion cg specs_viscosity model v nu dt = Ok v' /\ periodic_velocity g o (repeat b (gndim g)) v' /\ (forall i, momentum v' i = momentum v i) /\
    ((0 <= nu)%R -> (0 <= dt)%R -> (0 <= specs_viscosity)%R -> nonnegative_outputs tower -> (kinetic g (vval v') <= kinetic g (vval v))%R).
Proof.
  intros cg g o b unique tower sv model nu dt v x y Hd Ho Hv Hu Hn Hin Ec Hx Ey Hy.
  destruct (@learned_eddy_viscosity_lem g o (repeat b (gndim g)) unique tower sv None model Hd Ho Hu Hn Hin) as (A & B & C).
  destruct (@implicit_evm_solve_lem cg g o b _ nu dt v x y Hd Ho Hv A B Ec Hx Ey Hy) as (v' & E & Hv' & Hm & Hk). exists v'. split; [exact E|]. split; [exact Hv'|]. split; [exact Hm|]. intros Hnu Hdt Hsv Hp. apply Hk; auto.
Qed.

(* @prop C68 A whole step of modular_navier_stokes_model with a learned eddy viscosity as its acceleration module, on the semi-implicit solver with any tableau, any learned convection and forcing, and a pressure module that solves its equation: the step succeeds, the result is divergence-free in every cell, and if convection and forcing exert no net force the total of every component is conserved, for every network. *)
Lemma modular_learned_viscosity_lem : forall t g o bs density viscosity dt solve forcing convection unique tower specs_viscosity scale model v,
  (0 < gndim g)%nat -> length o = gndim g -> explicit_tableau t -> (viscosity <> None -> density <> 0%R) -> solves_poisson g o solve -> periodic_velocity g o bs v ->
  any_term g o bs (convection v) -> any_term g o bs forcing -> lists_distinct unique -> any_network g tower ->
  In model [learned_scalar_viscosity g linear_fn unique tower; learned_scalar_viscosity_from_gradients g linear_fn unique tower; learned_tensor_viscosity g unique tower] ->
  exists v' d, modular_navier_stokes_model (fun convect f => semi_implicit_navier_stokes t density viscosity dt convect diffuse solve f) forcing convection
                 [fun _ => eddy_viscosity_model specs_viscosity scale model] v = Ok v' /\
    periodic_velocity g o bs v' /\ divergence v' = Ok d /\ is_field d g o (fun _ => 0%R) /\
    (no_net_force g o bs (convection v) -> no_net_force g o bs forcing -> forall i, momentum v' i = momentum v i).
Proof.
  intros t g o bs density viscosity dt solve forcing convection unique tower sv scale model v Hd Ho Ht Hden Hs Hv HC HF Hu Hn Hin.
  destruct (@learned_eddy_viscosity_lem g o bs unique tower sv scale model Hd Ho Hu Hn Hin) as (A & B & _).
  destruct (@modular_semi_implicit_lem t g o bs density viscosity dt solve forcing convection [fun _ => eddy_viscosity_model sv scale model] v Hd Ho Ht Hden Hs Hv HC HF) as (v' & d & E & Hv' & Ed & Z & M).
  { intros m [<- | []]. exact A. }
  exists v', d. split; [exact E|]. split; [exact Hv'|]. split; [exact Ed|]. split; [exact Z|]. intros ZC ZF. apply M; [exact ZC | exact ZF|]. intros m [<- | []]. exact B.
Qed.

(** ** examples *)
(* @ex *)
Lemma learned_eddy_viscosity_ex_lem : (0 < gndim p34g)%nat /\ length half2 = gndim p34g /\ lists_distinct dedup /\ any_network p34g (square_net p34g) /\ nonnegative_outputs (square_net p34g) /\
  periodic_velocity p34g half2 (repeat (periodic_bc 2) (gndim p34g)) p34v /\
  forall model, In model [learned_scalar_viscosity p34g linear_fn dedup (square_net p34g); learned_scalar_viscosity_from_gradients p34g linear_fn dedup (square_net p34g); learned_tensor_viscosity p34g dedup (square_net p34g)] ->
  exists l, eddy_viscosity_model 1 None model p34v = Ok l /\ (work p34g p34v l <= 0)%R.
Proof.
  assert (Hd : (0 < gndim p34g)%nat) by (cbn; lia). assert (Ho : length half2 = gndim p34g) by reflexivity.
  split; [exact Hd|]. split; [exact Ho|]. split; [exact dedup_distinct|]. split; [apply square_net_any|]. split; [apply square_net_pos|]. split; [exact p34_pv|].
  intros model Hin. destruct (@learned_eddy_viscosity_lem p34g half2 (repeat (periodic_bc 2) (gndim p34g)) dedup (square_net p34g) 1 None model Hd Ho dedup_distinct (@square_net_any _) Hin) as (A & _ & C).
  destruct (A p34v p34_pv) as (l & F & E & _). exists l. split; [exact E|]. apply (C ltac:(lra) (@square_net_pos _) p34v l p34_pv E).
Qed.
(* @ex *)
Lemma implicit_learned_viscosity_ex_lem : exists cg v x y,
  (0 < gndim p34g)%nat /\ length half2 = gndim p34g /\ periodic_velocity p34g half2 (repeat (periodic_bc 2) (gndim p34g)) v /\ lists_distinct dedup /\ any_network p34g (square_net p34g) /\ nonnegative_outputs (square_net p34g) /\
  cg (evm_linear_op (periodic_bc 2) 1 1 (eddy_viscosity_model 1 None (learned_tensor_viscosity p34g dedup (square_net p34g)))) (map garray v) = Ok x /\ (exists X, fields_at p34g v x X) /\
  evm_linear_op (periodic_bc 2) 1 1 (eddy_viscosity_model 1 None (learned_tensor_viscosity p34g dedup (square_net p34g))) x = Ok y /\ fields_at p34g v y (vval v) /\ x = map garray p34v.
Proof.
  assert (Hd : (0 < gndim p34g)%nat) by (cbn; lia). assert (Ho : length half2 = gndim p34g) by reflexivity. set (model := eddy_viscosity_model 1 None (learned_tensor_viscosity p34g dedup (square_net p34g))).
  destruct (@learned_eddy_viscosity_lem p34g half2 (repeat (periodic_bc 2) (gndim p34g)) dedup (square_net p34g) 1 None (learned_tensor_viscosity p34g dedup (square_net p34g)) Hd Ho dedup_distinct (@square_net_any _)) as (A & _ & _); [right; right; left; reflexivity|].
  fold model in A.
  destruct (@evm_op_calc p34g half2 (periodic_bc 2) 1 1 model p34v _ Hd Ho p34_pv (termF_fields A p34_pv)) as (y & Ey & Hy).
  set (F := fun i ix => (vval p34v i ix - 1 * (termF model p34v i ix + 1 * lapF p34g (vval p34v i) ix))%R) in *.
  set (v := map (fun a => mkgv a (periodic_bc 2)) y). assert (Ly : length y = 2%nat) by (rewrite (proj1 Hy); reflexivity).
  assert (Hnth : forall i, (i < 2)%nat -> nth i v dgv = mkgv (nth i y dga) (periodic_bc 2)) by (intros i Hi; unfold v; rewrite (nth_map' _ _ dga dgv) by lia; reflexivity).
  assert (Hv : periodic_velocity p34g half2 (repeat (periodic_bc 2) (gndim p34g)) v).
  { apply (@pv_intro p34g half2 _ Hd Ho p34v v F p34_pv); [unfold v; rewrite map_length; exact Ly|]. intros i Hi. rewrite (Hnth i Hi). cbn [gbc garray]. split; [destruct i as [|[|i]]; [reflexivity | reflexivity | cbn in Hi; lia]|].
    eapply prep_off; [apply (pv_off Hd Ho p34_pv Hi) | exact (fields_at_nth Hy Hi)]. }
  assert (Lv : length v = 2%nat) by (unfold v; rewrite map_length; exact Ly).
  exists (fun _ _ => Ok (map garray p34v)), v, (map garray p34v), y. split; [exact Hd|]. split; [exact Ho|]. split; [exact Hv|]. split; [exact dedup_distinct|]. split; [apply square_net_any|]. split; [apply square_net_pos|]. split; [reflexivity|]. split.
  { exists (vval p34v). apply fields_at_intro; [rewrite Lv; reflexivity|]. intros i Hi. rewrite Lv in Hi. rewrite (nth_map' _ _ dgv dga) by exact Hi.
    eapply prep_off; [|exact (proj1 (periodic_vec_pvar (proj1 p34_pv) Hi))]. eapply off_eq_trans; [apply (pv_off Hd Ho p34_pv Hi) | apply off_eq_sym; apply (pv_off Hd Ho Hv Hi)]. }
  split; [exact Ey|]. split; [|reflexivity].
  apply fields_at_intro; [lia|]. intros i Hi. rewrite Lv in Hi. pose proof (periodic_vec_pvar (proj1 Hv) Hi) as (P & _). rewrite (Hnth i Hi) in P |- *. exact P.
Qed.
(* @ex *)
Lemma implicit_evm_solve_ex_lem : exists cg v x y model,
  periodic_velocity p34g half2 (repeat (periodic_bc 2) (gndim p34g)) v /\ any_term p34g half2 (repeat (periodic_bc 2) (gndim p34g)) model /\ no_net_force p34g half2 (repeat (periodic_bc 2) (gndim p34g)) model /\
  takes_energy p34g half2 (repeat (periodic_bc 2) (gndim p34g)) model /\
  cg (evm_linear_op (periodic_bc 2) 1 1 model) (map garray v) = Ok x /\ (exists X, fields_at p34g v x X) /\ evm_linear_op (periodic_bc 2) 1 1 model x = Ok y /\ fields_at p34g v y (vval v).
Proof.
  destruct implicit_learned_viscosity_ex_lem as (cg & v & x & y & Hd & Ho & Hv & Hu & Hn & Hp & Ec & HX & Ey & Hy & _).
  exists cg, v, x, y, (eddy_viscosity_model 1 None (learned_tensor_viscosity p34g dedup (square_net p34g))).
  destruct (@learned_eddy_viscosity_lem p34g half2 (repeat (periodic_bc 2) (gndim p34g)) dedup (square_net p34g) 1 None (learned_tensor_viscosity p34g dedup (square_net p34g)) Hd Ho Hu Hn) as (A & B & C); [right; right; left; reflexivity|].
  split; [exact Hv|]. split; [exact A|]. split; [exact B|]. split; [apply C; [lra | exact Hp]|]. auto.
Qed.
(* @ex *)
Lemma modular_learned_viscosity_ex_lem : forall tpu eigh,
  (0 < gndim p34g)%nat /\ length half2 = gndim p34g /\ explicit_tableau (mktab [[1 / 2]; [0; 1 / 2]; [0; 0; 1]] [1 / 6; 1 / 3; 1 / 3; 1 / 6])%R /\
  solves_poisson p34g half2 (fun v _ b => pressure_solve_fast_diag tpu eigh (1 / 1000) v (Some b) (Some Fft)) /\ periodic_velocity p34g half2 (repeat (periodic_bc 2) (gndim p34g)) p34v /\
  any_term p34g half2 (repeat (periodic_bc 2) (gndim p34g)) push /\ lists_distinct dedup /\ any_network p34g (square_net p34g).
Proof.
  intros tpu eigh. split; [cbn; lia|]. split; [reflexivity|]. split; [exact rk4_explicit|]. split; [exact (p34_solver tpu eigh)|]. split; [exact p34_pv|]. split; [|split; [exact dedup_distinct | apply square_net_any]].
  intros w Hw. destruct (push_fields Hw) as (l & F & E & H). exists l, F. auto.
Qed.

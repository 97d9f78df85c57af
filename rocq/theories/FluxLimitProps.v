(** * Flux-limiting an arbitrary interpolation (C78) *)
From Coq Require Import Qreals.
From Verif Require Import Prelude NdArr Grids_model Spec SpecDiff Boundaries_model BoundariesPeriodic FD_model PRep FDProofs FDProps Interp_model InterpProofs InterpProps UpwindProps TvdProps Advection_model AdvectionProofs AdvectionProps FluxLimit_model SpecLimit.
Set Implicit Arguments.
Local Open Scope Z_scope.

Section Lim.
Variables (g : grid) (o : list Q) (F : list Z -> R) (c : gvar) (ax : nat) (o' : list Q) (v : list gvar) (u : gvar) (phi : R -> R) (dt : R) (high : interp_fn) (H : list Z -> R).
Hypothesis (Hw : wfg g) (HF : periodic (gshape g) F) (Hax : (ax < gndim g)%nat)
           (Ho : length o = gndim g) (Hc : pvar g o F c) (Ho' : off_eq o' (offs ax (1 # 2) o))
           (Hv : nth_error v ax = Some u) (Hu : on_grid g u) (Huo : off_eq (goff (garray u)) o')
           (HH : answers high c o' v dt H).

Definition limF (ix : list Z) : R :=
  let ui := get (gdata (garray u)) ix in
  let up := if Rlt_dec 0 ui then F ix else F (shiftix ax 1 ix) in
  (up + phi (safe_div (if Rlt_dec 0 ui then F ix - F (shiftix ax (-1) ix) else F (shiftix ax 2 ix) - F (shiftix ax 1 ix)) (F (shiftix ax 1 ix) - F ix)) * (H ix - up))%R.

Lemma lim_axis_prep : exists w, tvd_axis high phi o' v dt c ax = Ok w /\ gbc w = gbc c /\ pvar g o' limF w.
Proof.
  pose proof Hc as ((A & B & C & D) & Hb). pose proof Hu as (Gu & Su).
  assert (Hl : length (goff (garray c)) = gndim g) by (rewrite (off_eq_length B); auto).
  assert (Hn' : (nth ax o' 0 == nth ax o 0 + (1 # 2))%Q) by (rewrite (off_eq_nth ax Ho'); unfold offs; rewrite nth_upd_same by lia; reflexivity).
  set (q := (nth ax o 0 + (1 # 2))%Q). assert (Hq : ~ (q == nth ax o 0)%Q) by (unfold q; intros E; Lqa.lra).
  assert (Hd : (nth ax (goff (garray u)) 0 - nth ax (goff (garray c)) 0 == 1 # 2)%Q).
  { rewrite (off_eq_nth ax Huo), Hn', (off_eq_nth ax B). ring. }
  destruct (half_floor Hd) as (Hf & Hz).
  unfold tvd_axis. set (ioff := upd ax (nth ax o' 0%Q) (goff (garray c))).
  assert (Hio : off_eq ioff o').
  { apply off_eq_sym. eapply off_eq_trans; [exact Ho'|]. unfold offs, ioff. apply off_eq_upd; [apply off_eq_sym; auto | symmetry; auto]. }
  assert (Hnio : (nth ax ioff 0 == nth ax o 0 + (1 # 2))%Q) by (rewrite (off_eq_nth ax Hio); auto).
  replace (off_eqb ioff (goff (garray c))) with false.
  2:{ symmetry. apply not_true_is_false. intros E. apply off_eqb_iff in E. pose proof (off_eq_nth ax E) as E'. rewrite Hnio, (off_eq_nth ax B) in E'. Lqa.lra. }
  replace (Qeq_bool (nth ax ioff 0%Q - nth ax (goff (garray c)) 0%Q) (1 # 2)) with true.
  2:{ symmetry. apply Qeq_bool_iff. rewrite Hnio, (off_eq_nth ax B). ring. }
  cbn [negb].
  destruct (@upwind_prep g o F c ax q o' v u Hw HF Hax Ho Hc Ho' Hq Hv Hu Hz) as (cl & El & _ & (Pl & _)). rewrite El. cbn [bind].
  destruct HH as (ch & Eh & Ph). rewrite A in Ph. rewrite Eh. cbn [bind].
  destruct (pvar_shift (-1) Hw HF Hax Ho Hc) as (s1 & Es1 & (A1 & B1 & C1 & D1)). rewrite Es1. cbn [bind].
  destruct (pvar_shift 1 Hw HF Hax Ho Hc) as (s2 & Es2 & (A2 & B2 & C2 & D2)). rewrite Es2. cbn [bind].
  destruct (pvar_shift 2 Hw HF Hax Ho Hc) as (s3 & Es3 & (A3 & B3 & C3 & D3)). rewrite Es3. cbn [bind].
  destruct (@raw2_ok Rminus _ _ _ _ _ C2 C D2 D) as (den & Eden & Sden & Vden). rewrite Eden. cbn [bind].
  destruct (@raw2_ok Rminus _ _ _ _ _ C C1 D D1) as (pn & Epn & Spn & Vpn). rewrite Epn. cbn [bind].
  destruct (@raw2_ok Rminus _ _ _ _ _ C3 C2 D3 D2) as (nn & Enn & Snn & Vnn). rewrite Enn. cbn [bind].
  destruct (@raw2_ok safe_div _ _ _ _ _ Spn Sden Vpn Vden) as (pr & Epr & Spr & Vpr). rewrite Epr. cbn [bind].
  destruct (@raw2_ok safe_div _ _ _ _ _ Snn Sden Vnn Vden) as (nr & Enr & Snr & Vnr). rewrite Enr. cbn [bind].
  rewrite Hv.
  pose proof Pl as (Al & Bl & Cl & Dl).
  assert (Hap : exists ph, applied (fun l => match l with [x; y; z] => where_pos x y z | _ => Err EType end)
     [OGA (garray u); OGA (mkga (amap phi pr) (goff (garray cl)) (ggrid (garray c))); OGA (mkga (amap phi nr) (goff (garray cl)) (ggrid (garray c)))] = Ok ph /\
     prep g o' (fun ix => if Rlt_dec 0 (get (gdata (garray u)) ix) then phi (safe_div (F ix - F (shiftix ax (-1) ix)) (F (shiftix ax 1 ix) - F ix)) else phi (safe_div (F (shiftix ax 2 ix) - F (shiftix ax 1 ix)) (F (shiftix ax 1 ix) - F ix))) ph).
  { unfold applied. cbn [existsb is_gv orb gas map raw gdata consistent_offset consistent_grid forallb goff ggrid].
    assert (Hoe : off_eqb (goff (garray u)) (goff (garray cl)) = true) by (apply off_eqb_iff; eapply off_eq_trans; [exact Huo | apply off_eq_sym; exact Bl]).
    rewrite Hoe. cbn [andb bind]. rewrite Gu, A, grid_eqb_refl. cbn [andb bind].
    destruct (@where_pos_ok (gdata (garray u)) (amap phi pr) (amap phi nr) (gshape g) (get (gdata (garray u)))
      (fun ix => phi (safe_div (F ix - F (shiftix ax (-1) ix)) (F (shiftix ax 1 ix) - F ix)))
      (fun ix => phi (safe_div (F (shiftix ax 2 ix) - F (shiftix ax 1 ix)) (F (shiftix ax 1 ix) - F ix)))) as (dd & Edd & Sdd & Vdd); auto.
    { intros ix Hix. cbn. rewrite Vpr by auto. reflexivity. }
    { intros ix Hix. cbn. rewrite Vnr by auto. reflexivity. }
    rewrite Edd. cbn [bind]. eexists; split; [reflexivity|]. split; [reflexivity|]. split; [exact Huo|]. split; [exact Sdd|]. exact Vdd. }
  destruct Hap as (ph & Eph & Pph). rewrite Eph. cbn [bind].
  destruct (@prep_op2 Rminus _ _ _ _ _ _ Pl Ph) as (d1 & Ed1 & Pd1). unfold ga_sub. rewrite Ed1. cbn [bind].
  destruct (@prep_op2 Rmult _ _ _ _ _ _ Pd1 Pph) as (d2 & Ed2 & Pd2). unfold ga_mul. rewrite Ed2. cbn [bind].
  destruct (@prep_op2 Rminus _ _ _ _ _ _ Pl Pd2) as (ci & Eci & Pci). rewrite Eci. cbn [bind].
  rewrite (@mk_gvar_ok g) by auto. eexists; split; [reflexivity|]. split; [reflexivity|]. split; [|exact Hb].
  destruct Pci as (Ai & Bi & Ci & Di).
  split; [exact A|]. split; [exact Hio|]. split; [exact Ci|]. intros ix Hix. cbn [garray gdata]. rewrite Di by auto.
  rewrite Hf, !shiftix_0. change (0 + 1) with 1. cbv zeta. unfold limF. cbv zeta. destruct (Rlt_dec 0 (get (gdata (garray u)) ix)); ring.
Qed.
Lemma lim_axis_skip w a : (nth a (goff (garray w)) 0 == nth a o' 0)%Q -> tvd_axis high phi o' v dt w a = Ok w.
Proof.
  intros E. unfold tvd_axis. replace (off_eqb _ _) with true; [reflexivity|]. symmetry. apply off_eqb_iff.
  apply off_eq_intro; [apply upd_length|]. intros k Hk. rewrite upd_length in Hk. destruct (Nat.eq_dec k a) as [->|Hne].
  - rewrite nth_upd_same by auto. symmetry. exact E.
  - rewrite nth_upd_other by auto. reflexivity.
Qed.
Lemma lim_prep : exists w, apply_tvd_limiter high phi c o' v dt = Ok w /\ gbc w = gbc c /\ pvar g o' limF w.
Proof.
  pose proof Hc as ((A & B & C & D) & Hb).
  assert (HL' : length o' = gndim g) by (rewrite (off_eq_length Ho'), offs_length; auto).
  destruct lim_axis_prep as (w & E & Eb & Hww). exists w. split; [|split; auto].
  unfold apply_tvd_limiter. rewrite HL'.
  replace (seq 0 (gndim g)) with (seq 0 ax ++ [ax] ++ seq (S ax) (gndim g - S ax)).
  2:{ rewrite app_assoc. replace (seq 0 ax ++ [ax]) with (seq 0 (S ax)) by (rewrite seq_S; reflexivity).
      rewrite <- seq_app. f_equal. lia. }
  rewrite foldM_app.
  assert (H1 : foldM (tvd_axis high phi o' v dt) c (seq 0 ax) = Ok c).
  { assert (Hg : forall l, (forall a, In a l -> a <> ax) -> foldM (tvd_axis high phi o' v dt) c l = Ok c).
    { induction l as [|a l IH]; intros Hl; simpl; [reflexivity|]. rewrite lim_axis_skip.
      - cbn [bind]. apply IH. intros b Hin. apply Hl. right; auto.
      - rewrite (off_eq_nth a B), (off_eq_nth a Ho'). unfold offs. rewrite nth_upd_other by (apply Hl; left; auto). reflexivity. }
    apply Hg. intros a Ha. apply in_seq in Ha. lia. }
  rewrite H1. cbn [bind]. cbn [app foldM]. rewrite E. cbn [bind].
  destruct Hww as ((_ & Bw & _ & _) & _).
  assert (Hg : forall l, foldM (tvd_axis high phi o' v dt) w l = Ok w).
  { induction l as [|a l IH]; simpl; [reflexivity|]. rewrite lim_axis_skip; [exact IH | apply (off_eq_nth a Bw)]. }
  apply Hg.
Qed.
End Lim.

Lemma limited_to_limF phi c ax u H g F ix : (forall jx, F jx = pval (garray c) jx) -> g = ggrid (garray c) ->
  limF F ax u phi H ix = limited_to phi c ax (get (gdata (garray u)) ix) (H ix) ix.
Proof.
  intros EF _. unfold limF, limited_to, upwind_cell, smoothness, jump_upstream, jump_at, safe_div. cbv zeta. rewrite !EF. unfold next, prev. destruct (Rlt_dec _ _); reflexivity.
Qed.

(* @prop C78 Flux-limiting any interpolation whatsoever (in particular a learned one) with any limiter function: at the face half a cell ahead, whenever the interpolation answers there, the limited interpolation returns the value of the upwind cell, moved towards the answer by the limiter's value at the ratio of the upstream jump to the jump over the face; the field keeps its boundary conditions. *)
Lemma limited_any_base_spec_lem : forall base c ax o' v u phi dt H, periodic_field c -> (ax < gndim (ggrid (garray c)))%nat ->
  off_eq o' (offs ax (1 # 2) (goff (garray c))) -> nth_error v ax = Some u ->
  wf_garr (garray u) -> ggrid (garray u) = ggrid (garray c) -> off_eq (goff (garray u)) o' ->
  answers base c o' v dt H ->
  exists w, tvd_limiter_transformation phi base c o' v dt = Ok w /\ gbc w = gbc c /\
    is_field (garray w) (ggrid (garray c)) o' (fun ix => limited_to phi c ax (get (gdata (garray u)) ix) (H ix) ix).
Proof.
  intros base c ax o' v u phi dt H Hc Hax Ho' Hv Hu Hg Hou HH.
  assert (Hug : on_grid (ggrid (garray c)) u) by (split; [auto|]; destruct Hu as (_ & Hs & _); congruence).
  destruct (@lim_prep _ _ _ c ax o' v u phi dt base H (pf_wfg Hc) (pf_per Hc) Hax (pf_off Hc) (pf_pvar Hc) Ho' Hv Hug Hou HH) as (w & E & Eb & (P & _)).
  exists w. split; [exact E|]. split; [exact Eb|]. eapply prep_ext; [|exact P]. intros ix Hix. apply (@limited_to_limF phi c ax u H (ggrid (garray c))); auto.
Qed.

Lemma limited_between_half t a b h : (0 <= t <= 2)%R -> between a ((a + b) / 2) h -> between a b (a + t * (h - a)).
Proof.
  intros Ht. unfold between, Rmin, Rmax. destruct (Rle_dec a ((a + b) / 2)); destruct (Rle_dec a b); try lra; intros (H1 & H2).
  - assert (0 <= t * (h - a))%R by (apply Rmult_le_pos; lra). assert (t * (h - a) <= 2 * (h - a))%R by (apply Rmult_le_compat_r; lra). lra.
  - assert (0 <= t * (a - h))%R by (apply Rmult_le_pos; lra). assert (t * (a - h) <= 2 * (a - h))%R by (apply Rmult_le_compat_r; lra). lra.
Qed.
Lemma ratio_nonpos x y : y <> 0%R -> (x * y <= 0)%R -> (x / y <= 0)%R.
Proof.
  intros Hy H. assert (E : (x / y * (y * y) = x * y)%R) by (field; auto). assert (0 < y * y)%R by nra.
  destruct (Rle_dec (x / y) 0); auto. exfalso. assert (0 < x / y * (y * y))%R by (apply Rmult_lt_0_compat; lra). lra.
Qed.

(* @prop C78 Van Leer limiting of any interpolation: over a face with a jump, where the upstream jump has the opposite sign or vanishes (the upwind cell is an extremum) the result is the upwind value itself, whatever the interpolation answered; where the two jumps are equal it is the answer, unlimited. In a field of one value the result is that value, whatever the interpolation answered. *)
Lemma limited_any_base_faces_lem : forall base c ax o' v u dt H w, periodic_field c -> (ax < gndim (ggrid (garray c)))%nat ->
  off_eq o' (offs ax (1 # 2) (goff (garray c))) -> nth_error v ax = Some u ->
  wf_garr (garray u) -> ggrid (garray u) = ggrid (garray c) -> off_eq (goff (garray u)) o' ->
  answers base c o' v dt H -> tvd_limiter_transformation van_leer_limiter base c o' v dt = Ok w ->
  forall ix, inb (gshape (ggrid (garray c))) ix -> let ui := get (gdata (garray u)) ix in let j := jump_at c ax ix in let k := jump_upstream c ax ui ix in
    (j <> 0%R -> (k * j <= 0)%R -> get (gdata (garray w)) ix = upwind_cell c ax ui ix) /\
    (j <> 0%R -> k = j -> get (gdata (garray w)) ix = H ix) /\
    (j = 0%R -> k = 0%R -> get (gdata (garray w)) ix = get (gdata (garray c)) ix).
Proof.
  intros base c ax o' v u dt H w Hc Hax Ho' Hv Hu Hg Hou HH E ix Hix ui j k.
  destruct (@limited_any_base_spec_lem base c ax o' v u van_leer_limiter dt H) as (w' & E' & _ & (_ & _ & _ & V)); auto.
  rewrite E in E'. injection E' as <-. rewrite V by auto. fold ui. unfold limited_to, smoothness. fold j. fold k.
  split; [|split].
  - intros Hj Hk. destruct (Req_EM_T j 0) as [?|_]; [contradiction|]. rewrite vl_nonpos by (apply ratio_nonpos; auto). ring.
  - intros Hj Hk. destruct (Req_EM_T j 0) as [?|_]; [contradiction|]. rewrite Hk. replace (j / j)%R with 1%R by (field; auto).
    rewrite (proj1 (proj2 (proj2 (proj2 (van_leer_limiter_bounds_lem 0))))). ring.
  - intros Hj Hk. rewrite Hk. rewrite vl_nonpos. 2:{ unfold Rdiv. rewrite Rmult_0_l. lra. }
    rewrite Rmult_0_l, Rplus_0_r. assert (Hp : pval (garray c) ix = get (gdata (garray c)) ix).
    { apply pval_inb. destruct Hc as ((_ & Hs & _) & _). rewrite Hs. exact Hix. }
    unfold upwind_cell. unfold j, jump_at in Hj. destruct (Rlt_dec 0 ui); lra.
Qed.

(* @prop C78 With any limiter whose values lie in [0, 2], at every face where the answer of the interpolation lies between the upwind value and the mean of the two adjacent cells, the limited value lies between the two adjacent cells. *)
Lemma limited_any_base_bounded_lem : forall base c ax o' v u phi dt H w, periodic_field c -> (ax < gndim (ggrid (garray c)))%nat ->
  off_eq o' (offs ax (1 # 2) (goff (garray c))) -> nth_error v ax = Some u ->
  wf_garr (garray u) -> ggrid (garray u) = ggrid (garray c) -> off_eq (goff (garray u)) o' ->
  (forall r, (0 <= phi r <= 2)%R) ->
  answers base c o' v dt H -> tvd_limiter_transformation phi base c o' v dt = Ok w ->
  forall ix, inb (gshape (ggrid (garray c))) ix -> let a := pval (garray c) ix in let b := pval (garray c) (next ax ix) in
    between (upwind_cell c ax (get (gdata (garray u)) ix) ix) ((a + b) / 2) (H ix) -> between a b (get (gdata (garray w)) ix).
Proof.
  intros base c ax o' v u phi dt H w Hc Hax Ho' Hv Hu Hg Hou Hphi HH E ix Hix a b.
  destruct (@limited_any_base_spec_lem base c ax o' v u phi dt H) as (w' & E' & _ & (_ & _ & _ & V)); auto.
  rewrite E in E'. injection E' as <-. rewrite V by auto. unfold limited_to, upwind_cell. fold a. fold b. destruct (Rlt_dec _ _).
  - apply limited_between_half. apply Hphi.
  - intros Hb. replace ((a + b) / 2)%R with ((b + a) / 2)%R in Hb by field. unfold between. rewrite Rmin_comm, Rmax_comm. exact (limited_between_half (Hphi _) Hb).
Qed.

(** ** advection *)
Lemma limited_to_periodic g phi c i U H : periodic (gshape g) (pval (garray c)) -> periodic (gshape g) U -> periodic (gshape g) H ->
  periodic (gshape g) (fun jx => limited_to phi c i (U jx) (H jx) jx).
Proof.
  intros Pc PU PH ix Hix. unfold limited_to, upwind_cell, smoothness, jump_upstream, jump_at, next, prev.
  pose proof (periodic_shift i 2 Pc ix Hix) as P2. cbv beta in P2. pose proof (periodic_shift i (-1) Pc ix Hix) as P1. cbv beta in P1.
  pose proof (periodic_shift i 1 Pc ix Hix) as P3. cbv beta in P3. rewrite (PU ix Hix), (PH ix Hix), (Pc ix Hix), P1, P2, P3. reflexivity.
Qed.

(* @prop C78 Advection of a periodic scalar with a flux-limited version of any interpolation for the scalar (learned or not), as modular_advection builds it, is in flux form and conserves the scalar: the tendency is minus the net outflow of (limited value at the face) times (velocity linearly interpolated to the face), and it sums to zero, provided only that the interpolation answers on the faces. *)
Lemma limited_modular_advection_lem : forall base f g dt0 v0 phi c v dt H, base g dt0 v0 = Ok f -> periodic_field c -> ggrid (garray c) = g -> (0 < gndim g)%nat ->
  periodic_vec g v -> homogeneous_vec v ->
  (forall av i, (i < gndim g)%nat -> (forall j, (j < gndim g)%nat -> exists u, nth_error av j = Some u /\ is_field (garray u) g (offs j (1 # 2) (goff (garray c))) (face_velocity c v j)) ->
     forall o', off_eq o' (offs i (1 # 2) (goff (garray c))) -> answers f c o' av dt (H i)) ->
  exists w, modular_advection (transformed_module base (tvd_limiter_transformation phi)) linear_module g dt0 v0 c v dt = Ok w /\
    is_field w g (goff (garray c))
      (fun ix => - outflow g (fun i jx => limited_to phi c i (face_velocity c v i jx) (H i (wrap (gshape g) jx)) jx * face_velocity c v i jx) ix)%R /\
    total (gdata w) = 0%R.
Proof.
  intros base f g dt0 v0 phi c v dt H Ef Hc Hg Hd Hv Hh HH.
  unfold modular_advection, transformed_module, linear_module. rewrite Ef. cbn [bind]. unfold tvd_limiter_transformation. subst g. set (g := ggrid (garray c)) in *.
  pose proof (fun a (Ha : (a < gndim (ggrid (garray c)))%nat) => @face_velocity_periodic _ c v a Hv eq_refl Ha) as Pv. pose proof (pf_per Hc) as Pc.
  assert (PH : forall i, periodic (gshape g) (fun jx => H i (wrap (gshape g) jx))) by (intros i; apply wrapF_periodic).
  destruct (@general_prep c v (apply_tvd_limiter f phi) dt (fun i jx => limited_to phi c i (face_velocity c v i jx) (H i (wrap (gshape g) jx)) jx)) as (w & E & P); auto.
  - intros i Hi. apply limited_to_periodic; auto.
  - intros av HLav Hav i Hi. pose proof (os_eq Hc Hi) as He.
    set (oi := nth i (cv_offsets (goff (garray c))) []) in *.
    destruct (Hav i Hi) as ((Gu & Bu & Su & Vu) & _). fold oi in Bu.
    destruct (@lim_prep _ _ _ c i oi av (nth i av dgv) phi dt f (H i) (pf_wfg Hc) (pf_per Hc) Hi (pf_off Hc) (pf_pvar Hc) He) as (w & E & _ & (P & _)).
    + apply nth_error_nth'. unfold g in HLav. lia.
    + split; auto.
    + exact Bu.
    + apply HH; auto. intros j Hj. exists (nth j av dgv). split; [apply nth_error_nth'; unfold g in *; lia|]. destruct (Hav j Hj) as (P & _). destruct P as (P1 & P2 & P3 & P4). split; [exact P1|]. split; [|split; [exact P3 | exact P4]]. eapply off_eq_trans; [exact P2|]. apply os_eq; auto.
    + exists w. split; [exact E|]. eapply prep_ext; [|exact P]. intros ix Hix. rewrite (@limited_to_limF phi c i _ (H i) (ggrid (garray c))) by auto. rewrite (Vu ix Hix).
      rewrite wrap_inb by exact Hix. reflexivity.
  - exists w. split; [exact E|]. split; [exact P|]. rewrite (total_prep P). apply outflow_total; [apply (pf_wfg Hc)|].
    intros a Ha. apply periodic_mult; [apply limited_to_periodic; auto | auto].
Qed.

(** ** Refutation: limiting does not bound an arbitrary interpolation. *)
(** An interpolation that returns the values [H c]. *)
Definition base_with (H : gvar -> list Z -> R) : interp_fn := fun c o _ _ =>
  Ok (mkgv (mkga (mkarr (gshape (ggrid (garray c))) (H c)) o (ggrid (garray c))) (gbc c)).
Lemma base_with_answers H c o v dt : answers (base_with H) c o v dt (H c).
Proof. eexists. split; [reflexivity|]. split; [reflexivity|]. split; [apply off_eq_refl|]. split; reflexivity. Qed.
Lemma ip_setup : off_eq [1%Q; (1 # 2)%Q] (offs 0 (1 # 2) (goff (garray ipc))) /\ wf_garr (garray ipu) /\ off_eq (goff (garray ipu)) [1%Q; (1 # 2)%Q] /\ (0 < gndim (ggrid (garray ipc)))%nat.
Proof. split; [repeat constructor; reflexivity|]. split; [apply ipu_pf|]. split; [repeat constructor|]. cbn. lia. Qed.

(* @prop C78 The documentation presents the limiter as a way to constrain any (learned) interpolation to be TVD. It does not: there is an interpolation with weights 10 and -9 that sum to one for which the Van Leer limited value at a face exceeds every value of the field. *)
Lemma limiter_bounds_any_base_refuted_lem : exists base c ax o' v u dt w ix, periodic_field c /\ (ax < gndim (ggrid (garray c)))%nat /\
  off_eq o' (offs ax (1 # 2) (goff (garray c))) /\ nth_error v ax = Some u /\ wf_garr (garray u) /\ ggrid (garray u) = ggrid (garray c) /\ off_eq (goff (garray u)) o' /\
  answers base c o' v dt (fun jx => 10 * pval (garray c) (next ax jx) + -9 * pval (garray c) jx)%R /\
  tvd_limiter_transformation van_leer_limiter base c o' v dt = Ok w /\ inb (gshape (ggrid (garray c))) ix /\
  forall jx, inb (gshape (ggrid (garray c))) jx -> (get (gdata (garray c)) jx < get (gdata (garray w)) ix)%R.
Proof.
  destruct ip_setup as (A & B & C & D).
  set (H := fun (c : gvar) jx => (10 * pval (garray c) (next 0 jx) + -9 * pval (garray c) jx)%R).
  destruct (@limited_any_base_spec_lem (base_with H) ipc 0 [1%Q; (1 # 2)%Q] [ipu; ipu] ipu van_leer_limiter 1%R (H ipc)) as (w & E & _); auto using ipc_pf, base_with_answers.
  destruct (@limited_any_base_faces_lem (base_with H) ipc 0 [1%Q; (1 # 2)%Q] [ipu; ipu] ipu 1%R (H ipc) w ipc_pf D A eq_refl B eq_refl C (@base_with_answers H _ _ _ _) E [1; 0]) as (_ & V & _); [cbn; lia|].
  exists (base_with H), ipc, 0%nat, [1%Q; (1 # 2)%Q], [ipu; ipu], ipu, 1%R, w, [1; 0].
  repeat (split; [solve [auto using ipc_pf | reflexivity | exact (@base_with_answers H ipc _ _ _) | exact E]|]). split; [cbn; lia|].
  assert (J : jump_at ipc 0 [1; 0] = 10%R) by (unfold jump_at, pval; cbn; lra).
  assert (K : jump_upstream ipc 0 (get (gdata (garray ipu)) [1; 0]) [1; 0] = 10%R) by (unfold jump_upstream, pval; cbn; destruct (Rlt_dec _ _); lra).
  rewrite V; [|rewrite J; lra | rewrite J, K; reflexivity].
  intros jx Hjx. replace (H ipc [1; 0]) with 110%R by (unfold H, pval; cbn; lra).
  destruct jx as [|x [|y [|? ?]]]; cbn in Hjx; try (exfalso; lia). cbn [ipc garray gdata get nth]. apply IZR_lt. lia.
Qed.

(** A field with two equal cells next to each other. *)
Definition ipf : gvar := mkgv (mkga (mkarr [4%nat; 2%nat] (fun ix => if nth 0%nat ix 0 =? 0 then 0%R else 1%R)) [(1 # 2)%Q; (1 # 2)%Q] ipg) (periodic_bc 2).
Lemma ipf_pf : periodic_field ipf.
Proof. exact (conj (conj ipg_wf (conj eq_refl eq_refl)) (proj2 ipc_pf)). Qed.
(* @prop C78 Over a face without a jump the limiter does not fall back to the (common) value of the two cells: the code divides the upstream jump by one there, so an interpolation with weights 2 and -1 that sum to one brings in a new extremum. *)
Lemma limiter_flat_face_refuted_lem : exists base c ax o' v u dt w ix, periodic_field c /\ (ax < gndim (ggrid (garray c)))%nat /\
  off_eq o' (offs ax (1 # 2) (goff (garray c))) /\ nth_error v ax = Some u /\ wf_garr (garray u) /\ ggrid (garray u) = ggrid (garray c) /\ off_eq (goff (garray u)) o' /\
  answers base c o' v dt (fun jx => 2 * pval (garray c) jx + -1 * pval (garray c) (prev ax jx))%R /\
  tvd_limiter_transformation van_leer_limiter base c o' v dt = Ok w /\ inb (gshape (ggrid (garray c))) ix /\ jump_at c ax ix = 0%R /\
  forall jx, inb (gshape (ggrid (garray c))) jx -> (get (gdata (garray c)) jx < get (gdata (garray w)) ix)%R.
Proof.
  destruct ip_setup as (A & B & C & D).
  set (H := fun (c : gvar) jx => (2 * pval (garray c) jx + -1 * pval (garray c) (prev 0 jx))%R).
  destruct (@limited_any_base_spec_lem (base_with H) ipf 0 [1%Q; (1 # 2)%Q] [ipu; ipu] ipu van_leer_limiter 1%R (H ipf)) as (w & E & _ & (_ & _ & _ & V)); auto using ipf_pf, base_with_answers.
  exists (base_with H), ipf, 0%nat, [1%Q; (1 # 2)%Q], [ipu; ipu], ipu, 1%R, w, [1; 0].
  repeat (split; [solve [auto using ipf_pf | reflexivity | exact (@base_with_answers H ipf _ _ _) | exact E]|]). split; [cbn; lia|].
  assert (J : jump_at ipf 0 [1; 0] = 0%R) by (unfold jump_at, pval; cbn; lra). split; [exact J|].
  assert (Vv : get (gdata (garray w)) [1; 0] = 2%R).
  { rewrite V by (cbn; lia). unfold limited_to.
    assert (K : smoothness ipf 0 (get (gdata (garray ipu)) [1; 0]) [1; 0] = 1%R).
    { unfold smoothness. rewrite J. destruct (Req_EM_T 0 0); [|lra]. unfold jump_upstream, pval; cbn; destruct (Rlt_dec _ _); lra. }
    rewrite K, (proj1 (proj2 (proj2 (proj2 (van_leer_limiter_bounds_lem 0))))).
    assert (EH : H ipf [1; 0] = 2%R) by (unfold H, pval; cbn; lra). rewrite EH. lra. }
  rewrite Vv. intros jx Hjx. cbn [ipf garray gdata get]. destruct (_ =? 0); lra.
Qed.
(* @ex *)
Lemma limited_any_base_spec_ex_lem : exists w, tvd_limiter_transformation van_leer_limiter (base_with (fun c jx => 7 * pval (garray c) jx + -6 * pval (garray c) (next 1 jx)))%R ipc [1%Q; (1 # 2)%Q] [ipu; ipu] 1%R = Ok w /\
  get (gdata (garray w)) [1; 0] = 4%R.
Proof.
  destruct ip_setup as (A & B & C & D). set (H := fun (c : gvar) jx => (7 * pval (garray c) jx + -6 * pval (garray c) (next 1 jx))%R).
  destruct (@limited_any_base_spec_lem (base_with H) ipc 0 [1%Q; (1 # 2)%Q] [ipu; ipu] ipu van_leer_limiter 1%R (H ipc)) as (w & E & _ & (_ & _ & _ & V)); auto using ipc_pf, base_with_answers.
  exists w. split; [exact E|]. rewrite V by (cbn; lia). unfold limited_to.
  assert (K : smoothness ipc 0 (get (gdata (garray ipu)) [1; 0]) [1; 0] = 1%R).
  { unfold smoothness, jump_upstream, jump_at, pval; cbn. destruct (Rlt_dec _ _); destruct (Req_EM_T _ _); lra. }
  rewrite K, (proj1 (proj2 (proj2 (proj2 (van_leer_limiter_bounds_lem 0))))).
  assert (EH : H ipc [1; 0] = 4%R) by (unfold H, pval; cbn; lra). rewrite EH. lra.
Qed.
(* @ex *)
Lemma limited_any_base_faces_ex_lem : exists w, tvd_limiter_transformation van_leer_limiter (base_with (fun c jx => 1000))%R ipc [1%Q; (1 # 2)%Q] [ipu; ipu] 1%R = Ok w /\
  (jump_at ipc 0 [3; 0] = (-30)%R /\ jump_upstream ipc 0 (get (gdata (garray ipu)) [3; 0]) [3; 0] = 10%R) /\ get (gdata (garray w)) [3; 0] = 30%R.
Proof.
  destruct ip_setup as (A & B & C & D). set (H := fun (c : gvar) (jx : list Z) => 1000%R).
  destruct (@limited_any_base_spec_lem (base_with H) ipc 0 [1%Q; (1 # 2)%Q] [ipu; ipu] ipu van_leer_limiter 1%R (H ipc)) as (w & E & _); auto using ipc_pf, base_with_answers.
  destruct (@limited_any_base_faces_lem (base_with H) ipc 0 [1%Q; (1 # 2)%Q] [ipu; ipu] ipu 1%R (H ipc) w ipc_pf D A eq_refl B eq_refl C (@base_with_answers H _ _ _ _) E [3; 0]) as (V & _ & _); [cbn; lia|].
  assert (J : jump_at ipc 0 [3; 0] = (-30)%R) by (unfold jump_at, pval; cbn; lra).
  assert (K : jump_upstream ipc 0 (get (gdata (garray ipu)) [3; 0]) [3; 0] = 10%R) by (unfold jump_upstream, pval; cbn; destruct (Rlt_dec _ _); lra).
  exists w. split; [exact E|]. split; [split; [exact J | exact K]|]. rewrite V; [|rewrite J; lra | rewrite J, K; lra]. unfold upwind_cell, pval. cbn. destruct (Rlt_dec _ _); lra.
Qed.
(* @ex *)
Lemma limited_any_base_bounded_ex_lem : exists w, tvd_limiter_transformation van_leer_limiter (base_with (fun c jx => (3 * pval (garray c) jx + pval (garray c) (next 0 jx)) / 4))%R ipc [1%Q; (1 # 2)%Q] [ipu; ipu] 1%R = Ok w /\
  between (pval (garray ipc) [3; 0]) (pval (garray ipc) (next 0 [3; 0])) (get (gdata (garray w)) [3; 0]).
Proof.
  destruct ip_setup as (A & B & C & D). set (H := fun (c : gvar) jx => ((3 * pval (garray c) jx + pval (garray c) (next 0 jx)) / 4)%R).
  destruct (@limited_any_base_spec_lem (base_with H) ipc 0 [1%Q; (1 # 2)%Q] [ipu; ipu] ipu van_leer_limiter 1%R (H ipc)) as (w & E & _); auto using ipc_pf, base_with_answers.
  exists w. split; [exact E|]. eapply (@limited_any_base_bounded_lem (base_with H) ipc 0 [1%Q; (1 # 2)%Q] [ipu; ipu] ipu van_leer_limiter 1%R (H ipc) w); auto using ipc_pf, base_with_answers.
  - intros r. destruct (van_leer_limiter_bounds_lem r) as (Hr & _). lra.
  - cbn; lia.
  - unfold between, upwind_cell, H, pval. cbn. destruct (Rlt_dec _ _); [|exfalso; lra]. unfold Rmin, Rmax. destruct (Rle_dec _ _); lra.
Qed.
(* @ex *)
Lemma limited_modular_advection_ex_lem : exists w, modular_advection (transformed_module (fun _ _ _ => Ok (base_with (fun c jx => 10 * pval (garray c) (next 0 jx) + -9 * pval (garray c) jx)))%R (tvd_limiter_transformation van_leer_limiter)) linear_module ipg 1%R ipv ipc ipv 1%R = Ok w /\ total (gdata w) = 0%R.
Proof.
  set (H := fun (c : gvar) jx => (10 * pval (garray c) (next 0 jx) + -9 * pval (garray c) jx)%R).
  destruct (@limited_modular_advection_lem (fun _ _ _ => Ok (base_with H)) (base_with H) ipg 1%R ipv van_leer_limiter ipc ipv 1%R (fun _ => H ipc) eq_refl ipc_pf eq_refl ltac:(cbn; lia) ipv_pv ipv_hom) as (w & E & _ & T).
  - intros. apply base_with_answers.
  - eauto.
Qed.

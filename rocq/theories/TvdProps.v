(** * C26: flux-limited (TVD) interpolation *)
From Coq Require Import Qreals.
From Verif Require Import Prelude NdArr Grids_model Spec Boundaries_model BoundariesPeriodic FD_model PRep FDProofs FDProps Interp_model InterpProofs InterpProps UpwindProps.
Set Implicit Arguments.
Local Open Scope Z_scope.

Section Tvd.
Variables (g : grid) (o : list Q) (F : list Z -> R) (c : gvar) (ax : nat) (o' : list Q) (v : list gvar) (u : gvar) (phi : R -> R) (dt : R).
Hypothesis (Hw : wfg g) (HF : periodic (gshape g) F) (Hax : (ax < gndim g)%nat)
           (Ho : length o = gndim g) (Hc : pvar g o F c) (Ho' : off_eq o' (offs ax (1 # 2) o))
           (Hv : nth_error v ax = Some u) (Hu : on_grid g u) (Huo : off_eq (goff (garray u)) o').

Definition tvdF (ix : list Z) : R :=
  if Rlt_dec 0 (get (gdata (garray u)) ix)
  then (F ix + / 2 * (1 - dt / hstep g ax * get (gdata (garray u)) ix) * phi (safe_div (F ix - F (shiftix ax (-1) ix)) (F (shiftix ax 1 ix) - F ix)) * (F (shiftix ax 1 ix) - F ix))%R
  else (F (shiftix ax 1 ix) - / 2 * (1 + dt / hstep g ax * get (gdata (garray u)) ix) * phi (safe_div (F (shiftix ax 2 ix) - F (shiftix ax 1 ix)) (F (shiftix ax 1 ix) - F ix)) * (F (shiftix ax 1 ix) - F ix))%R.

Lemma tvd_axis_prep : exists w, tvd_axis lax_wendroff phi o' v dt c ax = Ok w /\ gbc w = gbc c /\ pvar g o' tvdF w.
Proof.
  pose proof Hc as ((A & B & C & D) & Hb). pose proof Hu as (Gu & Su).
  assert (Hl : length (goff (garray c)) = gndim g) by (rewrite (off_eq_length B); auto).
  assert (Hn' : (nth ax o' 0 == nth ax o 0 + (1 # 2))%Q) by (rewrite (off_eq_nth ax Ho'); unfold offs; rewrite nth_upd_same by lia; reflexivity).
  set (q := (nth ax o 0 + (1 # 2))%Q). assert (Hq : ~ (q == nth ax o 0)%Q) by (unfold q; intros E; Lqa.lra).
  assert (Hd : (nth ax (goff (garray u)) 0 - nth ax (goff (garray c)) 0 == 1 # 2)%Q).
  { rewrite (off_eq_nth ax Huo), Hn', (off_eq_nth ax B). ring. }
  destruct (half_floor Hd) as (Hf & Hz).
  unfold tvd_axis. set (ioff := upd ax (nth ax o' 0%Q) (goff (garray c))).
  assert (Hio : off_eq ioff o').
  { apply off_eq_sym. eapply off_eq_trans; [exact Ho'|]. unfold offs, ioff. apply off_eq_upd; [apply off_eq_sym; auto | symmetry; auto]. }
  assert (Hnio : (nth ax ioff 0 == nth ax o 0 + (1 # 2))%Q) by (rewrite (off_eq_nth ax Hio); auto).
  replace (off_eqb ioff (goff (garray c))) with false.
  2:{ symmetry. apply not_true_is_false. intros E. apply off_eqb_iff in E. pose proof (off_eq_nth ax E) as E'. rewrite Hnio, (off_eq_nth ax B) in E'. Lqa.lra. }
  replace (Qeq_bool (nth ax ioff 0%Q - nth ax (goff (garray c)) 0%Q) (1 # 2)) with true.
  2:{ symmetry. apply Qeq_bool_iff. rewrite Hnio, (off_eq_nth ax B). ring. }
  cbn [negb].
  destruct (@upwind_prep g o F c ax q o' v u Hw HF Hax Ho Hc Ho' Hq Hv Hu Hz) as (cl & El & _ & (Pl & _)). rewrite El. cbn [bind].
  destruct (@lax_prep g o F c ax q o' v u Hw HF Hax Ho Hc Ho' Hq Hv Hu dt Hz) as (ch & Eh & _ & (Ph & _)). rewrite Eh. cbn [bind].
  destruct (pvar_shift (-1) Hw HF Hax Ho Hc) as (s1 & Es1 & (A1 & B1 & C1 & D1)). rewrite Es1. cbn [bind].
  destruct (pvar_shift 1 Hw HF Hax Ho Hc) as (s2 & Es2 & (A2 & B2 & C2 & D2)). rewrite Es2. cbn [bind].
  destruct (pvar_shift 2 Hw HF Hax Ho Hc) as (s3 & Es3 & (A3 & B3 & C3 & D3)). rewrite Es3. cbn [bind].
  destruct (@raw2_ok Rminus _ _ _ _ _ C2 C D2 D) as (den & Eden & Sden & Vden). rewrite Eden. cbn [bind].
  destruct (@raw2_ok Rminus _ _ _ _ _ C C1 D D1) as (pn & Epn & Spn & Vpn). rewrite Epn. cbn [bind].
  destruct (@raw2_ok Rminus _ _ _ _ _ C3 C2 D3 D2) as (nn & Enn & Snn & Vnn). rewrite Enn. cbn [bind].
  destruct (@raw2_ok safe_div _ _ _ _ _ Spn Sden Vpn Vden) as (pr & Epr & Spr & Vpr). rewrite Epr. cbn [bind].
  destruct (@raw2_ok safe_div _ _ _ _ _ Snn Sden Vnn Vden) as (nr & Enr & Snr & Vnr). rewrite Enr. cbn [bind].
  rewrite Hv.
  pose proof Pl as (Al & Bl & Cl & Dl).
  assert (Hap : exists ph, applied (fun l => match l with [x; y; z] => where_pos x y z | _ => Err EType end)
     [OGA (garray u); OGA (mkga (amap phi pr) (goff (garray cl)) (ggrid (garray c))); OGA (mkga (amap phi nr) (goff (garray cl)) (ggrid (garray c)))] = Ok ph /\
     prep g o' (fun ix => if Rlt_dec 0 (get (gdata (garray u)) ix) then phi (safe_div (F ix - F (shiftix ax (-1) ix)) (F (shiftix ax 1 ix) - F ix)) else phi (safe_div (F (shiftix ax 2 ix) - F (shiftix ax 1 ix)) (F (shiftix ax 1 ix) - F ix))) ph).
  { unfold applied. cbn [existsb is_gv orb gas map raw gdata consistent_offset consistent_grid forallb goff ggrid].
    assert (Hoe : off_eqb (goff (garray u)) (goff (garray cl)) = true) by (apply off_eqb_iff; eapply off_eq_trans; [exact Huo | apply off_eq_sym; exact Bl]).
    rewrite Hoe. cbn [andb bind]. rewrite Gu, A, grid_eqb_refl. cbn [andb bind].
    destruct (@where_pos_ok (gdata (garray u)) (amap phi pr) (amap phi nr) (gshape g) (get (gdata (garray u)))
      (fun ix => phi (safe_div (F ix - F (shiftix ax (-1) ix)) (F (shiftix ax 1 ix) - F ix)))
      (fun ix => phi (safe_div (F (shiftix ax 2 ix) - F (shiftix ax 1 ix)) (F (shiftix ax 1 ix) - F ix)))) as (dd & Edd & Sdd & Vdd); auto.
    { intros ix Hix. cbn. rewrite Vpr by auto. reflexivity. }
    { intros ix Hix. cbn. rewrite Vnr by auto. reflexivity. }
    rewrite Edd. cbn [bind]. eexists; split; [reflexivity|]. split; [reflexivity|]. split; [exact Huo|]. split; [exact Sdd|]. exact Vdd. }
  destruct Hap as (ph & Eph & Pph). rewrite Eph. cbn [bind].
  destruct (@prep_op2 Rminus _ _ _ _ _ _ Pl Ph) as (d1 & Ed1 & Pd1). unfold ga_sub. rewrite Ed1. cbn [bind].
  destruct (@prep_op2 Rmult _ _ _ _ _ _ Pd1 Pph) as (d2 & Ed2 & Pd2). unfold ga_mul. rewrite Ed2. cbn [bind].
  destruct (@prep_op2 Rminus _ _ _ _ _ _ Pl Pd2) as (ci & Eci & Pci). rewrite Eci. cbn [bind].
  rewrite (@mk_gvar_ok g) by auto. eexists; split; [reflexivity|]. split; [reflexivity|]. split; [|exact Hb].
  destruct Pci as (Ai & Bi & Ci & Di).
  split; [exact A|]. split; [exact Hio|]. split; [exact Ci|]. intros ix Hix. cbn [garray gdata]. rewrite Di by auto.
  rewrite Hf, !shiftix_0. change (0 + 1) with 1. cbv zeta. unfold tvdF. destruct (Rlt_dec 0 (get (gdata (garray u)) ix)); ring.
Qed.

Lemma tvd_axis_skip w a : (nth a (goff (garray w)) 0 == nth a o' 0)%Q -> tvd_axis lax_wendroff phi o' v dt w a = Ok w.
Proof.
  intros H. unfold tvd_axis. replace (off_eqb _ _) with true; [reflexivity|]. symmetry. apply off_eqb_iff.
  apply off_eq_intro; [apply upd_length|]. intros k Hk. rewrite upd_length in Hk. destruct (Nat.eq_dec k a) as [->|Hne].
  - rewrite nth_upd_same by auto. symmetry. exact H.
  - rewrite nth_upd_other by auto. reflexivity.
Qed.

Lemma tvd_prep : exists w, apply_tvd_limiter lax_wendroff phi c o' v dt = Ok w /\ gbc w = gbc c /\ pvar g o' tvdF w.
Proof.
  pose proof Hc as ((A & B & C & D) & Hb).
  assert (HL' : length o' = gndim g) by (rewrite (off_eq_length Ho'), offs_length; auto).
  destruct tvd_axis_prep as (w & E & Eb & Hww). exists w. split; [|split; auto].
  unfold apply_tvd_limiter. rewrite HL'.
  replace (seq 0 (gndim g)) with (seq 0 ax ++ [ax] ++ seq (S ax) (gndim g - S ax)).
  2:{ rewrite app_assoc. replace (seq 0 ax ++ [ax]) with (seq 0 (S ax)) by (rewrite seq_S; reflexivity).
      rewrite <- seq_app. f_equal. lia. }
  rewrite foldM_app.
  assert (H1 : foldM (tvd_axis lax_wendroff phi o' v dt) c (seq 0 ax) = Ok c).
  { assert (Hg : forall l, (forall a, In a l -> a <> ax) -> foldM (tvd_axis lax_wendroff phi o' v dt) c l = Ok c).
    { induction l as [|a l IH]; intros Hl; simpl; [reflexivity|]. rewrite tvd_axis_skip.
      - cbn [bind]. apply IH. intros b Hin. apply Hl. right; auto.
      - rewrite (off_eq_nth a B), (off_eq_nth a Ho'). unfold offs. rewrite nth_upd_other by (apply Hl; left; auto). reflexivity. }
    apply Hg. intros a Ha. apply in_seq in Ha. lia. }
  rewrite H1. cbn [bind]. cbn [app foldM]. rewrite E. cbn [bind].
  destruct Hww as ((_ & Bw & _ & _) & _).
  assert (Hg : forall l, foldM (tvd_axis lax_wendroff phi o' v dt) w l = Ok w).
  { induction l as [|a l IH]; simpl; [reflexivity|]. rewrite tvd_axis_skip; [exact IH | apply (off_eq_nth a Bw)]. }
  apply Hg.
Qed.
End Tvd.

(* @prop C26 Interpolation limited with any limiter function phi, applied to Lax-Wendroff, returns at the face half a cell ahead the upwind value plus phi(r)/2 (1 - |C|) times the jump across the face, r being the ratio of the jump behind to the jump at the face (upwind side). *)
Lemma limited_interpolation_spec_lem : forall c ax o' v u phi dt, periodic_field c -> (ax < gndim (ggrid (garray c)))%nat ->
  off_eq o' (offs ax (1 # 2) (goff (garray c))) -> nth_error v ax = Some u ->
  wf_garr (garray u) -> ggrid (garray u) = ggrid (garray c) -> off_eq (goff (garray u)) o' ->
  exists w, apply_tvd_limiter lax_wendroff phi c o' v dt = Ok w /\ gbc w = gbc c /\
    is_field (garray w) (ggrid (garray c)) o' (fun ix =>
      let l := pval (garray c) (prev ax ix) in let a := get (gdata (garray c)) ix in
      let b := pval (garray c) (next ax ix) in let n := pval (garray c) (shiftix ax 2 ix) in
      let ui := get (gdata (garray u)) ix in let cn := (dt * ui / hstep (ggrid (garray c)) ax)%R in
      if Rlt_dec 0 ui then (a + / 2 * (1 - cn) * phi (safe_div (a - l) (b - a)) * (b - a))%R
      else (b + / 2 * (1 + cn) * phi (safe_div (n - b) (b - a)) * (a - b))%R).
Proof.
  intros c ax o' v u phi dt Hc Hax Ho' Hv Hu Hg Hou.
  assert (Hug : on_grid (ggrid (garray c)) u) by (split; [auto|]; destruct Hu as (_ & Hs & _); congruence).
  destruct (@tvd_prep _ _ _ c ax o' v u phi dt (pf_wfg Hc) (pf_per Hc) Hax (pf_off Hc) (pf_pvar Hc) Ho' Hv Hug Hou) as (w & E & Eb & (P & _)).
  exists w. split; [exact E|]. split; [exact Eb|]. eapply prep_ext; [|exact P]. intros ix Hix. cbv zeta. unfold tvdF.
  assert (Hpv : pval (garray c) ix = get (gdata (garray c)) ix).
  { apply pval_inb. destruct Hc as ((_ & Hs & _) & _). rewrite Hs. exact Hix. }
  rewrite Hpv. fold (next ax ix). fold (prev ax ix). unfold Rdiv. destruct (Rlt_dec _ _); ring.
Qed.
(* @ex *)
Lemma limited_interpolation_spec_ex_lem :
  periodic_field ipc /\ off_eq [1%Q; (1 # 2)%Q] (offs 0 (1 # 2) (goff (garray ipc))) /\ off_eq (goff (garray ipu)) [1%Q; (1 # 2)%Q] /\
  exists w, apply_tvd_limiter lax_wendroff van_leer_limiter ipc [1%Q; (1 # 2)%Q] [ipu; ipu] 1%R = Ok w /\ get (gdata (garray w)) [1; 0] = (12 + / 2)%R.
Proof.
  split; [exact ipc_pf|]. split; [repeat constructor; reflexivity|]. split; [repeat constructor|].
  destruct (@limited_interpolation_spec_lem ipc 0 [1%Q; (1 # 2)%Q] [ipu; ipu] ipu van_leer_limiter 1%R) as (w & E & _ & (_ & _ & _ & V)); auto.
  - exact ipc_pf.
  - unfold gndim; simpl; lia.
  - repeat constructor; reflexivity.
  - apply ipu_pf.
  - repeat constructor.
  - exists w. split; [exact E|]. rewrite V by (cbn; lia). cbv zeta. unfold pval, hstep. cbn -[van_leer_limiter safe_div IZR].
    destruct (Rlt_dec _ _); [|lra].
    assert (Es : safe_div (10 - 0) (20 - 10) = 1%R) by (unfold safe_div; destruct (Req_EM_T _ _); [lra|]; lra).
    rewrite Es. rewrite (proj1 (proj2 (proj2 (proj2 (van_leer_limiter_bounds_lem 0))))). lra.
Qed.

Lemma limited_between (phi : R -> R) cn x a b : (0 <= phi x <= 2)%R -> (0 <= cn <= 1)%R ->
  (Rmin a b <= a + / 2 * (1 - cn) * phi x * (b - a) <= Rmax a b)%R.
Proof.
  intros Hp Hc. set (t := (/ 2 * (1 - cn) * phi x)%R).
  assert (Ht : (0 <= t <= 1)%R).
  { unfold t. split.
    - apply Rmult_le_pos; [|lra]. lra.
    - assert ((1 - cn) * phi x <= 2)%R by nra. lra. }
  clearbody t. unfold Rmin, Rmax. destruct (Rle_dec a b); nra.
Qed.

(* @prop C26 With any limiter whose values lie in [0, 2] (the Van Leer limiter does), limited interpolation returns at every face a value between the two cells adjacent to the face, whenever the Courant number there is at most 1 in magnitude. *)
Lemma limited_interpolation_bounded_lem : forall c ax o' v u phi dt w, periodic_field c -> (ax < gndim (ggrid (garray c)))%nat ->
  off_eq o' (offs ax (1 # 2) (goff (garray c))) -> nth_error v ax = Some u ->
  wf_garr (garray u) -> ggrid (garray u) = ggrid (garray c) -> off_eq (goff (garray u)) o' ->
  (forall r, (0 <= phi r <= 2)%R) -> (0 < hstep (ggrid (garray c)) ax)%R -> (0 <= dt)%R ->
  apply_tvd_limiter lax_wendroff phi c o' v dt = Ok w ->
  forall ix, inb (gshape (ggrid (garray c))) ix ->
    (Rabs (dt * get (gdata (garray u)) ix / hstep (ggrid (garray c)) ax) <= 1)%R ->
    (Rmin (get (gdata (garray c)) ix) (pval (garray c) (next ax ix)) <= get (gdata (garray w)) ix
       <= Rmax (get (gdata (garray c)) ix) (pval (garray c) (next ax ix)))%R.
Proof.
  intros c ax o' v u phi dt w Hc Hax Ho' Hv Hu Hg Hou Hphi Hh Hdt E ix Hix Hcn.
  destruct (@limited_interpolation_spec_lem c ax o' v u phi dt) as (w' & E' & _ & (_ & _ & _ & V)); auto.
  rewrite E in E'. injection E' as <-. rewrite V by auto. cbv zeta.
  set (ui := get (gdata (garray u)) ix) in *. set (cn := (dt * ui / hstep (ggrid (garray c)) ax)%R) in *.
  assert (Hsg : forall x, (0 <= x)%R -> (0 <= dt * x / hstep (ggrid (garray c)) ax)%R).
  { intros x Hx. apply Rmult_le_pos; [apply Rmult_le_pos; auto|]. left. apply Rinv_0_lt_compat; auto. }
  destruct (Rlt_dec 0 ui) as [Hp|Hp].
  - apply limited_between; auto. assert (0 <= cn)%R by (apply Hsg; lra). rewrite Rabs_pos_eq in Hcn by auto. lra.
  - assert (cn <= 0)%R.
    { assert (0 <= dt * (- ui) / hstep (ggrid (garray c)) ax)%R by (apply Hsg; lra). unfold cn, Rdiv in *. lra. }
    rewrite Rabs_left1 in Hcn by auto.
    rewrite Rmin_comm, Rmax_comm. replace (1 + cn)%R with (1 - - cn)%R by ring. apply limited_between; auto. lra.
Qed.
(* @ex *)
Lemma limited_interpolation_bounded_ex_lem :
  (forall r, (0 <= van_leer_limiter r <= 2)%R) /\ (0 < hstep ipg 0)%R /\
  (exists w, apply_tvd_limiter lax_wendroff van_leer_limiter ipc [1%Q; (1 # 2)%Q] [ipu; ipu] 1%R = Ok w) /\
  (forall ix, inb (gshape ipg) ix -> (Rabs (1 * get (gdata (garray ipu)) ix / hstep ipg 0) <= 1)%R).
Proof.
  split; [intros r; destruct (van_leer_limiter_bounds_lem r) as (H & _); lra|]. split; [unfold hstep; cbn; lra|].
  split; [destruct limited_interpolation_spec_ex_lem as (_ & _ & _ & w & E & _); eauto|].
  intros ix Hix. unfold hstep. cbn. destruct (_ =? 0); apply Rabs_le; lra.
Qed.

(* @prop C26 Limited interpolation supports only forward interpolation by half a cell: any other displacement raises NotImplementedError. *)
Lemma limited_interpolation_unsupported_lem : forall high phi c q v dt l,
  goff (garray c) = q :: l -> forall q', ~ (q' == q)%Q -> ~ (q' - q == 1 # 2)%Q ->
  apply_tvd_limiter high phi c (q' :: l) v dt = Err ENotImpl.
Proof.
  intros high phi c q v dt l Hc q' H1 H2. unfold apply_tvd_limiter. cbn [length seq foldM]. unfold tvd_axis at 1. rewrite Hc. cbn [upd nth].
  assert (E1 : off_eqb (q' :: l) (q :: l) = false).
  { apply not_true_is_false. intros E. apply off_eqb_iff in E. inversion E; subst. contradiction. }
  rewrite E1.
  replace (Qeq_bool (q' - q) (1 # 2)) with false; [reflexivity|]. symmetry. apply not_true_is_false. intros E. apply Qeq_bool_iff in E. contradiction.
Qed.
(* @ex *)
Lemma limited_interpolation_unsupported_ex_lem : goff (garray ipc) = (1 # 2)%Q :: [(1 # 2)%Q] /\ ~ (0 == 1 # 2)%Q /\ ~ (0 - (1 # 2) == 1 # 2)%Q.
Proof. split; [reflexivity|]. split; discriminate. Qed.
